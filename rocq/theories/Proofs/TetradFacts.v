(** Facts about the model of Wishart's tetrad test. *)

From Coq Require Import List Arith Bool Permutation Reals Lra Lia.
From Verif Require Import Model.Py Model.LocalScore Model.Tetrad Spec.Scores Spec.TetradSpec Proofs.BicFacts Proofs.KCIFacts.
Import ListNotations.
Open Scope R_scope.

Lemma scov_pair : forall n x y, (2 <= n)%nat -> scov n x y = pair_cov n x y.
Proof.
  intros n x y Hn. assert (INR n <> 0) as N0 by (apply not_0_INR; lia).
  assert (INR n - 1 <> 0) as N1. { assert (2 <= INR n) by (change 2 with (INR 2); apply le_INR; auto). lra. }
  unfold scov, pair_cov, mean_of. rewrite <- !rsumn_sumR.
  set (X := rsumn n x). set (Y := rsumn n y). set (P := rsumn n (fun i => x i * y i)).
  rewrite (rsumn_ext n (fun i => (x i - X / INR n) * (y i - Y / INR n))
             (fun i => x i * y i + (- (Y / INR n) * x i + (- (X / INR n) * y i + X * Y / (INR n * INR n))))).
  2:{ intros. field. auto. }
  rewrite !rsumn_plus, rsumn_const, !rsumn_scal. fold X Y P.
  rewrite (rsumn_ext n (fun i => sumRn n (fun j => (x i - x j) * (y i - y j)))
             (fun i => INR n * (x i * y i) + (- Y * x i + (- X * y i + P)))).
  2:{ intros i _. rewrite <- rsumn_sumR.
      rewrite (rsumn_ext n _ (fun j => x i * y i + (- x i * y j + (- y i * x j + x j * y j)))) by (intros; ring).
      rewrite !rsumn_plus, rsumn_const, !rsumn_scal. fold X Y P. ring. }
  rewrite !rsumn_plus, rsumn_const, !rsumn_scal. fold X Y P. field. split; auto.
Qed.

Lemma scov_sym : forall n x y, scov n x y = scov n y x.
Proof. intros. unfold scov. f_equal. apply rsumn_ext. intros. ring. Qed.

Lemma scov_ext : forall n x x' y y', (forall i, (i < n)%nat -> x' i = x i) -> (forall i, (i < n)%nat -> y' i = y i) -> scov n x' y' = scov n x y.
Proof.
  intros n x x' y y' HX HY. unfold scov, mean_of. rewrite (rsumn_ext n x' x), (rsumn_ext n y' y) by auto. f_equal.
  apply rsumn_ext. intros i Hi. rewrite HX, HY by auto. auto.
Qed.

Lemma scov_affine : forall n x x' y y' a b c d, (2 <= n)%nat ->
  (forall i, (i < n)%nat -> x' i = a * x i + b) -> (forall i, (i < n)%nat -> y' i = c * y i + d) -> scov n x' y' = a * c * scov n x y.
Proof.
  intros n x x' y y' a b c d Hn HX HY. assert (INR n <> 0) as N0 by (apply not_0_INR; lia).
  unfold scov, mean_of. rewrite (rsumn_ext n x' (fun i => a * x i + b)), (rsumn_ext n y' (fun i => c * y i + d)) by auto.
  rewrite !rsumn_plus, !rsumn_const, !rsumn_scal.
  rewrite (rsumn_ext n _ (fun i => (a * c) * ((x i - rsumn n x / INR n) * (y i - rsumn n y / INR n)))).
  2:{ intros i Hi. rewrite HX, HY by auto. field. auto. }
  rewrite rsumn_scal. unfold Rdiv. ring.
Qed.

Lemma scov_rows : forall n p x x' y y', in_order n p x x' -> in_order n p y y' -> scov n x' y' = scov n x y.
Proof.
  intros n p x x' y y' [Hp HX] [_ HY].
  rewrite (scov_ext n (fun i => x (p i)) x' (fun i => y (p i)) y') by auto. unfold scov, mean_of.
  rewrite (rsumn_perm n p Hp x), (rsumn_perm n p Hp y). f_equal.
  apply (rsumn_perm n p Hp (fun i => (x i - rsumn n x / INR n) * (y i - rsumn n y / INR n))).
Qed.

Lemma det4_leibniz : forall M, det4 M = leibniz4 M.
Proof. intro M. unfold det4, det3, leibniz4. ring. Qed.

(** The p-value sees the tetrad only through its absolute value, and the four
    columns only through tetrad and variance. *)
Lemma ratio_abs : forall t s, s > 0 -> ratio_of t s = - (Rabs t / s).
Proof.
  intros t s Hs. assert (0 < / s) as Hi by (apply Rinv_0_lt_compat; auto). unfold ratio_of, Rdiv.
  destruct (Rlt_dec 0 (t * / s)) as [L|L].
  - f_equal. f_equal. symmetry. apply Rabs_right. destruct (Rle_dec 0 t); [lra|]. exfalso.
    assert (t * / s < 0); [|lra]. replace 0 with (0 * / s) by ring. apply Rmult_lt_compat_r; auto. lra.
  - assert (t <= 0) as T. { destruct (Rle_dec t 0); auto. exfalso. apply L. apply Rmult_lt_0_compat; lra. }
    rewrite Rabs_left1 by auto. ring.
Qed.

Lemma sd_nonneg : forall n i j k l, 0 <= wishart_sd n i j k l.
Proof. intros. apply sqrt_pos. Qed.

Lemma pvalue_scaled : forall cdf n i j k l i' j' k' l' c, c > 0 ->
  Rabs (tau n i' j' k' l') = c * Rabs (tau n i j k l) ->
  wishart_sd n i' j' k' l' = c * wishart_sd n i j k l ->
  tetrad_pvalue cdf n i' j' k' l' = tetrad_pvalue cdf n i j k l.
Proof.
  intros cdf n i j k l i' j' k' l' c Hc HT HS. unfold tetrad_pvalue. destruct n as [|[|[|n]]]; auto.
  remember (S (S (S n))) as m. pose proof (sd_nonneg m i j k l) as P.
  set (s := wishart_sd m i j k l) in *. set (t := tau m i j k l) in *. rewrite HS. set (t' := tau m i' j' k' l') in *.
  assert (t' = 0 <-> t = 0) as Z.
  { split; intro E.
    - rewrite E, Rabs_R0 in HT. destruct (Req_dec t 0) as [|N]; auto. exfalso. apply Rabs_pos_lt in N.
      assert (0 < c * Rabs t) by (apply Rmult_lt_0_compat; lra). lra.
    - rewrite E, Rabs_R0, Rmult_0_r in HT. destruct (Req_dec t' 0) as [|N]; auto. apply Rabs_pos_lt in N. lra. }
  destruct (Req_EM_T s 0) as [E|N].
  - rewrite E, Rmult_0_r. destruct (Req_EM_T 0 0); [|lra]. destruct (Req_EM_T t' 0), (Req_EM_T t 0); tauto.
  - assert (0 < s) by lra. assert (0 < c * s) by (apply Rmult_lt_0_compat; lra).
    destruct (Req_EM_T (c * s) 0); [lra|]. do 3 f_equal. f_equal. rewrite !ratio_abs by auto. rewrite HT. f_equal. field. split; lra.
Qed.

Lemma sd_scaled : forall n i j k l i' j' k' l' c, wishart_var n i' j' k' l' = (c * c) * wishart_var n i j k l ->
  wishart_sd n i' j' k' l' = Rabs c * wishart_sd n i j k l.
Proof.
  intros n i j k l i' j' k' l' c H. unfold wishart_sd. rewrite H, Rabs_mult, sqrt_mult by apply Rabs_pos. f_equal.
  rewrite (Rabs_right (c * c)) by (apply Rle_ge; apply Rle_0_sqr). change (c * c) with (Rsqr c). apply sqrt_Rsqr_abs.
Qed.

Lemma det4_scaled : forall M N (q : nat -> R), (forall i j, (i < 4)%nat -> (j < 4)%nat -> N i j = q i * q j * M i j) ->
  det4 N = (q 0%nat * q 1%nat * q 2%nat * q 3%nat) * (q 0%nat * q 1%nat * q 2%nat * q 3%nat) * det4 M.
Proof. intros M N q H. unfold det4, det3. rewrite !H by lia. ring. Qed.

Lemma var_scaled : forall n i j k l i' j' k' l' a b c d,
  (forall u v, In u [(i, i', a); (j, j', b); (k, k', c); (l, l', d)] -> In v [(i, i', a); (j, j', b); (k, k', c); (l, l', d)] ->
     scov n (snd (fst u)) (snd (fst v)) = snd u * snd v * scov n (fst (fst u)) (fst (fst v))) ->
  tau n i' j' k' l' = (a * b * c * d) * tau n i j k l /\
  wishart_var n i' j' k' l' = ((a * b * c * d) * (a * b * c * d)) * wishart_var n i j k l.
Proof.
  intros n i j k l i' j' k' l' a b c d H. set (U := [(i, i', a); (j, j', b); (k, k', c); (l, l', d)]) in *.
  assert (forall x x' p y y' q, In (x, x', p) U -> In (y, y', q) U -> scov n x' y' = p * q * scov n x y) as K.
  { intros x x' p y y' q HA HB. apply (H _ _ HA HB). }
  assert (In (i, i', a) U /\ In (j, j', b) U /\ In (k, k', c) U /\ In (l, l', d) U) as [I0 [I1 [I2 I3]]] by (simpl; tauto).
  split.
  - unfold tau. rewrite (K _ _ _ _ _ _ I0 I2), (K _ _ _ _ _ _ I1 I3), (K _ _ _ _ _ _ I0 I3), (K _ _ _ _ _ _ I1 I2). ring.
  - unfold wishart_var.
    rewrite (det4_scaled (cov4 n i j k l) (cov4 n i' j' k' l') (fun m => nth m [a; b; c; d] a)).
    + rewrite (K _ _ _ _ _ _ I0 I0), (K _ _ _ _ _ _ I3 I3), (K _ _ _ _ _ _ I0 I3), (K _ _ _ _ _ _ I1 I1), (K _ _ _ _ _ _ I2 I2), (K _ _ _ _ _ _ I1 I2).
      simpl nth. unfold Rdiv. ring.
    + intros r s Hr Hs. unfold cov4. apply K.
      * destruct r as [|[|[|[|r]]]]; try lia; simpl; tauto.
      * destruct s as [|[|[|[|s]]]]; try lia; simpl; tauto.
Qed.
