(** C79: what Wishart's test of a vanishing tetrad answers. *)

From Coq Require Import List Arith Bool Permutation Reals Lra Lia.
From Verif Require Import Model.Py Model.LocalScore Model.Tetrad Spec.TetradSpec Proofs.KCIFacts Proofs.TetradFacts.
Import ListNotations.
Open Scope R_scope.

Lemma vanishes_p : forall cdf n x y z w x' y' z' w' alpha, tetrad_pvalue cdf n x' y' z' w' = tetrad_pvalue cdf n x y z w ->
  vanishes cdf n x' y' z' w' alpha = vanishes cdf n x y z w alpha.
Proof. intros. unfold vanishes. rewrite H. auto. Qed.

(** Units of measurement do not matter. *)
Theorem C79_units : forall cdf n x y z w x' y' z' w' alpha,
  in_unit n x x' -> in_unit n y y' -> in_unit n z z' -> in_unit n w w' ->
  vanishes cdf n x' y' z' w' alpha = vanishes cdf n x y z w alpha.
Proof.
  intros cdf n x y z w x' y' z' w' alpha [a [a0 [Ha HX]]] [b [b0 [Hb HY]]] [c [c0 [Hc HZ]]] [d [d0 [Hd HW]]].
  apply vanishes_p. destruct (le_lt_dec 2 n) as [Hn|Hn].
  2:{ destruct n as [|[|n]]; auto. lia. }
  destruct (var_scaled n x y z w x' y' z' w' a b c d) as [ET EV].
  { intros u v Hu Hv. simpl in Hu, Hv.
    assert (exists q, forall i, (i < n)%nat -> snd (fst u) i = snd u * fst (fst u) i + q) as [q Q]
      by (destruct Hu as [<-|[<-|[<-|[<-|[]]]]]; simpl; eauto).
    assert (exists q, forall i, (i < n)%nat -> snd (fst v) i = snd v * fst (fst v) i + q) as [r R]
      by (destruct Hv as [<-|[<-|[<-|[<-|[]]]]]; simpl; eauto).
    eapply scov_affine; eauto. }
  assert (a * b * c * d <> 0) as N by (repeat apply Rmult_integral_contrapositive_currified; auto).
  apply pvalue_scaled with (c := Rabs (a * b * c * d)).
  - apply Rlt_gt, Rabs_pos_lt; auto.
  - rewrite ET. apply Rabs_mult.
  - apply sd_scaled; auto.
Qed.
Print Assumptions C79_units.

(** Nor does the order of the samples. *)
Theorem C79_sample_order : forall cdf n p x y z w x' y' z' w' alpha,
  in_order n p x x' -> in_order n p y y' -> in_order n p z z' -> in_order n p w w' ->
  vanishes cdf n x' y' z' w' alpha = vanishes cdf n x y z w alpha.
Proof.
  intros cdf n p x y z w x' y' z' w' alpha HX HY HZ HW. apply vanishes_p.
  destruct (var_scaled n x y z w x' y' z' w' 1 1 1 1) as [ET EV].
  { intros u v Hu Hv. simpl in Hu, Hv.
    assert (in_order n p (fst (fst u)) (snd (fst u)) /\ snd u = 1) as [U ->] by (destruct Hu as [<-|[<-|[<-|[<-|[]]]]]; simpl; auto).
    assert (in_order n p (fst (fst v)) (snd (fst v)) /\ snd v = 1) as [V ->] by (destruct Hv as [<-|[<-|[<-|[<-|[]]]]]; simpl; auto).
    rewrite (scov_rows n p _ _ _ _ U V). ring. }
  apply pvalue_scaled with (c := 1).
  - lra.
  - rewrite ET, !Rmult_1_l. auto.
  - unfold wishart_sd. rewrite EV, !Rmult_1_l. auto.
Qed.
Print Assumptions C79_sample_order.

(** Exchanging within both pairs, or the pairs themselves, changes nothing. *)
Theorem C79_pair_symmetry : forall cdf n x y z w alpha,
  vanishes cdf n y x w z alpha = vanishes cdf n x y z w alpha /\
  vanishes cdf n z w x y alpha = vanishes cdf n x y z w alpha.
Proof.
  intros. split; apply vanishes_p; (apply pvalue_scaled with (c := 1); [lra| |]); rewrite Rmult_1_l.
  - f_equal. unfold tau. ring.
  - unfold wishart_sd. do 2 f_equal. unfold wishart_var, det4, det3, cov4. simpl nth.
    rewrite !(scov_sym n y x), !(scov_sym n z x), !(scov_sym n z y), !(scov_sym n w x), !(scov_sym n w y), !(scov_sym n w z). unfold Rdiv. ring.
  - f_equal. unfold tau. rewrite (scov_sym n z x), (scov_sym n w y), (scov_sym n z y), (scov_sym n w x). ring.
  - unfold wishart_sd. do 2 f_equal. unfold wishart_var, det4, det3, cov4. simpl nth.
    rewrite !(scov_sym n y x), !(scov_sym n z x), !(scov_sym n z y), !(scov_sym n w x), !(scov_sym n w y), !(scov_sym n w z). unfold Rdiv. ring.
Qed.
Print Assumptions C79_pair_symmetry.

(** The tested quantity is the tetrad with rows x, y and columns z, w. *)
Theorem C79_tests_the_tetrad : forall n x y z w, (3 <= n)%nat -> tau n x y z w = minor2 n x y z w.
Proof. intros. unfold tau, minor2. rewrite !scov_pair by lia. ring. Qed.
Print Assumptions C79_tests_the_tetrad.

(** But its variance is Wishart's variance of another tetrad, the one with rows x, w
    and columns y, z ... *)
Theorem C79_variance_of_other_tetrad : forall n x y z w, (3 <= n)%nat ->
  wishart_var n x y z w = wishart_variance n x w y z.
Proof.
  intros n x y z w Hn. assert (3 <= INR n) as N by (replace 3 with (INR 3) by (simpl; lra); apply le_INR; auto).
  unfold wishart_var, wishart_variance, minor2. rewrite det4_leibniz. unfold leibniz4, cov4, cov_of. simpl nth.
  rewrite !scov_pair by lia.
  assert (forall a b, pair_cov n a b = pair_cov n b a) as S by (intros; rewrite <- !scov_pair by lia; apply scov_sym).
  rewrite !(S y x), !(S z x), !(S z y), !(S w x), !(S w y), !(S w z). field. lra.
Qed.
Print Assumptions C79_variance_of_other_tetrad.

(** ... which is the right one exactly when the two products of minors agree. *)
Theorem C79_variance_right_iff : forall n x y z w, (3 <= n)%nat ->
  (wishart_var n x y z w = wishart_variance n x y z w <->
   minor2 n x w x w * minor2 n y z y z = minor2 n x y x y * minor2 n z w z w).
Proof.
  intros n x y z w Hn. assert (3 <= INR n) as N by (replace 3 with (INR 3) by (simpl; lra); apply le_INR; auto).
  rewrite C79_variance_of_other_tetrad by auto. unfold wishart_variance.
  assert (leibniz4 (cov_of n x w y z) = leibniz4 (cov_of n x y z w)) as L.
  { unfold leibniz4, cov_of. simpl nth.
    assert (forall a b, pair_cov n a b = pair_cov n b a) as S by (intros; rewrite <- !scov_pair by lia; apply scov_sym).
    rewrite !(S y x), !(S z x), !(S z y), !(S w x), !(S w y), !(S w z). ring. }
  rewrite L. set (D := leibniz4 _). set (P := minor2 n x w x w * _). set (Q := minor2 n x y x y * minor2 n z w z w).
  assert (0 < (INR n + 1) / (INR n - 1)) as K by (apply Rdiv_lt_0_compat; lra). set (k := (INR n + 1) / (INR n - 1)) in *.
  replace (k * minor2 n x w x w * minor2 n y z y z) with (k * P) by (unfold P; ring).
  replace (k * minor2 n x y x y * minor2 n z w z w) with (k * Q) by (unfold Q; ring).
  split; intro E.
  - assert (k * P - D = k * Q - D) as E'.
    { apply (f_equal (fun r => r * (INR n - 2))) in E. unfold Rdiv in E. rewrite !Rmult_assoc, Rinv_l, !Rmult_1_r in E by lra. auto. }
    apply Rmult_eq_reg_l with k; lra.
  - rewrite E. auto.
Qed.
Print Assumptions C79_variance_right_iff.

(** Four samples of four binary columns. *)
Definition bits (l : list R) : column := fun i => nth i l 0.
Definition eg_x := bits [0; 0; 0; 1].
Definition eg_y := bits [1; 1; 0; 0].
Definition eg_z := bits [0; 1; 0; 1].
Definition eg_w := bits [0; 1; 0; 0].

Ltac eg_cov := unfold wishart_var, tau, det4, det3, cov4; simpl nth; unfold scov, mean_of, rsumn, eg_x, eg_y, eg_z, eg_w, bits; simpl; try field.

Example C79_example_tau : tau 4 eg_x eg_y eg_z eg_w = 1 / 36 /\ tau 4 eg_y eg_x eg_z eg_w = - (1 / 36).
Proof. split; eg_cov. Qed.
Example C79_example_var : wishart_var 4 eg_x eg_y eg_z eg_w = 5 / 972.
Proof. eg_cov. Qed.
Example C79_example_var' : wishart_var 4 eg_y eg_x eg_z eg_w = 5 / 1944.
Proof. eg_cov. Qed.

Lemma pval_regular : forall cdf n x y z w, (3 <= n)%nat -> wishart_sd n x y z w > 0 ->
  tetrad_pvalue cdf n x y z w = Ok (Some (2 * cdf (- (Rabs (tau n x y z w) / wishart_sd n x y z w)))).
Proof.
  intros cdf n x y z w Hn Hs. unfold tetrad_pvalue. destruct n as [|[|[|n]]]; try lia.
  destruct (Req_EM_T _ 0); [lra|]. rewrite ratio_abs by auto. auto.
Qed.

(** Exchanging x and y only changes the sign of the tetrad, yet there is data on
    which it changes the answer, whatever the (strictly increasing) distribution. *)
Theorem C79_exchange_refuted : forall cdf, (forall s t, s < t -> cdf s < cdf t) ->
  exists n x y z w alpha, tau n y x z w = - tau n x y z w /\
    vanishes cdf n x y z w alpha = Ok true /\ vanishes cdf n y x z w alpha = Ok false.
Proof.
  intros cdf INC. destruct C79_example_tau as [T T']. pose proof C79_example_var as V. pose proof C79_example_var' as V'.
  assert (wishart_sd 4 eg_x eg_y eg_z eg_w = sqrt (5 / 972)) as S by (unfold wishart_sd; rewrite V; f_equal; apply Rabs_right; lra).
  assert (wishart_sd 4 eg_y eg_x eg_z eg_w = sqrt (5 / 1944)) as S' by (unfold wishart_sd; rewrite V'; f_equal; apply Rabs_right; lra).
  assert (0 < sqrt (5 / 972)) as P by (apply sqrt_lt_R0; lra).
  assert (0 < sqrt (5 / 1944)) as P' by (apply sqrt_lt_R0; lra).
  assert (sqrt (5 / 1944) < sqrt (5 / 972)) as L by (apply sqrt_lt_1; lra).
  exists 4%nat, eg_x, eg_y, eg_z, eg_w, (2 * cdf (- (1 / 36 / sqrt (5 / 1944)))). split; [rewrite T, T'; lra|].
  unfold vanishes. rewrite !pval_regular by (try lia; rewrite ?S, ?S'; lra). rewrite S, S', T, T'.
  rewrite Rabs_Ropp, Rabs_right by lra. split; f_equal.
  - destruct (Rlt_dec _ _) as [|N]; auto. exfalso. apply N. apply Rmult_lt_compat_l; [lra|]. apply INC.
    apply Ropp_lt_contravar. unfold Rdiv at 1 4. apply Rmult_lt_compat_l; [lra|]. apply Rinv_lt_contravar; auto. apply Rmult_lt_0_compat; auto.
  - destruct (Rlt_dec _ _); auto. lra.
Qed.
Print Assumptions C79_exchange_refuted.

(** The decision: at the level 2 cdf(-c), the tetrad is said to vanish exactly when it is
    less than c of the computed standard deviations away from 0. *)
Theorem C79_decision : forall cdf n x y z w c, (forall s t, s < t -> cdf s < cdf t) -> (3 <= n)%nat ->
  wishart_var n x y z w <> 0 ->
  (vanishes cdf n x y z w (2 * cdf (- c)) = Ok true <-> Rabs (minor2 n x y z w) < c * sqrt (Rabs (wishart_variance n x w y z))).
Proof.
  intros cdf n x y z w c INC Hn HV.
  assert (wishart_sd n x y z w > 0) as HS by (apply sqrt_lt_R0; apply Rabs_pos_lt; auto).
  rewrite <- C79_tests_the_tetrad, <- C79_variance_of_other_tetrad by auto. fold (wishart_sd n x y z w).
  unfold vanishes. rewrite pval_regular by auto. set (t := Rabs _). set (s := wishart_sd n x y z w) in *.
  assert (t / s < c <-> t < c * s) as K.
  { replace t with (t / s * s) at 2 by (field; lra). split; intro L; [apply Rmult_lt_compat_r; auto|apply Rmult_lt_reg_r with s; auto]. }
  rewrite <- K. destruct (Rlt_dec _ _) as [L|L]; split; intro H; auto.
  - destruct (Rlt_dec (t / s) c) as [|N]; auto. exfalso. destruct (Req_dec (t / s) c) as [E|E].
    + rewrite E in L. lra.
    + assert (- (t / s) < - c) as M by lra. apply INC in M. lra.
  - discriminate.
  - exfalso. apply L. apply Rmult_lt_compat_l; [lra|]. apply INC. lra.
Qed.
Print Assumptions C79_decision.

(** A column without variation: every tetrad with it is exactly 0, but the answer is
    that the tetrad does not vanish, at every level. *)
Theorem C79_constant_column : forall cdf n x y z w alpha, (3 <= n)%nat ->
  (forall i j, (i < n)%nat -> (j < n)%nat -> x i = x j) ->
  minor2 n x y z w = 0 /\ vanishes cdf n x y z w alpha = Ok false.
Proof.
  intros cdf n x y z w alpha Hn HC.
  assert (forall v, scov n x v = 0) as Z.
  { intro v. rewrite (scov_affine n x x v v 0 (x 0%nat) 1 0) by (try lia; intros; rewrite ?(HC i 0%nat) by lia; ring). ring. }
  assert (forall v, scov n v x = 0) as Z' by (intro v; rewrite scov_sym; auto).
  assert (tau n x y z w = 0) as T by (unfold tau; rewrite !Z; ring).
  split; [rewrite <- C79_tests_the_tetrad; auto|].
  assert (wishart_sd n x y z w = 0) as S.
  { unfold wishart_sd. replace (wishart_var n x y z w) with 0; [rewrite Rabs_R0; apply sqrt_0|].
    unfold wishart_var, det4, det3, cov4. simpl nth. rewrite !Z. unfold Rdiv. ring. }
  unfold vanishes, tetrad_pvalue. destruct n as [|[|[|n]]]; try lia. rewrite S, T. destruct (Req_EM_T 0 0); [auto|lra].
Qed.
Print Assumptions C79_constant_column.

(** The only exception: one or two samples; it depends on nothing else. *)
Theorem C79_only_exception : forall cdf n x y z w alpha,
  (vanishes cdf n x y z w alpha = Err ZeroDivisionError <-> n = 1%nat \/ n = 2%nat) /\
  (forall e, vanishes cdf n x y z w alpha = Err e -> e = ZeroDivisionError).
Proof.
  intros cdf n x y z w alpha. unfold vanishes, tetrad_pvalue. destruct n as [|[|[|n]]].
  - split; [|discriminate]. split; [discriminate|lia].
  - split; [tauto|congruence].
  - split; [tauto|congruence].
  - destruct (Req_EM_T (wishart_sd _ _ _ _ _) 0); [destruct (Req_EM_T (tau _ _ _ _ _) 0)|]; (split; [split; [discriminate|lia]|discriminate]).
Qed.
Print Assumptions C79_only_exception.

(** The cases beside the theorems: the binary columns in other units and another order. *)
Example C79_example_units : in_unit 4 eg_x (fun i => -3 * eg_x i + 7) /\ in_unit 4 eg_y eg_y.
Proof. split; [exists (-3), 7|exists 1, 0]; split; intros; lra. Qed.
Example C79_example_order : in_order 4 (fun i => nth i [1; 2; 3; 0]%nat 0%nat) eg_x (bits [0; 0; 1; 0]).
Proof.
  split; [|intros [|[|[|[|i]]]] H; try lia; reflexivity]. simpl.
  change [1; 2; 3; 0]%nat with ([1; 2; 3] ++ [0])%nat. apply Permutation_app_comm.
Qed.
Example C79_example_wrong_variance : wishart_var 4 eg_x eg_y eg_z eg_w <> wishart_variance 4 eg_x eg_y eg_z eg_w.
Proof.
  rewrite C79_example_var. unfold wishart_variance, minor2. rewrite <- !scov_pair by lia.
  replace (leibniz4 _) with (det4 (cov4 4 eg_x eg_y eg_z eg_w)).
  2:{ rewrite det4_leibniz. unfold leibniz4, cov4, cov_of. simpl nth. rewrite !scov_pair by lia. auto. }
  assert (det4 (cov4 4 eg_x eg_y eg_z eg_w) = 0) as -> by eg_cov.
  match goal with [ |- _ <> ?r ] => replace r with (5 / 1944) end; [lra|]. eg_cov.
Qed.
Example C79_example_constant : vanishes (fun x => x) 4 (bits [1; 1; 1; 1]) eg_y eg_z eg_w (1 / 100) = Ok false.
Proof. apply C79_constant_column; [lia|]. intros [|[|[|[|i]]]] [|[|[|[|j]]]] Hi Hj; try lia; reflexivity. Qed.
