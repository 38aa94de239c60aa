(** Facts about the other entropy losses. *)

From Coq Require Import List Arith Bool Reals Lra Lia Permutation.
From Verif Require Import Model.Py Model.LocalScore Model.EntropyLoss Model.EntropyMore Proofs.EntropyLossFacts.
Import ListNotations.
Open Scope R_scope.

Lemma tstd_tvar : forall l, tstd l = sqrt (tvar l).
Proof. reflexivity. Qed.

Lemma len_pos : forall l : list R, (1 < length l)%nat -> 1 < INR (length l).
Proof. intros l H. change 1 with (INR 1). apply lt_INR. assumption. Qed.

Lemma tvar_nonneg : forall l, (1 < length l)%nat -> 0 <= tvar l.
Proof. intros l H. pose proof (len_pos l H). unfold tvar. apply Rmult_le_pos; [apply rsum_sq_nonneg|]. left. apply Rinv_0_lt_compat. lra. Qed.

Lemma tvar_pos : forall l, (1 < length l)%nat -> tstd l <> 0 -> 0 < tvar l /\ 0 < tstd l.
Proof.
  intros l H N. pose proof (tvar_nonneg l H) as V. rewrite tstd_tvar in *. destruct V as [V|V]; [|rewrite <- V, sqrt_0 in N; lra]. split; [assumption|apply sqrt_lt_R0; assumption].
Qed.

Lemma standard_is : forall l, tstd l <> 0 -> standard l = map (fun x => / tstd l * x + - tmean l / tstd l) l.
Proof. intros l N. unfold standard. apply map_ext. intros x. field. assumption. Qed.

Lemma standard_len : forall l, length (standard l) = length l.
Proof. intros l. unfold standard. apply map_length. Qed.

Lemma nonempty : forall l : list R, (1 < length l)%nat -> l <> [].
Proof. intros [|] H; [cbn in H; lia|discriminate]. Qed.

Lemma standard_mean : forall l, (1 < length l)%nat -> tstd l <> 0 -> tmean (standard l) = 0.
Proof. intros l H N. rewrite standard_is, tmean_affine by (auto; apply nonempty; assumption). field. assumption. Qed.

Lemma standard_var : forall l, (1 < length l)%nat -> tstd l <> 0 -> tvar (standard l) = 1.
Proof.
  intros l H N. assert (S : tstd (standard l) = 1).
  { rewrite standard_is, tstd_affine by (auto; apply nonempty; assumption). destruct (tvar_pos l H N) as [_ P]. rewrite Rabs_right; [field; lra|]. left. apply Rinv_0_lt_compat. assumption. }
  rewrite tstd_tvar in S. pose proof (tvar_nonneg (standard l) ltac:(rewrite standard_len; assumption)) as V. rewrite <- (sqrt_sqrt _ V), S. ring.
Qed.

Lemma standard_squares : forall l, (1 < length l)%nat -> tstd l <> 0 -> tmean (map (fun x => x ^ 2) (standard l)) = (INR (length l) - 1) / INR (length l).
Proof.
  intros l H N. pose proof (standard_var l H N) as V. pose proof (len_pos l H) as L. unfold tvar in V. rewrite (standard_mean l H N), standard_len in V.
  unfold tmean. rewrite map_length, standard_len. f_equal. rewrite (map_ext (fun x => x ^ 2) (fun x => (x - 0) * (x - 0))) by (intros; ring).
  set (q := rsum _) in *. assert (q = q / (INR (length l) - 1) * (INR (length l) - 1)) by (field; lra). rewrite H0, V. ring.
Qed.

Lemma sign_cases : forall a, a <> 0 -> a / Rabs a = 1 \/ a / Rabs a = -1.
Proof. intros a H. unfold Rabs. destruct (Rcase_abs a); [right|left]; field; lra. Qed.

Lemma standard_affine : forall a b l, (1 < length l)%nat -> a <> 0 -> tstd l <> 0 -> standard (map (fun x => a * x + b) l) = map (fun z => a / Rabs a * z) (standard l).
Proof.
  intros a b l H A N. pose proof (nonempty l H) as E. unfold standard. rewrite tmean_affine, tstd_affine, !map_map by assumption. apply map_ext. intros x. pose proof (Rabs_no_R0 a A). field. split; assumption.
Qed.

Lemma tvar_affine : forall a b l, (1 < length l)%nat -> tvar (map (fun x => a * x + b) l) = a * a * tvar l.
Proof.
  intros a b l H. unfold tvar. rewrite tmean_affine, map_length, map_map by (apply nonempty; assumption).
  rewrite (map_ext _ (fun x => (a * a) * ((x - tmean l) * (x - tmean l)))) by (intro; ring). rewrite rsum_scale. unfold Rdiv. ring.
Qed.

Lemma tmean_scale : forall a (f : R -> R) l, tmean (map (fun x => a * f x) l) = a * tmean (map f l).
Proof. intros a f l. unfold tmean. rewrite rsum_scale, !map_length. unfold Rdiv. ring. Qed.

Lemma k_sign : forall s z, s = 1 \/ s = -1 -> k_3 (map (fun x => s * x) z) ^ 2 = k_3 z ^ 2 /\ k_4 (map (fun x => s * x) z) = k_4 z /\
  tmean (map (fun x => ln (cosh x)) (map (fun x => s * x) z)) = tmean (map (fun x => ln (cosh x)) z).
Proof.
  intros s z S. assert (S2 : s * s = 1) by (destruct S as [-> | ->]; ring). unfold k_3, k_4. rewrite !map_map.
  rewrite (map_ext (fun x => (s * x) ^ 2) (fun x => x ^ 2)) by (intros x; transitivity (s * s * x ^ 2); [ring|rewrite S2; ring]).
  rewrite (map_ext (fun x => (s * x) ^ 4) (fun x => x ^ 4)) by (intros x; transitivity (s * s * (s * s) * x ^ 4); [ring|rewrite S2; ring]).
  rewrite (map_ext (fun x => (s * x) ^ 3) (fun x => s * x ^ 3)) by (intros x; transitivity (s * s * (s * x ^ 3)); [ring|rewrite S2; ring]).
  rewrite (tmean_scale s (fun x => x ^ 3)). split; [|split; [reflexivity|]].
  - set (t := tmean _). set (u := Rpower _ _). unfold Rdiv. transitivity (s * s * (t * / u) ^ 2); [ring|rewrite S2; ring].
  - f_equal. apply map_ext. intros x. f_equal. destruct S as [-> | ->]; [rewrite Rmult_1_l; reflexivity|]. unfold cosh. replace (-1 * x) with (- x) by ring. rewrite Ropp_involutive. f_equal. ring.
Qed.

(** * Bounds *)

Lemma cosh_ge : forall x, 1 <= cosh x /\ (x <> 0 -> 1 < cosh x).
Proof.
  intros x. unfold cosh. split.
  - destruct (Req_dec x 0) as [->|N]; [rewrite Ropp_0, exp_0; lra|]. pose proof (exp_ineq1 x N). pose proof (exp_ineq1 (- x) ltac:(lra)). lra.
  - intros N. pose proof (exp_ineq1 x N). pose proof (exp_ineq1 (- x) ltac:(lra)). lra.
Qed.

Lemma lncosh_ge : forall x, 0 <= ln (cosh x) /\ (x <> 0 -> 0 < ln (cosh x)).
Proof.
  intros x. destruct (cosh_ge x) as [A B]. split.
  - destruct A as [A|A]; [left; rewrite <- ln_1; apply ln_increasing; lra|rewrite <- A, ln_1; lra].
  - intros N. rewrite <- ln_1. apply ln_increasing; [lra|auto].
Qed.

Lemma lncosh_le : forall x, ln (cosh x) <= (1 + x ^ 2) / 2.
Proof.
  intros x. assert (E : cosh x <= exp (Rabs x)).
  { assert (K : forall a b, a <= b -> exp a <= exp b) by (intros a b [H| ->]; [left; apply exp_increasing; assumption|right; reflexivity]). pose proof (K x (Rabs x) (Rle_abs x)). pose proof (K (- x) (Rabs x)). assert (- x <= Rabs x) by (rewrite <- Rabs_Ropp; apply Rle_abs). specialize (H0 H1). unfold cosh. lra. }
  assert (L : ln (cosh x) <= Rabs x).
  { rewrite <- (ln_exp (Rabs x)). destruct (cosh_ge x) as [P _]. destruct E as [E|E]; [left; apply ln_increasing; lra|right; f_equal; assumption]. }
  assert (Q : Rabs x * Rabs x = x ^ 2) by (rewrite <- Rabs_mult, Rabs_right; [ring|]; apply Rle_ge, Rle_0_sqr). pose proof (Rle_0_sqr (Rabs x - 1)) as S. unfold Rsqr in S. lra.
Qed.

Lemma rsum_le : forall (f g : R -> R) l, (forall x, f x <= g x) -> rsum (map f l) <= rsum (map g l).
Proof. intros f g l H. unfold rsum. induction l as [|x l IH]; cbn [map fold_right]; [lra|]. pose proof (H x). lra. Qed.

Lemma rsum_pos : forall (f : R -> R) l x, (forall x, 0 <= f x) -> In x l -> 0 < f x -> 0 < rsum (map f l).
Proof.
  intros f l x H. assert (Z : forall l, 0 <= rsum (map f l)) by (unfold rsum; induction l0 as [|y l0 IH]; cbn [map fold_right]; [lra|]; pose proof (H y); lra).
  induction l as [|y l IH]; intros I P; [destruct I|]. pose proof (Z l) as Zl. pose proof (H y). unfold rsum in *. cbn [map fold_right]. destruct I as [->|I]; [lra|]. specialize (IH I P). lra.
Qed.

Lemma nonzero_member : forall l, (1 < length l)%nat -> tstd l <> 0 -> exists x, In x (standard l) /\ x <> 0.
Proof.
  intros l H N. pose proof (standard_squares l H N) as S. pose proof (len_pos l H) as L.
  assert (P : 0 < tmean (map (fun x => x ^ 2) (standard l))) by (rewrite S; apply Rdiv_lt_0_compat; lra). clear S.
  assert (K : forall z, (forall x, In x z -> x = 0) -> rsum (map (fun x => x ^ 2) z) = 0) by (induction z as [|y z IH]; intros Z; [reflexivity|]; unfold rsum in *; cbn [map fold_right]; rewrite IH by (intros; apply Z; right; assumption); rewrite (Z y) by (left; reflexivity); ring).
  assert (D : forall z : list R, (exists x, In x z /\ x <> 0) \/ forall x, In x z -> x = 0).
  { induction z as [|y z [[x [I Nx]]|Z]]; [right; intros x []|left; exists x; split; [right|]; assumption|]. destruct (Req_dec y 0); [right; intros x [<-|I]; auto|left; exists y; split; [left; reflexivity|assumption]]. }
  destruct (D (standard l)) as [E|Z]; [assumption|]. unfold tmean in P. rewrite (K _ Z) in P. unfold Rdiv in P. rewrite Rmult_0_l in P. lra.
Qed.

Lemma mean_lncosh : forall l, (1 < length l)%nat -> tstd l <> 0 -> 0 < tmean (map (fun x => ln (cosh x)) (standard l)) < 1.
Proof.
  intros l H N. pose proof (len_pos l H) as L. pose proof (standard_squares l H N) as S. unfold tmean in *. rewrite !map_length, standard_len in *. split.
  - destruct (nonzero_member l H N) as (x & I & Nx). apply Rdiv_lt_0_compat; [|lra]. apply (rsum_pos _ _ x); [intros; apply lncosh_ge|assumption|apply lncosh_ge; assumption].
  - pose proof (rsum_le (fun x => ln (cosh x)) (fun x => (1 + x ^ 2) / 2) (standard l) lncosh_le) as B.
    assert (E : rsum (map (fun x => (1 + x ^ 2) / 2) (standard l)) = (INR (length l) + rsum (map (fun x => x ^ 2) (standard l))) / 2).
    { rewrite <- (standard_len l). generalize (standard l). intros z. induction z as [|y z IH]; [cbn; field|]. cbn [map length]. rewrite S_INR. unfold rsum in *. cbn [fold_right]. rewrite IH. field. }
    rewrite E in B. set (q := rsum (map (fun x => x ^ 2) (standard l))) in *. set (w := rsum (map (fun x => ln (cosh x)) (standard l))) in *.
    assert (q = INR (length l) - 1) by (replace q with (q / INR (length l) * INR (length l)) by (field; lra); rewrite S; field; lra).
    apply Rmult_lt_reg_r with (INR (length l)); [lra|]. unfold Rdiv. rewrite Rmult_assoc, Rinv_l by lra. lra.
Qed.

(** The mean of the fourth powers is at least the square of the mean of the squares. *)
Lemma fourth : forall z, z <> [] -> tmean (map (fun x => x ^ 2) z) ^ 2 <= tmean (map (fun x => x ^ 4) z).
Proof.
  intros z N. assert (P : 0 < INR (length z)) by (apply lt_0_INR; destruct z; [congruence|cbn; lia]). unfold tmean. rewrite !map_length. set (m := rsum (map (fun x => x ^ 2) z) / INR (length z)).
  assert (E : rsum (map (fun x => (x ^ 2 - m) * (x ^ 2 - m)) z) = rsum (map (fun x => x ^ 4) z) - 2 * m * rsum (map (fun x => x ^ 2) z) + INR (length z) * m * m).
  { clearbody m. clear N P. induction z as [|y z IH]; [cbn; ring|]. cbn [map length]. rewrite S_INR. unfold rsum in *. cbn [fold_right]. rewrite IH. ring. }
  assert (Q : 0 <= rsum (map (fun x => (x ^ 2 - m) * (x ^ 2 - m)) z)).
  { clear N P E. clearbody m. induction z as [|y z IH]; [cbn; lra|]. cbn [map]. unfold rsum in *. cbn [fold_right]. pose proof (Rle_0_sqr (y ^ 2 - m)) as S. unfold Rsqr in S. lra. }
  assert (M : rsum (map (fun x => x ^ 2) z) = m * INR (length z)) by (unfold m; field; lra). rewrite E, M in Q.
  apply Rmult_le_reg_r with (INR (length z)); [assumption|]. replace (rsum (map (fun x => x ^ 4) z) / INR (length z) * INR (length z)) with (rsum (map (fun x => x ^ 4) z)) by (field; lra). replace (m ^ 2) with (m * m) by ring. lra.
Qed.

Lemma k_4_ge : forall l, (1 < length l)%nat -> tstd l <> 0 -> 1 <= k_4 (standard l).
Proof.
  intros l H N. pose proof (len_pos l H) as L. pose proof (standard_squares l H N) as S. assert (P : 0 < tmean (map (fun x => x ^ 2) (standard l))) by (rewrite S; apply Rdiv_lt_0_compat; lra).
  pose proof (fourth (standard l)) as F. unfold k_4. set (m := tmean (map (fun x => x ^ 2) (standard l))) in *.
  replace (4 / 2) with (INR 2) by (cbn; field). rewrite Rpower_pow by assumption. assert (Q : 0 < m ^ 2) by (apply pow_lt; assumption).
  apply Rmult_le_reg_r with (m ^ 2); [assumption|]. unfold Rdiv. rewrite Rmult_assoc, Rinv_l by lra. rewrite Rmult_1_l, Rmult_1_r. apply F. intros E. pose proof (standard_len l) as E'. rewrite E in E'. cbn in E'. lia.
Qed.
