(** C83: the entropy loss of linear_ent.py and nonlinear_ent.py. *)

From Coq Require Import List Arith Bool Lia Reals Lra Permutation.
From Verif Require Import Model.Py Model.LocalScore Model.EntropyLoss.
From Verif Require Import Proofs.EntropyLossFacts.
Import ListNotations.
Open Scope nat_scope.

Local Lemma entries_map : forall n d (f : R -> R) (x y : rmat), (forall r c, r < n -> c < d -> y r c = f (x r c)) -> entries n d y = map f (entries n d x).
Proof.
  intros n d f x y H. unfold entries. assert (K : forall l, (forall r, In r l -> r < n) ->
    flat_map (fun r => map (y r) (seq 0 d)) l = map f (flat_map (fun r => map (x r) (seq 0 d)) l)); [|apply K; intros r Hr; apply in_seq in Hr; lia].
  induction l as [|r l IH]; intro HL; simpl; auto. rewrite map_app, map_map, IH by (intros; apply HL; simpl; auto). f_equal.
  apply map_ext_in. intros c Hc. apply in_seq in Hc. apply H; [apply HL; simpl; auto|lia].
Qed.

Local Lemma entries_len : forall n d x, length (entries n d x) = n * d.
Proof.
  intros n d x. unfold entries. rewrite <- (seq_length n 0) at 2. induction (seq 0 n) as [|r l IH]; simpl; auto.
  rewrite app_length, map_length, seq_length, IH. auto.
Qed.

Local Lemma entries_In : forall n d x v, In v (entries n d x) <-> exists r c, r < n /\ c < d /\ v = x r c.
Proof.
  intros n d x v. unfold entries. rewrite in_flat_map. split.
  - intros [r [Hr Hv]]. apply in_map_iff in Hv. destruct Hv as [c [<- Hc]]. apply in_seq in Hr. apply in_seq in Hc. exists r, c. repeat split; lia.
  - intros [r [c [Hr [Hc ->]]]]. exists r. split; [apply in_seq; lia|]. apply in_map_iff. exists c. split; auto. apply in_seq. lia.
Qed.

(** Units and offsets: residuals [a e + b] have the loss of the residuals [e] plus [ln |a|]. *)
Theorem C83_units : forall n d out inp out' inp' a b, a <> 0%R ->
  (forall r c, r < n -> c < d -> (inp' r c - out' r c = a * (inp r c - out r c) + b)%R) ->
  mentappr n d out' inp' = match mentappr n d out inp with Some v => Some (v + ln (Rabs a))%R | None => None end.
Proof.
  intros n d out inp out' inp' a b Ha H. unfold mentappr.
  rewrite (entries_map n d (fun e => a * e + b)%R (fun r c => inp r c - out r c)%R _ H). apply loss_affine; auto.
Qed.
Print Assumptions C83_units.

(** So there is no best fit: with the residuals towards 0 the loss falls below every bound. *)
Theorem C83_unbounded : forall n d out inp v, mentappr n d out inp = Some v -> forall bound : R,
  exists a, (0 < a)%R /\ exists w, mentappr n d (fun r c => inp r c - a * (inp r c - out r c))%R inp = Some w /\ (w < bound)%R.
Proof.
  intros n d out inp v H bound. exists (exp (bound - v - 1)). split; [apply exp_pos|]. exists (bound - 1)%R. split; [|lra].
  pose proof (exp_pos (bound - v - 1)) as P. rewrite (C83_units n d out inp _ _ (exp (bound - v - 1)) 0%R); [|lra|intros; ring].
  rewrite H, Rabs_pos_eq, ln_exp by lra. f_equal. ring.
Qed.
Print Assumptions C83_unbounded.

(** The loss knows no variables: it depends on nothing but the collection of all
    residuals, in whatever order and columns they stand. *)
Theorem C83_pooled : forall n d n' d' out inp out' inp',
  Permutation (entries n d (fun r c => inp r c - out r c)%R) (entries n' d' (fun r c => inp' r c - out' r c)%R) ->
  mentappr n d out inp = mentappr n' d' out' inp'.
Proof. intros. unfold mentappr. apply loss_perm. auto. Qed.
Print Assumptions C83_pooled.

Definition eg_a : rmat := fun r c => match r, c with 0, 0 => 1 | 1, 0 => -1 | 0, 1 => 10 | _, _ => -10 end%R.
Definition eg_b : rmat := fun r c => match r, c with 0, 0 => 1 | 1, 0 => 10 | 0, 1 => -1 | _, _ => -10 end%R.
Definition zero : rmat := fun _ _ => 0%R.
Definition col (x : rmat) (c : nat) : rmat := fun r _ => x r c.

Local Lemma two_points : forall x y, x <> y -> exists k, loss_of [-1; 1]%R = Some k /\ loss_of [x; y] = Some (k + ln (Rabs ((y - x) / 2)))%R.
Proof.
  intros x y NE. destruct (loss_of [-1; 1]%R) as [k|] eqn:E.
  - exists k. split; auto. pose proof (loss_affine ((y - x) / 2) ((y + x) / 2) [-1; 1]%R ltac:(lra)) as H. rewrite E in H. rewrite <- H. f_equal. simpl. f_equal; [field|f_equal; field].
  - exfalso. apply loss_nan in E. destruct E as [L|[c Hc]]; [simpl in L; lia|].
    pose proof (Hc (-1)%R ltac:(simpl; auto)). pose proof (Hc 1%R ltac:(simpl; auto)). lra.
Qed.

(** Hence it is not the sum of the entropies of the residuals of the variables, which
    is what decides between causal directions: two residual matrices with the same loss
    whose columns have different total loss. *)
Theorem C83_sum_of_variables_refuted : exists e e' v a1 a2 b1 b2,
  mentappr 2 2 zero e = Some v /\ mentappr 2 2 zero e' = Some v /\
  mentappr 2 1 zero (col e 0) = Some a1 /\ mentappr 2 1 zero (col e 1) = Some a2 /\
  mentappr 2 1 zero (col e' 0) = Some b1 /\ mentappr 2 1 zero (col e' 1) = Some b2 /\ (a1 + a2 <> b1 + b2)%R.
Proof.
  destruct (two_points 1 (-1)) as [k [E0 A1]]; [lra|]. destruct (two_points 10 (-10)) as [k2 [E2 A2]]; [lra|].
  destruct (two_points 1 10) as [k3 [E3 B1]]; [lra|]. destruct (two_points (-1) (-10)) as [k4 [E4 B2]]; [lra|].
  rewrite E0 in E2, E3, E4. inversion E2; inversion E3; inversion E4; subst k2 k3 k4. clear E2 E3 E4.
  assert (P : mentappr 2 2 zero eg_a = mentappr 2 2 zero eg_b).
  { apply C83_pooled. unfold entries, eg_a, eg_b, zero. simpl. rewrite !Rminus_0_r.
    apply perm_skip. apply Permutation_trans with [-1; 10; -10]%R; [apply perm_swap|]. apply Permutation_refl. }
  assert (Q : exists v, mentappr 2 2 zero eg_a = Some v).
  { destruct (mentappr 2 2 zero eg_a) eqn:E; eauto. exfalso. unfold mentappr in E. apply loss_nan in E. destruct E as [L|[c Hc]].
    - rewrite entries_len in L. lia.
    - pose proof (Hc 1%R) as H1. pose proof (Hc (-1)%R) as H2. unfold entries, eg_a, zero in H1, H2. simpl in H1, H2. rewrite !Rminus_0_r in *.
      specialize (H1 ltac:(auto)). specialize (H2 ltac:(auto)). lra. }
  destruct Q as [v Hv]. exists eg_a, eg_b, v. do 4 eexists. split; [exact Hv|]. split; [rewrite <- P; exact Hv|].
  unfold mentappr, entries, col, eg_a, eg_b, zero. simpl. rewrite !Rminus_0_r.
  split; [exact A1|]. split; [exact A2|]. split; [exact B1|]. split; [exact B2|].
  replace (Rabs ((-1 - 1) / 2)) with 1%R by (rewrite Rabs_left; lra). replace (Rabs ((-10 - 10) / 2)) with 10%R by (rewrite Rabs_left; lra).
  replace (Rabs ((10 - 1) / 2)) with (9 / 2)%R by (rewrite Rabs_pos_eq; lra). replace (Rabs ((-10 - -1) / 2)) with (9 / 2)%R by (rewrite Rabs_left; lra).
  intro E. assert (ln 10 = ln (9 / 2 * (9 / 2)))%R as L by (rewrite ln_mult by lra; rewrite ln_1 in E; lra).
  apply ln_inv in L; lra.
Qed.
Print Assumptions C83_sum_of_variables_refuted.

(** It is at most the entropy of a normal variable with the same deviation. *)
Theorem C83_at_most_normal : forall n d out inp v, mentappr n d out inp = Some v ->
  exists s, (0 < s)%R /\ (s * s * (INR (n * d) - 1) = rsum (map (fun e => (e - tmean (entries n d (fun r c => inp r c - out r c))) * (e - tmean (entries n d (fun r c => inp r c - out r c)))) (entries n d (fun r c => inp r c - out r c))))%R
    /\ (v <= gaussianEntropy + ln s)%R.
Proof.
  intros n d out inp v H. unfold mentappr in H. set (l := entries n d (fun r c => inp r c - out r c)%R) in *.
  unfold loss_of in H. destruct (Nat.leb_spec (length l) 1) as [|L]; [discriminate|].
  destruct (Req_EM_T (tstd l) 0) as [|NZ]; [discriminate|]. inversion H; subst v. exists (tstd l).
  pose proof (tstd_nonneg l) as P. split; [lra|]. split.
  - assert (0 < INR (length l) - 1)%R as PL by (apply lt_INR in L; simpl in L; lra).
    unfold tstd at 1 2. rewrite sqrt_sqrt.
    + rewrite <- (entries_len n d (fun r c => inp r c - out r c)%R). fold l. field. lra.
    + apply Rmult_le_pos; [apply rsum_sq_nonneg|]. apply Rlt_le, Rinv_0_lt_compat; auto.
  - pose proof (negentropy_nonneg (map (fun x => (x - tmean l) / tstd l)%R l)). lra.
Qed.
Print Assumptions C83_at_most_normal.

(** It is NaN exactly when there are fewer than two residuals or all are equal; so a
    perfect fit has no loss. *)
Theorem C83_nan : forall n d out inp,
  mentappr n d out inp = None <-> n * d <= 1 \/ exists e, forall r c, r < n -> c < d -> (inp r c - out r c = e)%R.
Proof.
  intros n d out inp. unfold mentappr. rewrite loss_nan, entries_len. split; intros [H|[e H]]; auto; right; exists e.
  - intros r c Hr Hc. apply H. apply entries_In. exists r, c. auto.
  - intros v Hv. apply entries_In in Hv. destruct Hv as [r [c [Hr [Hc ->]]]]. auto.
Qed.
Print Assumptions C83_nan.

(** The rounded constants agree with the formulas beside them in the code. *)
Theorem C83_constants :
  (Rabs (k1 - 36 / (8 * sqrt 3 - 9)) < 1 / 10 ^ 14 /\ Rabs (k2 - 24 / (16 * sqrt 3 - 27)) < 1 / 10 ^ 12 /\ Rabs (con - sqrt (1 / 2)) < 1 / 10 ^ 15)%R.
Proof.
  assert (B : (1.7320508075688772935 < sqrt 3 < 1.7320508075688772936)%R).
  { split; [rewrite <- (sqrt_Rsqr 1.7320508075688772935) by lra|rewrite <- (sqrt_Rsqr 1.7320508075688772936) by lra]; apply sqrt_lt_1; unfold Rsqr; lra. }
  assert (C : (0.70710678118654752 < sqrt (1 / 2) < 0.70710678118654753)%R).
  { split; [rewrite <- (sqrt_Rsqr 0.70710678118654752) by lra|rewrite <- (sqrt_Rsqr 0.70710678118654753) by lra]; apply sqrt_lt_1; unfold Rsqr; lra. }
  assert (K : forall a b c e t, (0 < b * t - c)%R -> ((a - e) * (b * t - c) < 36 < (a + e) * (b * t - c))%R -> (Rabs (a - 36 / (b * t - c)) < e)%R).
  { intros a b c e t P [H1 H2]. assert (36 / (b * t - c) * (b * t - c) = 36)%R as E by (field; lra). set (q := (36 / (b * t - c))%R) in *.
    apply Rabs_def1.
    - apply Rmult_lt_reg_r with (b * t - c)%R; auto. lra.
    - apply Rmult_lt_reg_r with (b * t - c)%R; auto. lra. }
  assert (K' : forall a b c e t, (0 < b * t - c)%R -> ((a - e) * (b * t - c) < 24 < (a + e) * (b * t - c))%R -> (Rabs (a - 24 / (b * t - c)) < e)%R).
  { intros a b c e t P [H1 H2]. assert (24 / (b * t - c) * (b * t - c) = 24)%R as E by (field; lra). set (q := (24 / (b * t - c))%R) in *.
    apply Rabs_def1.
    - apply Rmult_lt_reg_r with (b * t - c)%R; auto. lra.
    - apply Rmult_lt_reg_r with (b * t - c)%R; auto. lra. }
  split; [|split].
  - apply K; unfold k1; lra.
  - apply K'; unfold k2; lra.
  - unfold con. apply Rabs_def1; lra.
Qed.
Print Assumptions C83_constants.

(** Four residuals with a loss, one hundred times as large ones, and a perfect fit. *)
Example C83_example : (exists v, mentappr 2 2 zero eg_a = Some v /\ mentappr 2 2 zero (fun r c => 100 * eg_a r c + 7)%R = Some (v + ln 100)%R) /\
  mentappr 2 2 eg_a eg_a = None.
Proof.
  split.
  - assert (exists v, mentappr 2 2 zero eg_a = Some v) as [v Hv].
    { destruct (mentappr 2 2 zero eg_a) eqn:E; eauto. exfalso. apply C83_nan in E. destruct E as [L|[c Hc]]; [lia|].
      pose proof (Hc 0 0 ltac:(lia) ltac:(lia)). pose proof (Hc 1 0 ltac:(lia) ltac:(lia)). unfold eg_a, zero in *. lra. }
    exists v. split; auto. rewrite (C83_units 2 2 zero eg_a zero _ 100 7); [|lra|intros; unfold zero; ring]. rewrite Hv, Rabs_pos_eq by lra. auto.
  - apply C83_nan. right. exists 0%R. intros. ring.
Qed.
