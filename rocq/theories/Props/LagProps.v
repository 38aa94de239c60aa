(** C104: the transition matrices of lagged processes. *)

From Coq Require Import List Arith Bool ZArith Reals Lra Lia Permutation Sorted Psatz.
From Verif Require Import Model.Py Model.LagTransitions Spec.LagSpec Proofs.LagFacts.
Import ListNotations.
Open Scope R_scope.

Lemma run_parts : forall fuel cond n max_lag q refs draw ms, generate_lag_transitions fuel cond n max_lag q refs draw = Ok ms ->
  (0 < n)%nat /\ (0 < max_lag)%nat /\ exists thresh ks, percentile (map (fun A => cond (scale n A)) refs) q = Ok thresh /\ length ks = max_lag /\
  kept (fun k => cond (scale n (draw k)) <= thresh) 0 ks /\ ms = rev (map (fun k => scale n (draw k)) ks).
Proof.
  intros fuel cond n max_lag q refs draw ms H. unfold generate_lag_transitions in H.
  destruct (Nat.eqb_spec n 0); [discriminate|]. destruct (Nat.eqb_spec max_lag 0); [discriminate|]. split; [lia|]. split; [lia|].
  destruct (percentile _ q) as [thresh|] eqn:E; cbn [rbind] in H; [|discriminate].
  destruct (lag_loop _ _ _ _ _ _ _ _) as [l|] eqn:L; cbn [rbind] in H; [|discriminate]. apply lag_loop_is in L as (ks & Lk & K & ->). exists thresh, ks.
  split; [reflexivity|]. split; [assumption|]. split; [assumption|]. injection H as <-. reflexivity.
Qed.

(** ** What is returned
    One matrix for each lag, and the first of the list is the last that was drawn.  Each is a drawn matrix with its columns divided by their lengths,
    so that all columns have length one and all entries lie between -1 and 1; it is the first after the one before it with a condition number that is
    not above the percentile of the condition numbers of the reference matrices. *)
Theorem C104_result : forall fuel cond n max_lag q refs draw ms, generate_lag_transitions fuel cond n max_lag q refs draw = Ok ms ->
  Forall (no_zero_column n) refs -> (forall k, no_zero_column n (draw k)) ->
  exists units scaled thresh ks, Forall2 (unit_columns_of n) refs units /\ (forall k, unit_columns_of n (draw k) (scaled k)) /\
    is_percentile (map cond units) q thresh /\ kept (fun k => cond (scaled k) <= thresh) 0 ks /\ length ks = max_lag /\ ms = map scaled (rev ks) /\
    Forall (fun B => cond B <= thresh /\ forall i j, (i < n)%nat -> (j < n)%nat -> -1 <= B i j <= 1) ms.
Proof.
  intros fuel cond n max_lag q refs draw ms H Z Zd. apply run_parts in H as (Hn & Hl & thresh & ks & P & Lk & K & ->).
  exists (map (scale n) refs), (fun k => scale n (draw k)), thresh, ks.
  split. { clear - Z. induction Z; cbn [map]; constructor; [apply scale_unit|]; assumption. }
  split; [intros k; apply scale_unit, Zd|]. split; [rewrite map_map; apply percentile_is; assumption|]. split; [assumption|]. split; [assumption|]. split; [symmetry; apply map_rev|].
  apply Forall_rev. apply Forall_map, Forall_forall. intros k Hk. split.
  - clear - K Hk. induction K; [destruct Hk|]. destruct Hk as [<-|Hk]; [assumption|auto].
  - intros i j Hi Hj. apply (unit_entries n); [|assumption]. apply (scale_unit n (draw k) (Zd k) j Hj).
Qed.
Print Assumptions C104_result.

(** ** The percentile
    np.percentile gives the point on the line between the neighbours of the place asked for; more than [q] percent of all values but one are not above it
    and more than [100 - q] percent of all values but one are not below it. *)
Theorem C104_percentile : forall l q, (0 <= q <= 100)%Z -> l <> [] -> exists v, percentile l q = Ok v /\ is_percentile l q v /\
  exists m m', at_least (fun c => c <= v) l m /\ at_least (fun c => v <= c) l m' /\
    INR (length l - 1) * IZR q < 100 * INR m /\ INR (length l - 1) * IZR (100 - q) < 100 * INR m'.
Proof.
  intros l q Q N. destruct (percentile_runs l q N Q) as [v V]. exists v. pose proof (percentile_is l q v V) as I. split; [assumption|]. split; [assumption|].
  apply percentile_counts; assumption.
Qed.
Print Assumptions C104_percentile.

(** ** When it ends
    If again and again a matrix is drawn that is not above any of the reference matrices, then the call returns. *)
Theorem C104_ends : forall cond n max_lag q refs draw, (0 < n)%nat -> (0 < max_lag)%nat -> (0 <= q <= 100)%Z -> refs <> [] ->
  (forall p, exists k, (p <= k)%nat /\ forall A, In A refs -> cond (scale n (draw k)) <= cond (scale n A)) ->
  exists rounds, forall fuel, (rounds <= fuel)%nat -> exists ms, generate_lag_transitions fuel cond n max_lag q refs draw = Ok ms.
Proof.
  intros cond n max_lag q refs draw Hn Hl Q N H. destruct (percentile_runs (map (fun A => cond (scale n A)) refs) q) as [thresh T]; [destruct refs; [congruence|discriminate]|assumption|].
  destruct (lag_loop_runs cond n draw thresh) with (lags := max_lag) (p0 := O) as [rounds R].
  - intros p. destruct (H p) as (k & Hk & C). exists k. split; [assumption|]. apply (percentile_above _ _ _ _ (percentile_is _ _ _ T)). intros x Hx.
    apply in_map_iff in Hx as (A & <- & HA). apply C. assumption.
  - exists rounds. intros fuel Hf. destruct (R fuel O [] (Nat.le_refl _) Hf) as [l L]. unfold generate_lag_transitions.
    destruct (Nat.eqb_spec n 0); [lia|]. destruct (Nat.eqb_spec max_lag 0); [lia|]. rewrite T. cbn [rbind]. rewrite L. cbn [rbind]. eexists; reflexivity.
Qed.
Print Assumptions C104_ends.

(** ** The reference matrices
    They are drawn with entries between 1 and 2 (line 105), not between -1 and 1 as the matrices that are tested: with two nodes or more the cosine of
    each two of their columns is at least 4/5 and their condition numbers are at least 3.  So the threshold is at least 3 whatever accept_per is; no
    drawn matrix with a condition number up to 3 is ever rejected. *)
Theorem C104_reference : forall n A, (0 < n)%nat -> (forall i j, (i < n)%nat -> (j < n)%nat -> 1 <= A i j <= 2) ->
  unit_columns_of n A (scale n A) /\ (forall j k, (j < n)%nat -> (k < n)%nat -> 4 / 5 <= inner n (scale n A) j k) /\
  ((2 <= n)%nat -> forall K, condition_le n (scale n A) K -> 3 <= K).
Proof.
  intros n A Hn H. assert (Z : no_zero_column n A) by (intros j Hj; exists O; split; [assumption|]; pose proof (H O j Hn Hj); lra).
  split; [apply scale_unit; assumption|]. split; [intros; apply close_columns; assumption|]. intros N K C. apply (close_condition n (scale n A) K N); [|apply close_columns; auto; lia|assumption].
  intros c Hc. apply (scale_unit n A Z c Hc).
Qed.
Print Assumptions C104_reference.

Theorem C104_three : forall fuel cond n max_lag q refs draw ms, generate_lag_transitions fuel cond n max_lag q refs draw = Ok ms -> (2 <= n)%nat ->
  (forall A, In A refs -> (forall i j, (i < n)%nat -> (j < n)%nat -> 1 <= A i j <= 2) /\ condition_le n (scale n A) (cond (scale n A))) ->
  (forall k, cond (scale n (draw k)) <= 3) -> ms = map (fun k => scale n (draw k)) (rev (seq 0 max_lag)).
Proof.
  intros fuel cond n max_lag q refs draw ms H N R D. apply run_parts in H as (Hn & Hl & thresh & ks & P & Lk & K & ->). rewrite <- map_rev. f_equal. f_equal.
  assert (T : 3 <= thresh).
  { apply (percentile_above _ _ _ _ (percentile_is _ _ _ P)). intros x Hx. apply in_map_iff in Hx as (A & <- & HA). destruct (R A HA) as [E C]. apply (C104_reference n A Hn E); assumption. }
  subst max_lag. clear - K D T. remember O as p eqn:E. clear E. induction K as [|p k l L O F K IH]; [reflexivity|]. cbn [length seq].
  destruct (Nat.eq_dec p k) as [->|M]; [rewrite <- IH; reflexivity|]. destruct (F p); [lia|]. pose proof (D p). lra.
Qed.
Print Assumptions C104_three.

(** ** Bad arguments *)
Theorem C104_raises : forall fuel cond n max_lag q refs draw,
  (n = O \/ max_lag = O -> generate_lag_transitions fuel cond n max_lag q refs draw = Err AssertionError) /\
  (n <> O -> max_lag <> O -> (q < 0 \/ 100 < q)%Z -> generate_lag_transitions fuel cond n max_lag q refs draw = Err ValueError).
Proof.
  intros fuel cond n max_lag q refs draw. unfold generate_lag_transitions, percentile. split.
  - intros H. destruct (Nat.eqb_spec n 0); [reflexivity|]. destruct (Nat.eqb_spec max_lag 0); [reflexivity|]. lia.
  - intros Hn Hl Q. destruct (Nat.eqb_spec n 0); [lia|]. destruct (Nat.eqb_spec max_lag 0); [lia|].
    destruct (Z.ltb_spec q 0); [reflexivity|]. destruct (Z.ltb_spec 100 q); [reflexivity|]. lia.
Qed.
Print Assumptions C104_raises.

(** ** A case
    Two nodes, one lag, the reference matrix with the columns (1, 2) and (2, 1); the first matrix drawn has the columns (1, 0) and (1, 1/4) and is rejected, the second is
    the identity and is kept.  [cond2] is the condition number of a matrix with two columns of length one. *)
Definition cond2 (A : nat -> nat -> R) : R := sqrt ((1 + Rabs (inner 2 A 0 1)) / (1 - Rabs (inner 2 A 0 1))).
Definition ref2 : nat -> nat -> R := fun i j => if Nat.eqb i j then 1 else 2.
Definition draw2 (k : nat) : nat -> nat -> R := fun i j =>
  match k with O => match i, j with O, _ => 1 | _, O => 0 | _, _ => 1 / 4 end | _ => if Nat.eqb i j then 1 else 0 end.

Lemma two : forall f, total 2 f = f 0%nat + f 1%nat.
Proof. intros f. rewrite !total_S, total_0. ring. Qed.

Lemma ref2_cos : inner 2 (scale 2 ref2) 0 1 = 4 / 5.
Proof.
  assert (I0 : inner 2 ref2 0 0 = 5) by (unfold inner; rewrite two; cbn; ring). assert (I1 : inner 2 ref2 1 1 = 5) by (unfold inner; rewrite two; cbn; ring).
  rewrite inner_scale by (try lia; lra). rewrite I0, I1, sqrt_sqrt by lra. unfold inner. rewrite two. cbn. field.
Qed.

Lemma ref2_cond : cond2 (scale 2 ref2) = 3.
Proof. unfold cond2. rewrite ref2_cos, Rabs_right by lra. replace ((1 + 4 / 5) / (1 - 4 / 5)) with (3 * 3) by field. apply sqrt_square. lra. Qed.

Lemma ref2_le : condition_le 2 (scale 2 ref2) (cond2 (scale 2 ref2)).
Proof.
  rewrite ref2_cond. split; [lra|]. intros x y.
  assert (U : forall j, (j < 2)%nat -> inner 2 (scale 2 ref2) j j = 1).
  { intros j Hj. apply (scale_unit 2 ref2); [|assumption]. intros c Hc. exists c. split; [assumption|]. unfold ref2. rewrite Nat.eqb_refl. lra. }
  assert (T : forall z, len2 2 (times 2 (scale 2 ref2) z) = z 0%nat * z 0%nat + z 1%nat * z 1%nat + 8 / 5 * (z 0%nat * z 1%nat)).
  { intros z. pose proof (U 0%nat ltac:(lia)) as U0. pose proof (U 1%nat ltac:(lia)) as U1. pose proof ref2_cos as U2. unfold inner in U0, U1, U2. rewrite two in U0, U1, U2.
    unfold len2, times. rewrite !two. set (M := scale 2 ref2) in *.
    transitivity ((M 0%nat 0%nat * M 0%nat 0%nat + M 1%nat 0%nat * M 1%nat 0%nat) * (z 0%nat * z 0%nat) + (M 0%nat 1%nat * M 0%nat 1%nat + M 1%nat 1%nat * M 1%nat 1%nat) * (z 1%nat * z 1%nat)
      + 2 * (M 0%nat 0%nat * M 0%nat 1%nat + M 1%nat 0%nat * M 1%nat 1%nat) * (z 0%nat * z 1%nat)); [ring|]. rewrite U0, U1, U2. field. }
  rewrite !T. unfold len2. rewrite !two. intros E. pose proof (Rle_0_sqr (x 0%nat - x 1%nat)) as X. pose proof (Rle_0_sqr (y 0%nat + y 1%nat)) as Y. unfold Rsqr in X, Y. lra.
Qed.

Lemma draw2_0 : 3 < cond2 (scale 2 (draw2 0)).
Proof.
  assert (I0 : inner 2 (draw2 0) 0 0 = 1) by (unfold inner; rewrite two; cbn; ring). assert (I1 : inner 2 (draw2 0) 1 1 = 17 / 16) by (unfold inner; rewrite two; cbn; field).
  assert (I : inner 2 (draw2 0) 0 1 = 1) by (unfold inner; rewrite two; cbn; ring).
  unfold cond2. rewrite inner_scale by (try lia; lra). rewrite I0, I1, I, sqrt_1, Rmult_1_l. set (s := sqrt (17 / 16)).
  assert (S2 : s * s = 17 / 16) by (apply sqrt_sqrt; lra). assert (S0 : 0 < s) by (apply sqrt_lt_R0; lra). assert (S1 : 1 < s) by nra. assert (S3 : s < 10 / 9) by nra.
  assert (E : (1 + Rabs (1 / s)) / (1 - Rabs (1 / s)) = (s + 1) / (s - 1)).
  { rewrite Rabs_right; [field; lra|]. left. apply Rdiv_lt_0_compat; lra. }
  rewrite E. replace 3 with (sqrt (3 * 3)) at 1 by (apply sqrt_square; lra). apply sqrt_lt_1_alt. split; [lra|]. apply Rmult_lt_reg_r with (s - 1); [lra|].
  replace ((s + 1) / (s - 1) * (s - 1)) with (s + 1) by (field; lra). lra.
Qed.

Lemma draw2_1 : forall k, cond2 (scale 2 (draw2 (S k))) = 1.
Proof.
  intros k. assert (I0 : inner 2 (draw2 (S k)) 0 0 = 1) by (unfold inner; rewrite two; cbn; ring). assert (I1 : inner 2 (draw2 (S k)) 1 1 = 1) by (unfold inner; rewrite two; cbn; ring).
  assert (I : inner 2 (draw2 (S k)) 0 1 = 0) by (unfold inner; rewrite two; cbn; ring).
  unfold cond2. rewrite inner_scale by (try lia; lra). rewrite I0, I1, I, sqrt_1. replace (0 / (1 * 1)) with 0 by field. rewrite Rabs_R0. replace ((1 + 0) / (1 - 0)) with 1 by field. apply sqrt_1.
Qed.

Example C104_example : generate_lag_transitions 2 cond2 2 1 25 [ref2] draw2 = Ok [scale 2 (draw2 1)] /\
  Forall (no_zero_column 2) [ref2] /\ (forall k, no_zero_column 2 (draw2 k)) /\
  (forall A, In A [ref2] -> (forall i j, (i < 2)%nat -> (j < 2)%nat -> 1 <= A i j <= 2) /\ condition_le 2 (scale 2 A) (cond2 (scale 2 A))) /\
  (forall p, exists k, (p <= k)%nat /\ forall A, In A [ref2] -> cond2 (scale 2 (draw2 k)) <= cond2 (scale 2 A)) /\
  (forall k, cond2 (scale 2 ((fun k => draw2 (S k)) k)) <= 3) /\ exists ms, generate_lag_transitions 2 cond2 2 3 25 [ref2] (fun k => draw2 (S k)) = Ok ms.
Proof.
  assert (P : forall q, (0 <= q <= 100)%Z -> percentile [cond2 (scale 2 ref2)] q = Ok 3).
  { intros q Q. destruct (percentile_runs [cond2 (scale 2 ref2)] q) as [v V]; [discriminate|assumption|]. rewrite V. f_equal. destruct (percentile_is _ _ _ V) as (s & k & Pm & _ & K & _ & C).
    apply Permutation_sym, Permutation_length_1_inv in Pm. subst s. cbn [length] in *. assert (k = O) by lia. subst k. destruct C as [[_ ->]|[L _]]; [cbn [nth]; apply ref2_cond|lia]. }
  repeat split.
  - unfold generate_lag_transitions. cbn [Nat.eqb map]. rewrite P by lia. cbn [rbind lag_loop generate_uniform_mat]. destruct (Rlt_dec 3 (cond2 (scale 2 (draw2 0)))) as [_|N]; [|destruct N; apply draw2_0].
    rewrite draw2_1. destruct (Rlt_dec 3 1) as [L|_]; [lra|]. reflexivity.
  - repeat constructor. intros c Hc. exists c. split; [assumption|]. unfold ref2. rewrite Nat.eqb_refl. lra.
  - intros [|k] j Hj; [exists O; split; [lia|cbn; lra]|exists j; split; [assumption|]; unfold draw2; rewrite Nat.eqb_refl; lra].
  - destruct H as [<-|[]]. unfold ref2. destruct (Nat.eqb i j); lra.
  - destruct H as [<-|[]]. unfold ref2. destruct (Nat.eqb i j); lra.
  - destruct H as [<-|[]]. apply ref2_le.
  - destruct H as [<-|[]]. intros x y E. apply ref2_le. assumption.
  - intros p. exists (S p). split; [lia|]. intros A [<-|[]]. rewrite draw2_1, ref2_cond. lra.
  - intros k. rewrite draw2_1. lra.
  - unfold generate_lag_transitions. cbn [Nat.eqb map]. rewrite P by lia. cbn [rbind lag_loop generate_uniform_mat fst snd]. rewrite !draw2_1. destruct (Rlt_dec 3 1) as [L|_]; [lra|]. cbn [rbind fst snd].
    rewrite !draw2_1. destruct (Rlt_dec 3 1) as [L|_]; [lra|]. cbn [rbind fst snd]. rewrite !draw2_1. destruct (Rlt_dec 3 1) as [L|_]; [lra|]. cbn [rbind]. eexists. reflexivity.
Qed.
