(** C107: the entropy loss with nearest neighbours. *)

From Coq Require Import List Arith Bool Reals Lra Lia Permutation Sorted.
From Verif Require Import Model.Py Model.LocalScore Model.EntropyLoss Model.EntropyMore Model.LagTransitions Model.EntropyKnn Spec.NearestSpec Proofs.LagFacts Proofs.EntropyLossFacts Proofs.EntropyMoreFacts Proofs.EntropyKnnFacts.
Import ListNotations.
Open Scope R_scope.

(** ** One neighbour
    With k = 1, the default, the loss of at least two rows is the sum over variables and rows of ln (d^2 + EPS), where d is the distance of the standardised
    residual to the nearest other one of the variable.  (The members of each variable are taken in some order [s].) *)
Theorem C107_nearest : forall eps columns, 0 < eps -> Forall (fun c => (2 <= length c)%nat /\ tstd c <> 0) columns ->
  exists vs, Forall2 (fun c v => exists s, Permutation s (map (fun x => (x - tmean c) / tstd c) c) /\ nearest_sum eps s v) columns vs /\
             entropy_loss_knn eps 1 columns = Ok (fold_right Rplus 0 vs).
Proof.
  intros eps columns E F. rewrite Forall_forall in F.
  destruct (rsum_res_map _ (fun c => knn_column eps 1 (standard c)) (fun c v => exists s, Permutation s (map (fun x => (x - tmean c) / tstd c) c) /\ nearest_sum eps s v) columns) as (vs & G & V).
  - intros c Hc. destruct (F c Hc) as [L _]. destruct (column_one eps (standard c) E) as (s & v & P & N & K); [rewrite standard_len; assumption|]. exists v. split; [assumption|]. exists s. split; assumption.
  - exists vs. split; [assumption|]. unfold entropy_loss_knn. rewrite V. cbn [rbind]. f_equal. cbn [INR]. field.
Qed.
Print Assumptions C107_nearest.

(** ** Few rows
    Fewer than 2 k rows raise IndexError. *)
Theorem C107_few_rows : forall eps k n columns, (0 < n < 2 * k)%nat -> columns <> [] -> Forall (fun c => length c = n) columns -> entropy_loss_knn eps k columns = Err IndexError.
Proof.
  intros eps k n columns N C F. destruct columns as [|c columns]; [contradiction|]. inversion F as [|? ? Hc _ E1]; subst. unfold entropy_loss_knn. cbn [map]. unfold rsum_res. cbn [fold_right].
  rewrite column_short by (rewrite standard_len; assumption). reflexivity.
Qed.
Print Assumptions C107_few_rows.

(** ** Units
    Residuals of a variable in other units give the same loss, for every k: the loss does not see their size. *)
Theorem C107_units : forall eps k columns (a b : list R -> R), Forall (fun c => (2 <= length c)%nat /\ tstd c <> 0 /\ 0 < a c) columns ->
  entropy_loss_knn eps k (map (fun c => map (fun x => a c * x + b c) c) columns) = entropy_loss_knn eps k columns.
Proof.
  intros eps k columns a b F. unfold entropy_loss_knn. rewrite map_map. f_equal. f_equal. apply map_ext_in. intros c Hc. rewrite Forall_forall in F. destruct (F c Hc) as (L & S & A).
  rewrite standard_affine by (assumption || lra). rewrite Rabs_right by lra. f_equal. rewrite <- (map_id (standard c)) at 2. apply map_ext. intros z. field. lra.
Qed.
Print Assumptions C107_units.

Lemma sorted_id : forall l : list R, Sorted Rle l -> sorted_of l = l.
Proof.
  intros l S. apply (fun H => H). pose proof (sorted_of_sorted l) as S'. pose proof (sorted_of_perm l) as P. revert S S' P. generalize (sorted_of l). induction l as [|x l IH]; intros m S S' P.
  - apply Permutation_nil. symmetry. exact P.
  - destruct m as [|y m]; [apply Permutation_length in P; discriminate|].
    assert (T : forall z q, Sorted Rle (z :: q) -> forall w, In w (z :: q) -> z <= w).
    { intros z q Q w [<-|W]; [lra|]. apply Sorted_StronglySorted in Q; [|intros ? ? ?; apply Rle_trans]. inversion Q as [|? ? _ G]; subst. rewrite Forall_forall in G. apply G. exact W. }
    assert (y = x) as ->. { apply Rle_antisym; [apply (T y m S'), (Permutation_in _ (Permutation_sym P)); left; reflexivity|apply (T x l S), (Permutation_in _ P); left; reflexivity]. }
    f_equal. apply IH; [inversion S; assumption|inversion S'; assumption|apply (Permutation_cons_inv P)].
Qed.

Definition four : list R := [0; 1; 2; 3].

Lemma four_std : 0 < tstd four.
Proof.
  apply (tvar_pos four); [cbn; lia|]. rewrite tstd_tvar. assert (V : tvar four = 5 / 3) by (unfold tvar, tmean, four; cbn; lra). rewrite V. intros Z. apply sqrt_eq_0 in Z; lra.
Qed.

Lemma four_sorted : sorted_of (standard four) = standard four.
Proof.
  apply sorted_id. pose proof (Rinv_0_lt_compat _ four_std) as H. unfold standard. unfold four at 3. cbn [map]. unfold Rdiv. repeat constructor; nra.
Qed.

(** ** Two neighbours
    With k = 2 the neighbours used are not the nearest ones: each standardised residual of the column 0, 1, 2, 3 has two others for which the loss would be
    smaller (the second and the third look to one side only). *)
Theorem C107_two_refuted : exists column, (4 <= length column)%nat /\ tstd column <> 0 /\ forall eps, 0 < eps -> exists v, entropy_loss_knn eps 2 [column] = Ok v /\
  let z := map (fun x => (x - tmean column) / tstd column) column in
  let n := length column in
  let t i j := ln ((nth i z 0 - nth j z 0) ^ 2 + eps) in
  exists p q : nat -> nat, (forall i, (i < n)%nat -> (p i < n)%nat /\ (q i < n)%nat /\ p i <> i /\ q i <> i /\ p i <> q i) /\
  fold_right Rplus 0 (map (fun i => t i (p i) + t i (q i)) (seq 0 n)) / 2 < v.
Proof.
  exists four. pose proof four_std as S. split; [cbn; lia|]. split; [lra|]. intros eps E. eexists. split.
  - unfold entropy_loss_knn. cbn [map]. unfold knn_column. rewrite four_sorted. change (length (standard four)) with 4%nat. cbn [seq flat_map map app].
    unfold step. change (length (standard four)) with 4%nat. cbn [Nat.ltb Nat.leb Nat.sub Nat.add]. rewrite !term_is by (change (length (standard four)) with 4%nat; lia). unfold rsum_res. cbn [fold_right rbind]. reflexivity.
  - intros z n t. change (standard four) with z. exists (fun i => match i with 0 => 1 | 1 => 2 | 2 => 1 | _ => 2 end)%nat, (fun i => match i with 0 => 2 | 1 => 0 | 2 => 3 | _ => 1 end)%nat. split.
    + intros i Hi. change n with 4%nat in *. destruct i as [|[|[|[|i]]]]; try lia; repeat split; lia.
    + assert (A : t 1%nat 0%nat < t 1%nat 3%nat). { unfold t, z, four. cbn [map nth]. fold four. apply ln_increasing; pose proof (Rinv_0_lt_compat _ S); unfold Rdiv; nra. }
      assert (B : t 2%nat 3%nat < t 2%nat 0%nat). { unfold t, z, four. cbn [map nth]. fold four. apply ln_increasing; pose proof (Rinv_0_lt_compat _ S); unfold Rdiv; nra. }
      change n with 4%nat. cbn [seq map fold_right INR]. unfold t in *. lra.
Qed.
Print Assumptions C107_two_refuted.

(** The hypotheses are met: the column 0, 1, 2, 3, alone and in other units, and three of its rows with k = 2. *)
Example C107_example : Forall (fun c => (2 <= length c)%nat /\ tstd c <> 0) [four; four] /\ entropy_loss_knn 1 2 [[0; 1; 2]] = Err IndexError /\
  entropy_loss_knn 1 1 [map (fun x => 7 * x + 3) four] = entropy_loss_knn 1 1 [four].
Proof.
  pose proof four_std as S. split; [repeat constructor; cbn [length four]; try lia; lra|]. split.
  - apply (C107_few_rows 1 2 3); [lia|discriminate|repeat constructor].
  - apply (C107_units 1 1 [four] (fun _ => 7) (fun _ => 3)). repeat constructor; try (cbn; lia); lra.
Qed.
