(** C105: mutual information from a smoothed histogram. *)

From Coq Require Import List Arith Bool Reals Lra Lia FunctionalExtensionality.
From Verif Require Import Model.Py Model.LagTransitions Model.Mutual Spec.LagSpec Spec.InfoSpec Proofs.LagFacts Proofs.MutualFacts.
Import ListNotations.
Open Scope R_scope.

Lemma bins_two : (2 <= bins)%nat.
Proof. unfold bins. lia. Qed.
Lemma bins_pos : (0 < bins)%nat.
Proof. pose proof bins_two. lia. Qed.
Global Opaque bins.

(** A smoothing of the histogram that gives no negative weights, like a Gaussian filter. *)
Definition keeps_sign (smooth : mat -> mat) : Prop := forall h, (forall i j, 0 <= h i j) -> forall i j, 0 <= smooth h i j.

(** ** The histogram
    Entry (i, j) is the number of samples with the first value in cell i and the second in cell j, of 256 cells of equal width over the range of each
    variable (of width 1 around the value if there is only one); every sample is in one cell. *)
Theorem C105_histogram : forall x y lx hx ly hy, length x = length y -> range_of x lx hx -> range_of y ly hy ->
  (forall i j, exists m, histogram (binned bins x y) i j = INR m /\ exactly (fun q => in_cell bins lx hx i (fst q) /\ in_cell bins ly hy j (snd q)) (combine x y) m) /\
  total bins (fun i => total bins (fun j => histogram (binned bins x y) i j)) = INR (length x).
Proof.
  intros x y lx hx ly hy L Rx Ry. pose proof bins_pos as N. split; [apply histogram_counts; assumption|].
  rewrite histogram_total; [unfold binned; rewrite combine_length, !map_length, L, Nat.min_id; reflexivity|].
  intros [u w] H. unfold binned in H. cbn [fst snd]. split.
  - apply in_combine_l in H. apply in_map_iff in H as (v & E & I). apply (bin_cell bins x lx hx v u N Rx I) in E. apply E.
  - apply in_combine_r in H. apply in_map_iff in H as (v & E & I). apply (bin_cell bins y ly hy v w N Ry I) in E. apply E.
Qed.
Print Assumptions C105_histogram.

(** ** The value
    For all samples it is the mutual information of the smoothed frequencies (with 2^-52 added to each weight): never negative, at most the entropy of
    either variable and ln 256, and 0 exactly if the smoothed table is the product of its marginals. *)
Theorem C105_value : forall smooth x y, keeps_sign smooth -> length x = length y -> exists p v,
  frequencies bins p /\ regularised bins (smooth (histogram (binned bins x y))) (/ 2 ^ 52) p /\ mutual_information_2d smooth x y false = Ok v /\
  v = information bins p /\ 0 <= v /\ v < entropy1 bins (row_freq bins p) /\ v < entropy1 bins (col_freq bins p) /\ v < ln (INR bins) /\
  (v = 0 <-> forall i j, (i < bins)%nat -> (j < bins)%nat -> p i j = row_freq bins p i * col_freq bins p j).
Proof.
  intros smooth x y K L. pose proof bins_pos as N. set (g := smooth (histogram (binned bins x y))). assert (G : forall i j, 0 <= g i j) by (apply K; intros; apply histogram_nonneg).
  pose proof (table_frequencies bins g N G) as F. exists (table bins g), (information bins (table bins g)).
  split; [assumption|]. split; [apply (table_regularised bins g N G)|].
  pose proof (information_is bins _ F) as I. pose proof (joint_larger bins _ F bins_two) as [J1 J2].
  pose proof (entropy1_range bins _ (row_pos bins _ F) (row_sum bins _ F)) as R1.
  split; [unfold mutual_information_2d; rewrite L, Nat.eqb_refl; f_equal; fold g; rewrite from_smoothed_is, I; ring|].
  split; [reflexivity|]. split; [apply information_nonneg; assumption|]. split; [lra|]. split; [lra|]. split; [lra|]. apply information_zero. assumption.
Qed.
Print Assumptions C105_value.

(** ** The normalised value
    The mutual information as a share of the joint entropy: at least 0, 0 exactly for a product of marginals, and below 1, also if the two variables
    are the same. *)
Theorem C105_normalized : forall smooth x y, keeps_sign smooth -> length x = length y -> exists p v,
  frequencies bins p /\ regularised bins (smooth (histogram (binned bins x y))) (/ 2 ^ 52) p /\ mutual_information_2d smooth x y true = Ok v /\
  v = information bins p / entropy2 bins p /\ 0 <= v < 1 /\
  (v = 0 <-> forall i j, (i < bins)%nat -> (j < bins)%nat -> p i j = row_freq bins p i * col_freq bins p j).
Proof.
  intros smooth x y K L. pose proof bins_pos as N. set (g := smooth (histogram (binned bins x y))). assert (G : forall i j, 0 <= g i j) by (apply K; intros; apply histogram_nonneg).
  pose proof (table_frequencies bins g N G) as F. exists (table bins g), (information bins (table bins g) / entropy2 bins (table bins g)).
  split; [assumption|]. split; [apply (table_regularised bins g N G)|].
  pose proof (information_is bins _ F) as I. pose proof (joint_larger bins _ F bins_two) as [J1 J2].
  pose proof (entropy1_range bins _ (row_pos bins _ F) (row_sum bins _ F)) as R1. pose proof (information_nonneg bins _ F) as I0. pose proof (information_zero bins _ F) as IZ.
  assert (D : 0 < entropy2 bins (table bins g)) by lra.
  split; [unfold mutual_information_2d; rewrite L, Nat.eqb_refl; f_equal; fold g; rewrite from_smoothed_is, I; field; lra|].
  split; [reflexivity|]. set (d := entropy2 bins (table bins g)) in *. set (m := information bins (table bins g)) in *. split; [split|].
  - apply Rmult_le_pos; [assumption|]. left. apply Rinv_0_lt_compat. assumption.
  - apply Rmult_lt_reg_r with d; [assumption|]. unfold Rdiv. rewrite Rmult_assoc, Rinv_l by lra. lra.
  - rewrite <- IZ. split; [intros Z|intros ->; field; lra]. replace m with (m / d * d) by (field; lra). rewrite Z. ring.
Qed.
Print Assumptions C105_normalized.

(** ** Units and order
    A change of the units of each variable (a positive factor and an offset) changes nothing; nor does exchanging the two variables, if the smoothing
    treats the two axes alike. *)
Theorem C105_units : forall smooth a b c d x y z, 0 < a -> 0 < c ->
  mutual_information_2d smooth (map (fun v => a * v + b) x) (map (fun v => c * v + d) y) z = mutual_information_2d smooth x y z.
Proof.
  intros smooth a b c d x y z A C. unfold mutual_information_2d, binned. rewrite !map_length, !bins_affine by (auto; apply bins_pos). reflexivity.
Qed.
Print Assumptions C105_units.

Theorem C105_symmetric : forall smooth x y z, (forall h i j, smooth (fun i j => h j i) i j = smooth h j i) ->
  mutual_information_2d smooth y x z = mutual_information_2d smooth x y z.
Proof.
  intros smooth x y z S. unfold mutual_information_2d. rewrite (Nat.eqb_sym (length y)). destruct (Nat.eqb (length x) (length y)); [|reflexivity]. f_equal.
  rewrite binned_swap. replace (histogram (map (fun q => (snd q, fst q)) (binned bins x y))) with (fun i j => histogram (binned bins x y) j i)
    by (apply functional_extensionality; intros i; apply functional_extensionality; intros j; symmetry; apply histogram_swap).
  set (h := histogram (binned bins x y)). replace (smooth (fun i j => h j i)) with (fun i j => smooth h j i)
    by (apply functional_extensionality; intros i; apply functional_extensionality; intros j; symmetry; apply S).
  apply from_smoothed_swap.
Qed.
Print Assumptions C105_symmetric.

Theorem C105_raises : forall smooth x y z, length x <> length y -> mutual_information_2d smooth x y z = Err ValueError.
Proof. intros smooth x y z L. unfold mutual_information_2d. destruct (Nat.eqb_spec (length x) (length y)); [contradiction|reflexivity]. Qed.
Print Assumptions C105_raises.

(** ** A case
    Three samples, with a smoothing that halves all weights: it meets what is asked for, the ranges are those of the data, and the value is not 0. *)
Definition halve (h : mat) : mat := fun i j => h i j / 2.

Lemma three_range : forall x, x = [0; 1; 2] \/ x = [1; 2; 0] -> range_of x 0 2.
Proof.
  intros x [-> | ->]; (split; [discriminate|]); exists 0, 2; (split; [cbn; tauto|]); (split; [cbn; tauto|]);
    (split; [intros v [<-|[<-|[<-|[]]]]; lra|]); left; (split; [lra|]); split; reflexivity.
Qed.

Lemma three_cells : in_cell bins 0 2 0 0 /\ in_cell bins 0 2 128 1 /\ in_cell bins 0 2 255 2.
Proof.
  Transparent bins. unfold in_cell, bins. Opaque bins. replace (INR 256) with 256 by (rewrite INR_IZR_INZ; reflexivity). replace (INR 128) with 128 by (rewrite INR_IZR_INZ; reflexivity).
  replace (INR 255) with 255 by (rewrite INR_IZR_INZ; reflexivity). change (INR 0) with 0.
  split; [|split]; (split; [lia|]); cbv zeta; (split; [lra|]); [left; lra|left; lra|right; split; [lia|reflexivity]].
Qed.

Lemma three_binned : binned bins [0; 1; 2] [1; 2; 0] = [(0, 128); (128, 255); (255, 0)]%nat.
Proof.
  destruct three_cells as (C0 & C1 & C2). unfold binned. rewrite (outer_is [0; 1; 2] 0 2), (outer_is [1; 2; 0] 0 2) by (apply three_range; auto). cbn [map combine].
  rewrite (bin_unique bins 0 2 0 0), (bin_unique bins 0 2 128 1), (bin_unique bins 0 2 255 2) by (auto; lra). reflexivity.
Qed.

Example C105_example : keeps_sign halve /\ (forall h i j, halve (fun i j => h j i) i j = halve h j i) /\
  range_of [0; 1; 2] 0 2 /\ range_of [1; 2; 0] 0 2 /\ range_of [3; 3] (5 / 2) (7 / 2) /\ length [0; 1; 2] = length [1; 2; 0] /\
  exists v, mutual_information_2d halve [0; 1; 2] [1; 2; 0] false = Ok v /\ 0 < v.
Proof.
  assert (K : keeps_sign halve) by (intros h H i j; pose proof (H i j); unfold halve; lra). split; [assumption|]. split; [reflexivity|].
  split; [apply three_range; auto|]. split; [apply three_range; auto|]. split.
  { split; [discriminate|]. exists 3, 3. split; [cbn; tauto|]. split; [cbn; tauto|]. split; [intros v [<-|[<-|[]]]; lra|]. right. split; [reflexivity|]. split; field. }
  split; [reflexivity|]. destruct (C105_value halve [0; 1; 2] [1; 2; 0] K eq_refl) as (p & v & F & R & E & _ & V & _ & _ & _ & Z). exists v. split; [assumption|].
  destruct V as [V|V]; [assumption|]. exfalso. symmetry in V. rewrite Z in V. rewrite three_binned in R. destruct three_cells as ((B0 & _) & (B1 & _) & (B2 & _)).
  set (W := total bins (fun i => total bins (fun j => halve (histogram [(0, 128); (128, 255); (255, 0)]%nat) i j + / 2 ^ 52))) in *.
  assert (H1 : p 0%nat 128%nat * W = 1 / 2 + / 2 ^ 52) by exact (R 0%nat 128%nat). assert (H2 : p 128%nat 255%nat * W = 1 / 2 + / 2 ^ 52) by exact (R 128%nat 255%nat).
  assert (H3 : p 0%nat 255%nat * W = 0 / 2 + / 2 ^ 52) by exact (R 0%nat 255%nat). assert (H4 : p 128%nat 128%nat * W = 0 / 2 + / 2 ^ 52) by exact (R 128%nat 128%nat).
  assert (P : (p 0%nat 128%nat * W) * (p 128%nat 255%nat * W) = (p 0%nat 255%nat * W) * (p 128%nat 128%nat * W)) by (rewrite !V by assumption; ring).
  rewrite H1, H2, H3, H4 in P. pose proof EPS_pos as Q. unfold EPS in Q. set (e := / 2 ^ 52) in *. lra.
Qed.
