(** C97: the Fisher-z test on data. *)

From Coq Require Import List Arith Lia Bool Permutation Reals Lra FunctionalExtensionality.
From Verif Require Import Model.Py Model.LocalScore Model.FisherZ Model.FisherData Spec.Scores Spec.Partial Spec.SampleSpec Spec.KCISpec
  Proofs.ScoreFacts Proofs.BicFacts Proofs.PopulationFacts Proofs.FisherZFacts Proofs.FisherDataFacts Props.ScoreProps Props.FisherZProps.
Import ListNotations.
Open Scope nat_scope.

(** The answer to a question about the variables [u] and [v] given the variables [Z], from [N] records: the
    statistic is the correlation of the residuals of [u] and [v], and the p-value, with at least k + 3 records,
    the two-sided tail of its Fisher transformation, cut at 0.9999999. *)
Definition answer (cdf : R -> R) (N : nat) (u v : nat -> R) (Z : list (nat -> R)) (p : option R) (r : R) : Prop :=
  (exists ru rv, residual N Z u ru /\ residual N Z v rv) /\
  (forall ru rv, residual N Z u ru -> residual N Z v rv -> r = pearson N ru rv) /\
  (List.length Z + 3 <= N -> p = Some (2 * (1 - cdf (sqrt (INR (N - List.length Z - 3)) * fisher_transform (Rmin 0.9999999 (Rabs r)))))%R).
(** The variables asked about. *)
Definition asked (x y : nat) (z : option (list nat)) : list nat := x :: y :: cond z.

Lemma different : forall N u vs, nondegenerate N (u :: u :: vs) -> False.
Proof.
  intros N u vs H. pose proof (H 0%R (fun a => match a with 0 => 1 | 1 => -1 | _ => 0 end)%R) as K.
  assert (1 = 0)%R as Z; [|lra]. refine (K _ 0 _); [|simpl; lia]. intros i Hi. unfold combination. cbn [List.length]. unfold sumRn. cbn [seq sumR nth]. rewrite sumR_zero; [ring|].
  intros a Ha. apply in_seq in Ha. destruct a as [|[|a]]; try lia. ring.
Qed.

Lemma answer_unique : forall cdf N u v Z p r p' r', List.length Z + 3 <= N -> answer cdf N u v Z p r -> answer cdf N u v Z p' r' -> p = p' /\ r = r'.
Proof.
  intros cdf N u v Z p r p' r' L [[ru [rv [A B]]] [U P]] [_ [U' P']].
  assert (r = r') as <- by (rewrite (U ru rv A B), (U' ru rv A B); auto). split; auto. rewrite P, P'; auto.
Qed.

(** On data whose variables asked about are in general position the test answers, with the partial correlation
    of the sample. *)
Theorem C97_value : forall inv cdf N d D x y z, right_inverse inv -> (forall i, In i (asked x y z) -> i < d) ->
  nondegenerate N (map (column D) (asked x y z)) ->
  exists p r, fisherz_on_data inv cdf N d D x y z = Ok (p, Some r) /\ (Rabs r < 1)%R /\
    answer cdf N (column D x) (column D y) (map (column D) (cond z)) p r.
Proof.
  intros inv cdf N d D x y z HI L ND.
  destruct (from_corr_value N d D inv HI cdf x y z L ND) as [r [E [B [Ex Un]]]].
  exists (z_pvalue cdf N (List.length (cond z)) r), r. split; [|split; [auto|split; [auto|split; [auto|]]]].
  - unfold fisherz_on_data. fold (cond z). fold (asked x y z).
    assert (2 <= d) as Ld.
    { assert (x < d) as Lx by (apply L; left; auto). assert (y < d) as Ly by (apply L; right; left; auto).
      assert (x <> y) as Nxy; [|lia]. intros <-. exact (different _ _ _ ND). }
    destruct (Nat.ltb_spec d 2); [lia|]. cbn [orb].
    assert (forallb (fun i => Nat.ltb i d) (asked x y z) = true) as ->.
    { apply forallb_forall. intros i Hi. apply Nat.ltb_lt. auto. }
    cbn [negb]. assert (existsb (no_variance N D) (asked x y z) = false) as ->.
    { destruct (existsb _ _) eqn:Q; auto. apply existsb_exists in Q. destruct Q as [c [Hc F]]. apply no_variance_spec in F. apply comoment_zero in F.
      apply (in_map (column D)) in Hc. apply (In_nth _ _ (fun _ => 0%R)) in Hc. destruct Hc as [a [Ha Ec]].
      pose proof (comoment_pos N _ ND a Ha) as P. cbv zeta beta in P. rewrite Ec in P. lra. }
    fold (cond z) in E. rewrite E. reflexivity.
  - intro LN. rewrite map_length in *. rewrite z_pvalue_eq by auto. unfold capped.
    replace 0.9999999%R with (9999999 / 10000000)%R by lra. reflexivity.
Qed.
Print Assumptions C97_value.

(** A constant variable among those asked about: the statistic is NaN, and the p-value does not depend on
    anything else in the data.  With more than k + 3 records it is at most that of a normal deviate of 7: a
    constant variable is declared dependent of every other, given any others. *)
Theorem C97_constant : forall inv cdf N d D x y z c, 2 <= d -> (forall i, In i (asked x y z) -> i < d) ->
  In c (asked x y z) -> flat N (column D c) ->
  exists p, fisherz_on_data inv cdf N d D x y z = Ok (p, None) /\
    (N < List.length (cond z) + 3 -> p = None) /\
    (N = List.length (cond z) + 3 -> p = Some (2 * (1 - cdf 0))%R) /\
    (List.length (cond z) + 3 <= N -> p = Some (2 * (1 - cdf (sqrt (INR (N - List.length (cond z) - 3)) * fisher_transform 0.9999999)))%R) /\
    (List.length (cond z) + 3 < N -> (forall u v, 0 <= u <= v -> cdf u <= cdf v)%R -> exists q, p = Some q /\ (q <= 2 * (1 - cdf 7))%R).
Proof.
  intros inv cdf N d D x y z c Ld L Hc F. exists (nan_pvalue cdf N (List.length (cond z))). split.
  { unfold fisherz_on_data. fold (cond z). fold (asked x y z). destruct (Nat.ltb_spec d 2); [lia|]. cbn [orb].
    assert (forallb (fun i => Nat.ltb i d) (asked x y z) = true) as ->.
    { apply forallb_forall. intros i Hi. apply Nat.ltb_lt. auto. }
    cbn [negb]. assert (existsb (no_variance N D) (asked x y z) = true) as ->; auto.
    apply existsb_exists. exists c. split; auto. apply no_variance_spec. auto. }
  set (k := List.length (cond z)).
  assert (0 <= 9999999 / 10000000 < 1)%R as R1 by lra.
  assert (k + 3 <= N -> nan_pvalue cdf N k = Some (2 * (1 - cdf (sqrt (INR (N - k - 3)) * fisher_transform 0.9999999)))%R) as E.
  { intro LN. unfold nan_pvalue. destruct (Nat.ltb_spec N (k + 3)); [lia|]. replace 0.9999999%R with (9999999 / 10000000)%R by lra.
    rewrite z_value_transform by auto. pose proof (transform_nonneg _ R1) as T. rewrite (Rabs_pos_eq (fisher_transform _)) by auto.
    rewrite Rabs_pos_eq; auto. apply Rmult_le_pos; auto. apply sqrt_pos. }
  split; [|split; [|split; [auto|]]].
  - intro LN. unfold nan_pvalue. destruct (Nat.ltb_spec N (k + 3)); [auto|lia].
  - intro EN. rewrite E by lia. replace (N - k - 3) with 0 by lia. simpl INR. rewrite sqrt_0, Rmult_0_l. auto.
  - intros LN Mono. rewrite E by lia. eexists. split; [reflexivity|].
    assert (7 <= fisher_transform 0.9999999)%R as T7.
    { replace 0.9999999%R with (9999999 / 10000000)%R by lra. unfold fisher_transform.
      replace ((1 + 9999999 / 10000000) / (1 - 9999999 / 10000000))%R with 19999999%R by (field; lra).
      assert (14 <= ln 19999999)%R; [|lra]. rewrite <- (ln_exp 14). 
      assert (exp 14 <= 19999999)%R as [Q|Q]; [|left; apply ln_increasing; [apply exp_pos|auto]|right; rewrite Q; auto].
      replace 14%R with (1 + (1 + (1 + (1 + (1 + (1 + (1 + (1 + (1 + (1 + (1 + (1 + (1 + 1)))))))))))))%R by lra.
      rewrite !exp_plus. pose proof exp_le_3 as E3. pose proof (exp_pos 1) as E0. set (e := exp 1) in *.
      apply Rle_trans with (e ^ 14)%R; [right; ring|]. apply Rle_trans with (3 ^ 14)%R; [apply pow_incr; lra|]. simpl. lra. }
    assert (1 <= sqrt (INR (N - k - 3)))%R as S1.
    { rewrite <- sqrt_1. apply sqrt_le_1_alt. change 1%R with (INR 1). apply le_INR. lia. }
    assert (cdf 7 <= cdf (sqrt (INR (N - k - 3)) * fisher_transform 0.9999999))%R; [|lra]. apply Mono. split; [lra|].
    apply Rle_trans with (1 * fisher_transform 0.9999999)%R; [lra|]. apply Rmult_le_compat_r; lra.
Qed.
Print Assumptions C97_constant.

(** The order of the records does not matter, whatever the inverse does. *)
Theorem C97_order : forall inv cdf N d D D' q x y z, reordered N q D D' ->
  fisherz_on_data inv cdf N d D' x y z = fisherz_on_data inv cdf N d D x y z.
Proof.
  intros inv cdf N d D D' q x y z [P E].
  assert (forall f, rsumn N (fun i => f (q i)) = rsumn N f) as RP.
  { intro f. rewrite !rsumn_sumR. unfold sumRn. rewrite <- (sumR_perm _ _ f P). generalize (seq 0 N). induction l as [|a l IH]; simpl; auto. rewrite IH. auto. }
  assert (forall i c, deviation N D' i c = deviation N D (q i) c) as Ed.
  { intros i c. unfold deviation. rewrite E. do 2 f_equal. rewrite <- (RP (fun k => D k c)). apply f_equal. extensionality k. auto. }
  assert (np_cov N D' = np_cov N D) as Ec.
  { extensionality a. extensionality b. unfold np_cov. f_equal. rewrite <- (RP (fun i => deviation N D i a * deviation N D i b)%R).
    apply f_equal. extensionality k. rewrite !Ed. auto. }
  assert (np_corrcoef N D' = np_corrcoef N D) as Er by (extensionality a; extensionality b; unfold np_corrcoef; rewrite Ec; auto).
  assert (no_variance N D' = no_variance N D) as Ev by (extensionality a; unfold no_variance; rewrite Ec; auto).
  unfold fisherz_on_data. rewrite Er, Ev. reflexivity.
Qed.
Print Assumptions C97_order.

Lemma combination_map : forall b (f : nat -> nat -> R) l i, combination b (map f l) i = sumRn (List.length l) (fun a => b a * f (nth a l O) i)%R.
Proof.
  intros b f l i. unfold combination. rewrite map_length. apply sum_ext. intros a Ha.
  rewrite (nth_indep _ (fun _ => 0%R) (f O)) by (rewrite map_length; auto). rewrite map_nth. auto.
Qed.

Lemma combination_minus : forall b c vs i, combination (fun a => b a - c a)%R vs i = (combination b vs i - combination c vs i)%R.
Proof. intros. unfold combination. rewrite <- sum_minus. apply sum_ext. intros. ring. Qed.

(** Measured in other units. *)
Section Units.
  Variable N : nat.
  Variables D D' : nat -> nat -> R.
  Variables sc sh : nat -> R.
  Variable l : list nat.
  Hypothesis Hs : forall c, In c l -> (sc c <> 0)%R.
  Hypothesis HD : forall i c, i < N -> In c l -> D' i c = (sc c * D i c + sh c)%R.

  Lemma units_nondegenerate : nondegenerate N (map (column D) l) -> nondegenerate N (map (column D') l).
  Proof using Hs HD.
    intros ND b0 b H a Ha. rewrite map_length in Ha.
    assert (b a * sc (nth a l O) = 0)%R as K.
    { refine (ND (b0 + sumRn (List.length l) (fun a => b a * sh (nth a l O)))%R (fun a => b a * sc (nth a l O))%R _ a _); [|rewrite map_length; auto].
      intros i Hi. rewrite <- (H i Hi). rewrite !combination_map. rewrite Rplus_assoc, <- sum_plus. f_equal. apply sum_ext. intros c Hc.
      unfold column. rewrite (HD i (nth c l O)) by (auto; apply nth_In; auto). ring. }
    destruct (Rmult_integral _ _ K) as [|Z]; auto. exfalso. apply (Hs (nth a l O)); auto. apply nth_In. auto.
  Qed.

  Lemma units_residual : forall Z x r, In x l -> incl Z l -> residual N (map (column D) Z) (column D x) r ->
    residual N (map (column D') Z) (column D' x) (fun i => sc x * r i)%R.
  Proof using Hs HD.
    intros Z x r Hx HZ [[b0 [b E]] [S O]]. split; [|split].
    - exists (sc x * b0 + sh x - sumRn (List.length Z) (fun a => sc x * b a / sc (nth a Z 0%nat) * sh (nth a Z 0%nat)))%R, (fun a => sc x * b a / sc (nth a Z 0%nat))%R.
      intros i Hi. unfold column at 1. rewrite (HD i x Hi Hx). specialize (E i Hi). unfold column at 1 in E. rewrite E. rewrite !combination_map.
      rewrite (sum_ext _ (fun a => sc x * b a / sc (nth a Z 0%nat) * column D' (nth a Z 0%nat) i)%R
        (fun a => sc x * (b a * column D (nth a Z 0%nat) i) + sc x * b a / sc (nth a Z 0%nat) * sh (nth a Z 0%nat))%R).
      + rewrite sum_plus, sum_scal. ring.
      + intros a Ha. assert (In (nth a Z 0) l) as I by (apply HZ, nth_In; auto). unfold column. rewrite (HD i _ Hi I). field. apply Hs. auto.
    - rewrite sum_scal, S. ring.
    - intros v Hv. apply in_map_iff in Hv. destruct Hv as [c [<- Hc]].
      rewrite (sum_ext N _ (fun i => sc x * sc c * (r i * column D c i) + sc x * sh c * r i)%R).
      + rewrite sum_plus, !sum_scal, S, (O (column D c)) by (apply in_map; auto). ring.
      + intros i Hi. unfold column. rewrite (HD i c) by auto. ring.
  Qed.
End Units.

Lemma pearson_scale : forall N u v a b, (a <> 0)%R -> (b <> 0)%R ->
  pearson N (fun i => a * u i)%R (fun i => b * v i)%R = (if Rlt_dec 0 (a * b) then pearson N u v else - pearson N u v)%R.
Proof.
  intros N u v a b Ha Hb.
  assert (forall a u, average N (fun i => a * u i)%R = (a * average N u)%R) as A by (intros; unfold average; rewrite sum_scal; unfold Rdiv; ring).
  assert (forall a b u v, comoment N (fun i => a * u i)%R (fun i => b * v i)%R = (a * b * comoment N u v)%R) as C.
  { intros. unfold comoment. rewrite <- sum_scal. apply sum_ext. intros. rewrite !A. ring. }
  unfold pearson. rewrite !C. set (X := comoment N u v). set (P := (comoment N u u * comoment N v v)%R).
  replace (a * a * comoment N u u * (b * b * comoment N v v))%R with (Rsqr (a * b) * P)%R by (unfold P, Rsqr; ring).
  assert (0 <= P)%R as HP by (apply Rmult_le_pos; apply comoment_nonneg).
  rewrite sqrt_mult by (auto; apply Rle_0_sqr). rewrite sqrt_Rsqr_abs.
  assert (a * b <> 0)%R as Hab by (apply Rmult_integral_contrapositive_currified; auto).
  destruct HP as [HP|HP].
  - pose proof (sqrt_lt_R0 _ HP). destruct (Rlt_dec 0 (a * b)) as [L|L].
    + rewrite Rabs_pos_eq by lra. field. split; [lra|split; auto].
    + rewrite Rabs_left by lra. field. split; [lra|split; auto].
  - rewrite <- HP, sqrt_0, Rmult_0_r. unfold Rdiv. destruct (Rlt_dec 0 (a * b)); rewrite Rinv_0; ring.
Qed.

(** Units: rescaling and shifting the variables, each on its own, does not change the p-value, and changes at
    most the sign of the statistic. *)
Theorem C97_units : forall inv cdf N d D D' sc sh x y z, right_inverse inv -> (forall i, In i (asked x y z) -> i < d) ->
  (forall c, In c (asked x y z) -> sc c <> 0)%R -> (forall i c, i < N -> In c (asked x y z) -> D' i c = (sc c * D i c + sh c)%R) ->
  List.length (cond z) + 3 <= N -> nondegenerate N (map (column D) (asked x y z)) ->
  exists p r, fisherz_on_data inv cdf N d D x y z = Ok (p, Some r) /\
    fisherz_on_data inv cdf N d D' x y z = Ok (p, Some (if Rlt_dec 0 (sc x * sc y) then r else - r)%R).
Proof.
  intros inv cdf N d D D' sc sh x y z HI L Hs HD LN ND.
  destruct (C97_value inv cdf N d D x y z HI L ND) as [p [r [E [_ [[rx [ry [Rx Ry]]] [U P]]]]]].
  pose proof (units_nondegenerate N D D' sc sh _ Hs HD ND) as ND'.
  destruct (C97_value inv cdf N d D' x y z HI L ND') as [p' [r' [E' [_ [_ [U' P']]]]]].
  exists p, r. split; auto. rewrite E'. rewrite map_length in P, P'.
  assert (In x (asked x y z)) as Ix by (left; auto). assert (In y (asked x y z)) as Iy by (right; left; auto).
  assert (incl (cond z) (asked x y z)) as Iz by (intros c Hc; right; right; auto).
  assert (r' = if Rlt_dec 0 (sc x * sc y) then r else - r)%R as Er.
  { rewrite (U' _ _ (units_residual N D D' sc sh _ Hs HD _ x rx Ix Iz Rx) (units_residual N D D' sc sh _ Hs HD _ y ry Iy Iz Ry)).
    rewrite pearson_scale by auto. rewrite <- (U rx ry Rx Ry). auto. }
  assert (Rabs r' = Rabs r) as Ea by (rewrite Er; destruct (Rlt_dec 0 (sc x * sc y)); auto; apply Rabs_Ropp).
  rewrite <- Er, P, P', Ea by auto. reflexivity.
Qed.
Print Assumptions C97_units.

(* ---------- the function on arrays ---------- *)
(** The columns of an optional argument, and an argument that is one variable. *)
Definition columns_of (a : option arr) : list (nat -> R) :=
  match a with None => [] | Some (Vec v) => [v] | Some (Mat d m) => map (column m) (seq 0 d) end.
Definition one_variable (a : arr) (v : nat -> R) : Prop := a = Vec v \/ exists m, a = Mat 1 m /\ v = column m 0.

Lemma nth_seq_map : forall A (f : nat -> A) s n, map f (seq s n) = map (fun a => f (s + a)) (seq 0 n).
Proof.
  intros A f s n. revert s. induction n as [|n IH]; intro s; [auto|]. cbn [seq map]. rewrite Nat.add_0_r. f_equal.
  rewrite (IH (S s)). rewrite <- (seq_shift n 0), map_map. apply map_ext. intros. f_equal. lia.
Qed.

(** For one variable against another, given any matrix of others, the function on arrays answers the question
    that its arguments state. *)
Theorem C97_function : forall inv cdf N x y Z u v, right_inverse inv -> one_variable x u -> one_variable y v ->
  (Z = None -> x = Vec u /\ y = Vec v) -> nondegenerate N (u :: v :: columns_of Z) ->
  exists p r, fisherz inv cdf N x y Z = Ok (p, Some r) /\ (Rabs r < 1)%R /\ answer cdf N u v (columns_of Z) p r.
Proof.
  intros inv cdf N x y Z u v HI Hx Hy HZ ND. destruct Z as [Z|].
  - set (dz := fst (as_columns Z)). set (zm := snd (as_columns Z)).
    set (D := fun i c => match c with 0 => u i | 1 => v i | S (S c) => zm i c end).
    assert (fisherz inv cdf N x y (Some Z) = fisherz_on_data inv cdf N (2 + dz) D 0 1 (Some (seq 2 dz))) as ->.
    { unfold fisherz. assert (exists X, as_columns x = (1, X) /\ forall i, X i 0 = u i) as [X [-> EX]].
      { destruct Hx as [->|[m [-> ->]]]; eexists; split; reflexivity. }
      assert (exists Y, as_columns y = (1, Y) /\ forall i, Y i 0 = v i) as [Y [-> EY]].
      { destruct Hy as [->|[m [-> ->]]]; eexists; split; reflexivity. }
      rewrite (surjective_pairing (as_columns Z)). fold dz. fold zm. f_equal.
      extensionality i. extensionality c. unfold concatenated, D. destruct c as [|[|c]]; simpl; auto. rewrite Nat.sub_0_r. auto. }
    assert (map (column D) (seq 2 dz) = columns_of (Some Z)) as EZ.
    { rewrite nth_seq_map. unfold dz, D, zm. destruct Z as [w|dd m]; reflexivity. }
    assert (map (column D) (asked 0 1 (Some (seq 2 dz))) = u :: v :: columns_of (Some Z)) as EA.
    { unfold asked. cbn [cond map]. rewrite EZ. f_equal. }
    assert (forall i, In i (asked 0 1 (Some (seq 2 dz))) -> i < 2 + dz) as Lt.
    { intros i [<-|[<-|Hi]]; [lia|lia|]. cbn [cond] in Hi. apply in_seq in Hi. lia. }
    rewrite <- EA in ND. destruct (C97_value inv cdf N (2 + dz) D 0 1 (Some (seq 2 dz)) HI Lt ND) as [p [r [E [B A]]]].
    exists p, r. split; auto. split; auto. cbn [cond] in A. rewrite EZ in A. exact A.
  - destruct (HZ eq_refl) as [-> ->]. unfold fisherz.
    set (D := fun i c => if Nat.eqb c 0 then u i else v i).
    destruct (C97_value inv cdf N 2 D 0 1 None HI) as [p [r [E [B A]]]].
    + intros i [<-|[<-|[]]]; lia.
    + exact ND.
    + exists p, r. split; auto.
Qed.
Print Assumptions C97_function.

(** It agrees with the class on the matrix that holds the variables. *)
Theorem C97_same_as_class : forall inv cdf N d D x y z, right_inverse inv -> (forall i, In i (asked x y (Some z)) -> i < d) ->
  List.length z + 3 <= N -> nondegenerate N (map (column D) (asked x y (Some z))) ->
  fisherz inv cdf N (Vec (column D x)) (Vec (column D y)) (Some (Mat (List.length z) (fun i c => D i (nth c z O)))) =
  fisherz_on_data inv cdf N d D x y (Some z).
Proof.
  intros inv cdf N d D x y z HI L LN ND.
  destruct (C97_value inv cdf N d D x y (Some z) HI L ND) as [p [r [E [_ A]]]]. rewrite E.
  assert (columns_of (Some (Mat (List.length z) (fun i c => D i (nth c z O)))) = map (column D) z) as EZ.
  { cbn [columns_of]. apply nth_ext with (d := fun _ => 0%R) (d' := fun _ => 0%R); [rewrite !map_length, seq_length; auto|].
    intros c Hc. rewrite map_length, seq_length in Hc.
    rewrite (nth_indep _ (fun _ => 0%R) (column (fun i c => D i (nth c z O)) O)) by (rewrite map_length, seq_length; auto). rewrite map_nth, seq_nth by auto.
    rewrite (nth_indep _ (fun _ => 0%R) (column D O)) by (rewrite map_length; auto). rewrite map_nth. reflexivity. }
  destruct (C97_function inv cdf N (Vec (column D x)) (Vec (column D y)) (Some (Mat (List.length z) (fun i c => D i (nth c z O)))) (column D x) (column D y) HI)
    as [p' [r' [E' [_ A']]]].
  - left; auto.
  - left; auto.
  - discriminate.
  - rewrite EZ. exact ND.
  - rewrite E'. rewrite EZ in A'. cbn [cond] in A.
    destruct (answer_unique cdf N (column D x) (column D y) (map (column D) z) p r p' r') as [<- <-]; auto. rewrite map_length. auto.
Qed.
Print Assumptions C97_same_as_class.

(** Without [Z] it takes vectors only. *)
Theorem C97_column_vectors : forall inv cdf N x y, (exists d m, x = Mat d m \/ y = Mat d m) -> fisherz inv cdf N x y None = Err ValueError.
Proof. intros inv cdf N x y [d [m [->| ->]]]; [reflexivity|]. destruct x; reflexivity. Qed.
Print Assumptions C97_column_vectors.

(** The columns after the first two of a matrix [x] with more than one column, then those of [y] and of [Z]. *)
Definition later (x y Z : arr) : rmat :=
  fun i c => concatenated (fst (as_columns x)) (snd (as_columns x)) (fst (as_columns y)) (snd (as_columns y)) (snd (as_columns Z)) i (2 + c).

(** For a matrix [x] with more than one column it asks another question: whether the first two columns of [x]
    are independent given the next columns of x, y and Z, as many as [Z] has ... *)
Theorem C97_first_two : forall inv cdf N dx m y Z, 2 <= dx ->
  fisherz inv cdf N (Mat dx m) y (Some Z) = fisherz inv cdf N (Vec (column m 0)) (Vec (column m 1)) (Some (Mat (fst (as_columns Z)) (later (Mat dx m) y Z))).
Proof.
  intros inv cdf N dx m y Z L. unfold fisherz. cbn [as_columns]. unfold later. cbn [as_columns fst snd].
  rewrite (surjective_pairing (as_columns y)), (surjective_pairing (as_columns Z)). cbn [fst snd].
  set (dy := fst (as_columns y)). set (Y := snd (as_columns y)). set (dz := fst (as_columns Z)). set (zm := snd (as_columns Z)).
  set (D := concatenated dx m dy Y zm).
  assert (concatenated 1 (fun i _ => column m 0 i) 1 (fun i _ => column m 1 i) (fun i c => D i (2 + c)) = D) as ->.
  { extensionality i. extensionality c. unfold concatenated at 1. destruct c as [|[|c]].
    - simpl. unfold D, concatenated, column. destruct (Nat.ltb_spec 0 dx); [auto|lia].
    - simpl. unfold D, concatenated, column. destruct (Nat.ltb_spec 1 dx); [auto|lia].
    - cbn [Nat.ltb Nat.leb Nat.add Nat.sub]. rewrite Nat.sub_0_r. reflexivity. }
  assert (forall dd, 2 + dz <= dd -> fisherz_on_data inv cdf N dd D 0 1 (Some (seq 2 dz)) =
    if existsb (no_variance N D) (0 :: 1 :: seq 2 dz) then Ok (nan_pvalue cdf N (List.length (seq 2 dz)), None)
    else rbind (inv (List.length (0 :: 1 :: seq 2 dz)) (fun a b => np_corrcoef N D (nth a (0 :: 1 :: seq 2 dz) 0) (nth b (0 :: 1 :: seq 2 dz) 0)))
      (fun inv_mat => let stats := (- inv_mat 0%nat 1%nat / sqrt (Rabs (inv_mat 0%nat 0%nat * inv_mat 1%nat 1%nat)))%R in
        Ok (z_pvalue cdf N (List.length (seq 2 dz)) stats, Some stats))) as K.
  { intros dd Ld. unfold fisherz_on_data. destruct (Nat.ltb_spec dd 2); [lia|]. cbn [orb].
    assert (forallb (fun i => Nat.ltb i dd) (0 :: 1 :: seq 2 dz) = true) as F.
    { apply forallb_forall. intros i Hi. apply Nat.ltb_lt. destruct Hi as [<-|[<-|Hi]]; [lia|lia|]. apply in_seq in Hi. lia. }
    rewrite F. cbn [negb]. destruct (existsb _ _); auto. unfold fisherz_from_corr. rewrite F. cbn [negb].
    match goal with |- context [inv ?a ?b] => destruct (inv a b) end; reflexivity. }
  rewrite (K (dx + dy + dz)), (K (1 + 1 + dz)) by lia. reflexivity.
Qed.
Print Assumptions C97_first_two.

(** ... so that [y] does not matter at all if [x] has two columns more than [Z]. *)
Theorem C97_ignores_y : forall inv cdf N dx m y y' Z, 2 + fst (as_columns Z) <= dx ->
  fisherz inv cdf N (Mat dx m) y (Some Z) = fisherz inv cdf N (Mat dx m) y' (Some Z).
Proof.
  intros inv cdf N dx m y y' Z L.
  assert (forall y, fisherz inv cdf N (Mat dx m) y (Some Z) =
    fisherz inv cdf N (Vec (column m 0)) (Vec (column m 1)) (Some (Mat (fst (as_columns Z)) (fun i c => m i (2 + c))))) as K; [|rewrite !K; auto].
  clear y y'. intro y. rewrite C97_first_two by lia. unfold fisherz. cbn [as_columns].
  set (dz := fst (as_columns Z)) in *. set (D := concatenated _ _ _ _ (later _ _ _)). set (D' := concatenated _ _ _ _ (fun i c => m i (2 + c))).
  assert (forall i c, c < 2 + dz -> D i c = D' i c) as E.
  { intros i c Hc. unfold D, D', later, concatenated. cbn [as_columns fst snd].
    destruct (Nat.ltb_spec c 1); auto. destruct (Nat.ltb_spec c (1 + 1)); auto. destruct (Nat.ltb_spec (2 + (c - 1 - 1)) dx); [auto|lia]. }
  assert (forall a b, a < 2 + dz -> b < 2 + dz -> np_cov N D a b = np_cov N D' a b) as Ec.
  { intros a b Ha Hb. unfold np_cov. f_equal. apply f_equal. extensionality i. unfold deviation. rewrite !E by auto.
    assert (forall c, c < 2 + dz -> (fun k => D k c) = (fun k => D' k c)) as Ek by (intros c Hc; extensionality k; auto).
    rewrite !Ek by auto. auto. }
  assert (forall a, nth a (0 :: 1 :: seq 2 dz) 0 < 2 + dz) as Ln.
  { intro a. change (0 :: 1 :: seq 2 dz) with (seq 0 (2 + dz)). destruct (le_lt_dec (2 + dz) a); [rewrite nth_overflow by (rewrite seq_length; auto); lia|].
    rewrite seq_nth by auto. lia. }
  unfold fisherz_on_data. destruct (Nat.ltb (1 + 1 + dz) 2 || _); auto.
  assert (existsb (no_variance N D) (0 :: 1 :: seq 2 dz) = existsb (no_variance N D') (0 :: 1 :: seq 2 dz)) as ->.
  { assert (forall l, (forall c, In c l -> c < 2 + dz) -> existsb (no_variance N D) l = existsb (no_variance N D') l) as Q.
    { induction l as [|c l IH]; intros Hl; auto. cbn [existsb]. rewrite IH by (intros; apply Hl; right; auto). f_equal. unfold no_variance. rewrite Ec by (apply Hl; left; auto). auto. }
    apply Q. intros c Hc. destruct Hc as [<-|[<-|Hc]]; [lia|lia|]. apply in_seq in Hc. lia. }
  assert (fisherz_from_corr inv cdf (1 + 1 + dz) (np_corrcoef N D) N 0 1 (Some (seq 2 dz)) = fisherz_from_corr inv cdf (1 + 1 + dz) (np_corrcoef N D') N 0 1 (Some (seq 2 dz))) as ->; auto.
  unfold fisherz_from_corr. destruct (negb _); auto.
  assert ((fun a b => np_corrcoef N D (nth a (0 :: 1 :: seq 2 dz) 0) (nth b (0 :: 1 :: seq 2 dz) 0)) =
    (fun a b => np_corrcoef N D' (nth a (0 :: 1 :: seq 2 dz) 0) (nth b (0 :: 1 :: seq 2 dz) 0))) as ->; auto.
  extensionality a. extensionality b. unfold np_corrcoef. rewrite !Ec by auto. auto.
Qed.
Print Assumptions C97_ignores_y.

(** Full factorial designs with eight records: three independent signs. *)
Definition sign0 (i : nat) : R := if Nat.testbit i 0 then 1%R else (-1)%R.
Definition sign1 (i : nat) : R := if Nat.testbit i 1 then 1%R else (-1)%R.
Definition sign2 (i : nat) : R := if Nat.testbit i 2 then 1%R else (-1)%R.
(** Two variables with a common cause, and the cause. *)
Definition effects : rmat := fun i c => match c with 0 => sign0 i + sign2 i | 1 => sign1 i + sign2 i | 2 => sign2 i | _ => 5 end%R.

Lemma effects_general : nondegenerate 8 (map (column effects) [0; 1; 2]) /\ nondegenerate 8 (map (column effects) [0; 1]).
Proof.
  split; intros b0 b H a Ha; unfold combination, sumRn in H; cbn [List.length map seq sumR nth] in H; unfold column, effects, sign0, sign1, sign2 in H;
    pose proof (H 0 ltac:(lia)) as H0; pose proof (H 1 ltac:(lia)) as H1; pose proof (H 2 ltac:(lia)) as H2; pose proof (H 4 ltac:(lia)) as H4;
    cbn in H0, H1, H2, H4; cbn in Ha; destruct a as [|[|[|a]]]; try lia; lra.
Qed.

(** The common cause: correlation 1/2 without it, 0 given it; a constant column; and answers of the function. *)
Example C97_example : right_inverse spd_inv /\ nondegenerate 8 (map (column effects) (asked 0 1 (Some [2]))) /\
  (exists p, fisherz_on_data spd_inv half_cdf 8 4 effects 0 1 (Some [2]) = Ok (p, Some 0%R)) /\
  (exists p, fisherz_on_data spd_inv half_cdf 8 4 effects 0 1 None = Ok (p, Some (1 / 2)%R)) /\
  flat 8 (column effects 3) /\ (forall u v, 0 <= u <= v -> half_cdf u <= half_cdf v)%R /\
  reordered 8 (fun i => 7 - i) effects (fun i => effects (7 - i)).
Proof.
  destruct effects_general as [G3 G2]. split; [exact spd_inv_ok|]. split; [exact G3|].
  split; [|split; [|split; [|split; [|split]]]].
  - destruct (C97_value spd_inv half_cdf 8 4 effects 0 1 (Some [2]) spd_inv_ok) as [p [r [E [_ [_ [U _]]]]]].
    + simpl. intros; lia.
    + exact G3.
    + exists p. rewrite E. do 3 f_equal. rewrite (U sign0 sign1).
      * unfold pearson. assert (comoment 8 sign0 sign1 = 0)%R as ->; [|unfold Rdiv; ring].
        unfold comoment, average, sumRn, sign0, sign1. simpl. field.
      * split; [|split].
        -- exists 0%R, (fun _ => 1%R). intros i _. unfold combination, sumRn. simpl. unfold column, effects. lra.
        -- unfold sumRn, sign0. simpl. lra.
        -- intros v [<-|[]]. unfold column, effects, sumRn, sign0, sign2. simpl. lra.
      * split; [|split].
        -- exists 0%R, (fun _ => 1%R). intros i _. unfold combination, sumRn. simpl. unfold column, effects. lra.
        -- unfold sumRn, sign1. simpl. lra.
        -- intros v [<-|[]]. unfold column, effects, sumRn, sign1, sign2. simpl. lra.
  - destruct (C97_value spd_inv half_cdf 8 4 effects 0 1 None spd_inv_ok) as [p [r [E [_ [_ [U _]]]]]].
    + simpl. intros; lia.
    + exact G2.
    + exists p. rewrite E. do 3 f_equal. rewrite (U (column effects 0) (column effects 1)).
      * unfold pearson. assert (comoment 8 (column effects 0) (column effects 1) = 8)%R as ->.
        { unfold comoment, average, sumRn, column, effects, sign0, sign1, sign2. simpl. field. }
        assert (comoment 8 (column effects 0) (column effects 0) = 16)%R as ->.
        { unfold comoment, average, sumRn, column, effects, sign0, sign1, sign2. simpl. field. }
        assert (comoment 8 (column effects 1) (column effects 1) = 16)%R as ->.
        { unfold comoment, average, sumRn, column, effects, sign0, sign1, sign2. simpl. field. }
        rewrite sqrt_square by lra. lra.
      * split; [|split].
        -- exists 0%R, (fun _ => 0%R). intros i _. unfold combination, sumRn. simpl. lra.
        -- unfold sumRn, column, effects, sign0, sign2. simpl. lra.
        -- intros v [].
      * split; [|split].
        -- exists 0%R, (fun _ => 0%R). intros i _. unfold combination, sumRn. simpl. lra.
        -- unfold sumRn, column, effects, sign1, sign2. simpl. lra.
        -- intros v [].
  - intros i j _ _. reflexivity.
  - intros u v [H0 H]. unfold half_cdf. assert (/ (2 * (1 + v)) <= / (2 * (1 + u)))%R; [|lra]. apply Rinv_le_contravar; lra.
  - simpl. apply Permutation_sym. apply (Permutation_rev [0; 1; 2; 3; 4; 5; 6; 7]).
  - reflexivity.
Qed.

(** A column that is not there, and data with one column, are errors. *)
Theorem C97_missing_column : forall inv cdf N d D x y z, d < 2 \/ (exists i, In i (asked x y z) /\ d <= i) ->
  fisherz_on_data inv cdf N d D x y z = Err IndexError.
Proof.
  intros inv cdf N d D x y z H. unfold fisherz_on_data. fold (cond z). fold (asked x y z).
  destruct (Nat.ltb_spec d 2) as [L|L]; [reflexivity|]. destruct H as [H|[i [Hi Li]]]; [lia|].
  assert (forallb (fun i => Nat.ltb i d) (asked x y z) = false) as ->; [|reflexivity].
  apply not_true_iff_false. intro F. rewrite forallb_forall in F. apply F in Hi. apply Nat.ltb_lt in Hi. lia.
Qed.
Print Assumptions C97_missing_column.

(** The claim that the function tests its matrix [x] against [y] is false: [y] is the first column of [x], and
    the answer is a statistic of 0 and the largest p-value. *)
Theorem C97_matrix_refuted : exists N m y, y = column m 0 /\ ~ flat N y /\
  forall inv cdf, right_inverse inv -> fisherz inv cdf N (Mat 2 m) (Vec y) (Some (Mat 0 m)) = Ok (Some (2 * (1 - cdf 0))%R, Some 0%R).
Proof.
  exists 8, (fun i c => if Nat.eqb c 0 then sign0 i else sign1 i), sign0. split; [reflexivity|]. split.
  { intro F. specialize (F 0 1 ltac:(lia) ltac:(lia)). unfold sign0 in F. simpl in F. lra. }
  intros inv cdf HI. rewrite C97_first_two by lia. cbn [as_columns fst].
  match goal with |- fisherz _ _ _ ?x ?y (Some ?z) = _ => destruct (C97_function inv cdf 8 x y (Some z) sign0 sign1 HI) as [p [r [E [_ [_ [U P]]]]]] end.
  - left. reflexivity.
  - left. reflexivity.
  - discriminate.
  - cbn [columns_of seq map]. intros b0 b H a Ha. unfold combination, sumRn in H; cbn [List.length map seq sumR nth] in H; unfold sign0, sign1 in H;
      pose proof (H 0 ltac:(lia)) as H0; pose proof (H 1 ltac:(lia)) as H1; pose proof (H 2 ltac:(lia)) as H2;
      cbn in H0, H1, H2; cbn in Ha; destruct a as [|[|a]]; try lia; lra.
  - assert (r = 0)%R as ->.
    { rewrite (U sign0 sign1).
      - unfold pearson. assert (comoment 8 sign0 sign1 = 0)%R as ->; [|unfold Rdiv; ring]. unfold comoment, average, sumRn, sign0, sign1. simpl. field.
      - split; [|split]; [exists 0%R, (fun _ => 0%R); intros i _; unfold combination, sumRn; simpl; lra|unfold sumRn, sign0; simpl; lra|intros v []].
      - split; [|split]; [exists 0%R, (fun _ => 0%R); intros i _; unfold combination, sumRn; simpl; lra|unfold sumRn, sign1; simpl; lra|intros v []]. }
    rewrite E. rewrite P by (simpl; lia). do 4 f_equal. rewrite Rabs_R0, Rmin_right by lra. rewrite transform_0, Rmult_0_r. auto.
Qed.
Print Assumptions C97_matrix_refuted.
