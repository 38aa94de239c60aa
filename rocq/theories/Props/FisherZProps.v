(** C69: the Fisher-z test. *)

From Coq Require Import List Arith Lia Bool Permutation ZArith Reals Lra.
From Verif Require Import Model.Py Model.Independence Model.LocalScore Model.FisherZ Spec.Scores Spec.Partial
  Proofs.FinGraph Proofs.ScoreFacts Proofs.CacheFacts Proofs.BicFacts Proofs.FisherZFacts Props.ScoreProps.
Import ListNotations.
Open Scope nat_scope.

(** A question that can be answered: different variables of the data. *)
Definition question (n x y : nat) (Z : list nat) : Prop := NoDup (x :: y :: Z) /\ forall i, In i (x :: y :: Z) -> i < n.
(** The variables of an optional condition. *)
Definition cond {A} (z : option (list A)) : list A := match z with None => [] | Some l => l end.
(** numpy's inverse is right on non-degenerate matrices of correlations. *)
Definition right_inverse (inv : nat -> rmat -> res rmat) : Prop :=
  forall k A, correlations k A -> exists B, inv k A = Ok B /\ inverse_of k A B.

(** The statistic is the partial correlation, and with at least k + 3 records the
    p-value is the two-sided tail of Fisher's transformation of it, cut at 0.9999999. *)
Theorem C69_partial_correlation : forall n C inv cdf N x y z, correlations n C -> right_inverse inv -> question n x y (cond z) ->
  exists p r, fisherz_from_corr inv cdf n C N x y z = Ok (p, r) /\
    partial_correlation C (cond z) x y r /\ (Rabs r < 1)%R /\
    (forall r', partial_correlation C (cond z) x y r' -> r' = r) /\
    (List.length (cond z) + 3 <= N -> p = Some (2 * (1 - cdf (sqrt (INR (N - List.length (cond z) - 3)) * fisher_transform (Rmin 0.9999999 (Rabs r)))))%R).
Proof.
  intros n C inv cdf N x y z HC HI Q. destruct (partial_exists C n HC x y (cond z) Q) as [r [Hr Bd]].
  exists (z_pvalue cdf N (List.length (cond z)) r), r. split; [apply (fisherz_value C n HC inv HI); auto|]. split; auto. split; auto.
  split; [intros; eapply partial_unique; eauto|]. intro L. rewrite z_pvalue_eq by auto. unfold capped.
  replace 0.9999999%R with (9999999 / 10000000)%R by lra. reflexivity.
Qed.
Print Assumptions C69_partial_correlation.

(** The test is monotone in the partial correlation: of two questions with as many
    conditioning variables and records, the one with the larger partial correlation
    (in size) has the smaller p-value; p-values lie between 0 and 1 and a vanishing
    partial correlation, and only that, gives 1. *)
Theorem C69_p_value : forall n C n' C' inv cdf N x y z x' y' z',
  correlations n C -> correlations n' C' -> right_inverse inv -> question n x y (cond z) -> question n' x' y' (cond z') ->
  List.length (cond z) = List.length (cond z') -> List.length (cond z) + 3 < N ->
  cdf 0%R = (1 / 2)%R -> (forall u v, 0 <= u < v -> cdf u < cdf v)%R -> (forall u, cdf u <= 1)%R ->
  exists p r p' r', fisherz_from_corr inv cdf n C N x y z = Ok (Some p, r) /\ fisherz_from_corr inv cdf n' C' N x' y' z' = Ok (Some p', r') /\
    (0 <= p <= 1)%R /\ (p = 1 <-> r = 0)%R /\
    (Rabs r <= Rabs r' -> p' <= p)%R /\
    (Rabs r < Rabs r' -> Rabs r < 0.9999999 -> p' < p)%R.
Proof.
  intros n C n' C' inv cdf N x y z x' y' z' HC HC' HI Q Q' EL LN C0 CI C1.
  destruct (partial_exists C n HC x y (cond z) Q) as [r [Hr Bd]].
  destruct (partial_exists C' n' HC' x' y' (cond z') Q') as [r' [Hr' Bd']].
  pose proof (fisherz_value C n HC inv HI cdf N x y z r Q Hr) as E. pose proof (fisherz_value C' n' HC' inv HI cdf N x' y' z' r' Q' Hr') as E'.
  fold (cond z) in E. fold (cond z') in E'. rewrite <- EL in E'. rewrite z_pvalue_eq in E, E' by lia.
  set (k := List.length (cond z)) in *. set (s := sqrt (INR (N - k - 3))) in *.
  assert (0 < s)%R as Ps by (apply sqrt_lt_R0, lt_0_INR; lia).
  assert (forall u v, 0 <= u <= v -> cdf u <= cdf v)%R as CM.
  { intros u v [H [L|<-]]; [apply Rlt_le, CI; auto|lra]. }
  assert (forall r, 0 <= s * fisher_transform (capped r))%R as NN.
  { intro q. apply Rmult_le_pos; [lra|]. apply transform_nonneg, capped_range. }
  assert (forall q q', capped q < capped q' -> s * fisher_transform (capped q) < s * fisher_transform (capped q'))%R as TM.
  { intros q q' L. apply Rmult_lt_compat_l; auto. apply transform_mono; try apply capped_range; auto. }
  do 4 eexists. split; [exact E|]. split; [exact E'|]. split; [|split; [|split]].
  - pose proof (CM 0 (s * fisher_transform (capped r)))%R. specialize (NN r). pose proof (C1 (s * fisher_transform (capped r))%R). lra.
  - split; intro H.
    + destruct (Req_dec r 0) as [|D]; auto. exfalso.
      assert (capped 0 < capped r)%R as L.
      { unfold capped. rewrite Rabs_R0. rewrite Rmin_right by lra. apply Rmin_glb_lt; [lra|]. apply Rabs_pos_lt. auto. }
      assert (capped 0 = 0)%R as Z0 by (unfold capped; rewrite Rabs_R0; apply Rmin_right; lra).
      pose proof (TM _ _ L) as T. rewrite Z0, transform_0 in T. rewrite Rmult_0_r in T.
      pose proof (CI 0 (s * fisher_transform (capped r)))%R. lra.
    + rewrite H. assert (capped 0 = 0)%R as -> by (unfold capped; rewrite Rabs_R0; apply Rmin_right; lra).
      rewrite transform_0, Rmult_0_r, C0. lra.
  - intro H. apply capped_mono in H. destruct H as [H|H].
    + pose proof (CM _ _ (conj (NN r) (Rlt_le _ _ (TM _ _ H)))). lra.
    + rewrite H. lra.
  - intros H L.
    assert (capped r < capped r')%R as LC.
    { unfold capped. rewrite (Rmin_right _ (Rabs r)) by lra. apply Rmin_glb_lt; lra. }
    pose proof (CI _ _ (conj (NN r) (TM _ _ LC))). lra.
Qed.
Print Assumptions C69_p_value.

(** With exactly k + 3 records every question is answered "independent", with
    fewer the p-value is NaN (and no comparison with a level succeeds). *)
Theorem C69_few_records : forall n C inv cdf N x y z, correlations n C -> right_inverse inv -> question n x y (cond z) -> cdf 0%R = (1 / 2)%R ->
  (N = List.length (cond z) + 3 -> exists r, fisherz_from_corr inv cdf n C N x y z = Ok (Some 1%R, r)) /\
  (N < List.length (cond z) + 3 -> exists r, fisherz_from_corr inv cdf n C N x y z = Ok (None, r)).
Proof.
  intros n C inv cdf N x y z HC HI Q C0. destruct (partial_exists C n HC x y (cond z) Q) as [r [Hr Bd]].
  pose proof (fisherz_value C n HC inv HI cdf N x y z r Q Hr) as E. fold (cond z) in E. split; intro H.
  - exists r. rewrite E. rewrite z_pvalue_eq by lia. replace (N - List.length (cond z) - 3) with 0 by lia.
    cbn [INR]. rewrite sqrt_0, Rmult_0_l, C0. do 2 f_equal. f_equal. lra.
  - exists r. rewrite E. unfold z_pvalue. destruct (Nat.ltb_spec N (List.length (cond z) + 3)); [auto|lia].
Qed.
Print Assumptions C69_few_records.

(** Swapping the variables or reordering the condition changes neither p-value
    nor statistic. *)
Lemma question_sym : forall n x y Z, question n x y Z -> question n y x Z.
Proof.
  intros n x y Z [ND L]. split.
  - eapply Permutation_NoDup; [apply perm_swap|exact ND].
  - intros i Hi. apply L. simpl in *. tauto.
Qed.
Lemma question_perm : forall n x y Z Z', Permutation Z Z' -> question n x y Z -> question n x y Z'.
Proof.
  intros n x y Z Z' P [ND L]. assert (Permutation (x :: y :: Z) (x :: y :: Z')) as P2 by (do 2 constructor; auto). split.
  - eapply Permutation_NoDup; eauto.
  - intros i Hi. apply L. eapply Permutation_in; [apply Permutation_sym; exact P2|auto].
Qed.

Theorem C69_symmetric : forall n C inv cdf N x y z, correlations n C -> right_inverse inv -> question n x y (cond z) ->
  fisherz_from_corr inv cdf n C N x y z = fisherz_from_corr inv cdf n C N y x z /\
  (forall z', Permutation (cond z) (cond z') -> fisherz_from_corr inv cdf n C N x y z = fisherz_from_corr inv cdf n C N x y z').
Proof.
  intros n C inv cdf N x y z HC HI Q. destruct (partial_exists C n HC x y (cond z) Q) as [r [Hr _]].
  pose proof (fisherz_value C n HC inv HI cdf N x y z r Q Hr) as E. fold (cond z) in E. split; [|intros z' P]; rewrite E; symmetry.
  - apply (fisherz_value C n HC inv HI); [apply question_sym; auto|]. apply (partial_sym C n HC); auto.
  - rewrite (fisherz_value C n HC inv HI cdf N x y z' r).
    + fold (cond z'). rewrite (Permutation_length P). auto.
    + eapply question_perm; eauto.
    + eapply partial_perm; eauto.
Qed.
Print Assumptions C69_symmetric.

(** Consequence for the cache of the test object: any sequence of answerable
    questions gets the answers of fresh computations. *)
Definition zquestion (n : nat) (x y : Z) (z : option (list Z)) : Prop :=
  NoDup (x :: y :: cond z) /\ forall i, In i (x :: y :: cond z) -> (0 <= i < Z.of_nat n)%Z.
Lemma zquestion_ok : forall n x y z, zquestion n x y z -> question n (Z.to_nat x) (Z.to_nat y) (cond (option_map (map Z.to_nat) z)).
Proof.
  intros n x y z [ND L].
  assert (Z.to_nat x :: Z.to_nat y :: cond (option_map (map Z.to_nat) z) = map Z.to_nat (x :: y :: cond z)) as E by (destruct z; reflexivity).
  unfold question. rewrite E. split.
  - assert (forall l, (forall i, In i l -> (0 <= i)%Z) -> NoDup l -> NoDup (map Z.to_nat l)) as K.
    { induction l as [|a l IH]; intros P N; simpl; [constructor|]. inversion N; subst. constructor.
      - intro I. apply in_map_iff in I. destruct I as [b [Eb Hb]]. apply H1.
        assert (a = b) by (apply Z2Nat.inj; auto using in_eq, in_cons). subst. auto.
      - apply IH; auto using in_cons. }
    apply K; auto. intros i Hi. apply L in Hi. lia.
  - intros i Hi. apply in_map_iff in Hi. destruct Hi as [a [<- Ha]]. apply L in Ha. lia.
Qed.

Theorem C69_cache_transparent : forall n C inv cdf N truthy qs, correlations n C -> right_inverse inv ->
  (forall x y z, In (x, y, z) qs -> zquestion n x y z) ->
  snd (itests truthy (fisherz_stat inv cdf n C N) [] qs) = map (fun q => fisherz_stat inv cdf n C N (fst (fst q)) (snd (fst q)) (snd q)) qs.
Proof.
  intros n C inv cdf N truthy qs HC HI Hq.
  rewrite (itests_ok truthy (fisherz_stat inv cdf n C N) (zquestion n)).
  - apply map_ext. intros [[x y] z]. auto.
  - intros x y z x' y' z' V V' [HP P]. unfold fisherz_stat.
    assert (forall a b c c', zquestion n a b c -> match c, c' with None, None => True | Some l, Some l' => Permutation l l' | _, _ => False end ->
      fisherz_from_corr inv cdf n C N (Z.to_nat a) (Z.to_nat b) (option_map (map Z.to_nat) c) =
      fisherz_from_corr inv cdf n C N (Z.to_nat a) (Z.to_nat b) (option_map (map Z.to_nat) c')) as K.
    { intros a b c c' Vc Pc. apply (C69_symmetric n C inv cdf N _ _ _ HC HI (zquestion_ok _ _ _ _ Vc)).
      destruct c, c'; simpl in *; try tauto; auto. apply Permutation_map. auto. }
    destruct HP as [[<- <-]|[<- <-]]; [apply K; auto|].
    rewrite (proj1 (C69_symmetric n C inv cdf N _ _ _ HC HI (zquestion_ok _ _ _ _ V))). apply K; auto.
    destruct V as [ND L]. split; [eapply Permutation_NoDup; [apply perm_swap|exact ND]|].
    intros i Hi. apply L. simpl in *. tauto.
  - intros k v H. discriminate.
  - auto.
Qed.
Print Assumptions C69_cache_transparent.

(** The chain with correlations 1/2, 1/2, 1/4 (Props/ScoreProps.v): variables 0
    and 2 are correlated, but not given 1; a distribution function as required. *)
Definition half_cdf (u : R) : R := (1 - / (2 * (1 + u)))%R.
Example C69_example : correlations 3 corr3 /\ right_inverse spd_inv /\ question 3 0 2 [1] /\ question 3 0 2 [] /\
  partial_correlation corr3 [1] 0 2 0%R /\ partial_correlation corr3 [] 0 2 (1/4)%R /\
  half_cdf 0%R = (1 / 2)%R /\ (forall u v, 0 <= u < v -> half_cdf u < half_cdf v)%R /\
  zquestion 3 0 2 (Some [1%Z]).
Proof.
  split; [apply C65_example|]. split; [exact spd_inv_ok|].
  split; [|split; [|split; [|split; [|split; [|split]]]]].
  - split; [repeat constructor; simpl; lia|]. simpl. intros; lia.
  - split; [repeat constructor; simpl; lia|]. simpl. intros; lia.
  - exists (fun _ => (1/2)%R), (fun _ => (1/2)%R). unfold regression, residual_cov, corr3. simpl. repeat split.
    + intros q [<-|[]]. simpl. lra.
    + intros q [<-|[]]. simpl. lra.
    + lra.
    + lra.
    + unfold Rdiv. match goal with |- _ = (?a * _)%R => replace a with 0%R by lra end. ring.
  - exists (fun _ => 0%R), (fun _ => 0%R). unfold regression, residual_cov, corr3. simpl. repeat split.
    + intros q [].
    + intros q [].
    + lra.
    + lra.
    + match goal with |- context [sqrt ?a] => replace a with 1%R by lra end. rewrite sqrt_1. lra.
  - unfold half_cdf. lra.
  - intros u v [H0 H]. unfold half_cdf. apply Rplus_lt_compat_l. apply Ropp_lt_contravar. apply Rinv_lt_contravar; [|lra].
    apply Rmult_lt_0_compat; lra.
  - split; [repeat constructor; simpl; lia|]. simpl. intros; lia.
Qed.
