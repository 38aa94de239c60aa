(** Lemmas for PC on data. *)

From Coq Require Import List Arith Bool QArith Reals Lra Lia Permutation FunctionalExtensionality.
From Verif Require Import Model.Py Model.Graph Model.PDAG Model.Independence Model.PC Model.LocalScore Model.FisherZ Model.FisherData Model.PCFisher
  Spec.Scores Spec.Partial Spec.SampleSpec Spec.SamplePC Spec.KCISpec
  Proofs.PyFacts Proofs.ScoreFacts Proofs.BicFacts Proofs.PopulationFacts Proofs.FisherDataFacts Proofs.SearchFacts Proofs.PCFacts Proofs.ReplayFacts
  Props.PCProps Props.FisherZProps Props.FisherDataProps.
Import ListNotations.
Open Scope nat_scope.

(* ---------- regressions on a set ---------- *)
Lemma combination_cons : forall b x Z i, combination b (x :: Z) i = (b O * x i + combination (fun a => b (S a)) Z i)%R.
Proof.
  intros b x Z i. unfold combination. cbn [List.length]. unfold sumRn. cbn [seq sumR nth]. f_equal.
  rewrite <- seq_shift. generalize (seq 0 (List.length Z)). induction l as [|a l IH]; simpl; auto. rewrite IH. auto.
Qed.

Lemma combination_perm : forall Z Z', Permutation Z Z' -> forall b, exists b', forall i, combination b Z i = combination b' Z' i.
Proof.
  intros Z Z' P. induction P as [|x Z Z' P IH|x y Z|Z Z' Z'' P1 IH1 P2 IH2]; intro b.
  - exists b. auto.
  - destruct (IH (fun a => b (S a))) as [b' E]. exists (fun a => match a with 0 => b 0 | S a => b' a end).
    intro i. rewrite !combination_cons, E. reflexivity.
  - exists (fun a => match a with 0 => b 1 | 1 => b 0 | S (S a) => b (S (S a)) end).
    intro i. rewrite !combination_cons. ring.
  - destruct (IH1 b) as [b1 E1]. destruct (IH2 b1) as [b2 E2]. exists b2. intro i. rewrite E1. auto.
Qed.

Lemma residual_perm : forall N Z Z' v r, Permutation Z Z' -> residual N Z v r -> residual N Z' v r.
Proof.
  intros N Z Z' v r P [[b0 [b E]] [S0 O]]. split; [|split; auto].
  - destruct (combination_perm Z Z' P b) as [b' E']. exists b0, b'. intros i Hi. rewrite <- E'. auto.
  - intros z Hz. apply O. eapply Permutation_in; [apply Permutation_sym|]; eauto.
Qed.

Lemma pearson_sym : forall N u v, pearson N u v = pearson N v u.
Proof. intros. unfold pearson. rewrite (comoment_sym N u v), (Rmult_comm (comoment N u u)). auto. Qed.

Lemma pearson_ext : forall N u v u' v', (forall i, i < N -> u i = u' i) -> (forall i, i < N -> v i = v' i) -> pearson N u v = pearson N u' v'.
Proof.
  intros N u v u' v' Eu Ev.
  assert (average N u = average N u') as Au by (unfold average; f_equal; apply sum_ext; auto).
  assert (average N v = average N v') as Av by (unfold average; f_equal; apply sum_ext; auto).
  assert (comoment N u v = comoment N u' v') as C1 by (unfold comoment; apply sum_ext; intros; rewrite Eu, Ev, Au, Av; auto).
  assert (comoment N u u = comoment N u' u') as C2 by (unfold comoment; apply sum_ext; intros; rewrite Eu, Au; auto).
  assert (comoment N v v = comoment N v' v') as C3 by (unfold comoment; apply sum_ext; intros; rewrite Ev, Av; auto).
  unfold pearson. rewrite C1, C2, C3. auto.
Qed.

Lemma sample_unique : forall cdf N V u v z p p', sample_pvalue cdf N V u v z p -> sample_pvalue cdf N V u v z p' -> p = p'.
Proof.
  intros cdf N V u v z p p' [ru [rv [A [B ->]]]] [ru' [rv' [A' [B' ->]]]].
  rewrite (pearson_ext N ru rv ru' rv'); auto; intros; eapply residual_unique; eauto.
Qed.
Lemma sample_sym : forall cdf N V u v z p, sample_pvalue cdf N V u v z p -> sample_pvalue cdf N V v u z p.
Proof. intros cdf N V u v z p [ru [rv [A [B ->]]]]. exists rv, ru. split; auto. split; auto. rewrite (pearson_sym N rv ru). auto. Qed.
Lemma sample_perm : forall cdf N V u v z z' p, Permutation z z' -> sample_pvalue cdf N V u v z p -> sample_pvalue cdf N V u v z' p.
Proof.
  intros cdf N V u v z z' p P [ru [rv [A [B ->]]]]. exists ru, rv.
  split; [apply (residual_perm N (map V z)); auto using Permutation_map|]. split; [apply (residual_perm N (map V z)); auto using Permutation_map|].
  rewrite (Permutation_length P). auto.
Qed.
Lemma sample_ext : forall cdf N V V' u v z p, (forall x, In x (u :: v :: z) -> V x = V' x) -> sample_pvalue cdf N V u v z p -> sample_pvalue cdf N V' u v z p.
Proof.
  intros cdf N V V' u v z p E [ru [rv [A [B ->]]]]. exists ru, rv.
  rewrite <- (E u), <- (E v) by (simpl; auto). rewrite <- (map_ext_in V V' z) by (intros; apply E; simpl; auto). auto.
Qed.

(* ---------- fewer variables ---------- *)
Lemma sub_nondegenerate : forall N D d l, nondegenerate N (map (column D) (seq 0 d)) -> NoDup l -> (forall c, In c l -> c < d) ->
  nondegenerate N (map (column D) l).
Proof.
  intros N D d l G ND L b0 b H a Ha. rewrite map_length in Ha.
  set (b' := fun c => sumRn (List.length l) (fun e => (if Nat.eqb c (nth e l O) then 1 else 0) * b e)%R).
  assert (b' (nth a l O) = b a) as <-.
  { unfold b'. rewrite <- (sum_delta (List.length l) a b) by auto. apply sum_ext. intros e He.
    destruct (Nat.eqb_spec (nth a l O) (nth e l O)) as [E|E]; destruct (Nat.eqb_spec a e) as [F|F]; auto; [|congruence].
    exfalso. apply F. apply (proj1 (NoDup_nth l O) ND a e Ha He E). }
  apply (G b0 b').
  - intros i Hi. rewrite <- (H i Hi). f_equal. rewrite !combination_map, seq_length. unfold b'.
    rewrite (sum_ext d _ (fun c => sumRn (List.length l) (fun e => b e * ((if Nat.eqb c (nth e l O) then 1 else 0) * column D (nth e l O) i))%R)).
    + rewrite sum_swap. apply sum_ext. intros e He. rewrite sum_scal. f_equal.
      etransitivity; [|apply (sum_delta d (nth e l O) (fun _ => column D (nth e l O) i)); apply L, nth_In; auto].
      apply sum_ext. intros c _. rewrite (Nat.eqb_sym c). auto.
    + intros c Hc. rewrite <- sum_scalr. apply sum_ext. intros e _. rewrite seq_nth by auto. cbn [Nat.add].
      destruct (Nat.eqb_spec c (nth e l O)) as [->|]; ring.
  - rewrite map_length, seq_length. apply L, nth_In. auto.
Qed.

(* ---------- names ---------- *)
Lemma place_nth : forall names x, In x names -> nth_error names (place x names) = Some x.
Proof.
  induction names as [|a l IH]; intros x [].
  - subst. simpl. rewrite Nat.eqb_refl. auto.
  - simpl. destruct (Nat.eqb_spec x a) as [->|]; auto. simpl. auto.
Qed.
Lemma place_lt : forall names x, In x names -> place x names < List.length names.
Proof. intros. apply nth_error_Some. rewrite place_nth; auto. discriminate. Qed.
Lemma place_inj : forall names x y, In x names -> In y names -> place x names = place y names -> x = y.
Proof. intros names x y Hx Hy E. apply place_nth in Hx. apply place_nth in Hy. rewrite E, Hy in Hx. congruence. Qed.
Lemma name_id_place : forall names x, NoDup names -> In x names -> get_name_id names x = Ok (place x names).
Proof.
  intros names x ND H. destruct (get_name_id_ok names x ND H) as [i [E F]]. rewrite E. f_equal.
  unfold name_of in F. destruct (nth_error names i) as [y|] eqn:Q; [|discriminate]. inversion F; subst y.
  apply (proj1 (NoDup_nth_error names) ND); [apply nth_error_Some; congruence|]. rewrite Q, place_nth; auto.
Qed.
Lemma name_ids_place : forall names z, NoDup names -> incl z names -> mapE (get_name_id names) z = Ok (map (fun x => place x names) z).
Proof.
  intros names z ND. induction z as [|x z IH]; intro H; [reflexivity|]. cbn [mapE map].
  rewrite name_id_place, IH; auto; [intros y Hy|]; apply H; simpl; auto.
Qed.
Lemma places_nodup : forall names z, NoDup z -> incl z names -> NoDup (map (fun x => place x names) z).
Proof.
  intros names z ND. induction ND as [|x z Hx ND IH]; intro I; simpl; constructor.
  - intro H. apply in_map_iff in H. destruct H as [y [E Hy]]. apply Hx. rewrite <- (place_inj names y x); auto; apply I; simpl; auto.
  - apply IH. intros y Hy. apply I. simpl; auto.
Qed.

Lemma legal_nodup : forall names u v z, legal names u v z -> NoDup (u :: v :: z) /\ incl (u :: v :: z) names.
Proof.
  intros names u v z (Hu & Hv & N & Nz & Hz & Nu & Nv). split.
  - constructor; [|constructor; auto]. intros [->|H]; auto.
  - intros x [<-|[<-|H]]; auto.
Qed.
Lemma legal_length : forall names u v z, legal names u v z -> List.length z + 2 <= List.length names.
Proof. intros names u v z L. destruct (legal_nodup _ _ _ _ L) as [A B]. apply (NoDup_incl_length A) in B. simpl in B. lia. Qed.

Section Test.
  Variable inv : nat -> rmat -> res rmat.
  Variable cdf : R -> R.
  Variable N : nat.
  Variable names : list nat.
  Hypothesis nd : NoDup names.
  Let d := List.length names.

  Lemma fisherz_test_ids : forall data u v z, legal names u v z ->
    fisherz_test inv cdf N data names u v z =
    rbind (fisherz_on_data inv cdf N (fst (values_of data)) (snd (values_of data)) (place u names) (place v names) (Some (map (fun x => place x names) z)))
      (fun r => Ok (fst r)).
  Proof using nd.
    intros data u v z (Hu & Hv & _ & _ & Hz & _). unfold fisherz_test.
    rewrite !name_id_place, name_ids_place by auto. reflexivity.
  Qed.

  Lemma fisherz_test_sample : forall D u v z, right_inverse inv -> legal names u v z -> d + 1 <= N ->
    nondegenerate N (map (measured names D) (u :: v :: z)) ->
    exists p, fisherz_test inv cdf N (Array d D) names u v z = Ok (Some p) /\ sample_pvalue cdf N (measured names D) u v z p.
  Proof using nd.
    intros D u v z HI Lg LN G. rewrite fisherz_test_ids by auto. cbn [values_of fst snd].
    destruct (legal_nodup _ _ _ _ Lg) as [ND I]. pose proof (legal_length _ _ _ _ Lg) as LL.
    destruct (C97_value inv cdf N d D (place u names) (place v names) (Some (map (fun x => place x names) z)) HI) as [p [r [E [_ [[ru [rv [A B]]] [U P]]]]]].
    - intros i Hi. change (In i (map (fun x => place x names) (u :: v :: z))) in Hi. apply in_map_iff in Hi. destruct Hi as [x [<- Hx]]. apply place_lt. auto.
    - cbn [map] in G. unfold measured in G at 1 2. unfold asked. cbn [cond map]. rewrite map_map. exact G.
    - rewrite E. cbn [rbind fst]. cbn [cond] in *. rewrite !map_length in P. fold d in LL. rewrite P by lia.
      eexists. split; [reflexivity|]. rewrite map_map in A, B. exists ru, rv. split; [exact A|]. split; [exact B|].
      rewrite (U ru rv); auto; rewrite map_map; auto.
  Qed.
End Test.

(* ---------- PC on tests that agree ---------- *)
Lemma search_same : forall S t t' names q, a_search S -> NoDup names -> answers t names ->
  (forall u v z, legal names u v z -> t' u v z = t u v z) -> S t' names q = S t names q.
Proof.
  intros S t t' names q HS ND A E.
  destruct (C20_search_removes_iff_accepted S t names q HS ND A) as [g [sep [calls [R [_ [_ [_ [G _]]]]]]]]. rewrite R.
  assert (alike t' calls) as K.
  { intros u v z p H. destruct (G u v z p H) as (T & Hu & Hv & Nuv & Nz & Hz). rewrite E; auto.
    split; auto. split; auto. split; auto. split; auto. split; [intros x Hx; apply Hz; auto|]. split; intro H0; apply Hz in H0; tauto. }
  destruct HS; [eapply search_replay|eapply fast_search_replay]; eauto.
Qed.
Lemma pc_same : forall S t t' names q, a_search S -> NoDup names -> answers t names ->
  (forall u v z, legal names u v z -> t' u v z = t u v z) -> pc_fit S t' names q = pc_fit S t names q.
Proof. intros. unfold pc_fit. rewrite (search_same S t t'); auto. Qed.

Lemma legal_of : forall names u v z, In u names -> In v names -> u <> v -> NoDup z -> (forall x, In x z -> In x names /\ x <> u /\ x <> v) -> legal names u v z.
Proof.
  intros names u v z Hu Hv Nuv Nz Hz. split; auto. split; auto. split; auto. split; auto. split; [intros x Hx; apply Hz; auto|].
  split; intro H0; apply Hz in H0; tauto.
Qed.

Lemma at_least_true : forall alpha p, at_least alpha (Some p) = true <-> (alpha <= p)%R.
Proof. intros. unfold at_least. destruct (Rle_dec alpha p); split; auto; discriminate. Qed.

Lemma sub_variables : forall N (V : nat -> nat -> R) m l, nondegenerate N (map V m) -> NoDup l -> incl l m -> nondegenerate N (map V l).
Proof.
  intros N V m l G ND I. set (D' := fun i c => V (nth c m O) i).
  assert (map V l = map (column D') (map (fun x => place x m) l)) as ->.
  { rewrite map_map. apply map_ext_in. intros x Hx. unfold column, D'. rewrite (nth_error_nth m (place x m) O (place_nth m x (I x Hx))). reflexivity. }
  apply (sub_nondegenerate N D' (List.length m)).
  - replace (map (column D') (seq 0 (List.length m))) with (map V m); auto. symmetry.
    apply nth_ext with (d := column D' O) (d' := V O); [rewrite !map_length, seq_length; auto|].
    intros a Ha. rewrite map_length, seq_length in Ha. rewrite !map_nth, seq_nth by auto. reflexivity.
  - apply places_nodup; auto.
  - intros c Hc. apply in_map_iff in Hc. destruct Hc as [x [<- Hx]]. apply place_lt. auto.
Qed.

Lemma place_nth_nodup : forall names a, NoDup names -> a < List.length names -> place (nth a names O) names = a.
Proof.
  intros names a ND Ha. assert (In (nth a names O) names) as H by (apply nth_In; auto).
  apply (proj1 (NoDup_nth names O) ND); auto; [apply place_lt; auto|]. apply nth_error_nth, place_nth. auto.
Qed.
Lemma measured_names : forall names D, NoDup names -> map (measured names D) names = map (column D) (seq 0 (List.length names)).
Proof.
  intros names D ND. apply nth_ext with (d := measured names D O) (d' := column D O); [rewrite !map_length, seq_length; auto|].
  intros a Ha. rewrite map_length in Ha. rewrite !map_nth, seq_nth by auto. unfold measured. rewrite place_nth_nodup by auto. reflexivity.
Qed.
