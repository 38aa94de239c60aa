(** C98: PC on data with the Fisher-z test. *)

From Coq Require Import List Arith Bool QArith Reals Lra Lia Permutation FunctionalExtensionality.
From Verif Require Import Model.Py Model.Graph Model.DiGraph Model.Metrics Model.PDAG Model.Independence Model.PC Model.LocalScore Model.FisherZ Model.FisherData Model.PCFisher
  Spec.API Spec.Digraphs Spec.PDAGs Spec.Scores Spec.Partial Spec.SampleSpec Spec.SamplePC Spec.KCISpec
  Proofs.PyFacts Proofs.RelExt Proofs.DiGraphFacts Proofs.HistoryFacts Proofs.DagFacts Proofs.CpdagFacts Proofs.PopulationFacts Proofs.FisherDataFacts Proofs.SearchFacts Proofs.PCFacts Proofs.PCFisherFacts
  Proofs.BicFacts Props.Examples Props.CpdagProps Props.PCProps Props.FisherZProps Props.FisherDataProps.
Import ListNotations.
Open Scope nat_scope.

(** N records of the variables [names] in the columns of [D], no variable a linear combination of others and a constant. *)
Definition general_sample (N : nat) (names : list nat) (D : rmat) : Prop :=
  NoDup names /\ List.length names + 1 <= N /\ nondegenerate N (map (column D) (seq 0 (List.length names))).
(** A question about two variables and a set of others. *)
Definition about (names : list nat) (u v : nat) (z : list nat) : Prop :=
  In u names /\ In v names /\ u <> v /\ NoDup z /\ forall x, In x z -> In x names /\ x <> u /\ x <> v.
(** PC(alpha).fit(D, names, indep_cls=FisherZ). *)
Definition fitted S inv cdf alpha N names D := pc_fit_data S inv cdf alpha N (Array (List.length names) D) (Some names) 0.

Lemma about_legal : forall names u v z, about names u v z <-> legal names u v z.
Proof.
  intros names u v z. split.
  - intros (Hu & Hv & Nuv & Nz & Hz). apply legal_of; auto.
  - intros (Hu & Hv & Nuv & Nz & Hz & Nu & Nv). split; auto. split; auto. split; auto. split; auto.
    intros x Hx. split; auto. split; intros ->; auto.
Qed.

Lemma fitted_eq : forall S inv cdf alpha N names D, fitted S inv cdf alpha N names D =
  pc_fit S (decisions (fisherz_test inv cdf N (Array (List.length names) D) names) alpha) names 1.
Proof. intros. unfold fitted, pc_fit_data, data_form_converter. cbn [Nat.eqb rbind]. rewrite Nat.eqb_refl. cbn [rbind fst snd]. rewrite Nat.eqb_refl. reflexivity. Qed.

Lemma decided : forall inv cdf alpha N names D u v z, right_inverse inv -> general_sample N names D -> legal names u v z ->
  exists p, sample_pvalue cdf N (measured names D) u v z p /\
    decisions (fisherz_test inv cdf N (Array (List.length names) D) names) alpha u v z = Ok (if at_least alpha (Some p) then 1 else 0)%Q.
Proof.
  intros inv cdf alpha N names D u v z HI [ND [LN G]] Lg.
  destruct (fisherz_test_sample inv cdf N names ND D u v z HI Lg LN) as [p [E P]].
  - destruct (legal_nodup _ _ _ _ Lg) as [A B]. apply (sub_variables N _ names); auto. rewrite measured_names; auto.
  - exists p. split; auto. unfold decisions. rewrite E. reflexivity.
Qed.

Lemma decisions_answer : forall inv cdf alpha N names D, right_inverse inv -> general_sample N names D ->
  answers (decisions (fisherz_test inv cdf N (Array (List.length names) D) names) alpha) names.
Proof.
  intros inv cdf alpha N names D HI G u v z Hu Hv Nuv Nz Hz.
  destruct (decided inv cdf alpha N names D u v z HI G) as [p [_ E]]; [apply legal_of; auto|]. eauto.
Qed.

(** On data in general position PC returns a graph over the variables.  Two variables without an edge have a set of others given
    which Fisher's test of their partial correlation in the sample accepts; two variables with an edge have none among the
    neighbours of either. *)
Theorem C98_edges : forall S inv cdf alpha N names D, a_search S -> right_inverse inv -> general_sample N names D ->
  exists sk cg sep, fitted S inv cdf alpha N names D = Ok (sk, cg, sep) /\ nodes cg = names /\
    forall u v, In u names -> In v names -> u <> v ->
      (~ connected cg u v -> exists z p, about names u v z /\ sample_pvalue cdf N (measured names D) u v z p /\ (alpha <= p)%R) /\
      (connected cg u v -> forall z p, about names u v z -> (forall x, In x z -> connected cg u x) ->
         sample_pvalue cdf N (measured names D) u v z p -> (p < alpha)%R).
Proof.
  intros S inv cdf alpha N names D HS HI G. rewrite fitted_eq.
  set (t := decisions _ alpha). pose proof (decisions_answer inv cdf alpha N names D HI G) as A. fold t in A. pose proof G as [ND _].
  destruct (C24_pc_keeps_skeleton S t names 1 HS ND A) as [sk [cg [sep [E [_ [Nc [C _]]]]]]].
  exists sk, cg, sep. split; auto. split; auto. intros u v Hu Hv Nuv.
  destruct (C20_search_removes_iff_accepted S t names 1 HS ND A) as [g [sp [calls [E' [_ [_ [_ [Ge [Re [_ Fu]]]]]]]]]].
  unfold pc_fit in E. rewrite E' in E. destruct (run_on _ g) as [cg'|]; [|discriminate]. inversion E; subst cg' sp g. clear E.
  assert (forall u v z p, In (u, v, z, p) calls -> about names u v z /\ exists r, sample_pvalue cdf N (measured names D) u v z r /\ p = (if at_least alpha (Some r) then 1 else 0)%Q) as K.
  { intros u' v' z p H. destruct (Ge _ _ _ _ H) as (T & Q). split; auto.
    destruct (decided inv cdf alpha N names D u' v' z HI G) as [r [P1 P2]]; [apply about_legal; auto|].
    exists r. split; auto. unfold t in T. rewrite P2 in T. congruence. }
  split.
  - rewrite C, (Re u v Hu Hv Nuv). intros [z [p [H L]]].
    assert (exists z r, about names u v z /\ sample_pvalue cdf N (measured names D) u v z r /\ p = (if at_least alpha (Some r) then 1 else 0)%Q) as [z' [r [Ab [P Ep]]]].
    { destruct H as [H|H]; destruct (K _ _ _ _ H) as [Ab [r [P Ep]]]; exists z, r; auto. split; [|split; auto using sample_sym].
      destruct Ab as (Q1 & Q2 & Q3 & Q4 & Q5). split; auto. split; auto. split; auto. split; auto. intros x Hx. destruct (Q5 x Hx) as [? [? ?]]. auto. }
    exists z', r. split; auto. split; auto. apply at_least_true. subst p. destruct (at_least alpha (Some r)); auto.
  - intros Cuv z p Ab Hz P. apply C in Cuv. pose proof Ab as (_ & _ & _ & Nz & Hz').
    destruct (Fu u v z Cuv Nz) as [z' [q [Hc [Sz L]]]].
    + apply (legal_length names u v z). apply about_legal. auto.
    + intros x Hx. split; [apply C; auto|apply Hz'; auto].
    + assert (exists r, sample_pvalue cdf N (measured names D) u v z' r /\ NoDup z' /\ q = (if at_least alpha (Some r) then 1 else 0)%Q) as [r [Pr [Nz' ->]]].
      { destruct Hc as [H|H]; destruct (K _ _ _ _ H) as [(_ & _ & _ & Nz' & _) [r [Pr Eq]]]; exists r; auto using sample_sym. }
      assert (Permutation z' z) as Pz by (apply NoDup_Permutation; auto).
      rewrite (sample_unique _ _ _ _ _ _ _ _ P (sample_perm _ _ _ _ _ _ _ _ Pz Pr)).
      destruct (Rlt_le_dec r alpha) as [|Le]; auto. exfalso. apply at_least_true in Le. rewrite Le in L. discriminate.
Qed.
Print Assumptions C98_edges.

(** If the decisions on the sample are those of d-separation in a DAG, the result is the CPDAG of that DAG. *)
Theorem C98_faithful : forall S inv cdf alpha N g D order, a_search S -> right_inverse inv -> general_sample N (nodes g) D ->
  reachable KDiGraph g -> acyclic (directed g) -> set_orders g order ->
  (forall u v z p, about (nodes g) u v z -> sample_pvalue cdf N (measured (nodes g) D) u v z p ->
     ((alpha <= p)%R <-> dsep (directed g) (fun x => In x z) u v)) ->
  exists sk cg sep c, fitted S inv cdf alpha N (nodes g) D = Ok (sk, cg, sep) /\
    dag2cpdag g order = Ok c /\ graph_equal cg c = Ok true /\ forall u v, get_edge cg u v = get_edge c u v.
Proof.
  intros S inv cdf alpha N g D order HS HI G R Ac Ho F. destruct (reach_arc g R Ac) as [Dg Aa].
  rewrite fitted_eq. rewrite (pc_same S (dsep_test g (nodes g))); auto.
  - apply C23_pc_oracle_equals_dag2cpdag; auto. split; [reflexivity|apply Qle_refl].
  - apply G.
  - apply oracle_answers; auto.
  - intros u v z Lg. rewrite (oracle_total g Dg (nodes g) (Permutation_refl _)) by auto.
    destruct (decided inv cdf alpha N (nodes g) D u v z HI G Lg) as [p [P ->]]. f_equal.
    pose proof (F u v z p (proj2 (about_legal _ _ _ _) Lg) P) as K. rewrite (dsep_ext _ (arc g) (directed_arc g Dg)) in K.
    unfold otv. destruct Lg as (Hu & Hv & _ & _ & Hz & _). pose proof (sepb_iff g Dg u v z Hu Hv Hz) as Q.
    rewrite <- Q in K. rewrite <- at_least_true in K. destruct (at_least alpha (Some p)); destruct (sepb g u v z); auto; exfalso; destruct K as [K1 K2]; [discriminate (K1 eq_refl)|discriminate (K2 eq_refl)].
Qed.
Print Assumptions C98_faithful.

(** The same variables in other units: the same result. *)
Theorem C98_units : forall S inv cdf alpha N names D D', a_search S -> right_inverse inv -> general_sample N names D ->
  other_units N (List.length names) D D' -> fitted S inv cdf alpha N names D' = fitted S inv cdf alpha N names D.
Proof.
  intros S inv cdf alpha N names D D' HS HI G [a [b [Ha Hb]]]. rewrite !fitted_eq. pose proof G as [ND [LN GP]].
  apply pc_same; auto; [apply decisions_answer; auto|]. intros u v z Lg. unfold decisions. rewrite !fisherz_test_ids by auto. cbn [values_of fst snd].
  destruct (legal_nodup _ _ _ _ Lg) as [NDz I]. pose proof (legal_length _ _ _ _ Lg) as LL.
  set (zi := map (fun x => place x names) z).
  assert (asked (place u names) (place v names) (Some zi) = map (fun x => place x names) (u :: v :: z)) as EA by reflexivity.
  assert (forall i, In i (asked (place u names) (place v names) (Some zi)) -> i < List.length names) as L.
  { rewrite EA. intros i Hi. apply in_map_iff in Hi. destruct Hi as [x [<- Hx]]. apply place_lt. auto. }
  destruct (C97_units inv cdf N (List.length names) D D' a b (place u names) (place v names) (Some zi)) as [p [r [E1 E2]]]; auto.
  - cbn [cond]. unfold zi. rewrite map_length. lia.
  - rewrite EA. apply (sub_nondegenerate N D (List.length names)); auto. apply places_nodup; auto.
  - rewrite E1, E2. reflexivity.
Qed.
Print Assumptions C98_units.

(** The records in another order: the same result, for any data. *)
Theorem C98_order : forall S inv cdf alpha N names D D' q, reordered N q D D' ->
  fitted S inv cdf alpha N names D' = fitted S inv cdf alpha N names D.
Proof.
  intros S inv cdf alpha N names D D' q H. rewrite !fitted_eq. f_equal. extensionality u. extensionality v. extensionality z.
  unfold decisions, fisherz_test. cbn [values_of fst snd].
  destruct (get_name_id names u); [|reflexivity]. cbn [rbind]. destruct (get_name_id names v); [|reflexivity]. cbn [rbind].
  destruct (mapE (get_name_id names) z); [|reflexivity]. cbn [rbind]. rewrite (C97_order inv cdf N _ D D' q); auto.
Qed.
Print Assumptions C98_order.

(** The columns in another order, with their names: the plain search finds the same skeleton and the same separating sets. *)
Theorem C98_columns : forall inv cdf alpha N names names' D D', right_inverse inv -> general_sample N names D ->
  Permutation names names' -> (forall x, In x names -> measured names' D' x = measured names D x) ->
  exists sk cg sep sk' cg' sep', fitted adjacency_search inv cdf alpha N names D = Ok (sk, cg, sep) /\
    fitted adjacency_search inv cdf alpha N names' D' = Ok (sk', cg', sep') /\
    (forall u v, connected sk u v <-> connected sk' u v) /\ (forall u v, connected cg u v <-> connected cg' u v) /\
    (forall u v, In u names -> In v names -> u <> v -> exists a b,
       dget pair_eqb sep (u, v) = Some a /\ dget pair_eqb sep' (u, v) = Some b /\ forall w, In w a <-> In w b).
Proof.
  intros inv cdf alpha N names names' D D' HI G P M. pose proof G as [ND [LN GP]]. pose proof (Permutation_NoDup P ND) as ND'.
  assert (general_sample N names' D') as G'.
  { split; auto. rewrite <- (Permutation_length P). split; auto. rewrite (Permutation_length P), <- measured_names by auto.
    rewrite (map_ext_in (measured names' D') (measured names D)).
    - apply (sub_variables N _ names); auto; [rewrite measured_names; auto|]. intros x Hx. eapply Permutation_in; [apply Permutation_sym|]; eauto.
    - intros x Hx. apply M. eapply Permutation_in; [apply Permutation_sym|]; eauto. }
  set (t := decisions (fisherz_test inv cdf N (Array (List.length names) D) names) alpha).
  set (t' := decisions (fisherz_test inv cdf N (Array (List.length names') D') names') alpha).
  set (t0 := fun u v z => let z0 := filter (fun x => memb x z) names in if Nat.leb u v then t u v z0 else t v u z0).
  assert (forall z z', (forall x, In x z <-> In x z') -> filter (fun x => memb x z) names = filter (fun x => memb x z') names) as FE.
  { intros z z' H. apply filter_ext. intro x. apply memb_ext. auto. }
  assert (set_symmetric t0) as SY.
  { split.
    - intros u v z. unfold t0. destruct (Nat.leb_spec u v); destruct (Nat.leb_spec v u); auto; try lia. assert (u = v) as -> by lia. auto.
    - intros u v z z' H. unfold t0. rewrite (FE z z' H). auto. }
  assert (forall u v z, legal names u v z -> exists p, sample_pvalue cdf N (measured names D) u v z p /\ t u v z = Ok (if at_least alpha (Some p) then 1 else 0)%Q) as T by (intros; apply decided; auto).
  assert (forall u v z, legal names u v z -> legal names v u z) as LS.
  { intros u v z (H1 & H2 & H3 & H4 & H5 & H6 & H7). repeat (split; auto). }
  assert (forall u v z, legal names u v z -> t0 u v z = t u v z) as E0.
  { intros u v z Lg. pose proof Lg as (Hu & Hv & Nuv & Nz & Hz & Nu & Nv).
    assert (Permutation z (filter (fun x => memb x z) names)) as Pz.
    { apply NoDup_Permutation; auto; [apply NoDup_filter; auto|]. intro x. rewrite filter_In, memb_In. split; [|tauto]. intro H. auto. }
    assert (legal names u v (filter (fun x => memb x z) names)) as Lg'.
    { repeat (split; auto); [apply NoDup_filter; auto|intros x Hx; apply filter_In in Hx; tauto| |];
        intro H; apply filter_In in H; destruct H as [_ H]; apply memb_In in H; auto. }
    destruct (T u v z Lg) as [p [P1 ->]]. unfold t0. destruct (Nat.leb u v).
    - destruct (T _ _ _ Lg') as [p' [P2 ->]]. rewrite (sample_unique _ _ _ _ _ _ _ _ P2 (sample_perm _ _ _ _ _ _ _ _ Pz P1)). auto.
    - destruct (T _ _ _ (LS _ _ _ Lg')) as [p' [P2 ->]].
      rewrite (sample_unique _ _ _ _ _ _ _ _ P2 (sample_sym _ _ _ _ _ _ _ (sample_perm _ _ _ _ _ _ _ _ Pz P1))). auto. }
  assert (answers t0 names) as A0.
  { intros u v z Hu Hv Nuv Nz Hz. rewrite E0 by (apply legal_of; auto). destruct (T u v z) as [p [_ ->]]; [apply legal_of; auto|eauto]. }
  assert (forall u v z, legal names' u v z -> legal names u v z) as LN'.
  { assert (forall x, In x names' -> In x names) as J by (intros x Hx; eapply Permutation_in; [apply Permutation_sym|]; eauto).
    intros u v z (H1 & H2 & H3 & H4 & H5 & H6 & H7). repeat (split; auto). intros x Hx. auto. }
  assert (forall u v z, legal names' u v z -> t' u v z = t0 u v z) as E1.
  { intros u v z Lg. rewrite E0 by auto. destruct (T u v z (LN' _ _ _ Lg)) as [p [P1 ->]].
    destruct (decided inv cdf alpha N names' D' u v z HI G' Lg) as [p' [P2 E']]. unfold t'. rewrite E'.
    rewrite (sample_unique _ _ _ _ _ _ _ _ P1 (sample_ext _ _ (measured names' D') _ _ _ _ _ (fun x Hx => M x (proj2 (legal_nodup _ _ _ _ (LN' _ _ _ Lg)) x Hx)) P2)). auto. }
  assert (answers t0 names') as A0'.
  { intros u v z Hu Hv Nuv Nz Hz. rewrite <- E1 by (apply legal_of; auto). destruct (decided inv cdf alpha N names' D' u v z HI G') as [p [_ E']]; [apply legal_of; auto|].
    unfold t'. rewrite E'. eauto. }
  rewrite !fitted_eq. fold t t'.
  rewrite (pc_same adjacency_search t0 t names) by (auto using plain; intros; symmetry; auto).
  rewrite (pc_same adjacency_search t0 t' names') by auto using plain.
  destruct (C24_pc_keeps_skeleton adjacency_search t0 names 1 plain ND A0) as [sk [cg [sep [E [_ [_ [C _]]]]]]].
  destruct (C24_pc_keeps_skeleton adjacency_search t0 names' 1 plain ND' A0') as [sk' [cg' [sep' [E' [_ [_ [C' _]]]]]]].
  exists sk, cg, sep, sk', cg', sep'. split; auto. split; auto.
  destruct (C21_adjacency_search_order_independent t0 names names' 1 ND P A0 SY) as [g1 [s1 [c1 [g2 [s2 [c2 [R1 [R2 [Q1 Q2]]]]]]]]].
  unfold pc_fit in E, E'. rewrite R1 in E. rewrite R2 in E'. destruct (run_on _ g1); [|discriminate]. destruct (run_on _ g2); [|discriminate].
  inversion E; inversion E'; subst. split; auto. split; auto. intros u v. rewrite C, C'. auto.
Qed.
Print Assumptions C98_columns.

(** A variable with one value only is adjacent to every other variable in the result, whatever the others are. *)
Theorem C98_constant : forall S inv cdf alpha N names D x, a_search S -> right_inverse inv -> NoDup names -> In x names -> List.length names + 2 <= N ->
  flat N (measured names D x) -> nondegenerate N (map (measured names D) (remove Nat.eq_dec x names)) ->
  (forall u v, 0 <= u <= v -> cdf u <= cdf v)%R -> (2 * (1 - cdf 7) < alpha)%R ->
  exists sk cg sep, fitted S inv cdf alpha N names D = Ok (sk, cg, sep) /\
    forall y, In y names -> y <> x -> connected sk x y /\ connected cg x y.
Proof.
  intros S inv cdf alpha N names D x HS HI ND Hx LN F G Mono Al. rewrite fitted_eq.
  set (t := decisions (fisherz_test inv cdf N (Array (List.length names) D) names) alpha).
  assert (forall u v z, legal names u v z -> (In x (u :: v :: z) -> t u v z = Ok 0%Q) /\ exists p, t u v z = Ok p) as T.
  { intros u v z Lg. destruct (legal_nodup _ _ _ _ Lg) as [NDz I]. pose proof (legal_length _ _ _ _ Lg) as LL.
    set (zi := map (fun x => place x names) z).
    assert (asked (place u names) (place v names) (Some zi) = map (fun x => place x names) (u :: v :: z)) as EA by reflexivity.
    assert (In x (u :: v :: z) -> t u v z = Ok 0%Q) as K.
    { intro Ix. unfold t, decisions. rewrite fisherz_test_ids by auto. cbn [values_of fst snd].
      destruct (C97_constant inv cdf N (List.length names) D (place u names) (place v names) (Some zi) (place x names)) as [p [E [_ [_ [_ B]]]]].
      - lia.
      - rewrite EA. intros i Hi. apply in_map_iff in Hi. destruct Hi as [y [<- Hy]]. apply place_lt. auto.
      - rewrite EA. apply (in_map (fun y => place y names)). auto.
      - exact F.
      - fold zi. rewrite E. cbn [rbind fst]. cbn [cond] in B. unfold zi in B. rewrite map_length in B. destruct (B ltac:(lia) Mono) as [q [-> Lq]].
        cbn [at_least]. destruct (Rle_dec alpha q); [lra|reflexivity]. }
    split; auto. destruct (in_dec Nat.eq_dec x (u :: v :: z)) as [i|n]; [eauto|].
    destruct (fisherz_test_sample inv cdf N names ND D u v z HI Lg) as [p [E _]]; [lia| |].
    - apply (sub_variables N _ (remove Nat.eq_dec x names)); auto. intros y Hy. apply in_in_remove; [|apply I; auto]. intros ->. auto.
    - unfold t, decisions. rewrite E. cbn [rbind]. eauto. }
  assert (answers t names) as A.
  { intros u v z Hu Hv Nuv Nz Hz. apply T. apply legal_of; auto. }
  destruct (C24_pc_keeps_skeleton S t names 1 HS ND A) as [sk [cg [sep [E [_ [Nc [C _]]]]]]].
  exists sk, cg, sep. split; auto. intros y Hy Nyx.
  destruct (C20_search_removes_iff_accepted S t names 1 HS ND A) as [g [sp [calls [E' [_ [_ [_ [Ge [Re _]]]]]]]]].
  unfold pc_fit in E. rewrite E' in E. destruct (run_on _ g) as [cg'|]; [|discriminate]. inversion E; subst cg' sp g. clear E.
  assert (connected sk x y) as Q; [|split; auto; apply C; auto].
  destruct (Classical_Prop.classic (connected sk x y)) as [|n]; auto. exfalso. apply (Re x y Hx Hy ltac:(auto)) in n. destruct n as [z [p [H L]]].
  assert (p = 0%Q) as ->; [|apply L; reflexivity].
  destruct H as [H|H]; destruct (Ge _ _ _ _ H) as (T1 & H1 & H2 & H3 & H4 & H5);
    (rewrite (proj1 (T _ _ _ (legal_of _ _ _ _ H1 H2 H3 H4 H5))) in T1; [congruence|simpl; auto]).
Qed.
Print Assumptions C98_constant.

(** From a single record every p-value is NaN, and NaN is not at least alpha: every edge stays. *)
Theorem C98_one_record : forall S inv cdf alpha N names D, a_search S -> NoDup names -> N <= 1 ->
  exists sk cg sep, fitted S inv cdf alpha N names D = Ok (sk, cg, sep) /\
    forall x y, In x names -> In y names -> x <> y -> connected sk x y /\ connected cg x y.
Proof.
  intros S inv cdf alpha N names D HS ND LN. rewrite fitted_eq.
  set (t := decisions (fisherz_test inv cdf N (Array (List.length names) D) names) alpha).
  assert (forall u v z, legal names u v z -> t u v z = Ok 0%Q) as T.
  { intros u v z Lg. destruct (legal_nodup _ _ _ _ Lg) as [NDz I]. pose proof (legal_length _ _ _ _ Lg) as LL.
    set (zi := map (fun x => place x names) z).
    assert (asked (place u names) (place v names) (Some zi) = map (fun x => place x names) (u :: v :: z)) as EA by reflexivity.
    unfold t, decisions. rewrite fisherz_test_ids by auto. cbn [values_of fst snd].
    destruct (C97_constant inv cdf N (List.length names) D (place u names) (place v names) (Some zi) (place u names)) as [p [E [B _]]].
    - lia.
    - rewrite EA. intros i Hi. apply in_map_iff in Hi. destruct Hi as [y [<- Hy]]. apply place_lt. auto.
    - left. auto.
    - intros i j Hi Hj. f_equal. lia.
    - fold zi. rewrite E, B by lia. reflexivity. }
  assert (answers t names) as A.
  { intros u v z Hu Hv Nuv Nz Hz. rewrite T; [eauto|]. apply legal_of; auto. }
  destruct (C24_pc_keeps_skeleton S t names 1 HS ND A) as [sk [cg [sep [E [_ [Nc [C _]]]]]]].
  exists sk, cg, sep. split; auto. intros x y Hx Hy Nxy.
  destruct (C20_search_removes_iff_accepted S t names 1 HS ND A) as [g [sp [calls [E' [_ [_ [_ [Ge [Re _]]]]]]]]].
  unfold pc_fit in E. rewrite E' in E. destruct (run_on _ g) as [cg'|]; [|discriminate]. inversion E; subst cg' sp g. clear E.
  assert (connected sk x y) as Q; [|split; auto; apply C; auto].
  destruct (Classical_Prop.classic (connected sk x y)) as [|n]; auto. exfalso. apply (Re x y Hx Hy Nxy) in n. destruct n as [z [p [H L]]].
  assert (p = 0%Q) as ->; [|apply L; reflexivity].
  destruct H as [H|H]; destruct (Ge _ _ _ _ H) as (T1 & H1 & H2 & H3 & H4 & H5); rewrite (T _ _ _ (legal_of _ _ _ _ H1 H2 H3 H4 H5)) in T1; congruence.
Qed.
Print Assumptions C98_one_record.

(** How data are passed does not matter: an array without names has the names 0 .. d-1, a frame is an array named by its columns, or by
    the names given. *)
Theorem C98_frames : forall S inv cdf alpha N,
  (forall d D, pc_fit_data S inv cdf alpha N (Array d D) None 0 = fitted S inv cdf alpha N (seq 0 d) D) /\
  (forall cols D, pc_fit_data S inv cdf alpha N (Frame cols D) None 0 = fitted S inv cdf alpha N cols D) /\
  (forall cols names D, List.length names = List.length cols -> pc_fit_data S inv cdf alpha N (Frame cols D) (Some names) 0 = fitted S inv cdf alpha N names D).
Proof.
  intros S inv cdf alpha N. split; [|split].
  - intros d D. rewrite fitted_eq. unfold pc_fit_data, data_form_converter. cbn [Nat.eqb rbind fst snd]. rewrite seq_length, Nat.eqb_refl. reflexivity.
  - intros cols D. rewrite fitted_eq. unfold pc_fit_data, data_form_converter. cbn [Nat.eqb rbind fst snd]. rewrite Nat.eqb_refl. reflexivity.
  - intros cols names D L. rewrite fitted_eq. unfold pc_fit_data, data_form_converter. rewrite L, Nat.eqb_refl. cbn [Nat.eqb rbind fst snd]. rewrite L, Nat.eqb_refl.
    cbn [rbind fst snd]. unfold fisherz_test, values_of. cbn [fst snd]. reflexivity.
Qed.
Print Assumptions C98_frames.

(** What is refused: data of another kind, a vector, names that are not one for each column, a name twice; and every argument
    after the names that is not passed by keyword, the test class included. *)
Theorem C98_refused : forall S inv cdf alpha N,
  (forall names k, pc_fit_data S inv cdf alpha N NotData names k = Err AssertionError) /\
  (forall names k, pc_fit_data S inv cdf alpha N Vector names k = Err IndexError) /\
  (forall d D names k, List.length names <> d -> pc_fit_data S inv cdf alpha N (Array d D) (Some names) k = Err AssertionError) /\
  (forall cols D names k, List.length names <> List.length cols -> pc_fit_data S inv cdf alpha N (Frame cols D) (Some names) k = Err AssertionError) /\
  (forall names D, a_search S -> ~ NoDup names -> fitted S inv cdf alpha N names D = Err AssertionError) /\
  (forall names D k, 0 < k -> pc_fit_data S inv cdf alpha N (Array (List.length names) D) (Some names) k = Err TypeError) /\
  (forall d D k, 0 < k -> pc_fit_data S inv cdf alpha N (Array d D) None k = Err TypeError) /\
  (forall cols D k, 0 < k -> pc_fit_data S inv cdf alpha N (Frame cols D) None k = Err TypeError).
Proof.
  intros S inv cdf alpha N. unfold pc_fit_data, data_form_converter. repeat split; intros; auto.
  - destruct (Nat.eqb_spec (List.length names) d); [contradiction|reflexivity].
  - destruct (Nat.eqb_spec (List.length names) (List.length cols)); [contradiction|reflexivity].
  - rewrite fitted_eq. unfold pc_fit. rewrite C20_repeated_names; auto.
  - rewrite Nat.eqb_refl. destruct k; [lia|reflexivity].
  - destruct k; [lia|reflexivity].
  - destruct k; [lia|reflexivity].
Qed.
Print Assumptions C98_refused.

(** Two effects 7 and 4 of a common cause 9 in 8 records: with [half_cdf] and the level 3/4 the decisions on the sample are those of
    d-separation, and the result is the skeleton 7 - 9 - 4. *)
Definition fork : graph := build KDiGraph [7; 4; 9] [DEdge 9 7; DEdge 9 4].
Lemma fork_reachable : reachable KDiGraph fork.
Proof. eapply build_reachable. reflexivity. Qed.

Lemma half_pvalue : forall x, (0 <= x)%R -> (2 * (1 - half_cdf x) = / (1 + x))%R.
Proof. intros x Hx. unfold half_cdf. field. lra. Qed.

Lemma rejected : forall V u v z ru rv p, List.length z <= 1 -> residual 8 (map V z) (V u) ru -> residual 8 (map V z) (V v) rv ->
  (0 < comoment 8 ru ru * comoment 8 rv rv <= 4 * (comoment 8 ru rv * comoment 8 ru rv))%R -> sample_pvalue half_cdf 8 V u v z p -> (p <= 1 / 2)%R.
Proof.
  intros V u v z ru rv p L A B C P.
  rewrite (sample_unique _ _ _ _ _ _ _ _ P (ex_intro _ ru (ex_intro _ rv (conj A (conj B eq_refl))))).
  assert (1 / 2 <= Rabs (pearson 8 ru rv))%R as Hr.
  { unfold pearson. set (a := comoment 8 ru rv) in *. set (b := (comoment 8 ru ru * comoment 8 rv rv)%R) in *.
    assert (0 < sqrt b)%R as Sb by (apply sqrt_lt_R0; lra).
    unfold Rdiv at 2. rewrite Rabs_mult, Rabs_inv, (Rabs_pos_eq (sqrt b)) by lra.
    assert (sqrt b <= 2 * Rabs a)%R as K.
    { rewrite <- (sqrt_Rsqr (2 * Rabs a)) by (pose proof (Rabs_pos a); lra). apply sqrt_le_1_alt.
      unfold Rsqr. replace (2 * Rabs a * (2 * Rabs a))%R with (4 * (Rabs a * Rabs a))%R by ring.
      rewrite <- Rabs_mult, Rabs_pos_eq; [lra|apply Rle_0_sqr]. }
    apply (Rmult_le_reg_r (sqrt b)); auto. rewrite Rmult_assoc, Rinv_l by lra. lra. }
  set (m := Rmin 0.9999999 (Rabs (pearson 8 ru rv))).
  assert (1 / 2 <= m < 1)%R as Hm.
  { split; [apply Rmin_glb; [lra|auto]|]. eapply Rle_lt_trans; [apply Rmin_l|lra]. }
  assert (1 <= 2 * fisher_transform m)%R as Hf.
  { unfold fisher_transform. assert (1 <= ln ((1 + m) / (1 - m)))%R; [|lra].
    rewrite <- (ln_exp 1) at 1. 
    assert (exp 1 <= (1 + m) / (1 - m))%R as [H|H]; [|left; apply ln_increasing; auto using exp_pos|right; rewrite H; auto].
    apply Rle_trans with 3%R; [apply exp_le_3|].
    apply (Rmult_le_reg_r (1 - m)); [lra|]. unfold Rdiv. rewrite Rmult_assoc, Rinv_l by lra. lra. }
  assert (2 <= sqrt (INR (8 - List.length z - 3)))%R as Hs.
  { rewrite <- (sqrt_square 2) by lra. apply sqrt_le_1_alt. replace (2 * 2)%R with (INR 4) by (simpl; lra). apply le_INR. lia. }
  assert (1 <= sqrt (INR (8 - List.length z - 3)) * fisher_transform m)%R as Hx by nra.
  rewrite half_pvalue by lra. replace (1 / 2)%R with (/ 2)%R by lra. apply Rinv_le_contravar; lra.
Qed.

Definition V3 := measured [7; 4; 9] effects.
Ltac fork_residual c := split; [|split; [unfold sumRn, V3, measured, column, effects, sign0, sign1, sign2; simpl; lra|]];
  [exists 0%R, (fun _ => c); intros i _; unfold combination, sumRn, V3, measured, column, effects; simpl; lra
  |intros ? H; simpl in H; repeat (destruct H as [<-|H]); try contradiction; unfold sumRn, V3, measured, column, effects, sign0, sign1, sign2; simpl; lra].
Lemma centred_moment : forall u v, sumRn 8 u = 0%R -> sumRn 8 v = 0%R -> comoment 8 u v = sumRn 8 (fun i => u i * v i)%R.
Proof. intros u v U V. unfold comoment. rewrite !average_zero by auto. apply sum_ext. intros. ring. Qed.
Ltac fork_moments := rewrite !centred_moment by (unfold sumRn, V3, measured, column, effects, sign0, sign1, sign2; simpl; lra);
  unfold sumRn, V3, measured, column, effects, sign0, sign1, sign2; simpl; lra.

Lemma fork_pvalues : forall p,
  (sample_pvalue half_cdf 8 V3 7 4 [] p -> (p <= 1 / 2)%R) /\ (sample_pvalue half_cdf 8 V3 7 9 [] p -> (p <= 1 / 2)%R) /\
  (sample_pvalue half_cdf 8 V3 4 9 [] p -> (p <= 1 / 2)%R) /\ (sample_pvalue half_cdf 8 V3 7 9 [4] p -> (p <= 1 / 2)%R) /\
  (sample_pvalue half_cdf 8 V3 4 9 [7] p -> (p <= 1 / 2)%R) /\ (sample_pvalue half_cdf 8 V3 7 4 [9] p -> p = 1%R).
Proof.
  intro p. unfold V3. split; [|split; [|split; [|split; [|split]]]].
  - apply (rejected _ 7 4 [] (measured [7; 4; 9] effects 7) (measured [7; 4; 9] effects 4)); [simpl; lia|fork_residual 0%R|fork_residual 0%R|fork_moments].
  - apply (rejected _ 7 9 [] (measured [7; 4; 9] effects 7) (measured [7; 4; 9] effects 9)); [simpl; lia|fork_residual 0%R|fork_residual 0%R|fork_moments].
  - apply (rejected _ 4 9 [] (measured [7; 4; 9] effects 4) (measured [7; 4; 9] effects 9)); [simpl; lia|fork_residual 0%R|fork_residual 0%R|fork_moments].
  - apply (rejected _ 7 9 [4] (fun i => V3 7%nat i - / 2 * V3 4%nat i)%R
      (fun i => V3 9%nat i - / 2 * V3 4%nat i)%R); [simpl; lia|fork_residual (/ 2)%R|fork_residual (/ 2)%R|fork_moments].
  - apply (rejected _ 4 9 [7] (fun i => V3 4%nat i - / 2 * V3 7%nat i)%R
      (fun i => V3 9%nat i - / 2 * V3 7%nat i)%R); [simpl; lia|fork_residual (/ 2)%R|fork_residual (/ 2)%R|fork_moments].
  - intro P.
    assert (residual 8 (map (measured [7; 4; 9] effects) [9]) (measured [7; 4; 9] effects 7) sign0) as A by fork_residual 1%R.
    assert (residual 8 (map (measured [7; 4; 9] effects) [9]) (measured [7; 4; 9] effects 4) sign1) as B by fork_residual 1%R.
    rewrite (sample_unique _ _ _ _ _ _ _ _ P (ex_intro _ sign0 (ex_intro _ sign1 (conj A (conj B eq_refl))))).
    assert (pearson 8 sign0 sign1 = 0)%R as ->.
    { unfold pearson. replace (comoment 8 sign0 sign1) with 0%R by (symmetry; fork_moments). unfold Rdiv. ring. }
    rewrite Rabs_R0, Rmin_right by lra. unfold fisher_transform. replace ((1 + 0) / (1 - 0))%R with 1%R by field.
    rewrite ln_1, !Rmult_0_r, half_pvalue by lra. rewrite Rplus_0_r. apply Rinv_1.
Qed.

Lemma fork_decisions : forall u v z p, about (nodes fork) u v z -> sample_pvalue half_cdf 8 (measured (nodes fork) effects) u v z p ->
  ((3 / 4 <= p)%R <-> dsep (directed fork) (fun x => In x z) u v).
Proof.
  intros u v z p Ab P. destruct (reach_arc fork fork_reachable) as [Dg _].
  { apply C09_aux; [apply fork_reachable|vm_compute; reflexivity]. }
  pose proof (proj1 (about_legal _ _ _ _) Ab) as (Hu & Hv & Nuv & Nz & Hz & Nu & Nv).
  rewrite (dsep_ext _ (arc fork) (directed_arc fork Dg)), <- (sepb_iff fork Dg u v z Hu Hv Hz).
  change (nodes fork) with [7; 4; 9] in *. fold V3 in P. destruct (fork_pvalues p) as (P1 & P2 & P3 & P4 & P5 & P6).
  assert (forall w, In w z -> In w [7; 4; 9] /\ w <> u /\ w <> v) as Hw by apply Ab.
  assert (z = [] \/ exists w, z = [w]) as Ez.
  { pose proof (legal_length _ _ _ _ (proj1 (about_legal _ _ _ _) Ab)) as LL. simpl in LL. destruct z as [|w [|w' z]]; simpl in LL; eauto. lia. }
  pose proof (sample_sym _ _ _ _ _ _ _ P) as P'.
  assert (forall b, sepb fork u v z = b -> (if b then p = 1 else p <= 1 / 2)%R -> ((3 / 4 <= p)%R <-> sepb fork u v z = true)) as K.
  { intros b E H. rewrite E. destruct b; cbv iota in H; split; intro Q; auto; try discriminate; try lra. }
  destruct Ez as [->|[w ->]].
  - destruct Hu as [<-|[<-|[<-|[]]]]; destruct Hv as [<-|[<-|[<-|[]]]]; try congruence; (apply (K false); [vm_compute; reflexivity|auto]).
  - destruct (Hw w (or_introl eq_refl)) as [Iw [N1 N2]].
    destruct Hu as [<-|[<-|[<-|[]]]]; destruct Hv as [<-|[<-|[<-|[]]]]; try congruence; destruct Iw as [<-|[<-|[<-|[]]]]; try congruence;
      (apply (K false); [vm_compute; reflexivity|solve [auto]]) || (apply (K true); [vm_compute; reflexivity|solve [auto]]).
Qed.

Example C98_example : right_inverse spd_inv /\ general_sample 8 (nodes fork) effects /\ acyclic (directed fork) /\ set_orders fork (list_order fork) /\
  (* the result of PC on the sample *)
  (forall S, a_search S -> exists sk cg sep, fitted S spd_inv half_cdf (3 / 4) 8 (nodes fork) effects = Ok (sk, cg, sep) /\
     get_edge cg 7 9 = Ok (Some (Edge 7 9 Tail Tail)) /\ get_edge cg 9 4 = Ok (Some (Edge 9 4 Tail Tail)) /\ get_edge cg 7 4 = Ok None) /\
  (* other units, other orders, a constant column *)
  other_units 8 3 effects (fun i c => 2 * effects i c + 5)%R /\
  Permutation (nodes fork) [9; 7; 4] /\
  (forall x, In x (nodes fork) -> measured [9; 7; 4] (fun i c => effects i (match c with 0 => 2 | S c => c end)) x = measured (nodes fork) effects x) /\
  flat 8 (measured [7; 4; 9; 1] effects 1) /\ nondegenerate 8 (map (measured [7; 4; 9; 1] effects) (remove Nat.eq_dec 1 [7; 4; 9; 1])) /\
  (2 * (1 - half_cdf 7) < 3 / 4)%R.
Proof.
  destruct effects_general as [G3 _].
  assert (general_sample 8 (nodes fork) effects) as G.
  { change (nodes fork) with [7; 4; 9]. split; [repeat constructor; simpl; intuition discriminate|]. split; [simpl; lia|exact G3]. }
  assert (acyclic (directed fork)) as Ac by (apply C09_aux; [apply fork_reachable|vm_compute; reflexivity]).
  split; [exact spd_inv_ok|]. split; auto. split; auto. split; [apply (list_order_ok _ _ fork_reachable)|].
  split; [|split; [|split; [|split; [|split; [|split]]]]].
  - intros S HS.
    destruct (C98_faithful S spd_inv half_cdf (3 / 4) 8 fork effects (list_order fork) HS spd_inv_ok G fork_reachable Ac (list_order_ok _ _ fork_reachable) fork_decisions)
      as [sk [cg [sep [c [E [Ec [_ H]]]]]]].
    exists sk, cg, sep. split; auto. vm_compute in Ec. inversion Ec; subst c. clear Ec.
    rewrite !H. split; [|split]; reflexivity.
  - exists (fun _ => 2%R), (fun _ => 5%R). split; [intros; lra|reflexivity].
  - change (nodes fork) with [7; 4; 9]. apply Permutation_sym. apply perm_trans with [7; 9; 4]; repeat constructor.
  - change (nodes fork) with [7; 4; 9]. intros x [<-|[<-|[<-|[]]]]; reflexivity.
  - intros i j _ _. reflexivity.
  - exact G3.
  - rewrite half_pvalue by lra. lra.
Qed.
