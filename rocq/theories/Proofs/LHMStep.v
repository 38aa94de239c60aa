(** One round of the main loop: the invariant is kept, the number of active
    variables falls, and only two exceptions are possible. *)

From Coq Require Import List Arith Bool Lia Permutation Relations Sorting.Sorted.
From Verif Require Import Model.Py Model.LHS Model.LHM Spec.Clusters Spec.Hierarchy Spec.LHMRun.
From Verif Require Import Proofs.PyFacts Proofs.MergeFacts Proofs.LHSFacts Proofs.FindFacts Proofs.LHMMerge Proofs.LHMRound.
Import ListNotations.
Open Scope nat_scope.

Lemma sorted_nodup : forall l, StronglySorted lt l -> NoDup l.
Proof.
  induction 1 as [|a l S IH F]; constructor; auto. intro H. rewrite Forall_forall in F. specialize (F a H). lia.
Qed.

Lemma found_ok : forall G s, setting_ok G -> NoDup (columns (s_data s)) -> exists P I pairs,
  find_causal_cluster (g_ord G) (g_vt G) (s_data s) (s_pure s) (s_impure s) = Ok (found G s, s_pure s ++ P, s_impure s ++ I, pairs) /\
  (forall C, In C (found G s) -> NoDup C /\ 2 <= length C /\ incl C (columns (s_data s))) /\
  (forall C, In C (found G s) <-> In C P \/ In C I).
Proof.
  intros G s SO ND. destruct (find_causal_cluster_ok (g_ord G) (g_vt G) (s_data s) (s_pure s) (s_impure s) (g_ord_ok _ SO) ND)
    as [L1 [L2 [P [I [pairs [E [HP [S1 [D1 [K1 [PM [P1 [I1 [H2 _]]]]]]]]]]]]]].
  assert (F : found G s = L1 ++ L2) by (unfold found; rewrite E; auto).
  rewrite F. exists P, (I ++ L2), pairs. split; [auto|]. split.
  - intros C HC. apply in_app_iff in HC. destruct HC as [HC|HC].
    + destruct (S1 _ HC) as [SS LL]. split; [apply sorted_nodup; auto|]. split; auto.
      intros x Hx. assert (LK : linked pairs x x) by (apply K1; eauto).
      apply linked_sub in LK. destruct LK as [[a [Ha Hxa]] _]. apply HP in Ha. destruct Ha as [[u v] [Hp [-> _]]].
      apply in_comb2_In in Hp. simpl in Hxa. destruct Hxa as [<-|[<-|[]]]; tauto.
    + destruct (H2 _ HC) as [A [B [C' _]]]. split; auto. split; [lia|auto].
  - intros C. rewrite !in_app_iff. split.
    + intros [H|H]; auto. apply (Permutation_in _ PM) in H. apply in_app_iff in H. tauto.
    + intros [H|[H|H]]; auto; left; apply (Permutation_in _ (Permutation_sym PM)); apply in_app_iff; auto.
Qed.

(* ---------- updating the data ---------- *)
Lemma dset_new : forall {V} (e : list (nat * V)) k v, ~ In k (dkeys e) -> dset Nat.eqb e k v = e ++ [(k, v)].
Proof.
  induction e as [|[a b] e IH]; simpl; intros k v N; auto. destruct (Nat.eqb_spec k a) as [->|NE]; [tauto|]. f_equal. auto.
Qed.

Lemma introduce_latent : forall lname, (forall a b, lname a = lname b -> a = b) ->
  forall Cs k latent sur names indexs k' latent' sur' names' indexs',
  (forall j, k <= j -> ~ In (lname j) (dkeys latent)) ->
  introduce lname Cs k latent sur names indexs = Ok (k', latent', sur', names', indexs') ->
  latent' = latent ++ combine (map lname (seq k (length Cs))) Cs.
Proof.
  intros lname INJ. induction Cs as [|C Cs IH]; simpl; intros k latent sur names indexs k' latent' sur' names' indexs' HN H.
  - inversion H; subst. rewrite app_nil_r. auto.
  - destruct C as [|x r] eqn:EC; [discriminate|]. rewrite <- EC in *. apply IH in H.
    + rewrite H, dset_new by (apply HN; auto). rewrite <- app_assoc, Nat.add_1_r. auto.
    + intros j Hj. rewrite dset_new by (apply HN; auto). unfold dkeys. rewrite map_app, in_app_iff. simpl. intros [F|[F|[]]].
      * apply (HN j); [lia|auto].
      * apply INJ in F. lia.
Qed.

Lemma update_data_full : forall ord lname merge early pure k latent data,
  ord_ok ord -> (forall a b, lname a = lname b -> a = b) -> (forall j, k <= j -> ~ In (lname j) (dkeys latent)) ->
  (forall C, In C early -> C <> []) -> (forall C, In C (merge ++ pure) -> C <> [] /\ incl C (columns data)) ->
  exists d' rest, update_data ord lname merge early pure k latent data =
      Ok (d', k + length (merge ++ pure), latent ++ combine (map lname (seq k (length (merge ++ pure)))) (merge ++ pure)) /\
    (forall v, In v rest <-> In v (columns data) /\ (forall C, In C early -> ~ In v (tl C)) /\ (forall C, In C (merge ++ pure) -> ~ In v C)) /\
    NoDup rest /\ columns d' = rest ++ map lname (seq k (length (merge ++ pure))).
Proof.
  intros ord lname merge early pure k latent data O INJ HN NE NC.
  assert (T : exists r, update_data ord lname merge early pure k latent data = Ok r).
  { unfold update_data. rewrite (removed_total early NE). cbn [rbind].
    set (ix := set_minus (py_set (columns data)) (concat (map (@tl nat) early))).
    destruct (introduce_total lname (merge ++ pure) k latent [] [] ix) as [k' [l' [su [na [ix' E]]]]].
    { intros C HC. apply NC. auto. }
    rewrite E. cbn [rbind]. apply introduce_ok in E. destruct E as [_ [_ [-> [_ [HI _]]]]].
    destruct (select_total data ([] ++ map (hd 0) (merge ++ pure))) as [t ET].
    { simpl. intros x Hx. apply in_map_iff in Hx. destruct Hx as [C [<- HC]]. destruct (NC C HC) as [N1 N2].
      apply N2. destruct C; [congruence|left; auto]. }
    rewrite ET. cbn [rbind]. destruct (select_total data (ord ix')) as [t2 ET2].
    { intros x Hx. apply (proj1 (ord_In _ _ _ O)) in Hx. apply HI in Hx. destruct Hx as [Hx _]. apply outside_In in Hx. tauto. }
    rewrite ET2. cbn [rbind]. eauto. }
  destruct T as [[[d' k'] l'] E]. pose proof (update_data_layout _ _ _ _ _ _ _ _ _ _ _ O E) as [rest [R1 [R2 [-> [R4 _]]]]].
  assert (EL : l' = latent ++ combine (map lname (seq k (length (merge ++ pure)))) (merge ++ pure)).
  { unfold update_data in E. rewrite (removed_total early NE) in E. cbn [rbind] in E.
    destruct (introduce lname (merge ++ pure) k latent [] [] _) as [[[[[a b] c] e] f]|] eqn:I; [|discriminate]. cbn [rbind] in E.
    apply introduce_latent in I; auto.
    destruct (select data c) as [t|]; [|discriminate]. cbn [rbind] in E. destruct (select data (ord f)) as [t2|]; [|discriminate]. cbn [rbind] in E.
    inversion E; subst. auto. }
  subst l'. exists d', rest. auto.
Qed.

Lemma remaining_In : forall d Ls x, In x (remaining d Ls) -> In x (columns d) /\ ~ In x (concat Ls).
Proof.
  intros d Ls x H. destruct Ls as [|C Ls]; [destruct H|]. unfold remaining in H.
  assert (Gen : forall Cs acc, In x (fold_left set_minus Cs acc) <-> In x acc /\ ~ In x (concat Cs)).
  { induction Cs as [|D Cs IH]; simpl; intros acc; [tauto|]. rewrite IH, set_minus_In, in_app_iff. tauto. }
  apply Gen in H. rewrite py_set_In in H. auto.
Qed.

(** What a round does: the clusters merged or introduced, [grp], and the early
    learned ones, [ers]. *)
Record effect (G : setting) (s : state) (ms ps ers : list (list nat)) (lat : list (nat * list nat)) : Prop := {
  e_disj : NoDup (concat (map (@tl nat) ers) ++ concat (ms ++ ps));
  e_cols : incl (concat (map (@tl nat) ers) ++ concat (ms ++ ps)) (columns (s_data s));
  e_two : forall C, In C (ms ++ ps) -> 2 <= length C;
  e_ers : forall e, In e ers -> e <> [] /\ 1 <= length (tl e) /\ In (hd 0 e) (columns (s_data s)) /\ In (hd 0 e) (dkeys (s_latent s));
  e_heads : NoDup (concat ers);
  e_grew : grew (s_latent s) lat ers
}.

Lemma merge_effect : forall G s Ls P impure, setting_ok G -> inv G s -> pairwise_disjoint Ls ->
  (forall C, In C Ls -> NoDup C /\ 2 <= length C /\ incl C (columns (s_data s))) ->
  (forall C, In C P -> NoDup C /\ 2 <= length C) ->
  (exists m impure', merge_causal_cluster G Ls P impure (s_latent s) (s_data s) = Ok (m, impure') /\
     effect G s (m_merge m) (m_pure m) (m_erem m) (m_latent m) /\ (forall C, In C (m_pure m) -> In C Ls)) \/
  (merge_causal_cluster G Ls P impure (s_latent s) (s_data s) = Err IndexError /\ bad_latent s P).
Proof.
  intros G s Ls P impure SO IV DJ HL HP. unfold merge_causal_cluster.
  set (impure' := match Ls with [] => impure ++ [columns (s_data s)] | _ => impure end). set (rem := remaining (s_data s) Ls).
  assert (DC : NoDup (concat Ls)) by (apply disjoint_concat; auto; intros C HC; apply HL; auto).
  assert (RC : incl rem (columns (s_data s))) by (intros x Hx; apply remaining_In in Hx; tauto).
  assert (RO : forall x, In x rem -> ~ In x (concat Ls)) by (intros x Hx; apply remaining_In in Hx; tauto).
  destruct (early_dicts_total G s P SO IV HP impure' rem Ls [] []) as [[[inner outer] E]|[E B]]; auto.
  { intros C x HC Hx F. apply (RO x Hx). apply in_concat. eauto. }
  2: { right. rewrite E. auto. }
  left. rewrite E. cbn [rbind fst snd].
  assert (DI : dicts_ok (s_latent s) Ls rem inner outer).
  { eapply early_dicts_ok; [| |  |exact E]; [exact (g_ord_ok _ SO)|apply incl_refl|]. split; [intros L C []|]. split; [intros L C []|constructor]. }
  assert (TW : forall C, In C Ls -> 2 <= length C) by (intros C HC; apply HL; auto).
  assert (CO : forall C, In C Ls -> incl C (columns (s_data s))) by (intros C HC; apply HL; auto).
  destruct (merge_loop_ok G (s_data s) P impure' (s_latent s) (g_ord_ok _ SO) Ls inner outer rem DC TW RO DI CO (length Ls) Ls
     (Merged [] [] [] [] rem (s_latent s))) as [m [ers [ms [ps [es [E2 [B1 [B2 [B3 [B4 [B5 [B6 [B7 [B8 [B9 [B10 [B11 [B12 [B13 B14]]]]]]]]]]]]]]]]]]]; auto using incl_refl.
  rewrite E2. cbn [rbind]. exists m, impure'. split; auto. simpl in B1, B3, B5, B6. rewrite B1, B3, B5.
  assert (TC : incl (concat (map (terr outer) Ls)) (columns (s_data s))).
  { intros x Hx. apply in_concat in Hx. destruct Hx as [T [HT Hx]]. apply in_map_iff in HT. destruct HT as [C [<- HC]].
    unfold terr in Hx. apply in_app_iff in Hx. destruct Hx as [Hx|Hx]; [apply (CO C); auto|].
    destruct (early_by_dic C outer) as [L|] eqn:EO; [|destruct Hx]. destruct Hx as [<-|[]].
    apply early_by_dic_Some in EO. destruct EO as [C' [HI _]]. destruct DI as [_ [DI _]]. apply DI in HI. apply RC. tauto. }
  split.
  - constructor; auto.
    + intros x Hx. auto.
    + intros C HC. apply in_app_iff in HC. destruct HC as [HC|HC]; auto.
    + intros e He. destruct (B11 e He) as [N1 N2]. split; auto. split; auto. split; auto.
      apply TC, B14. apply in_concat. exists e. split; auto. destruct e; [congruence|left; auto].
  - auto.
Qed.

Lemma combine_dget : forall (ks : list nat) (Cs : list (list nat)) L C, length ks = length Cs -> NoDup ks ->
  (dget Nat.eqb (combine ks Cs) L = Some C <-> exists i, i < length Cs /\ nth i ks 0 = L /\ nth i Cs [] = C).
Proof.
  induction ks as [|k ks IH]; intros [|D Cs] L C HL ND; simpl in *; try discriminate.
  - split; [discriminate|intros [i [Hi _]]; lia].
  - apply NoDup_cons_iff in ND. destruct ND as [N1 N2]. destruct (Nat.eqb_spec L k) as [->|NE].
    + split.
      * intros H. inversion H; subst. exists 0. repeat split; auto. lia.
      * intros [[|i] [Hi [E1 E2]]]; [congruence|]. exfalso. apply N1. rewrite <- E1. apply nth_In. lia.
    + rewrite IH; auto. split.
      * intros [i [Hi [E1 E2]]]. exists (S i). repeat split; auto. lia.
      * intros [[|i] [Hi [E1 E2]]]; [congruence|]. exists i. repeat split; auto. lia.
Qed.

Lemma dget_app : forall {V} (a b : list (nat * V)) k, dget Nat.eqb (a ++ b) k = match dget Nat.eqb a k with Some v => Some v | None => dget Nat.eqb b k end.
Proof. induction a as [|[x v] a IH]; simpl; intros b k; auto. destruct (Nat.eqb k x); auto. Qed.

Lemma NoDup_concat_two : forall (Ls : list (list nat)) i j x, NoDup (concat Ls) -> i < length Ls -> j < length Ls ->
  In x (nth i Ls []) -> In x (nth j Ls []) -> i = j.
Proof.
  induction Ls as [|C Ls IH]; simpl; intros i j x N Hi Hj Xi Xj; [lia|].
  apply NoDup_app_iff in N. destruct N as [N1 [N2 N3]].
  destruct i as [|i], j as [|j]; auto.
  - exfalso. apply (N3 x Xi). apply in_concat. exists (nth j Ls []). split; auto. apply nth_In. lia.
  - exfalso. apply (N3 x Xj). apply in_concat. exists (nth i Ls []). split; auto. apply nth_In. lia.
  - f_equal. eapply IH; eauto; lia.
Qed.

(** The state after the clusters have been introduced. *)
Lemma effect_inv : forall G s ms ps ers lat pure impure d' rest,
  setting_ok G -> inv G s -> effect G s ms ps ers lat ->
  (forall P, In P pure -> NoDup P /\ 2 <= length P) ->
  let n := length (ms ++ ps) in
  let nm := map (g_lname G) (seq (s_num s) n) in
  (forall v, In v rest <-> In v (columns (s_data s)) /\ (forall C, In C ers -> ~ In v (tl C)) /\ (forall C, In C (ms ++ ps) -> ~ In v C)) ->
  NoDup rest -> columns d' = rest ++ nm ->
  inv G (State d' pure impure (lat ++ combine nm (ms ++ ps)) (s_num s + n)) /\
  Permutation (columns (s_data s)) ((concat (map (@tl nat) ers) ++ concat (ms ++ ps)) ++ rest).
Proof.
  intros G s ms ps ers lat pure impure d' rest SO IV EF HP n nm HR NR CD.
  destruct EF as [EJ EC ET EE EH EG]. destruct EG as [GK GM].
  assert (Ln : length nm = length (ms ++ ps)) by (unfold nm; rewrite map_length, seq_length; auto).
  assert (Nnm : NoDup nm).
  { unfold nm. assert (Gen : forall l, NoDup l -> NoDup (map (g_lname G) l)); [|apply Gen, seq_NoDup].
    induction l as [|a l IH]; simpl; intros N; constructor; apply NoDup_cons_iff in N; try tauto.
    intro F. apply in_map_iff in F. destruct F as [b [E Hb]]. apply (g_name_inj _ SO) in E. subst. tauto. }
  assert (Inm : forall v, In v nm <-> exists j, s_num s <= j < s_num s + n /\ v = g_lname G j).
  { intro v. unfold nm. rewrite in_map_iff. split.
    - intros [j [E Hj]]. apply in_seq in Hj. eauto.
    - intros [j [Hj ->]]. exists j. split; auto. apply in_seq. auto. }
  assert (Fk : forall v, In v nm -> ~ In v (dkeys (s_latent s))).
  { intros v Hv Hk. apply Inm in Hv. destruct Hv as [j [Hj ->]]. apply (i_names _ _ IV) in Hk. destruct Hk as [j' [Hj' E]].
    apply (g_name_inj _ SO) in E. lia. }
  assert (Fo : forall v, In v nm -> ~ In v (columns (g_ora G))).
  { intros v Hv Hk. apply Inm in Hv. destruct Hv as [j [Hj ->]]. exact (g_name_new _ SO j Hk). }
  assert (Fc : forall v, In v nm -> ~ In v (columns (s_data s))).
  { intros v Hv Hk. apply (i_roots _ _ IV) in Hk. destruct Hk as [[Hk|Hk] _]; [exact (Fo v Hv Hk)|exact (Fk v Hv Hk)]. }
  assert (KE : dkeys (lat ++ combine nm (ms ++ ps)) = dkeys (s_latent s) ++ nm).
  { unfold dkeys. rewrite map_app. f_equal; [exact GK|]. clear - Ln. revert Ln. generalize (ms ++ ps). clear.
    induction nm as [|a nm IH]; intros [|C l] H; simpl in *; try discriminate; auto. f_equal. apply IH. lia. }
  (* members of the new index *)
  assert (MEM : forall L v, (exists C, dget Nat.eqb (lat ++ combine nm (ms ++ ps)) L = Some C /\ In v C) <->
    (exists C, dget Nat.eqb (s_latent s) L = Some C /\ In v C) \/
    (exists R, In (L :: R) ers /\ In v R) \/
    (exists i, i < n /\ nth i nm 0 = L /\ In v (nth i (ms ++ ps) []))).
  { intros L v. rewrite dget_app. destruct (dget Nat.eqb (s_latent s) L) as [C0|] eqn:E0.
    - destruct (GM _ _ E0) as [C1 [E1 [_ M1]]]. rewrite E1.
      assert (KL : In L (dkeys (s_latent s))) by (apply (dget_Some_key _ Neqb_spec); congruence).
      split.
      + intros [C [EQ HV]]. inversion EQ; subst. apply M1 in HV. destruct HV as [HV|HV]; eauto.
      + intros [[C [EQ HV]]|[HV|[i [Hi [HN HV]]]]].
        * inversion EQ; subst. exists C1. split; auto. apply M1. auto.
        * exists C1. split; auto. apply M1. auto.
        * exfalso. apply (Fk L); auto. rewrite <- HN. apply nth_In. lia.
    - assert (E1 : dget Nat.eqb lat L = None).
      { apply (dget_None_key _ Neqb_spec). rewrite GK. apply (dget_None_key _ Neqb_spec). auto. }
      rewrite E1. split.
      + intros [C [EQ HV]]. apply combine_dget in EQ; auto. destruct EQ as [i [Hi [A B]]]. right. right. exists i. subst C. auto.
      + intros [[C [EQ HV]]|[[R [HR' HV]]|[i [Hi [HN HV]]]]]; [discriminate| |].
        * exfalso. destruct (EE _ HR') as [_ [_ [_ F]]]. simpl in F. apply (dget_None_key _ Neqb_spec) in E0. tauto.
        * exists (nth i (ms ++ ps) []). split; auto. apply combine_dget; auto. exists i. auto. }
  assert (CONS : forall v, In v (columns (s_data s)) <-> In v (concat (map (@tl nat) ers)) \/ In v (concat (ms ++ ps)) \/ In v rest).
  { intro v. rewrite HR. split.
    - intro Hv. destruct (in_dec Nat.eq_dec v (concat (map (@tl nat) ers))) as [F|F]; auto.
      destruct (in_dec Nat.eq_dec v (concat (ms ++ ps))) as [F'|F']; auto. right. right. split; auto. split.
      + intros C HC HV. apply F. apply in_concat. exists (tl C). split; auto. apply in_map. auto.
      + intros C HC HV. apply F'. apply in_concat. eauto.
    - intros [H|[H|H]]; [apply EC, in_app_iff; auto|apply EC, in_app_iff; auto|tauto]. }
  assert (RD : forall v, In v rest -> ~ In v (concat (map (@tl nat) ers)) /\ ~ In v (concat (ms ++ ps))).
  { intros v Hv. apply HR in Hv. destruct Hv as [_ [H1 H2]]. split; intro F; apply in_concat in F; destruct F as [C [HC HV]].
    - apply in_map_iff in HC. destruct HC as [e [<- He]]. exact (H1 e He HV).
    - exact (H2 C HC HV). }
  pose proof (proj1 (NoDup_app_iff _ _) EJ) as [EJ1 [EJ2 EJ3]].
  (* kinds of members *)
  assert (OLD : forall L v, (exists C, dget Nat.eqb (s_latent s) L = Some C /\ In v C) -> ~ In v (columns (s_data s))).
  { intros L v [C [E HV]] F. apply (i_roots _ _ IV) in F. destruct F as [_ F]. exact (F L C E HV). }
  assert (ETL : forall L R v, In (L :: R) ers -> In v R -> In v (concat (map (@tl nat) ers))).
  { intros L R v H1 H2. apply in_concat. exists R. split; auto. apply in_map_iff. exists (L :: R). auto. }
  assert (GRP : forall i v, i < n -> In v (nth i (ms ++ ps) []) -> In v (concat (ms ++ ps))).
  { intros i v H1 H2. apply in_concat. exists (nth i (ms ++ ps) []). split; auto. apply nth_In. auto. }
  assert (HEADS : forall L R, In (L :: R) ers -> In L (columns (s_data s)) /\ In L (dkeys (s_latent s)) /\ ~ In L (concat (map (@tl nat) ers))).
  { intros L R H. destruct (EE _ H) as [_ [_ [H1 H2]]]. simpl in H1, H2. split; auto. split; auto. intro F. apply in_concat in F. destruct F as [T [HT HL]].
    apply in_map_iff in HT. destruct HT as [e [<- He]].
    assert (e = L :: R).
    { apply (disjoint_same ers e (L :: R) L EH He H); [|left; auto]. destruct e; [destruct HL|right; auto]. }
    subst e. simpl in HL. destruct (in_split _ _ H) as [x1 [x2 EX]]. rewrite EX, concat_app in EH. simpl in EH.
    apply NoDup_app_iff in EH. destruct EH as [_ [EH' _]]. apply NoDup_cons_iff in EH'. destruct EH' as [EH' _].
    apply EH'. apply in_app_iff. auto. }
  assert (PERM : Permutation (columns (s_data s)) ((concat (map (@tl nat) ers) ++ concat (ms ++ ps)) ++ rest)).
  { apply NoDup_Permutation; [apply IV| |].
    - apply NoDup_app_iff. split; auto. split; auto. intros x Hx Hr. apply RD in Hr. apply in_app_iff in Hx. tauto.
    - intro v. rewrite CONS, !in_app_iff. tauto. }
  split; [|exact PERM].
  constructor; simpl s_data; simpl s_latent; simpl s_num; simpl s_pure.
  - rewrite CD. apply NoDup_app_iff. split; auto. split; auto. intros x Hx Hn. apply (Fc x Hn). apply HR in Hx. tauto.
  - rewrite KE. apply NoDup_app_iff. split; [apply IV|]. split; auto. intros x Hx Hn. exact (Fk x Hn Hx).
  - intros L HL. rewrite KE in HL. apply in_app_iff in HL. destruct HL as [HL|HL].
    + apply (i_names _ _ IV) in HL. destruct HL as [j [Hj E]]. exists j. split; auto. lia.
    + apply Inm in HL. destruct HL as [j [Hj E]]. exists j. split; auto. lia.
  - intros L C H. rewrite dget_app in H. destruct (dget Nat.eqb lat L) as [C1|] eqn:E1.
    + inversion H; subst C1.
      assert (K : In L (dkeys (s_latent s))) by (rewrite <- GK; apply (dget_Some_key _ Neqb_spec); congruence).
      destruct (dget Nat.eqb (s_latent s) L) as [C0|] eqn:E0; [|apply (dget_None_key _ Neqb_spec) in E0; tauto].
      destruct (GM _ _ E0) as [C1 [E1' [N1 M1]]]. rewrite E1 in E1'. inversion E1'; subst C1.
      destruct (i_two _ _ IV _ _ E0) as [T1 T2]. split; auto.
      assert (IL : incl C0 C) by (intros x Hx; apply M1; auto). apply NoDup_incl_length in IL; auto. lia.
    + apply combine_dget in H; auto. destruct H as [i [Hi [_ <-]]]. split.
      * assert (SPL : In (nth i (ms ++ ps) []) (ms ++ ps)) by (apply nth_In; auto).
        destruct (in_split _ _ SPL) as [x1 [x2 EX]]. rewrite EX, concat_app in EJ2. simpl in EJ2.
        apply NoDup_app_iff in EJ2. destruct EJ2 as [_ [EJ2 _]]. apply NoDup_app_iff in EJ2. tauto.
      * apply ET. apply nth_In. auto.
  - intros L C v E HV. rewrite KE.
    assert (M : exists C, dget Nat.eqb (lat ++ combine nm (ms ++ ps)) L = Some C /\ In v C) by eauto.
    apply MEM in M. destruct M as [[C' [E' HV']]|[[R [HR' HV']]|[i [Hi [HN HV']]]]].
    + destruct (i_members _ _ IV _ _ _ E' HV'); auto. right. apply in_app_iff. auto.
    + assert (Hc : In v (columns (s_data s))) by (apply CONS; left; eauto).
      apply (i_roots _ _ IV) in Hc. destruct Hc as [[Hc|Hc] _]; auto. right. apply in_app_iff. auto.
    + assert (Hc : In v (columns (s_data s))) by (apply CONS; right; left; eauto).
      apply (i_roots _ _ IV) in Hc. destruct Hc as [[Hc|Hc] _]; auto. right. apply in_app_iff. auto.
  - intros L L' C C' v E E' HV HV'.
    assert (M : exists C, dget Nat.eqb (lat ++ combine nm (ms ++ ps)) L = Some C /\ In v C) by eauto.
    assert (M' : exists C, dget Nat.eqb (lat ++ combine nm (ms ++ ps)) L' = Some C /\ In v C) by eauto.
    apply MEM in M. apply MEM in M'.
    destruct M as [M|[[R [HR1 HV1]]|[i [Hi [HN HV1]]]]], M' as [M'|[[R' [HR2 HV2]]|[i' [Hi' [HN' HV2]]]]].
    + destruct M as [D [ED VD]], M' as [D' [ED' VD']]. eapply i_once; eauto.
    + exfalso. apply (OLD _ _ M). apply CONS. left. eauto.
    + exfalso. apply (OLD _ _ M). apply CONS. right. left. eauto.
    + exfalso. apply (OLD _ _ M'). apply CONS. left. eauto.
    + assert (EQ : L :: R = L' :: R'); [|congruence].
      apply (disjoint_same ers (L :: R) (L' :: R') v EH HR1 HR2); right; auto.
    + exfalso. apply (EJ3 v); eauto.
    + exfalso. apply (OLD _ _ M'). apply CONS. right. left. eauto.
    + exfalso. apply (EJ3 v); eauto.
    + assert (i = i') by (eapply NoDup_concat_two; [exact EJ2|exact Hi|exact Hi'|exact HV1|exact HV2]). subst i'. congruence.
  - intros v. rewrite CD, KE, !in_app_iff. split.
    + intros [H|H].
      * assert (Hc : In v (columns (s_data s))) by (apply HR in H; tauto). pose proof Hc as Hr.
        apply (i_roots _ _ IV) in Hr. split; [tauto|]. intros L C E HV.
        assert (M : exists C, dget Nat.eqb (lat ++ combine nm (ms ++ ps)) L = Some C /\ In v C) by eauto.
        apply MEM in M. destruct (RD _ H) as [RD1 RD2]. destruct M as [M|[[R [HR1 HV1]]|[i [Hi [HN HV1]]]]].
        -- exact (OLD _ _ M Hc).
        -- eauto.
        -- eauto.
      * split; auto. intros L C E HV.
        assert (M : exists C, dget Nat.eqb (lat ++ combine nm (ms ++ ps)) L = Some C /\ In v C) by eauto.
        apply MEM in M. destruct M as [[D [ED VD]]|[[R [HR1 HV1]]|[i [Hi [HN HV1]]]]].
        -- destruct (i_members _ _ IV _ _ _ ED VD) as [F|F]; [exact (Fo v H F)|exact (Fk v H F)].
        -- apply (Fc v H). apply CONS. left. eauto.
        -- apply (Fc v H). apply CONS. right. left. eauto.
    + intros [HK HN].
      assert (NM : forall L, ~ exists C, dget Nat.eqb (lat ++ combine nm (ms ++ ps)) L = Some C /\ In v C) by (intros L [C [E HV]]; exact (HN L C E HV)).
      assert (OK : In v nm \/ (In v (columns (g_ora G)) \/ In v (dkeys (s_latent s)))) by tauto. destruct OK as [OK|OK]; auto. left.
      assert (Hc : In v (columns (s_data s))).
      { apply (i_roots _ _ IV). split; auto. intros L C E HV. apply (NM L). apply MEM. eauto. }
      apply CONS in Hc. destruct Hc as [Hc|[Hc|Hc]]; auto; exfalso.
      * apply in_concat in Hc. destruct Hc as [T [HT HV]]. apply in_map_iff in HT. destruct HT as [e [<- He]].
        destruct e as [|L R]; [destruct HV|]. apply (NM L). apply MEM. right. left. eauto.
      * apply in_concat in Hc. destruct Hc as [T [HT HV]]. destruct (In_nth _ _ [] HT) as [i [Hi Ei]].
        apply (NM (nth i nm 0)). apply MEM. right. right. exists i. rewrite Ei. auto.
  - destruct (i_rank _ _ IV) as [rank [K [RK RR]]].
    exists (fun v => if memb v (rest ++ nm) then K + 2 else if memb v (concat (map (@tl nat) ers)) then K else if memb v (concat (ms ++ ps)) then K + 1 else rank v), (K + 3).
    split.
    + intro v. specialize (RK v). destruct (memb v (rest ++ nm)); [lia|]. destruct (memb v (concat (map (@tl nat) ers))); [lia|]. destruct (memb v (concat (ms ++ ps))); lia.
    + intros L C v E HV.
      assert (M : exists C, dget Nat.eqb (lat ++ combine nm (ms ++ ps)) L = Some C /\ In v C) by eauto.
      apply MEM in M. destruct M as [M|[[R [HR1 HV1]]|[i [Hi [HN HV1]]]]].
      * pose proof (OLD _ _ M) as NC.
        assert (Z1 : memb v (rest ++ nm) = false).
        { apply memb_false. intro F. apply in_app_iff in F. destruct F as [F|F]; [apply NC, CONS; auto|].
          destruct M as [D [ED VD]]. destruct (i_members _ _ IV _ _ _ ED VD) as [F'|F']; [exact (Fo v F F')|exact (Fk v F F')]. }
        assert (Z2 : memb v (concat (map (@tl nat) ers)) = false) by (apply memb_false; intro F; apply NC, CONS; auto).
        assert (Z3 : memb v (concat (ms ++ ps)) = false) by (apply memb_false; intro F; apply NC, CONS; auto).
        rewrite Z1, Z2, Z3. destruct M as [D [ED VD]]. pose proof (RR _ _ _ ED VD). pose proof (RK v).
        destruct (memb L (rest ++ nm)); [lia|]. destruct (memb L (concat (map (@tl nat) ers))); [lia|]. destruct (memb L (concat (ms ++ ps))); lia.
      * assert (Hv : In v (concat (map (@tl nat) ers))) by eauto.
        assert (Z1 : memb v (rest ++ nm) = false).
        { apply memb_false. intro F. apply in_app_iff in F. destruct F as [F|F]; [apply RD in F; tauto|]. apply (Fc v F). apply CONS. auto. }
        rewrite Z1, (proj2 (memb_In _ _) Hv). destruct (HEADS _ _ HR1) as [H1 [H2 H3]]. apply CONS in H1.
        destruct (memb L (rest ++ nm)) eqn:Z4; [lia|]. rewrite (proj2 (memb_false _ _) H3).
        destruct H1 as [H1|[H1|H1]]; [tauto| |].
        -- rewrite (proj2 (memb_In _ _) H1). lia.
        -- apply memb_false in Z4. exfalso. apply Z4. apply in_app_iff. auto.
      * assert (Hv : In v (concat (ms ++ ps))) by eauto.
        assert (Z1 : memb v (rest ++ nm) = false).
        { apply memb_false. intro F. apply in_app_iff in F. destruct F as [F|F]; [apply RD in F; tauto|]. apply (Fc v F). apply CONS. auto. }
        assert (Z2 : memb v (concat (map (@tl nat) ers)) = false) by (apply memb_false; intro F; exact (EJ3 v F Hv)).
        assert (Z5 : memb L (rest ++ nm) = true).
        { apply memb_In, in_app_iff. right. rewrite <- HN. apply nth_In. lia. }
        rewrite Z1, Z2, Z5, (proj2 (memb_In _ _) Hv). lia.
  - exact HP.
Qed.
