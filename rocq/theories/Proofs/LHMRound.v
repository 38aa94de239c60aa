(** One round of the main loop keeps the latent index a forest. *)

From Coq Require Import List Arith Bool Lia Permutation Relations Sorting.Sorted.
From Verif Require Import Model.Py Model.LHS Model.LHM Spec.Clusters Spec.Hierarchy Spec.LHMRun.
From Verif Require Import Proofs.PyFacts Proofs.MergeFacts Proofs.LHSFacts Proofs.FindFacts Proofs.LHMMerge.
Import ListNotations.
Open Scope nat_scope.

(** The invariant of the main loop. *)
Record inv (G : setting) (s : state) : Prop := {
  i_data : NoDup (columns (s_data s));
  i_keys : NoDup (dkeys (s_latent s));
  i_names : forall L, In L (dkeys (s_latent s)) -> exists j, j < s_num s /\ L = g_lname G j;
  i_two : forall L C, dget Nat.eqb (s_latent s) L = Some C -> NoDup C /\ 2 <= length C;
  i_members : forall L C v, dget Nat.eqb (s_latent s) L = Some C -> In v C -> In v (columns (g_ora G)) \/ In v (dkeys (s_latent s));
  i_once : forall L L' C C' v, dget Nat.eqb (s_latent s) L = Some C -> dget Nat.eqb (s_latent s) L' = Some C' -> In v C -> In v C' -> L = L';
  i_roots : forall v, In v (columns (s_data s)) <->
    (In v (columns (g_ora G)) \/ In v (dkeys (s_latent s))) /\ forall L C, dget Nat.eqb (s_latent s) L = Some C -> ~ In v C;
  i_rank : exists (rank : nat -> nat) K, (forall v, rank v < K) /\
    forall L C v, dget Nat.eqb (s_latent s) L = Some C -> In v C -> rank v < rank L;
  i_pure : forall P, In P (s_pure s) -> NoDup P /\ 2 <= length P
}.

Lemma below_dget : forall E L v, NoDup (dkeys E) -> (below E L v <-> exists C, dget Nat.eqb E L = Some C /\ In v C).
Proof.
  intros E L v N. split; intros [C [H1 H2]]; exists C; split; auto.
  - apply In_dget; auto using Neqb_spec.
  - apply (dget_In _ Neqb_spec) in H1. auto.
Qed.

Lemma inv_forest : forall G s, setting_ok G -> inv G s -> forest (columns (g_ora G)) (columns (s_data s)) (s_latent s).
Proof.
  intros G s SO I. pose proof (i_keys _ _ I) as NK.
  constructor.
  - exact NK.
  - intros L v H. apply below_dget in H; auto. destruct H as [C [H1 H2]]. eapply i_members; eauto.
  - intros v Hv Hk. apply (i_names _ _ I) in Hk. destruct Hk as [j [_ ->]]. exact (g_name_new _ SO j Hv).
  - intros L L' v H H'. apply below_dget in H; auto. apply below_dget in H'; auto.
    destruct H as [C [H1 H2]], H' as [C' [H1' H2']]. eapply i_once; eauto.
  - destruct (i_rank _ _ I) as [rank [K [RK R]]].
    assert (T : forall u v, clos_trans nat (below (s_latent s)) u v -> rank v < rank u).
    { intros u v H. induction H as [u v H|u w v H1 IH1 H2 IH2]; [|lia].
      apply below_dget in H; auto. destruct H as [C [H1 H2]]. eapply R; eauto. }
    intros v H. specialize (T _ _ H). lia.
  - intros L C H. apply (i_two _ _ I L). apply In_dget; auto using Neqb_spec.
  - intros v. rewrite (i_roots _ _ I). split; intros [H1 H2]; split; auto.
    + intros L H. apply below_dget in H; auto. destruct H as [C [H3 H4]]. eapply H2; eauto.
    + intros L C H3 H4. apply (H2 L). apply below_dget; auto. eauto.
  - apply I.
Qed.

Lemma start_inv : forall G, setting_ok G -> inv G (start G).
Proof.
  intros G SO. constructor; simpl; try (intros; discriminate); try (intros ? []; fail).
  - apply SO.
  - constructor.
  - intros v. split; [intros H; split; [auto|intros; discriminate]|intros [[H|[]] _]; auto].
  - exists (fun _ => 0), 1. split; [auto|intros; discriminate].
Qed.

(* ---------- rolling back ---------- *)
Section Roll.
  Variable G : setting.
  Variable s : state.
  Variable pure : list (list nat).
  Hypothesis SO : setting_ok G.
  Hypothesis IV : inv G s.
  Hypothesis PU : forall P, In P pure -> NoDup P /\ 2 <= length P.
  Let d := s_data s.
  Let latent := s_latent s.

  Lemma pure_part_In : forall LM v, In v (pure_part LM pure) <-> exists P, In P pure /\ incl P LM /\ In v P.
  Proof.
    intros LM v. unfold pure_part.
    assert (Gen : forall Ps acc, In v (fold_left (fun acc S => if set_leb S LM then set_union acc (py_set S) else acc) Ps acc) <->
      In v acc \/ exists P, In P Ps /\ incl P LM /\ In v P).
    { induction Ps as [|P Ps IH]; simpl; intros acc.
      - split; auto. intros [H|[P [[] _]]]. auto.
      - rewrite IH. destruct (set_leb P LM) eqn:E.
        + apply set_leb_spec in E. rewrite set_union_In, py_set_In. split.
          * intros [[H|H]|[Q [HQ HR]]]; eauto 8.
          * intros [H|[Q [[->|HQ] [HR HS]]]]; eauto 8.
        + split.
          * intros [H|[Q [HQ HR]]]; eauto 8.
          * intros [H|[Q [[->|HQ] [HR HS]]]]; eauto 8. apply set_leb_spec in HR. congruence. }
    rewrite Gen. split; [intros [[]|H]; auto|auto].
  Qed.

  Lemma pure_part_NoDup : forall LM, NoDup (pure_part LM pure).
  Proof.
    intros LM. unfold pure_part.
    assert (Gen : forall Ps acc, NoDup acc -> NoDup (fold_left (fun acc S => if set_leb S LM then set_union acc (py_set S) else acc) Ps acc)).
    { induction Ps as [|P Ps IH]; simpl; intros acc H; auto. apply IH. destruct (set_leb P LM); auto. apply set_union_NoDup; auto. }
    apply Gen. constructor.
  Qed.

  Lemma get_observed_ok : forall L, In L (columns (g_ora G)) \/ In L (dkeys latent) ->
    exists v, get_observed (walk_fuel latent) latent (columns (g_ora G)) L = Ok v /\ In v (columns (g_ora G)).
  Proof.
    destruct (i_rank _ _ IV) as [rank [K [_ R]]].
    set (cnt := fun L => length (filter (fun u => Nat.leb (rank u) (rank L)) (dkeys latent))).
    assert (Gen : forall n L f, rank L < n -> cnt L <= f -> In L (columns (g_ora G)) \/ In L (dkeys latent) ->
      exists v, get_observed f latent (columns (g_ora G)) L = Ok v /\ In v (columns (g_ora G))).
    { induction n as [|n IH]; intros L f HR HF HL; [lia|].
      destruct (dget Nat.eqb latent L) as [C|] eqn:E.
      - destruct (i_two _ _ IV _ _ E) as [_ T]. destruct C as [|x C]; [simpl in T; lia|].
        assert (Rx : rank x < rank L) by (eapply R; [exact E|left; auto]).
        assert (HK : In L (dkeys latent)) by (apply (dget_Some_key _ Neqb_spec); congruence).
        assert (CX : cnt x < cnt L).
        { unfold cnt. revert HK. generalize (dkeys latent). induction l as [|u l IHl]; simpl; [tauto|]. intros [->|HK].
          - rewrite Nat.leb_refl. replace (Nat.leb (rank L) (rank x)) with false by (symmetry; apply Nat.leb_gt; lia). simpl.
            apply le_n_S. clear - Rx. induction l as [|w l IHl]; simpl; auto.
            destruct (Nat.leb_spec (rank w) (rank x)), (Nat.leb_spec (rank w) (rank L)); simpl; lia.
          - specialize (IHl HK). destruct (Nat.leb_spec (rank u) (rank x)), (Nat.leb_spec (rank u) (rank L)); simpl; lia. }
        destruct f as [|f]; [lia|]. rewrite (get_observed_step _ _ _ _ _ _ E). apply IH; [lia|lia|].
        eapply i_members; eauto. left. auto.
      - exists L. assert (get_observed f latent (columns (g_ora G)) L = Ok L) by (destruct f; simpl; rewrite E; auto).
        split; auto. destruct HL as [HL|HL]; auto. apply (dget_None_key _ Neqb_spec) in E. tauto. }
    intros L HL. apply (Gen (S (rank L))); auto. unfold cnt, walk_fuel.
    assert (FL : forall (f : nat -> bool) l, length (filter f l) <= length l) by (induction l as [|a l IHl]; simpl; auto; destruct (f a); simpl; lia).
    etransitivity; [apply FL|]. unfold dkeys. rewrite map_length. lia.
  Qed.

  Lemma map_res_ok : forall {A B} (f : A -> res B) (Q : B -> Prop) l, (forall a, In a l -> exists b, f a = Ok b /\ Q b) ->
    exists bs, map_res f l = Ok bs /\ length bs = length l /\ forall b, In b bs -> Q b.
  Proof.
    intros A B f Q. induction l as [|a l IH]; simpl; intros H.
    - exists []. split; auto. split; auto. intros b [].
    - destruct (H a) as [b [E HQ]]; auto. rewrite E. cbn [rbind]. destruct IH as [bs [EB [LB QB]]]; auto. rewrite EB. cbn [rbind].
      exists (b :: bs). split; auto. split; [simpl; auto|]. intros c [<-|Hc]; auto.
  Qed.

  Lemma select_cols : forall (e : frame) ns f, select e ns = Ok f -> map fst f = ns.
  Proof.
    induction ns as [|v ns IH]; simpl; intros f H; [inversion H; auto|].
    destruct (col e v); [|discriminate]. cbn [rbind] in H. destruct (select e ns) as [f'|]; [|discriminate]. cbn [rbind] in H.
    inversion H; subst. simpl. f_equal. auto.
  Qed.

  Lemma roll_back_ok : forall L, In L (columns d) -> In L (dkeys latent) ->
    (exists td a b, roll_back (g_ord G) (g_ora G) latent pure d L = Ok (td, [a; b]) /\
       In a (columns td) /\ In b (columns td) /\ (forall v, In v (columns d) -> v <> L -> In v (columns td))) \/
    (roll_back (g_ord G) (g_ora G) latent pure d L = Err IndexError /\ no_pure_inside latent pure L).
  Proof.
    intros L HA HK. unfold roll_back.
    destruct (dget Nat.eqb latent L) as [LM|] eqn:E; [|apply (dget_None_key _ Neqb_spec) in E; tauto].
    assert (PO : forall v, In v (g_ord G (pure_part LM pure)) -> In v LM).
    { intros v Hv. apply (proj1 (ord_In _ _ _ (g_ord_ok _ SO))) in Hv. apply pure_part_In in Hv. destruct Hv as [P [_ [H1 H2]]]. auto. }
    set (f1 := filter (fun x => memb x (columns (g_ora G))) (g_ord G (pure_part LM pure))).
    set (f2 := filter (fun x => negb (memb x (columns (g_ora G)))) (g_ord G (pure_part LM pure))).
    destruct (map_res_ok (get_observed (walk_fuel latent) latent (columns (g_ora G))) (fun v => In v (columns (g_ora G))) f2) as [obs [EM [LM2 QM]]].
    { intros a Ha. unfold f2 in Ha. apply filter_In in Ha. destruct Ha as [Ha _]. apply get_observed_ok.
      eapply i_members; [exact IV|exact E|auto]. }
    rewrite EM. cbn [rbind]. set (names := f1 ++ obs).
    assert (NO : incl names (columns (g_ora G))).
    { intros v Hv. apply in_app_iff in Hv. destruct Hv as [Hv|Hv]; auto. unfold f1 in Hv. apply filter_In in Hv. apply memb_In. tauto. }
    assert (LN : length names = length (pure_part LM pure)).
    { unfold names. rewrite app_length, LM2. unfold f1, f2. rewrite <- (Permutation_length (g_ord_ok _ SO (pure_part LM pure))).
      generalize (g_ord G (pure_part LM pure)). induction l as [|u l IH]; simpl; auto. destruct (memb u (columns (g_ora G))); simpl; lia. }
    destruct (select_total (g_ora G) names NO) as [sel ES]. rewrite ES. cbn [rbind].
    assert (CA : columns (d ++ sel) = columns d ++ names).
    { unfold columns, dkeys. rewrite map_app. f_equal. eapply select_cols; eauto. }
    rewrite CA. rewrite (proj2 (memb_In L _)) by (apply in_app_iff; auto).
    assert (NL : ~ In L (columns (g_ora G))).
    { intro F. apply (i_names _ _ IV) in HK. destruct HK as [j [_ ->]]. exact (g_name_new _ SO j F). }
    assert (CT : forall v, In v (columns (filter (fun p => negb (Nat.eqb (fst p) L)) (d ++ sel))) <-> In v (columns d ++ names) /\ v <> L).
    { intro v. rewrite <- CA. unfold columns, dkeys. rewrite !in_map_iff. split.
      - intros [[x c] [<- H]]. apply filter_In in H. simpl in *. destruct H as [H1 H2]. split; [exists (x, c); auto|].
        apply negb_true_iff, Nat.eqb_neq in H2. auto.
      - intros [[[x c] [<- H]] N]. exists (x, c). split; auto. apply filter_In. split; auto. simpl in *. apply negb_true_iff, Nat.eqb_neq. auto. }
    destruct names as [|a [|b ns]] eqn:EN.
    - right. split; auto. exists LM. split; [apply (dget_In _ Neqb_spec); auto|]. intros P HP HI. destruct (PU P HP) as [NP LP].
      destruct P as [|x P]; [simpl in LP; lia|]. assert (In x (pure_part LM pure)) by (apply pure_part_In; exists (x :: P); repeat split; auto; left; auto).
      destruct (pure_part LM pure); simpl in *; [tauto|lia].
    - right. split; auto. exists LM. split; [apply (dget_In _ Neqb_spec); auto|]. intros P HP HI. destruct (PU P HP) as [NP LP].
      assert (IL : incl P (pure_part LM pure)) by (intros x Hx; apply pure_part_In; exists P; auto).
      apply NoDup_incl_length in IL; auto. simpl in LN. lia.
    - left. eexists _, a, b. split; [reflexivity|].
      assert (Ha : In a (a :: b :: ns)) by (left; auto). assert (Hb : In b (a :: b :: ns)) by (right; left; auto).
      split; [|split].
      + apply CT. split; [apply in_app_iff; auto|]. intros ->. apply NL, NO. auto.
      + apply CT. split; [apply in_app_iff; auto|]. intros ->. apply NL, NO. auto.
      + intros v Hv N. apply CT. split; auto. apply in_app_iff. auto.
  Qed.

  (* ---------- early learning ---------- *)
  Lemma others_In' : forall (td : frame) C C' x, In x (set_minus (set_minus (py_set (columns td)) C) C') -> In x (columns td).
  Proof. intros td C C' x H. apply set_minus_In in H. destruct H as [H _]. apply outside_In in H. tauto. Qed.

  Lemma PI_total : forall td a b C, In a (columns td) -> In b (columns td) -> C <> [] -> incl C (columns td) ->
    exists r, test_PI (g_ord G) (g_vt G) [a; b] C td = Ok r.
  Proof.
    intros td a b C Ha Hb NE HI. unfold test_PI. destruct C as [|c C'] eqn:EC; [congruence|]. rewrite <- EC in *.
    apply all_res_total. intros x Hx. apply (proj1 (ord_In _ _ _ (g_ord_ok _ SO))) in Hx. apply others_In' in Hx.
    apply vanishes_total; auto. apply HI. rewrite EC. left. auto.
  Qed.

  Lemma PP_total : forall td a b C, In a (columns td) -> In b (columns td) -> C <> [] -> incl C (columns td) ->
    exists r, test_PP (g_ord G) (g_vt G) [a; b] C td = Ok r.
  Proof.
    intros td a b C Ha Hb NE HI. unfold test_PP. destruct C as [|c [|c' C']] eqn:EC; [congruence| |]; rewrite <- EC in *.
    - apply all_res_total. intros x Hx. apply (proj1 (ord_In _ _ _ (g_ord_ok _ SO))) in Hx. apply others_In' in Hx.
      apply vanishes_total; auto. apply HI. rewrite EC. left. auto.
    - assert (Hc : In c (columns td)) by (apply HI; rewrite EC; left; auto).
      assert (Hc' : In c' (columns td)) by (apply HI; rewrite EC; right; left; auto).
      destruct (vanishes_total (g_vt G) td a c b c') as [? ->]; auto. cbn [rbind].
      destruct (vanishes_total (g_vt G) td a b c c') as [? ->]; auto. cbn [rbind].
      destruct (vanishes_total (g_vt G) td a c' b c) as [? ->]; auto. cbn [rbind]. eauto.
  Qed.

  (** A round that stops with IndexError meets an active latent variable with
      no pure cluster inside. *)
  Definition bad_latent : Prop := exists L, In L (columns d) /\ In L (dkeys latent) /\ no_pure_inside latent pure L.

  Lemma outer_loop_total : forall C Rs, C <> [] -> incl C (columns d) -> incl Rs (columns d) -> (forall x, In x Rs -> ~ In x C) ->
    (exists o, outer_loop G Rs C d latent pure = Ok o) \/ (outer_loop G Rs C d latent pure = Err IndexError /\ bad_latent).
  Proof.
    intros C. induction Rs as [|L Rs IH]; simpl; intros NE HC HR HN; [eauto|].
    assert (IH' : (exists o, outer_loop G Rs C d latent pure = Ok o) \/ (outer_loop G Rs C d latent pure = Err IndexError /\ bad_latent)).
    { apply IH; auto. intros x Hx. apply HR. right. auto. }
    destruct (memb L (dkeys latent)) eqn:M; [|auto]. apply memb_In in M.
    assert (HL : In L (columns d)) by (apply HR; left; auto).
    destruct (roll_back_ok L HL M) as [[td [a [b [ER [Ha [Hb Hv]]]]]]|[ER NP]]; rewrite ER; cbn [rbind fst snd].
    - destruct (Nat.ltb (g_rows G) 4); [auto|].
      destruct (PI_total td a b C) as [r Er]; auto.
      { intros x Hx. apply Hv; auto. intros ->. apply (HN L); auto. }
      rewrite Er. cbn [rbind]. destruct r; [eauto|auto].
    - right. split; auto. exists L. auto.
  Qed.

  Lemma inner_loop_total : forall C Rs, NoDup C -> 2 <= length C -> incl C (columns d) -> incl Rs C ->
    (exists o, inner_loop G Rs C d latent pure = Ok o) \/ (inner_loop G Rs C d latent pure = Err IndexError /\ bad_latent).
  Proof.
    intros C. induction Rs as [|L Rs IH]; simpl; intros ND TW HC HR; [eauto|].
    assert (IH' : (exists o, inner_loop G Rs C d latent pure = Ok o) \/ (inner_loop G Rs C d latent pure = Err IndexError /\ bad_latent)).
    { apply IH; auto. intros x Hx. apply HR. right. auto. }
    destruct (memb L (dkeys latent)) eqn:M; [|auto]. apply memb_In in M.
    assert (HLC : In L C) by (apply HR; left; auto).
    assert (HL : In L (columns d)) by auto.
    destruct (roll_back_ok L HL M) as [[td [a [b [ER [Ha [Hb Hv]]]]]]|[ER NP]]; rewrite ER; cbn [rbind fst snd].
    - destruct (Nat.ltb (g_rows G) 4); [auto|].
      assert (NE : lremove L C <> []).
      { intro F. pose proof (lremove_length L C) as Q. rewrite F in Q. simpl in Q. lia. }
      assert (TI : incl (lremove L C) (columns td)).
      { intros x Hx. apply In_lremove in Hx; auto. apply Hv; [apply HC|]; tauto. }
      destruct (set_contains C pure || set_contains (lremove L C) pure).
      + destruct (PP_total td a b (lremove L C)) as [r Er]; auto. rewrite Er. cbn [rbind]. destruct r; [eauto|auto].
      + destruct (PI_total td a b (lremove L C)) as [r Er]; auto. rewrite Er. cbn [rbind]. destruct r; [eauto|auto].
    - right. split; auto. exists L. auto.
  Qed.

  Lemma early_dicts_total : forall impure rem Cs inner outer, (forall C, In C Cs -> NoDup C /\ 2 <= length C /\ incl C (columns d)) ->
    incl rem (columns d) -> (forall C x, In C Cs -> In x rem -> ~ In x C) ->
    (exists r, early_dicts G Cs rem d latent pure impure inner outer = Ok r) \/
    (early_dicts G Cs rem d latent pure impure inner outer = Err IndexError /\ bad_latent).
  Proof.
    intros impure rem. induction Cs as [|C Cs IH]; cbn [early_dicts]; intros inner outer HC HR HN; [eauto|].
    destruct (HC C) as [C1 [C2 C3]]; [left; auto|].
    assert (HC' : forall C, In C Cs -> NoDup C /\ 2 <= length C /\ incl C (columns d)) by (intros; apply HC; right; auto).
    assert (HN' : forall C x, In C Cs -> In x rem -> ~ In x C) by (intros; apply HN; auto; right; auto).
    assert (OT : (exists o, (if set_contains C impure then outer_early G rem C d latent pure else Ok None) = Ok o) \/
      ((if set_contains C impure then outer_early G rem C d latent pure else Ok None) = Err IndexError /\ bad_latent)).
    { destruct (set_contains C impure); [|eauto]. apply outer_loop_total; auto.
      - intro F. rewrite F in C2. simpl in C2. lia.
      - intros x Hx. apply (proj1 (ord_In _ _ _ (g_ord_ok _ SO))) in Hx. auto.
      - intros x Hx. apply (proj1 (ord_In _ _ _ (g_ord_ok _ SO))) in Hx. apply HN; auto. left. auto. }
    destruct OT as [[o Eo]|[Eo B]]; rewrite Eo; cbn [rbind]; [|auto].
    destruct o as [L|]; [apply IH; auto|].
    destruct (inner_loop_total C C) as [[i Ei]|[Ei B]]; auto using incl_refl; unfold inner_early; rewrite Ei; cbn [rbind]; [|auto].
    destruct i as [L|]; apply IH; auto.
  Qed.
End Roll.
