(** The merge phase: what MergeCausalCluster does with disjoint clusters. *)

From Coq Require Import List Arith Bool Lia Permutation.
From Verif Require Import Model.Py Model.LHS Model.LHM Spec.Clusters Proofs.PyFacts Proofs.MergeFacts Proofs.LHSFacts Proofs.FindFacts.
Import ListNotations.
Open Scope nat_scope.

(* ---------- sets ---------- *)
Lemma set_leb_spec : forall a b, set_leb a b = true <-> incl a b.
Proof.
  intros. unfold set_leb. rewrite forallb_forall. split; intros H x Hx; [apply memb_In; auto|apply memb_In; auto].
Qed.

Lemma set_eqb_spec : forall a b, set_eqb a b = true <-> (forall x, In x a <-> In x b).
Proof.
  intros. unfold set_eqb. rewrite andb_true_iff, !set_leb_spec. split.
  - intros [H1 H2] x. split; auto.
  - intros H. split; intros x Hx; apply H; auto.
Qed.

Lemma set_contains_In : forall C Ss, In C Ss -> set_contains C Ss = true.
Proof. intros. unfold set_contains. apply existsb_exists. exists C. split; auto. apply set_eqb_spec. tauto. Qed.

Lemma NoDup_app_iff : forall {A} (l m : list A), NoDup (l ++ m) <-> NoDup l /\ NoDup m /\ forall x, In x l -> ~ In x m.
Proof.
  induction l as [|a l IH]; simpl; intros m.
  - split; [intros; repeat split; auto using NoDup_nil|tauto].
  - rewrite !NoDup_cons_iff, IH, in_app_iff. split.
    + intros [N [H1 [H2 H3]]]. repeat split; auto. intros x [<-|Hx]; auto.
    + intros [[N H1] [H2 H3]]. split; [intros [F|F]; [auto|apply (H3 a); auto]|]. repeat split; auto.
Qed.

(** Two lists of a disjoint family that share an element are the same. *)
Lemma disjoint_same : forall (Ls : list (list nat)) C C' x, NoDup (concat Ls) -> In C Ls -> In C' Ls -> In x C -> In x C' -> C = C'.
Proof.
  induction Ls as [|D Ls IH]; simpl; intros C C' x N HC HC' Hx Hx'; [tauto|].
  apply NoDup_app_iff in N. destruct N as [N1 [N2 N3]].
  destruct HC as [<-|HC], HC' as [<-|HC']; auto.
  - exfalso. apply (N3 x Hx). apply in_concat. eauto.
  - exfalso. apply (N3 x Hx'). apply in_concat. eauto.
  - eapply IH; eauto.
Qed.

Lemma disjoint_concat : forall Ls, pairwise_disjoint Ls -> (forall C, In C Ls -> NoDup C) -> NoDup (concat Ls).
Proof.
  induction Ls as [|C Ls IH]; simpl; intros D N; [constructor|].
  apply NoDup_app_iff. split; [auto|]. split.
  - apply IH; auto. intros i j x NE Hi Hj. apply (D (S i) (S j) x); auto.
  - intros x Hx Hc. apply in_concat in Hc. destruct Hc as [C' [HC' Hx']].
    destruct (In_nth _ _ [] HC') as [i [Hi Ei]]. apply (D 0 (S i) x); auto. simpl. rewrite Ei. auto.
Qed.

(* ---------- dictionaries ---------- *)
Lemma early_by_dic_Some : forall C dic L, early_by_dic C dic = Some L -> exists C', In (L, C') dic /\ set_eqb C C' = true.
Proof.
  induction dic as [|[K D] dic IH]; simpl; intros L H; [discriminate|].
  destruct (set_eqb C D) eqn:E; [inversion H; subst; eauto|]. destruct (IH _ H) as [C' [HI HE]]. eauto.
Qed.

Lemma dset_In : forall {V} (d : list (nat * V)) k v k' v', In (k', v') (dset Nat.eqb d k v) -> (k' = k /\ v' = v) \/ In (k', v') d.
Proof.
  induction d as [|[a b] d IH]; simpl; intros k v k' v' H.
  - destruct H as [H|[]]. inversion H; auto.
  - destruct (Nat.eqb_spec k a) as [->|N]; simpl in H.
    + destruct H as [H|H]; [inversion H; auto|auto].
    + destruct H as [H|H]; [auto|]. apply IH in H. tauto.
Qed.

(* ---------- early learning ---------- *)
Section Merge.
  Variable G : setting.
  Variable d : frame.
  Variables pure impure : list (list nat).
  Variable latent0 : list (nat * list nat).
  Hypothesis O : ord_ok (g_ord G).

  Lemma outer_loop_Some : forall C Rs L, outer_loop G Rs C d latent0 pure = Ok (Some L) -> In L Rs /\ In L (dkeys latent0).
  Proof.
    induction Rs as [|R Rs IH]; simpl; intros L H; [discriminate|].
    destruct (memb R (dkeys latent0)) eqn:M; [|apply IH in H; tauto].
    destruct (roll_back _ _ _ _ _ _) as [rb|]; [|discriminate]. cbn [rbind] in H.
    destruct (Nat.ltb (g_rows G) 4); [apply IH in H; tauto|].
    destruct (test_PI _ _ _ _ _) as [[|]|]; cbn [rbind] in H; try discriminate; [|apply IH in H; tauto].
    inversion H; subst. split; [left; auto|apply memb_In; auto].
  Qed.

  Lemma inner_loop_Some : forall C Rs L, inner_loop G Rs C d latent0 pure = Ok (Some L) -> In L Rs /\ In L (dkeys latent0).
  Proof.
    induction Rs as [|R Rs IH]; simpl; intros L H; [discriminate|].
    destruct (memb R (dkeys latent0)) eqn:M; [|apply IH in H; tauto].
    destruct (roll_back _ _ _ _ _ _) as [rb|]; [|discriminate]. cbn [rbind] in H.
    destruct (Nat.ltb (g_rows G) 4); [apply IH in H; tauto|].
    destruct (if _ || _ then _ else _) as [[|]|]; cbn [rbind] in H; try discriminate; [|apply IH in H; tauto].
    inversion H; subst. split; [left; auto|apply memb_In; auto].
  Qed.

  (** The dictionaries name clusters of the round and active latent variables:
      an inner one is a member of its cluster, an outer one is a remaining
      variable. *)
  Definition dicts_ok (Ls : list (list nat)) (rem : list nat) (inner outer : list (nat * list nat)) : Prop :=
    (forall L C, In (L, C) inner -> In C Ls /\ In L C /\ In L (dkeys latent0)) /\
    (forall L C, In (L, C) outer -> In C Ls /\ In L rem /\ In L (dkeys latent0)) /\
    NoDup (dkeys outer).

  Lemma early_dicts_ok : forall Ls rem Cs inner outer inner' outer', incl Cs Ls -> dicts_ok Ls rem inner outer ->
    early_dicts G Cs rem d latent0 pure impure inner outer = Ok (inner', outer') -> dicts_ok Ls rem inner' outer'.
  Proof.
    intros Ls rem Cs. induction Cs as [|C Cs IH]; cbn [early_dicts]; intros inner outer inner' outer' HI D H.
    - inversion H; subst. auto.
    - assert (HI' : incl Cs Ls) by (intros x Hx; apply HI; right; auto).
      assert (HC : In C Ls) by (apply HI; left; auto).
      destruct D as [D1 [D2 D3]].
      destruct (if set_contains C impure then _ else _) as [[L|]|] eqn:EO; cbn [rbind] in H; [| |discriminate].
      + apply IH in H; auto. destruct (set_contains C impure); [|discriminate].
        apply outer_loop_Some in EO. destruct EO as [EO1 EO2]. apply ord_In in EO1; auto.
        split; [auto|]. split; [|apply (NoDup_dset _ Neqb_spec); auto].
        intros L' C' H'. apply dset_In in H'. destruct H' as [[-> ->]|H']; auto.
      + destruct (inner_early G C d latent0 pure) as [[L|]|] eqn:EI; cbn [rbind] in H; [| |discriminate].
        * apply IH in H; auto. apply inner_loop_Some in EI. split; [|split; auto].
          intros L' C' H'. apply dset_In in H'. destruct H' as [[-> ->]|H']; [tauto|auto].
        * apply IH in H; auto. split; auto.
  Qed.

  (* ---------- clusters of one round ---------- *)
  Variable Ls : list (list nat).
  Variables inner outer : list (nat * list nat).
  Variable rem : list nat.
  Hypothesis DJ : NoDup (concat Ls).
  Hypothesis TWO : forall C, In C Ls -> 2 <= length C.
  Hypothesis OUT : forall x, In x rem -> ~ In x (concat Ls).
  Hypothesis DI : dicts_ok Ls rem inner outer.

  Lemma Ls_nodup : forall C, In C Ls -> NoDup C.
  Proof.
    intros C HC. destruct (in_split _ _ HC) as [l1 [l2 E]]. rewrite E in DJ. rewrite concat_app in DJ. simpl in DJ.
    apply NoDup_app_iff in DJ. destruct DJ as [_ [H _]]. apply NoDup_app_iff in H. tauto.
  Qed.

  Lemma eqb_same : forall C C', In C Ls -> In C' Ls -> set_eqb C C' = true -> C = C'.
  Proof.
    intros C C' HC HC' E. rewrite set_eqb_spec in E. specialize (TWO C HC). destruct C as [|x C]; [simpl in TWO; lia|].
    eapply disjoint_same; eauto; [left; auto|]. apply E. left. auto.
  Qed.

  Lemma inner_Some : forall C L, In C Ls -> early_by_dic C inner = Some L -> In L C /\ In L (dkeys latent0).
  Proof.
    intros C L HC H. apply early_by_dic_Some in H. destruct H as [C' [HI HE]]. destruct (proj1 DI _ _ HI) as [H1 [H2 H3]].
    rewrite (eqb_same _ _ HC H1 HE). auto.
  Qed.

  Lemma outer_Some : forall C L, In C Ls -> early_by_dic C outer = Some L -> In (L, C) outer /\ In L rem /\ In L (dkeys latent0).
  Proof.
    intros C L HC H. apply early_by_dic_Some in H. destruct H as [C' [HI HE]]. destruct (proj1 (proj2 DI) _ _ HI) as [H1 [H2 H3]].
    rewrite (eqb_same _ _ HC H1 HE). auto.
  Qed.

  Lemma early_Some : forall C L, In C Ls -> early_latent inner outer C = Some L ->
    In L (dkeys latent0) /\ (In L C \/ (early_by_dic C outer = Some L /\ ~ In L C)).
  Proof.
    intros C L HC H. unfold early_latent in H. destruct (early_by_dic C inner) as [L'|] eqn:E.
    - inversion H; subst. apply inner_Some in E; tauto.
    - destruct (outer_Some _ _ HC H) as [H1 [H2 H3]]. split; auto. right. split; auto.
      intro F. apply (OUT _ H2). apply in_concat. eauto.
  Qed.

  (** The variables a cluster can use up: its members and its outer latent variable. *)
  Definition terr (C : list nat) : list nat := C ++ match early_by_dic C outer with Some L => [L] | None => [] end.

  Lemma terr_disjoint : forall Cs, incl Cs Ls -> NoDup (concat Cs) -> NoDup (concat (map terr Cs)).
  Proof.
    induction Cs as [|C Cs IH]; simpl; intros HI N; [constructor|].
    apply NoDup_app_iff in N. destruct N as [N1 [N2 N3]].
    assert (HC : In C Ls) by (apply HI; left; auto).
    assert (HI' : incl Cs Ls) by (intros x Hx; apply HI; right; auto).
    apply NoDup_app_iff. split; [|split].
    - unfold terr. destruct (early_by_dic C outer) as [L|] eqn:E; [|rewrite app_nil_r; auto].
      apply NoDup_app_iff. split; auto. split; [repeat constructor; auto|]. intros x Hx [<-|[]].
      apply outer_Some in E; auto. apply (OUT L); [tauto|]. apply in_concat. eauto.
    - apply IH; auto.
    - intros x Hx Hc. apply in_concat in Hc. destruct Hc as [T [HT Hx']]. apply in_map_iff in HT. destruct HT as [C' [<- HC']].
      unfold terr in Hx, Hx'. apply in_app_iff in Hx. apply in_app_iff in Hx'.
      destruct Hx as [Hx|Hx], Hx' as [Hx'|Hx'].
      + apply (N3 x Hx). apply in_concat. eauto.
      + destruct (early_by_dic C' outer) as [L|] eqn:E; [|destruct Hx']. destruct Hx' as [<-|[]].
        apply outer_Some in E; auto. apply (OUT L); [tauto|]. apply in_concat. eauto.
      + destruct (early_by_dic C outer) as [L|] eqn:E; [|destruct Hx]. destruct Hx as [<-|[]].
        apply outer_Some in E; auto. apply (OUT L); [tauto|]. apply in_concat. eauto.
      + destruct (early_by_dic C outer) as [L|] eqn:E; [|destruct Hx]. destruct Hx as [<-|[]].
        destruct (early_by_dic C' outer) as [L'|] eqn:E'; [|destruct Hx']. destruct Hx' as [EL|[]]. subst L'.
        apply outer_Some in E; auto. apply outer_Some in E'; auto. destruct E as [E _], E' as [E' _].
        assert (C = C').
        { assert (S1 : dget Nat.eqb outer L = Some C) by (apply In_dget; auto using Neqb_spec; apply DI).
          assert (S2 : dget Nat.eqb outer L = Some C') by (apply In_dget; auto using Neqb_spec; apply DI). congruence. }
        subst C'. specialize (TWO C HC). destruct C as [|y C]; [simpl in TWO; lia|].
        apply (N3 y); [left; auto|]. apply in_concat. exists (y :: C). split; auto. left. auto.
  Qed.

  (* ---------- growth of the latent index ---------- *)
  (** [lat'] is [lat] with the early learned members [ers] added. *)
  Definition grew (lat lat' : list (nat * list nat)) (ers : list (list nat)) : Prop :=
    dkeys lat' = dkeys lat /\
    forall L C, dget Nat.eqb lat L = Some C -> exists C', dget Nat.eqb lat' L = Some C' /\
      (NoDup C -> NoDup C') /\
      (forall v, In v C' <-> In v C \/ exists R, In (L :: R) ers /\ In v R).

  Lemma grew_refl : forall lat, grew lat lat [].
  Proof. intro lat. split; auto. intros L C H. exists C. split; auto. split; auto. intro v. split; auto. intros [H'|[R [[] _]]]. auto. Qed.

  Lemma grew_trans : forall a b c e1 e2, grew a b e1 -> grew b c e2 -> grew a c (e1 ++ e2).
  Proof.
    intros a b c e1 e2 [K1 H1] [K2 H2]. split; [congruence|]. intros L C HC.
    destruct (H1 _ _ HC) as [C1 [HC1 [N1 M1]]]. destruct (H2 _ _ HC1) as [C2 [HC2 [N2 M2]]].
    exists C2. split; auto. split; auto. intro v. rewrite M2, M1. split.
    - intros [[H|[R [HR HV]]]|[R [HR HV]]]; auto; right; exists R; split; auto; apply in_app_iff; auto.
    - intros [H|[R [HR HV]]]; auto. apply in_app_iff in HR. destruct HR; [left; right|right]; eauto.
  Qed.

  Lemma update_latent_ok : forall L C lat, In L (dkeys lat) ->
    exists lat', update_latent (g_ord G) L C lat = Ok lat' /\ grew lat lat' [L :: lremove L C].
  Proof.
    intros L C lat HL. unfold update_latent.
    destruct (dget Nat.eqb lat L) as [T|] eqn:E; [|apply (dget_None_key _ Neqb_spec) in E; tauto].
    eexists. split; [reflexivity|]. split.
    - apply (dkeys_dset_in _ Neqb_spec). auto.
    - intros K D HK. destruct (Nat.eq_dec L K) as [<-|NK].
      + rewrite E in HK. inversion HK; subst D. eexists. split; [apply (dget_dset_eq _ Neqb_spec)|]. split.
        * intros _. eapply Permutation_NoDup; [apply Permutation_sym, O|]. apply set_union_NoDup, py_set_NoDup.
        * intro v. rewrite (ord_In _ _ _ O), set_union_In, !py_set_In. split.
          -- intros [H|H]; auto. right. exists (lremove L C). split; [left; auto|auto].
          -- intros [H|[R [[ER|[]] HV]]]; auto. inversion ER; subst. auto.
      + exists D. split; [rewrite (dget_dset_neq _ Neqb_spec); auto|]. split; auto.
        intro v. split; auto. intros [H|[R [[ER|[]] HV]]]; auto. inversion ER; subst. congruence.
  Qed.

  (* ---------- merging ---------- *)
  Lemma lremove_absent : forall x l, ~ In x l -> lremove x l = l.
  Proof.
    induction l as [|y l IH]; simpl; intros N; auto. destruct (Nat.eqb_spec x y) as [->|NE]; [tauto|]. f_equal. auto.
  Qed.

  Lemma lremove_length : forall x l, length l <= S (length (lremove x l)).
  Proof.
    induction l as [|y l IH]; simpl; auto. destruct (Nat.eqb x y); simpl; lia.
  Qed.

  (** One early learned cluster: the rest and the latent variable. *)
  Lemma early_parts : forall C L, In C Ls -> early_latent inner outer C = Some L ->
    NoDup (lremove L C ++ [L]) /\ incl (lremove L C ++ [L]) (terr C) /\ 1 <= length (lremove L C).
  Proof.
    intros C L HC H. destruct (early_Some _ _ HC H) as [_ HL]. pose proof (Ls_nodup _ HC) as ND. pose proof (TWO _ HC) as T.
    split; [|split].
    - apply NoDup_app_iff. split; [apply NoDup_lremove; auto|]. split; [repeat constructor; auto|].
      intros x Hx [<-|[]]. apply In_lremove in Hx; tauto.
    - intros x Hx. apply in_app_iff in Hx. unfold terr. apply in_app_iff. destruct Hx as [Hx|[<-|[]]].
      + left. eapply lremove_incl; eauto.
      + destruct HL as [HL|[HL _]]; auto. right. rewrite HL. left. auto.
    - pose proof (lremove_length L C). lia.
  Qed.

  (** The placeholders and rests of the clusters to be merged. *)
  Lemma early_updates_ok : forall TH m, incl TH Ls -> NoDup (concat (map terr TH)) -> dkeys (m_latent m) = dkeys latent0 ->
    exists m' phs ers, early_updates (g_ord G) inner outer TH m = Ok (m', phs) /\
      m_merge m' = m_merge m /\ m_eimp m' = m_eimp m /\ m_pure m' = m_pure m /\ incl (m_rem m') (m_rem m) /\
      m_erem m' = m_erem m ++ ers /\ grew (m_latent m) (m_latent m') ers /\
      NoDup (concat (map (@tl nat) ers) ++ concat phs) /\
      incl (concat (map (@tl nat) ers) ++ concat phs) (concat (map terr TH)) /\
      length TH <= length (concat phs) /\
      (forall e, In e ers -> e <> [] /\ 1 <= length (tl e)) /\
      (forall e, In e ers -> In (hd 0 e) (dkeys latent0)) /\
      NoDup (concat ers) /\ incl (concat ers) (concat (map terr TH)).
  Proof.
    induction TH as [|C TH IH]; cbn [early_updates]; intros m HI ND HK.
    - exists m, [], []. simpl. rewrite app_nil_r. split; [auto|]. split; [auto|]. split; [auto|]. split; [auto|].
      split; [apply incl_refl|]. split; [auto|]. split; [apply grew_refl|]. split; [constructor|]. split; [apply incl_refl|].
      split; [auto|]. split; [intros e []|]. split; [intros e []|]. split; [constructor|apply incl_refl].
    - assert (HC : In C Ls) by (apply HI; left; auto).
      assert (HI' : incl TH Ls) by (intros x Hx; apply HI; right; auto).
      simpl in ND. apply NoDup_app_iff in ND. destruct ND as [ND1 [ND2 ND3]].
      destruct (early_latent inner outer C) as [L|] eqn:E.
      + destruct (early_Some _ _ HC E) as [HL _].
        destruct (update_latent_ok L C (m_latent m)) as [lat [EL GL]]; [rewrite HK; auto|]. rewrite EL. cbn [rbind].
        destruct (IH (Merged (m_merge m) (m_eimp m) (m_erem m ++ [L :: lremove L C]) (m_pure m) (set_minus (m_rem m) [L]) lat))
          as [m' [phs [ers [E1 [A1 [A2 [A3 [A4 [A5 [A6 [A7 [A8 [A9 [A10 [A11 [A12 A13]]]]]]]]]]]]]]]]; auto.
        { simpl. destruct GL as [GK _]. congruence. }
        rewrite E1. cbn [rbind fst snd]. simpl in A1, A2, A3, A4, A5, A6.
        destruct (early_parts _ _ HC E) as [P1 [P2 P3]].
        exists m', ([L] :: phs), ((L :: lremove L C) :: ers). split; [reflexivity|]. split; [auto|]. split; [auto|]. split; [auto|].
        split; [eapply incl_tran; [exact A4|]; intros x Hx; apply set_minus_In in Hx; tauto|].
        split; [rewrite A5, <- app_assoc; auto|]. split; [apply (grew_trans _ _ _ [L :: lremove L C] ers GL A6)|].
        cbn [map concat tl].
        assert (PM : Permutation ((lremove L C ++ concat (map (@tl nat) ers)) ++ [L] ++ concat phs)
          ((lremove L C ++ [L]) ++ (concat (map (@tl nat) ers) ++ concat phs))).
        { rewrite <- !app_assoc. apply Permutation_app_head. rewrite !app_assoc. apply Permutation_app_tail. apply Permutation_app_comm. }
        split; [|split; [|split; [|split; [|split; [|split]]]]].
        * eapply Permutation_NoDup; [apply Permutation_sym, PM|]. apply NoDup_app_iff. split; auto. split; auto.
          intros x Hx Hx'. apply (ND3 x); auto.
        * intros x Hx. apply (Permutation_in _ PM) in Hx. cbn [map concat]. apply in_app_iff in Hx. apply in_app_iff. destruct Hx as [Hx|Hx]; auto.
        * rewrite app_length. simpl. lia.
        * intros e [<-|He]; auto. split; [discriminate|auto].
        * intros e [<-|He]; simpl; auto.
        * change ((L :: lremove L C) ++ concat ers) with ([L] ++ lremove L C ++ concat ers). rewrite app_assoc.
          assert (PC : Permutation ([L] ++ lremove L C) (lremove L C ++ [L])) by apply Permutation_app_comm.
          apply NoDup_app_iff. split; [eapply Permutation_NoDup; [apply Permutation_sym, PC|auto]|]. split; auto.
          intros x Hx Hx'. apply (Permutation_in _ PC) in Hx. apply (ND3 x); auto.
        * intros x Hx. apply in_app_iff in Hx. apply in_app_iff. destruct Hx as [Hx|Hx]; [left|right; auto].
          apply P2. apply in_app_iff. destruct Hx as [<-|Hx]; [right; left; auto|auto].
      + destruct (IH m) as [m' [phs [ers [E1 [A1 [A2 [A3 [A4 [A5 [A6 [A7 [A8 [A9 [A10 [A11 [A12 A13]]]]]]]]]]]]]]]]; auto.
        rewrite E1. cbn [rbind fst snd].
        exists m', (C :: phs), ers. split; [reflexivity|]. split; [auto|]. split; [auto|]. split; [auto|]. split; [auto|]. split; [auto|]. split; [auto|].
        cbn [map concat].
        assert (PM : Permutation (concat (map (@tl nat) ers) ++ C ++ concat phs) (C ++ (concat (map (@tl nat) ers) ++ concat phs))).
        { rewrite !app_assoc. apply Permutation_app_tail. apply Permutation_app_comm. }
        assert (CT : incl C (terr C)) by (intros x Hx; unfold terr; apply in_app_iff; auto).
        split; [|split; [|split; [|split; [|split; [|split]]]]].
        * eapply Permutation_NoDup; [apply Permutation_sym, PM|]. apply NoDup_app_iff. split; [apply Ls_nodup; auto|]. split; auto.
          intros x Hx Hx'. apply (ND3 x); auto.
        * intros x Hx. apply (Permutation_in _ PM) in Hx. apply in_app_iff in Hx. apply in_app_iff. destruct Hx as [Hx|Hx]; auto.
        * rewrite app_length. specialize (TWO _ HC). simpl. lia.
        * auto.
        * auto.
        * auto.
        * intros x Hx. apply in_app_iff. auto.
  Qed.

  (** A cluster that is not merged. *)
  Lemma single_ok : forall C m, In C Ls -> dkeys (m_latent m) = dkeys latent0 ->
    exists m' ers ps es, single (g_ord G) inner outer pure impure C m = Ok m' /\
      m_merge m' = m_merge m /\ m_eimp m' = m_eimp m ++ es /\ m_pure m' = m_pure m ++ ps /\ m_rem m' = m_rem m /\
      m_erem m' = m_erem m ++ ers /\ grew (m_latent m) (m_latent m') ers /\
      NoDup (concat (map (@tl nat) ers) ++ concat ps) /\
      incl (concat (map (@tl nat) ers) ++ concat ps) (terr C) /\
      (forall P, In P ps -> P = C) /\
      (forall e, In e ers -> e <> [] /\ 1 <= length (tl e)) /\
      (forall e, In e ers -> In (hd 0 e) (dkeys latent0)) /\
      NoDup (concat ers) /\ incl (concat ers) (terr C).
  Proof.
    intros C m HC HK. unfold single.
    assert (CT : incl C (terr C)) by (intros x Hx; unfold terr; apply in_app_iff; auto).
    assert (EARLY : forall L e, early_latent inner outer C = Some L -> e = L :: lremove L C ->
      NoDup (concat (map (@tl nat) [e]) ++ concat (@nil (list nat))) /\
      incl (concat (map (@tl nat) [e]) ++ concat (@nil (list nat))) (terr C) /\
      (forall P, In P (@nil (list nat)) -> P = C) /\
      (forall e', In e' [e] -> e' <> [] /\ 1 <= length (tl e')) /\
      (forall e', In e' [e] -> In (hd 0 e') (dkeys latent0)) /\
      NoDup (concat [e]) /\ incl (concat [e]) (terr C)).
    { intros L e E ->. destruct (early_parts _ _ HC E) as [P1 [P2 P3]]. destruct (early_Some _ _ HC E) as [HL _].
      simpl. rewrite !app_nil_r. pose proof (proj1 (NoDup_app_iff _ _) P1) as [Q1 [_ Q3]].
      split; [auto|]. split; [intros x Hx; apply P2; apply in_app_iff; auto|]. split; [intros P []|].
      split; [intros e' [<-|[]]; split; [discriminate|auto]|]. split; [intros e' [<-|[]]; simpl; auto|].
      split; [constructor; auto; intro F; apply (Q3 L F); left; auto|].
      intros x [<-|Hx]; apply P2; apply in_app_iff; [right; left; auto|auto]. }
    destruct (early_by_dic C inner) as [L|] eqn:EI.
    - destruct (inner_Some _ _ HC EI) as [HL HK']. rewrite (proj2 (memb_In L C) HL).
      destruct (update_latent_ok L C (m_latent m)) as [lat [EL GL]]; [rewrite HK; auto|]. rewrite EL. cbn [rbind].
      assert (EE : early_latent inner outer C = Some L) by (unfold early_latent; rewrite EI; auto).
      eexists _, [L :: lremove L C], [], []. split; [reflexivity|]. simpl m_merge. simpl m_eimp. simpl m_pure. simpl m_rem. simpl m_erem. simpl m_latent.
      rewrite !app_nil_r. split; [auto|]. split; [auto|]. split; [auto|]. split; [auto|]. split; [auto|]. split; [auto|].
      pose proof (EARLY L _ EE eq_refl) as Q. change (concat (@nil (list nat))) with (@nil nat) in Q. rewrite app_nil_r in Q. exact Q.
    - destruct (early_by_dic C outer) as [L|] eqn:EO.
      + assert (EE : early_latent inner outer C = Some L) by (unfold early_latent; rewrite EI; auto).
        destruct (outer_Some _ _ HC EO) as [_ [HR HK']].
        assert (NL : ~ In L C) by (intro F; apply (OUT _ HR); apply in_concat; eauto).
        destruct (update_latent_ok L C (m_latent m)) as [lat [EL GL]]; [rewrite HK; auto|]. rewrite EL. cbn [rbind].
        rewrite (lremove_absent _ _ NL) in GL.
        eexists _, [L :: C], [], []. split; [reflexivity|]. simpl m_merge. simpl m_eimp. simpl m_pure. simpl m_rem. simpl m_erem. simpl m_latent.
        rewrite !app_nil_r. split; [auto|]. split; [auto|]. split; [auto|]. split; [auto|]. split; [auto|]. split; [auto|].
        assert (EQ : L :: C = L :: lremove L C) by (rewrite (lremove_absent _ _ NL); auto).
        pose proof (EARLY L _ EE EQ) as Q. change (concat (@nil (list nat))) with (@nil nat) in Q. rewrite app_nil_r in Q. exact Q.
      + destruct (set_contains C pure); [|destruct (set_contains C impure)].
        * eexists _, [], [C], []. split; [reflexivity|]. simpl. rewrite !app_nil_r.
          split; [auto|]. split; [auto|]. split; [auto|]. split; [auto|]. split; [auto|]. split; [apply grew_refl|].
          split; [apply Ls_nodup; auto|]. split; [auto|]. split; [intros P [<-|[]]; auto|]. split; [intros e []|]. split; [intros e []|]. split; [constructor|intros x []].
        * eexists _, [], [], [C]. split; [reflexivity|]. simpl. rewrite !app_nil_r.
          split; [auto|]. split; [auto|]. split; [auto|]. split; [auto|]. split; [auto|]. split; [apply grew_refl|].
          split; [constructor|]. split; [intros x []|]. split; [intros P []|]. split; [intros e []|]. split; [intros e []|]. split; [constructor|intros x []].
        * exists m, [], [], []. split; [reflexivity|]. simpl. rewrite !app_nil_r.
          split; [auto|]. split; [auto|]. split; [auto|]. split; [auto|]. split; [auto|]. split; [apply grew_refl|].
          split; [constructor|]. split; [intros x []|]. split; [intros P []|]. split; [intros e []|]. split; [intros e []|]. split; [constructor|intros x []].
  Qed.

  (* ---------- the tests never fail ---------- *)
  Hypothesis COL : forall C, In C Ls -> incl C (columns d).

  Lemma others_In : forall C C' x, In x (set_minus (set_minus (py_set (columns d)) C) C') -> In x (columns d).
  Proof. intros C C' x H. apply set_minus_In in H. destruct H as [H _]. apply outside_In in H. tauto. Qed.

  Lemma test_II_total : forall C C', In C Ls -> In C' Ls -> exists b, test_II (g_ord G) (g_vt G) C C' d = Ok b.
  Proof.
    intros C C' HC HC'. unfold test_II. pose proof (TWO _ HC). pose proof (TWO _ HC').
    destruct C as [|a Ct] eqn:E1; [simpl in *; lia|]. destruct C' as [|b Ct'] eqn:E2; [simpl in *; lia|]. rewrite <- E1, <- E2 in *.
    apply all_res_total. intros [x y] H1. apply in_comb2_In in H1. destruct H1 as [Hx Hy].
    apply (proj1 (ord_In _ _ _ O)) in Hx. apply (proj1 (ord_In _ _ _ O)) in Hy. apply others_In in Hx, Hy. simpl.
    apply vanishes_total; auto; [apply (COL _ HC); rewrite E1|apply (COL _ HC'); rewrite E2]; left; auto.
  Qed.

  Lemma test_PI_total : forall C C', In C Ls -> In C' Ls -> exists b, test_PI (g_ord G) (g_vt G) C C' d = Ok b.
  Proof.
    intros C C' HC HC'. unfold test_PI. pose proof (TWO _ HC). pose proof (TWO _ HC').
    destruct C as [|a [|a' Ct]] eqn:E1; try (simpl in *; lia). destruct C' as [|b Ct'] eqn:E2; [simpl in *; lia|]. rewrite <- E1, <- E2 in *.
    apply all_res_total. intros x Hx.
    apply (proj1 (ord_In _ _ _ O)) in Hx. apply others_In in Hx.
    apply vanishes_total; auto; [apply (COL _ HC); rewrite E1|apply (COL _ HC'); rewrite E2|apply (COL _ HC); rewrite E1]; simpl; auto.
  Qed.

  Lemma merge_test_total : forall C C', In C Ls -> In C' Ls -> exists b, merge_test G d pure impure C C' = Ok b.
  Proof.
    intros C C' HC HC'. unfold merge_test.
    destruct (set_contains C pure && set_contains C' pure); [eauto|].
    destruct (set_contains C impure && set_contains C' impure); [apply test_II_total; auto|].
    destruct (set_contains C pure && set_contains C' impure); [apply test_PI_total; auto|].
    destruct (set_contains C impure && set_contains C' pure); [apply test_PI_total; auto|eauto].
  Qed.

  Lemma hope_ok : forall C Cs, In C Ls -> incl Cs Ls -> exists H, hope_to_merge G d pure impure C Cs = Ok H /\
    incl H Cs /\ (NoDup Cs -> NoDup H).
  Proof.
    intros C Cs HC. induction Cs as [|C2 Cs IH]; simpl; intros HI.
    - exists []. split; auto. split; [apply incl_refl|auto].
    - destruct (merge_test_total C C2 HC) as [b Eb]; [apply HI; left; auto|]. rewrite Eb. cbn [rbind].
      destruct IH as [H [EH [H1 H2]]]; [intros x Hx; apply HI; right; auto|]. rewrite EH. cbn [rbind].
      eexists. split; [reflexivity|]. destruct b; split.
      + intros x [<-|Hx]; [left; auto|right; auto].
      + intros N. apply NoDup_cons_iff in N. constructor; [intro F; apply H1 in F; tauto|tauto].
      + intros x Hx. right. auto.
      + intros N. apply NoDup_cons_iff in N. tauto.
  Qed.

  Lemma drop_all : forall H Cs, NoDup H -> incl H Cs -> Permutation Cs (H ++ fold_left drop_cluster H Cs).
  Proof.
    induction H as [|C H IH]; simpl; intros Cs N I; [auto|].
    apply NoDup_cons_iff in N. destruct N as [N1 N2].
    unfold drop_cluster at 2. destruct (remove_cluster_total C Cs) as [r Er]; [apply I; left; auto|]. rewrite Er.
    apply remove_cluster_ok in Er. eapply perm_trans; [exact Er|]. apply perm_skip. apply IH; auto.
    intros x Hx. assert (Hc : In x Cs) by (apply I; right; auto). apply (Permutation_in _ Er) in Hc.
    destruct Hc as [<-|Hc]; [tauto|auto].
  Qed.

  Lemma concat_perm : forall (a b : list (list nat)), Permutation a b -> Permutation (concat a) (concat b).
  Proof.
    induction 1; simpl; auto.
    - apply Permutation_app_head. auto.
    - rewrite !app_assoc. apply Permutation_app_tail. apply Permutation_app_comm.
    - eapply perm_trans; eauto.
  Qed.

  Lemma family_nodup : forall Cs, incl Cs Ls -> NoDup (concat Cs) -> NoDup Cs.
  Proof.
    induction Cs as [|C Cs IH]; simpl; intros HI N; [constructor|].
    apply NoDup_app_iff in N. destruct N as [N1 [N2 N3]]. constructor.
    - intro F. assert (T : 2 <= length C) by (apply TWO; apply HI; left; auto). destruct C as [|x C]; [simpl in T; lia|].
      apply (N3 x); [left; auto|]. apply in_concat. exists (x :: C). split; auto. left; auto.
    - apply IH; auto. intros x Hx. apply HI. right. auto.
  Qed.

  (** The loop: [ers] are the early learned clusters, [ms] the merged and [ps]
      the pure ones. *)
  Lemma merge_loop_ok : forall fuel Cs m, length Cs <= fuel -> incl Cs Ls -> NoDup (concat Cs) ->
    dkeys (m_latent m) = dkeys latent0 ->
    exists m' ers ms ps es, merge_loop fuel G d pure impure inner outer Cs m = Ok m' /\
      m_merge m' = m_merge m ++ ms /\ m_eimp m' = m_eimp m ++ es /\ m_pure m' = m_pure m ++ ps /\ incl (m_rem m') (m_rem m) /\
      m_erem m' = m_erem m ++ ers /\ grew (m_latent m) (m_latent m') ers /\
      NoDup (concat (map (@tl nat) ers) ++ concat (ms ++ ps)) /\
      incl (concat (map (@tl nat) ers) ++ concat (ms ++ ps)) (concat (map terr Cs)) /\
      (forall M, In M ms -> 2 <= length M) /\
      (forall P, In P ps -> In P Cs) /\
      (forall e, In e ers -> e <> [] /\ 1 <= length (tl e)) /\
      (forall e, In e ers -> In (hd 0 e) (dkeys latent0)) /\
      NoDup (concat ers) /\ incl (concat ers) (concat (map terr Cs)).
  Proof.
    induction fuel as [|fuel IH]; intros Cs m HF HI ND HK.
    - destruct Cs; [|simpl in HF; lia]. exists m, [], [], [], []. simpl. rewrite !app_nil_r.
      split; [auto|]. split; [auto|]. split; [auto|]. split; [auto|]. split; [apply incl_refl|]. split; [auto|]. split; [apply grew_refl|].
      split; [constructor|]. split; [intros x []|]. split; [intros x []|]. split; [intros x []|]. split; [intros x []|]. split; [intros x []|]. split; [constructor|intros x []].
    - destruct Cs as [|C0 Cs0] eqn:ECs.
      { exists m, [], [], [], []. simpl. rewrite !app_nil_r.
        split; [auto|]. split; [auto|]. split; [auto|]. split; [auto|]. split; [apply incl_refl|]. split; [auto|]. split; [apply grew_refl|].
        split; [constructor|]. split; [intros x []|]. split; [intros x []|]. split; [intros x []|]. split; [intros x []|]. split; [intros x []|]. split; [constructor|intros x []]. }
      rewrite <- ECs in *.
      assert (SP : Cs = removelast Cs ++ [last Cs []]) by (apply app_removelast_last; rewrite ECs; discriminate).
      assert (UF : merge_loop (S fuel) G d pure impure inner outer Cs m =
          rbind (hope_to_merge G d pure impure (last Cs []) (removelast Cs)) (fun H =>
          match H with
          | [] => rbind (single (g_ord G) inner outer pure impure (last Cs []) m) (fun m' => merge_loop fuel G d pure impure inner outer (removelast Cs) m')
          | _ => rbind (early_updates (g_ord G) inner outer (last Cs [] :: H) m) (fun q =>
                 merge_loop fuel G d pure impure inner outer (fold_left drop_cluster H (removelast Cs))
                   (Merged (m_merge (fst q) ++ [g_ord G (py_set (concat (snd q)))]) (m_eimp (fst q)) (m_erem (fst q)) (m_pure (fst q)) (m_rem (fst q)) (m_latent (fst q))))
          end)) by (rewrite ECs; reflexivity).
      rewrite UF. clear UF. set (C1 := last Cs []) in *. set (rest := removelast Cs) in *.
      assert (HC1 : In C1 Cs) by (rewrite SP; apply in_app_iff; right; left; auto).
      assert (HRI : incl rest Cs) by (rewrite SP; intros x Hx; apply in_app_iff; auto).
      assert (PS : Permutation Cs (C1 :: rest)) by (rewrite SP at 1; apply Permutation_sym, Permutation_cons_append).
      assert (LR : length Cs = S (length rest)) by (rewrite (Permutation_length PS); auto).
      assert (NDp : NoDup (concat (C1 :: rest))) by (eapply Permutation_NoDup; [apply concat_perm; exact PS|auto]).
      assert (TP : Permutation (concat (map terr Cs)) (terr C1 ++ concat (map terr rest))) by (apply (concat_perm _ _ (Permutation_map terr PS))).
      assert (NDT : NoDup (terr C1 ++ concat (map terr rest))).
      { eapply Permutation_NoDup; [exact TP|]. apply terr_disjoint; auto. }
      destruct (hope_ok C1 rest) as [H [EH [HS HN]]]; [auto|intros x Hx; apply HI; auto|]. rewrite EH. cbn [rbind].
      simpl in NDp. pose proof (proj1 (NoDup_app_iff _ _) NDp) as [ND1 [ND2 ND3]].
      pose proof (proj1 (NoDup_app_iff _ _) NDT) as [T1 [T2 T3]].
      assert (HNr : NoDup H) by (apply HN; apply family_nodup; [intros x Hx; apply HI; auto|auto]).
      destruct H as [|H0 H1] eqn:EHl.
      + destruct (single_ok C1 m) as [m1 [ers1 [ps1 [es1 [E1 [A1 [A2 [A3 [A4 [A5 [A6 [A7 [A8 [A9 [A10 [A11 [A12 A13]]]]]]]]]]]]]]]]]; auto.
        rewrite E1. cbn [rbind].
        destruct (IH rest m1) as [m' [ers [ms [ps [es [E2 [B1 [B2 [B3 [B4 [B5 [B6 [B7 [B8 [B9 [B10 [B11 [B12 [B13 B14]]]]]]]]]]]]]]]]]]].
        { lia. } { intros x Hx; apply HI; auto. } { auto. } { destruct A6 as [A6 _]. congruence. }
        rewrite E2. exists m', (ers1 ++ ers), ms, (ps1 ++ ps), (es1 ++ es). split; [reflexivity|].
        split; [rewrite B1, A1; auto|]. split; [rewrite B2, A2, app_assoc; auto|]. split; [rewrite B3, A3, app_assoc; auto|].
        split; [rewrite <- A4; auto|]. split; [rewrite B5, A5, app_assoc; auto|]. split; [eapply grew_trans; eauto|].
        assert (PM : Permutation (concat (map (@tl nat) (ers1 ++ ers)) ++ concat (ms ++ ps1 ++ ps))
          ((concat (map (@tl nat) ers1) ++ concat ps1) ++ (concat (map (@tl nat) ers) ++ concat (ms ++ ps)))).
        { rewrite map_app, !concat_app, <- !app_assoc. apply Permutation_app_head.
          rewrite (app_assoc _ (concat ms) (concat ps1 ++ _)), (app_assoc _ (concat ms) (concat ps)). apply Permutation_app_swap_app. }
        split; [|split; [|split; [|split; [|split; [|split; [|split]]]]]].
        * eapply Permutation_NoDup; [apply Permutation_sym, PM|]. apply NoDup_app_iff. split; auto. split; auto.
          intros x Hx Hx'. apply (T3 x); auto.
        * intros x Hx. apply (Permutation_in _ PM) in Hx. apply (Permutation_in _ (Permutation_sym TP)). apply in_app_iff in Hx. apply in_app_iff. destruct Hx; auto.
        * auto.
        * intros P HP. apply in_app_iff in HP. destruct HP as [HP|HP]; [rewrite (A9 _ HP); auto|auto].
        * intros e He. apply in_app_iff in He. destruct He; auto.
        * intros e He. apply in_app_iff in He. destruct He; auto.
        * rewrite concat_app. apply NoDup_app_iff. split; auto. split; auto. intros x Hx Hx'. apply (T3 x); auto.
        * rewrite concat_app. intros x Hx. apply (Permutation_in _ (Permutation_sym TP)). apply in_app_iff in Hx. apply in_app_iff. destruct Hx; auto.
      + rewrite <- EHl in *. set (rest' := fold_left drop_cluster H rest) in *.
        assert (PD : Permutation rest (H ++ rest')) by (apply drop_all; auto).
        assert (LH : 1 <= length H) by (rewrite EHl; simpl; lia).
        assert (TD : Permutation (concat (map terr rest)) (concat (map terr H) ++ concat (map terr rest'))).
        { eapply perm_trans; [apply (concat_perm _ _ (Permutation_map terr PD))|]. rewrite map_app, concat_app. auto. }
        assert (NDT' : NoDup ((terr C1 ++ concat (map terr H)) ++ concat (map terr rest'))).
        { rewrite <- app_assoc. eapply Permutation_NoDup; [apply Permutation_app_head; exact TD|auto]. }
        pose proof (proj1 (NoDup_app_iff _ _) NDT') as [U1 [U2 U3]].
        destruct (early_updates_ok (C1 :: H) m) as [m1 [phs [ers1 [E1 [A1 [A2 [A3 [A4 [A5 [A6 [A7 [A8 [A9 [A10 [A11 [A12 A13]]]]]]]]]]]]]]]].
        { intros x [<-|Hx]; apply HI; auto. } { auto. } { auto. }
        rewrite E1. cbn [rbind fst snd].
        set (M := g_ord G (py_set (concat phs))).
        pose proof (proj1 (NoDup_app_iff _ _) A7) as [A7a [A7b A7c]].
        assert (PMg : Permutation M (concat phs)) by (unfold M; rewrite NoDup_nodup_id by auto; apply O).
        match goal with |- context [merge_loop fuel G d pure impure inner outer rest' ?mm] => set (m2 := mm) end.
        assert (LD : length rest = length H + length rest') by (rewrite (Permutation_length PD), app_length; auto).
        destruct (IH rest' m2) as [m' [ers [ms [ps [es [E2 [B1 [B2 [B3 [B4 [B5 [B6 [B7 [B8 [B9 [B10 [B11 [B12 [B13 B14]]]]]]]]]]]]]]]]]]].
        { lia. } { intros x Hx; apply HI, HRI. apply (Permutation_in _ (Permutation_sym PD)). apply in_app_iff; auto. }
        { assert (NN : NoDup (concat H ++ concat rest')); [|apply NoDup_app_iff in NN; tauto].
          rewrite <- concat_app. eapply Permutation_NoDup; [apply concat_perm; exact PD|auto]. }
        { simpl. destruct A6 as [A6 _]. congruence. }
        simpl in B1, B2, B3, B4, B5, B6.
        rewrite E2. exists m', (ers1 ++ ers), (M :: ms), ps, es. split; [reflexivity|].
        split; [rewrite B1, A1, <- app_assoc; auto|]. split; [rewrite B2, A2; auto|]. split; [rewrite B3, A3; auto|].
        split; [eapply incl_tran; eauto|]. split; [rewrite B5, A5, app_assoc; auto|]. split; [eapply grew_trans; eauto|].
        assert (PM : Permutation (concat (map (@tl nat) (ers1 ++ ers)) ++ concat ((M :: ms) ++ ps))
          ((concat (map (@tl nat) ers1) ++ concat phs) ++ (concat (map (@tl nat) ers) ++ concat (ms ++ ps)))).
        { rewrite map_app, concat_app. simpl. rewrite <- !app_assoc. apply Permutation_app_head.
          rewrite !app_assoc. apply Permutation_app_tail.
          eapply perm_trans; [apply Permutation_app_head; exact PMg|apply Permutation_app_comm]. }
        assert (SUB : forall x, In x (concat (map terr (C1 :: H))) -> In x (concat (map terr Cs))).
        { intros x Hx. apply (Permutation_in _ (Permutation_sym TP)). simpl in Hx. apply in_app_iff in Hx. apply in_app_iff. destruct Hx as [Hx|Hx]; auto.
          right. apply (Permutation_in _ (Permutation_sym TD)). apply in_app_iff. auto. }
        assert (SUB' : forall x, In x (concat (map terr rest')) -> In x (concat (map terr Cs))).
        { intros x Hx. apply (Permutation_in _ (Permutation_sym TP)). apply in_app_iff. 
          right. apply (Permutation_in _ (Permutation_sym TD)). apply in_app_iff. auto. }
        split; [|split; [|split; [|split; [|split; [|split; [|split]]]]]].
        * eapply Permutation_NoDup; [apply Permutation_sym, PM|]. apply NoDup_app_iff. split; auto. split; auto.
          intros x Hx Hx'. apply (U3 x); auto.
        * intros x Hx. apply (Permutation_in _ PM) in Hx. apply in_app_iff in Hx. destruct Hx; auto.
        * intros M' [<-|HM]; auto. rewrite (Permutation_length PMg). simpl in A9. lia.
        * intros P HP. apply HRI. apply (Permutation_in _ (Permutation_sym PD)). apply in_app_iff. auto.
        * intros e He. apply in_app_iff in He. destruct He; auto.
        * intros e He. apply in_app_iff in He. destruct He; auto.
        * rewrite concat_app. apply NoDup_app_iff. split; auto. split; auto. intros x Hx Hx'. apply (U3 x); auto.
        * rewrite concat_app. intros x Hx. apply in_app_iff in Hx. destruct Hx; auto.
  Qed.
End Merge.
