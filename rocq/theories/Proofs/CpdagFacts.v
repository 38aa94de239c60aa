(** dag2cpdag: skeleton search and rule0. *)

From Coq Require Import List Arith Bool Lia Permutation.
From Verif Require Import Model.Py Model.Graph Model.DiGraph Model.PDAG Spec.API Spec.Digraphs Spec.PDAGs.
From Verif Require Import Proofs.PyFacts Proofs.GraphFacts Proofs.DSepTheory Proofs.RelExt Proofs.DiGraphFacts
  Proofs.HistoryFacts Proofs.FrameFacts Proofs.DagFacts Proofs.PDAGFacts Proofs.MeekFacts Proofs.MeekComplete.
Import ListNotations.

Lemma pair_eqb_spec : forall a b, pair_eqb a b = true <-> a = b.
Proof.
  intros [a1 a2] [b1 b2]. unfold pair_eqb. simpl. rewrite andb_true_iff, !Nat.eqb_eq. split.
  - intros [-> ->]. auto.
  - intro H. inversion H. auto.
Qed.

Notation sget := (dget pair_eqb).

Lemma sget_eq : forall (d : seps) k v, sget (dset pair_eqb d k v) k = Some v.
Proof. intros. apply dget_dset_eq. apply pair_eqb_spec. Qed.
Lemma sget_neq : forall (d : seps) k k' v, k <> k' -> sget (dset pair_eqb d k v) k' = sget d k'.
Proof. intros. apply dget_dset_neq; auto. apply pair_eqb_spec. Qed.

Lemma empty_seps_get : forall ns a b, NoDup ns -> In a ns -> In b ns -> a <> b -> sget (empty_seps ns) (a, b) = Some [].
Proof.
  intros ns a b ND Ha Hb N. unfold empty_seps.
  assert (H : In (a, b) (perm2 ns)) by (apply in_perm2; auto).
  induction (perm2 ns) as [|[x y] l IH]; simpl in *; [tauto|].
  destruct (pair_eqb (a, b) (x, y)) eqn:Eq; auto. apply IH.
  destruct H as [H|H]; auto. exfalso. rewrite H in Eq. rewrite (proj2 (pair_eqb_spec _ _) eq_refl) in Eq. discriminate.
Qed.

(** [w] belongs to one of the sets of the list. *)
Definition un (acc : list (list nat)) (w : nat) : Prop := exists z, In z acc /\ In w z.
Lemma un_snoc : forall acc z w, un (acc ++ [z]) w <-> un acc w \/ In w z.
Proof.
  intros. unfold un. split.
  - intros [y [Hy Hw]]. apply in_app_iff in Hy. destruct Hy as [Hy|[<-|[]]]; eauto.
  - intros [[y [Hy Hw]]|Hw].
    + exists y. rewrite in_app_iff. auto.
    + exists z. rewrite in_app_iff. simpl. auto.
Qed.

Definition nonempty {A} (l : list A) : bool := match l with [] => false | _ => true end.
Lemma nonempty_snoc : forall {A} (l : list A) x, nonempty (l ++ [x]) = true.
Proof. intros A [|] x; auto. Qed.

Definition samepb (a b u v : nat) : bool :=
  ((Nat.eqb a u && Nat.eqb b v) || (Nat.eqb a v && Nat.eqb b u))%bool.
Lemma samepb_spec : forall a b u v, samepb a b u v = true <-> same_pair a b u v.
Proof. intros. unfold samepb, same_pair. rewrite orb_true_iff, !andb_true_iff, !Nat.eqb_eq. tauto. Qed.
Lemma samepb_false : forall a b u v, samepb a b u v = false <-> ~ same_pair a b u v.
Proof. intros. rewrite <- samepb_spec. destruct (samepb a b u v); split; congruence. Qed.

(** State of the pair loop after the candidate sets [acc] have been accepted
    for the pair u, v. *)
Record pst (g0 : graph) (sep0 : seps) (u v : nat) (acc : list (list nat)) (sep : seps) (gc : graph) : Prop := {
  ps_wf : WF gc;
  ps_kind : g_kind gc = KPDAG;
  ps_nodes : node_list gc = node_list g0;
  ps_mk : forall a b, mk gc a b = if (samepb a b u v && nonempty acc)%bool then None else mk g0 a b;
  ps_uv : exists s, sget sep (u, v) = Some s /\ forall w, In w s <-> un acc w;
  ps_vu : exists s, sget sep (v, u) = Some s /\ forall w, In w s <-> un acc w;
  ps_other : forall a b, ~ same_pair a b u v -> sget sep (a, b) = sget sep0 (a, b)
}.

Lemma query_run : forall {A} (q : graph -> res A) g a, q g = Ok a -> query q g = (g, Ok a).
Proof. intros A q g a H. unfold query. rewrite H. auto. Qed.

(** Adding an accepted set for the pair and removing the edge. *)
Lemma pst_accept : forall g0 sep0 u v acc sep gc z, pst g0 sep0 u v acc sep gc ->
  In u (node_list g0) -> In v (node_list g0) -> u <> v ->
  exists s1 s2 gc', sep_add sep u v z = Ok s1 /\ sep_add s1 v u z = Ok s2 /\
    ((c <- connectedM u v ;; (if c : bool then remove_edge u v else ret tt)) gc)%meth = (gc', Ok tt) /\
    pst g0 sep0 u v (acc ++ [z]) s2 gc'.
Proof.
  intros g0 sep0 u v acc sep gc z [W K N M [s [Es Hs]] [s' [Es' Hs']] O] Hu Hv Nuv.
  assert (NE : (u, v) <> (v, u)) by congruence.
  unfold sep_add. unfold dgetE at 1. rewrite Es. cbn [rbind].
  eexists. eexists.
  assert (E2 : sget (dset pair_eqb sep (u, v) (set_union s (py_set z))) (v, u) = Some s') by (rewrite sget_neq; auto).
  assert (HM : exists gc', ((c <- connectedM u v ;; (if c : bool then remove_edge u v else ret tt)) gc)%meth = (gc', Ok tt)
     /\ WF gc' /\ g_kind gc' = KPDAG /\ node_list gc' = node_list g0 /\
     forall a b, mk gc' a b = if samepb a b u v then None else mk g0 a b).
  { rewrite (bind_run _ _ _ _ _ (conn_run gc u v W ltac:(rewrite N; auto) ltac:(rewrite N; auto))).
    destruct (connb gc u v) eqn:C.
    - destruct (remove_edge_ok gc u v W) as [g' [E [W' [[S1 [S2 S3]] Hm]]]]; [rewrite N; auto|rewrite N; auto|].
      exists g'. split; auto. split; auto. split; [congruence|]. split; [congruence|].
      intros a b. rewrite Hm. unfold subs, samepb. rewrite M.
      destruct (Nat.eqb a v && Nat.eqb b u)%bool eqn:E1.
      { rewrite orb_true_r. auto. }
      destruct (Nat.eqb a u && Nat.eqb b v)%bool eqn:E3; auto.
      unfold samepb. rewrite E1, E3. auto.
    - exists gc. split; auto. split; auto. split; auto. split; auto.
      intros a b. destruct (samepb a b u v) eqn:S.
      + apply samepb_spec in S. apply connb_false in C. destruct S as [[-> ->]|[-> ->]]; auto.
        destruct (mk gc v u) eqn:Q; auto. exfalso. assert (mk gc u v <> None); [|auto].
        apply (wf_sym gc W). congruence.
      + rewrite M, S. auto. }
  destruct HM as [gc' [EM [W' [K' [N' HM]]]]]. exists gc'.
  split; [reflexivity|]. split; [unfold dgetE; rewrite E2; reflexivity|]. split; [exact EM|].
  constructor; auto.
  - intros a b. rewrite HM, nonempty_snoc, andb_true_r. auto.
  - exists (set_union s (py_set z)). split.
    + rewrite sget_neq by congruence. apply sget_eq.
    + intro w. rewrite set_union_In, py_set_In, Hs, un_snoc. tauto.
  - exists (set_union s' (py_set z)). split; [apply sget_eq|].
    intro w. rewrite set_union_In, py_set_In, Hs', un_snoc. tauto.
  - intros a b H. rewrite !sget_neq; auto; intro Q; inversion Q; subst; apply H; unfold same_pair; auto.
Qed.

Section Skel.
  Variable dag : graph.
  Hypothesis D : DG dag.
  Variable order : nat -> nat -> nat -> list nat.
  Notation ns := (node_list dag).
  Hypothesis ord : forall u v k, NoDup (order u v k) /\ forall x, In x (order u v k) <-> In x ns /\ x <> u /\ x <> v.

  Definition sepb (u v : nat) (z : list nat) : bool :=
    match is_d_separate dag u v z with Ok b => b | Err _ => false end.

  Lemma sepb_ok : forall u v z, In u ns -> In v ns -> incl z ns -> is_d_separate dag u v z = Ok (sepb u v z).
  Proof using D. intros. unfold sepb. destruct (is_d_separate_ok dag u v z D) as [b [E _]]; auto. rewrite E. auto. Qed.
  Lemma sepb_iff : forall u v z, In u ns -> In v ns -> incl z ns ->
    (sepb u v z = true <-> dsep (arc dag) (fun x => In x z) u v).
  Proof using D. intros. unfold sepb. destruct (is_d_separate_ok dag u v z D) as [b [E H2]]; auto. rewrite E. auto. Qed.

  Lemma cpdag_try_spec : forall g0 sep0 u v acc sep gc z, pst g0 sep0 u v acc sep gc ->
    node_list g0 = ns -> In u ns -> In v ns -> u <> v -> incl z ns ->
    exists sep' gc', cpdag_try dag u v sep z gc = (gc', Ok sep') /\
      pst g0 sep0 u v (acc ++ (if sepb u v z then [z] else [])) sep' gc'.
  Proof using D.
    intros g0 sep0 u v acc sep gc z P E0 Hu Hv N Hz. unfold cpdag_try.
    rewrite (bind_run _ _ _ _ _ (query_run _ gc _ (sepb_ok u v z Hu Hv Hz))).
    destruct (sepb u v z); cbn [negb].
    - destruct (pst_accept _ _ _ _ _ _ _ z P) as [s1 [s2 [gc' [E1 [E2 [E3 P']]]]]]; [congruence|congruence|auto|].
      exists s2, gc'. split; auto.
      rewrite (bind_run _ _ gc gc s1) by (unfold query; rewrite E1; auto).
      rewrite (bind_run _ _ gc gc s2) by (unfold query; rewrite E2; auto).
      unfold bind in E3 |- *. destruct (connectedM u v gc) as [h [c|e]]; [|discriminate].
      rewrite E3. reflexivity.
    - exists sep, gc. rewrite app_nil_r. auto.
  Qed.

  Definition accs1 (u v k : nat) : list (list nat) := filter (sepb u v) (combinations (order u v k) k).
  Definition accs (u v : nat) : list (list nat) := flat_map (accs1 u v) (seq 0 (number_of_nodes dag - 1)).

  Lemma try_fold : forall g0 sep0 u v zs acc sep gc, pst g0 sep0 u v acc sep gc ->
    node_list g0 = ns -> In u ns -> In v ns -> u <> v -> (forall z, In z zs -> incl z ns) ->
    exists sep' gc', foldM (cpdag_try dag u v) sep zs gc = (gc', Ok sep') /\
      pst g0 sep0 u v (acc ++ filter (sepb u v) zs) sep' gc'.
  Proof using D.
    intros g0 sep0 u v zs. induction zs as [|z zs IH]; intros acc sep gc P E0 Hu Hv N Hz.
    - exists sep, gc. simpl. rewrite app_nil_r. auto.
    - destruct (cpdag_try_spec _ _ _ _ _ _ _ z P E0 Hu Hv N) as [s1 [g1 [E1 P1]]]; [apply Hz; simpl; auto|].
      destruct (IH _ _ _ P1 E0 Hu Hv N) as [s2 [g2 [E2 P2]]]; [intros; apply Hz; simpl; auto|].
      exists s2, g2. split; [simpl; rewrite (bind_run _ _ _ _ _ E1); auto|].
      simpl. rewrite <- app_assoc in P2. destruct (sepb u v z); auto.
  Qed.

  Lemma sizes_fold : forall g0 sep0 u v ks acc sep gc, pst g0 sep0 u v acc sep gc ->
    node_list g0 = ns -> In u ns -> In v ns -> u <> v ->
    exists sep' gc', foldM (fun sep k => foldM (cpdag_try dag u v) sep (combinations (order u v k) k)) sep ks gc = (gc', Ok sep') /\
      pst g0 sep0 u v (acc ++ flat_map (accs1 u v) ks) sep' gc'.
  Proof using D ord.
    intros g0 sep0 u v ks. induction ks as [|k ks IH]; intros acc sep gc P E0 Hu Hv N.
    - exists sep, gc. simpl. rewrite app_nil_r. auto.
    - destruct (try_fold _ _ _ _ (combinations (order u v k) k) _ _ _ P E0 Hu Hv N) as [s1 [g1 [E1 P1]]].
      { intros z Hz x Hx. apply combinations_incl in Hz. apply Hz in Hx. apply ord in Hx. tauto. }
      destruct (IH _ _ _ P1 E0 Hu Hv N) as [s2 [g2 [E2 P2]]].
      exists s2, g2. split; [simpl; rewrite (bind_run _ _ _ _ _ E1); auto|].
      simpl. rewrite <- app_assoc in P2. auto.
  Qed.

  Definition fin (sep : seps) (gc : graph) (u v : nat) : Prop :=
    (exists s, sget sep (u, v) = Some s /\ forall w, In w s <-> un (accs u v) w) /\
    (exists s, sget sep (v, u) = Some s /\ forall w, In w s <-> un (accs u v) w) /\
    mk gc u v = (if nonempty (accs u v) then None else Some Tail) /\
    mk gc v u = (if nonempty (accs u v) then None else Some Tail).

  Definition ini (sep : seps) (gc : graph) (u v : nat) : Prop :=
    sget sep (u, v) = Some [] /\ sget sep (v, u) = Some [] /\ mk gc u v = Some Tail /\ mk gc v u = Some Tail.

  Record SK (gc : graph) : Prop := {
    sk_wf : WF gc; sk_kind : g_kind gc = KPDAG; sk_nodes : node_list gc = ns;
    sk_diag : forall x, mk gc x x = None
  }.

  Definition OI (pre : list (nat * nat)) (sep : seps) (gc : graph) : Prop :=
    SK gc /\ (forall u v, In (u, v) pre -> fin sep gc u v) /\
    (forall u v, In (u, v) (comb2 ns) -> ~ In (u, v) pre -> ini sep gc u v).

  Lemma accs_pair : forall sep gc u v a b sep' gc', pst gc sep u v (accs u v) sep' gc' -> ~ same_pair a b u v ->
    sget sep' (a, b) = sget sep (a, b) /\ sget sep' (b, a) = sget sep (b, a) /\
    mk gc' a b = mk gc a b /\ mk gc' b a = mk gc b a.
  Proof using.
    intros sep gc u v a b sep' gc' P H. assert (H' : ~ same_pair b a u v).
    { intro Q. apply H. apply same_pair_sym. auto. }
    rewrite !(ps_other _ _ _ _ _ _ _ P) by auto. rewrite !(ps_mk _ _ _ _ _ _ _ P).
    apply samepb_false in H, H'. rewrite H, H'. auto.
  Qed.

  Lemma skeleton_fold : forall l pre sep gc, OI pre sep gc -> pre ++ l = comb2 ns ->
    exists sep' gc', foldM (fun (sep : seps) (p : nat * nat) =>
      let (u, v) := p in
      foldM (fun sep k => foldM (cpdag_try dag u v) sep (combinations (order u v k) k))
        sep (seq 0 (number_of_nodes dag - 1))) sep l gc = (gc', Ok sep') /\ OI (comb2 ns) sep' gc'.
  Proof using D ord.
    induction l as [|[u v] l IH]; intros pre sep gc OIp E.
    - rewrite app_nil_r in E. subst. exists sep, gc. auto.
    - destruct OIp as [S [Hf Hi]].
      assert (Huv : In (u, v) (comb2 ns)) by (rewrite <- E; apply in_app_iff; simpl; auto).
      assert (ND : NoDup (comb2 ns)) by (apply comb2_NoDup, (wf_nodup dag (dg_wf dag D))).
      assert (Np : ~ In (u, v) pre).
      { rewrite <- E in ND. apply NoDup_remove_2 in ND. intro Q. apply ND. apply in_app_iff. auto. }
      destruct (in_comb2_In _ _ _ Huv) as [Hu Hv].
      assert (N : u <> v) by (eapply in_comb2_neq; [apply (wf_nodup dag (dg_wf dag D))|eauto]).
      destruct (Hi u v Huv Np) as [I1 [I2 [I3 I4]]].
      assert (P0 : pst gc sep u v [] sep gc).
      { constructor; try apply S; auto.
        - intros a b. rewrite andb_false_r. auto.
        - exists []. split; auto. intro w. split; [intros []|intros [z [[] _]]].
        - exists []. split; auto. intro w. split; [intros []|intros [z [[] _]]]. }
      destruct (sizes_fold _ _ _ _ (seq 0 (number_of_nodes dag - 1)) _ _ _ P0 (sk_nodes _ S) Hu Hv N) as [s1 [g1 [E1 P1]]].
      simpl in P1. fold (accs u v) in P1.
      assert (AS : forall a b, In (a, b) (comb2 ns) -> (a, b) <> (u, v) -> ~ same_pair a b u v).
      { intros a b Hab Nab [[-> ->]|[-> ->]]; [congruence|].
        eapply in_comb2_asym; [apply (wf_nodup dag (dg_wf dag D))|exact Huv|exact Hab]. }
      assert (O1 : OI (pre ++ [(u, v)]) s1 g1).
      { split; [|split].
        - constructor.
          + apply (ps_wf _ _ _ _ _ _ _ P1).
          + apply (ps_kind _ _ _ _ _ _ _ P1).
          + rewrite (ps_nodes _ _ _ _ _ _ _ P1). apply S.
          + intro x. rewrite (ps_mk _ _ _ _ _ _ _ P1), (sk_diag _ S).
            destruct (samepb x x u v && nonempty (accs u v))%bool; auto.
        - intros a b Hab. apply in_app_iff in Hab. destruct Hab as [Hab|[Q|[]]].
          + assert (Hab' : In (a, b) (comb2 ns)) by (rewrite <- E; apply in_app_iff; auto).
            assert (Nab : (a, b) <> (u, v)) by congruence.
            destruct (accs_pair _ _ _ _ a b _ _ P1 (AS a b Hab' Nab)) as [Q1 [Q2 [Q3 Q4]]].
            unfold fin. rewrite Q1, Q2, Q3, Q4. apply Hf. auto.
          + inversion Q; subst a b. unfold fin.
            split; [apply P1|]. split; [apply P1|]. rewrite !(ps_mk _ _ _ _ _ _ _ P1).
            assert (samepb u v u v = true) as -> by (apply samepb_spec; left; auto).
            assert (samepb v u u v = true) as -> by (apply samepb_spec; right; auto).
            rewrite I3, I4. auto.
        - intros a b Hab Na. assert (Nab : (a, b) <> (u, v)).
          { intro Q. apply Na. apply in_app_iff. simpl. auto. }
          destruct (accs_pair _ _ _ _ a b _ _ P1 (AS a b Hab Nab)) as [Q1 [Q2 [Q3 Q4]]].
          unfold ini. rewrite Q1, Q2, Q3, Q4. apply Hi; auto. intro Q. apply Na. apply in_app_iff. auto. }
      destruct (IH _ _ _ O1) as [s2 [g2 [E2 O2]]]; [rewrite <- app_assoc; auto|].
      exists s2, g2. split; auto. cbn [foldM]. rewrite (bind_run _ _ _ _ _ E1). auto.
  Qed.

  Lemma skeleton_ok : forall g0, SK g0 -> (forall u v, In u ns -> In v ns -> u <> v -> mk g0 u v = Some Tail) ->
    exists sep gc, cpdag_skeleton dag order g0 = (gc, Ok sep) /\ SK gc /\
      forall u v, In (u, v) (comb2 ns) -> fin sep gc u v.
  Proof using D ord.
    intros g0 S Hm. destruct (skeleton_fold (comb2 ns) [] (empty_seps ns) g0) as [sep [gc [E [S' [Hf _]]]]]; auto.
    { split; auto. split; [intros ? ? []|]. intros u v Huv _.
      destruct (in_comb2_In _ _ _ Huv) as [Hu Hv].
      assert (ND := wf_nodup dag (dg_wf dag D)).
      assert (N : u <> v) by (eapply in_comb2_neq; eauto).
      unfold ini. rewrite !empty_seps_get, !Hm; auto. }
    exists sep, gc. split; auto. unfold cpdag_skeleton, with_nodes, nodes. rewrite (sk_nodes _ S). exact E.
  Qed.

  (* ---------- what the accepted sets say ---------- *)
  Lemma in_accs : forall u v z, In z (accs u v) -> In u ns -> In v ns ->
    incl z ns /\ ~ In u z /\ ~ In v z /\ dsep (arc dag) (fun x => In x z) u v.
  Proof using D ord.
    intros u v z Hz Hu Hv. unfold accs in Hz. apply in_flat_map in Hz. destruct Hz as [k [_ Hz]].
    unfold accs1 in Hz. apply filter_In in Hz. destruct Hz as [Hz Hs].
    assert (Hi : forall x, In x z -> In x ns /\ x <> u /\ x <> v).
    { intros x Hx. apply combinations_incl in Hz. apply Hz in Hx. apply ord in Hx. auto. }
    assert (incl z ns) by (intros x Hx; apply Hi; auto).
    split; auto. split; [intro Q; apply Hi in Q; tauto|]. split; [intro Q; apply Hi in Q; tauto|].
    apply sepb_iff; auto.
  Qed.

  Lemma accs_complete : forall u v z, In u ns -> In v ns -> u <> v -> incl z ns -> ~ In u z -> ~ In v z ->
    dsep (arc dag) (fun x => In x z) u v -> exists z', In z' (accs u v) /\ forall x, In x z' <-> In x z.
  Proof using D ord.
    intros u v z Hu Hv N Hz Nu Nv Hs.
    set (k := length (py_set z)). destruct (ord u v k) as [ND Ho].
    destruct (combinations_subset (order u v k) z ND) as [c [Hc He]].
    { intros x Hx. apply Ho. split; auto. split; intros ->; auto. }
    exists c. split; [|exact He]. unfold accs. apply in_flat_map. exists k. split.
    - apply in_seq. assert (H : k <= length ns - 2).
      { unfold k. apply len_avoid2 with (u := u) (v := v); auto; rewrite ?py_set_In; auto.
        - apply py_set_NoDup.
        - apply (wf_nodup dag (dg_wf dag D)).
        - intros x Hx. apply Hz. apply py_set_In. auto. }
      assert (2 <= length ns).
      { assert (Q : NoDup [u; v]) by (constructor; [simpl; intuition|constructor; auto; constructor]).
        apply (NoDup_incl_length Q). intros x [<-|[<-|[]]]; auto. }
      unfold number_of_nodes, nodes. split; [lia|]. unfold k in *. lia.
    - unfold accs1. apply filter_In. split; auto. apply sepb_iff; auto.
      + intros x Hx. apply Hz. apply He. auto.
      + rewrite (dsep_Zext (arc dag) (fun x => In x c) (fun x => In x z)); auto.
  Qed.

  Lemma arc_sym_none : forall u v, mk dag u v = None -> ~ adjacent (arc dag) u v.
  Proof using D.
    intros u v M [H|H]; unfold arc in H; [congruence|].
    assert (Q : mk dag u v <> None); [|auto]. apply (wf_sym dag (dg_wf dag D)). congruence.
  Qed.
  Lemma arc_some : forall u v, u <> v -> mk dag u v <> None -> adjacent (arc dag) u v.
  Proof using D.
    intros u v N M. destruct (dg_marks dag D u v N M) as [[H _]|[_ H]]; [left|right]; exact H.
  Qed.

  Lemma asymE : forall u v, arc dag u v -> ~ arc dag v u.
  Proof using D. apply arc_asym. auto. Qed.

  Lemma accs_adj : acyclic (arc dag) -> forall u v, In u ns -> In v ns -> u <> v ->
    (nonempty (accs u v) = false <-> adjacent (arc dag) u v).
  Proof using D ord.
    intros Ac u v Hu Hv N. split.
    - intro H. apply arc_some; auto. intro M.
      destruct (nonadjacent_sep_arc dag u v D Ac Hu Hv N M) as [w [Hw [Hs [Nu Nv]]]].
      destruct (accs_complete u v (parents dag w)) as [z [Hz _]]; auto.
      { intros x Hx. apply in_parents in Hx; [|apply D]. unfold parents_of in Hx.
        apply (arc_nodes dag x w (dg_wf dag D)). auto. }
      destruct (accs u v); [destruct Hz|discriminate].
    - intro A. destruct (accs u v) as [|z l] eqn:Ea; auto. exfalso.
      destruct (in_accs u v z) as [_ [Nu [Nv Hs]]]; auto; [rewrite Ea; simpl; auto|].
      exact (adjacent_not_dsep (arc dag) asymE (fun x => In x z) u v A Nu Nv Hs).
  Qed.

  Lemma accs_collider : acyclic (arc dag) -> forall u v w, In u ns -> In v ns -> u <> v ->
    ~ adjacent (arc dag) u v -> adjacent (arc dag) u w -> adjacent (arc dag) v w ->
    (un (accs u v) w <-> ~ (arc dag u w /\ arc dag v w)).
  Proof using D ord.
    intros Ac u v w Hu Hv N Na Auw Avw. split.
    - intros [z [Hz Hw]] [E1 E2]. destruct (in_accs u v z Hz Hu Hv) as [_ [Nu [Nv Hs]]].
      exact (collider_not_in_sep (arc dag) asymE (fun x => In x z) u v w N Na E1 E2 Nu Nv Hs Hw).
    - intro Nc. assert (HE : nonempty (accs u v) <> false).
      { intro Q. apply accs_adj in Q; auto. }
      destruct (accs u v) as [|z l] eqn:Ea; [exfalso; auto|].
      destruct (in_accs u v z) as [_ [Nu [Nv Hs]]]; auto; [rewrite Ea; simpl; auto|].
      exists z. split; [simpl; auto|].
      apply (noncollider_in_sep (arc dag) asymE (fun x => In x z) u v w); auto.
      intro x. apply in_dec. apply Nat.eq_dec.
  Qed.
End Skel.

(* ---------- create_complete_undirected_graph ---------- *)
Lemma complete_fold : forall l g, WF g -> g_kind g = KPDAG ->
  (forall u v, In (u, v) l -> In u (node_list g) /\ In v (node_list g) /\ u <> v) ->
  NoDup l -> (forall u v, In (u, v) l -> ~ In (v, u) l) ->
  (forall u v, In (u, v) l -> mk g u v = None) ->
  exists g', forM l (fun p => add_edge (Edge (fst p) (snd p) Tail Tail) false) g = (g', Ok tt) /\
    WF g' /\ g_kind g' = KPDAG /\ node_list g' = node_list g /\
    (forall a b, (In (a, b) l \/ In (b, a) l) -> mk g' a b = Some Tail) /\
    (forall a b, ~ In (a, b) l -> ~ In (b, a) l -> mk g' a b = mk g a b).
Proof.
  induction l as [|[u v] l IH]; intros g W K Hn ND As Hm.
  - exists g. simpl. split; auto. split; auto. split; auto. split; auto. split; [intros a b [[]|[]]|auto].
  - destruct (Hn u v) as [Hu [Hv N]]; [simpl; auto|].
    destruct (add_edge_ok g (Edge u v Tail Tail) false W) as [g1 [E1 [W1 [[S1 [S2 S3]] M1]]]]; auto.
    { rewrite K. reflexivity. }
    { right. apply Hm. simpl. auto. }
    inversion_clear ND as [|? ? Nin ND'].
    destruct (IH g1) as [g2 [E2 [W2 [K2 [N2 [A2 B2]]]]]]; auto.
    + congruence.
    + intros a b H. rewrite S2. apply Hn. simpl. auto.
    + intros a b H Q. apply (As a b); simpl; auto.
    + intros a b H. rewrite M1. unfold adds. simpl.
      destruct (Nat.eqb a v && Nat.eqb b u)%bool eqn:Q1.
      { apply andb_true_iff in Q1. rewrite !Nat.eqb_eq in Q1. destruct Q1 as [-> ->].
        exfalso. apply (As u v); simpl; auto. }
      destruct (Nat.eqb a u && Nat.eqb b v)%bool eqn:Q2.
      { apply andb_true_iff in Q2. rewrite !Nat.eqb_eq in Q2. destruct Q2 as [-> ->]. exfalso. auto. }
      apply Hm. simpl. auto.
    + exists g2. split; [cbn [forM]; rewrite (bind_run _ _ _ _ _ E1); auto|].
      split; auto. split; auto. split; [congruence|]. split.
      * intros a b H.
        assert (HD : (In (a, b) l \/ In (b, a) l) \/ (~ In (a, b) l /\ ~ In (b, a) l)).
        { assert (Q : forall x y : nat * nat, {x = y} + {x <> y}) by (decide equality; apply Nat.eq_dec).
          destruct (in_dec Q (a, b) l); auto. destruct (in_dec Q (b, a) l); auto. }
        destruct HD as [HD|[H1 H2]]; auto. rewrite B2, M1 by auto. unfold adds. simpl.
        destruct H as [[H|H]|[H|H]]; try contradiction; inversion H; subst; rewrite !Nat.eqb_refl; simpl; auto.
        destruct (Nat.eqb a b && Nat.eqb b a)%bool; auto.
      * intros a b H1 H2. rewrite B2 by (simpl in *; auto). rewrite M1. unfold adds. simpl.
        destruct (Nat.eqb a v && Nat.eqb b u)%bool eqn:Q1.
        { apply andb_true_iff in Q1. rewrite !Nat.eqb_eq in Q1. destruct Q1 as [-> ->].
          exfalso. apply H2. simpl; auto. }
        destruct (Nat.eqb a u && Nat.eqb b v)%bool eqn:Q2; auto.
        apply andb_true_iff in Q2. rewrite !Nat.eqb_eq in Q2. destruct Q2 as [-> ->]. exfalso. apply H1. simpl. auto.
Qed.

Lemma complete_ok : forall g, WF g -> g_kind g = KPDAG -> (forall u v, mk g u v = None) ->
  exists g', create_complete_undirected_graph g = (g', Ok tt) /\ WF g' /\ g_kind g' = KPDAG /\
    node_list g' = node_list g /\ (forall x, mk g' x x = None) /\
    (forall u v, In u (node_list g) -> In v (node_list g) -> u <> v -> mk g' u v = Some Tail).
Proof.
  intros g W K Hm. unfold create_complete_undirected_graph, with_nodes, nodes.
  assert (ND := wf_nodup g W).
  destruct (complete_fold (comb2 (node_list g)) g W K) as [g' [E [W' [K' [N' [A B]]]]]]; auto.
  - intros u v H. destruct (in_comb2_In _ _ _ H). split; auto. split; auto. eapply in_comb2_neq; eauto.
  - apply comb2_NoDup. auto.
  - intros u v H Q. eapply in_comb2_asym; eauto.
  - exists g'. split; auto. split; auto. split; auto. split; auto. split.
    + intro x. rewrite B; auto; intro Q; eapply in_comb2_neq in Q; eauto.
    + intros u v Hu Hv N. apply A. apply in_comb2_total; auto.
Qed.

(* ---------- rule0 with correct separating sets ---------- *)
(** [g] shows the skeleton of [E] with exactly the v-structures directed. *)
Record pattern (E : nat -> nat -> Prop) (ns : list nat) (g : graph) : Prop := {
  pt_pg : PG g;
  pt_nodes : node_list g = ns;
  pt_con : forall x y, conp g x y <-> adjacent E x y;
  pt_dir : forall x y, dirp g x y <-> exists c, vstruct E x y c;
  pt_und : forall x y, conp g x y -> undp g x y \/ dirp g x y \/ dirp g y x
}.

Lemma pattern_geq : forall E E' ns g h, markov_equiv E E' -> pattern E ns g -> pattern E' ns h -> geq g h.
Proof.
  intros E E' ns g h [HA HV] Pg Ph. constructor.
  - apply (pg_wf _ (pt_pg _ _ _ Pg)).
  - apply (pg_wf _ (pt_pg _ _ _ Ph)).
  - rewrite (pg_kind _ (pt_pg _ _ _ Pg)), (pg_kind _ (pt_pg _ _ _ Ph)). auto.
  - rewrite (pt_nodes _ _ _ Pg), (pt_nodes _ _ _ Ph). auto.
  - intros x y.
    assert (HC : conp g x y <-> conp h x y) by (rewrite (pt_con _ _ _ Pg), (pt_con _ _ _ Ph); auto).
    assert (HD : forall a b, dirp g a b <-> dirp h a b).
    { intros a b. rewrite (pt_dir _ _ _ Pg), (pt_dir _ _ _ Ph). split; intros [c Hc]; exists c; apply HV; auto. }
    destruct (mk g x y) as [m|] eqn:Mg.
    + assert (C : conp g x y) by (unfold conp; congruence).
      destruct (pt_und _ _ _ Pg x y C) as [U|[Hd|Hd]].
      * destruct (pt_und _ _ _ Ph x y (proj1 HC C)) as [U'|[Hd|Hd]].
        -- destruct U, U'. congruence.
        -- apply HD in Hd. destruct (und_not_dir _ _ _ U). tauto.
        -- apply HD in Hd. destruct (und_not_dir _ _ _ U). tauto.
      * assert (Hd' := proj1 (HD _ _) Hd). destruct Hd, Hd'. congruence.
      * assert (Hd' := proj1 (HD _ _) Hd). destruct Hd, Hd'. congruence.
    + destruct (mk h x y) eqn:Mh; auto. exfalso.
      assert (C : conp h x y) by (unfold conp; congruence). apply HC in C. auto.
Qed.

Section Rule0.
  Variable E : nat -> nat -> Prop.
  Hypothesis Eas : forall u v, E u v -> ~ E v u.
  Variable sep : seps.
  Variable ns : list nat.
  Hypothesis ndns : NoDup ns.
  Hypothesis Ens : forall u v, E u v -> In u ns /\ In v ns.
  Hypothesis good : forall u v w, In (u, v) (comb2 ns) -> ~ adjacent E u v -> adjacent E u w -> adjacent E v w ->
    exists s, sget sep (u, v) = Some s /\ (In w s <-> ~ (E u w /\ E v w)).
  Hypothesis Edec : forall u v, E u v \/ ~ E u v.

  Definition R0 (done : nat -> nat -> nat -> Prop) (gc : graph) : Prop :=
    PG gc /\ node_list gc = ns /\ (forall x y, conp gc x y <-> adjacent E x y) /\
    (forall x y, dirp gc x y -> exists c, vstruct E x y c) /\
    (forall x y, conp gc x y -> undp gc x y \/ dirp gc x y \/ dirp gc y x) /\
    (forall u v w, done u v w -> vstruct E u w v -> dirp gc u w /\ dirp gc v w).

  Lemma R0_orient : forall done gc u w v, R0 done gc -> vstruct E u w v ->
    exists gc', reorient u w gc = (gc', Ok tt) /\ R0 done gc' /\ dirp gc' u w /\
      (forall x y, dirp gc x y -> dirp gc' x y).
  Proof using Eas.
    intros done gc u w v [P [Hn [Hc [Hd [Hu Hdn]]]]] V.
    destruct V as [E1 [E2 [N A]]].
    assert (Nuw : u <> w) by (intros ->; apply (Eas w w); auto).
    assert (C : conp gc u w) by (apply Hc; left; auto).
    destruct (reorient_ok gc u w P C Nuw) as [g' [Er O]]. exists g'. split; auto.
    assert (C' : conp gc w u) by (apply Hc; right; auto).
    assert (Dk : forall x y, dirp gc x y -> dirp g' x y).
    { intros x y D. destruct (pair_cases u w x y) as [[-> ->]|[[-> ->]|[H1 H2]]].
      - apply (orients_dir _ _ _ _ O Nuw).
      - exfalso. destruct (Hd _ _ D) as [c [Q _]]. apply (Eas u w); auto.
      - destruct D as [D1 D2]. split; rewrite (orients_other _ _ _ _ O); tauto. }
    assert (D0 := orients_dir _ _ _ _ O Nuw).
    split; [|auto].
    split; [eapply orients_PG; eauto|]. split; [rewrite (or_nodes _ _ _ _ O); auto|].
    split; [intros x y; rewrite (orients_con _ _ _ _ O C C'); auto|]. split; [|split].
    - intros x y D. destruct (orients_dirp_inv _ _ _ _ O Nuw _ _ D) as [D'|[-> ->]]; auto.
      exists v. repeat split; auto.
    - intros x y Cx. apply (orients_con _ _ _ _ O C C') in Cx.
      destruct (Hu x y Cx) as [U|[D|D]]; auto.
      destruct (pair_cases u w x y) as [[-> ->]|[[-> ->]|[H1 H2]]]; auto.
      left. apply (orients_undp_other _ _ _ _ O); auto.
    - intros a b c Hab V. destruct (Hdn a b c Hab V). auto.
  Qed.

  Lemma R0_weaken : forall (d1 d2 : nat -> nat -> nat -> Prop) gc, R0 d1 gc ->
    (forall u v w, d2 u v w -> vstruct E u w v -> d1 u v w \/ (dirp gc u w /\ dirp gc v w)) -> R0 d2 gc.
  Proof using.
    intros d1 d2 gc [P [Hn [Hc [Hd [Hu Hdn]]]]] H. repeat (split; [assumption|]).
    intros u v w D V. destruct (H u v w D V); auto.
  Qed.

  Definition body0 (u v w : nat) : M unit :=
    (if memb w [u; v] then ret tt else
      b <- andM (connectedM u w) (connectedM v w) ;;
      if negb b then ret tt else
      s <- query (fun _ => dgetE pair_eqb sep (u, v)) ;;
      if negb (memb w s) then reorient u w ;;; reorient v w else ret tt)%meth.

  Lemma body0_ok : forall done gc u v w, R0 done gc -> In (u, v) (comb2 ns) -> In w ns -> ~ adjacent E u v ->
    exists gc', body0 u v w gc = (gc', Ok tt) /\
      R0 (fun a b c => done a b c \/ (a = u /\ b = v /\ c = w)) gc'.
  Proof using Eas ndns good Edec.
    intros done gc u v w R Huv Hw Na. unfold body0.
    destruct (in_comb2_In _ _ _ Huv) as [Hu Hv]. assert (Nuv : u <> v) by (eapply in_comb2_neq; eauto).
    assert (R' := R). destruct R' as [P [Hn [Hc [Hd [Hun Hdn]]]]]. assert (W := pg_wf _ P).
    assert (SKIP : (vstruct E u w v -> False) -> R0 (fun a b c => done a b c \/ (a = u /\ b = v /\ c = w)) gc).
    { intro H. apply (R0_weaken done); auto. intros a b c [D|[-> [-> ->]]] V; auto. exfalso. auto. }
    destruct (memb w [u; v]) eqn:Mw.
    { exists gc. split; auto. apply SKIP. intros [E1 [E2 _]]. apply memb_cons2 in Mw.
      destruct Mw as [->| ->]; [apply (Eas _ _ E1); auto|apply (Eas _ _ E2); auto]. }
    rewrite (bind_run _ _ _ _ _ (and_run gc _ _ _ _
       (conn_run gc u w W ltac:(rewrite Hn; auto) ltac:(rewrite Hn; auto))
       (conn_run gc v w W ltac:(rewrite Hn; auto) ltac:(rewrite Hn; auto)))).
    destruct (connb gc u w && connb gc v w)%bool eqn:C; cbn [negb].
    2:{ exists gc. split; auto. apply SKIP. intros [E1 [E2 _]]. apply andb_false_iff in C.
        assert (C1 : conp gc u w) by (apply Hc; left; auto). assert (C2 : conp gc v w) by (apply Hc; left; auto).
        apply connb_p in C1, C2. destruct C; congruence. }
    apply andb_true_iff in C. destruct C as [C1 C2]. apply connb_p in C1, C2. apply Hc in C1, C2.
    destruct (good u v w Huv Na C1 C2) as [s [Es Hs]].
    assert (EQ : query (fun _ => dgetE pair_eqb sep (u, v)) gc = (gc, Ok s)).
    { unfold query, dgetE. rewrite Es. auto. }
    rewrite (bind_run _ _ _ _ _ EQ).
    destruct (memb w s) eqn:Ms; cbn [negb].
    - exists gc. split; auto. apply SKIP. intros [E1 [E2 _]]. apply memb_In in Ms. apply Hs in Ms. auto.
    - assert (E12 : E u w /\ E v w).
      { apply memb_false in Ms. rewrite Hs in Ms.
        destruct (Edec u w), (Edec v w); tauto. }
      assert (V : vstruct E u w v) by (repeat split; tauto).
      assert (V' : vstruct E v w u).
      { split; [tauto|]. split; [tauto|]. split; [auto|]. intros [Q|Q]; apply Na; [right|left]; auto. }
      destruct (R0_orient done gc u w v R V) as [g1 [E1 [R1 [D1 _]]]].
      destruct (R0_orient done g1 v w u R1 V') as [g2 [E2 [R2 [D2 K2]]]].
      exists g2. split; [rewrite (bind_run _ _ _ _ _ E1); auto|].
      apply (R0_weaken done); auto. intros a b c [D|[-> [-> ->]]] _; auto.
  Qed.

  Lemma inner0_ok : forall l done gc u v, R0 done gc -> In (u, v) (comb2 ns) -> incl l ns -> ~ adjacent E u v ->
    exists gc', forM l (body0 u v) gc = (gc', Ok tt) /\
      R0 (fun a b c => done a b c \/ (a = u /\ b = v /\ In c l)) gc'.
  Proof using Eas ndns good Edec.
    induction l as [|w l IH]; intros done gc u v R Huv Hl Na.
    - exists gc. split; auto. apply (R0_weaken done); auto. intros a b c [D|[_ [_ []]]] _; auto.
    - destruct (body0_ok done gc u v w R Huv (Hl w (or_introl eq_refl)) Na) as [g1 [E1 R1]].
      destruct (IH _ g1 u v R1 Huv (fun x H => Hl x (or_intror H)) Na) as [g2 [E2 R2]].
      exists g2. split; [cbn [forM]; rewrite (bind_run _ _ _ _ _ E1); auto|].
      eapply R0_weaken; [exact R2|]. intros a b c [D|[-> [-> [<-|H]]]] _; left; auto.
  Qed.

  Lemma outer0_ok : forall l done gc, R0 done gc -> incl l (comb2 ns) ->
    exists gc', forM l (fun (p : nat * nat) => let (u, v) := p in
      (c <- connectedM u v ;; if c : bool then ret tt else
       with_nodes (fun ns' => forM ns' (body0 u v)))%meth) gc = (gc', Ok tt) /\
      R0 (fun a b c => done a b c \/ In (a, b) l) gc'.
  Proof using Eas ndns Ens good Edec.
    induction l as [|[u v] l IH]; intros done gc R Hl.
    - exists gc. split; auto. apply (R0_weaken done); auto. intros a b c [D|[]] _; auto.
    - assert (Huv : In (u, v) (comb2 ns)) by (apply Hl; simpl; auto).
      destruct (in_comb2_In _ _ _ Huv) as [Hu Hv].
      assert (R' := R). destruct R' as [P [Hn [Hc [Hd [Hun Hdn]]]]]. assert (W := pg_wf _ P).
      assert (B : exists g1, (c <- connectedM u v ;; if c : bool then ret tt else
         with_nodes (fun ns' => forM ns' (body0 u v)))%meth gc = (g1, Ok tt) /\
         R0 (fun a b c => done a b c \/ (a = u /\ b = v)) g1).
      { rewrite (bind_run _ _ _ _ _ (conn_run gc u v W ltac:(rewrite Hn; auto) ltac:(rewrite Hn; auto))).
        destruct (connb gc u v) eqn:C.
        - exists gc. split; auto. apply (R0_weaken done); auto. intros a b c [D|[-> ->]] [_ [_ [_ A]]]; auto.
          exfalso. apply A. apply Hc. apply connb_p. auto.
        - unfold with_nodes, nodes. rewrite Hn.
          assert (Na : ~ adjacent E u v). { rewrite <- Hc, <- connb_p, C. discriminate. }
          destruct (inner0_ok ns done gc u v R Huv (incl_refl _) Na) as [g1 [E1 R1]].
          exists g1. split; auto. eapply R0_weaken; [exact R1|]. intros a b c [D|[-> ->]] [V1 _]; left; auto.
          right. split; auto. split; auto. apply (Ens _ _ V1). }
      destruct B as [g1 [E1 R1]].
      destruct (IH _ g1 R1 (fun x H => Hl x (or_intror H))) as [g2 [E2 R2]].
      exists g2. split; [cbn [forM]; rewrite (bind_run _ _ _ _ _ E1); auto|].
      eapply R0_weaken; [exact R2|]. intros a b c [D|[Q|H]] _; left; auto. inversion Q. auto.
  Qed.

  Theorem rule0_ok : forall g, PG g -> node_list g = ns ->
    (forall x y, conp g x y <-> adjacent E x y) -> (forall x y, conp g x y -> undp g x y) ->
    exists g', rule0 sep g = (g', Ok tt) /\ pattern E ns g'.
  Proof using Eas ndns Ens good Edec.
    intros g P Hn Hc Hu.
    assert (R : R0 (fun _ _ _ => False) g).
    { split; auto. split; auto. split; auto. split; [|split; auto; tauto].
      intros x y D. exfalso. assert (C := dirp_con _ _ _ D). apply Hu in C. destruct (und_not_dir _ _ _ C). auto. }
    destruct (outer0_ok (comb2 ns) _ g R (incl_refl _)) as [g' [Er R']].
    exists g'. split; [unfold rule0, with_nodes at 1, nodes; rewrite Hn; exact Er|].
    destruct R' as [P' [Hn' [Hc' [Hd' [Hu' Hdn]]]]]. constructor; auto.
    intros x y. split; auto. intros [c V].
    assert (Hx : In x ns /\ In c ns). { destruct V as [V1 [V2 _]]. destruct (Ens _ _ V1), (Ens _ _ V2). auto. }
    destruct (in_comb2_total ns x c) as [H|H]; try tauto; [apply V| |].
    - apply (Hdn x c y); auto.
    - destruct V as [V1 [V2 [V3 V4]]]. apply (Hdn c x y); auto.
      split; auto. split; auto. split; auto. intros [Q|Q]; apply V4; [right|left]; auto.
  Qed.
End Rule0.

(* ---------- the pattern built by dag2cpdag ---------- *)
Lemma arc_decP : forall g u v, arc g u v \/ ~ arc g u v.
Proof. intros. destruct (arc_dec g u v); auto. Qed.

Theorem cpdag_pattern_ok : forall dag order, DG dag -> acyclic (arc dag) ->
  (forall u v k, NoDup (order u v k) /\ forall x, In x (order u v k) <-> In x (node_list dag) /\ x <> u /\ x <> v) ->
  forall g0, WF g0 -> g_kind g0 = KPDAG -> node_list g0 = node_list dag -> (forall u v, mk g0 u v = None) ->
  exists g', cpdag_pattern dag order g0 = (g', Ok tt) /\ pattern (arc dag) (node_list dag) g'.
Proof.
  intros dag order D Ac Ho g0 W K Hn Hm.
  destruct (complete_ok g0 W K Hm) as [g1 [E1 [W1 [K1 [N1 [D1 M1]]]]]].
  rewrite Hn in N1, M1.
  destruct (skeleton_ok dag D order Ho g1) as [sep [g2 [E2 [S2 F2]]]]; auto; [constructor; auto|].
  assert (ND := wf_nodup dag (dg_wf dag D)).
  assert (HF : forall x y, In x (node_list dag) -> In y (node_list dag) -> x <> y ->
    (mk g2 x y = Some Tail /\ adjacent (arc dag) x y) \/ (mk g2 x y = None /\ ~ adjacent (arc dag) x y)).
  { intros x y Hx Hy N. destruct (in_comb2_total _ x y Hx Hy N) as [H|H].
    - destruct (F2 _ _ H) as [_ [_ [Q _]]]. pose proof (accs_adj dag D order Ho Ac x y Hx Hy N) as A.
      destruct (nonempty (accs dag order x y)); rewrite Q; [right|left]; split; auto.
      + intro Z. apply A in Z. discriminate.
      + apply A. auto.
    - destruct (F2 _ _ H) as [_ [_ [_ Q]]]. pose proof (accs_adj dag D order Ho Ac y x Hy Hx ltac:(auto)) as A.
      assert (AS : adjacent (arc dag) x y <-> adjacent (arc dag) y x) by (unfold adjacent; tauto).
      destruct (nonempty (accs dag order y x)); rewrite Q; [right|left]; split; auto.
      + intro Z. apply AS in Z. apply A in Z. discriminate.
      + apply AS. apply A. auto. }
  assert (HC : forall x y, conp g2 x y <-> adjacent (arc dag) x y).
  { intros x y. unfold conp. split.
    - intro C. assert (Hx : In x (node_list g2) /\ In y (node_list g2)) by (apply con_nodes; auto; apply (sk_wf _ _ S2)).
      rewrite (sk_nodes _ _ S2) in Hx. destruct (Nat.eq_dec x y) as [->|N]; [exfalso; apply C; apply (sk_diag _ _ S2)|].
      destruct (HF x y) as [[_ H]|[H _]]; try tauto.
    - intro A. assert (Hx : In x (node_list dag) /\ In y (node_list dag)).
      { destruct A as [A|A]; destruct (arc_nodes dag _ _ (dg_wf dag D) A); auto. }
      destruct (Nat.eq_dec x y) as [->|N].
      { exfalso. destruct A as [A|A]; apply (dg_loop dag D y); exact A. }
      destruct (HF x y) as [[H _]|[_ H]]; try tauto. congruence. }
  assert (HU : forall x y, conp g2 x y -> undp g2 x y).
  { intros x y C. assert (C' := conp_sym _ _ _ (sk_wf _ _ S2) C).
    assert (Q : forall a b, conp g2 a b -> mk g2 a b = Some Tail).
    { intros a b Cab. assert (Hx : In a (node_list g2) /\ In b (node_list g2)) by (apply con_nodes; auto; apply (sk_wf _ _ S2)).
      rewrite (sk_nodes _ _ S2) in Hx.
      destruct (Nat.eq_dec a b) as [->|N]; [exfalso; apply Cab; apply (sk_diag _ _ S2)|].
      destruct (HF a b) as [[H _]|[H _]]; try tauto. exfalso. apply Cab. auto. }
    split; apply Q; auto. }
  assert (P2 : PG g2).
  { constructor; try apply S2. intros x y m Hmk.
    assert (C : conp g2 x y) by (unfold conp; congruence). apply HU in C. destruct C. left. congruence. }
  destruct (rule0_ok (arc dag) (asymE dag D) sep (node_list dag) ND
    (fun u v => arc_nodes dag u v (dg_wf dag D))) with (g := g2) as [g3 [E3 P3]]; auto.
  - intros u v w Huv Na Auw Avw. destruct (F2 _ _ Huv) as [[s [Es Hs]] _].
    exists s. split; auto. rewrite Hs. destruct (in_comb2_In _ _ _ Huv). apply accs_collider; auto.
    eapply in_comb2_neq; eauto.
  - apply arc_decP.
  - apply (sk_nodes _ _ S2).
  - exists g3. split; auto. unfold cpdag_pattern. rewrite (bind_run _ _ _ _ _ E1), (bind_run _ _ _ _ _ E2). auto.
Qed.

(** dag2cpdag as a whole. *)
Theorem dag2cpdag_ok : forall dag order, DG dag -> acyclic (arc dag) ->
  (forall u v k, NoDup (order u v k) /\ forall x, In x (order u v k) <-> In x (node_list dag) /\ x <> u /\ x <> v) ->
  exists g0 p g' n, new_graph KPDAG (nodes dag) = Ok g0 /\ cpdag_pattern dag order g0 = (p, Ok tt) /\
    pattern (arc dag) (node_list dag) p /\ orient_by_meek_rules p = (g', Ok tt) /\
    dag2cpdag dag order = Ok g' /\ osteps anystep p n g' /\ forall a b, ~ anystep g' a b.
Proof.
  intros dag order D Ac Ho.
  destruct (new_graph_ok KPDAG (node_list dag) (wf_nodup dag (dg_wf dag D))) as [g0 [E0 [W0 [K0 [N0 M0]]]]].
  destruct (cpdag_pattern_ok dag order D Ac Ho g0 W0 K0 N0 M0) as [p [E1 P1]].
  destruct (meek_ok p (pt_pg _ _ _ P1)) as [g' [n [E2 [O C]]]].
  exists g0, p, g', n. split; auto. split; auto. split; auto. split; auto. split; auto.
  unfold dag2cpdag, nodes. rewrite E0. cbn [rbind]. unfold run_on. rewrite (bind_run _ _ _ _ _ E1), E2. auto.
Qed.

(* ---------- essential graphs ---------- *)
Lemma pattern_ext : forall E ns p E', pattern E ns p -> acyclic E' -> markov_equiv E E' -> ext p E'.
Proof.
  intros E ns p E' P Ac [HA HV]. split; auto. split; [|split].
  - intros u v _. rewrite (pt_con _ _ _ P). auto.
  - intros u v _ D. apply (pt_dir _ _ _ P) in D. destruct D as [c V]. apply HV in V. apply V.
  - intros u w v V. apply HV in V. split; apply (pt_dir _ _ _ P).
    + exists v. auto.
    + exists u. apply vs_sym. auto.
Qed.

(** Undirected or directed one way: kept by orientation steps. *)
Lemma osteps_und_dir : forall p n g', PG p -> osteps anystep p n g' ->
  (forall x y, conp p x y -> undp p x y \/ dirp p x y \/ dirp p y x) ->
  forall x y, conp g' x y -> undp g' x y \/ dirp g' x y \/ dirp g' y x.
Proof.
  intros p n g' P O H. induction O as [h Q|n h a b h' O IH S Or]; intros x y C.
  - rewrite <- (geq_undp _ _ Q), <- !(geq_dirp _ _ Q). apply H. apply (geq_conp _ _ Q). auto.
  - destruct (any_sound _ _ _ S) as [Ua N].
    assert (C' : conp h x y) by (apply (orients_con _ _ _ _ Or (undp_con _ _ _ Ua) (undp_con _ _ _ (undp_sym _ _ _ Ua))); auto).
    destruct (IH x y C') as [I|I].
    + destruct (pair_cases a b x y) as [[-> ->]|[[-> ->]|[H1 H2]]].
      * right. left. apply (orients_dir _ _ _ _ Or N).
      * right. right. apply (orients_dir _ _ _ _ Or N).
      * left. apply (orients_undp_other _ _ _ _ Or); auto.
    + right. destruct I as [I|I]; [left|right]; apply (orients_dirp _ _ _ _ Or Ua); auto.
Qed.

Section Essential.
  Variable E : nat -> nat -> Prop.
  Variable ns : list nat.
  Hypothesis Edec : forall u v, {E u v} + {~ E u v}.
  Hypothesis ndns : NoDup ns.
  Hypothesis Ens : forall u v, E u v -> In u ns /\ In v ns.
  Hypothesis Ac : acyclic E.
  Variables p g : graph.
  Variable n : nat.
  Hypothesis Pp : pattern E ns p.
  Hypothesis O : osteps anystep p n g.
  Hypothesis Cl : forall a b, ~ anystep g a b.

  Lemma out_con : forall x y, conp g x y <-> adjacent E x y.
  Proof using Pp O. intros. rewrite (osteps_con _ _ _ _ any_sound O). apply (pt_con _ _ _ Pp). Qed.
  Lemma out_cases : forall x y, adjacent E x y -> undp g x y \/ dirp g x y \/ dirp g y x.
  Proof using Pp O.
    intros x y A. apply (osteps_und_dir p n g (pt_pg _ _ _ Pp) O (pt_und _ _ _ Pp)). apply out_con. auto.
  Qed.

  Lemma neqE : forall x y, adjacent E x y -> x <> y.
  Proof using Ac. intros x y [H|H] ->; eapply Eas; eauto. Qed.

  Hypothesis sound : forall x y, dirp g x y -> compelled E x y.

  Lemma soundE : forall x y, dirp g x y -> E x y.
  Proof using Ac sound. intros. apply sound; auto. apply self_equiv. Qed.

  Lemma MD_dirp : forall a b, MD E a b -> dirp g a b.
  Proof using Ac Pp O Cl sound.
    intros a b D. assert (DE := MD_E E Ac _ _ D).
    induction D as [a b c H|a b c D1 I1 H1 N1 H2 H3|a b c D1 I1 D2 I2 H1|a b x y H1 H2 H3 D1 I1 D2 I2 N1 H4 H5].
    - apply (osteps_dirp _ _ _ _ any_sound O). apply (pt_dir _ _ _ Pp). exists c. auto.
    - specialize (I1 (MD_E E Ac _ _ D1)). destruct (out_cases b c H1) as [Q|[Q|Q]]; auto; exfalso.
      + apply (Cl b c). left. exists a. pose proof (neqE _ _ (MD_adj E Ac _ _ D1)). pose proof (neqE _ _ H1).
        rewrite out_con. auto 10.
      + apply soundE in Q. eapply Eas; eauto.
    - specialize (I1 (MD_E E Ac _ _ D1)). specialize (I2 (MD_E E Ac _ _ D2)).
      destruct (out_cases a c H1) as [Q|[Q|Q]]; auto; exfalso.
      + apply (Cl a c). right. left. exists b. pose proof (neqE _ _ (MD_adj E Ac _ _ D1)).
        pose proof (neqE _ _ (MD_adj E Ac _ _ D2)). pose proof (neqE _ _ H1). auto 10.
      + apply soundE in Q. eapply Eas; eauto.
    - specialize (I1 (MD_E E Ac _ _ D1)). specialize (I2 (MD_E E Ac _ _ D2)).
      destruct (out_cases a b H1) as [Q|[Q|Q]]; auto; exfalso.
      2:{ apply soundE in Q. eapply Eas; eauto. }
      assert (Nab := neqE _ _ H1). assert (Nax := neqE _ _ H2). assert (Nay := neqE _ _ H3).
      assert (Nxb := neqE _ _ (MD_adj E Ac _ _ D1)). assert (Nyb := neqE _ _ (MD_adj E Ac _ _ D2)).
      assert (S2 : forall w, w <> a -> w <> b -> dirp g w b -> ~ dirp g a w).
      { intros w W1 W2 W3 W4. apply (Cl a b). right. left. exists w. auto 10. }
      destruct (out_cases a x H2) as [X|[X|X]]; [|apply (S2 x); auto|].
      + destruct (out_cases a y H3) as [Y|[Y|Y]]; [|apply (S2 y); auto|].
        * apply (Cl a b). right. right. left. exists x, y. repeat (split; [solve [auto]|]). auto.
        * apply (Cl a x). left. exists y. rewrite out_con. repeat (split; [solve [auto]|]).
          split; [intro Z; apply H4; apply adj_sym; auto|auto].
      + destruct (out_cases a y H3) as [Y|[Y|Y]]; [|apply (S2 y); auto|].
        * apply (Cl a y). left. exists x. rewrite out_con. repeat (split; [solve [auto]|]). auto.
        * apply H5. apply soundE in X, Y. repeat split; auto.
  Qed.

  Lemma dirp_iff : forall a b, adjacent E a b -> (dirp g a b <-> compelled E a b).
  Proof using Edec ndns Ens Ac Pp O Cl sound.
    intros a b A. split; [apply sound|]. intro H. apply MD_dirp.
    apply (MD_iff_compelled E ns Edec ndns Ens Ac a b A). exact H.
  Qed.

  Lemma undp_iff : forall a b, adjacent E a b -> (undp g a b <-> ~ compelled E a b /\ ~ compelled E b a).
  Proof using Edec ndns Ens Ac Pp O Cl sound.
    intros a b A. rewrite <- (dirp_iff a b A), <- (dirp_iff b a (adj_sym E _ _ A)). split.
    - intro U. apply und_not_dir. auto.
    - intros [H1 H2]. destruct (out_cases a b A) as [Q|[Q|Q]]; tauto.
  Qed.
End Essential.
