(** adjacency_search and fast_adjacency_search for an arbitrary test. *)

From Coq Require Import List Arith Bool Lia QArith Permutation.
From Verif Require Import Model.Py Model.Graph Model.DiGraph Model.PDAG Model.PC Spec.API.
From Verif Require Import Proofs.PyFacts Proofs.GraphFacts Proofs.HistoryFacts Proofs.FrameFacts Proofs.DagFacts
  Proofs.PDAGFacts Proofs.MeekFacts Proofs.CpdagFacts.
Import ListNotations.
Open Scope nat_scope.

Lemma lremove_In : forall x l, NoDup l -> forall y, In y (lremove x l) <-> In y l /\ y <> x.
Proof.
  intros x l. induction l as [|a l IH]; intros ND y; simpl; [tauto|].
  inversion_clear ND as [|? ? Na ND'].
  destruct (Nat.eqb_spec x a) as [->|N].
  - split; [intro H; split; auto; intros ->; auto|]. intros [[->|H] Hn]; auto. congruence.
  - simpl. rewrite IH by auto. split; [intros [->|[H Hn]]; auto|]. intros [[->|H] Hn]; auto.
Qed.
Lemma lremove_NoDup : forall x l, NoDup l -> NoDup (lremove x l).
Proof.
  intros x l. induction l as [|a l IH]; intros ND; simpl; auto.
  inversion_clear ND as [|? ? Na ND']. destruct (Nat.eqb x a); auto.
  constructor; auto. intro H. apply lremove_In in H; tauto.
Qed.

(** Ordered calls for a pair that were accepted with conditioning set [z]. *)
Definition acc_call (alpha : Q) (calls : list tcall) (u v : nat) (z : list nat) : Prop :=
  exists p, (In (u, v, z, p) calls \/ In (v, u, z, p) calls) /\ (alpha <= p)%Q.

Lemma acc_app : forall alpha c1 c2 u v z, acc_call alpha (c1 ++ c2) u v z <->
  acc_call alpha c1 u v z \/ acc_call alpha c2 u v z.
Proof.
  intros. unfold acc_call. split.
  - intros [p [H L]]. rewrite !in_app_iff in H. destruct H as [[H|H]|[H|H]]; eauto.
  - intros [[p [H L]]|[p [H L]]]; exists p; rewrite !in_app_iff; tauto.
Qed.
Lemma acc_sym : forall alpha c u v z, acc_call alpha c u v z <-> acc_call alpha c v u z.
Proof. intros. unfold acc_call. split; intros [p [H L]]; exists p; tauto. Qed.
Lemma acc_one : forall alpha x y z p u v s, acc_call alpha [(x, y, z, p)] u v s <->
  same_pair u v x y /\ s = z /\ (alpha <= p)%Q.
Proof.
  intros. unfold acc_call, same_pair. split.
  - intros [q [[[H|[]]|[H|[]]] L]]; inversion H; subst; auto.
  - intros [[[-> ->]|[-> ->]] [-> L]]; exists p; simpl; auto.
Qed.

(** What [sep_set] holds after the given calls. *)
Definition sep_inv (alpha : Q) (names : list nat) (sep : seps) (calls : list tcall) : Prop :=
  forall a b, In a names -> In b names -> a <> b ->
    exists s, sget sep (a, b) = Some s /\ forall w, In w s <-> exists z, acc_call alpha calls a b z /\ In w z.

(** The graph: undirected, loop-free, over [names]. *)
Record UG (names : list nat) (g : graph) : Prop := {
  ug_wf : WF g; ug_kind : g_kind g = KPDAG; ug_nodes : node_list g = names;
  ug_diag : forall x, mk g x x = None;
  ug_tail : forall u v, mk g u v <> None -> mk g u v = Some Tail
}.

Lemma ug_und : forall names g u v, UG names g -> conp g u v -> undp g u v.
Proof.
  intros names g u v U C. split; apply (ug_tail _ _ U); auto. apply conp_sym; auto. apply (ug_wf _ _ U).
Qed.
Lemma ug_in : forall names g u v, UG names g -> conp g u v -> In u names /\ In v names /\ u <> v.
Proof.
  intros names g u v U C. assert (H := con_nodes g u v (ug_wf _ _ U) C). rewrite (ug_nodes _ _ U) in H.
  split; [tauto|]. split; [tauto|]. intros ->. apply C. apply (ug_diag _ _ U).
Qed.
Lemma ug_pg : forall names g, UG names g -> PG g.
Proof.
  intros names g U. constructor; try apply U. intros x y m H. left.
  assert (C : mk g x y <> None) by congruence. apply (ug_tail _ _ U) in C. congruence.
Qed.

(** Removing one edge. *)
Lemma ug_remove : forall names g u v, UG names g -> In u names -> In v names ->
  exists g', remove_edge u v g = (g', Ok tt) /\ UG names g' /\
    forall x y, conp g' x y <-> conp g x y /\ ~ same_pair x y u v.
Proof.
  intros names g u v U Hu Hv. assert (W := ug_wf _ _ U).
  destruct (remove_edge_ok g u v W) as [g' [E [W' [[S1 [S2 S3]] M]]]]; [rewrite (ug_nodes _ _ U); auto|rewrite (ug_nodes _ _ U); auto|].
  assert (HM : forall x y, (same_pair x y u v /\ mk g' x y = None) \/ (~ same_pair x y u v /\ mk g' x y = mk g x y)).
  { intros x y. rewrite M. destruct (samepb x y u v) eqn:S.
    - left. apply samepb_spec in S. split; auto. unfold subs.
      destruct S as [[-> ->]|[-> ->]]; rewrite !Nat.eqb_refl; simpl; auto.
      destruct (Nat.eqb u v && Nat.eqb v u)%bool; auto.
    - right. apply samepb_false in S. split; auto. apply subs_other. auto. }
  exists g'. split; auto. split.
  - constructor; auto.
    + rewrite S1. apply (ug_kind _ _ U).
    + rewrite S2. apply (ug_nodes _ _ U).
    + intro x. destruct (HM x x) as [[_ H]|[_ H]]; auto. rewrite H. apply (ug_diag _ _ U).
    + intros x y H. destruct (HM x y) as [[_ Q]|[_ Q]]; [congruence|]. rewrite Q in *. apply (ug_tail _ _ U). auto.
  - intros x y. unfold conp. destruct (HM x y) as [[H Q]|[H Q]]; rewrite Q; tauto.
Qed.

Lemma sep_both_ok : forall alpha names sep calls u v z p, sep_inv alpha names sep calls ->
  In u names -> In v names -> u <> v -> (alpha <= p)%Q ->
  exists sep', sep_both sep u v z = Ok sep' /\ sep_inv alpha names sep' (calls ++ [(u, v, z, p)]).
Proof.
  intros alpha names sep calls u v z p I Hu Hv N L.
  destruct (I u v Hu Hv N) as [s [Es Hs]]. destruct (I v u Hv Hu ltac:(auto)) as [s' [Es' Hs']].
  unfold sep_both, sep_add. unfold dgetE at 1. rewrite Es. cbn [rbind].
  unfold dgetE. rewrite sget_neq by congruence. rewrite Es'. cbn [rbind].
  eexists. split; [reflexivity|]. intros a b Ha Hb Nab.
  assert (ACC : forall w, (exists z0, acc_call alpha (calls ++ [(u, v, z, p)]) a b z0 /\ In w z0) <->
     (exists z0, acc_call alpha calls a b z0 /\ In w z0) \/ (same_pair a b u v /\ In w z)).
  { intro w. split.
    - intros [y [A Hw]]. apply acc_app in A. destruct A as [A|A]; eauto.
      apply acc_one in A. destruct A as [A [-> _]]. auto.
    - intros [[y [A Hw]]|[A Hw]].
      + exists y. split; auto. apply acc_app. auto.
      + exists z. split; auto. apply acc_app. right. apply acc_one. auto. }
  destruct (samepb a b u v) eqn:S.
  - apply samepb_spec in S. destruct S as [[-> ->]|[-> ->]].
    + rewrite sget_neq by congruence. rewrite sget_eq. eexists. split; [reflexivity|].
      intro w. rewrite ACC, set_union_In, py_set_In, Hs. unfold same_pair. tauto.
    + rewrite sget_eq. eexists. split; [reflexivity|].
      intro w. rewrite ACC, set_union_In, py_set_In, Hs'. unfold same_pair. tauto.
  - apply samepb_false in S. destruct (I a b Ha Hb Nab) as [r [Er Hr]].
    rewrite !sget_neq by (intro Q; inversion Q; subst; apply S; unfold same_pair; auto).
    exists r. split; auto. intro w. rewrite ACC, Hr. tauto.
Qed.

Lemma sep_inv_rej : forall alpha names sep calls u v z p, sep_inv alpha names sep calls -> ~ (alpha <= p)%Q ->
  sep_inv alpha names sep (calls ++ [(u, v, z, p)]).
Proof.
  intros alpha names sep calls u v z p I L a b Ha Hb N. destruct (I a b Ha Hb N) as [s [Es Hs]].
  exists s. split; auto. intro w. rewrite Hs. split.
  - intros [y [A Hw]]. exists y. split; auto. apply acc_app. auto.
  - intros [y [A Hw]]. apply acc_app in A. destruct A as [A|A]; eauto. apply acc_one in A. tauto.
Qed.

Definition legal (names : list nat) (u v : nat) (z : list nat) : Prop :=
  In u names /\ In v names /\ u <> v /\ NoDup z /\ incl z names /\ ~ In u z /\ ~ In v z.

Section Search.
  Variable t : citest.
  Variable alpha : Q.
  Variable names : list nat.
  Hypothesis nd : NoDup names.
  Variable tv : nat -> nat -> list nat -> Q.
  Hypothesis total : forall u v z, legal names u v z -> t u v z = Ok (tv u v z).

  Notation accd := (acc_call alpha).
  Notation sinv := (sep_inv alpha names).
  Definition some_acc (calls : list tcall) (u v : nat) : Prop := exists z, accd calls u v z.

  Lemma some_acc_app : forall a b u v, some_acc (a ++ b) u v <-> some_acc a u v \/ some_acc b u v.
  Proof using. intros. unfold some_acc. split; [intros [z H]; apply acc_app in H; destruct H; eauto|].
    intros [[z H]|[z H]]; exists z; apply acc_app; auto. Qed.
  Lemma some_acc_sym : forall a u v, some_acc a u v <-> some_acc a v u.
  Proof using. intros. unfold some_acc. split; intros [z H]; exists z; apply acc_sym; auto. Qed.

  Definition mkcall (u v : nat) (z : list nat) : tcall := (u, v, z, tv u v z).

  (* ---------- adjacency_search: one pair ---------- *)
  (** removals recorded for the ordered pairs in the calls [cs] *)
  Definition rem_inv (rem : list (nat * nat)) (cs : list tcall) : Prop :=
    forall a b, In (a, b) rem <-> exists z p, In (a, b, z, p) cs /\ (alpha <= p)%Q.

  Record lvl (c0 : list tcall) (L : list tcall) (st : search) : Prop := {
    lv_calls : s_calls st = c0 ++ L;
    lv_rem : rem_inv (s_remove st) L;
    lv_sep : sinv (s_sep st) (s_calls st)
  }.

  Lemma try_z_ok : forall g c0 L st u v z, lvl c0 L st -> legal names u v z ->
    exists st', try_z t alpha u v st z g = (g, Ok st') /\ lvl c0 (L ++ [mkcall u v z]) st'.
  Proof using total.
    intros g c0 L st u v z [HC HR HS] Lg. unfold try_z.
    rewrite (bind_run _ _ _ _ _ (query_run _ g _ (total u v z Lg))).
    assert (Lg' := Lg). destruct Lg' as [Hu [Hv [N _]]].
    destruct (Qle_bool alpha (tv u v z)) eqn:Q.
    - apply Qle_bool_iff in Q.
      destruct (sep_both_ok alpha names (s_sep st) (s_calls st) u v z (tv u v z) HS Hu Hv N Q) as [sep' [Es Is]].
      rewrite (bind_run _ _ g g sep') by (unfold query; rewrite Es; auto).
      eexists. split; [reflexivity|]. constructor; simpl.
      + rewrite HC, app_assoc. auto.
      + intros a b. rewrite in_app_iff, (HR a b). simpl. split.
        * intros [[s [p [H Hp]]]|[H|[]]].
          -- exists s, p. rewrite in_app_iff. auto.
          -- inversion H; subst. exists z, (tv a b z). rewrite in_app_iff. simpl. auto.
        * intros [s [p [H Hp]]]. apply in_app_iff in H. destruct H as [H|[H|[]]]; [left; eauto|].
          inversion H; auto.
      + exact Is.
    - assert (NQ : ~ (alpha <= tv u v z)%Q) by (rewrite <- Qle_bool_iff, Q; discriminate).
      eexists. split; [reflexivity|]. constructor; simpl.
      + rewrite HC, app_assoc. auto.
      + intros a b. rewrite (HR a b). split.
        * intros [s [p [H Hp]]]. exists s, p. rewrite in_app_iff. auto.
        * intros [s [p [H Hp]]]. apply in_app_iff in H. destruct H as [H|[H|[]]]; [eauto|].
          inversion H; subst. contradiction.
      + apply sep_inv_rej; auto.
  Qed.

  Lemma try_zs_ok : forall zs g c0 L st u v, lvl c0 L st -> (forall z, In z zs -> legal names u v z) ->
    exists st', foldM (try_z t alpha u v) st zs g = (g, Ok st') /\ lvl c0 (L ++ map (mkcall u v) zs) st'.
  Proof using total.
    induction zs as [|z zs IH]; intros g c0 L st u v HL Lg.
    - exists st. simpl. rewrite app_nil_r. auto.
    - destruct (try_z_ok g c0 L st u v z HL) as [s1 [E1 L1]]; [apply Lg; simpl; auto|].
      destruct (IH g c0 _ s1 u v L1) as [s2 [E2 L2]]; [intros; apply Lg; simpl; auto|].
      exists s2. split; [cbn [foldM]; rewrite (bind_run _ _ _ _ _ E1); auto|].
      rewrite <- app_assoc in L2. exact L2.
  Qed.

  (** Conditioning sets tried for the ordered pair u, v in the graph g. *)
  Definition adjm (g : graph) (u v : nat) : list nat := lremove v (nbrs g u).
  Definition cand (g : graph) (k u v : nat) : list (list nat) :=
    if connb g u v then combinations (adjm g u v) k else [].

  Lemma adjm_In : forall g u v x, WF g -> (In x (adjm g u v) <-> conp g u x /\ x <> v).
  Proof using. intros g u v x W. unfold adjm. rewrite lremove_In by (apply nbrs_NoDup; auto). rewrite nbrs_In. unfold conp. tauto. Qed.
  Lemma adjm_NoDup : forall g u v, WF g -> NoDup (adjm g u v).
  Proof using. intros. apply lremove_NoDup. apply nbrs_NoDup. auto. Qed.

  Lemma comb_legal : forall g u v l k z, UG names g -> In u names -> In v names -> u <> v -> NoDup l ->
    (forall x, In x l -> (conp g u x \/ conp g v x) /\ x <> v /\ x <> u) ->
    In z (combinations l k) -> legal names u v z.
  Proof using.
    intros g u v l k z U Hu Hv N Nl Hl Hz.
    assert (Hi := combinations_incl _ _ _ Hz).
    split; auto. split; auto. split; auto. split; [eapply combinations_NoDup; eauto|].
    split; [|split].
    - intros x Hx. apply Hi, Hl in Hx. destruct Hx as [[H|H] _]; apply (ug_in _ _ _ _ U) in H; tauto.
    - intro H. apply Hi, Hl in H. tauto.
    - intro H. apply Hi, Hl in H. tauto.
  Qed.

  Lemma cand_legal : forall g k u v z, UG names g -> In z (cand g k u v) -> legal names u v z /\ conp g u v.
  Proof using.
    intros g k u v z U H. unfold cand in H. destruct (connb g u v) eqn:C; [|destruct H].
    apply connb_p in C. assert (C' := C). apply (ug_in _ _ _ _ U) in C'. destruct C' as [Hu [Hv N]].
    split; auto. apply (comb_legal g u v (adjm g u v) k z U Hu Hv N); auto.
    - apply adjm_NoDup. apply (ug_wf _ _ U).
    - intros x Hx. apply adjm_In in Hx; [|apply (ug_wf _ _ U)]. destruct Hx as [Hc Hx].
      split; auto. split; auto. intros ->. apply Hc. apply (ug_diag _ _ U).
  Qed.

  Lemma try_pair_ok : forall g k c0 L st u v, UG names g -> In u names -> In v names -> lvl c0 L st ->
    exists st', try_pair t alpha k st (u, v) g = (g, Ok st') /\ lvl c0 (L ++ map (mkcall u v) (cand g k u v)) st'.
  Proof using total.
    intros g k c0 L st u v U Hu Hv HL. assert (W := ug_wf _ _ U). unfold try_pair.
    rewrite (bind_run _ _ _ _ _ (conn_run g u v W ltac:(rewrite (ug_nodes _ _ U); auto) ltac:(rewrite (ug_nodes _ _ U); auto))).
    assert (CL := fun z => cand_legal g k u v z U). unfold cand in *. destruct (connb g u v) eqn:C; cbn [negb].
    - rewrite (bind_run _ _ _ _ _ (query_run _ g _ (get_neighbours_ok g u W ltac:(rewrite (ug_nodes _ _ U); auto)))).
      assert (Hm : memb v (nbrs g u) = true) by (apply memb_In, nbrs_connb; auto).
      rewrite Hm. apply try_zs_ok; auto. intros z Hz. apply CL. auto.
    - exists st. simpl. rewrite app_nil_r. auto.
  Qed.

  Definition pair_calls (g : graph) (k : nat) (p : nat * nat) : list tcall :=
    map (mkcall (fst p) (snd p)) (cand g k (fst p) (snd p)).

  Lemma pairs_ok : forall l g k c0 L st, UG names g -> (forall u v, In (u, v) l -> In u names /\ In v names) ->
    lvl c0 L st ->
    exists st', foldM (try_pair t alpha k) st l g = (g, Ok st') /\ lvl c0 (L ++ flat_map (pair_calls g k) l) st'.
  Proof using total.
    induction l as [|[u v] l IH]; intros g k c0 L st U Hl HL.
    - exists st. simpl. rewrite app_nil_r. auto.
    - destruct (Hl u v) as [Hu Hv]; [simpl; auto|].
      destruct (try_pair_ok g k c0 L st u v U Hu Hv HL) as [s1 [E1 L1]].
      destruct (IH g k c0 _ s1 U (fun a b H => Hl a b (or_intror H)) L1) as [s2 [E2 L2]].
      exists s2. split; [cbn [foldM]; rewrite (bind_run _ _ _ _ _ E1); auto|].
      rewrite <- app_assoc in L2. exact L2.
  Qed.

  Lemma removes_ok : forall l g, UG names g -> (forall u v, In (u, v) l -> In u names /\ In v names) ->
    exists g', forM l (fun (p : nat * nat) => let (u, v) := p in
      (c <- connectedM u v ;; if c : bool then remove_edge u v else ret tt)%meth) g = (g', Ok tt) /\
      UG names g' /\ forall x y, conp g' x y <-> conp g x y /\ ~ In (x, y) l /\ ~ In (y, x) l.
  Proof using.
    induction l as [|[u v] l IH]; intros g U Hl.
    - exists g. split; auto. split; auto. intros. simpl. tauto.
    - destruct (Hl u v) as [Hu Hv]; [simpl; auto|]. assert (W := ug_wf _ _ U).
      assert (B : exists g1, (c <- connectedM u v ;; if c : bool then remove_edge u v else ret tt)%meth g = (g1, Ok tt) /\
         UG names g1 /\ forall x y, conp g1 x y <-> conp g x y /\ ~ same_pair x y u v).
      { rewrite (bind_run _ _ _ _ _ (conn_run g u v W ltac:(rewrite (ug_nodes _ _ U); auto) ltac:(rewrite (ug_nodes _ _ U); auto))).
        destruct (connb g u v) eqn:C; [apply ug_remove; auto|].
        exists g. split; auto. split; auto. intros x y. split; [|tauto]. intro Cx. split; auto.
        apply connb_false in C. intros [[-> ->]|[-> ->]]; [auto|]. apply conp_sym in Cx; auto. }
      destruct B as [g1 [E1 [U1 C1]]].
      destruct (IH g1 U1) as [g2 [E2 [U2 C2]]]; [intros; apply Hl; simpl; auto|].
      exists g2. split; [cbn [forM]; rewrite (bind_run _ _ _ _ _ E1); auto|]. split; auto.
      intros x y. rewrite C2, C1. unfold same_pair. simpl.
      assert (E : forall a b c d : nat, (a, b) = (c, d) <-> c = a /\ d = b).
      { intros. split; [intro Q; inversion Q; auto|intros [-> ->]; auto]. }
      rewrite !E. tauto.
  Qed.

  Definition level_calls (g : graph) (k : nat) : list tcall := flat_map (pair_calls g k) (perm2 names).

  (** Every call is a genuine test outcome for a legal query. *)
  Definition sound_calls (calls : list tcall) : Prop :=
    forall u v z p, In (u, v, z, p) calls -> legal names u v z /\ p = tv u v z.

  Lemma level_sound : forall g k, UG names g -> sound_calls (level_calls g k).
  Proof using.
    intros g k U u v z p H. unfold level_calls in H. apply in_flat_map in H. destruct H as [[a b] [_ H]].
    unfold pair_calls in H. apply in_map_iff in H. destruct H as [z' [E H]]. simpl in *. unfold mkcall in E.
    inversion E; subst. apply cand_legal in H; tauto.
  Qed.

  Lemma level_calls_In : forall g k u v z p, UG names g ->
    (In (u, v, z, p) (level_calls g k) <-> In z (cand g k u v) /\ p = tv u v z).
  Proof using nd.
    intros g k u v z p U. unfold level_calls. rewrite in_flat_map. split.
    - intros [[a b] [_ H]]. unfold pair_calls in H. apply in_map_iff in H. destruct H as [z' [E H]].
      simpl in *. unfold mkcall in E. inversion E; subst. auto.
    - intros [H ->]. exists (u, v). destruct (cand_legal g k u v z U H) as [[Hu [Hv [N _]]] _].
      split; [apply in_perm2; auto|]. unfold pair_calls. simpl. apply (in_map (mkcall u v)). auto.
  Qed.

  Lemma search_level_ok : forall g k st, UG names g -> sinv (s_sep st) (s_calls st) ->
    exists g' st', search_level t alpha names st k g = (g', Ok st') /\ UG names g' /\
      s_calls st' = s_calls st ++ level_calls g k /\ sinv (s_sep st') (s_calls st') /\
      forall x y, conp g' x y <-> conp g x y /\ ~ some_acc (level_calls g k) x y.
  Proof using nd total.
    intros g k st U I. unfold search_level.
    destruct (pairs_ok (perm2 names) g k (s_calls st) [] (mkSearch [] (s_sep st) (s_calls st)) U) as [s1 [E1 L1]].
    { intros u v H. apply in_perm2 in H; tauto. }
    { constructor; simpl; auto; [rewrite app_nil_r; auto|]. intros a b. simpl. split; [tauto|intros [z [p [[] _]]]]. }
    rewrite (bind_run _ _ _ _ _ E1). destruct L1 as [LC LR LS]. simpl in LC, LR. fold (level_calls g k) in LC, LR.
    destruct (removes_ok (s_remove s1) g U) as [g2 [E2 [U2 C2]]].
    { intros u v H. apply LR in H. destruct H as [z [p [H _]]]. destruct (level_sound g k U _ _ _ _ H) as [[Lg1 [Lg2 _]] _].
      auto. }
    exists g2, s1. split.
    { rewrite (bind_run _ _ _ _ _ E2). reflexivity. }
    split; auto. split; auto. split; auto. intros x y. rewrite C2, !(LR _ _).
    unfold some_acc, acc_call. split.
    - intros [C [N1 N2]]. split; auto. intros [z [p [[H|H] Hp]]]; [apply N1|apply N2]; eauto.
    - intros [C N]. split; auto. split; intros [z [p [H Hp]]]; apply N; eauto.
  Qed.

  (* ---------- adjacency_search: all sizes ---------- *)
  (** The graph and calls after the first k sizes. *)
  Inductive stage : nat -> graph -> list tcall -> Prop :=
  | stage_0 : forall g, UG names g -> (forall u v, conp g u v <-> In u names /\ In v names /\ u <> v) -> stage 0 g []
  | stage_S : forall k g c g', stage k g c -> UG names g' ->
      (forall x y, conp g' x y <-> conp g x y /\ ~ some_acc (level_calls g k) x y) ->
      stage (S k) g' (c ++ level_calls g k).

  Lemma stage_UG : forall k g c, stage k g c -> UG names g.
  Proof using. intros k g c H. destruct H; auto. Qed.

  Lemma sizes_ok : forall m k g st, stage k g (s_calls st) -> sinv (s_sep st) (s_calls st) ->
    exists g' st', foldM (search_level t alpha names) st (seq k m) g = (g', Ok st') /\
      stage (k + m) g' (s_calls st') /\ sinv (s_sep st') (s_calls st').
  Proof using nd total.
    induction m as [|m IH]; intros k g st S I.
    - exists g, st. rewrite Nat.add_0_r. auto.
    - destruct (search_level_ok g k st (stage_UG _ _ _ S) I) as [g1 [s1 [E1 [U1 [C1 [I1 H1]]]]]].
      destruct (IH (Datatypes.S k) g1 s1) as [g2 [s2 [E2 [S2 I2]]]]; auto.
      { rewrite C1. econstructor; eauto. }
      exists g2, s2. split; [cbn [seq foldM]; rewrite (bind_run _ _ _ _ _ E1); auto|].
      replace (k + Datatypes.S m) with (Datatypes.S k + m) by lia. auto.
  Qed.

  Lemma start_ok : exists g0 g1, new_graph KPDAG names = Ok g0 /\ create_complete_undirected_graph g0 = (g1, Ok tt) /\
    UG names g1 /\ (forall u v, conp g1 u v <-> In u names /\ In v names /\ u <> v) /\ sinv (empty_seps names) [].
  Proof using nd.
    destruct (new_graph_ok KPDAG names nd) as [g0 [E0 [W0 [K0 [N0 M0]]]]].
    destruct (complete_ok g0 W0 K0 M0) as [g1 [E1 [W1 [K1 [N1 [D1 M1]]]]]].
    rewrite N0 in *. exists g0, g1. split; auto. split; auto.
    assert (U : UG names g1).
    { constructor; auto. intros u v H. assert (Q := con_nodes g1 u v W1 H). rewrite N1 in Q.
      apply M1; try tauto. intros ->. apply H. auto. }
    split; auto. split.
    - intros u v. split; [apply (ug_in _ _ _ _ U)|]. intros [Hu [Hv N]]. unfold conp. rewrite M1; auto. discriminate.
    - intros a b Ha Hb N. exists []. split; [apply empty_seps_get; auto|]. intro w. split; [intros []|].
      intros [z [[p [[[]|[]] _]] _]].
  Qed.

  Theorem adjacency_search_ok : exists g sep calls, adjacency_search t names alpha = Ok (g, sep, calls) /\
    stage (length names - 1) g calls /\ sinv sep calls.
  Proof using nd total.
    destruct start_ok as [g0 [g1 [E0 [E1 [U1 [C1 I1]]]]]].
    destruct (sizes_ok (length names - 1) 0 g1 (mkSearch [] (empty_seps names) [])) as [g [st [E [S I]]]]; auto.
    { constructor; auto. }
    exists g, (s_sep st), (s_calls st). split; auto. unfold adjacency_search. rewrite E0.
    rewrite (bind_run _ _ _ _ _ E1). unfold with_nodes, nodes. rewrite (ug_nodes _ _ U1), E. auto.
  Qed.

  (** Common description of the result of both searches. *)
  Record outcome (k : nat) (g : graph) (calls : list tcall) : Prop := {
    oc_ug : UG names g;
    oc_sound : sound_calls calls;
    oc_con : forall u v, conp g u v <-> (In u names /\ In v names /\ u <> v) /\ ~ some_acc calls u v;
    oc_full : forall u v z, conp g u v -> NoDup z -> length z < k ->
      (forall x, In x z -> conp g u x /\ x <> v) ->
      exists z' p, (In (u, v, z', p) calls \/ In (v, u, z', p) calls) /\ forall x, In x z' <-> In x z
  }.

  Lemma comb_find : forall l z : list nat, NoDup l -> NoDup z -> incl z l ->
    exists z', In z' (combinations l (length z)) /\ forall x, In x z' <-> In x z.
  Proof using.
    intros l z Nl Nz Hi. destruct (combinations_subset l z Nl Hi) as [c [Hc He]]. exists c. split; auto.
    apply nodup_length_eq in Nz. rewrite Nz in Hc. auto.
  Qed.

  Lemma stage_outcome : forall k g calls, stage k g calls -> outcome k g calls.
  Proof using nd.
    intros k g calls S. induction S as [g U C|k g c g' S IH U' C'].
    - constructor; auto.
      + intros u v z p [].
      + intros u v. rewrite C. split; [|tauto]. intro H. split; auto. intros [z [p [[[]|[]] _]]].
      + intros u v z _ _ H. lia.
    - destruct IH as [U So Co Fu]. constructor; auto.
      + intros u v z p H. apply in_app_iff in H. destruct H as [H|H]; [auto|]. eapply level_sound; eauto.
      + intros u v. rewrite C', Co, some_acc_app. tauto.
      + intros u v z Cuv Nz Lz Hz.
        assert (Cg : conp g u v) by (apply C'; auto).
        assert (Hz' : forall x, In x z -> conp g u x /\ x <> v).
        { intros x Hx. destruct (Hz x Hx). split; auto. apply C'. auto. }
        destruct (Nat.eq_dec (length z) k) as [E|N].
        * destruct (comb_find (adjm g u v) z) as [z' [H1 H2]].
          { apply adjm_NoDup. apply (ug_wf _ _ U). }
          { auto. }
          { intros x Hx. apply adjm_In; [apply (ug_wf _ _ U)|]. auto. }
          exists z', (tv u v z'). split; auto. left. apply in_app_iff. right.
          apply level_calls_In; auto. split; auto. unfold cand.
          rewrite (proj2 (connb_p g u v) Cg). rewrite <- E. auto.
        * destruct (Fu u v z Cg Nz) as [z' [p [H1 H2]]]; auto; [lia|].
          exists z', p. rewrite !in_app_iff. tauto.
  Qed.

  (* ---------- fast_adjacency_search ---------- *)
  Definition fadj (g : graph) (u v : nat) : list nat := filter (fun x => negb (Nat.eqb x v)) (nbrs g u).
  Lemma fadj_In : forall g u v x, In x (fadj g u v) <-> conp g u x /\ x <> v.
  Proof using. intros. unfold fadj. rewrite filter_In, nbrs_In, negb_true_iff, Nat.eqb_neq. unfold conp. tauto. Qed.
  Lemma fadj_NoDup : forall g u v, WF g -> NoDup (fadj g u v).
  Proof using. intros. apply NoDup_filter. apply nbrs_NoDup. auto. Qed.

  (** [r] is the union of the sets accepted in the calls [L]. *)
  Definition res_inv (r : option (list nat)) (L : list tcall) (u v : nat) : Prop :=
    match r with
    | None => ~ some_acc L u v
    | Some q => some_acc L u v /\ forall w, In w q <-> exists z, accd L u v z /\ In w z
    end.

  Lemma fast_try_ok : forall g u v c0 L r sep z, sinv sep (c0 ++ L) -> res_inv r L u v -> legal names u v z ->
    exists r' sep', fast_try t alpha u v (r, sep, c0 ++ L) z g = (g, Ok (r', sep', c0 ++ (L ++ [mkcall u v z]))) /\
      sinv sep' (c0 ++ (L ++ [mkcall u v z])) /\ res_inv r' (L ++ [mkcall u v z]) u v.
  Proof using total.
    intros g u v c0 L r sep z I R Lg. unfold fast_try.
    rewrite (bind_run _ _ _ _ _ (query_run _ g _ (total u v z Lg))).
    assert (Lg' := Lg). destruct Lg' as [Hu [Hv [N _]]]. rewrite !app_assoc. fold (mkcall u v z).
    assert (SP : same_pair u v u v) by (left; auto).
    destruct (Qle_bool alpha (tv u v z)) eqn:Q.
    - apply Qle_bool_iff in Q.
      destruct (sep_both_ok alpha names sep (c0 ++ L) u v z (tv u v z) I Hu Hv N Q) as [sep' [Es Is]].
      rewrite (bind_run _ _ g g sep') by (unfold query; rewrite Es; auto).
      eexists _, sep'. split; [reflexivity|]. split; auto.
      assert (A1 : accd [mkcall u v z] u v z) by (apply acc_one; auto).
      simpl. split; [apply some_acc_app; right; exists z; auto|].
      intro w. destruct r as [q|]; simpl in R.
      + destruct R as [_ R]. rewrite set_union_In, py_set_In, R. split.
        * intros [[y [A Hw]]|Hw]; [exists y|exists z]; split; auto; apply acc_app; auto.
        * intros [y [A Hw]]. apply acc_app in A. destruct A as [A|A]; eauto.
          apply acc_one in A. destruct A as [_ [-> _]]. auto.
      + rewrite py_set_In. split.
        * intro Hw. exists z. split; auto. apply acc_app. auto.
        * intros [y [A Hw]]. apply acc_app in A. destruct A as [A|A]; [exfalso; apply R; exists y; auto|].
          apply acc_one in A. destruct A as [_ [-> _]]. auto.
    - assert (NQ : ~ (alpha <= tv u v z)%Q) by (rewrite <- Qle_bool_iff, Q; discriminate).
      exists r, sep. split; [reflexivity|]. split; [apply sep_inv_rej; auto|].
      assert (NA : forall y, ~ accd [mkcall u v z] u v y) by (intros y A; apply acc_one in A; tauto).
      destruct r as [q|]; simpl in *.
      + destruct R as [[y R0] R]. split; [exists y; apply acc_app; auto|]. intro w. rewrite R. split.
        * intros [s [A Hw]]. exists s. split; auto. apply acc_app. auto.
        * intros [s [A Hw]]. apply acc_app in A. destruct A as [A|A]; eauto. exfalso. eapply NA; eauto.
      + rewrite some_acc_app. intros [A|[y A]]; auto. eapply NA; eauto.
  Qed.

  Lemma fast_trys_ok : forall zs g u v c0 L r sep, sinv sep (c0 ++ L) -> res_inv r L u v ->
    (forall z, In z zs -> legal names u v z) ->
    exists r' sep', foldM (fast_try t alpha u v) (r, sep, c0 ++ L) zs g =
        (g, Ok (r', sep', c0 ++ (L ++ map (mkcall u v) zs))) /\
      sinv sep' (c0 ++ (L ++ map (mkcall u v) zs)) /\ res_inv r' (L ++ map (mkcall u v) zs) u v.
  Proof using total.
    induction zs as [|z zs IH]; intros g u v c0 L r sep I R Lg.
    - exists r, sep. simpl. rewrite app_nil_r. auto.
    - destruct (fast_try_ok g u v c0 L r sep z I R) as [r1 [s1 [E1 [I1 R1]]]]; [apply Lg; simpl; auto|].
      destruct (IH g u v c0 _ r1 s1 I1 R1) as [r2 [s2 [E2 [I2 R2]]]]; [intros; apply Lg; simpl; auto|].
      rewrite <- app_assoc in E2, I2, R2. exists r2, s2.
      split; [cbn [foldM]; rewrite (bind_run _ _ _ _ _ E1); auto|]. auto.
  Qed.

  Definition fcalls (g : graph) (k u v : nat) : list tcall :=
    if connb g u v then
      map (mkcall u v) (combinations (fadj g u v) k) ++ map (mkcall u v) (combinations (fadj g v u) k)
    else [].

  Lemma fcalls_uv : forall g k u v a b z p, In (a, b, z, p) (fcalls g k u v) -> a = u /\ b = v.
  Proof using.
    intros g k u v a b z p H. unfold fcalls in H. destruct (connb g u v); [|destruct H].
    apply in_app_iff in H. destruct H as [H|H]; apply in_map_iff in H; destruct H as [s [E _]]; unfold mkcall in E; inversion E; auto.
  Qed.

  Lemma fadj_legal : forall g u v k z, UG names g -> conp g u v ->
    In z (combinations (fadj g u v) k) \/ In z (combinations (fadj g v u) k) -> legal names u v z.
  Proof using.
    intros g u v k z U C Hz. destruct (ug_in _ _ _ _ U C) as [Hu [Hv N]].
    assert (D : forall a, ~ conp g a a) by (intros a H; apply H; apply (ug_diag _ _ U)).
    destruct Hz as [Hz|Hz];
      [apply (comb_legal g u v (fadj g u v) k z U Hu Hv N)|apply (comb_legal g u v (fadj g v u) k z U Hu Hv N)];
      try (apply fadj_NoDup, (ug_wf _ _ U)); auto.
    - intros x Hx. apply fadj_In in Hx. destruct Hx as [Hc Hx]. split; auto. split; auto. intros ->. eapply D; eauto.
    - intros x Hx. apply fadj_In in Hx. destruct Hx as [Hc Hx]. split; auto. split; auto. intros ->. eapply D; eauto.
  Qed.

  Lemma fcalls_sound : forall g k u v, UG names g -> sound_calls (fcalls g k u v).
  Proof using.
    intros g k u v U a b z p H. destruct (fcalls_uv _ _ _ _ _ _ _ _ H) as [-> ->].
    unfold fcalls in H. destruct (connb g u v) eqn:C; [|destruct H]. apply connb_p in C.
    apply in_app_iff in H. destruct H as [H|H]; apply in_map_iff in H; destruct H as [s [E H]]; unfold mkcall in E;
      inversion E; subst; split; auto; eapply fadj_legal; eauto.
  Qed.

  Lemma fast_pair_ok : forall g k u v sep c0, UG names g -> In u names -> In v names -> u <> v -> sinv sep c0 ->
    exists g' sep', fast_pair t alpha k (sep, c0) (u, v) g = (g', Ok (sep', c0 ++ fcalls g k u v)) /\
      UG names g' /\ sinv sep' (c0 ++ fcalls g k u v) /\
      forall x y, conp g' x y <-> conp g x y /\ ~ some_acc (fcalls g k u v) x y.
  Proof using total.
    intros g k u v sep c0 U Hu Hv N I. assert (W := ug_wf _ _ U). unfold fast_pair.
    assert (Hu' : In u (node_list g)) by (rewrite (ug_nodes _ _ U); auto).
    assert (Hv' : In v (node_list g)) by (rewrite (ug_nodes _ _ U); auto).
    rewrite (bind_run _ _ _ _ _ (query_run _ g _ (get_edge_ok g u v W Hu' Hv'))).
    assert (SA := fcalls_uv g k u v). assert (FS := fcalls_sound g k u v U).
    unfold fcalls in *. destruct (connb g u v) eqn:C.
    - apply connb_p in C. assert (C' := conp_sym _ _ _ W C).
      unfold edge_of. rewrite (ug_tail _ _ U _ _ C), (ug_tail _ _ U _ _ C').
      rewrite (bind_run _ _ _ _ _ (query_run _ g _ (get_neighbours_ok g u W Hu'))).
      cbn [fst snd]. fold (fadj g u v).
      set (L1 := map (mkcall u v) (combinations (fadj g u v) k)) in *.
      set (L2 := map (mkcall u v) (combinations (fadj g v u) k)) in *.
      destruct (fast_trys_ok (combinations (fadj g u v) k) g u v c0 [] None sep) as [r1 [s1 [E1 [I1 R1]]]].
      { rewrite app_nil_r. auto. }
      { simpl. intros [z [p [[[]|[]] _]]]. }
      { intros z Hz. eapply fadj_legal; eauto. }
      rewrite app_nil_r in E1. simpl in E1, I1, R1. fold L1 in E1, I1, R1.
      rewrite (bind_run _ _ _ _ _ E1).
      rewrite (bind_run _ _ _ _ _ (query_run _ g _ (get_neighbours_ok g v W Hv'))). fold (fadj g v u).
      destruct (fast_trys_ok (combinations (fadj g v u) k) g u v c0 L1 r1 s1 I1 R1) as [r2 [s2 [E2 [I2 R2]]]].
      { intros z Hz. eapply fadj_legal; eauto. }
      fold L2 in E2, I2, R2. rewrite (bind_run _ _ _ _ _ E2).
      assert (PAIR : forall x y, some_acc (L1 ++ L2) x y -> same_pair x y u v).
      { intros x y [z [p [[H|H] _]]]; apply SA in H; destruct H as [-> ->]; [left|right]; auto. }
      destruct r2 as [q|]; simpl in R2.
      + destruct (ug_remove names g u v U Hu Hv) as [g' [Eg [U' C2]]].
        rewrite (bind_run _ _ _ _ _ Eg). destruct R2 as [RA RQ].
        destruct (I2 u v Hu Hv N) as [s [Es Hs]].
        assert (EA : sep_add s2 u v q = Ok (dset pair_eqb s2 (u, v) (set_union s (py_set q)))).
        { unfold sep_add, dgetE. rewrite Es. reflexivity. }
        rewrite (bind_run _ _ g' g' (dset pair_eqb s2 (u, v) (set_union s (py_set q)))) by (unfold query; rewrite EA; auto).
        eexists g', _. split; [reflexivity|]. split; auto. split.
        * intros a b Ha Hb Nab. destruct (pair_eqb (u, v) (a, b)) eqn:PE.
          -- apply pair_eqb_spec in PE. inversion PE; subst a b. rewrite sget_eq. eexists. split; [reflexivity|].
             intro w. rewrite set_union_In, py_set_In, Hs, RQ. split; [|tauto].
             intros [H|[z [A Hw]]]; auto. exists z. split; auto. apply acc_app. auto.
          -- assert (PN : (u, v) <> (a, b)) by (intro Z; apply pair_eqb_spec in Z; congruence).
             rewrite sget_neq by auto. apply I2; auto.
        * intros x y. rewrite C2. split.
          -- intros [H1 H2]. split; auto.
          -- intros [H1 H2]. split; auto. intros [[-> ->]|[-> ->]]; apply H2; auto. apply some_acc_sym. auto.
      + exists g, s2. split; [reflexivity|]. split; auto. split; auto. intros x y. split; [|tauto].
        intro H. split; auto. intro A. destruct (PAIR x y A) as [[-> ->]|[-> ->]]; auto.
        apply some_acc_sym in A. auto.
    - apply connb_false in C. unfold edge_of. rewrite C. exists g, sep. rewrite app_nil_r.
      split; [destruct (mk g v u); reflexivity|]. split; auto. split; auto. intros x y. split; [|tauto].
      intro H. split; auto. intros [z [p [[[]|[]] _]]].
  Qed.

  (** Invariant inside one size: the pairs in [pre] have been handled. *)
  Definition fdone (k : nat) (pre : list (nat * nat)) (g : graph) (calls : list tcall) : Prop :=
    forall u v z, In (u, v) pre \/ In (v, u) pre -> conp g u v -> NoDup z -> length z = k ->
      (forall x, In x z -> conp g u x /\ x <> v) ->
      exists z' p, (In (u, v, z', p) calls \/ In (v, u, z', p) calls) /\ forall x, In x z' <-> In x z.

  Lemma outcome_step : forall k g calls g' L, outcome k g calls -> UG names g' -> sound_calls L ->
    (forall x y, conp g' x y <-> conp g x y /\ ~ some_acc L x y) -> outcome k g' (calls ++ L).
  Proof using.
    intros k g calls g' L [U So Co Fu] U' SL C'. constructor; auto.
    - intros u v z p H. apply in_app_iff in H. destruct H; auto.
    - intros u v. rewrite C', Co, some_acc_app. tauto.
    - intros u v z Cuv Nz Lz Hz. destruct (Fu u v z) as [z' [p [H1 H2]]]; auto.
      + apply C'. auto.
      + intros x Hx. destruct (Hz x Hx). split; auto. apply C'. auto.
      + exists z', p. rewrite !in_app_iff. tauto.
  Qed.

  Lemma fast_pairs_ok : forall l k pre g sep calls, outcome k g calls -> sinv sep calls -> fdone k pre g calls ->
    (forall u v, In (u, v) l -> In u names /\ In v names /\ u <> v) ->
    exists g' sep' calls', foldM (fast_pair t alpha k) (sep, calls) l g = (g', Ok (sep', calls')) /\
      outcome k g' calls' /\ sinv sep' calls' /\ fdone k (pre ++ l) g' calls'.
  Proof using total.
    induction l as [|[u v] l IH]; intros k pre g sep calls O I F Hl.
    - exists g, sep, calls. rewrite app_nil_r. auto.
    - destruct (Hl u v) as [Hu [Hv N]]; [simpl; auto|]. assert (U := oc_ug _ _ _ O).
      destruct (fast_pair_ok g k u v sep calls U Hu Hv N I) as [g1 [s1 [E1 [U1 [I1 C1]]]]].
      assert (O1 := outcome_step _ _ _ _ _ O U1 (fcalls_sound g k u v U) C1).
      assert (MON : forall a b, conp g1 a b -> conp g a b) by (intros a b H; apply C1; auto).
      destruct (IH k (pre ++ [(u, v)]) g1 s1 _ O1 I1) as [g2 [s2 [c2 [E2 [O2 [I2 F2]]]]]].
      + intros a b z Hp Cab Nz Lz Hz.
        assert (Hz' : forall x, In x z -> conp g a x /\ x <> b).
        { intros x Hx. destruct (Hz x Hx). split; auto. }
        assert (CASE : (In (a, b) pre \/ In (b, a) pre) \/ same_pair a b u v).
        { rewrite !in_app_iff in Hp. simpl in Hp. unfold same_pair.
          destruct Hp as [[H|[H|[]]]|[H|[H|[]]]]; try (inversion H; subst); auto. }
        destruct CASE as [Hp'|SP].
        * destruct (F a b z Hp' (MON _ _ Cab) Nz Lz Hz') as [z' [p [H1 H2]]].
          exists z', p. rewrite !in_app_iff. tauto.
        * assert (Cuv : connb g u v = true).
          { apply connb_p. destruct SP as [[-> ->]|[-> ->]]; auto. apply conp_sym; [apply (ug_wf _ _ U)|auto]. }
          destruct (comb_find (fadj g a b) z) as [z' [H1 H2]]; auto.
          { apply fadj_NoDup. apply (ug_wf _ _ U). }
          { intros x Hx. apply fadj_In. auto. }
          rewrite Lz in H1. exists z', (tv u v z'). split; auto. rewrite !in_app_iff. unfold fcalls. rewrite Cuv.
          rewrite !in_app_iff.
          destruct SP as [[-> ->]|[-> ->]].
          -- left. right. left. apply (in_map (mkcall u v)). auto.
          -- right. right. right. apply (in_map (mkcall u v)). auto.
      + intros. apply Hl. simpl. auto.
      + exists g2, s2, c2. split; [cbn [foldM]; rewrite (bind_run _ _ _ _ _ E1); auto|].
        rewrite <- app_assoc in F2. auto.
  Qed.

  Lemma fast_sizes_ok : forall m k g sep calls, outcome k g calls -> sinv sep calls ->
    exists g' sep' calls', foldM (fun s i => with_nodes (fun ns' => foldM (fast_pair t alpha i) s (comb2 ns')))
        (sep, calls) (seq k m) g = (g', Ok (sep', calls')) /\
      outcome (k + m) g' calls' /\ sinv sep' calls'.
  Proof using nd total.
    induction m as [|m IH]; intros k g sep calls O I.
    - exists g, sep, calls. rewrite Nat.add_0_r. auto.
    - assert (U := oc_ug _ _ _ O).
      destruct (fast_pairs_ok (comb2 names) k [] g sep calls O I) as [g1 [s1 [c1 [E1 [O1 [I1 F1]]]]]].
      { intros u v z [[]|[]]. }
      { intros u v H. destruct (in_comb2_In _ _ _ H). split; auto. split; auto. eapply in_comb2_neq; eauto. }
      destruct (IH (S k) g1 s1 c1) as [g2 [s2 [c2 [E2 [O2 I2]]]]]; auto.
      { destruct O1 as [U1 So Co Fu]. constructor; auto. intros u v z Cuv Nz Lz Hz.
        destruct (Nat.eq_dec (length z) k) as [E|N].
        - apply (F1 u v z); auto. destruct (ug_in _ _ _ _ U1 Cuv) as [Hu [Hv N]]. simpl. apply in_comb2_total; auto.
        - apply (Fu u v z); auto. lia. }
      exists g2, s2, c2. split.
      + cbn [seq foldM]. unfold with_nodes at 1, bind at 1, nodes at 1. rewrite (ug_nodes _ _ U), E1. auto.
      + replace (k + S m) with (S k + m) by lia. auto.
  Qed.

  Theorem fast_adjacency_search_ok : exists g sep calls, fast_adjacency_search t names alpha = Ok (g, sep, calls) /\
    outcome (length names - 1) g calls /\ sinv sep calls.
  Proof using nd total.
    destruct start_ok as [g0 [g1 [E0 [E1 [U1 [C1 I1]]]]]].
    destruct (fast_sizes_ok (length names - 1) 0 g1 (empty_seps names) []) as [g [s [c [E [O I]]]]]; auto.
    { apply stage_outcome. constructor; auto. }
    exists g, s, c. split; auto. unfold fast_adjacency_search. rewrite E0.
    rewrite (bind_run _ _ _ _ _ E1). unfold with_nodes at 1, nodes at 1. rewrite (ug_nodes _ _ U1), E. auto.
  Qed.
End Search.
