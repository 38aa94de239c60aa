(** The orientation rules of PDAG as sequences of single orientations. *)

From Coq Require Import List Arith Bool Lia.
From Verif Require Import Model.Py Model.Graph Model.DiGraph Model.PDAG.
From Verif Require Import Proofs.PyFacts Proofs.GraphFacts Proofs.HistoryFacts Proofs.FrameFacts.
Import ListNotations.

(** A well-formed PDAG object. *)
Record PG (g : graph) : Prop := {
  pg_wf : WF g;
  pg_kind : g_kind g = KPDAG;
  pg_tab : pdag_table g
}.

Lemma reachable_PG : forall g, Spec.API.reachable KPDAG g -> PG g.
Proof.
  intros g R. constructor.
  - eapply reachable_WF; eauto.
  - eapply reachable_kind; eauto.
  - apply reachable_PDAG; auto.
Qed.

(** Same class, nodes and marks. *)
Record geq (g h : graph) : Prop := {
  geq_l : WF g;
  geq_r : WF h;
  geq_kind : g_kind g = g_kind h;
  geq_nodes : node_list g = node_list h;
  geq_mk : forall u v, mk g u v = mk h u v
}.

Lemma geq_refl : forall g, WF g -> geq g g.
Proof. constructor; auto. Qed.
Lemma geq_sym : forall g h, geq g h -> geq h g.
Proof. intros g h []. constructor; auto. Qed.
Lemma geq_trans : forall g h k, geq g h -> geq h k -> geq g k.
Proof. intros g h k [] []. constructor; auto; try congruence; intros; congruence. Qed.
Lemma geq_PG : forall g h, geq g h -> PG g -> PG h.
Proof.
  intros g h [Wg Wh K N M] [W1 K1 T1]. constructor; auto; [congruence|].
  intros u v m H. rewrite <- M in H. eapply T1; eauto.
Qed.

(** [g'] is [g] with the edge between [a] and [b] made a -> b. *)
Definition omk (g : graph) (a b x y : nat) : option mark :=
  if (Nat.eqb x a && Nat.eqb y b)%bool then Some Arrow
  else if (Nat.eqb x b && Nat.eqb y a)%bool then Some Tail
  else mk g x y.

Record orients (g : graph) (a b : nat) (g' : graph) : Prop := {
  or_wf : WF g';
  or_kind : g_kind g' = g_kind g;
  or_nodes : node_list g' = node_list g;
  or_mk : forall x y, mk g' x y = omk g a b x y
}.

Lemma omk_ab : forall g a b, omk g a b a b = Some Arrow.
Proof. intros. unfold omk. rewrite !Nat.eqb_refl. auto. Qed.
Lemma omk_ba : forall g a b, a <> b -> omk g a b b a = Some Tail.
Proof.
  intros g a b N. unfold omk. rewrite !Nat.eqb_refl.
  rewrite (proj2 (Nat.eqb_neq b a)) by auto. auto.
Qed.
Lemma omk_other : forall g a b x y, ~ (x = a /\ y = b) -> ~ (x = b /\ y = a) -> omk g a b x y = mk g x y.
Proof.
  intros g a b x y H1 H2. unfold omk.
  destruct (Nat.eqb_spec x a), (Nat.eqb_spec y b); simpl; try (exfalso; tauto);
  destruct (Nat.eqb_spec x b), (Nat.eqb_spec y a); simpl; auto; exfalso; tauto.
Qed.

Lemma pair_cases : forall a b x y : nat,
  (x = a /\ y = b) \/ (x = b /\ y = a) \/ (~ (x = a /\ y = b) /\ ~ (x = b /\ y = a)).
Proof.
  intros. destruct (Nat.eq_dec x a), (Nat.eq_dec y b), (Nat.eq_dec x b), (Nat.eq_dec y a); tauto.
Qed.

Lemma orients_PG : forall g a b g', PG g -> orients g a b g' -> PG g'.
Proof.
  intros g a b g' [W K T] [W' K' N' M']. constructor; auto; [congruence|].
  intros x y m H. rewrite M' in H. unfold omk in H.
  destruct (Nat.eqb x a && Nat.eqb y b)%bool; [inversion H; auto|].
  destruct (Nat.eqb x b && Nat.eqb y a)%bool; [inversion H; auto|]. eapply T; eauto.
Qed.

Lemma orients_geq_r : forall g a b g1 g2, orients g a b g1 -> geq g1 g2 -> orients g a b g2.
Proof.
  intros g a b g1 g2 [W K N M] [W1 W2 K' N' M']. constructor; auto; try congruence.
Qed.

Lemma orients_self : forall g a b g', WF g -> a <> b ->
  mk g a b = Some Arrow -> mk g b a = Some Tail -> orients g a b g' -> geq g g'.
Proof.
  intros g a b g' W N Ma Mb [W' K' N' M']. constructor; auto.
  intros x y. rewrite M'. destruct (pair_cases a b x y) as [[-> ->]|[[-> ->]|[H1 H2]]].
  - rewrite omk_ab. auto.
  - rewrite omk_ba; auto.
  - rewrite omk_other; auto.
Qed.

Lemma reorient_ok : forall g a b, PG g -> mk g a b <> None -> a <> b ->
  exists g', reorient a b g = (g', Ok tt) /\ orients g a b g'.
Proof.
  intros g a b P C N. destruct P as [W K T].
  assert (Ha : In a (node_list g)) by (eapply wf_in_l; eauto).
  assert (Hb : In b (node_list g)) by (eapply wf_in; eauto).
  destruct (remove_edge_ok g a b W Ha Hb) as [g1 [E1 [W1 [[S1 [S2 S3]] M1]]]].
  unfold reorient, bind. rewrite E1.
  destruct (add_edge_ok g1 (Edge a b Tail Arrow) false W1) as [g2 [E2 [W2 [[T1 [T2 T3]] M2]]]]; simpl.
  - rewrite S1, K. reflexivity.
  - rewrite S2. auto.
  - rewrite S2. auto.
  - right. rewrite M1. unfold subs. rewrite !Nat.eqb_refl. simpl. destruct (Nat.eqb a b && Nat.eqb b a)%bool; auto.
  - exists g2. split; auto. constructor; auto; try congruence.
    intros x y. rewrite M2. unfold adds. simpl. rewrite M1. unfold subs, omk.
    destruct (Nat.eqb_spec x b), (Nat.eqb_spec y a), (Nat.eqb_spec x a), (Nat.eqb_spec y b); simpl; subst; auto; congruence.
Qed.

(* ---------- boolean views under one orientation ---------- *)
Definition undp (g : graph) (u v : nat) : Prop := mk g u v = Some Tail /\ mk g v u = Some Tail.
Definition dirp (g : graph) (u v : nat) : Prop := mk g u v = Some Arrow /\ mk g v u = Some Tail.
Definition conp (g : graph) (u v : nat) : Prop := mk g u v <> None.

Lemma undb_p : forall g u v, undb g u v = true <-> undp g u v.
Proof. intros. rewrite undb_spec. reflexivity. Qed.
Lemma dirb_p : forall g u v, dirb g u v = true <-> dirp g u v.
Proof. intros. rewrite dirb_spec. reflexivity. Qed.
Lemma connb_p : forall g u v, connb g u v = true <-> conp g u v.
Proof. intros. apply connb_true. Qed.

Lemma undp_sym : forall g u v, undp g u v -> undp g v u.
Proof. intros g u v [? ?]. split; auto. Qed.
Lemma undp_con : forall g u v, undp g u v -> conp g u v.
Proof. intros g u v [H ?]. unfold conp. congruence. Qed.
Lemma dirp_con : forall g u v, dirp g u v -> conp g u v.
Proof. intros g u v [H ?]. unfold conp. congruence. Qed.
Lemma conp_sym : forall g u v, WF g -> conp g u v -> conp g v u.
Proof. intros g u v W H. apply wf_sym; auto. Qed.

Lemma orients_con : forall g a b g', orients g a b g' -> conp g a b -> conp g b a -> forall x y, conp g' x y <-> conp g x y.
Proof.
  intros g a b g' O Ca Cb x y. unfold conp. rewrite (or_mk _ _ _ _ O). unfold omk.
  destruct (Nat.eqb_spec x a), (Nat.eqb_spec y b), (Nat.eqb_spec x b), (Nat.eqb_spec y a); simpl; subst;
    split; intros; auto; congruence.
Qed.

Lemma orients_dir : forall g a b g', orients g a b g' -> a <> b -> dirp g' a b.
Proof. intros g a b g' O N. split; rewrite (or_mk _ _ _ _ O); [apply omk_ab|apply omk_ba; auto]. Qed.

Lemma orients_other : forall g a b g', orients g a b g' -> forall x y,
  ~ (x = a /\ y = b) -> ~ (x = b /\ y = a) -> mk g' x y = mk g x y.
Proof. intros g a b g' O x y H1 H2. rewrite (or_mk _ _ _ _ O). apply omk_other; auto. Qed.

(** An edge that already carries an arrow is left alone when an undirected
    edge is oriented. *)
Lemma orients_keep : forall g a b g', orients g a b g' -> undp g a b -> forall x y,
  mk g x y = Some Arrow \/ mk g y x = Some Arrow -> mk g' x y = mk g x y.
Proof.
  intros g a b g' O [U1 U2] x y H. destruct (pair_cases a b x y) as [[-> ->]|[[-> ->]|[H1 H2]]].
  - destruct H; congruence.
  - destruct H; congruence.
  - eapply orients_other; eauto.
Qed.

Lemma orients_dirp : forall g a b g', orients g a b g' -> undp g a b -> forall x y, dirp g x y -> dirp g' x y.
Proof.
  intros g a b g' O U x y [D1 D2]. split.
  - rewrite (orients_keep _ _ _ _ O U); auto.
  - rewrite (orients_keep _ _ _ _ O U); auto.
Qed.

Lemma orients_undp_inv : forall g a b g', orients g a b g' -> a <> b -> forall x y, undp g' x y ->
  undp g x y /\ ~ (x = a /\ y = b) /\ ~ (x = b /\ y = a).
Proof.
  intros g a b g' O N x y [U1 U2]. destruct (pair_cases a b x y) as [[-> ->]|[[-> ->]|[H1 H2]]].
  - destruct (orients_dir _ _ _ _ O N). congruence.
  - destruct (orients_dir _ _ _ _ O N). congruence.
  - split; auto. rewrite (orients_other _ _ _ _ O) in U1, U2; try tauto. split; auto.
Qed.

Lemma orients_undp_other : forall g a b g', orients g a b g' -> forall x y,
  ~ (x = a /\ y = b) -> ~ (x = b /\ y = a) -> (undp g' x y <-> undp g x y).
Proof.
  intros g a b g' O x y H1 H2. unfold undp. rewrite !(orients_other _ _ _ _ O) by tauto. tauto.
Qed.

(** New directed edges are either old ones or the oriented one. *)
Lemma orients_dirp_inv : forall g a b g', orients g a b g' -> a <> b -> forall x y, dirp g' x y ->
  dirp g x y \/ (x = a /\ y = b).
Proof.
  intros g a b g' O N x y [D1 D2]. destruct (pair_cases a b x y) as [[-> ->]|[[-> ->]|[H1 H2]]]; auto.
  - destruct (orients_dir _ _ _ _ O N). congruence.
  - rewrite (orients_other _ _ _ _ O) in D1, D2; try tauto. left. split; auto.
Qed.

(* ---------- the four patterns ---------- *)
Definition step1 (g : graph) (a b : nat) : Prop := exists u,
  u <> a /\ b <> u /\ b <> a /\ dirp g u a /\ ~ conp g u b /\ undp g a b.
Definition step2 (g : graph) (a b : nat) : Prop := exists v,
  v <> a /\ b <> v /\ b <> a /\ dirp g a v /\ dirp g v b /\ undp g a b.
Definition step3 (g : graph) (a b : nat) : Prop := exists v x,
  a <> b /\ v <> a /\ v <> b /\ x <> a /\ x <> v /\ x <> b /\
  undp g a b /\ undp g a v /\ dirp g v b /\ undp g a x /\ dirp g x b.
Definition step4 (g : graph) (a b : nat) : Prop := exists u v,
  u <> b /\ v <> u /\ v <> b /\ a <> u /\ a <> v /\ a <> b /\
  ~ conp g u b /\ undp g u v /\ dirp g v b /\ undp g u a /\ undp g a b /\ conp g v a.

Definition sound_step (S : graph -> nat -> nat -> Prop) : Prop :=
  forall g a b, S g a b -> undp g a b /\ a <> b.

Lemma step1_sound : sound_step step1.
Proof. intros g a b [u H]. intuition. Qed.
Lemma step2_sound : sound_step step2.
Proof. intros g a b [u H]. intuition. Qed.
Lemma step3_sound : sound_step step3.
Proof. intros g a b [u [x H]]. intuition. Qed.
Lemma step4_sound : sound_step step4.
Proof. intros g a b [u [v H]]. intuition. Qed.

(* ---------- sequences of orientations ---------- *)
Inductive osteps (S : graph -> nat -> nat -> Prop) (g : graph) : nat -> graph -> Prop :=
| os_refl : forall g', geq g g' -> osteps S g 0 g'
| os_snoc : forall n g1 a b g2, osteps S g n g1 -> S g1 a b -> orients g1 a b g2 -> osteps S g (Datatypes.S n) g2.

Lemma osteps_geq : forall S g n g1 g2, osteps S g n g1 -> geq g1 g2 -> osteps S g n g2.
Proof.
  intros S g n g1 g2 H E. destruct H.
  - constructor. eapply geq_trans; eauto.
  - econstructor; eauto. eapply orients_geq_r; eauto.
Qed.

Lemma osteps_mono : forall (S S' : graph -> nat -> nat -> Prop) g n g', (forall g a b, S g a b -> S' g a b) ->
  osteps S g n g' -> osteps S' g n g'.
Proof. intros S S' g n g' H O. induction O; [constructor|econstructor]; eauto. Qed.

Lemma osteps_app : forall (S : graph -> nat -> nat -> Prop) g n g1 m g2, (forall g h a b, geq g h -> S h a b -> S g a b) ->
  osteps S g n g1 -> osteps S g1 m g2 -> osteps S g (m + n) g2.
Proof.
  intros S g n g1 m g2 R O1 O2. induction O2.
  - simpl. eapply osteps_geq; eauto.
  - simpl. econstructor; eauto.
Qed.

Lemma osteps_PG : forall S g n g', PG g -> osteps S g n g' -> PG g'.
Proof. intros S g n g' P O. induction O; [eapply geq_PG; eauto|eapply orients_PG; eauto]. Qed.

Lemma osteps_nodes : forall S g n g', osteps S g n g' -> node_list g' = node_list g.
Proof. intros S g n g' O. induction O; [symmetry; apply geq_nodes; auto|]. rewrite (or_nodes _ _ _ _ H0). auto. Qed.

Lemma osteps_con : forall S g n g', sound_step S -> osteps S g n g' -> forall x y, conp g' x y <-> conp g x y.
Proof.
  intros S g n g' SS O. induction O; intros x y.
  - unfold conp. rewrite (geq_mk _ _ H). tauto.
  - rewrite <- IHO. destruct (SS _ _ _ H) as [U N]. eapply orients_con; eauto.
    + apply undp_con; auto. + apply undp_con, undp_sym; auto.
Qed.

Lemma osteps_keep : forall S g n g', sound_step S -> osteps S g n g' -> forall x y,
  mk g x y = Some Arrow \/ mk g y x = Some Arrow -> mk g' x y = mk g x y /\ mk g' y x = mk g y x.
Proof.
  intros S g n g' SS O. induction O; intros x y Ha.
  - rewrite !(geq_mk _ _ H). auto.
  - destruct (SS _ _ _ H) as [U N]. destruct (IHO x y Ha) as [E1 E2].
    rewrite !(orients_keep _ _ _ _ H0 U) by (rewrite E1, E2; tauto). auto.
Qed.

Lemma osteps_dirp : forall S g n g', sound_step S -> osteps S g n g' -> forall x y, dirp g x y -> dirp g' x y.
Proof.
  intros S g n g' SS O x y [D1 D2]. destruct (osteps_keep _ _ _ _ SS O x y (or_introl D1)) as [E1 E2].
  split; congruence.
Qed.

Lemma osteps_undp : forall S g n g', sound_step S -> osteps S g n g' -> forall x y, undp g' x y -> undp g x y.
Proof.
  intros S g n g' SS O. induction O; intros x y U.
  - unfold undp in *. rewrite !(geq_mk _ _ H). auto.
  - destruct (SS _ _ _ H) as [_ N]. apply IHO. eapply orients_undp_inv; eauto.
Qed.

(** Number of undirected pairs. *)
Definition undcount (g : graph) : nat := length (filter (fun p => undb g (fst p) (snd p)) (comb2 (node_list g))).

Lemma filter_lt : forall {A} (f h : A -> bool) l x, (forall y, h y = true -> f y = true) ->
  In x l -> f x = true -> h x = false -> length (filter h l) < length (filter f l).
Proof.
  induction l as [|a l IH]; intros x Hm Hi Hf Hh; [destruct Hi|]. simpl.
  assert (L : length (filter h l) <= length (filter f l)).
  { clear -Hm. induction l as [|b l IH]; simpl; auto. destruct (h b) eqn:E.
    - rewrite (Hm b E). simpl. lia.
    - destruct (f b); simpl; lia. }
  destruct Hi as [->|Hi].
  - rewrite Hf, Hh. simpl. lia.
  - specialize (IH x Hm Hi Hf Hh). destruct (h a) eqn:E; [rewrite (Hm a E); simpl; lia|].
    destruct (f a); simpl; lia.
Qed.

Lemma orients_undcount : forall g a b g', WF g -> orients g a b g' -> undp g a b -> a <> b -> undcount g' < undcount g.
Proof.
  intros g a b g' W O U N. unfold undcount. rewrite (or_nodes _ _ _ _ O).
  assert (Ha : In a (node_list g)) by (apply (wf_in_l g a b W); destruct U; congruence).
  assert (Hb : In b (node_list g)) by (apply (wf_in g W a b); destruct U; congruence).
  assert (Hm : forall y : nat * nat, undb g' (fst y) (snd y) = true -> undb g (fst y) (snd y) = true).
  { intros [x y] H. simpl in *. apply undb_p in H. apply undb_p. eapply orients_undp_inv; eauto. }
  assert (Hn : forall x y, undb g' x y = true -> ~ (x = a /\ y = b) /\ ~ (x = b /\ y = a)).
  { intros x y H. apply undb_p in H. apply (orients_undp_inv _ _ _ _ O N) in H. tauto. }
  destruct (in_comb2_total _ _ _ Ha Hb N) as [P|P].
  - apply filter_lt with (x := (a, b)); auto; simpl.
    + apply undb_p; auto. + destruct (undb g' a b) eqn:E; auto. apply Hn in E. tauto.
  - apply filter_lt with (x := (b, a)); auto; simpl.
    + apply undb_p, undp_sym; auto. + destruct (undb g' b a) eqn:E; auto. apply Hn in E. tauto.
Qed.

Lemma filter_ext' : forall {A} (f h : A -> bool) l, (forall x, f x = h x) -> filter f l = filter h l.
Proof. intros. apply filter_ext. auto. Qed.

Lemma geq_undcount : forall g h, geq g h -> undcount g = undcount h.
Proof.
  intros g h E. unfold undcount. rewrite (geq_nodes _ _ E). f_equal. apply filter_ext. intro p.
  unfold undb, markb. rewrite !(geq_mk _ _ E). auto.
Qed.

Lemma osteps_undcount : forall S g n g', sound_step S -> WF g -> osteps S g n g' -> undcount g' + n <= undcount g.
Proof.
  intros S g n g' SS W O. induction O.
  - rewrite (geq_undcount _ _ H). lia.
  - destruct (SS _ _ _ H) as [U N]. assert (W1 : WF g1).
    { destruct O as [? E|? ? ? ? ? ? ? O']; [apply (geq_r _ _ E)|apply (or_wf _ _ _ _ O')]. }
    pose proof (orients_undcount _ _ _ _ W1 H0 U N). lia.
Qed.

(* ---------- the loops ---------- *)
Section Loop.
  Variable S : graph -> nat -> nat -> Prop.
  Hypothesis SS : sound_step S.
  Variable g : graph.        (* the state when the rule starts *)
  Hypothesis HP : PG g.

  (** The state inside a rule: the flag tells whether anything was oriented;
      as long as it is false the object is untouched. *)
  Definition J (ch : bool) (gc : graph) : Prop :=
    (exists n, osteps S g n gc /\ (ch = true <-> 0 < n)) /\ (ch = false -> gc = g).

  Lemma J_PG : forall ch gc, J ch gc -> PG gc.
  Proof using HP. intros ch gc [[n [O _]] _]. eapply osteps_PG; eauto. Qed.
  Lemma J_nodes : forall ch gc, J ch gc -> node_list gc = node_list g.
  Proof using. intros ch gc [[n [O _]] _]. eapply osteps_nodes; eauto. Qed.

  Lemma J_step : forall ch gc a b gc', J ch gc -> S gc a b -> orients gc a b gc' -> J true gc'.
  Proof using.
    intros ch gc a b gc' [[n [O _]] _] Hs Ho. split; [|discriminate].
    exists (Datatypes.S n). split; [econstructor; eauto|]. split; auto. lia.
  Qed.

  Lemma J_same : forall gc gc', J true gc -> geq gc gc' -> J true gc'.
  Proof using.
    intros gc gc' [[n [O Hn]] _] E. split; [|discriminate]. exists n. split; auto. eapply osteps_geq; eauto.
  Qed.

  (** A loop body under the local condition [P]; [N] is what is known when
      the body leaves the flag false. *)
  Definition body (P : bool -> graph -> Prop) (m : bool -> M bool) (N : Prop) : Prop :=
    forall ch gc, J ch gc -> P ch gc ->
    exists gc' ch', m ch gc = (gc', Ok ch') /\ J ch' gc' /\ P ch' gc' /\
      (ch' = false -> ch = false /\ N).

  Lemma body_fold : forall {X} P (f : bool -> X -> M bool) (N : X -> Prop) l,
    (forall x, In x l -> body P (fun ch => f ch x) (N x)) ->
    body P (fun ch => foldM f ch l) (forall x, In x l -> N x).
  Proof using.
    intros X P f N l. induction l as [|x l IH]; intros H ch gc Hj Hp; simpl.
    - exists gc, ch. split; [reflexivity|]. split; auto. split; auto. intro. split; auto. intros x [].
    - destruct (H x (or_introl eq_refl) ch gc Hj Hp) as [g1 [c1 [E1 [J1 [P1 N1]]]]].
      unfold bind. rewrite E1.
      destruct (IH (fun y Hy => H y (or_intror Hy)) c1 g1 J1 P1) as [g2 [c2 [E2 [J2 [P2 N2]]]]].
      exists g2, c2. split; auto. split; auto. split; auto. intro Hc. destruct (N2 Hc) as [Hc1 HN].
      destruct (N1 Hc1) as [Hc0 HNx]. split; auto. intros y [<-|Hy]; auto.
  Qed.

  Lemma body_with_nodes : forall P (f : list nat -> bool -> M bool) N,
    body P (f (node_list g)) N -> body P (fun ch => with_nodes (fun ns => f ns ch)) N.
  Proof using.
    intros P f N H ch gc Hj Hp. unfold with_nodes, nodes. rewrite (J_nodes _ _ Hj). apply H; auto.
  Qed.
End Loop.

Lemma memb_cons2 : forall w u v, memb w [u; v] = true <-> w = u \/ w = v.
Proof. intros. rewrite memb_In. simpl. intuition. Qed.
Lemma memb_cons3 : forall w u v x, memb w [u; v; x] = true <-> w = u \/ w = v \/ w = x.
Proof. intros. rewrite memb_In. simpl. intuition. Qed.
Lemma memb_cons2f : forall w u v, memb w [u; v] = false -> w <> u /\ w <> v.
Proof. intros w u v H. apply memb_false in H. simpl in H. intuition. Qed.
Lemma memb_cons3f : forall w u v x, memb w [u; v; x] = false -> w <> u /\ w <> v /\ w <> x.
Proof. intros w u v x H. apply memb_false in H. simpl in H. intuition. Qed.

(** Result of running a rule. *)
Definition rule_spec (S : graph -> nat -> nat -> Prop) (r : M bool) : Prop :=
  forall g, PG g -> exists g' ch n, r g = (g', Ok ch) /\ osteps S g n g' /\ (ch = true <-> 0 < n) /\
    (ch = false -> g' = g /\ forall a b, ~ S g a b).

(* ---------- running the tests ---------- *)
Lemma conn_run : forall g u v, WF g -> In u (node_list g) -> In v (node_list g) ->
  connectedM u v g = (g, Ok (connb g u v)).
Proof. intros. unfold connectedM, query. rewrite is_connected_ok; auto. Qed.
Lemma dir_run : forall g u v, WF g -> In u (node_list g) -> In v (node_list g) ->
  fully_directedM u v g = (g, Ok (dirb g u v)).
Proof. intros. unfold fully_directedM, query. rewrite is_fully_directed_ok; auto. Qed.
Lemma und_run : forall g u v, WF g -> In u (node_list g) -> In v (node_list g) ->
  fully_undirectedM u v g = (g, Ok (undb g u v)).
Proof. intros. unfold fully_undirectedM, query. rewrite is_fully_undirected_ok; auto. Qed.
Lemma and_run : forall g m1 m2 a b, m1 g = (g, Ok a) -> m2 g = (g, Ok b) -> andM m1 m2 g = (g, Ok (a && b)%bool).
Proof. intros g m1 m2 a b H1 H2. unfold andM, bind. rewrite H1. destruct a; simpl; auto. Qed.
Lemma bind_run : forall {A B} (m : M A) (f : A -> M B) g g' a, m g = (g', Ok a) -> bind m f g = f a g'.
Proof. intros. unfold bind. rewrite H. auto. Qed.

(** Start of a rule. *)
Lemma J_init : forall S g, PG g -> J S g false g.
Proof.
  intros S g P. split; auto. exists 0. split; [constructor; apply geq_refl; apply P|]. split; [discriminate|lia].
Qed.

(** A step of a loop body that changes nothing. *)
Lemma body_skip : forall S g (P : bool -> graph -> Prop) gc ch (N : Prop), J S g ch gc -> P ch gc -> (gc = g -> N) ->
  exists gc' ch', (gc, Ok ch) = (gc', Ok ch') /\ J S g ch' gc' /\ P ch' gc' /\ (ch' = false -> ch = false /\ N).
Proof.
  intros S g P gc ch N Hj Hp H. exists gc, ch. split; auto. split; auto. split; auto.
  intro Hf. split; auto. apply H. apply Hj. auto.
Qed.

Lemma rule_of_body : forall S (r : M bool) (f : bool -> M bool),
  (forall g, r g = f false g) ->
  (forall g, PG g -> exists N : Prop, body S g (fun _ _ => True) f N /\ (N -> forall a b, ~ S g a b)) ->
  rule_spec S r.
Proof.
  intros S r f Hr H g P. destruct (H g P) as [N [B HN]].
  destruct (B false g (J_init S g P) I) as [g' [ch [E [[[n [O Hn]] Hf] [_ Hc]]]]].
  exists g', ch, n. rewrite Hr. split; auto. split; auto. split; auto. intro Hq. split; auto.
  apply HN. apply Hc. auto.
Qed.

(** The context shared by all loop bodies. *)
Ltac ctx Hj :=
  match type of Hj with
  | J ?S ?g ?ch ?gc =>
    match goal with
    | P : PG g |- _ =>
      let Pc := fresh "Pc" in let Wc := fresh "Wc" in let Nc := fresh "Nc" in
      pose proof (J_PG S g P ch gc Hj) as Pc; pose proof (pg_wf gc Pc) as Wc;
      pose proof (J_nodes S g ch gc Hj) as Nc
    end
  end.

Lemma con_nodes : forall g u v, WF g -> conp g u v -> In u (node_list g) /\ In v (node_list g).
Proof. intros g u v W C. split; [eapply wf_in_l|eapply wf_in]; eauto. Qed.

Theorem rule1_spec : rule_spec step1 rule1.
Proof.
  apply rule_of_body with (f := fun ch => with_nodes (fun ns => foldM (fun (ch : bool) (p : nat * nat) =>
    let (u, v) := p in
    (d <- fully_directedM u v ;;
    if negb d then ret ch else
    with_nodes (fun ns' => foldM (fun (ch : bool) w =>
      if memb w [u; v] then ret ch else
      c <- connectedM u w ;;
      t <- (if c : bool then ret false else fully_undirectedM v w) ;;
      if t : bool then reorient v w ;;; ret true else ret ch) ch ns'))%meth) ch (perm2 ns))).
  { reflexivity. }
  intros g P. assert (W := pg_wf g P). eexists. split.
  { apply (body_with_nodes step1 g _ (fun ns ch => foldM _ ch (perm2 ns))). apply body_fold.
    intros [u v] Huv. apply in_perm2 in Huv; [|apply W]. destruct Huv as [Hu [Hv Nuv]].
    instantiate (1 := fun p => forall w, In w (node_list g) ->
       ~ (w <> fst p /\ w <> snd p /\ dirp g (fst p) (snd p) /\ ~ conp g (fst p) w /\ undp g (snd p) w)).
    intros ch gc Hj _. cbn [fst snd]. ctx Hj.
    rewrite (bind_run _ _ _ _ _ (dir_run gc u v Wc ltac:(rewrite Nc; auto) ltac:(rewrite Nc; auto))).
    destruct (dirb gc u v) eqn:D; cbn [negb].
    2:{ apply body_skip; auto. intros -> w Hw [_ [_ [Q _]]]. apply dirb_p in Q. congruence. }
    apply dirb_p in D.
    assert (B : body step1 g (fun _ gc => dirp gc u v)
        (fun ch => with_nodes (fun ns' => foldM (fun (ch : bool) w =>
          if memb w [u; v] then ret ch else
          (c <- connectedM u w ;;
          t <- (if c : bool then ret false else fully_undirectedM v w) ;;
          if t : bool then reorient v w ;;; ret true else ret ch)%meth) ch ns'))
        (forall w, In w (node_list g) -> ~ (w <> u /\ w <> v /\ dirp g u v /\ ~ conp g u w /\ undp g v w))).
    { apply (body_with_nodes step1 g (fun _ gc => dirp gc u v) (fun ns' ch => foldM _ ch ns')). apply body_fold.
      intros w Hw c1 g1 J1 D1. ctx J1.
      destruct (memb w [u; v]) eqn:Em.
      { apply memb_cons2 in Em. apply body_skip; auto. tauto. }
      apply memb_cons2f in Em. destruct Em as [Nwu Nwv].
      rewrite (bind_run _ _ _ _ _ (conn_run g1 u w Wc0 ltac:(rewrite Nc0; auto) ltac:(rewrite Nc0; auto))).
      destruct (connb g1 u w) eqn:C.
      { apply (body_skip step1 g (fun _ gc => dirp gc u v)); auto. intros ->. apply connb_p in C. tauto. }
      assert (C' : ~ conp g1 u w) by (intro Q; apply connb_p in Q; congruence).
      rewrite (bind_run _ _ _ _ _ (und_run g1 v w Wc0 ltac:(rewrite Nc0; auto) ltac:(rewrite Nc0; auto))).
      destruct (undb g1 v w) eqn:Un.
      - apply undb_p in Un. destruct (reorient_ok g1 v w Pc0) as [g2 [E2 O2]]; [apply undp_con; auto|auto|].
        rewrite (bind_run _ _ _ _ _ E2). exists g2, true. split; [reflexivity|]. split.
        { eapply J_step; eauto. exists u. repeat split; auto; try apply D1; apply Un. }
        split; [eapply orients_dirp; eauto|discriminate].
      - apply (body_skip step1 g (fun _ gc => dirp gc u v)); auto.
        intros ->. intros [_ [_ [_ [_ Q]]]]. apply undb_p in Q. congruence. }
    destruct (B ch gc Hj D) as [g' [c' [E' [J' [_ N']]]]]. exists g', c'. auto. }
  intros HN a b [u [N1 [N2 [N3 [D [C U]]]]]].
  destruct (con_nodes g u a W (dirp_con _ _ _ D)). destruct (con_nodes g a b W (undp_con _ _ _ U)).
  apply (HN (u, a)) with (w := b); cbn [fst snd]; auto 10. apply in_perm2; [apply W|auto].
Qed.

Theorem rule2_spec : rule_spec step2 rule2.
Proof.
  apply rule_of_body with (f := fun ch => with_nodes (fun ns => foldM (fun (ch : bool) (p : nat * nat) =>
    let (u, v) := p in
    (d <- fully_directedM u v ;;
    if negb d then ret ch else
    with_nodes (fun ns' => foldM (fun (ch : bool) w =>
      if memb w [u; v] then ret ch else
      d' <- fully_directedM v w ;;
      if negb d' then ret ch else
      t <- fully_undirectedM u w ;;
      if t : bool then reorient u w ;;; ret true else ret ch) ch ns'))%meth) ch (perm2 ns))).
  { reflexivity. }
  intros g P. assert (W := pg_wf g P). eexists. split.
  { apply (body_with_nodes step2 g _ (fun ns ch => foldM _ ch (perm2 ns))). apply body_fold.
    intros [u v] Huv. apply in_perm2 in Huv; [|apply W]. destruct Huv as [Hu [Hv Nuv]].
    instantiate (1 := fun p => forall w, In w (node_list g) ->
       ~ (w <> fst p /\ w <> snd p /\ dirp g (fst p) (snd p) /\ dirp g (snd p) w /\ undp g (fst p) w)).
    intros ch gc Hj _. cbn [fst snd]. ctx Hj.
    rewrite (bind_run _ _ _ _ _ (dir_run gc u v Wc ltac:(rewrite Nc; auto) ltac:(rewrite Nc; auto))).
    destruct (dirb gc u v) eqn:D; cbn [negb].
    2:{ apply body_skip; auto. intros -> w Hw [_ [_ [Q _]]]. apply dirb_p in Q. congruence. }
    apply dirb_p in D.
    assert (B : body step2 g (fun _ gc => dirp gc u v)
        (fun ch => with_nodes (fun ns' => foldM (fun (ch : bool) w =>
          if memb w [u; v] then ret ch else
          (d' <- fully_directedM v w ;;
          if negb d' then ret ch else
          t <- fully_undirectedM u w ;;
          if t : bool then reorient u w ;;; ret true else ret ch)%meth) ch ns'))
        (forall w, In w (node_list g) -> ~ (w <> u /\ w <> v /\ dirp g u v /\ dirp g v w /\ undp g u w))).
    { apply (body_with_nodes step2 g (fun _ gc => dirp gc u v) (fun ns' ch => foldM _ ch ns')). apply body_fold.
      intros w Hw c1 g1 J1 D1. ctx J1.
      destruct (memb w [u; v]) eqn:Em.
      { apply memb_cons2 in Em. apply body_skip; auto. tauto. }
      apply memb_cons2f in Em. destruct Em as [Nwu Nwv].
      rewrite (bind_run _ _ _ _ _ (dir_run g1 v w Wc0 ltac:(rewrite Nc0; auto) ltac:(rewrite Nc0; auto))).
      destruct (dirb g1 v w) eqn:C; cbn [negb].
      2:{ apply (body_skip step2 g (fun _ gc => dirp gc u v)); auto. intros ->. intros [_ [_ [_ [Q _]]]].
          apply dirb_p in Q. congruence. }
      apply dirb_p in C.
      rewrite (bind_run _ _ _ _ _ (und_run g1 u w Wc0 ltac:(rewrite Nc0; auto) ltac:(rewrite Nc0; auto))).
      destruct (undb g1 u w) eqn:Un.
      - apply undb_p in Un. destruct (reorient_ok g1 u w Pc0) as [g2 [E2 O2]]; [apply undp_con; auto|auto|].
        rewrite (bind_run _ _ _ _ _ E2). exists g2, true. split; [reflexivity|]. split.
        { eapply J_step; eauto. exists v. repeat split; auto; try apply D1; try apply Un; apply C. }
        split; [eapply orients_dirp; eauto|discriminate].
      - apply (body_skip step2 g (fun _ gc => dirp gc u v)); auto.
        intros ->. intros [_ [_ [_ [_ Q]]]]. apply undb_p in Q. congruence. }
    destruct (B ch gc Hj D) as [g' [c' [E' [J' [_ N']]]]]. exists g', c'. auto. }
  intros HN a b [v [N1 [N2 [N3 [D [C U]]]]]].
  destruct (con_nodes g a v W (dirp_con _ _ _ D)). destruct (con_nodes g a b W (undp_con _ _ _ U)).
  apply (HN (a, v)) with (w := b); cbn [fst snd]; auto 10. apply in_perm2; [apply W|auto].
Qed.

Lemma andb_p : forall a b : bool, (a && b)%bool = true <-> a = true /\ b = true.
Proof. intros. apply andb_true_iff. Qed.

Theorem rule3_spec : rule_spec step3 rule3.
Proof.
  apply rule_of_body with (f := fun ch => with_nodes (fun ns => foldM (fun (ch : bool) (p : nat * nat) =>
    let (u, w) := p in
    (t <- fully_undirectedM u w ;;
    if negb t then ret ch else
    with_nodes (fun ns' => foldM (fun (ch : bool) v =>
      if memb v [u; w] then ret ch else
      b <- andM (fully_undirectedM u v) (fully_directedM v w) ;;
      if negb b then ret ch else
      with_nodes (fun ns'' => foldM (fun (ch : bool) x =>
        if memb x [u; v; w] then ret ch else
        b' <- andM (fully_undirectedM u x) (fully_directedM x w) ;;
        if negb b' then ret ch else
        reorient u w ;;; ret true) ch ns'')) ch ns'))%meth) ch (perm2 ns))).
  { reflexivity. }
  intros g P. assert (W := pg_wf g P). eexists. split.
  { apply (body_with_nodes step3 g _ (fun ns ch => foldM _ ch (perm2 ns))). apply body_fold.
    intros [u w] Huw. apply in_perm2 in Huw; [|apply W]. destruct Huw as [Hu [Hw Nuw]].
    instantiate (1 := fun p => forall v, In v (node_list g) -> forall x, In x (node_list g) ->
       ~ (v <> fst p /\ v <> snd p /\ x <> fst p /\ x <> v /\ x <> snd p /\ undp g (fst p) (snd p) /\
          undp g (fst p) v /\ dirp g v (snd p) /\ undp g (fst p) x /\ dirp g x (snd p))).
    intros ch gc Hj _. cbn [fst snd]. ctx Hj.
    rewrite (bind_run _ _ _ _ _ (und_run gc u w Wc ltac:(rewrite Nc; auto) ltac:(rewrite Nc; auto))).
    destruct (undb gc u w) eqn:D; cbn [negb].
    2:{ apply body_skip; auto. intros -> v Hv x Hx [_ [_ [_ [_ [_ [Q _]]]]]]. apply undb_p in Q. congruence. }
    apply undb_p in D.
    pose (Pl := fun (ch : bool) gc => undp gc u w \/ (dirp gc u w /\ ch = true)).
    assert (B : body step3 g Pl
        (fun ch => with_nodes (fun ns' => foldM (fun (ch : bool) v =>
      if memb v [u; w] then ret ch else
      (b <- andM (fully_undirectedM u v) (fully_directedM v w) ;;
      if negb b then ret ch else
      with_nodes (fun ns'' => foldM (fun (ch : bool) x =>
        if memb x [u; v; w] then ret ch else
        b' <- andM (fully_undirectedM u x) (fully_directedM x w) ;;
        if negb b' then ret ch else
        reorient u w ;;; ret true) ch ns''))%meth) ch ns'))
        (forall v, In v (node_list g) -> forall x, In x (node_list g) ->
         ~ (v <> u /\ v <> w /\ x <> u /\ x <> v /\ x <> w /\ undp g u w /\
          undp g u v /\ dirp g v w /\ undp g u x /\ dirp g x w))).
    { apply (body_with_nodes step3 g Pl (fun ns' ch => foldM _ ch ns')). apply body_fold.
      intros v Hv c1 g1 J1 D1. ctx J1.
      destruct (memb v [u; w]) eqn:Em.
      { apply memb_cons2 in Em. apply body_skip; auto. tauto. }
      apply memb_cons2f in Em. destruct Em as [Nvu Nvw].
      rewrite (bind_run _ _ _ _ _ (and_run _ _ _ _ _
        (und_run g1 u v Wc0 ltac:(rewrite Nc0; auto) ltac:(rewrite Nc0; auto))
        (dir_run g1 v w Wc0 ltac:(rewrite Nc0; auto) ltac:(rewrite Nc0; auto)))).
      destruct (undb g1 u v && dirb g1 v w)%bool eqn:C; cbn [negb].
      2:{ apply (body_skip step3 g Pl); auto. intros ->. intros x Hx [_ [_ [_ [_ [_ [_ [Q1 [Q2 _]]]]]]]].
          apply undb_p in Q1. apply dirb_p in Q2. rewrite Q1, Q2 in C. discriminate. }
      apply andb_p in C. destruct C as [C1 C2]. apply undb_p in C1. apply dirb_p in C2.
      pose (Pm := fun (ch : bool) gc => Pl ch gc /\ undp gc u v /\ dirp gc v w).
      assert (B2 : body step3 g Pm
        (fun ch => with_nodes (fun ns'' => foldM (fun (ch : bool) x =>
        if memb x [u; v; w] then ret ch else
        (b' <- andM (fully_undirectedM u x) (fully_directedM x w) ;;
        if negb b' then ret ch else
        reorient u w ;;; ret true)%meth) ch ns''))
        (forall x, In x (node_list g) ->
         ~ (v <> u /\ v <> w /\ x <> u /\ x <> v /\ x <> w /\ undp g u w /\
          undp g u v /\ dirp g v w /\ undp g u x /\ dirp g x w))).
      { apply (body_with_nodes step3 g Pm (fun ns' ch => foldM _ ch ns')). apply body_fold.
        intros x Hx c2 g2 J2 [D2 [D3 D4]]. ctx J2.
        destruct (memb x [u; v; w]) eqn:Em.
        { apply memb_cons3 in Em. apply (body_skip step3 g Pm); auto; [repeat split; auto; apply D3 || apply D4|]. tauto. }
        apply memb_cons3f in Em. destruct Em as [Nxu [Nxv Nxw]].
        rewrite (bind_run _ _ _ _ _ (and_run _ _ _ _ _
          (und_run g2 u x Wc1 ltac:(rewrite Nc1; auto) ltac:(rewrite Nc1; auto))
          (dir_run g2 x w Wc1 ltac:(rewrite Nc1; auto) ltac:(rewrite Nc1; auto)))).
        destruct (undb g2 u x && dirb g2 x w)%bool eqn:C; cbn [negb].
        2:{ apply (body_skip step3 g Pm); auto; [repeat split; auto; apply D3 || apply D4|].
            intros ->. intros [_ [_ [_ [_ [_ [_ [_ [_ [Q1 Q2]]]]]]]]].
            apply undb_p in Q1. apply dirb_p in Q2. rewrite Q1, Q2 in C. discriminate. }
        apply andb_p in C. destruct C as [C3 C4]. apply undb_p in C3. apply dirb_p in C4.
        assert (Cuw : conp g2 u w) by (destruct D2 as [D2|[D2 _]]; [apply undp_con|apply dirp_con]; auto).
        destruct (reorient_ok g2 u w Pc1 Cuw Nuw) as [g3 [E3 O3]].
        rewrite (bind_run _ _ _ _ _ E3). exists g3, true. split; [reflexivity|].
        assert (D3' : undp g3 u v) by (apply (orients_undp_other _ _ _ _ O3); auto; tauto).
        assert (D4' : dirp g3 v w).
        { destruct D4. split; rewrite (orients_other _ _ _ _ O3); auto; tauto. }
        split; [|split; [|discriminate]].
        - destruct D2 as [D2|[D2 Dc]].
          + eapply J_step; eauto. exists v, x. repeat split; auto; try apply D2; try apply D3; try apply D4; try apply C3; apply C4.
          + subst c2. eapply J_same; [exact J2|]. apply (orients_self g2 u w g3); auto; apply D2.
        - split; auto. right. split; auto. eapply orients_dir; eauto. }
      destruct (B2 c1 g1 J1) as [g' [c' [E' [J' [[P' _] N']]]]]; [repeat split; auto; apply C1 || apply C2|].
      exists g', c'. auto. }
    destruct (B ch gc Hj (or_introl D)) as [g' [c' [E' [J' [_ N']]]]]. exists g', c'. auto. }
  intros HN a b [v [x [N1 [N2 [N3 [N4 [N5 [N6 [D1 [D2 [D3 [D4 D5]]]]]]]]]]]].
  destruct (con_nodes g a b W (undp_con _ _ _ D1)). destruct (con_nodes g a v W (undp_con _ _ _ D2)).
  destruct (con_nodes g a x W (undp_con _ _ _ D4)).
  apply (HN (a, b)) with (v := v) (x := x); cbn [fst snd]; auto 20. apply in_perm2; [apply W|auto].
Qed.

Theorem rule4_spec : rule_spec step4 rule4.
Proof.
  apply rule_of_body with (f := fun ch => with_nodes (fun ns => foldM (fun (ch : bool) (p : nat * nat) =>
    let (u, w) := p in
    (c <- connectedM u w ;;
    if c : bool then ret ch else
    with_nodes (fun ns' => foldM (fun (ch : bool) v =>
      if memb v [u; w] then ret ch else
      b <- andM (fully_undirectedM u v) (fully_directedM v w) ;;
      if negb b then ret ch else
      with_nodes (fun ns'' => foldM (fun (ch : bool) x =>
        if memb x [u; v; w] then ret ch else
        b' <- andM (fully_undirectedM u x) (fully_undirectedM x w) ;;
        if negb b' then ret ch else
        c' <- connectedM v x ;;
        if c' : bool then reorient x w ;;; ret true else ret ch) ch ns'')) ch ns'))%meth) ch (perm2 ns))).
  { reflexivity. }
  intros g P. assert (W := pg_wf g P). eexists. split.
  { apply (body_with_nodes step4 g _ (fun ns ch => foldM _ ch (perm2 ns))). apply body_fold.
    intros [u w] Huw. apply in_perm2 in Huw; [|apply W]. destruct Huw as [Hu [Hw Nuw]].
    instantiate (1 := fun p => forall v, In v (node_list g) -> forall x, In x (node_list g) ->
       ~ (v <> fst p /\ v <> snd p /\ x <> fst p /\ x <> v /\ x <> snd p /\ ~ conp g (fst p) (snd p) /\
          undp g (fst p) v /\ dirp g v (snd p) /\ undp g (fst p) x /\ undp g x (snd p) /\ conp g v x)).
    intros ch gc Hj _. cbn [fst snd]. ctx Hj.
    rewrite (bind_run _ _ _ _ _ (conn_run gc u w Wc ltac:(rewrite Nc; auto) ltac:(rewrite Nc; auto))).
    destruct (connb gc u w) eqn:D.
    { apply body_skip; auto. intros -> v Hv x Hx [_ [_ [_ [_ [_ [Q _]]]]]]. apply Q. apply connb_p. auto. }
    assert (D' : ~ conp gc u w) by (intro Q; apply connb_p in Q; congruence).
    pose (Pl := fun (ch : bool) gc => ~ conp gc u w).
    assert (B : body step4 g Pl
        (fun ch => with_nodes (fun ns' => foldM (fun (ch : bool) v =>
      if memb v [u; w] then ret ch else
      (b <- andM (fully_undirectedM u v) (fully_directedM v w) ;;
      if negb b then ret ch else
      with_nodes (fun ns'' => foldM (fun (ch : bool) x =>
        if memb x [u; v; w] then ret ch else
        b' <- andM (fully_undirectedM u x) (fully_undirectedM x w) ;;
        if negb b' then ret ch else
        c' <- connectedM v x ;;
        if c' : bool then reorient x w ;;; ret true else ret ch) ch ns''))%meth) ch ns'))
        (forall v, In v (node_list g) -> forall x, In x (node_list g) ->
         ~ (v <> u /\ v <> w /\ x <> u /\ x <> v /\ x <> w /\ ~ conp g u w /\
          undp g u v /\ dirp g v w /\ undp g u x /\ undp g x w /\ conp g v x))).
    { apply (body_with_nodes step4 g Pl (fun ns' ch => foldM _ ch ns')). apply body_fold.
      intros v Hv c1 g1 J1 D1. ctx J1.
      destruct (memb v [u; w]) eqn:Em.
      { apply memb_cons2 in Em. apply body_skip; auto. tauto. }
      apply memb_cons2f in Em. destruct Em as [Nvu Nvw].
      rewrite (bind_run _ _ _ _ _ (and_run _ _ _ _ _
        (und_run g1 u v Wc0 ltac:(rewrite Nc0; auto) ltac:(rewrite Nc0; auto))
        (dir_run g1 v w Wc0 ltac:(rewrite Nc0; auto) ltac:(rewrite Nc0; auto)))).
      destruct (undb g1 u v && dirb g1 v w)%bool eqn:C; cbn [negb].
      2:{ apply (body_skip step4 g Pl); auto. intros ->. intros x Hx [_ [_ [_ [_ [_ [_ [Q1 [Q2 _]]]]]]]].
          apply undb_p in Q1. apply dirb_p in Q2. rewrite Q1, Q2 in C. discriminate. }
      apply andb_p in C. destruct C as [C1 C2]. apply undb_p in C1. apply dirb_p in C2.
      pose (Pm := fun (ch : bool) gc => Pl ch gc /\ undp gc u v /\ dirp gc v w).
      assert (B2 : body step4 g Pm
        (fun ch => with_nodes (fun ns'' => foldM (fun (ch : bool) x =>
        if memb x [u; v; w] then ret ch else
        (b' <- andM (fully_undirectedM u x) (fully_undirectedM x w) ;;
        if negb b' then ret ch else
        c' <- connectedM v x ;;
        if c' : bool then reorient x w ;;; ret true else ret ch)%meth) ch ns''))
        (forall x, In x (node_list g) ->
         ~ (v <> u /\ v <> w /\ x <> u /\ x <> v /\ x <> w /\ ~ conp g u w /\
          undp g u v /\ dirp g v w /\ undp g u x /\ undp g x w /\ conp g v x))).
      { apply (body_with_nodes step4 g Pm (fun ns' ch => foldM _ ch ns')). apply body_fold.
        intros x Hx c2 g2 J2 [D2 [D3 D4]]. ctx J2.
        assert (Q : Pm c2 g2) by (repeat split; auto; apply D3 || apply D4).
        destruct (memb x [u; v; w]) eqn:Em.
        { apply memb_cons3 in Em. apply (body_skip step4 g Pm); auto. tauto. }
        apply memb_cons3f in Em. destruct Em as [Nxu [Nxv Nxw]].
        rewrite (bind_run _ _ _ _ _ (and_run _ _ _ _ _
          (und_run g2 u x Wc1 ltac:(rewrite Nc1; auto) ltac:(rewrite Nc1; auto))
          (und_run g2 x w Wc1 ltac:(rewrite Nc1; auto) ltac:(rewrite Nc1; auto)))).
        destruct (undb g2 u x && undb g2 x w)%bool eqn:C; cbn [negb].
        2:{ apply (body_skip step4 g Pm); auto.
            intros ->. intros [_ [_ [_ [_ [_ [_ [_ [_ [Q1 [Q2 _]]]]]]]]]].
            apply undb_p in Q1. apply undb_p in Q2. rewrite Q1, Q2 in C. discriminate. }
        apply andb_p in C. destruct C as [C3 C4]. apply undb_p in C3. apply undb_p in C4.
        rewrite (bind_run _ _ _ _ _ (conn_run g2 v x Wc1 ltac:(rewrite Nc1; auto) ltac:(rewrite Nc1; auto))).
        destruct (connb g2 v x) eqn:C5.
        2:{ apply (body_skip step4 g Pm); auto. intros ->. intros [_ [_ [_ [_ [_ [_ [_ [_ [_ [_ Q1]]]]]]]]]].
            apply connb_p in Q1. congruence. }
        apply connb_p in C5.
        destruct (reorient_ok g2 x w Pc1 (undp_con _ _ _ C4) Nxw) as [g3 [E3 O3]].
        rewrite (bind_run _ _ _ _ _ E3). exists g3, true. split; [reflexivity|].
        assert (D3' : undp g3 u v) by (apply (orients_undp_other _ _ _ _ O3); auto; intuition congruence).
        assert (D4' : dirp g3 v w) by (eapply orients_dirp; eauto).
        split; [|split; [|discriminate]].
        - eapply J_step; eauto. exists u, v. repeat split; auto; try apply D3; try apply D4; try apply C3; apply C4.
        - split; auto. intro R. apply D2.
          apply (orients_con _ _ _ _ O3 (undp_con _ _ _ C4) (undp_con _ _ _ (undp_sym _ _ _ C4))). auto. }
      destruct (B2 c1 g1 J1) as [g' [c' [E' [J' [[P' _] N']]]]]; [repeat split; auto; apply C1 || apply C2|].
      exists g', c'. auto. }
    destruct (B ch gc Hj D') as [g' [c' [E' [J' [_ N']]]]]. exists g', c'. auto. }
  intros HN a b [u [v [N1 [N2 [N3 [N4 [N5 [N6 [D1 [D2 [D3 [D4 [D5 D6]]]]]]]]]]]]].
  destruct (con_nodes g u v W (undp_con _ _ _ D2)). destruct (con_nodes g a b W (undp_con _ _ _ D5)).
  apply (HN (u, b)) with (v := v) (x := a); cbn [fst snd]; auto 20. apply in_perm2; [apply W|auto].
Qed.
