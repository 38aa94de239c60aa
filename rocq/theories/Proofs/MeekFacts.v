(** Meek's loop: termination, frame, closure; soundness of single rules. *)

From Coq Require Import List Arith Bool Lia.
From Verif Require Import Model.Py Model.Graph Model.DiGraph Model.PDAG Spec.API Spec.Digraphs Spec.PDAGs.
From Verif Require Import Proofs.PyFacts Proofs.GraphFacts Proofs.HistoryFacts Proofs.FrameFacts Proofs.PDAGFacts.
Import ListNotations.

Definition anystep (g : graph) (a b : nat) : Prop := step1 g a b \/ step2 g a b \/ step3 g a b \/ step4 g a b.

Lemma any_sound : sound_step anystep.
Proof.
  intros g a b [H|[H|[H|H]]]; [apply step1_sound|apply step2_sound|apply step3_sound|apply step4_sound]; auto.
Qed.

Lemma geq_undp : forall g h, geq g h -> forall x y, undp g x y <-> undp h x y.
Proof. intros g h E x y. unfold undp. rewrite !(geq_mk _ _ E). tauto. Qed.
Lemma geq_dirp : forall g h, geq g h -> forall x y, dirp g x y <-> dirp h x y.
Proof. intros g h E x y. unfold dirp. rewrite !(geq_mk _ _ E). tauto. Qed.
Lemma geq_conp : forall g h, geq g h -> forall x y, conp g x y <-> conp h x y.
Proof. intros g h E x y. unfold conp. rewrite !(geq_mk _ _ E). tauto. Qed.

Lemma anystep_geq : forall g h a b, geq g h -> anystep h a b -> anystep g a b.
Proof.
  intros g h a b E H. pose proof (geq_undp g h E) as U. pose proof (geq_dirp g h E) as D. pose proof (geq_conp g h E) as C.
  destruct H as [[u H]|[[v H]|[[v [x H]]|[u [v H]]]]].
  - left. exists u. rewrite U, D, C. auto.
  - right. left. exists v. rewrite U, !D. auto.
  - right. right. left. exists v, x. rewrite !U, !D. auto.
  - right. right. right. exists u, v. rewrite !U, !D, !C. auto.
Qed.

Lemma meek_pass_spec : rule_spec anystep meek_pass.
Proof.
  intros g P.
  destruct (rule1_spec g P) as [g1 [c1 [n1 [E1 [O1 [H1 F1]]]]]]. assert (P1 := osteps_PG _ _ _ _ P O1).
  destruct (rule2_spec g1 P1) as [g2 [c2 [n2 [E2 [O2 [H2 F2]]]]]]. assert (P2 := osteps_PG _ _ _ _ P1 O2).
  destruct (rule3_spec g2 P2) as [g3 [c3 [n3 [E3 [O3 [H3 F3]]]]]]. assert (P3 := osteps_PG _ _ _ _ P2 O3).
  destruct (rule4_spec g3 P3) as [g4 [c4 [n4 [E4 [O4 [H4 F4]]]]]].
  exists g4, (c1 || c2 || c3 || c4)%bool, (n4 + (n3 + (n2 + n1))).
  split; [unfold meek_pass, bind; rewrite E1, E2, E3, E4; reflexivity|].
  split.
  { apply osteps_app with (g1 := g3); [apply anystep_geq| |].
    - apply osteps_app with (g1 := g2); [apply anystep_geq| |].
      + apply osteps_app with (g1 := g1); [apply anystep_geq| |].
        * eapply osteps_mono; [|exact O1]. intros ? ? ? ?. left. auto.
        * eapply osteps_mono; [|exact O2]. intros ? ? ? ?. right. left. auto.
      + eapply osteps_mono; [|exact O3]. intros ? ? ? ?. right. right. left. auto.
    - eapply osteps_mono; [|exact O4]. intros ? ? ? ?. right. right. right. auto. }
  split.
  { rewrite !orb_true_iff, H1, H2, H3, H4. lia. }
  intro Hf. apply orb_false_iff in Hf. destruct Hf as [Hf ->]. apply orb_false_iff in Hf. destruct Hf as [Hf ->].
  apply orb_false_iff in Hf. destruct Hf as [-> ->].
  destruct (F1 eq_refl) as [-> N1]. destruct (F2 eq_refl) as [-> N2]. destruct (F3 eq_refl) as [-> N3].
  destruct (F4 eq_refl) as [-> N4]. split; auto. intros a b [H|[H|[H|H]]]; [apply (N1 _ _ H)|apply (N2 _ _ H)|apply (N3 _ _ H)|apply (N4 _ _ H)].
Qed.

Lemma meek_loop_spec : forall fuel g, PG g -> undcount g < fuel ->
  exists g' n, meek_loop fuel g = (g', Ok tt) /\ osteps anystep g n g' /\ forall a b, ~ anystep g' a b.
Proof.
  induction fuel as [|f IH]; intros g P L; [lia|].
  destruct (meek_pass_spec g P) as [g1 [ch [n [E [O [H F]]]]]].
  simpl. unfold bind. rewrite E. destruct ch.
  - assert (0 < n) by (apply H; auto).
    pose proof (osteps_undcount _ _ _ _ any_sound (pg_wf g P) O).
    destruct (IH g1 (osteps_PG _ _ _ _ P O)) as [g2 [m [E2 [O2 N2]]]]; [lia|].
    exists g2, (m + n). split; auto. split; auto. eapply osteps_app; eauto. apply anystep_geq.
  - destruct (F eq_refl) as [-> N]. exists g, n. auto.
Qed.

Lemma undcount_le : forall g, undcount g <= length (comb2 (node_list g)).
Proof. intro g. unfold undcount. apply filter_len. Qed.

Theorem meek_ok : forall g, PG g ->
  exists g' n, orient_by_meek_rules g = (g', Ok tt) /\ osteps anystep g n g' /\ forall a b, ~ anystep g' a b.
Proof.
  intros g P. unfold orient_by_meek_rules, with_nodes, nodes. apply meek_loop_spec; auto.
  pose proof (undcount_le g). lia.
Qed.

(** More fuel changes nothing. *)
Lemma meek_loop_more : forall f1 f2 g g', meek_loop f1 g = (g', Ok tt) -> f1 <= f2 -> meek_loop f2 g = (g', Ok tt).
Proof.
  induction f1 as [|f1 IH]; intros f2 g g' H L; [discriminate|].
  destruct f2 as [|f2]; [lia|]. simpl in *. unfold bind in *. destruct (meek_pass g) as [g1 [[|]|]]; auto.
  apply IH; auto. lia.
Qed.

(* ---------- runs respect geq ---------- *)
Definition respects {A} (m : M A) : Prop := forall g h, geq g h ->
  exists g' h' r, m g = (g', r) /\ m h = (h', r) /\ geq g' h'.

Lemma respects_ret : forall {A} (a : A), respects (ret a).
Proof. intros A a g h E. exists g, h, (Ok a). auto. Qed.
Lemma respects_raise : forall {A} e, respects (@raise A e).
Proof. intros A e g h E. exists g, h, (Err e). auto. Qed.
Lemma respects_bind : forall {A B} (m : M A) (f : A -> M B), respects m -> (forall a, respects (f a)) -> respects (bind m f).
Proof.
  intros A B m f Hm Hf g h E. destruct (Hm g h E) as [g1 [h1 [r [E1 [E2 E3]]]]].
  unfold bind. rewrite E1, E2. destruct r as [a|e].
  - apply Hf; auto.
  - exists g1, h1, (Err e). auto.
Qed.
Lemma respects_query : forall {A} (q : graph -> res A), (forall g h, geq g h -> q g = q h) -> respects (query q).
Proof. intros A q H g h E. unfold query. exists g, h, (q g). rewrite (H g h E). auto. Qed.
Lemma respects_foldM : forall {X S} (f : S -> X -> M S) l, (forall s x, respects (f s x)) -> forall s, respects (foldM f s l).
Proof.
  intros X S f l H. induction l as [|x l IH]; intro s; simpl; [apply respects_ret|].
  apply respects_bind; auto.
Qed.
Lemma respects_forM : forall {X} (f : X -> M unit) l, (forall x, respects (f x)) -> respects (forM l f).
Proof.
  intros X f l H. induction l as [|x l IH]; simpl; [apply respects_ret|]. apply respects_bind; auto.
Qed.
Lemma respects_with_nodes : forall {A} (f : list nat -> M A), (forall l, respects (f l)) -> respects (with_nodes f).
Proof. intros A f H g h E. unfold with_nodes, nodes. rewrite (geq_nodes _ _ E). apply H. auto. Qed.

Lemma check_geq : forall g h u, geq g h -> check_missing_node g u = check_missing_node h u.
Proof.
  intros g h u E. destruct (in_dec Nat.eq_dec u (node_list g)) as [H|H].
  - rewrite !check_ok; auto; [apply E|rewrite <- (geq_nodes _ _ E); auto|apply E].
  - rewrite !check_err; auto; [apply E|rewrite <- (geq_nodes _ _ E); auto|apply E].
Qed.

Lemma conn_geq : forall u v g h, geq g h -> is_connected g u v = is_connected h u v.
Proof.
  intros u v g h E. assert (Wg := geq_l _ _ E). assert (Wh := geq_r _ _ E).
  destruct (in_dec Nat.eq_dec u (node_list g)) as [Hu|Hu]; [destruct (in_dec Nat.eq_dec v (node_list g)) as [Hv|Hv]|].
  - rewrite !is_connected_ok by (rewrite <- ?(geq_nodes _ _ E); auto). unfold connb. rewrite (geq_mk _ _ E). auto.
  - unfold is_connected. rewrite <- !(check_geq g h) by auto. rewrite (check_ok g u), (check_err g v) by auto. auto.
  - unfold is_connected. rewrite <- !(check_geq g h) by auto. rewrite (check_err g u) by auto. auto.
Qed.

Lemma conn_true_nodes : forall g u v, WF g -> is_connected g u v = Ok true ->
  In u (node_list g) /\ In v (node_list g).
Proof.
  intros g u v W H. apply con_nodes; auto. apply connected_iff in H; auto.
Qed.

Lemma mark_geq : forall m u v g h, geq g h -> is_mark m g u v = is_mark m h u v.
Proof.
  intros m u v g h E. unfold is_mark. rewrite <- (conn_geq u v g h E).
  destruct (is_connected g u v) as [[|]|] eqn:C; simpl; auto.
  destruct (conn_true_nodes g u v (geq_l _ _ E) C) as [Hu Hv].
  pose proof (is_mark_ok m g u v (geq_l _ _ E) Hu Hv) as H1.
  pose proof (is_mark_ok m h u v (geq_r _ _ E)) as H2. rewrite <- (geq_nodes _ _ E) in H2. specialize (H2 Hu Hv).
  unfold is_mark in H1, H2. rewrite <- (conn_geq u v g h E) in H2. rewrite C in H1, H2. simpl in H1, H2.
  rewrite H1, H2. unfold markb. rewrite (geq_mk _ _ E). auto.
Qed.

Lemma dir_geq : forall u v g h, geq g h -> is_fully_directed g u v = is_fully_directed h u v.
Proof.
  intros u v g h E. unfold is_fully_directed, is_tail, is_arrow.
  rewrite (conn_geq u v g h E), !(mark_geq _ _ _ g h E). auto.
Qed.
Lemma und_geq : forall u v g h, geq g h -> is_fully_undirected g u v = is_fully_undirected h u v.
Proof.
  intros u v g h E. unfold is_fully_undirected, is_tail, is_arrow.
  rewrite (conn_geq u v g h E), !(mark_geq _ _ _ g h E). auto.
Qed.

Lemma respects_conn : forall u v, respects (connectedM u v).
Proof. intros. apply respects_query. intros. apply conn_geq. auto. Qed.
Lemma respects_dir : forall u v, respects (fully_directedM u v).
Proof. intros. apply respects_query. intros. apply dir_geq. auto. Qed.
Lemma respects_und : forall u v, respects (fully_undirectedM u v).
Proof. intros. apply respects_query. intros. apply und_geq. auto. Qed.

Lemma respects_remove : forall u v, respects (remove_edge u v).
Proof.
  intros u v g h E. assert (N := geq_nodes _ _ E).
  destruct (remove_edge_cases g u v (geq_l _ _ E)) as [[g' [E1 [W1 [[S1 [S2 S3]] [M1 [Hu Hv]]]]]]|[E1 H1]];
  destruct (remove_edge_cases h u v (geq_r _ _ E)) as [[h' [E2 [W2 [[T1 [T2 T3]] [M2 [Hu' Hv']]]]]]|[E2 H2]].
  - exists g', h', (Ok tt). split; auto. split; auto. constructor; auto.
    + rewrite S1, T1. apply E. + congruence.
    + intros a b. rewrite M1, M2. unfold subs. rewrite (geq_mk _ _ E). auto.
  - exfalso. rewrite <- N in H2. tauto.
  - exfalso. rewrite <- N in *. tauto.
  - exists g, h, (Err AssertionError). auto.
Qed.

Lemma respects_add : forall e ow, respects (add_edge e ow).
Proof.
  intros e ow g h E. assert (N := geq_nodes _ _ E).
  destruct (add_edge_cases g e ow (geq_l _ _ E)) as [[g' [E1 [W1 [[S1 [S2 S3]] [M1 [C1 [Hu [Hv H1]]]]]]]]|[E1 H1]];
  destruct (add_edge_cases h e ow (geq_r _ _ E)) as [[h' [E2 [W2 [[T1 [T2 T3]] [M2 [C2 [Hu' [Hv' H2]]]]]]]]|[E2 H2]].
  - exists g', h', (Ok tt). split; auto. split; auto. constructor; auto.
    + rewrite S1, T1. apply E. + congruence.
    + intros a b. rewrite M1, M2. unfold adds. rewrite (geq_mk _ _ E). auto.
  - exfalso. rewrite <- N, <- (geq_kind _ _ E), <- (geq_mk _ _ E) in H2.
    destruct H2 as [?|[?|[?|[? ?]]]]; try congruence; try tauto. destruct H1; congruence.
  - exfalso. rewrite N, (geq_kind _ _ E), (geq_mk _ _ E) in H1.
    destruct H1 as [?|[?|[?|[? ?]]]]; try congruence; try tauto. destruct H2; congruence.
  - exists g, h, (Err AssertionError). auto.
Qed.

Lemma respects_reorient : forall u v, respects (reorient u v).
Proof. intros. apply respects_bind; [apply respects_remove|]. intros. apply respects_add. Qed.

Ltac resp := repeat first
  [ apply respects_ret | apply respects_raise | apply respects_conn | apply respects_dir | apply respects_und
  | apply respects_reorient | apply respects_remove | apply respects_add
  | apply respects_with_nodes; intro | apply respects_foldM; intros | apply respects_forM; intros
  | apply respects_bind; [|intro]
  | match goal with |- respects (if ?b then _ else _) => destruct b end
  | match goal with |- respects (let (_, _) := ?p in _) => destruct p end
  | (apply respects_query; reflexivity) ].

Lemma respects_rule1 : respects rule1. Proof. unfold rule1, andM. resp. Qed.
Lemma respects_rule2 : respects rule2. Proof. unfold rule2, andM. resp. Qed.
Lemma respects_rule3 : respects rule3. Proof. unfold rule3, andM. resp. Qed.
Lemma respects_rule4 : respects rule4. Proof. unfold rule4, andM. resp. Qed.
Lemma respects_rule0 : forall sep, respects (rule0 sep).
Proof. intros. unfold rule0, andM. resp. Qed.

Lemma respects_pass : respects meek_pass.
Proof.
  unfold meek_pass. apply respects_bind; [apply respects_rule1|intro].
  apply respects_bind; [apply respects_rule2|intro]. apply respects_bind; [apply respects_rule3|intro].
  apply respects_bind; [apply respects_rule4|intro]. apply respects_ret.
Qed.
Lemma respects_meek : respects orient_by_meek_rules.
Proof.
  unfold orient_by_meek_rules. apply respects_with_nodes. intro l.
  generalize (S (length (comb2 l))). intro n. induction n; simpl; [apply respects_raise|].
  apply respects_bind; [apply respects_pass|]. intros [|]; auto. apply respects_ret.
Qed.

(* ---------- extensions ---------- *)
(** [extension] read on the mark table. *)
Definition ext (g : graph) (E : nat -> nat -> Prop) : Prop :=
  acyclic E /\
  (forall u v, u <> v -> (conp g u v <-> adjacent E u v)) /\
  (forall u v, u <> v -> dirp g u v -> E u v) /\
  (forall u w v, vstruct E u w v -> dirp g u w /\ dirp g v w).

Lemma directed_p : forall g u v, WF g -> (directed g u v <-> dirp g u v).
Proof. intros. rewrite directed_dirb, dirb_p by auto. tauto. Qed.
Lemma undirected_p : forall g u v, WF g -> (undirected g u v <-> undp g u v).
Proof. intros. rewrite undirected_undb, undb_p by auto. tauto. Qed.
Lemma connected_p : forall g u v, WF g -> (connected g u v <-> conp g u v).
Proof. intros. apply connected_iff. auto. Qed.

Lemma extension_ext : forall g E, WF g -> (extension g E <-> ext g E).
Proof.
  intros g E W. unfold extension, ext. split; intros [H1 [H2 [H3 H4]]]; (split; [auto|]; split; [|split]).
  - intros u v N. rewrite <- connected_p by auto. auto.
  - intros u v N. rewrite <- directed_p by auto. auto.
  - intros u w v. rewrite <- !directed_p by auto. auto.
  - intros u v N. rewrite connected_p by auto. auto.
  - intros u v N. rewrite directed_p by auto. auto.
  - intros u w v. rewrite !directed_p by auto. auto.
Qed.

Lemma ext_geq : forall g h E, geq g h -> ext g E -> ext h E.
Proof.
  intros g h E Q [H1 [H2 [H3 H4]]]. pose proof (geq_dirp g h Q) as D. pose proof (geq_conp g h Q) as C.
  split; [auto|]. split; [|split].
  - intros u v N. rewrite <- C. auto.
  - intros u v N. rewrite <- D. auto.
  - intros u w v. rewrite <- !D. auto.
Qed.

Lemma acyclic2 : forall E u v, acyclic E -> E u v -> E v u -> False.
Proof. intros E u v A H1 H2. apply (A u). econstructor; eauto. econstructor; eauto. constructor. Qed.
Lemma acyclic3 : forall E u v w, acyclic E -> E u v -> E v w -> E w u -> False.
Proof.
  intros E u v w A H1 H2 H3. apply (A u). econstructor; eauto. econstructor; eauto. econstructor; eauto. constructor.
Qed.

Lemma ext_orients : forall g a b g' E, ext g E -> orients g a b g' -> undp g a b -> a <> b -> E a b -> ext g' E.
Proof.
  intros g a b g' E [H1 [H2 [H3 H4]]] O U N Hab. split; [auto|]. split; [|split].
  - intros u v Nuv. rewrite (orients_con _ _ _ _ O (undp_con _ _ _ U) (undp_con _ _ _ (undp_sym _ _ _ U))). auto.
  - intros u v Nuv D. destruct (orients_dirp_inv _ _ _ _ O N _ _ D) as [D'|[-> ->]]; auto.
  - intros u w v V. destruct (H4 u w v V). split; eapply orients_dirp; eauto.
Qed.

Lemma ext_und : forall g E a b, ext g E -> undp g a b -> a <> b -> E a b \/ E b a.
Proof.
  intros g E a b [H1 [H2 _]] U N. assert (C := undp_con _ _ _ U). apply H2 in C; auto.
Qed.

Lemma und_not_dir : forall g a b, undp g a b -> ~ dirp g a b /\ ~ dirp g b a.
Proof. intros g a b [U1 U2]. split; intros [D1 D2]; congruence. Qed.

Lemma step1_compelled : forall g E a b, ext g E -> step1 g a b -> E a b.
Proof.
  intros g E a b X [u [N1 [N2 [N3 [D [C U]]]]]]. assert (N : a <> b) by auto.
  destruct (ext_und g E a b X U N) as [H|H]; auto. exfalso.
  destruct X as [A [Hc [Hd Hv]]].
  assert (V : vstruct E u a b).
  { split; [apply Hd; auto|]. split; auto. split; auto. rewrite <- Hc by auto. auto. }
  apply Hv in V. destruct (und_not_dir _ _ _ U). tauto.
Qed.

Lemma step2_compelled : forall g E a b, ext g E -> step2 g a b -> E a b.
Proof.
  intros g E a b X [v [N1 [N2 [N3 [D1 [D2 U]]]]]]. assert (N : a <> b) by auto.
  destruct (ext_und g E a b X U N) as [H|H]; auto. exfalso.
  destruct X as [A [Hc [Hd Hv]]]. eapply acyclic3 with (u := a) (v := v) (w := b); eauto.
Qed.

(** rule3 with the test that is missing from the code. *)
Definition step3n (g : graph) (a b : nat) : Prop := exists v x,
  a <> b /\ v <> a /\ v <> b /\ x <> a /\ x <> v /\ x <> b /\
  undp g a b /\ undp g a v /\ dirp g v b /\ undp g a x /\ dirp g x b /\ ~ conp g v x.

Lemma step3n_compelled : forall g E a b, ext g E -> step3n g a b -> E a b.
Proof.
  intros g E a b X [v [x [N1 [N2 [N3 [N4 [N5 [N6 [U1 [U2 [D1 [U3 [D2 C]]]]]]]]]]]]].
  destruct (ext_und g E a b X U1 N1) as [H|H]; auto. exfalso.
  pose proof (ext_und g E a v X U2 ltac:(auto)) as Hv1. pose proof (ext_und g E a x X U3 ltac:(auto)) as Hx1.
  destruct X as [A [Hc [Hd Hv]]]. assert (Evb : E v b) by (apply Hd; auto). assert (Exb : E x b) by (apply Hd; auto).
  destruct Hv1 as [Hv1|Hv1]; [eapply acyclic3 with (u := a) (v := v) (w := b); eauto|].
  destruct Hx1 as [Hx1|Hx1]; [eapply acyclic3 with (u := a) (v := x) (w := b); eauto|].
  assert (V : vstruct E v a x). { split; auto. split; auto. split; auto. rewrite <- Hc by auto. auto. }
  apply Hv in V. destruct (und_not_dir _ _ _ U2). tauto.
Qed.

Lemma ext_osteps : forall (S : graph -> nat -> nat -> Prop) g n g' E, sound_step S ->
  (forall g1 a b, ext g1 E -> (forall x y, conp g1 x y <-> conp g x y) -> S g1 a b -> E a b) ->
  osteps S g n g' -> ext g E -> ext g' E.
Proof.
  intros S g n g' E SS HS O X. induction O.
  - eapply ext_geq; eauto.
  - destruct (SS _ _ _ H) as [U N]. eapply ext_orients; eauto. eapply HS; eauto.
    eapply osteps_con; eauto.
Qed.

Lemma ext_diamond_free : forall g n g' E, WF g -> osteps anystep g n g' -> ext g E ->
  ~ edge_in_two_triangles (conp g) -> ext g' E.
Proof.
  intros g n g' E W O X K.
  apply (ext_osteps anystep g n g' E any_sound); auto. intros g1 a b X1 C S.
  assert (CS : forall x y, conp g1 x y -> conp g1 y x).
  { intros x y. rewrite !C. apply conp_sym. auto. }
  assert (K' : ~ edge_in_two_triangles (conp g1)).
  { intros [p [q [r [s H]]]]. apply K. exists p, q, r, s. rewrite !C in H. auto. }
  clear K C. destruct S as [S|[S|[S|S]]].
  - eapply step1_compelled; eauto.
  - eapply step2_compelled; eauto.
  - exfalso. destruct S as [v [x [N1 [N2 [N3 [N4 [N5 [N6 [U1 [U2 [D1 [U3 D2]]]]]]]]]]]].
    apply K'. exists a, b, v, x. apply undp_con in U1, U2, U3. apply dirp_con in D1, D2. auto 20.
  - exfalso. destruct S as [u [v [N1 [N2 [N3 [N4 [N5 [N6 [C [U1 [D1 [U2 [U3 C2]]]]]]]]]]]]].
    apply K'. exists v, a, u, b. apply undp_con in U1, U2, U3. apply dirp_con in D1.
    repeat (split; [solve [auto]|]). auto.
Qed.
