(** GES: the effect of the operators, the rebuilding step and the greedy phases. *)

From Coq Require Import List Arith Bool Lia ZArith QArith Sorted Permutation Lqa.
From Verif Require Import Model.Py Model.Graph Model.DiGraph Model.PDAG Model.Pdag2Dag Model.GES.
From Verif Require Import Spec.API Spec.Digraphs Spec.PDAGs Spec.GESSpec.
From Verif Require Import Proofs.PyFacts Proofs.GraphFacts Proofs.DiGraphFacts Proofs.RelExt Proofs.HistoryFacts Proofs.NumpyFacts
  Proofs.PDAGFacts Proofs.MeekFacts Proofs.CpdagFacts Proofs.Pdag2DagFacts Proofs.GESSubsets Proofs.GESPaths Proofs.GESScan.
Import ListNotations.
Open Scope nat_scope.

(* ---------- single edges ---------- *)
Lemma set_arrow_ok : forall g a b, PG g -> In a (node_list g) -> In b (node_list g) -> a <> b ->
  exists g', add_edge (Edge a b Tail Arrow) true g = (g', Ok tt) /\ orients g a b g'.
Proof.
  intros g a b [W K T] Ha Hb N.
  destruct (add_edge_ok g (Edge a b Tail Arrow) true W) as [g' [E [W' [[S1 [S2 S3]] M]]]]; simpl; auto.
  { rewrite K. reflexivity. }
  exists g'. split; auto. constructor; auto.
  intros x y. rewrite M. unfold adds, omk. simpl.
  destruct (Nat.eqb_spec x b), (Nat.eqb_spec y a), (Nat.eqb_spec x a), (Nat.eqb_spec y b); simpl; subst; auto; congruence.
Qed.

(** [g'] is [g] without the pair {a, b}. *)
Record drops (g : graph) (a b : nat) (g' : graph) : Prop := {
  dr_pg : PG g';
  dr_nodes : node_list g' = node_list g;
  dr_mk : forall x y, mk g' x y = if samepb x y a b then None else mk g x y
}.

Lemma subs_samepb : forall g a b x y, subs g a b x y = if samepb x y a b then None else mk g x y.
Proof.
  intros. unfold subs, samepb.
  destruct (Nat.eqb_spec x b), (Nat.eqb_spec y a), (Nat.eqb_spec x a), (Nat.eqb_spec y b); simpl; subst; auto; congruence.
Qed.

Lemma drop_run : forall g a b, PG g -> In a (node_list g) -> In b (node_list g) ->
  exists g', drops g a b g' /\ forall (A : Type) (k : unit -> M A),
    bind (query (fun g => get_edge g a b)) (fun e =>
      bind (match e with Some _ => remove_edge a b | None => ret tt end) k) g = k tt g'.
Proof.
  intros g a b P Ha Hb. assert (W := pg_wf g P).
  destruct (edge_of g a b) as [e|] eqn:Ee.
  - destruct (remove_edge_ok g a b W Ha Hb) as [g' [E [W' [[S1 [S2 S3]] M]]]].
    exists g'. split.
    + constructor; auto; [|intros; rewrite M; apply subs_samepb].
      constructor; auto; [rewrite S1; apply (pg_kind g P)|].
      intros x y m H. rewrite M, subs_samepb in H. destruct (samepb x y a b); [discriminate|]. eapply (pg_tab g P); eauto.
    + intros A k. rewrite (bind_run _ _ _ _ _ (query_run _ _ _ (get_edge_ok g a b W Ha Hb))). rewrite Ee.
      rewrite (bind_run _ _ _ _ _ E). auto.
  - assert (M : mk g a b = None /\ mk g b a = None).
    { unfold edge_of in Ee. destruct (mk g a b) as [m|] eqn:E1; destruct (mk g b a) as [m'|] eqn:E2; try discriminate; auto; exfalso.
      - apply (wf_sym g W a b); congruence.
      - apply (wf_sym g W b a); congruence. }
    exists g. split.
    + constructor; auto. intros x y. destruct (samepb x y a b) eqn:E; auto.
      apply samepb_spec in E. destruct E as [[-> ->]|[-> ->]]; tauto.
    + intros A k. rewrite (bind_run _ _ _ _ _ (query_run _ _ _ (get_edge_ok g a b W Ha Hb))). rewrite Ee. reflexivity.
Qed.

Lemma drops_orients : forall g a b g1 g2, g_kind g = KPDAG -> drops g a b g1 -> orients g1 a b g2 -> orients g a b g2.
Proof.
  intros g a b g1 g2 K [P N M] [W K' N' M']. constructor; auto; try congruence.
  - rewrite K', K. apply (pg_kind g1 P).
  - intros x y. rewrite M'. unfold omk. rewrite M. unfold samepb.
    destruct (Nat.eqb_spec x a), (Nat.eqb_spec y b), (Nat.eqb_spec x b), (Nat.eqb_spec y a); simpl; auto.
Qed.

(* ---------- Insert and Delete ---------- *)
Section Ops.
  Variable g : graph.
  Hypothesis P : PG g.
  Let n := vars g.
  Let nd := name g.

  Lemma nd_node : forall i, i < n -> In (nd i) (node_list g).
  Proof using. intros. apply nth_In. auto. Qed.

  (** The arrows from the nodes of [S] into [b] are set, nothing else. *)
  Record arrows_into (S : nat -> Prop) (b : nat) (g' : graph) : Prop := {
    ai_pg : PG g';
    ai_nodes : node_list g' = node_list g;
    ai_new : forall x, S x -> dirp g' x b;
    ai_old : forall x y, ~ (y = b /\ S x) -> ~ (x = b /\ S y) -> mk g' x y = mk g x y
  }.

  Lemma Insert_ok : forall i j T, i < n -> j < n -> nd i <> nd j -> (forall t, In t T -> t < n /\ nd t <> nd j) ->
    exists g', Insert i j T g = (g', Ok tt) /\ arrows_into (fun x => x = nd i \/ In x (map nd T)) (nd j) g'.
  Proof using P.
    intros i j T Hi Hj N HT. unfold Insert.
    rewrite (bind_run _ _ _ _ _ (query_run _ _ _ (node_at_ok g i Hi))).
    rewrite (bind_run _ _ _ _ _ (query_run _ _ _ (node_at_ok g j Hj))).
    change (nth i (node_list g) 0) with (nd i). change (nth j (node_list g) 0) with (nd j).
    destruct (set_arrow_ok g (nd i) (nd j) P (nd_node i Hi) (nd_node j Hj) N) as [g1 [E1 O1]].
    rewrite (bind_run _ _ _ _ _ E1).
    set (I := fun (pre : list nat) h => arrows_into (fun x => x = nd i \/ In x (map nd pre)) (nd j) h).
    assert (I1 : I [] g1).
    { constructor; [eapply orients_PG; eauto|apply (or_nodes _ _ _ _ O1)| |].
      - intros x [->|[]]. apply (orients_dir _ _ _ _ O1). auto.
      - intros x y H1 H2. rewrite (or_mk _ _ _ _ O1). apply omk_other; intros [-> ->]; tauto. }
    match goal with |- exists g', forM T ?f g1 = _ /\ _ => assert (H : triple (I []) (forM T f) (fun _ => I T)) end.
    { apply triple_forM_idx with (pre := []); auto. intros pre t suf Et h [Ph Nh An Ao].
      assert (Ht : In t T) by (rewrite <- Et; apply in_app_iff; simpl; auto). destruct (HT t Ht) as [Ht1 Ht2].
      assert (Eat : node_at h t = Ok (nd t)).
      { unfold node_at. rewrite Nh. unfold nd, name, nodes. rewrite (nth_error_nth' (node_list g) 0 Ht1). auto. }
      rewrite (bind_run _ _ _ _ _ (query_run _ _ _ Eat)).
      destruct (drop_run h (nd t) (nd j) Ph) as [h1 [D1 R1]]; [rewrite Nh; apply nd_node; auto|rewrite Nh; apply nd_node; auto|].
      rewrite R1.
      destruct (set_arrow_ok h1 (nd t) (nd j) (dr_pg _ _ _ _ D1)) as [h2 [E2 O2]]; auto.
      { rewrite (dr_nodes _ _ _ _ D1), Nh. apply nd_node; auto. } { rewrite (dr_nodes _ _ _ _ D1), Nh. apply nd_node; auto. }
      assert (O := drops_orients _ _ _ _ _ (pg_kind h Ph) D1 O2).
      exists h2, tt. split; auto. constructor.
      - eapply orients_PG; [exact Ph|exact O].
      - rewrite (or_nodes _ _ _ _ O). auto.
      - intros x Hx. destruct (Nat.eq_dec x (nd t)) as [->|Nx].
        + apply (orients_dir _ _ _ _ O). auto.
        + assert (Sx : x = nd i \/ In x (map nd pre)).
          { destruct Hx as [Hx|Hx]; auto. rewrite map_app, in_app_iff in Hx. simpl in Hx. destruct Hx as [Hx|[Hx|[]]]; auto. congruence. }
          assert (Q := An x Sx). unfold dirp in *. rewrite !(or_mk _ _ _ _ O).
          assert (x <> nd j) by (destruct Sx as [->|Sx]; auto; apply in_map_iff in Sx; destruct Sx as [t' [<- Ht']];
            apply HT; rewrite <- Et; apply in_app_iff; auto).
          rewrite !omk_other; tauto.
      - intros x y H1 H2. rewrite map_app in H1, H2.
        assert (In (nd t) (map nd pre ++ map nd [t])) by (apply in_app_iff; simpl; auto).
        rewrite (or_mk _ _ _ _ O), omk_other by (intros [-> ->]; tauto).
        apply Ao; rewrite in_app_iff in *; tauto. }
    destruct (H g1 I1) as [g' [[] [E' I']]]. exists g'. split; auto.
  Qed.

  (** The pair {a, b} is removed, the arrows from [a] and [b] to the nodes of [S]
      are set, nothing else. *)
  Record deleted (S : nat -> Prop) (a b : nat) (g' : graph) : Prop := {
    de_pg : PG g';
    de_nodes : node_list g' = node_list g;
    de_gone : mk g' a b = None /\ mk g' b a = None;
    de_new : forall x, S x -> dirp g' a x /\ dirp g' b x;
    de_old : forall x y, ~ same_pair x y a b -> ~ ((x = a \/ x = b) /\ S y) -> ~ ((y = a \/ y = b) /\ S x) -> mk g' x y = mk g x y
  }.

  Lemma Delete_ok : forall i j H, i < n -> j < n -> nd i <> nd j -> (forall h, In h H -> h < n /\ nd h <> nd i /\ nd h <> nd j) ->
    exists g', Delete i j H g = (g', Ok tt) /\ deleted (fun x => In x (map nd H)) (nd i) (nd j) g'.
  Proof using P.
    intros i j H Hi Hj N HH. unfold Delete.
    rewrite (bind_run _ _ _ _ _ (query_run _ _ _ (node_at_ok g i Hi))).
    rewrite (bind_run _ _ _ _ _ (query_run _ _ _ (node_at_ok g j Hj))).
    change (nth i (node_list g) 0) with (nd i). change (nth j (node_list g) 0) with (nd j).
    destruct (drop_run g (nd i) (nd j) P (nd_node i Hi) (nd_node j Hj)) as [g1 [D R]]. rewrite R. clear R.
    set (I := fun (pre : list nat) h => deleted (fun x => In x (map nd pre)) (nd i) (nd j) h).
    assert (I1 : I [] g1).
    { destruct D as [D1 D2 D3]. constructor; auto.
      - rewrite !D3. rewrite !(proj2 (samepb_spec _ _ _ _)); auto; unfold same_pair; auto.
      - intros x [].
      - intros x y H1 _ _. rewrite D3. rewrite (proj2 (samepb_false _ _ _ _)); auto. }
    match goal with |- exists g', forM H ?f g1 = _ /\ _ => assert (T : triple (I []) (forM H f) (fun _ => I H)) end.
    { apply triple_forM_idx with (pre := []); auto. intros pre t suf Et h [Ph Nh Ag An Ao].
      assert (Ht : In t H) by (rewrite <- Et; apply in_app_iff; simpl; auto). destruct (HH t Ht) as [Ht1 [Ht2 Ht3]].
      assert (Eat : node_at h t = Ok (nd t)).
      { unfold node_at. rewrite Nh. unfold nd, name, nodes. rewrite (nth_error_nth' (node_list g) 0 Ht1). auto. }
      rewrite (bind_run _ _ _ _ _ (query_run _ _ _ Eat)).
      assert (Hin : forall k, k < n -> In (nd k) (node_list h)) by (intros; rewrite Nh; apply nd_node; auto).
      destruct (drop_run h (nd j) (nd t) Ph) as [h1 [D1 R1]]; auto. rewrite R1.
      assert (N1 := dr_nodes _ _ _ _ D1).
      destruct (drop_run h1 (nd i) (nd t) (dr_pg _ _ _ _ D1)) as [h2 [D2 R2]]; [rewrite N1; auto|rewrite N1; auto|]. rewrite R2.
      assert (N2 := dr_nodes _ _ _ _ D2).
      destruct (set_arrow_ok h2 (nd j) (nd t) (dr_pg _ _ _ _ D2)) as [h3 [E3 O3]]; auto.
      { rewrite N2, N1. auto. } { rewrite N2, N1. auto. }
      rewrite (bind_run _ _ _ _ _ E3). assert (P3 := orients_PG _ _ _ _ (dr_pg _ _ _ _ D2) O3).
      assert (N3 := or_nodes _ _ _ _ O3).
      destruct (set_arrow_ok h3 (nd i) (nd t) P3) as [h4 [E4 O4]]; auto.
      { rewrite N3, N2, N1. auto. } { rewrite N3, N2, N1. auto. }
      exists h4, tt. split; auto.
      assert (M4 : forall x y, mk h4 x y = omk h3 (nd i) (nd t) x y) by apply (or_mk _ _ _ _ O4).
      assert (M3 : forall x y, mk h3 x y = omk h2 (nd j) (nd t) x y) by apply (or_mk _ _ _ _ O3).
      assert (Oth : forall x y, ~ same_pair x y (nd i) (nd t) -> ~ same_pair x y (nd j) (nd t) -> mk h4 x y = mk h x y).
      { intros x y S1 S2. rewrite M4. unfold same_pair in S1, S2. rewrite omk_other by tauto. rewrite M3, omk_other by tauto.
        rewrite (dr_mk _ _ _ _ D2), (proj2 (samepb_false _ _ _ _)) by auto.
        rewrite (dr_mk _ _ _ _ D1), (proj2 (samepb_false _ _ _ _)) by auto. auto. }
      constructor.
      - eapply orients_PG; [exact P3|exact O4].
      - rewrite (or_nodes _ _ _ _ O4). congruence.
      - rewrite !Oth; auto; unfold same_pair; intuition congruence.
      - intros x Hx. rewrite map_app, in_app_iff in Hx. destruct (Nat.eq_dec x (nd t)) as [->|Nx].
        + split; [apply (orients_dir _ _ _ _ O4); auto|]. unfold dirp. rewrite !M4, !omk_other by intuition congruence.
          apply (orients_dir _ _ _ _ O3). auto.
        + destruct Hx as [Hx|[Hx|[]]]; [|congruence]. destruct (An x Hx) as [Q1 Q2]. unfold dirp in *.
          assert (x <> nd i /\ x <> nd j) by (apply in_map_iff in Hx; destruct Hx as [t' [<- Ht']];
            apply HH; rewrite <- Et; apply in_app_iff; auto).
          rewrite !Oth; auto; unfold same_pair; intuition congruence.
      - intros x y H1 H2 H3. rewrite map_app in H2, H3.
        assert (In (nd t) (map nd pre ++ map nd [t])) by (apply in_app_iff; simpl; auto).
        rewrite Oth.
        + apply Ao; auto; rewrite in_app_iff in *; tauto.
        + intros [[-> ->]|[-> ->]]; tauto.
        + intros [[-> ->]|[-> ->]]; tauto. }
    destruct (T g1 I1) as [g' [[] [E' I']]]. exists g'. split; auto.
  Qed.
End Ops.

(* ---------- the graphs of the search ---------- *)
Definition dir_or_und (g : graph) : Prop := forall u v, conp g u v -> dirp g u v \/ dirp g v u \/ undp g u v.

Record good (n : nat) (g : graph) : Prop := {
  gd_pg : PG g;
  gd_loop : forall u, ~ conp g u u;
  gd_edges : dir_or_und g;
  gd_nodes : node_list g = seq 0 n
}.

Lemma good_vars : forall n g, good n g -> vars g = n.
Proof. intros n g G. unfold vars, nodes. rewrite (gd_nodes n g G). apply seq_length. Qed.
Lemma good_name : forall n g i, good n g -> i < n -> name g i = i.
Proof. intros n g i G H. unfold name, nodes. rewrite (gd_nodes n g G). rewrite seq_nth; auto. Qed.
Lemma good_in : forall n g u v, good n g -> conp g u v -> u < n /\ v < n.
Proof.
  intros n g u v G C. destruct (con_nodes g u v (pg_wf g (gd_pg n g G)) C) as [H1 H2].
  rewrite (gd_nodes n g G) in H1, H2. apply in_seq in H1, H2. lia.
Qed.

Lemma und_lt : forall n g j x, good n g -> j < n -> x < n -> und_i g j x -> undp g j x /\ x <> j.
Proof.
  intros n g j x G Hj Hx H. apply (und_i_p g (gd_pg n g G)) in H. rewrite !(good_name n g) in H by auto.
  split; auto. intros ->. apply (gd_loop n g G j). apply undp_con. auto.
Qed.

Lemma insert_step : forall n g max_p i j T, good n g -> insert_op g max_p i j T ->
  i < n /\ j < n /\ i <> j /\ ~ conp g i j /\
  exists p, run_on (Insert i j T) g = Ok p /\ good n p /\ forall x y, conp p x y <-> conp g x y \/ same_pair x y i j.
Proof.
  intros n g max_p i j T G [Hi [Hj [N [NA [_ [_ HT]]]]]]. rewrite (good_vars n g G) in *.
  assert (P := gd_pg n g G). rewrite (adj_i_p g P), !(good_name n g) in NA by auto.
  split; auto. split; auto. split; auto. split; auto.
  destruct (Insert_ok g P i j T) as [p [E [Pp Np An Ao]]].
  { rewrite (good_vars n g G). auto. } { rewrite (good_vars n g G). auto. } { rewrite !(good_name n g); auto. }
  { intros t Ht. destruct (HT t Ht) as [H1 [H2 _]]. rewrite (good_vars n g G). split; auto. rewrite !(good_name n g) by auto.
    apply (und_lt n g j t); auto. }
  exists p. split; [unfold run_on; rewrite E; auto|].
  assert (Em : map (name g) T = T).
  { rewrite <- (map_id T) at 2. apply map_ext_in. intros t Ht. apply (good_name n g); auto. apply HT. auto. }
  rewrite Em in An, Ao. rewrite !(good_name n g) in An, Ao by auto.
  assert (Hs : forall x, x = i \/ In x T -> x <> j).
  { intros x [->|H]; auto. apply (und_lt n g j x); auto; apply HT; auto. }
  assert (Con : forall x y, conp p x y <-> conp g x y \/ same_pair x y i j).
  { intros x y.
    assert (D1 : (y = j /\ (x = i \/ In x T)) \/ ~ (y = j /\ (x = i \/ In x T))).
    { destruct (Nat.eq_dec y j), (Nat.eq_dec x i), (in_dec Nat.eq_dec x T); tauto. }
    assert (D2 : (x = j /\ (y = i \/ In y T)) \/ ~ (x = j /\ (y = i \/ In y T))).
    { destruct (Nat.eq_dec x j), (Nat.eq_dec y i), (in_dec Nat.eq_dec y T); tauto. }
    assert (CT : forall t, In t T -> conp g t j /\ conp g j t).
    { intros t Ht. destruct (und_lt n g j t G Hj) as [U _]; try apply HT; auto. split; apply undp_con; auto. apply undp_sym; auto. }
    destruct D1 as [[-> S]|D1].
    - split; [|intros _; apply dirp_con; auto]. intros _. destruct S as [->|S]; [right; left; auto|left; apply CT; auto].
    - destruct D2 as [[-> S]|D2].
      + split; [|intros _; destruct (An y S) as [_ Q]; unfold conp; congruence].
        intros _. destruct S as [->|S]; [right; right; auto|left; apply CT; auto].
      + unfold conp. rewrite Ao by auto. split; auto. intros [Q|[[-> ->]|[-> ->]]]; auto; exfalso; tauto. }
  split; auto. constructor; auto.
  - intros u C. apply Con in C. destruct C as [C|C]; [apply (gd_loop n g G u); auto|]. destruct C as [[? ?]|[? ?]]; congruence.
  - intros u v C.
    assert (D1 : (v = j /\ (u = i \/ In u T)) \/ ~ (v = j /\ (u = i \/ In u T))).
    { destruct (Nat.eq_dec v j), (Nat.eq_dec u i), (in_dec Nat.eq_dec u T); tauto. }
    assert (D2 : (u = j /\ (v = i \/ In v T)) \/ ~ (u = j /\ (v = i \/ In v T))).
    { destruct (Nat.eq_dec u j), (Nat.eq_dec v i), (in_dec Nat.eq_dec v T); tauto. }
    destruct D1 as [[-> S]|D1]; [left; auto|]. destruct D2 as [[-> S]|D2]; [right; left; auto|].
    unfold dirp, undp. rewrite !Ao by auto. apply (gd_edges n g G). unfold conp in C. rewrite Ao in C; auto.
  - rewrite Np. apply (gd_nodes n g G).
Qed.

Lemma delete_step : forall n g i j H, good n g -> delete_op g i j H ->
  i < n /\ j < n /\ i <> j /\ conp g i j /\
  exists p, run_on (Delete i j H) g = Ok p /\ good n p /\ forall x y, conp p x y <-> conp g x y /\ ~ same_pair x y i j.
Proof.
  intros n g i j H G [Hi [Hj [C0 [_ HH]]]]. rewrite (good_vars n g G) in *.
  assert (P := gd_pg n g G).
  assert (C : conp g i j).
  { destruct C0 as [C0|C0].
    - apply (und_i_p g P) in C0. rewrite !(good_name n g) in C0 by auto. apply undp_con; auto.
    - apply (arrow_i_mk g i j (pg_wf g P)) in C0; [|rewrite (good_vars n g G); auto|rewrite (good_vars n g G); auto]. rewrite !(good_name n g) in C0 by auto. unfold conp. congruence. }
  assert (N : i <> j) by (intros ->; apply (gd_loop n g G j); auto).
  split; auto. split; auto. split; auto. split; auto.
  assert (HH' : forall h, In h H -> h < n /\ h <> i /\ h <> j /\ conp g i h /\ conp g j h).
  { intros h Hh. destruct (HH h Hh) as [H1 [H2 H3]]. rewrite (good_vars n g G) in H1.
    destruct (und_lt n g j h G Hj H1 H2) as [U Nj]. apply (adj_i_p g P) in H3. rewrite !(good_name n g) in H3 by auto.
    split; auto. split; [intros ->; apply (gd_loop n g G i); auto|]. split; auto. split; auto. apply undp_con; auto. }
  destruct (Delete_ok g P i j H) as [p [E [Pp Np Ag An Ao]]].
  { rewrite (good_vars n g G). auto. } { rewrite (good_vars n g G). auto. } { rewrite !(good_name n g); auto. }
  { intros t Ht. destruct (HH' t Ht) as [H1 [H2 [H3 _]]]. rewrite (good_vars n g G). rewrite !(good_name n g) by auto. auto. }
  exists p. split; [unfold run_on; rewrite E; auto|].
  assert (Em : map (name g) H = H).
  { rewrite <- (map_id H) at 2. apply map_ext_in. intros t Ht. apply (good_name n g); auto. apply HH'. auto. }
  rewrite Em in An, Ao. rewrite !(good_name n g) in Ag, An, Ao by auto.
  assert (D1 : forall x y, ((x = i \/ x = j) /\ In y H) \/ ~ ((x = i \/ x = j) /\ In y H)).
  { intros x y. destruct (Nat.eq_dec x i), (Nat.eq_dec x j), (in_dec Nat.eq_dec y H); tauto. }
  assert (D0 : forall x y, same_pair x y i j \/ ~ same_pair x y i j).
  { intros x y. destruct (samepb x y i j) eqn:Q; [left; apply samepb_spec; auto|right; apply samepb_false; auto]. }
  assert (Gone : forall x y, same_pair x y i j -> ~ conp p x y).
  { intros x y [[-> ->]|[-> ->]]; unfold conp; tauto. }
  assert (Con : forall x y, conp p x y <-> conp g x y /\ ~ same_pair x y i j).
  { intros x y. destruct (D0 x y) as [S|S]; [specialize (Gone x y S); tauto|].
    assert (W := pg_wf g P).
    destruct (D1 x y) as [[Q1 Q2]|D]; [|destruct (D1 y x) as [[Q1 Q2]|D']].
    - assert (conp g x y) by (destruct Q1 as [->| ->]; apply HH'; auto).
      assert (conp p x y) by (destruct Q1 as [->| ->]; apply dirp_con; apply An; auto). tauto.
    - assert (conp g x y) by (apply conp_sym; auto; destruct Q1 as [->| ->]; apply HH'; auto).
      assert (conp p x y) by (apply conp_sym; [apply (pg_wf p Pp)|]; destruct Q1 as [->| ->]; apply dirp_con; apply An; auto). tauto.
    - unfold conp. rewrite Ao by auto. tauto. }
  split; auto. constructor; auto.
  - intros u Cu. apply Con in Cu. apply (gd_loop n g G u); tauto.
  - intros u v Cu. assert (S := proj2 (proj1 (Con u v) Cu)).
    destruct (D1 u v) as [[Q1 Q2]|D]; [|destruct (D1 v u) as [[Q1 Q2]|D']].
    + left. destruct Q1 as [->| ->]; apply An; auto.
    + right. left. destruct Q1 as [->| ->]; apply An; auto.
    + assert (S' : ~ same_pair v u i j) by (intro Q; apply S; unfold same_pair in *; tauto).
      unfold dirp, undp. rewrite !Ao by auto. apply (gd_edges n g G). unfold conp in Cu. rewrite Ao in Cu; auto.
  - rewrite Np. apply (gd_nodes n g G).
Qed.

(* ---------- rebuild ---------- *)
Definition orders_ok (order : graph -> nat -> nat -> nat -> list nat) : Prop :=
  forall d u v k, reachable KDiGraph d -> NoDup (order d u v k) /\
    forall x, In x (order d u v k) <-> In x (nodes d) /\ x <> u /\ x <> v.

Lemma rebuild_ok : forall n p fuel order, good n p -> orders_ok order -> n <= fuel ->
  (exists g', rebuild fuel order p = Ok g' /\ good n g' /\ forall x y, conp g' x y <-> conp p x y) \/
  (rebuild fuel order p = Err OutOfFuel /\ ~ exists E, extension p E).
Proof.
  intros n p fuel order [P NL NB Nd] Ho Hf. unfold rebuild.
  destruct (pdag2dag_cases p P NL NB fuel) as [[d [E R]]|E]; rewrite E; cbn [rbind].
  - left. destruct R as [Rd [Ndd [C [Ac _]]]]. assert (D := reachable_DG d Rd).
    assert (Aa : acyclic (arc d)).
    { eapply acyclic_ext; [|exact Ac]. intros u v. unfold dirp, arc. pose proof (arc_dirb d D u v) as Q.
      rewrite dirb_spec in Q. unfold arc in Q. tauto. }
    destruct (dag2cpdag_ok d (order d) D Aa) as [g0 [p0 [g' [k [_ [_ [Pp [_ [E' [O _]]]]]]]]]].
    { intros u v k. apply (Ho d u v k Rd). }
    rewrite E'. exists g'. split; auto.
    assert (Con : forall x y, conp g' x y <-> conp p x y).
    { intros x y. rewrite <- C. rewrite (osteps_con _ _ _ _ any_sound O), (pt_con _ _ _ Pp).
      destruct (Nat.eq_dec x y) as [->|Ne].
      - split; intro H.
        + exfalso. destruct H as [H|H]; apply (dg_loop d D y); auto.
        + exfalso. apply (NL y). apply C. auto.
      - unfold adjacent, conp. rewrite (adjacent_mk d D x y Ne). tauto. }
    split; auto. constructor.
    + eapply osteps_PG; [|exact O]. apply (pt_pg _ _ _ Pp).
    + intros u H. apply (NL u). apply Con. auto.
    + intros u v H. destruct (osteps_und_dir p0 k g' (pt_pg _ _ _ Pp) O (pt_und _ _ _ Pp) u v H); tauto.
    + rewrite (osteps_nodes _ _ _ _ O), (pt_nodes _ _ _ Pp), Ndd. auto.
  - right. split; auto. intro Ex. destruct (pdag2dag_complete p P NL NB Ex fuel) as [d [E' _]]; [|congruence].
    rewrite Nd, seq_length. auto.
Qed.

(* ---------- counting connected pairs ---------- *)
Definition pairs (n : nat) (g : graph) : nat := length (filter (fun p => connb g (fst p) (snd p)) (comb2 (seq 0 n))).

Lemma pairs_le : forall n g, 2 * pairs n g <= n * (n - 1).
Proof.
  intros n g. unfold pairs. pose proof (comb2_length (seq 0 n)) as H. rewrite seq_length in H.
  assert (L : forall (A : Type) (f : A -> bool) l, length (filter f l) <= length l).
  { intros A f l. induction l as [|a l IH]; simpl; auto. destruct (f a); simpl; lia. }
  specialize (L _ (fun p => connb g (fst p) (snd p)) (comb2 (seq 0 n))). lia.
Qed.

Lemma pairs_lt : forall n g g' i j, good n g -> good n g' -> i < n -> j < n -> i <> j -> ~ conp g i j ->
  (forall x y, conp g x y -> conp g' x y) -> conp g' i j -> pairs n g < pairs n g'.
Proof.
  intros n g g' i j G G' Hi Hj N C H C'. unfold pairs.
  assert (X : In (i, j) (comb2 (seq 0 n)) \/ In (j, i) (comb2 (seq 0 n))).
  { apply in_comb2_total; auto; apply in_seq; lia. }
  assert (Sub : forall q : nat * nat, connb g (fst q) (snd q) = true -> connb g' (fst q) (snd q) = true).
  { intros q. rewrite !connb_p. apply H. }
  destruct X as [X|X]; eapply filter_lt; try exact X; auto; cbn [fst snd].
  - apply connb_p. auto.
  - destruct (connb g i j) eqn:E; auto. exfalso. apply C, connb_p; auto.
  - apply connb_p. apply conp_sym; auto. apply (pg_wf g' (gd_pg n g' G')).
  - destruct (connb g j i) eqn:E; auto. exfalso. apply C, conp_sym; [apply (pg_wf g (gd_pg n g G))|]. apply connb_p; auto.
Qed.

(* ---------- a greedy phase ---------- *)
(** The steps of [tr] lead from [g] to [g']. *)
Fixpoint chain (g : graph) (tr : list step) (g' : graph) : Prop :=
  match tr with
  | [] => g = g'
  | s :: r => st_graph s = g /\ chain (st_next s) r g'
  end.

Section Greedy.
  Variables n fuel : nat.
  Variable order : graph -> nat -> nat -> nat -> list nat.
  Hypothesis Ho : orders_ok order.
  Hypothesis Hf : n <= fuel.
  Variable do_scan : graph -> memo -> res scan.
  Variable app_op : nat -> nat -> list nat -> M unit.
  (** Valid operators, the change of the skeleton, scores, table, visited graphs, measure. *)
  Variable V : graph -> nat -> nat -> list nat -> Prop.
  Variable K : graph -> nat -> nat -> nat -> nat -> Prop.
  Variable R : graph -> nat -> nat -> list nat -> Q -> Prop.
  Variable J : memo -> Prop.
  Variable Vis : graph -> Prop.
  Variable mu : graph -> nat.
  Hypothesis H_scan : forall g m, good n g -> J m ->
    exists s ops, do_scan g m = Ok s /\ GESScan.Inv J (R g) ops s /\ forall i j T, In (i, j, T) ops <-> V g i j T.
  Hypothesis H_op : forall g i j T, good n g -> V g i j T ->
    exists p, run_on (app_op i j T) g = Ok p /\ good n p /\ (forall x y, conp p x y <-> K g i j x y) /\
      forall g', good n g' -> (forall x y, conp g' x y <-> conp p x y) -> mu g' < mu g.
  Hypothesis H_vis : forall g i j T p g', good n g -> Vis g -> V g i j T -> run_on (app_op i j T) g = Ok p ->
    rebuild fuel order p = Ok g' -> Vis g'.

  (** An accepted step. *)
  Record step_ok (s : step) : Prop := {
    so_good : good n (st_graph s);
    so_next : good n (st_next s);
    so_vis : Vis (st_graph s);
    so_valid : let '(i, j, T) := st_op s in V (st_graph s) i j T /\ R (st_graph s) i j T (st_gain s) /\
        (forall x y, conp (st_next s) x y <-> K (st_graph s) i j x y) /\
        exists p, run_on (app_op i j T) (st_graph s) = Ok p /\ rebuild fuel order p = Ok (st_next s);
    so_pos : (0 < st_gain s)%Q;
    so_max : forall i j T, V (st_graph s) i j T -> exists q, R (st_graph s) i j T q /\ (q <= st_gain s)%Q
  }.

  Lemma greedy_ok : forall rounds g score m, good n g -> Vis g -> J m -> mu g < rounds ->
    (exists g' score' m' tr, greedy rounds fuel order do_scan app_op g score m = Ok (g', score', m', tr) /\
      good n g' /\ Vis g' /\ J m' /\ chain g tr g' /\ length tr + mu g' <= mu g /\
      score' = fold_left Qplus (map st_gain tr) score /\ Forall step_ok tr /\
      forall i j T, V g' i j T -> exists q, R g' i j T q /\ (q <= 0)%Q) \/
    (greedy rounds fuel order do_scan app_op g score m = Err OutOfFuel /\
     exists h i j T p, good n h /\ Vis h /\ V h i j T /\ run_on (app_op i j T) h = Ok p /\ good n p /\ (~ exists E, extension p E) /\
       exists tr, chain g tr h /\ Forall step_ok tr).
  Proof using Ho Hf H_scan H_op H_vis.
    induction rounds as [|r IH]; intros g score m G Vg Jm L; [lia|]. simpl.
    destruct (H_scan g m G Jm) as [s [ops [Es [[J' [[B1 B2] [Ev HR]]] Hops]]]]. rewrite Es. cbn [rbind].
    assert (All : forall i j T, V g i j T -> exists q, R g i j T q /\ (q <= sc_max s)%Q).
    { intros i j T Hv. apply Hops in Hv. rewrite <- Ev in Hv. apply in_map_iff in Hv. destruct Hv as [[op q] [Q1 Q2]].
      cbn [fst] in Q1. subst op. exists q. split; [apply HR; auto|eapply B1; eauto]. }
    destruct (sc_ac s) as [[[i j] T]|] eqn:Ac.
    - assert (Hin : V g i j T).
      { apply Hops. rewrite <- Ev. apply in_map_iff. exists (i, j, T, sc_max s). auto. }
      assert (HRm : R g i j T (sc_max s)) by (apply HR; auto).
      destruct (Qle_bool (score + sc_max s - score) 0) eqn:Eq.
      + left. exists g, score, (sc_memo s), []. split; auto. split; auto. split; auto. split; auto. split; [reflexivity|].
        split; [simpl; lia|]. split; [reflexivity|]. split; [constructor|].
        apply Qle_bool_iff in Eq. assert (sc_max s <= 0)%Q by lra.
        intros i' j' T' Hv. destruct (All i' j' T' Hv) as [q [Q1 Q2]]. exists q. split; auto. lra.
      + apply Qlt_of_Qle_bool in Eq. assert (Pos : (0 < sc_max s)%Q) by lra.
        destruct (H_op g i j T G Hin) as [p [Ep [Gp [Kp Mp]]]]. rewrite Ep. cbn [rbind].
        destruct (rebuild_ok n p fuel order Gp Ho Hf) as [[g2 [E2 [G2 C2]]]|[E2 Nx]].
        * rewrite E2. cbn [rbind]. assert (V2 : Vis g2) by (apply (H_vis g i j T p g2); auto).
          assert (mu g2 < mu g) by (apply Mp; auto).
          destruct (IH g2 (score + sc_max s)%Q (sc_memo s) G2 V2 J') as [[g' [sc' [m' [tr [E' [G' [V' [Jm' [Ch [Ln [Sc [Al Fin]]]]]]]]]]]]|[E' X]];
            [lia| |].
          -- left. rewrite E'. cbn [rbind]. exists g', sc', m', (mkStep g (i, j, T) (sc_max s) g2 :: tr).
             split; auto. split; auto. split; auto. split; auto. split; [split; auto|]. split; [simpl; lia|].
             split; [simpl; auto|]. split; [|auto]. constructor; auto. constructor; cbn [st_graph st_next st_op st_gain]; auto.
             split; auto. split; auto. split; [intros x y; rewrite C2; apply Kp|]. exists p. auto.
          -- right. rewrite E'. cbn [rbind]. split; auto.
             destruct X as [h [i1 [j1 [T1 [p1 [X1 [X2 [X3 [X4 [X5 [X6 [tr [Ch F]]]]]]]]]]]]].
             exists h, i1, j1, T1, p1. split; auto. split; auto. split; auto. split; auto. split; auto. split; auto.
             exists (mkStep g (i, j, T) (sc_max s) g2 :: tr). split; [split; auto|]. constructor; auto.
             constructor; cbn [st_graph st_next st_op st_gain]; auto.
             split; auto. split; auto. split; [intros x y; rewrite C2; apply Kp|]. exists p. auto.
        * right. rewrite E2. cbn [rbind]. split; auto. exists g, i, j, T, p. split; auto. split; auto. split; auto. split; auto.
          split; auto. split; auto. exists []. split; [reflexivity|constructor].
    - left. exists g, score, (sc_memo s), []. split; auto. split; auto. split; auto. split; auto. split; [reflexivity|].
      split; [simpl; lia|]. split; [reflexivity|]. split; [constructor|].
      intros i' j' T' Hv. destruct (All i' j' T' Hv) as [q [Q1 Q2]]. exists q. split; auto. rewrite B2 in Q2.
      apply Qle_trans with (inject_Z (-10000000)); auto. discriminate.
  Qed.
End Greedy.

(** The graphs a search can visit with valid operators. *)
Inductive visited (fuel : nat) (order : graph -> nat -> nat -> nat -> list nat) (max_p : Q) (n : nat) : graph -> Prop :=
| visited_start : forall g g0, new_graph KPDAG (seq 0 n) = Ok g -> rebuild fuel order g = Ok g0 ->
    visited fuel order max_p n g0
| visited_insert : forall g i j T p g', visited fuel order max_p n g -> insert_op g max_p i j T -> insert_valid g i j T ->
    run_on (Insert i j T) g = Ok p -> rebuild fuel order p = Ok g' -> visited fuel order max_p n g'
| visited_delete : forall g i j H p g', visited fuel order max_p n g -> delete_op g i j H -> delete_valid g i j H ->
    run_on (Delete i j H) g = Ok p -> rebuild fuel order p = Ok g' -> visited fuel order max_p n g'.

(** The score of the empty graph. *)
Definition empty_score (sf : lscore) (n : nat) : Q := fold_left (fun s i => (s + sf i [])%Q) (seq 0 n) 0%Q.

Lemma start_ok : forall n, exists g, new_graph KPDAG (seq 0 n) = Ok g /\ good n g /\ (forall x y, ~ conp g x y).
Proof.
  intro n. destruct (new_graph_ok KPDAG (seq 0 n) (seq_NoDup n 0)) as [g [E [W [K [N M]]]]].
  exists g. split; auto. assert (C : forall x y, ~ conp g x y) by (intros x y H; apply H; apply M).
  split; auto. constructor; auto.
  - constructor; auto. intros x y m H. rewrite M in H. discriminate.
  - intros u v H. exfalso. apply (C u v); auto.
Qed.

Lemma enumerate_seq : forall n a, enumerate_from a (seq a n) = map (fun i => (i, i)) (seq a n).
Proof. induction n as [|n IH]; intro a; simpl; auto. rewrite IH. auto. Qed.

Lemma Score_G_empty : forall n g sf, good n g -> (forall x y, ~ conp g x y) -> Score_G g sf = Ok (empty_score sf n).
Proof.
  intros n g sf G C. unfold Score_G, empty_score. rewrite (gd_nodes n g G), enumerate_seq.
  assert (A : forall l s, (forall i, In i l -> i < n) ->
    foldE (fun score (p : nat * nat) => let (i, node) := p in
      (ns <-? get_neighbours g node ;; pa <-? filterE (fun v => is_arrow g v node) ns ;; Ok (score + sf i pa)%Q)%res) s
      (map (fun i => (i, i)) l) = Ok (fold_left (fun s i => (s + sf i [])%Q) l s)).
  { induction l as [|i l IH]; intros s H; simpl; auto.
    assert (Hi : In i (node_list g)) by (rewrite (gd_nodes n g G); apply in_seq; split; [lia|apply H; simpl; auto]).
    rewrite (get_neighbours_ok g i (pg_wf g (gd_pg n g G)) Hi). cbn [rbind].
    assert (Nb : nbrs g i = []).
    { destruct (nbrs g i) as [|v r] eqn:E; auto. exfalso. apply (C i v). apply nbrs_In. rewrite E. simpl; auto. }
    rewrite Nb. cbn [filterE rbind]. apply IH. intros; apply H; simpl; auto. }
  apply A. intros i H. apply in_seq in H. lia.
Qed.

Lemma rebuild_empty : forall n g fuel order, good n g -> (forall x y, ~ conp g x y) -> orders_ok order -> n <= fuel ->
  exists g0, rebuild fuel order g = Ok g0 /\ good n g0 /\ forall x y, ~ conp g0 x y.
Proof.
  intros n g fuel order G C Ho Hf. destruct (rebuild_ok n g fuel order G Ho Hf) as [[g0 [E [G0 C0]]]|[_ Nx]].
  - exists g0. split; auto. split; auto. intros x y H. apply (C x y). apply C0. auto.
  - exfalso. apply Nx. exists (fun _ _ => False). assert (W := pg_wf g (gd_pg n g G)). split.
    + intros x H. destruct H as [a b c []].
    + split; [|split].
      * intros u v _. rewrite connected_p by auto. split; intro H; [exfalso; apply (C u v); auto|destruct H as [[]|[]]].
      * intros u v _ H. apply (directed_p g u v W) in H. apply (C u v). apply dirp_con. auto.
      * intros u w v H. destruct H as [[] _].
Qed.

(** Without a consistent extension pdag2dag never returns. *)
Lemma not_extendable : forall n p, good n p -> (~ exists E, extension p E) -> forall fuel, pdag2dag fuel p = Err OutOfFuel.
Proof.
  intros n p [P NL NB Nd] Nx fuel. destruct (pdag2dag_cases p P NL NB fuel) as [[d [E R]]|E]; auto.
  exfalso. apply Nx. destruct R as [Rd [Ndd [C [Ac [D Vs]]]]]. assert (Dd := reachable_DG d Rd). assert (W := pg_wf p P).
  exists (dirp d). split; auto. split; [|split].
  - intros u v Ne. rewrite connected_p by auto. rewrite <- C.
    pose proof (adjacent_mk d Dd u v Ne) as Q. pose proof (arc_dirb d Dd u v) as Q1. pose proof (arc_dirb d Dd v u) as Q2.
    rewrite dirb_spec in Q1, Q2. unfold adjacent, conp, dirp in *. tauto.
  - intros u v _ H. apply D. apply (directed_p p u v W). auto.
  - intros u w v H. destruct (Vs u w v H). split; apply (directed_p p _ _ W); auto.
Qed.

Section Fit.
  Variables n fuel : nat.
  Variable order : graph -> nat -> nat -> nat -> list nat.
  Variable ord : list nat -> list nat.
  Variable sf : lscore.
  Variable max_p : Q.
  Hypothesis Ho : orders_ok order.
  Hypothesis Hord : set_order ord.
  Hypothesis Hf : n <= fuel.
  Variable J : memo -> Prop.
  Variables RI RD : graph -> nat -> nat -> list nat -> Q -> Prop.
  Hypothesis J0 : J (repeat [] n).
  Hypothesis HI : forall g i j T m, good n g -> i < n -> j < n -> J m ->
    exists q m', Insert_changed_score g i j T m sf = Ok (q, m') /\ J m' /\ RI g i j T q.
  Hypothesis HD : forall g i j T m, good n g -> i < n -> j < n -> J m ->
    exists q m', Delete_changed_score ord g i j T m sf = Ok (q, m') /\ J m' /\ RD g i j T q.

  Let Vis := visited fuel order max_p n.
  Let VI := fun g i j T => insert_op g max_p i j T /\ insert_valid g i j T.
  Let VD := fun g i j T => delete_op g i j T /\ delete_valid g i j T.
  Let KI := fun g i j x y => conp g x y \/ same_pair x y i j.
  Let KD := fun g i j x y => conp g x y /\ ~ same_pair x y i j.
  Let top := n * (n - 1) / 2.

  Lemma top_ok : forall g, pairs n g <= top.
  Proof using.
    clear Hf. intro g. unfold top. pose proof (pairs_le n g). apply Nat.div_le_lower_bound; lia.
  Qed.

  Lemma forward_phase : forall g score m, good n g -> Vis g -> J m ->
    (exists g' score' m' tr, greedy (S (n * n)) fuel order (fun g m => forward_scan sf max_p g n m) Insert g score m = Ok (g', score', m', tr) /\
      good n g' /\ Vis g' /\ J m' /\ chain g tr g' /\ length tr + (top - pairs n g') <= top - pairs n g /\
      score' = fold_left Qplus (map st_gain tr) score /\ Forall (step_ok n fuel order Insert VI KI RI Vis) tr /\
      forall i j T, VI g' i j T -> exists q, RI g' i j T q /\ (q <= 0)%Q) \/
    (greedy (S (n * n)) fuel order (fun g m => forward_scan sf max_p g n m) Insert g score m = Err OutOfFuel /\
     exists h i j T p, good n h /\ Vis h /\ VI h i j T /\ run_on (Insert i j T) h = Ok p /\ good n p /\ (~ exists E, extension p E) /\
       exists tr, chain g tr h /\ Forall (step_ok n fuel order Insert VI KI RI Vis) tr).
  Proof using Ho Hf HI.
    intros g score m G Vg Jm.
    apply (greedy_ok n fuel order Ho Hf (fun g m => forward_scan sf max_p g n m) Insert VI KI RI J Vis (fun g => top - pairs n g)); auto.
    - clear g score m G Vg Jm. intros g m G Jm. assert (Ev := good_vars n g G).
      destruct (forward_scan_ok g (gd_pg n g G) (gd_loop n g G) sf J (RI g)) with (max_p := max_p) (m := m) as [s [ops [E [I [_ H]]]]]; auto.
      { rewrite Ev. intros. apply HI; auto. }
      rewrite Ev in E. exists s, ops. split; auto.
    - clear g score m G Vg Jm. intros g i j T G [Hv _]. destruct (insert_step n g max_p i j T G Hv) as [Hi [Hj [N [C [p [E [Gp Cp]]]]]]].
      exists p. split; auto. split; auto. split; auto. intros g' G' C'.
      assert (pairs n g < pairs n g').
      { apply (pairs_lt n g g' i j); auto.
        - intros x y H. apply C', Cp. auto.
        - apply C', Cp. right. left. auto. }
      pose proof (top_ok g'). lia.
    - intros h i j T p g' _ Vh [V1 V2] E1 E2. eapply visited_insert; eauto.
    - unfold top. assert (n * (n - 1) / 2 <= n * n); [|lia]. apply Nat.div_le_upper_bound; nia.
  Qed.

  Lemma backward_phase : forall g score m, good n g -> Vis g -> J m ->
    (exists g' score' m' tr, greedy (S (n * n)) fuel order (fun g m => backward_scan ord sf g n m) Delete g score m = Ok (g', score', m', tr) /\
      good n g' /\ Vis g' /\ J m' /\ chain g tr g' /\ length tr + pairs n g' <= pairs n g /\
      score' = fold_left Qplus (map st_gain tr) score /\ Forall (step_ok n fuel order Delete VD KD RD Vis) tr /\
      forall i j T, VD g' i j T -> exists q, RD g' i j T q /\ (q <= 0)%Q) \/
    (greedy (S (n * n)) fuel order (fun g m => backward_scan ord sf g n m) Delete g score m = Err OutOfFuel /\
     exists h i j T p, good n h /\ Vis h /\ VD h i j T /\ run_on (Delete i j T) h = Ok p /\ good n p /\ (~ exists E, extension p E) /\
       exists tr, chain g tr h /\ Forall (step_ok n fuel order Delete VD KD RD Vis) tr).
  Proof using Ho Hord Hf HD.
    intros g score m G Vg Jm.
    apply (greedy_ok n fuel order Ho Hf (fun g m => backward_scan ord sf g n m) Delete VD KD RD J Vis (pairs n)); auto.
    - clear g score m G Vg Jm. intros g m G Jm. assert (Ev := good_vars n g G).
      destruct (backward_scan_ok g (gd_pg n g G) sf J (RD g) ord Hord) with (m := m) as [s [ops [E [I [_ H]]]]]; auto.
      { rewrite Ev. intros. apply HD; auto. }
      rewrite Ev in E. exists s, ops. split; auto.
    - clear g score m G Vg Jm. intros g i j T G [Hv _]. destruct (delete_step n g i j T G Hv) as [Hi [Hj [N [C [p [E [Gp Cp]]]]]]].
      exists p. split; auto. split; auto. split; auto. intros g' G' C'.
      apply (pairs_lt n g' g i j); auto.
      + intro H. apply C', Cp in H. apply H. left. auto.
      + intros x y H. apply C', Cp in H. tauto.
    - intros h i j T p g' _ Vh [V1 V2] E1 E2. eapply visited_delete; eauto.
    - pose proof (top_ok g). unfold top in *. assert (n * (n - 1) / 2 <= n * n); [|lia]. apply Nat.div_le_upper_bound; nia.
  Qed.

  Theorem fit_ok :
    (exists g0 g1 g2 s1 s2 tr1 tr2, ges_fit fuel order ord sf max_p n = Ok (g2, s2, tr1, tr2) /\
      good n g0 /\ good n g2 /\ Vis g2 /\ (forall x y, ~ conp g0 x y) /\ chain g0 tr1 g1 /\ chain g1 tr2 g2 /\
      length tr1 <= n * (n - 1) / 2 /\ length tr2 <= n * (n - 1) / 2 /\
      s1 = fold_left Qplus (map st_gain tr1) (empty_score sf n) /\ s2 = fold_left Qplus (map st_gain tr2) s1 /\
      Forall (step_ok n fuel order Insert VI KI RI Vis) tr1 /\ Forall (step_ok n fuel order Delete VD KD RD Vis) tr2 /\
      (forall i j T, VI g1 i j T -> exists q, RI g1 i j T q /\ (q <= 0)%Q) /\
      (forall i j T, VD g2 i j T -> exists q, RD g2 i j T q /\ (q <= 0)%Q)) \/
    (ges_fit fuel order ord sf max_p n = Err OutOfFuel /\
     exists h i j T p, good n h /\ Vis h /\ good n p /\ (~ exists E, extension p E) /\
       ((VI h i j T /\ run_on (Insert i j T) h = Ok p) \/ (VD h i j T /\ run_on (Delete i j T) h = Ok p)) /\
       exists g0 g1 tr1 tr2, good n g0 /\ (forall x y, ~ conp g0 x y) /\ chain g0 tr1 g1 /\ chain g1 tr2 h /\
         Forall (step_ok n fuel order Insert VI KI RI Vis) tr1 /\ Forall (step_ok n fuel order Delete VD KD RD Vis) tr2).
  Proof using Ho Hord Hf J0 HI HD.
    unfold ges_fit. destruct (start_ok n) as [g [E [G C]]]. rewrite E. cbn [rbind].
    rewrite (Score_G_empty n g sf G C). cbn [rbind].
    destruct (rebuild_empty n g fuel order G C Ho Hf) as [g0 [E0 [G0 C0]]]. rewrite E0. cbn [rbind].
    assert (V0 : Vis g0) by (eapply visited_start; eauto).
    destruct (forward_phase g0 (empty_score sf n) (repeat [] n) G0 V0 J0) as
      [[g1 [s1 [m1 [tr1 [E1 [G1 [V1 [J1 [Ch1 [L1 [S1 [F1 O1]]]]]]]]]]]]|[E1 [h [i [j [T [p X]]]]]]].
    2:{ right. rewrite E1. cbn [rbind]. split; auto. exists h, i, j, T, p.
        destruct X as [X1 [X2 [X3 [X4 [X5 [X6 [tr [Ch F]]]]]]]]. split; auto. split; auto. split; auto. split; auto. split; auto.
        exists g0, h, tr, []. split; auto. split; auto. split; auto. split; [reflexivity|]. split; auto. }
    rewrite E1. cbn [rbind].
    destruct (backward_phase g1 s1 m1 G1 V1 J1) as
      [[g2 [s2 [m2 [tr2 [E2 [G2 [V2 [J2 [Ch2 [L2 [S2 [F2 O2]]]]]]]]]]]]|[E2 [h [i [j [T [p X]]]]]]].
    2:{ right. rewrite E2. cbn [rbind]. split; auto. exists h, i, j, T, p.
        destruct X as [X1 [X2 [X3 [X4 [X5 [X6 [tr [Ch F]]]]]]]]. split; auto. split; auto. split; auto. split; auto. split; auto.
        exists g0, g1, tr1, tr. auto 10. }
    left. rewrite E2. cbn [rbind]. exists g0, g1, g2, s1, s2, tr1, tr2.
    assert (P0 : pairs n g0 = 0).
    { unfold pairs. replace (filter _ _) with (@nil (nat * nat)); auto. symmetry.
      generalize (comb2 (seq 0 n)). induction l as [|[a b] l IH]; simpl; auto.
      destruct (connb g0 a b) eqn:Q; auto. exfalso. apply (C0 a b). apply connb_p. auto. }
    pose proof (top_ok g1). unfold top in *.
    split; auto. split; auto. split; auto. split; auto. split; auto. split; auto. split; auto. split; [lia|].
    split; [lia|]. auto 10.
  Qed.
End Fit.
