(** pdag2dag: elimination orders and consistent extensions. *)

From Coq Require Import List Arith Bool Lia.
From Verif Require Import Model.Py Model.Graph Model.DiGraph Model.PDAG Model.Pdag2Dag.
From Verif Require Import Spec.API Spec.Digraphs Spec.PDAGs.
From Verif Require Import Proofs.PyFacts Proofs.GraphFacts Proofs.FinGraph Proofs.DiGraphFacts Proofs.HistoryFacts
  Proofs.EdgeFacts Proofs.PDAGFacts Proofs.MeekFacts Proofs.CpdagFacts.
Import ListNotations.

(* ---------- numpy sets ---------- *)
Lemma insert_sorted_In : forall x y l, In y (insert_sorted x l) <-> y = x \/ In y l.
Proof.
  induction l as [|a l IH]; simpl; [intuition|].
  destruct (Nat.ltb x a); [simpl; intuition|]. destruct (Nat.eqb_spec x a); simpl; [|rewrite IH; intuition].
  subst. intuition.
Qed.
Lemma np_unique_In : forall y l, In y (np_unique l) <-> In y l.
Proof. induction l as [|a l IH]; simpl; [tauto|]. rewrite insert_sorted_In, IH. intuition. Qed.
Lemma np_intersect1d_In : forall y a b, In y (np_intersect1d a b) <-> In y a /\ In y b.
Proof. intros. unfold np_intersect1d. rewrite np_unique_In, filter_In, memb_In. tauto. Qed.
Lemma np_union1d_In : forall y a b, In y (np_union1d a b) <-> In y a \/ In y b.
Proof. intros. unfold np_union1d. rewrite np_unique_In, in_app_iff. tauto. Qed.

Lemma len0 : forall {A} (l : list A), Nat.eqb (length l) 0 = true <-> (forall x, ~ In x l).
Proof.
  intros A [|a l]; simpl; split; auto; try discriminate. intro H. exfalso. apply (H a). auto.
Qed.

Lemma set_nth_length : forall {A} (l : list A) i x, length (set_nth i x l) = length l.
Proof. induction l as [|a l IH]; intros [|i] x; simpl; auto. Qed.
Lemma set_nth_nth : forall {A} (l : list A) i x j d, i < length l ->
  nth j (set_nth i x l) d = if Nat.eqb j i then x else nth j l d.
Proof.
  induction l as [|a l IH]; intros [|i] x [|j] d H; simpl in *; try lia; auto. apply IH. lia.
Qed.

Lemma triple_forM_idx : forall {X} (I : list X -> graph -> Prop) (f : X -> M unit) (l : list X),
  (forall pre x suf, pre ++ x :: suf = l -> triple (I pre) (f x) (fun _ => I (pre ++ [x]))) ->
  forall l' pre, pre ++ l' = l -> triple (I pre) (forM l' f) (fun _ => I l).
Proof.
  intros X I f l H l'. induction l' as [|x r IH]; intros pre E; simpl.
  - rewrite app_nil_r in E. subst. apply triple_ret. auto.
  - eapply triple_bind; [eapply H; eauto|]. intro a0. simpl. apply IH. rewrite <- app_assoc. auto.
Qed.

(** A relation that is decided on a finite list of pairs has a boolean version. *)
Lemma finite_bool : forall (E : nat -> nat -> Prop) (l : list (nat * nat)),
  (forall u v, In (u, v) l -> E u v \/ ~ E u v) ->
  exists f : nat -> nat -> bool, forall u v, In (u, v) l -> (f u v = true <-> E u v).
Proof.
  intros E. induction l as [|[a b] l IH]; intro H.
  - exists (fun _ _ => true). intros u v [].
  - destruct IH as [f Hf]; [intros; apply H; simpl; auto|].
    assert (Hb : exists b0 : bool, b0 = true <-> E a b).
    { destruct (H a b) as [Y|N]; [simpl; auto|exists true; tauto|exists false; split; [discriminate|tauto]]. }
    destruct Hb as [b0 Hb].
    exists (fun u v => if (Nat.eqb u a && Nat.eqb v b)%bool then b0 else f u v).
    intros u v [Q|Q].
    + inversion Q; subst. rewrite !Nat.eqb_refl. simpl. auto.
    + destruct (Nat.eqb_spec u a), (Nat.eqb_spec v b); simpl; subst; auto.
Qed.

(** x -> y is added by the removals of [o] (most recent first). *)
Fixpoint into (o : list nat) (x y : nat) : Prop :=
  match o with
  | [] => False
  | w :: o' => into o' x y \/ (w = y /\ ~ In x o')
  end.
Lemma into_In : forall o x y, into o x y -> In y o.
Proof. induction o as [|w o IH]; simpl; intros x y H; [auto|]. destruct H as [H|[H _]]; eauto. Qed.
Lemma into_fresh : forall o x y, ~ In x o -> (into o x y <-> In y o).
Proof.
  induction o as [|w o IH]; simpl; intros x y H; [tauto|]. rewrite IH by tauto. intuition.
Qed.

Lemma into_rank : forall o, NoDup o -> forall x y, In x o -> x <> y -> into o x y -> index_of x o < index_of y o.
Proof.
  induction o as [|w o IH]; intros ND x y Hx Ne H; [destruct Hx|]. inversion ND; subst. simpl in H.
  destruct H as [H|[-> H]].
  - assert (Hy := into_In _ _ _ H). simpl.
    destruct (Nat.eq_dec y w) as [->|]; [contradiction|]. destruct (Nat.eq_dec x w); [lia|].
    destruct Hx as [->|Hx]; [congruence|]. apply -> Nat.succ_lt_mono. auto.
  - destruct Hx as [->|Hx]; [congruence|contradiction].
Qed.

Lemma into_total : forall o x y, In x o -> In y o -> x <> y -> into o x y \/ into o y x.
Proof.
  induction o as [|w o IH]; intros x y Hx Hy Ne; [destruct Hx|]. simpl in *.
  destruct (in_dec Nat.eq_dec x o) as [X|X], (in_dec Nat.eq_dec y o) as [Y|Y].
  - destruct (IH x y X Y Ne); auto.
  - right. left. apply into_fresh; auto.
  - left. left. apply into_fresh; auto.
  - exfalso. destruct Hx as [Hx|Hx], Hy as [Hy|Hy]; try contradiction. congruence.
Qed.

Section P2D.
  Variable p : graph.
  Hypothesis P : PG p.
  Hypothesis NL : forall u, ~ conp p u u.
  Hypothesis NB : forall u v, conp p u v -> dirp p u v \/ dirp p v u \/ undp p u v.

  Let ns := node_list p.
  Let n := length ns.
  Let nd (i : nat) : nat := nth i ns 0.
  Let W : WF p := pg_wf p P.

  Lemma nd_In : forall i, i < n -> In (nd i) ns.
  Proof using. intros. apply nth_In. auto. Qed.
  Lemma In_nd : forall x, In x ns -> exists i, i < n /\ nd i = x.
  Proof using. intros x H. destruct (In_nth ns x 0 H) as [i [L E]]. eauto. Qed.
  Lemma nd_inj : forall i j, i < n -> j < n -> nd i = nd j -> i = j.
  Proof using P. intros i j Hi Hj E. apply (proj1 (NoDup_nth ns 0) (wf_nodup p W) i j); auto. Qed.
  Lemma node_at_ok : forall i, i < n -> node_at p i = Ok (nd i).
  Proof using.
    intros i H. unfold node_at. fold ns. rewrite (nth_error_nth' ns 0 H). reflexivity.
  Qed.

  Lemma at_nodes_ok : forall q qb i j, i < n -> j < n ->
    (forall u v, In u ns -> In v ns -> q p u v = Ok (qb u v)) -> at_nodes q p i j = Ok (qb (nd i) (nd j)).
  Proof using.
    intros q qb i j Hi Hj H. unfold at_nodes. rewrite !node_at_ok by auto. simpl. apply H; apply nd_In; auto.
  Qed.

  Lemma arrow_at : forall i j, i < n -> j < n -> at_nodes is_arrow p i j = Ok (markb Arrow p (nd i) (nd j)).
  Proof using P. intros. apply at_nodes_ok with (qb := markb Arrow p); auto. intros; apply is_mark_ok; auto. Qed.
  Lemma tail_at : forall i j, i < n -> j < n -> at_nodes is_tail p i j = Ok (markb Tail p (nd i) (nd j)).
  Proof using P. intros. apply at_nodes_ok with (qb := markb Tail p); auto. intros; apply is_mark_ok; auto. Qed.
  Lemma conn_at : forall i j, i < n -> j < n -> at_nodes is_connected p i j = Ok (connb p (nd i) (nd j)).
  Proof using P. intros. apply at_nodes_ok with (qb := connb p); auto. intros; apply is_connected_ok; auto. Qed.

  Lemma markb_p : forall m u v, markb m p u v = true <-> mk p u v = Some m.
  Proof using.
    intros. unfold markb. destruct (mk p u v); [rewrite mark_eqb_spec|]; split; congruence.
  Qed.

  (** Under the hypotheses an arrow means a directed edge. *)
  Lemma arrow_dir : forall u v, mk p u v = Some Arrow <-> dirp p u v.
  Proof using NB.
    intros u v. split; [|intros [H _]; auto]. intro H.
    destruct (NB u v) as [D|[[D1 D2]|[U1 U2]]]; auto; try congruence; unfold conp; congruence.
  Qed.

  Lemma tails_at_ok : forall i, i < n -> exists l, tails_at p i = Ok l /\
    forall j, In j l <-> j < n /\ undp p (nd i) (nd j).
  Proof using P.
    intros i Hi. unfold tails_at, np_where.
    rewrite (filterE_ok _ (fun j => markb Tail p (nd i) (nd j))).
    2:{ intros j Hj. apply in_seq in Hj. apply tail_at; auto. unfold number_of_nodes, nodes in Hj. fold ns n in Hj. lia. }
    rewrite (filterE_ok _ (fun j => markb Tail p (nd j) (nd i))).
    2:{ intros j Hj. apply in_seq in Hj. apply tail_at; auto. unfold number_of_nodes, nodes in Hj. fold ns n in Hj. lia. }
    simpl. eexists. split; [reflexivity|]. intro j.
    rewrite np_intersect1d_In, !filter_In, in_seq, !markb_p.
    unfold number_of_nodes, nodes. fold ns n. unfold undp. intuition lia.
  Qed.

  (** [x] may be removed once the nodes of [o] are gone. *)
  Definition simp (x : nat) (o : list nat) : Prop :=
    (forall y, ~ In y o -> ~ dirp p x y) /\
    (forall y z, undp p x y -> ~ In y o -> conp p x z -> ~ In z o -> z <> y -> conp p y z).

  Lemma simp_incl : forall x o o', incl o o' -> simp x o -> simp x o'.
  Proof using.
    intros x o o' I [H1 H2]. split.
    - intros y N. apply H1. intro. apply N. auto.
    - intros y z U N C N' Q. apply H2; auto.
  Qed.

  (** [inde] marks the nodes of [o]. *)
  Definition flags (o : list nat) (inde : list bool) : Prop :=
    length inde = n /\ forall i, i < n -> (nth i inde true = true <-> In (nd i) o).

  Lemma unremoved_In : forall o inde, flags o inde -> forall i, In i (unremoved inde) <-> i < n /\ ~ In (nd i) o.
  Proof using.
    intros o inde [L F] i. unfold unremoved. rewrite filter_In, in_seq, L. split.
    - intros [H1 H2]. split; [lia|]. rewrite <- F by lia. destruct (nth i inde true); [discriminate|congruence].
    - intros [H1 H2]. split; [lia|]. rewrite <- F in H2 by lia. destruct (nth i inde true); [congruence|auto].
  Qed.

  Lemma check2_ok : forall Ax Nx, (forall j, In j Nx -> j < n) -> (forall j, In j Ax -> j < n) ->
    exists b, check2 p Nx Ax = Ok b /\
      (b = true <-> forall y z, In y Nx -> In z Ax -> z <> y -> conp p (nd y) (nd z)).
  Proof using P.
    intros Ax. induction Nx as [|y r IH]; intros HN HA.
    - exists true. split; auto. split; auto. intros _ y z [].
    - cbn [check2].
      rewrite (filterE_ok _ (fun z => negb (connb p (nd y) (nd z)))).
      2:{ intros z Hz. apply filter_In in Hz. rewrite conn_at; [reflexivity|apply HN; simpl; auto|apply HA; tauto]. }
      cbn [rbind].
      destruct IH as [b [Eb Hb]]; auto. { intros; apply HN; simpl; auto. }
      destruct (Nat.eqb (length (filter (fun z => negb (connb p (nd y) (nd z)))
                  (filter (fun z => negb (Nat.eqb z y)) Ax))) 0) eqn:L.
      + rewrite Eb. exists b. split; auto. rewrite Hb. apply len0 with (l := filter _ _) in L || idtac.
        pose proof (proj1 (len0 _) L) as L'. clear L. split.
        * intros H y' z [<-|Hy] Hz N; auto.
          apply connb_true. destruct (connb p (nd y) (nd z)) eqn:C; auto. exfalso. apply (L' z).
          rewrite !filter_In. rewrite C. split; [split; auto|auto].
          destruct (Nat.eqb_spec z y); auto.
        * intros H y' z Hy Hz N. apply H; simpl; auto.
      + exists false. split; auto. split; [discriminate|]. intro H. exfalso.
        assert (L' : Nat.eqb (length (filter (fun z => negb (connb p (nd y) (nd z)))
                  (filter (fun z => negb (Nat.eqb z y)) Ax))) 0 = true).
        { apply len0. intros z Hz. rewrite !filter_In in Hz. destruct Hz as [[Hz Q] C].
          destruct (Nat.eqb_spec z y) as [|N]; [discriminate|].
          assert (C' : connb p (nd y) (nd z) = true) by (apply connb_true; apply H; simpl; auto).
          rewrite C' in C. discriminate. }
        congruence.
  Qed.

  Lemma removable_ok : forall o inde i, flags o inde -> i < n ->
    exists b, removable p inde i = Ok b /\ (b = true <-> simp (nd i) o).
  Proof using P NL NB.
    intros o inde i F Hi. unfold removable, np_where.
    assert (Hn : number_of_nodes p = n) by reflexivity. rewrite Hn.
    rewrite (filterE_ok _ (fun j => markb Arrow p (nd i) (nd j))).
    2:{ intros j Hj. apply in_seq in Hj. apply arrow_at; auto. lia. }
    cbn [rbind].
    set (out := filter (fun j => markb Arrow p (nd i) (nd j)) (seq 0 n)).
    assert (Hout : forall j, In j out <-> j < n /\ dirp p (nd i) (nd j)).
    { intro j. unfold out. rewrite filter_In, in_seq, markb_p, arrow_dir. intuition lia. }
    destruct (Nat.eqb (length (np_intersect1d out (unremoved inde))) 0) eqn:L.
    2:{ exists false. split; auto. split; [discriminate|]. intros [S1 _]. exfalso.
        assert (L' : Nat.eqb (length (np_intersect1d out (unremoved inde))) 0 = true); [|congruence].
        apply len0. intros j Hj. rewrite np_intersect1d_In, Hout, (unremoved_In o) in Hj by auto.
        apply (S1 (nd j)); tauto. }
    pose proof (proj1 (len0 _) L) as Hno. clear L.
    assert (S1 : forall y, ~ In y o -> ~ dirp p (nd i) y).
    { intros y N D. assert (Hy : In y ns) by (apply (wf_in p W (nd i)); apply dirp_con; auto).
      destruct (In_nd y Hy) as [j [Hj <-]]. apply (Hno j).
      rewrite np_intersect1d_In, Hout, (unremoved_In o) by auto. tauto. }
    destruct (tails_at_ok i Hi) as [t [Et Ht]]. rewrite Et. cbn [rbind].
    rewrite (filterE_ok _ (fun j => markb Arrow p (nd j) (nd i))).
    2:{ intros j Hj. apply in_seq in Hj. apply arrow_at; auto. lia. }
    cbn [rbind].
    set (inn := filter (fun j => markb Arrow p (nd j) (nd i)) (seq 0 n)).
    assert (Hinn : forall j, In j inn <-> j < n /\ dirp p (nd j) (nd i)).
    { intro j. unfold inn. rewrite filter_In, in_seq, markb_p, arrow_dir. intuition lia. }
    set (Nx := np_intersect1d t (unremoved inde)).
    assert (HNx : forall j, In j Nx <-> j < n /\ undp p (nd i) (nd j) /\ ~ In (nd j) o).
    { intro j. unfold Nx. rewrite np_intersect1d_In, Ht, (unremoved_In o) by auto. tauto. }
    set (Ax := np_union1d (np_intersect1d (np_union1d inn out) (unremoved inde)) Nx).
    assert (HAx : forall j, In j Ax <-> j < n /\ conp p (nd i) (nd j) /\ ~ In (nd j) o).
    { intro j. unfold Ax. rewrite np_union1d_In, np_intersect1d_In, np_union1d_In, Hinn, Hout, HNx, (unremoved_In o) by auto.
      split.
      - intros [[[H|H] H']|H].
        + split; [tauto|]. split; [|tauto]. apply conp_sym; auto. apply dirp_con. tauto.
        + split; [tauto|]. split; [|tauto]. apply dirp_con. tauto.
        + split; [tauto|]. split; [|tauto]. apply undp_con. tauto.
      - intros [H [C N]]. destruct (NB _ _ C) as [D|[D|D]]; tauto. }
    assert (Hfin : (forall y z, In y Nx -> In z Ax -> z <> y -> conp p (nd y) (nd z)) <-> simp (nd i) o).
    { split.
      - intro H. split; auto. intros y z U N C N' Q.
        assert (Hy : In y ns) by (apply (wf_in p W (nd i)); apply undp_con; auto).
        assert (Hz : In z ns) by (apply (wf_in p W (nd i)); auto).
        destruct (In_nd y Hy) as [jy [Hjy <-]]. destruct (In_nd z Hz) as [jz [Hjz <-]].
        apply H; [apply HNx; auto|apply HAx; auto|congruence].
      - intros [_ S2] y z Hy Hz Q. apply HNx in Hy. apply HAx in Hz. apply S2; try tauto.
        intro E. apply Q. apply nd_inj; tauto. }
    destruct (Nat.ltb 0 (length Nx)) eqn:L.
    - destruct (check2_ok Ax Nx) as [b [Eb Hb]].
      { intros j Hj. apply HNx in Hj. tauto. } { intros j Hj. apply HAx in Hj. tauto. }
      exists b. split; auto. rewrite Hb, Hfin. tauto.
    - exists true. split; auto. split; auto. intros _. apply Hfin. intros y z Hy. exfalso.
      apply Nat.ltb_ge in L. destruct Nx; [destruct Hy|simpl in L; lia].
  Qed.

  (* ---------- the state of pdag_copy ---------- *)
  Definition added (o : list nat) (x y : nat) : Prop := dirp p x y \/ (undp p x y /\ into o x y).

  (** A graph whose arrows are exactly [A]. *)
  Record arrows (g : graph) (A : nat -> nat -> Prop) : Prop := {
    ar_wf : WF g;
    ar_kind : g_kind g = KPDAG;
    ar_nodes : node_list g = ns;
    ar_arrow : forall x y, mk g x y = Some Arrow <-> A x y;
    ar_tail : forall x y, mk g x y = Some Tail <-> A y x;
    ar_tab : forall x y, mk g x y = None \/ mk g x y = Some Arrow \/ mk g x y = Some Tail
  }.

  Lemma arrows_ext : forall g A B, arrows g A -> (forall x y, A x y <-> B x y) -> arrows g B.
  Proof using.
    intros g A B [H1 H2 H3 H4 H5 H6] Q. constructor; auto; intros; rewrite ?H4, ?H5; auto.
  Qed.

  Lemma arrows_con : forall g A, arrows g A -> forall x y, connb g x y = true <-> A x y \/ A y x.
  Proof using.
    intros g A H x y. rewrite connb_true, <- (ar_arrow _ _ H x y), <- (ar_tail _ _ H x y).
    destruct (ar_tab _ _ H x y) as [E|[E|E]]; rewrite E; split; intros; try (intuition congruence).
  Qed.

  Lemma keep_directed_ok : exists g, keep_directed p = (g, Ok tt) /\ arrows g (added []).
  Proof using P NL NB.
    unfold keep_directed, with_nodes.
    set (l := comb2 (nodes p)).
    set (I := fun (pre : list (nat * nat)) g => WF g /\ g_kind g = KPDAG /\ node_list g = ns /\
      forall x y, mk g x y =
        if (existsb (fun q => (Nat.eqb (fst q) x && Nat.eqb (snd q) y) || (Nat.eqb (fst q) y && Nat.eqb (snd q) x))%bool pre
            && negb (dirb p x y || dirb p y x))%bool then None else mk p x y).
    assert (T : triple (I []) (forM l (fun q : nat * nat => let (u, v) := q in
        (e <- query (fun g => get_edge g u v) ;;
        match e with
        | None => ret tt
        | Some e =>
            if ((mark_eqb (mark_u e) Arrow && mark_eqb (mark_v e) Tail) ||
                (mark_eqb (mark_u e) Tail && mark_eqb (mark_v e) Arrow))%bool
            then ret tt else remove_edge (node_u e) (node_v e)
        end)%meth)) (fun _ => I l)).
    { apply triple_forM_idx with (pre := []); auto. intros pre [u v] suf El g [Wg [Kg [Ng Mg]]].
      assert (Huv : In (u, v) (comb2 ns)).
      { change (comb2 ns) with l. rewrite <- El. apply in_app_iff. simpl. auto. }
      assert (Hin := in_comb2_In _ _ _ Huv). assert (Hneq := in_comb2_neq _ _ _ (wf_nodup p W) Huv).
      erewrite bind_run. 2:{ apply query_run. apply get_edge_ok; auto; rewrite Ng; tauto. }
      assert (Hpre : existsb (fun q => (Nat.eqb (fst q) u && Nat.eqb (snd q) v) || (Nat.eqb (fst q) v && Nat.eqb (snd q) u))%bool pre = false).
      { apply not_true_is_false. rewrite existsb_exists. intros [[a b] [Hq Eq]]. cbn [fst snd] in Eq.
        assert (NDl : NoDup l) by (apply comb2_NoDup; apply wf_nodup; auto).
        apply orb_true_iff in Eq. rewrite !andb_true_iff, !Nat.eqb_eq in Eq.
        destruct Eq as [[-> ->]|[-> ->]].
        - rewrite <- El in NDl. apply NoDup_remove_2 in NDl. apply NDl. apply in_app_iff. auto.
        - apply (in_comb2_asym ns u v (wf_nodup p W) Huv). change (comb2 ns) with l. rewrite <- El. apply in_app_iff. auto. }
      assert (Hpre' : existsb (fun q => (Nat.eqb (fst q) v && Nat.eqb (snd q) u) || (Nat.eqb (fst q) u && Nat.eqb (snd q) v))%bool pre = false).
      { rewrite <- Hpre. clear. induction pre as [|q pre IH]; simpl; auto. rewrite IH, orb_comm with (b1 := (_ && _)%bool). auto. }
      assert (Eu : mk g u v = mk p u v) by (rewrite Mg, Hpre; auto).
      assert (Ev : mk g v u = mk p v u) by (rewrite Mg, Hpre'; auto).
      unfold edge_of. rewrite Eu, Ev.
      (* the new table *)
      assert (Hkeep : (dirb p u v || dirb p v u = true)%bool \/ mk p u v = None ->
        triple (fun h => h = g) (ret tt) (fun _ => I (pre ++ [(u, v)]))).
      { intros HK h ->. exists g, tt. split; auto. split; auto. split; auto. split; auto.
        intros x y. rewrite Mg, existsb_app. simpl. rewrite orb_false_r.
        destruct ((Nat.eqb u x && Nat.eqb v y) || (Nat.eqb u y && Nat.eqb v x))%bool eqn:Q; [|rewrite orb_false_r; auto].
        apply orb_true_iff in Q. rewrite !andb_true_iff, !Nat.eqb_eq in Q.
        assert (HK' : (dirb p x y || dirb p y x)%bool = true \/ mk p x y = None).
        { destruct Q as [[<- <-]|[<- <-]]; auto. rewrite orb_comm. destruct HK as [HK|HK]; auto. right.
          destruct (mk p v u) eqn:Q; auto. exfalso. apply (wf_sym p W v u); [congruence|auto]. }
        destruct HK' as [Q'|Q']; rewrite Q'; simpl; rewrite ?andb_false_r; auto.
        repeat match goal with |- context [if ?b then _ else _] => destruct b end; auto. }
      destruct (mk p v u) as [mu|] eqn:Mv.
      2:{ apply Hkeep; auto. right. destruct (mk p u v) eqn:Q; auto. exfalso. apply (wf_sym p W u v); [congruence|auto]. }
      destruct (mk p u v) as [mv|] eqn:Mu.
      2:{ apply Hkeep; auto. }
      cbn [mark_u mark_v node_u node_v].
      destruct (NB u v) as [[D1 D2]|[[D1 D2]|[U1 U2]]]; [unfold conp; congruence| | |].
      - rewrite D1 in Mu. rewrite D2 in Mv. inversion Mu. inversion Mv. subst. simpl. apply Hkeep; auto.
        left. apply orb_true_iff. left. apply dirb_spec. auto.
      - rewrite D1 in Mv. rewrite D2 in Mu. inversion Mu. inversion Mv. subst. simpl. apply Hkeep; auto.
        left. apply orb_true_iff. right. apply dirb_spec. auto.
      - rewrite U1 in Mu. rewrite U2 in Mv. inversion Mu. inversion Mv. subst. simpl.
        destruct (remove_edge_ok g u v Wg) as [g' [E' [W' [[S1 [S2 S3]] M']]]]; [rewrite Ng; tauto|rewrite Ng; tauto|].
        exists g', tt. split; auto. split; auto. split; [congruence|]. split; [congruence|].
        intros x y. rewrite M', existsb_app. unfold subs. rewrite Mg. simpl. rewrite orb_false_r.
        assert (ND1 : dirb p u v = false).
        { apply not_true_is_false. rewrite dirb_spec. intuition congruence. }
        assert (ND2 : dirb p v u = false).
        { apply not_true_is_false. rewrite dirb_spec. intuition congruence. }
        destruct (Nat.eqb_spec x v), (Nat.eqb_spec y u), (Nat.eqb_spec x u), (Nat.eqb_spec y v),
          (Nat.eqb_spec u x), (Nat.eqb_spec v y), (Nat.eqb_spec u y), (Nat.eqb_spec v x); simpl; subst; try congruence;
          rewrite ?orb_true_r, ?orb_false_r, ?ND1, ?ND2; simpl; auto. }
    destruct (T p) as [g [[] [E [Wg [Kg [Ng Mg]]]]]].
    { split; auto. split; [apply pg_kind; auto|]. split; auto. }
    exists g. split; [exact E|].
    assert (HM : forall x y, mk g x y = if (dirb p x y || dirb p y x)%bool then mk p x y else None).
    { intros x y. rewrite Mg. destruct (dirb p x y || dirb p y x)%bool; [rewrite andb_false_r; auto|].
      rewrite andb_true_r. destruct (mk p x y) eqn:Q; [|destruct (existsb _ l); auto].
      assert (C : conp p x y) by (unfold conp; congruence).
      assert (Hx : In x ns) by (eapply wf_in_l; eauto). assert (Hy : In y ns) by (eapply wf_in; eauto).
      assert (N : x <> y) by (intros ->; apply (NL y); auto).
      replace (existsb _ l) with true; auto. symmetry. apply existsb_exists.
      destruct (in_comb2_total ns x y Hx Hy N) as [H|H]; [exists (x, y)|exists (y, x)]; (split; [exact H|]);
        cbn [fst snd]; rewrite !Nat.eqb_refl, ?orb_true_r; auto. }
    constructor; auto.
    - intros x y. rewrite HM. unfold added. simpl.
      destruct (dirb p x y) eqn:D1; simpl.
      + rewrite arrow_dir. tauto.
      + destruct (dirb p y x) eqn:D2; simpl; [rewrite arrow_dir; tauto|]. split; [discriminate|].
        intros [D|[_ []]]. apply dirb_spec in D. congruence.
    - intros x y. rewrite HM. unfold added. simpl.
      destruct (dirb p x y) eqn:D1; simpl.
      + apply dirb_spec in D1. split; intro H; [destruct D1; congruence|]. destruct H as [[H1 H2]|[_ []]]. auto.
      + destruct (dirb p y x) eqn:D2; simpl.
        * apply dirb_spec in D2. split; intros; [left; apply D2|apply D2].
        * split; [discriminate|]. intros [D|[_ []]]. apply dirb_spec in D. congruence.
    - intros x y. rewrite HM. destruct (_ || _)%bool; auto. destruct (mk p x y) as [m|] eqn:Q; auto.
      destruct (pg_tab p P x y m Q) as [->| ->]; auto.
  Qed.

  (* ---------- one removal ---------- *)
  Inductive elim : list nat -> Prop :=
  | el_nil : elim []
  | el_cons : forall x o, elim o -> ~ In x o -> In x ns -> simp x o -> elim (x :: o).

  Lemma elim_NoDup : forall o, elim o -> NoDup o.
  Proof using. induction 1; constructor; auto. Qed.
  Lemma elim_incl : forall o, elim o -> incl o ns.
  Proof using. induction 1; intros y Hy; [destruct Hy|]. destruct Hy as [<-|Hy]; auto. Qed.

  Definition state (o : list nat) (inde : list bool) (g : graph) : Prop :=
    elim o /\ flags o inde /\ arrows g (added o).

  Lemma und_ne : forall x y, undp p x y -> x <> y.
  Proof using NL. intros x y U ->. apply (NL y). apply undp_con. auto. Qed.
  Lemma und_nodir : forall x y, undp p x y -> ~ dirp p x y /\ ~ dirp p y x.
  Proof using. intros x y [U1 U2]. split; intros [D1 D2]; congruence. Qed.

  Lemma try_node_ok : forall o inde i g, i < n -> state o inde g ->
    exists inde' o' g', try_node p inde i g = (g', Ok inde') /\ state o' inde' g' /\
      (o' = o \/ o' = nd i :: o) /\ (~ In (nd i) o -> simp (nd i) o -> In (nd i) o').
  Proof using P NL NB.
    intros o inde i g Hi [El [F A]]. unfold try_node.
    destruct (nth i inde true) eqn:Q.
    - exists inde, o, g. split; auto. split; [split; auto|]. split; auto. intros N _. exfalso. apply N.
      apply (proj2 F i Hi). auto.
    - assert (No : ~ In (nd i) o). { rewrite <- (proj2 F i Hi). congruence. }
      destruct (removable_ok o inde i F Hi) as [b [Eb Hb]].
      erewrite bind_run; [|apply query_run; exact Eb].
      destruct b.
      2:{ exists inde, o, g. split; auto. split; [split; auto|]. split; auto. intros _ S. apply Hb in S. discriminate. }
      assert (S : simp (nd i) o) by (apply Hb; auto).
      destruct (tails_at_ok i Hi) as [t [Et Ht]].
      erewrite bind_run; [|apply query_run; exact Et].
      set (x := nd i) in *.
      assert (Hx : In x ns) by (apply nd_In; auto).
      set (I := fun (D : list nat) h => arrows h (fun a b => added o a b \/
          (undp p a b /\ b = x /\ ~ In a o /\ exists j, In j D /\ nd j = a))).
      assert (T : triple (I []) (forM t (fun j =>
          (y <- query (fun _ => node_at p j) ;;
           x0 <- query (fun _ => node_at p i) ;;
           c <- connectedM y x0 ;;
           if c : bool then ret tt else add_edge (Edge y x0 Tail Arrow) false)%meth)) (fun _ => I t)).
      { apply triple_forM_idx with (pre := []); auto. intros pre j suf E h Hh. red in Hh.
        assert (Hj : In j t) by (rewrite <- E; apply in_app_iff; simpl; auto).
        apply Ht in Hj. destruct Hj as [Hj U]. fold x in U. assert (U' := undp_sym _ _ _ U).
        assert (Hy : In (nd j) ns) by (apply nd_In; auto).
        assert (Ne := und_ne _ _ U). destruct (und_nodir _ _ U) as [ND1 ND2].
        erewrite bind_run; [|apply query_run; apply node_at_ok; auto].
        erewrite bind_run; [|apply query_run; apply node_at_ok; auto]. fold x.
        assert (Wh := ar_wf _ _ Hh).
        unfold connectedM. erewrite bind_run.
        2:{ apply query_run. apply is_connected_ok; auto; rewrite (ar_nodes _ _ Hh); auto. }
        destruct (connb h (nd j) x) eqn:C.
        - exists h, tt. split; auto. red. eapply arrows_ext; [exact Hh|]. intros a b. cbn beta.
          split.
          + intros [H|[H1 [H2 [H3 [k [Hk H4]]]]]]; auto. right. repeat (split; auto). exists k. split; auto. apply in_app_iff; auto.
          + intros [H|[H1 [H2 [H3 [k [Hk H4]]]]]]; auto. apply in_app_iff in Hk. destruct Hk as [Hk|[<-|[]]].
            * right. repeat (split; auto). exists k. auto.
            * subst a b. apply (arrows_con _ _ Hh) in C. unfold added in C.
              destruct C as [[[H|[_ H]]|H]|[[H|[_ H]]|H]].
              -- contradiction.
              -- left. right. auto.
              -- right. exact H.
              -- contradiction.
              -- apply into_In in H. contradiction.
              -- exfalso. destruct H as [_ [H _]]. apply Ne. auto.
        - destruct (add_edge_ok h (Edge (nd j) x Tail Arrow) false Wh) as [h' [E' [W' [[S1 [S2 S3]] M']]]]; cbn [node_u node_v].
          { rewrite (ar_kind _ _ Hh). reflexivity. }
          { rewrite (ar_nodes _ _ Hh); auto. } { rewrite (ar_nodes _ _ Hh); auto. }
          { right. apply connb_false. auto. }
          exists h', tt. split; auto. red.
          assert (NC : ~ (added o (nd j) x \/ added o x (nd j))).
          { intro H. assert (C' : connb h (nd j) x = true); [|congruence]. apply (arrows_con _ _ Hh). tauto. }
          assert (Hno : ~ In (nd j) o).
          { intro H. apply NC. right. right. split; auto. apply into_fresh; auto. }
          unfold adds in M'. cbn [node_u node_v mark_u mark_v] in M'.
          assert (Hp : forall a b, mk h' a b = if (Nat.eqb a x && Nat.eqb b (nd j))%bool then Some Tail
                       else if (Nat.eqb a (nd j) && Nat.eqb b x)%bool then Some Arrow else mk h a b) by (intros; apply M').
          assert (None1 : mk h (nd j) x = None) by (apply connb_false; auto).
          assert (None2 : mk h x (nd j) = None). { apply connb_false. rewrite connb_sym; auto. }
          constructor; auto.
          + rewrite S1. apply (ar_kind _ _ Hh).
          + rewrite S2. apply (ar_nodes _ _ Hh).
          + intros a b. rewrite Hp.
            destruct (Nat.eqb_spec a x) as [->|N1]; destruct (Nat.eqb_spec b (nd j)) as [->|N2]; cbn [andb].
            * split; [discriminate|]. intros [H|[_ [H _]]]; [exfalso; apply NC; auto|exfalso; apply Ne; auto].
            * rewrite (proj2 (Nat.eqb_neq x (nd j)) Ne). cbn [andb]. rewrite (ar_arrow _ _ Hh x b).
              split; (intros [H|[H1 [H2 [H3 [k [Hk H4]]]]]]; [auto|exfalso; apply (und_ne _ _ H1); auto]).
            * destruct (Nat.eqb_spec (nd j) x) as [Q'|_]; [exfalso; apply Ne; auto|]. rewrite andb_false_r.
              rewrite (ar_arrow _ _ Hh a (nd j)).
              split; (intros [H|[H1 [H2 _]]]; [auto|exfalso; apply Ne; auto]).
            * destruct (Nat.eqb_spec a (nd j)) as [->|N3]; destruct (Nat.eqb_spec b x) as [->|N4]; cbn [andb].
              -- split; auto. intros _. right. repeat (split; auto). exists j. split; auto. apply in_app_iff. simpl; auto.
              -- rewrite (ar_arrow _ _ Hh). split; (intros [H|[H1 [H2 _]]]; [auto|congruence]).
              -- rewrite (ar_arrow _ _ Hh). split; intros [H|[H1 [H2 [H3 [k [Hk H4]]]]]]; auto; right; repeat (split; auto).
                 ++ exists k. split; auto. apply in_app_iff; auto.
                 ++ exists k. split; auto. apply in_app_iff in Hk. destruct Hk as [|[<-|[]]]; auto. congruence.
              -- rewrite (ar_arrow _ _ Hh). split; (intros [H|[H1 [H2 _]]]; [auto|congruence]).
          + intros a b. rewrite Hp.
            destruct (Nat.eqb_spec a x) as [->|N1]; destruct (Nat.eqb_spec b (nd j)) as [->|N2]; cbn [andb].
            * split; auto. intros _. right. repeat (split; auto). exists j. split; auto. apply in_app_iff. simpl; auto.
            * rewrite (proj2 (Nat.eqb_neq x (nd j)) Ne). cbn [andb]. rewrite (ar_tail _ _ Hh x b).
              split; intros [H|[H1 [H2 [H3 [k [Hk H4]]]]]]; auto; right; repeat (split; auto).
              -- exists k. split; auto. apply in_app_iff; auto.
              -- exists k. split; auto. apply in_app_iff in Hk. destruct Hk as [|[<-|[]]]; auto. congruence.
            * destruct (Nat.eqb_spec (nd j) x) as [Q'|_]; [exfalso; apply Ne; auto|]. rewrite andb_false_r.
              rewrite (ar_tail _ _ Hh a (nd j)).
              split; (intros [H|[H1 [H2 _]]]; [auto|congruence]).
            * destruct (Nat.eqb_spec a (nd j)) as [->|N3]; destruct (Nat.eqb_spec b x) as [->|N4]; cbn [andb].
              -- split; [discriminate|]. intros [H|[_ [H _]]]; [exfalso; apply NC; auto|exfalso; apply Ne; auto].
              -- rewrite (ar_tail _ _ Hh). split; (intros [H|[H1 [H2 _]]]; [auto|congruence]).
              -- rewrite (ar_tail _ _ Hh). split; (intros [H|[H1 [H2 [H3 [k [Hk H4]]]]]]; [auto|congruence]).
              -- rewrite (ar_tail _ _ Hh). split; (intros [H|[H1 [H2 _]]]; [auto|congruence]).
          + intros a b. rewrite Hp. destruct (_ && _)%bool; auto. destruct (_ && _)%bool; auto. apply (ar_tab _ _ Hh). }
      destruct (T g) as [g' [[] [E' H']]].
      { red. eapply arrows_ext; [exact A|]. intros a b. cbn beta. split; auto. intros [H|[_ [_ [_ [k [[] _]]]]]]; auto. }
      erewrite bind_run; [|exact E'].
      exists (set_nth i true inde), (x :: o), g'. split; [reflexivity|]. split; [|split; [auto|simpl; auto]].
      split; [constructor; auto|]. split.
      + destruct F as [L F]. split; [rewrite set_nth_length; auto|]. intros j Hj.
        rewrite set_nth_nth by lia. destruct (Nat.eqb_spec j i) as [->|N].
        * split; auto. intros _. left. auto.
        * rewrite F by auto. simpl. split; auto. intros [H|H]; auto. exfalso. apply N. symmetry. apply nd_inj; auto.
      + red in H'. eapply arrows_ext; [exact H'|]. intros a b. cbn beta. unfold added. simpl. split.
        * intros [[H|[U H]]|[U [-> [H _]]]]; auto.
        * intros [H|[U [H|[<- H]]]]; auto. right. repeat (split; auto).
          assert (Ha : In a ns) by (eapply wf_in_l; eauto; apply undp_con; exact U).
          destruct (In_nd a Ha) as [j [Hj <-]]. exists j. split; auto. apply Ht. split; auto. apply undp_sym; auto.
  Qed.

  (* ---------- one pass and the loop ---------- *)
  Lemma pass_ok : forall o inde g, state o inde g ->
    exists inde' o' g', foldM (try_node p) inde (seq 0 n) g = (g', Ok inde') /\ state o' inde' g' /\ incl o o' /\
      (forall x, In x ns -> simp x o -> In x o').
  Proof using P NL NB.
    intros o inde g H.
    assert (T : triple (fun h => exists o', state o' inde h /\ incl o o' /\ forall i, In i [] -> simp (nd i) o -> In (nd i) o')
       (foldM (try_node p) inde (seq 0 n))
       (fun inde' h => exists o', state o' inde' h /\ incl o o' /\ forall i, In i (seq 0 n) -> simp (nd i) o -> In (nd i) o')).
    { apply triple_foldM_idx with (pre := []) (l := seq 0 n)
        (I := fun pre inde' h => exists o', state o' inde' h /\ incl o o' /\ forall i, In i pre -> simp (nd i) o -> In (nd i) o'); auto.
      intros pre s i suf E h [o1 [S1 [I1 H1]]].
      assert (Hi : i < n). { assert (X : In i (seq 0 n)) by (rewrite <- E; apply in_app_iff; simpl; auto). apply in_seq in X. lia. }
      destruct (try_node_ok o1 s i h Hi S1) as [s' [o2 [h' [E2 [S2 [O2 H2]]]]]].
      exists h', s'. split; auto. exists o2. split; auto.
      assert (I2 : incl o1 o2) by (destruct O2 as [->| ->]; [apply incl_refl|apply incl_tl, incl_refl]).
      split; [eapply incl_tran; eauto|]. intros k Hk Sk. apply in_app_iff in Hk. destruct Hk as [Hk|[<-|[]]]; auto.
      destruct (in_dec Nat.eq_dec (nd i) o1) as [Y|N]; auto. apply H2; auto. eapply simp_incl; eauto. }
    destruct (T g) as [g' [inde' [E [o' [S' [I' H']]]]]].
    { exists o. split; auto. split; [apply incl_refl|]. intros i []. }
    exists inde', o', g'. split; auto. split; auto. split; auto. intros x Hx Sx.
    destruct (In_nd x Hx) as [i [Hi <-]]. apply H'; auto. apply in_seq. lia.
  Qed.

  Lemma flags_done : forall o inde, flags o inde -> (existsb negb inde = false <-> incl ns o).
  Proof using.
    intros o inde [L F]. split.
    - intros H x Hx. destruct (In_nd x Hx) as [i [Hi <-]]. apply F; auto.
      destruct (nth i inde true) eqn:Q; auto. exfalso.
      assert (Y : existsb negb inde = true); [|congruence]. apply existsb_exists. exists (nth i inde true). rewrite Q. split; auto.
      rewrite <- Q. apply nth_In. lia.
    - intro H. apply not_true_is_false. rewrite existsb_exists. intros [b [Hb N]].
      destruct (In_nth inde b true Hb) as [i [Hi E]]. rewrite L in Hi.
      assert (Y : nth i inde true = true) by (apply F; auto; apply H; apply nd_In; auto). rewrite Y in E. subst b. discriminate.
  Qed.

  Definition full (o : list nat) : Prop := incl ns o.

  (** Whatever the fuel, the loop ends with every node removed or runs out. *)
  Lemma extend_loop_cases : forall fuel o inde g, state o inde g ->
    (exists o' inde' g', extend_loop fuel p inde g = (g', Ok tt) /\ state o' inde' g' /\ full o') \/
    (exists g', extend_loop fuel p inde g = (g', Err OutOfFuel)).
  Proof using P NL NB.
    induction fuel as [|fuel IH]; intros o inde g H; cbn [extend_loop]; destruct (existsb negb inde) eqn:X.
    - right. exists g. reflexivity.
    - left. exists o, inde, g. split; auto. split; auto. apply flags_done with (o := o) in X; auto. apply H.
    - destruct (pass_ok o inde g H) as [inde' [o' [g' [E [S' _]]]]].
      change (number_of_nodes p) with n. erewrite bind_run; [|exact E].
      destruct (IH o' inde' g' S') as [?|?]; auto.
    - left. exists o, inde, g. split; auto. split; auto. apply flags_done with (o := o) in X; auto. apply H.
  Qed.

  (** If every set of remaining nodes has a removable node, [n] passes do. *)
  Definition progress : Prop := forall o, elim o -> ~ full o -> exists x, In x ns /\ ~ In x o /\ simp x o.

  Lemma extend_loop_ok : progress -> forall fuel o inde g, state o inde g -> n - length o <= fuel ->
    exists o' inde' g', extend_loop fuel p inde g = (g', Ok tt) /\ state o' inde' g' /\ full o'.
  Proof using P NL NB.
    intro Pr. induction fuel as [|fuel IH]; intros o inde g H L; cbn [extend_loop]; destruct (existsb negb inde) eqn:X.
    - exfalso. assert (Fu : full o).
      { destruct H as [El _]. apply NoDup_length_incl; [apply elim_NoDup; auto|fold n; lia|apply elim_incl; auto]. }
      apply (flags_done o inde) in Fu; [congruence|apply H].
    - exists o, inde, g. split; auto. split; auto. apply flags_done with (o := o) in X; auto. apply H.
    - destruct (pass_ok o inde g H) as [inde' [o' [g' [E [S' [I' H']]]]]].
      change (number_of_nodes p) with n. erewrite bind_run; [|exact E].
      apply (IH o' inde' g' S').
      assert (NF : ~ full o). { intro Fu. apply (flags_done o inde) in Fu; [congruence|apply H]. }
      destruct (Pr o (proj1 H) NF) as [x [Hx [Nx Sx]]]. specialize (H' x Hx Sx).
      assert (length (x :: o) <= length o').
      { apply NoDup_incl_length; [constructor; auto; apply elim_NoDup; apply H|].
        intros y [<-|Hy]; auto. }
      simpl in *. lia.
    - exists o, inde, g. split; auto. split; auto. apply flags_done with (o := o) in X; auto. apply H.
  Qed.

  (* ---------- elimination orders give extensions ---------- *)
  Lemma added_into : forall o, elim o -> full o -> forall x y, added o x y -> into o x y.
  Proof using P.
    intros o El Fu x y [D|[_ H]]; auto.
    assert (Hx : In x o) by (apply Fu; eapply wf_in_l; eauto; apply dirp_con; exact D).
    clear Fu. induction El as [|w o El IH Nw Hw S]; [destruct Hx|].
    simpl. destruct (in_dec Nat.eq_dec x o) as [Y|N]; [left; auto|].
    destruct Hx as [->|Hx]; [|contradiction].
    left. apply into_fresh; auto. destruct S as [S _].
    destruct (in_dec Nat.eq_dec y o) as [Y'|N']; auto. exfalso. apply (S y N' D).
  Qed.

  Lemma into_simp : forall o, elim o -> forall u v w, into o u w -> into o v w ->
    exists o2, simp w o2 /\ ~ In u o2 /\ ~ In v o2.
  Proof using.
    induction 1 as [|x o El IH Nx Hx S]; intros u v w Hu Hv; [destruct Hu|]. simpl in *.
    destruct Hu as [Hu|[-> Hu]], Hv as [Hv|[E Hv]].
    - eapply IH; eauto.
    - subst. apply into_In in Hu. contradiction.
    - apply into_In in Hv. contradiction.
    - exists o. auto.
  Qed.

  Lemma added_ne : forall o x y, added o x y -> x <> y.
  Proof using NL.
    intros o x y [D|[U _]] ->; apply (NL y); [apply dirp_con|apply undp_con]; auto.
  Qed.

  Lemma elim_extension : forall o, elim o -> full o ->
    acyclic (added o) /\
    (forall u v, conp p u v <-> added o u v \/ added o v u) /\
    (forall u v, dirp p u v -> added o u v) /\
    (forall u w v, vstruct (added o) u w v -> dirp p u w /\ dirp p v w).
  Proof using P NL NB.
    intros o El Fu.
    assert (C : forall u v, conp p u v <-> added o u v \/ added o v u).
    { intros u v. split.
      - intro C. assert (Hu : In u o) by (apply Fu; eapply wf_in_l; eauto).
        assert (Hv : In v o) by (apply Fu; eapply wf_in; eauto).
        assert (Ne : u <> v) by (intros ->; apply (NL v C)).
        unfold added. destruct (NB u v C) as [D|[D|U]]; auto.
        destruct (into_total o u v Hu Hv Ne); auto. right. right. split; auto. apply undp_sym; auto.
      - intros [[D|[U _]]|[D|[U _]]]; [apply dirp_con|apply undp_con|apply conp_sym, dirp_con|apply conp_sym, undp_con]; auto. }
    split; [|split; [auto|split; [intros; left; auto|]]].
    - apply rank_acyclic with (f := fun x => index_of x o). intros u v A.
      apply into_rank; [apply elim_NoDup; auto| |eapply added_ne; eauto|apply added_into; auto].
      apply Fu. eapply wf_in_l; eauto. apply C. left. exact A.
    - assert (Half : forall u w v, vstruct (added o) u w v -> dirp p u w).
      { intros u w v [Eu [Ev [Ne Na]]]. assert (Iu := added_into o El Fu _ _ Eu). assert (Iv := added_into o El Fu _ _ Ev).
        destruct Eu as [D|[U I]]; auto. exfalso.
        destruct (into_simp o El u v w Iu Iv) as [o2 [[_ S] [N1 N2]]].
        apply Na. apply C. apply (S u v); auto.
        + apply undp_sym; auto.
        + apply C. right. auto. }
      intros u w v V. split; [eapply Half; eauto|]. apply (Half v w u).
      destruct V as [Eu [Ev [Ne Na]]]. split; auto. split; auto. split; auto.
      unfold adjacent in *. tauto.
  Qed.

  (* ---------- extensions give removable nodes ---------- *)
  Lemma extension_progress : (exists E, extension p E) -> progress.
  Proof using P NL NB.
    intros [E [Ac [Sk [Di Vs]]]] o El NF.
    assert (Con : forall u v, conp p u v <-> E u v \/ E v u).
    { intros u v. destruct (Nat.eq_dec u v) as [->|Ne].
      - split; intro H; [exfalso; apply (NL v H)|exfalso; apply (Ac v)].
        assert (Ev : E v v) by tauto. econstructor; [exact Ev|constructor].
      - rewrite <- connected_p by auto. apply (Sk u v Ne). }
    set (l := list_prod ns ns).
    destruct (finite_bool E l) as [f Hf].
    { intros u v _. destruct (connb p u v) eqn:Q.
      - apply connb_true in Q. apply Con in Q. destruct Q as [Q|Q]; auto. right.
        intro Q'. apply (acyclic_asym E Ac _ _ Q Q').
      - right. intro Q'. assert (connb p u v = true); [|congruence]. apply connb_true. apply Con. auto. }
    assert (HE : forall u v, E u v <-> In u ns /\ In v ns /\ f u v = true).
    { intros u v. split.
      - intro Q. assert (C : conp p u v) by (apply Con; auto).
        assert (Hu : In u ns) by (eapply wf_in_l; eauto). assert (Hv : In v ns) by (eapply wf_in; eauto).
        split; auto. split; auto. apply Hf; auto. apply in_prod; auto.
      - intros [Hu [Hv Q]]. apply Hf; auto. apply in_prod; auto. }
    set (rev := fun u v => E v u).
    assert (Rdec : forall u v, {rev u v} + {~ rev u v}).
    { intros u v. unfold rev. destruct (in_dec Nat.eq_dec u ns) as [Hu|Hu].
      2:{ right. rewrite HE. tauto. }
      destruct (in_dec Nat.eq_dec v ns) as [Hv|Hv].
      2:{ right. rewrite HE. tauto. }
      destruct (f v u) eqn:Q; [left; apply HE; auto|right; rewrite HE; intuition congruence]. }
    assert (Rac : acyclic rev).
    { assert (snoc : forall a b c, dpath E a b -> E b c -> dpath1 E a c).
      { intros a b c H. induction H; intro Q.
        - econstructor; [exact Q|constructor].
        - econstructor; [eassumption|]. destruct (IHdpath Q) as [? ? ? H1 H2]. econstructor; eauto. }
      assert (G : forall a b, dpath rev a b -> dpath E b a).
      { intros a b H. induction H; [constructor|]. red in H.
        destruct (snoc _ _ _ IHdpath H) as [? ? ? H1 H2]. econstructor; eauto. }
      intros u C. inversion C as [a b c H1 H2]; subst. red in H1. apply G in H2. apply (Ac u).
      eapply snoc; eauto. }
    destruct (source_exists rev Rdec (filter (fun x => negb (memb x o)) ns) Rac) as [x [Hx Sx]].
    { intro Q. apply NF. intros y Hy. destruct (in_dec Nat.eq_dec y o) as [|N]; auto. exfalso.
      assert (Y : In y (filter (fun x => negb (memb x o)) ns)); [|rewrite Q in Y; destruct Y].
      apply filter_In. split; auto. apply negb_true_iff, memb_false. auto. }
    apply filter_In in Hx. destruct Hx as [Hx No]. apply negb_true_iff, memb_false in No.
    assert (Sink : forall y, ~ In y o -> ~ E x y).
    { intros y Ny Q. apply (Sx y); [|exact Q]. apply filter_In. split; [apply HE in Q; tauto|].
      apply negb_true_iff, memb_false. auto. }
    assert (Ne : forall u v, dirp p u v -> u <> v). { intros u v D ->. apply (NL v). apply dirp_con. auto. }
    exists x. split; auto. split; auto. split.
    - intros y Ny D. apply (Sink y Ny). apply Di; [apply (Ne _ _ D)|]. apply directed_p; auto.
    - intros y z U Ny C Nz Q. destruct (connb p y z) eqn:Cyz; [apply connb_true; auto|]. exfalso.
      assert (Eyx : E y x).
      { apply undp_con, Con in U. destruct U as [U|U]; auto. exfalso. apply (Sink y Ny U). }
      assert (Ezx : E z x).
      { apply Con in C. destruct C as [C|C]; auto. exfalso. apply (Sink z Nz C). }
      destruct (Vs y x z) as [D _].
      { split; auto. split; auto. split; auto. intro A. apply connb_false in Cyz.
        assert (conp p y z) by (apply Con; exact A). apply H. auto. }
      apply directed_p in D; auto. destruct U as [U1 U2], D as [D1 D2]. congruence.
  Qed.

  (* ---------- the final copy into a DiGraph ---------- *)
  Lemma final_ok : forall g A, arrows g A -> (forall x y, A x y -> ~ A y x) -> exists d,
    (d <-? new_graph KDiGraph (node_list g) ;; es <-? edges g ;;
     run_on (forM es (fun e => add_edge (to_forward e) true)) d)%res = Ok d /\
    reachable KDiGraph d /\ node_list d = ns /\ (forall x y, mk d x y = mk g x y).
  Proof using P.
    intros g A H As. assert (Wg := ar_wf _ _ H). rewrite (ar_nodes _ _ H).
    destruct (new_graph_ok KDiGraph ns (wf_nodup p W)) as [d0 [E0 [W0 [K0 [N0 M0]]]]]. rewrite E0. cbn [rbind].
    rewrite edges_ok by auto. cbn [rbind]. rewrite (ar_nodes _ _ H).
    set (es := somes (map (fun q => edge_of g (fst q) (snd q)) (comb2 ns))).
    assert (Hes : forall e, In e es -> In (node_u e) ns /\ In (node_v e) ns /\ node_u e <> node_v e /\
       mk g (node_v e) (node_u e) = Some (mark_u e) /\ mk g (node_u e) (node_v e) = Some (mark_v e)).
    { intros e He. apply in_somes, in_map_iff in He. destruct He as [[u v] [Q He]]. cbn [fst snd] in Q.
      assert (In u ns /\ In v ns) by (apply in_comb2_In; auto).
      assert (u <> v) by (eapply in_comb2_neq; eauto; apply wf_nodup; auto).
      unfold edge_of in Q. destruct (mk g v u) eqn:M1, (mk g u v) eqn:M2; inversion Q; subst; cbn. tauto. }
    set (I := fun pre d => WF d /\ g_kind d = KDiGraph /\ node_list d = ns /\ reachable KDiGraph d /\
      forall a b, mk d a b = if existsb (joins a b) pre then mk g a b else None).
    assert (T : triple (I []) (forM es (fun e => add_edge (to_forward e) true)) (fun _ => I es)).
    { apply triple_forM_idx with (pre := []); auto. intros pre e suf E d [Wd [Kd [Nd [Rd Md]]]].
      assert (He : In e es) by (rewrite <- E; apply in_app_iff; simpl; auto).
      destruct (Hes e He) as [Hu [Hv [Ne [Mu Mv]]]].
      assert (HF : exists a b, to_forward e = Edge a b Tail Arrow /\ mk g a b = Some Arrow /\ mk g b a = Some Tail /\
        In a ns /\ In b ns /\ a <> b /\ forall x y, joins x y e = joins x y (Edge a b Tail Arrow)).
      { destruct e as [u v mu mv]. cbn [node_u node_v mark_u mark_v] in *.
        destruct (ar_tab _ _ H u v) as [Q|[Q|Q]]; [congruence| |].
        - assert (mv = Arrow) by congruence. subst mv.
          assert (mu = Tail). { apply (ar_arrow _ _ H) in Q. apply (ar_tail _ _ H) in Q. congruence. } subst mu.
          exists u, v. simpl. auto 10.
        - assert (mv = Tail) by congruence. subst mv.
          assert (mu = Arrow). { apply (ar_tail _ _ H) in Q. apply (ar_arrow _ _ H) in Q. congruence. } subst mu.
          exists v, u. unfold to_forward. simpl. split; auto. split; auto. split; auto. split; auto. split; auto. split; auto.
          intros x y. unfold joins. simpl. rewrite orb_comm. f_equal; apply andb_comm. }
      destruct HF as [a [b [Ef [Mab [Mba [Ha [Hb [Nab HJ]]]]]]]]. rewrite Ef.
      destruct (add_edge_ok d (Edge a b Tail Arrow) true Wd) as [d' [E' [W' [[S1 [S2 S3]] M']]]]; cbn [node_u node_v]; auto.
      { rewrite Kd. reflexivity. } { rewrite Nd; auto. } { rewrite Nd; auto. }
      exists d', tt. split; auto. split; auto. split; [congruence|]. split; [congruence|]. split.
      { replace d' with (fst (call (AddEdge (Edge a b Tail Arrow) true) d)) by (simpl; rewrite E'; auto).
        apply reachable_call; auto. }
      intros x y. rewrite M', existsb_app. unfold adds. cbn [node_u node_v mark_u mark_v]. rewrite Md. simpl.
      rewrite HJ. unfold joins. cbn [node_u node_v]. rewrite orb_false_r.
      destruct (Nat.eqb_spec x b), (Nat.eqb_spec y a), (Nat.eqb_spec x a), (Nat.eqb_spec y b),
        (Nat.eqb_spec a x), (Nat.eqb_spec b y), (Nat.eqb_spec a y), (Nat.eqb_spec b x); simpl; subst; try congruence;
        rewrite ?orb_true_r, ?orb_false_r; auto. }
    destruct (T d0) as [d [[] [E [Wd [Kd [Nd [Rd Md]]]]]]].
    { split; auto. split; auto. split; auto. split; [|auto]. exists ns, [], d0. split; auto. }
    exists d. unfold run_on. rewrite E. split; auto. split; auto. split; auto.
    intros x y. rewrite Md. destruct (existsb (joins x y) es) eqn:Q; auto.
    destruct (mk g x y) eqn:M; auto. exfalso.
    assert (Q' : existsb (joins x y) es = true); [|congruence].
    assert (C : mk g x y <> None) by congruence.
    assert (Hx : In x ns) by (rewrite <- (ar_nodes _ _ H); eapply wf_in_l; eauto).
    assert (Hy : In y ns) by (rewrite <- (ar_nodes _ _ H); eapply wf_in; eauto).
    assert (Cyx := wf_sym g Wg x y C).
    assert (Ne : x <> y).
    { intros ->. destruct (ar_tab _ _ H y y) as [Z|[Z|Z]]; [congruence| |].
      - apply (ar_arrow _ _ H) in Z. apply (As _ _ Z Z).
      - apply (ar_tail _ _ H) in Z. apply (As _ _ Z Z). }
    apply existsb_exists.
    destruct (mk g y x) as [m'|] eqn:M'; [|congruence].
    destruct (in_comb2_total ns x y Hx Hy Ne) as [Z|Z].
    - exists (Edge x y m' m). split; [|unfold joins; simpl; rewrite !Nat.eqb_refl; auto].
      apply in_somes, in_map_iff. exists (x, y). split; auto. cbn [fst snd]. unfold edge_of. rewrite M, M'. auto.
    - exists (Edge y x m m'). split; [|unfold joins; simpl; rewrite !Nat.eqb_refl, orb_true_r; auto].
      apply in_somes, in_map_iff. exists (y, x). split; auto. cbn [fst snd]. unfold edge_of. rewrite M, M'. auto.
  Qed.

  Lemma state_init : forall g, arrows g (added []) -> state [] (repeat false (number_of_nodes p)) g.
  Proof using.
    intros g A. split; [constructor|]. split; auto. split; [apply repeat_length|].
    intros i Hi. change (number_of_nodes p) with n. simpl. split; [|tauto]. intro H.
    rewrite (nth_indep _ true false) in H by (rewrite repeat_length; auto). rewrite nth_repeat in H. discriminate.
  Qed.

  (** The outcome of pdag2dag. *)
  Definition result (d : graph) : Prop :=
    reachable KDiGraph d /\ node_list d = ns /\ (forall u v, conp d u v <-> conp p u v) /\
    acyclic (dirp d) /\ (forall u v, dirp p u v -> dirp d u v) /\
    (forall u w v, vstruct (dirp d) u w v -> dirp p u w /\ dirp p v w).

  Lemma finish : forall o inde g, state o inde g -> full o -> exists d,
    (d <-? new_graph KDiGraph (node_list g) ;; es <-? edges g ;;
     run_on (forM es (fun e => add_edge (to_forward e) true)) d)%res = Ok d /\ result d.
  Proof using P NL NB.
    intros o inde g [El [F A]] Fu.
    destruct (elim_extension o El Fu) as [Ac [C [D V]]].
    destruct (final_ok g _ A) as [d [E [R [Nd Md]]]].
    { intros x y. apply acyclic_asym. auto. }
    exists d. split; auto. split; auto. split; auto.
    assert (HD : forall u v, dirp d u v <-> added o u v).
    { intros u v. unfold dirp. rewrite !Md, (ar_arrow _ _ A), (ar_tail _ _ A). tauto. }
    split; [|split; [|split]].
    - intros u v. unfold conp at 1. rewrite Md, <- connb_true, (arrows_con _ _ A), C. tauto.
    - eapply RelExt.acyclic_ext; [|exact Ac]. intros. first [apply HD | symmetry; apply HD].
    - intros u v H. apply HD. auto.
    - intros u w v H. apply (V u w v). eapply RelExt.vstruct_ext; [|exact H]. intros. first [apply HD | symmetry; apply HD].
  Qed.

  Lemma run_keep : forall m g0, keep_directed p = (g0, Ok tt) ->
    run_on (keep_directed ;;; m)%meth p = @run_on unit m g0.
  Proof using. intros m g0 E. unfold run_on. erewrite bind_run; [reflexivity|exact E]. Qed.

  Theorem pdag2dag_cases : forall fuel,
    (exists d, pdag2dag fuel p = Ok d /\ result d) \/ pdag2dag fuel p = Err OutOfFuel.
  Proof using P NL NB.
    intro fuel. unfold pdag2dag. destruct keep_directed_ok as [g0 [E0 A0]]. rewrite (run_keep _ _ E0).
    unfold run_on at 1 3.
    destruct (extend_loop_cases fuel [] _ g0 (state_init g0 A0)) as [[o [inde [g [E [S F]]]]]|[g E]]; rewrite E; cbn [rbind].
    - left. eapply finish; eauto.
    - right. reflexivity.
  Qed.

  Theorem pdag2dag_complete : (exists E, extension p E) -> forall fuel, n <= fuel ->
    exists d, pdag2dag fuel p = Ok d /\ result d.
  Proof using P NL NB.
    intros Ex fuel L. unfold pdag2dag. destruct keep_directed_ok as [g0 [E0 A0]]. rewrite (run_keep _ _ E0).
    unfold run_on at 1.
    destruct (extend_loop_ok (extension_progress Ex) fuel [] _ g0 (state_init g0 A0)) as [o [inde [g [E [S F]]]]];
      [simpl; lia|]. rewrite E. cbn [rbind]. eapply finish; eauto.
  Qed.
End P2D.

(* ---------- a bidirected edge blocks the loop ---------- *)
Section Bidirected.
  Variable p : graph.
  Hypothesis P : PG p.
  Let n := length (node_list p).
  Let nd (i : nat) : nat := nth i (node_list p) 0.
  Let W : WF p := pg_wf p P.

  Lemma removable_total : forall inde i, length inde = n -> i < n ->
    exists b, removable p inde i = Ok b /\
      (b = true -> forall j, j < n -> nth j inde true = false -> mk p (nd i) (nd j) <> Some Arrow).
  Proof using P.
    intros inde i L Hi. unfold removable, np_where.
    assert (Hn : number_of_nodes p = n) by reflexivity. rewrite Hn.
    rewrite (filterE_ok _ (fun j => markb Arrow p (nd i) (nd j))).
    2:{ intros j Hj. apply in_seq in Hj. apply (arrow_at p P); auto. fold n. lia. }
    cbn [rbind].
    set (out := filter (fun j => markb Arrow p (nd i) (nd j)) (seq 0 n)).
    destruct (Nat.eqb (length (np_intersect1d out (unremoved inde))) 0) eqn:Z.
    2:{ exists false. split; auto. discriminate. }
    assert (G : forall j, j < n -> nth j inde true = false -> mk p (nd i) (nd j) <> Some Arrow).
    { intros j Hj F Q. apply (proj1 (len0 _) Z j). apply np_intersect1d_In. split.
      - apply filter_In. split; [apply in_seq; lia|]. apply markb_p. auto.
      - unfold unremoved. apply filter_In. split; [apply in_seq; lia|]. rewrite F. auto. }
    destruct (tails_at_ok p P i Hi) as [t [Et Ht]]. rewrite Et. cbn [rbind].
    rewrite (filterE_ok _ (fun j => markb Arrow p (nd j) (nd i))).
    2:{ intros j Hj. apply in_seq in Hj. apply (arrow_at p P); auto. fold n. lia. }
    cbn [rbind].
    set (inn := filter (fun j => markb Arrow p (nd j) (nd i)) (seq 0 n)).
    set (Nx := np_intersect1d t (unremoved inde)).
    set (Ax := np_union1d (np_intersect1d (np_union1d inn out) (unremoved inde)) Nx).
    assert (HU : forall j, In j (unremoved inde) -> j < n).
    { intros j Hj. unfold unremoved in Hj. apply filter_In in Hj. rewrite in_seq in Hj. lia. }
    assert (HN : forall j, In j Nx -> j < n).
    { intros j Hj. apply np_intersect1d_In in Hj. apply HU. tauto. }
    destruct (Nat.ltb 0 (length Nx)); [|exists true; auto].
    destruct (check2_ok p P Ax Nx) as [b [Eb Hb]]; auto.
    { intros j Hj. apply np_union1d_In in Hj. rewrite np_intersect1d_In in Hj. destruct Hj; [apply HU; tauto|apply HN; auto]. }
    exists b. auto.
  Qed.

  (** What every step keeps: a well-formed PDAG on the same nodes. *)
  Definition sane (g : graph) : Prop := WF g /\ g_kind g = KPDAG /\ node_list g = node_list p.

  Lemma keep_directed_sane : triple sane keep_directed (fun _ => sane).
  Proof using P.
    intros g0 H0. unfold keep_directed, with_nodes.
    apply (triple_forM sane); auto. intros [u v] Huv g [Wg [Kg Ng]].
    apply in_comb2_In in Huv. unfold nodes in Huv. destruct H0 as [_ [_ N0]]. rewrite N0 in Huv.
    erewrite bind_run. 2:{ apply query_run. apply get_edge_ok; auto; rewrite Ng; tauto. }
    destruct (edge_of g u v) as [e|] eqn:Q; [|exists g, tt; repeat (split; auto)].
    apply edge_of_ends in Q. destruct Q as [-> ->].
    match goal with |- context [if ?b then _ else _] => destruct b end; [exists g, tt; repeat (split; auto)|].
    destruct (remove_edge_ok g u v Wg) as [g' [E' [W' [[S1 [S2 S3]] M']]]]; [rewrite Ng; tauto|rewrite Ng; tauto|].
    exists g', tt. split; auto. split; auto. split; congruence.
  Qed.

  Lemma try_node_total : forall inde i g, length inde = n -> i < n -> sane g ->
    exists inde' g', try_node p inde i g = (g', Ok inde') /\ length inde' = n /\ sane g' /\
      (forall j, nth j inde' true = nth j inde true \/
         (j = i /\ forall k, k < n -> nth k inde true = false -> mk p (nd i) (nd k) <> Some Arrow)).
  Proof using P.
    intros inde i g L Hi H. unfold try_node.
    destruct (nth i inde true) eqn:Q; [exists inde, g; auto|].
    destruct (removable_total inde i L Hi) as [b [Eb Hb]].
    erewrite bind_run; [|apply query_run; exact Eb].
    destruct b; [|exists inde, g; auto].
    destruct (tails_at_ok p P i Hi) as [t [Et Ht]].
    erewrite bind_run; [|apply query_run; exact Et].
    assert (T : triple sane (forM t (fun j =>
          (y <- query (fun _ => node_at p j) ;;
           x0 <- query (fun _ => node_at p i) ;;
           c <- connectedM y x0 ;;
           if c : bool then ret tt else add_edge (Edge y x0 Tail Arrow) false)%meth)) (fun _ => sane)).
    { apply triple_forM. intros j Hj h [Wh [Kh Nh]]. apply Ht in Hj. destruct Hj as [Hj _].
      erewrite bind_run; [|apply query_run; apply node_at_ok; auto].
      erewrite bind_run; [|apply query_run; apply node_at_ok; auto].
      assert (Iy : In (nth j (node_list p) 0) (node_list h)) by (rewrite Nh; apply nth_In; auto).
      assert (Ix : In (nth i (node_list p) 0) (node_list h)) by (rewrite Nh; apply nth_In; auto).
      unfold connectedM. erewrite bind_run; [|apply query_run; apply is_connected_ok; auto].
      destruct (connb h _ _) eqn:C; [exists h, tt; repeat (split; auto)|].
      destruct (add_edge_ok h (Edge (nth j (node_list p) 0) (nth i (node_list p) 0) Tail Arrow) false Wh)
        as [h' [E' [W' [[S1 [S2 S3]] M']]]]; cbn [node_u node_v]; auto.
      { rewrite Kh. reflexivity. } { right. apply connb_false. auto. }
      exists h', tt. split; auto. split; auto. split; congruence. }
    destruct (T g H) as [g' [[] [E' H']]].
    erewrite bind_run; [|exact E'].
    exists (set_nth i true inde), g'. split; auto. split; [rewrite set_nth_length; auto|]. split; auto.
    intro j. rewrite set_nth_nth by lia. destruct (Nat.eqb_spec j i); auto.
  Qed.

  Lemma pdag2dag_stuck : forall u v, mk p u v = Some Arrow -> mk p v u = Some Arrow ->
    forall fuel, pdag2dag fuel p = Err OutOfFuel.
  Proof using P.
    intros u v A1 A2 fuel. unfold pdag2dag.
    destruct (keep_directed_sane p) as [g0 [[] [E0 S0]]].
    { split; auto. split; auto. apply pg_kind. auto. }
    rewrite (run_keep p _ _ E0).
    assert (Hu : In u (node_list p)) by (eapply wf_in_l; eauto; rewrite A1; discriminate).
    assert (Hv : In v (node_list p)) by (eapply wf_in; eauto; rewrite A1; discriminate).
    destruct (In_nth _ _ 0 Hu) as [iu [Lu Eu]]. destruct (In_nth _ _ 0 Hv) as [iv [Lv Ev]].
    assert (Main : forall k inde g, length inde = n -> sane g -> nth iu inde true = false -> nth iv inde true = false ->
      exists g', extend_loop k p inde g = (g', Err OutOfFuel)).
    { induction k as [|k IH]; intros inde g L S Fu Fv; cbn [extend_loop].
      - replace (existsb negb inde) with true; [exists g; reflexivity|].
        symmetry. apply existsb_exists. exists false. split; auto. rewrite <- Fu. apply nth_In. rewrite L. auto.
      - replace (existsb negb inde) with true.
        2:{ symmetry. apply existsb_exists. exists false. split; auto. rewrite <- Fu. apply nth_In. rewrite L. auto. }
        assert (T : triple (fun h => length inde = n /\ sane h /\ nth iu inde true = false /\ nth iv inde true = false)
           (foldM (try_node p) inde (seq 0 (number_of_nodes p)))
           (fun inde' h => length inde' = n /\ sane h /\ nth iu inde' true = false /\ nth iv inde' true = false)).
        { apply triple_foldM with (I := fun inde' h => length inde' = n /\ sane h /\ nth iu inde' true = false /\ nth iv inde' true = false).
          intros s i Hi h [L1 [S1 [F1 F2]]]. apply in_seq in Hi.
          destruct (try_node_total s i h L1) as [s' [h' [E' [L' [S' H']]]]]; auto. { change n with (number_of_nodes p). lia. }
          exists h', s'. split; auto. split; auto. split; auto. split.
          - destruct (H' iu) as [->|[<- X]]; auto. exfalso. apply (X iv Lv F2). unfold nd. rewrite Eu, Ev. auto.
          - destruct (H' iv) as [->|[<- X]]; auto. exfalso. apply (X iu Lu F1). unfold nd. rewrite Eu, Ev. auto. }
        destruct (T g) as [g' [inde' [E' [L' [S' [F1 F2]]]]]]; auto.
        erewrite bind_run; [|exact E']. apply IH; auto. }
    destruct (Main fuel (repeat false (number_of_nodes p)) g0) as [g' E']; auto.
    { apply repeat_length. }
    { rewrite (nth_indep _ true false) by (rewrite repeat_length; auto). apply nth_repeat. }
    { rewrite (nth_indep _ true false) by (rewrite repeat_length; auto). apply nth_repeat. }
    unfold run_on at 1. rewrite E'. reflexivity.
  Qed.
End Bidirected.
