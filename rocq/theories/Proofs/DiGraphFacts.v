(** Directed graphs: parents, children, the two-phase search of
    get_reachable_nodes and its relation to active paths. *)

From Coq Require Import List Arith Bool Lia.
From Verif Require Import Model.Py Model.Graph Model.DiGraph.
From Verif Require Import Spec.Digraphs.
From Verif Require Import Proofs.PyFacts Proofs.GraphFacts Proofs.DSepTheory Proofs.FinGraph.
Import ListNotations.

(** The mark table of a directed graph. *)
Record DG (g : graph) : Prop := {
  dg_wf : WF g;
  dg_marks : forall u v, u <> v -> mk g u v <> None ->
    (mk g u v = Some Arrow /\ mk g v u = Some Tail) \/
    (mk g u v = Some Tail /\ mk g v u = Some Arrow);
  dg_diag : forall u, mk g u u = None \/ mk g u u = Some Tail
}.

Lemma dg_loop : forall g, DG g -> forall u, mk g u u <> Some Arrow.
Proof. intros g D u. destruct (dg_diag g D u); congruence. Qed.

Definition arc (g : graph) (u v : nat) : Prop := mk g u v = Some Arrow.

Lemma arc_dec : forall g u v, {arc g u v} + {~ arc g u v}.
Proof.
  intros. unfold arc. destruct (mk g u v) as [[]|]; (left; reflexivity) || (right; congruence).
Defined.

Lemma arc_markb : forall g u v, markb Arrow g u v = true <-> arc g u v.
Proof.
  intros. unfold markb, arc. destruct (mk g u v).
  - rewrite mark_eqb_spec. split; congruence.
  - split; congruence.
Qed.

Lemma arc_asym : forall g, DG g -> forall u v, arc g u v -> ~ arc g v u.
Proof.
  intros g D u v H1 H2. unfold arc in *.
  destruct (Nat.eq_dec u v) as [->|N]; [exact (dg_loop g D v H1)|].
  destruct (dg_marks g D u v N) as [[? ?]|[? ?]]; congruence.
Qed.

Lemma arc_nodes : forall g u v, WF g -> arc g u v -> In u (node_list g) /\ In v (node_list g).
Proof.
  intros g u v W H. unfold arc in H. split.
  - eapply wf_in_l; eauto. rewrite H. congruence.
  - eapply wf_in; eauto. rewrite H. congruence.
Qed.

Lemma arc_dirb : forall g, DG g -> forall u v, dirb g u v = true <-> arc g u v.
Proof.
  intros g D u v. unfold dirb. rewrite andb_true_iff, arc_markb. split; [tauto|].
  intro H. split; auto. unfold markb, arc in *.
  destruct (Nat.eq_dec u v) as [->|N]; [exfalso; exact (dg_loop g D v H)|].
  destruct (dg_marks g D u v N) as [[? E]|[? ?]]; try congruence. rewrite E. reflexivity.
Qed.

Lemma adjacent_mk : forall g, DG g -> forall u v, u <> v ->
  (adjacent (arc g) u v <-> mk g u v <> None).
Proof.
  intros g D u v N. unfold adjacent, arc. split.
  - intros [H|H]; [congruence|]. apply (wf_sym g (dg_wf g D)). congruence.
  - intro H. destruct (dg_marks g D u v N H) as [[? ?]|[? ?]]; auto.
Qed.

Lemma filterE_ok : forall {A} (p : A -> res bool) (q : A -> bool) l,
  (forall x, In x l -> p x = Ok (q x)) -> filterE p l = Ok (filter q l).
Proof.
  induction l as [|a l IH]; intro H; simpl; auto.
  rewrite H by (simpl; auto). simpl. rewrite IH by (intros; apply H; simpl; auto). simpl.
  destruct (q a); auto.
Qed.

Definition parents (g : graph) (u : nat) : list nat :=
  filter (fun v => markb Arrow g v u) (nbrs g u).
Definition children (g : graph) (u : nat) : list nat :=
  filter (fun v => markb Arrow g u v) (nbrs g u).

Lemma get_parents_ok : forall g u, WF g -> In u (node_list g) ->
  get_parents g u = Ok (parents g u).
Proof.
  intros g u W Hu. unfold get_parents. rewrite get_neighbours_ok by auto. simpl.
  apply filterE_ok. intros v Hv. apply is_mark_ok; auto.
  apply nbrs_In in Hv. eapply wf_in; eauto.
Qed.

Lemma get_children_ok : forall g u, WF g -> In u (node_list g) ->
  get_children g u = Ok (children g u).
Proof.
  intros g u W Hu. unfold get_children. rewrite get_neighbours_ok by auto. simpl.
  apply filterE_ok. intros v Hv. apply is_mark_ok; auto.
  apply nbrs_In in Hv. eapply wf_in; eauto.
Qed.

Lemma in_parents : forall g u v, WF g -> (In v (parents g u) <-> arc g v u).
Proof.
  intros g u v W. unfold parents. rewrite filter_In, arc_markb, nbrs_In. split; [tauto|].
  intro H. split; auto. apply (wf_sym g W). unfold arc in H. congruence.
Qed.

Lemma in_children : forall g u v, WF g -> (In v (children g u) <-> arc g u v).
Proof.
  intros g u v W. unfold children. rewrite filter_In, arc_markb, nbrs_In. split; [tauto|].
  intro H. split; auto. unfold arc in H. congruence.
Qed.

Lemma parents_NoDup : forall g u, WF g -> NoDup (parents g u).
Proof. intros. apply NoDup_filter. apply nbrs_NoDup. auto. Qed.
Lemma children_NoDup : forall g u, WF g -> NoDup (children g u).
Proof. intros. apply NoDup_filter. apply nbrs_NoDup. auto. Qed.

(* ---------- visited tables ---------- *)
Section Visit.
  Context {K : Type} (keqb : K -> K -> bool).
  Hypothesis keqb_spec : forall a b, keqb a b = true <-> a = b.

  Definition visited (vis : list (K * bool)) (k : K) : Prop := dget keqb vis k = Some true.
  Definition unvisited (vis : list (K * bool)) : nat :=
    length (filter (fun p => negb (snd p)) vis).

  Lemma unvisited_dset : forall vis k, dget keqb vis k = Some false ->
    unvisited (dset keqb vis k true) + 1 = unvisited vis.
  Proof using.
    induction vis as [|[k' b] r IH]; simpl; intros k H; [discriminate|].
    destruct (keqb k k') eqn:E.
    - inversion H; subst. unfold unvisited. simpl. lia.
    - apply IH in H. unfold unvisited in *. simpl. destruct (negb b); simpl; lia.
  Qed.

  Lemma unvisited_dset_le : forall vis k, dget keqb vis k <> None ->
    unvisited (dset keqb vis k true) <= unvisited vis.
  Proof using.
    induction vis as [|[k' b] r IH]; simpl; intros k H; [congruence|].
    destruct (keqb k k') eqn:E.
    - unfold unvisited. simpl. destruct (negb b); simpl; lia.
    - apply IH in H. unfold unvisited in *. simpl. destruct (negb b); simpl; lia.
  Qed.

  Lemma push_all_ok : forall ks q vis,
    (forall k, In k ks -> dget keqb vis k <> None) ->
    exists new vis', push_all keqb ks q vis = Ok (q ++ new, vis') /\
      length new + unvisited vis' = unvisited vis /\
      (forall k, In k new -> In k ks) /\
      (forall k, visited vis' k <-> visited vis k \/ In k new) /\
      (forall k, In k ks -> visited vis' k) /\
      (forall k, In k new -> ~ visited vis k) /\
      (forall k, dget keqb vis' k <> None <-> dget keqb vis k <> None).
  Proof using keqb_spec.
    induction ks as [|k ks IH]; intros q vis Hk; simpl.
    - exists [], vis. rewrite app_nil_r. simpl. intuition.
    - unfold dgetE. destruct (dget keqb vis k) as [b|] eqn:Ek.
      2:{ exfalso. apply (Hk k); simpl; auto. }
      simpl. destruct b.
      + destruct (IH q vis) as [new [vis' [H1 [H2 [H3 [H4 [H5 [H6 H7]]]]]]]].
        { intros; apply Hk; simpl; auto. }
        exists new, vis'. repeat split; auto.
        * apply H4.
        * apply H4.
        * intros k' [<-|Hin]; auto. apply H4. left. exact Ek.
        * apply H7.
        * apply H7.
      + destruct (IH (q ++ [k]) (dset keqb vis k true)) as [new [vis' [H1 [H2 [H3 [H4 [H5 [H6 H7]]]]]]]].
        { intros k' Hin. destruct (keqb k k') eqn:E.
          - apply keqb_spec in E. subst. rewrite dget_dset_eq; auto. congruence.
          - rewrite dget_dset_neq; auto. + apply Hk; simpl; auto.
            + intro. subst. assert (keqb k' k' = true) by (apply keqb_spec; auto). congruence. }
        assert (Hv : forall k', visited (dset keqb vis k true) k' <-> visited vis k' \/ k = k').
        { intro k'. unfold visited. destruct (keqb k k') eqn:E.
          - apply keqb_spec in E. subst. rewrite dget_dset_eq; auto. tauto.
          - assert (k <> k').
            { intro. subst. assert (keqb k' k' = true) by (apply keqb_spec; auto). congruence. }
            rewrite dget_dset_neq; auto. intuition congruence. }
        exists (k :: new), vis'. rewrite <- app_assoc in H1. simpl in *.
        pose proof (unvisited_dset vis k Ek) as U.
        split; [exact H1|]. split; [lia|].
        split; [intros k' [<-|Hin]; auto|].
        split. { intro k'. rewrite H4, Hv. tauto. }
        split. { intros k' [<-|Hin]; auto. apply H4. left. apply Hv. auto. }
        split.
        { intros k' [<-|Hin].
          - unfold visited. rewrite Ek. congruence.
          - intro V. apply (H6 k' Hin). apply Hv. auto. }
        intro k'. rewrite H7. destruct (keqb k k') eqn:E.
        * apply keqb_spec in E. subst. rewrite dget_dset_eq; auto. rewrite Ek. split; congruence.
        * assert (k <> k').
          { intro. subst. assert (keqb k' k' = true) by (apply keqb_spec; auto). congruence. }
          rewrite dget_dset_neq; auto. tauto.
  Qed.
End Visit.

Lemma dget_map_const : forall {V} (c : V) (l : list nat) u,
  nget (map (fun n => (n, c)) l) u = if memb u l then Some c else None.
Proof.
  induction l as [|a l IH]; intros u; simpl; auto. destruct (Nat.eqb u a); simpl; auto.
Qed.

(* ---------- phase I ---------- *)
  Lemma init_vis : forall (l : list nat) vis,
    (forall k, In k l -> nget vis k <> None) ->
    let vis' := fold_left (fun d n => nset d n true) l vis in
    (forall k, visited Nat.eqb vis' k <-> visited Nat.eqb vis k \/ In k l) /\
    (forall k, nget vis' k <> None <-> nget vis k <> None) /\
    unvisited vis' <= unvisited vis.
  Proof.
    induction l as [|a l IH]; intros vis H; simpl. { intuition. }
    destruct (IH (nset vis a true)) as [H1 [H2 H3]].
    { intros k Hk. destruct (Nat.eq_dec a k).
      - subst. rewrite (dget_dset_eq Nat.eqb Neqb_spec). congruence.
      - rewrite (dget_dset_neq Nat.eqb Neqb_spec) by auto. apply H. simpl; auto. }
    assert (Ha : nget vis a <> None) by (apply H; simpl; auto).
    split; [|split].
    - intro k. rewrite H1. unfold visited. destruct (Nat.eq_dec a k).
      + subst. rewrite (dget_dset_eq Nat.eqb Neqb_spec). tauto.
      + rewrite (dget_dset_neq Nat.eqb Neqb_spec) by auto. tauto.
    - intro k. rewrite H2. destruct (Nat.eq_dec a k).
      + subst. rewrite (dget_dset_eq Nat.eqb Neqb_spec). split; congruence.
      + rewrite (dget_dset_neq Nat.eqb Neqb_spec) by auto. tauto.
    - etransitivity; [exact H3|]. apply unvisited_dset_le; auto.
  Qed.


Section Phase1.
  Variable g : graph.
  Hypothesis W : WF g.
  Variable z : list nat.
  Hypothesis Hz : incl z (node_list g).
  Let anc (k : nat) : Prop := exists d, In d z /\ dpath (arc g) k d.

  Lemma phase1_ok : forall fuel q a vis,
    length q + unvisited vis <= fuel ->
    (forall k, nget vis k <> None <-> In k (node_list g)) ->
    (forall k, visited Nat.eqb vis k <-> In k q \/ In k a) ->
    (forall k, visited Nat.eqb vis k -> anc k) ->
    (forall k p, In k a -> arc g p k -> visited Nat.eqb vis p) ->
    (forall k, In k z -> visited Nat.eqb vis k) ->
    exists a', phase1 g fuel q a vis = Ok a' /\ forall k, In k a' <-> anc k.
  Proof using W.
    induction fuel as [|f IH]; intros q a vis Hf Hk Hv Ha Hc Hzv; simpl.
    - destruct q; [|simpl in Hf; lia]. exists a. split; auto. intro k. split.
      + intro H. apply Ha. apply Hv. auto.
      + intros [d [Hd D]]. assert (In d a) by (apply Hzv in Hd; apply Hv in Hd; simpl in Hd; tauto).
        clear Hd. induction D; auto. assert (In v a) by auto.
        apply Hc with (p := u) in H1; auto. apply Hv in H1. simpl in H1. tauto.
    - destruct q as [|y q].
      { exists a. split; auto. intro k. split.
        + intro H. apply Ha. apply Hv. auto.
        + intros [d [Hd D]]. assert (In d a) by (apply Hzv in Hd; apply Hv in Hd; simpl in Hd; tauto).
          clear Hd. induction D; auto. assert (In v a) by auto.
          apply Hc with (p := u) in H1; auto. apply Hv in H1. simpl in H1. tauto. }
      simpl in Hf. assert (Hy : visited Nat.eqb vis y) by (apply Hv; simpl; auto).
      destruct (memb y a) eqn:Em; simpl.
      + apply memb_In in Em. apply IH; auto; try lia.
        * intro k. rewrite Hv, set_union_In. simpl. split; intuition; subst; auto.
        * intros k p Hin. apply set_union_In in Hin. destruct Hin as [Hin|[<-|[]]]; apply Hc; auto.
      + apply memb_false in Em.
        assert (Hyn : In y (node_list g)) by (apply Hk; unfold visited in Hy; rewrite Hy; congruence).
        rewrite get_parents_ok by auto. simpl.
        destruct (push_all_ok Nat.eqb Neqb_spec (parents g y) q vis)
          as [new [vis' [H1 [H2 [H3 [H4 [H5 [H6 H7]]]]]]]].
        { intros k Hin. apply Hk. apply in_parents in Hin; auto. apply arc_nodes in Hin; tauto. }
        rewrite H1. simpl. apply IH.
        * rewrite app_length. lia.
        * intro k. rewrite H7. auto.
        * intro k. rewrite H4, Hv, set_union_In, in_app_iff. simpl. tauto.
        * intros k V. apply H4 in V. destruct V as [V|V]; auto.
          apply H3, in_parents in V; auto. destruct (Ha y Hy) as [d [Hd D]].
          exists d. split; auto. econstructor; eauto.
        * intros k p Hin Hp. apply set_union_In in Hin. destruct Hin as [Hin|[<-|[]]].
          -- apply H4. left. eapply Hc; eauto.
          -- apply H5. apply in_parents; auto.
        * intros k Hin. apply H4. auto.
  Qed.

  Lemma ancestors_of_ok : exists a, ancestors_of g z = Ok a /\ forall k, In k a <-> anc k.
  Proof using W Hz.
    unfold ancestors_of.
    destruct (init_vis z (map (fun n => (n, false)) (nodes g))) as [H1 [H2 H3]].
    { intros k Hk. rewrite dget_map_const. apply Hz, memb_In in Hk. unfold nodes. rewrite Hk. congruence. }
    apply phase1_ok.
    - assert (unvisited (map (fun n : nat => (n, false)) (nodes g)) <= number_of_nodes g).
      { unfold unvisited, number_of_nodes. rewrite <- (map_length (fun n => (n, false)) (nodes g)).
        apply filter_len. }
      lia.
    - intro k. rewrite H2, dget_map_const. unfold nodes. rewrite <- memb_In.
      destruct (memb k (node_list g)); split; congruence.
    - intro k. rewrite H1. unfold visited. rewrite dget_map_const.
      destruct (memb k (nodes g)); simpl; intuition congruence.
    - intros k V. apply H1 in V. unfold visited in V. rewrite dget_map_const in V.
      destruct V as [V|V]; [destruct (memb k (nodes g)); discriminate|].
      exists k. split; auto. constructor.
    - simpl. tauto.
    - intros k Hk. apply H1. auto.
  Qed.
End Phase1.

(* ---------- phase II ---------- *)
Lemma key_eqb_spec : forall a b, key_eqb a b = true <-> a = b.
Proof.
  intros [a d] [b e]. unfold key_eqb. simpl. rewrite andb_true_iff, Nat.eqb_eq.
  destruct d, e; simpl; split; intuition congruence.
Qed.

Lemma dget_key_init : forall (l : list nat) u d,
  dget key_eqb (flat_map (fun n => [((n, false), false); ((n, true), false)]) l) (u, d)
  = if memb u l then Some false else None.
Proof.
  induction l as [|a l IH]; intros u d; simpl; auto. rewrite IH.
  unfold key_eqb. simpl. destruct (Nat.eqb u a), d; reflexivity.
Qed.

Section Phase2.
  Variable g : graph.
  Hypothesis W : WF g.
  Variables (x : nat) (z a : list nat).
  Hypothesis Hx : In x (node_list g).

  (** The keys that (y, d) pushes. *)
  Definition next (k k' : key) : Prop :=
    match k, k' with
    | (y, true), (p, true) => ~ In y z /\ arc g p y
    | (y, true), (c, false) => ~ In y z /\ arc g y c
    | (y, false), (c, false) => ~ In y z /\ arc g y c
    | (y, false), (p, true) => In y a /\ arc g p y
    end.

  Inductive RS : key -> Prop :=
  | RS0 : RS (x, true)
  | RSs : forall k k', RS k -> next k k' -> RS k'.

  Lemma RS_node : forall k, RS k -> In (fst k) (node_list g).
  Proof using W Hx.
    intros k H. induction H as [|[y d] [y' d'] H IH N]; simpl in *; auto.
    destruct d, d'; destruct N as [_ N]; apply arc_nodes in N; tauto.
  Qed.

  Lemma expand_ok : forall k, In (fst k) (node_list g) ->
    exists ks, expand g z a k = Ok ks /\ forall k', In k' ks <-> next k k'.
  Proof using W.
    intros [y d] Hy. simpl in Hy. unfold expand.
    assert (Mp : forall (k' : key) (l : list nat) (e : bool), In k' (map (fun p => (p, e)) l) <-> In (fst k') l /\ snd k' = e).
    { intros [k' e'] l e. rewrite in_map_iff. simpl. split.
      - intros [p [E H]]. inversion E; subst. auto.
      - intros [H ->]. exists k'. auto. }
    destruct d; simpl.
    - destruct (memb y z) eqn:Ez; simpl.
      + apply memb_In in Ez. exists []. split; auto. intros [y' []]; simpl; tauto.
      + apply memb_false in Ez. rewrite get_parents_ok, get_children_ok by auto. simpl.
        eexists. split; [reflexivity|]. intros [y' d']. rewrite in_app_iff, !Mp. simpl.
        rewrite in_parents, in_children by auto. destruct d'; intuition congruence.
    - exists (map (fun c => (c, false)) (if memb y z then [] else children g y) ++
              map (fun p => (p, true)) (if memb y a then parents g y else [])).
      split.
      + destruct (memb y z); simpl; [|rewrite get_children_ok by auto; simpl];
        (destruct (memb y a); simpl; [rewrite get_parents_ok by auto|]); reflexivity.
      + intros [y' d']. rewrite in_app_iff, !Mp. simpl.
        destruct (memb y z) eqn:Ez; destruct (memb y a) eqn:Ea; simpl;
          rewrite ?in_parents, ?in_children by auto;
          (apply memb_In in Ez || apply memb_false in Ez);
          (apply memb_In in Ea || apply memb_false in Ea);
          destruct d'; intuition congruence.
  Qed.

  Lemma phase2_ok : forall fuel q vis out done,
    length q + unvisited vis <= fuel ->
    (forall k, dget key_eqb vis k <> None <-> In (fst k) (node_list g)) ->
    (forall k, visited key_eqb vis k <-> In k q \/ In k done) ->
    (forall k, visited key_eqb vis k -> RS k) ->
    (forall k k', In k done -> next k k' -> visited key_eqb vis k') ->
    visited key_eqb vis (x, true) ->
    (forall y, In y out <-> ~ In y z /\ exists d, In (y, d) done) ->
    exists out', phase2 g z a fuel q vis out = Ok out' /\
      forall y, In y out' <-> ~ In y z /\ exists d, RS (y, d).
  Proof using W Hx.
    induction fuel as [|f IH]; intros q vis out done Hf Hk Hv Hr Hc Hx0 Ho.
    - destruct q; [|simpl in Hf; lia]. simpl. exists out. split; auto. intro y. rewrite Ho.
      assert (G : forall k, RS k -> In k done).
      { intros k H. induction H as [|k k' H IH N].
        - apply Hv in Hx0. simpl in Hx0. tauto.
        - apply (Hc _ _ IH) in N. apply Hv in N. simpl in N. tauto. }
      split; intros [H1 [d H2]]; split; auto; exists d; auto. apply Hr, Hv. auto.
    - destruct q as [|[y d] q].
      { simpl. exists out. split; auto. intro y. rewrite Ho.
        assert (G : forall k, RS k -> In k done).
        { intros k H. induction H as [|k k' H IH' N].
          - apply Hv in Hx0. simpl in Hx0. tauto.
          - apply (Hc _ _ IH') in N. apply Hv in N. simpl in N. tauto. }
        split; intros [H1 [d H2]]; split; auto; exists d; auto. apply Hr, Hv. auto. }
      simpl in Hf. cbn [phase2].
      assert (Hy : visited key_eqb vis (y, d)) by (apply Hv; simpl; auto).
      assert (Hyn : In y (node_list g)).
      { apply (Hk (y, d)). unfold visited in Hy. rewrite Hy. congruence. }
      destruct (expand_ok (y, d) Hyn) as [ks [E1 E2]]. rewrite E1. cbn [rbind].
      destruct (push_all_ok key_eqb key_eqb_spec ks q vis)
        as [new [vis' [H1 [H2 [H3 [H4 [H5 [H6 H7]]]]]]]].
      { intros k Hin. apply Hk. apply E2 in Hin. eapply RS_node. econstructor; eauto. }
      rewrite H1. cbn [rbind fst snd]. apply IH with (done := (y, d) :: done).
      + rewrite app_length. lia.
      + intro k. rewrite H7. auto.
      + intro k. rewrite H4, Hv, in_app_iff. simpl. tauto.
      + intros k V. apply H4 in V. destruct V as [V|V]; auto.
        apply H3, E2 in V. econstructor; eauto.
      + intros k k' [<-|Hin] N.
        * apply H5. apply E2. auto.
        * apply H4. left. eauto.
      + apply H4. auto.
      + intro y0. destruct (memb y z) eqn:Ez.
        * apply memb_In in Ez. rewrite Ho. simpl. split; intros [Hz [d0 Hd]]; split; auto; exists d0; auto.
          destruct Hd as [Hd|Hd]; auto. inversion Hd; subst. tauto.
        * apply memb_false in Ez. rewrite in_app_iff, Ho. simpl. split.
          -- intros [[Hz [d0 Hd]]|[<-|[]]]; split; auto; [exists d0|exists d]; auto.
          -- intros [Hz [d0 [Hd|Hd]]]; [inversion Hd; subst; auto|]. left. split; auto. exists d0. auto.
  Qed.

  Lemma search_ok : exists out,
    phase2 g z a (S (2 * number_of_nodes g)) [(x, true)]
      (dset key_eqb (flat_map (fun n => [((n, false), false); ((n, true), false)]) (nodes g)) (x, true) true)
      [] = Ok out /\
    forall y, In y out <-> ~ In y z /\ exists d, RS (y, d).
  Proof using W Hx.
    set (vis0 := flat_map (fun n => [((n, false), false); ((n, true), false)]) (nodes g)).
    assert (G0 : forall k, dget key_eqb vis0 k = if memb (fst k) (node_list g) then Some false else None).
    { intros [u d]. apply dget_key_init. }
    assert (Gx : dget key_eqb vis0 (x, true) = Some false).
    { rewrite G0. apply memb_In in Hx. simpl. rewrite Hx. auto. }
    assert (G1 : forall k, dget key_eqb (dset key_eqb vis0 (x, true) true) k =
                 if key_eqb (x, true) k then Some true else dget key_eqb vis0 k).
    { intro k. destruct (key_eqb (x, true) k) eqn:E.
      - apply key_eqb_spec in E. subst k. apply dget_dset_eq. apply key_eqb_spec.
      - apply dget_dset_neq; [apply key_eqb_spec|]. intro Q. apply key_eqb_spec in Q. congruence. }
    apply phase2_ok with (done := []).
    - pose proof (unvisited_dset key_eqb vis0 (x, true) Gx) as U.
      assert (unvisited vis0 <= 2 * number_of_nodes g).
      { unfold unvisited. etransitivity; [apply filter_len|]. unfold vis0, number_of_nodes.
        clear. induction (nodes g) as [|n0 l0 IHl]; simpl in *; lia. }
      cbn [length]. unfold key in *. lia.
    - intro k. rewrite G1, G0. destruct (key_eqb (x, true) k) eqn:E.
      + apply key_eqb_spec in E. subst k. simpl. split; auto. congruence.
      + rewrite <- memb_In. destruct (memb (fst k) (node_list g)); split; congruence.
    - intro k. unfold visited. rewrite G1, G0. destruct (key_eqb (x, true) k) eqn:E.
      + apply key_eqb_spec in E. simpl. split; auto.
      + split.
        * destruct (memb (fst k) (node_list g)); discriminate.
        * intros [[Hk|[]]|[]]. apply key_eqb_spec in Hk. congruence.
    - intro k. unfold visited. rewrite G1, G0. destruct (key_eqb (x, true) k) eqn:E.
      + apply key_eqb_spec in E. subst. constructor.
      + destruct (memb (fst k) (node_list g)); discriminate.
    - simpl. tauto.
    - unfold visited. rewrite G1. assert (key_eqb (x, true) (x, true) = true) as -> by (apply key_eqb_spec; auto). auto.
    - intro y. simpl. split; [tauto|]. intros [_ [d []]].
  Qed.
End Phase2.

Section Reach.
  Variable g : graph.
  Hypothesis D : DG g.
  Variables (x : nat) (z a : list nat).
  Hypothesis Hx : In x (node_list g).
  Hypothesis Ha : forall k, In k a <-> exists d, In d z /\ dpath (arc g) k d.
  Let Z := fun u => In u z.

  (** A reachable key is the end of an active walk from [x]. *)
  Lemma RS_walk : forall k, RS g x z a k ->
    exists p, hd_error p = Some x /\ last p x = fst k /\ linked (arc g) p /\
      open_triples (arc g) Z p /\
      ((p = [x] /\ snd k = true) \/
       (~ In x z /\ exists l q, p = l ++ [q; fst k] /\
          (if snd k then arc g (fst k) q else arc g q (fst k)))).
  Proof using D Ha.
    intros k H. induction H as [|[y d] [y' d'] H IH N].
    - exists [x]. simpl. repeat split; auto.
    - destruct IH as [p [H1 [H2 [H3 [H4 H5]]]]]. cbn [fst snd] in *.
      assert (Adj : adjacent (arc g) y y').
      { destruct d, d'; destruct N as [_ N]; (left; exact N) || (right; exact N). }
      exists (p ++ [y']).
      assert (Hne : p <> []) by (intro; subst; discriminate).
      split. { destruct p; [congruence|auto]. }
      split. { apply last_last. }
      destruct H5 as [[-> ->]|[Hxz [l [q [-> Hd]]]]].
      + simpl in H2. subst y. simpl. split; [auto|]. split; [auto|]. right.
        assert (~ In x z /\ if d' then arc g y' x else arc g x y').
        { destruct d'; auto. }
        split; [tauto|]. exists [], x. simpl. split; auto. destruct d'; tauto.
      + split.
        { replace ((l ++ [q; y]) ++ [y']) with ((l ++ [q]) ++ y :: [y']) by (rewrite <- !app_assoc; auto).
          apply linked_app. split.
          - rewrite <- app_assoc. exact H3.
          - simpl. auto. }
        split.
        { replace ((l ++ [q; y]) ++ [y']) with (l ++ q :: y :: [y']) by (rewrite <- !app_assoc; auto).
          apply open_mid. split; [exact H4|]. split; [|simpl; auto].
          unfold open_triple. destruct d.
          - assert (Na : ~ arc g q y) by (eapply arc_asym; eauto).
            split; [tauto|]. intros _. unfold Z; destruct d'; simpl in N; tauto.
          - destruct d'; destruct N as [N1 N2].
            + split; [|tauto]. intros _. apply Ha in N1. exact N1.
            + split; [|auto]. intros [_ Hc]. exfalso. eapply arc_asym; eauto. }
        right. split; auto. exists (l ++ [q]), y. rewrite <- !app_assoc. simpl. split; auto.
        destruct d, d'; simpl in N; tauto.
  Qed.

  (** Every active walk is followed by the search. *)
  Lemma walk_RS_from : forall r q b,
    (arc g b q -> RS g x z a (b, true)) -> (arc g q b -> RS g x z a (b, false)) ->
    linked (arc g) (q :: b :: r) -> open_triples (arc g) Z (q :: b :: r) ->
    exists d, RS g x z a (last (b :: r) q, d).
  Proof using D Ha.
    induction r as [|c r IH]; intros q b R1 R2 L O.
    - simpl in *. destruct L as [[L|L] _]; eauto.
    - cbn [linked] in L. destruct L as [Lqb [Lbc L]].
      cbn [open_triples] in O. destruct O as [[O1 O2] O].
      assert (G : (arc g c b -> RS g x z a (c, true)) /\ (arc g b c -> RS g x z a (c, false))).
      { destruct Lqb as [Hqb|Hbq].
        - split; intro Hc.
          + eapply RSs; [apply R2; auto|]. simpl. split; auto. apply Ha. apply O1. auto.
          + eapply RSs; [apply R2; auto|]. simpl. split; auto. apply O2.
            intros [_ Hc']. eapply arc_asym; eauto.
        - assert (Nb : ~ In b z).
          { apply O2. intros [Hc' _]. eapply arc_asym; eauto. }
          split; intro Hc; (eapply RSs; [apply R1; auto|]; simpl; auto). }
      destruct G as [G1 G2].
      destruct (IH b c G1 G2) as [d Hd].
      + cbn [linked]. auto.
      + exact O.
      + exists d. change (last (b :: c :: r) q) with (last (c :: r) q).
        rewrite (last_indep (c :: r) q b) by congruence. exact Hd.
  Qed.

  Lemma reach_iff : forall y, In y (node_list g) ->
    ((~ In y z /\ exists d, RS g x z a (y, d)) <-> ~ dsep (arc g) Z x y).
  Proof using D Ha Hx.
    intros y Hy.
    assert (Edec : forall u v, {arc g u v} + {~ arc g u v}) by (intros; apply arc_dec).
    pose proof (arc_asym g D) as As.
    split.
    - intros [Hz [d Hd]] Hs. apply Hs.
      destruct (RS_walk _ Hd) as [p [H1 [H2 [H3 [H4 H5]]]]]. simpl in *.
      eapply (walk_to_path (arc g) Edec As Z p x y); auto.
      destruct H5 as [[-> _]|[Hxz _]]; auto. simpl in H2. subst. auto.
    - intro Hn.
      assert (Hp : ~ In y z /\ ~ forall d, ~ RS g x z a (y, d)).
      { split.
        - intro Hz. apply Hn. intros [p [_ [_ [_ [_ [Zy _]]]]]]. auto.
        - intro Nr. apply Hn. intros [p [_ [Hh [Hl [Zx [Zy [L O]]]]]]].
          destruct p as [|x' p]; [discriminate|]. simpl in Hh. inversion Hh; subst x'.
          destruct p as [|b p].
          + simpl in Hl. subst. apply (Nr true). constructor.
          + destruct (walk_RS_from p x b) as [d Hd]; auto.
            * intro Hb. eapply RSs; [constructor|]. simpl. auto.
            * intro Hb. eapply RSs; [constructor|]. simpl. auto.
            * change (last (x :: b :: p) x) with (last (b :: p) x) in Hl.
              rewrite Hl in Hd. eapply Nr; eauto. }
      destruct Hp as [Hz Hd]. split; auto.
      destruct (search_ok g (dg_wf g D) x z a Hx) as [out [_ Hout]].
      destruct (in_dec Nat.eq_dec y out) as [Hi|Hi].
      + apply Hout in Hi. tauto.
      + exfalso. apply Hd. intros d R. apply Hi. apply Hout. split; auto. exists d. auto.
  Qed.
End Reach.

(** get_reachable_nodes enumerates exactly the nodes that are d-connected to
    [x] given [z]; is_d_separate decides d-separation. *)
Theorem is_d_separate_ok : forall g x y z, DG g ->
  In x (node_list g) -> In y (node_list g) -> incl z (node_list g) ->
  exists b, is_d_separate g x y z = Ok b /\
    (b = true <-> dsep (arc g) (fun u => In u z) x y).
Proof.
  intros g x y z D Hx Hy Hz. unfold is_d_separate, get_reachable_nodes.
  destruct (ancestors_of_ok g (dg_wf g D) z Hz) as [a [Ea Ha]]. rewrite Ea. cbn [rbind].
  destruct (search_ok g (dg_wf g D) x z a Hx) as [out [Eo Ho]]. rewrite Eo. cbn [rbind].
  eexists. split; [reflexivity|].
  pose proof (reach_iff g D x z a Hx Ha y Hy) as R.
  rewrite negb_true_iff, memb_false, Ho, R.
  split.
  - intros H [p Hp]. apply H. intro Ds. apply Ds. exists p. auto.
  - tauto.
Qed.
