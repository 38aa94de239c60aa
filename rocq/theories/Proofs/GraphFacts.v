(** Mark tables, the representation invariant, and the effect of every graph
    method on them. *)

From Coq Require Import List Arith Bool Lia ZArith Permutation.
From Verif Require Import Model.Py Model.Graph Proofs.PyFacts.
Import ListNotations.

Notation nget := (dget Nat.eqb).
Notation nset := (dset Nat.eqb).
Notation npop := (dpop Nat.eqb).

(** The mark table: [mk g u v] is the mark at [v] on the edge u - v. *)
Definition mk (g : graph) (u v : nat) : option mark :=
  match nget (adj g) u with Some r => nget r v | None => None end.

Record WF (g : graph) : Prop := {
  wf_nodup : NoDup (node_list g);
  wf_setnd : NoDup (node_set g);
  wf_set : forall u, In u (node_set g) <-> In u (node_list g);
  wf_keys : NoDup (dkeys (adj g));
  wf_rows : forall u, nget (adj g) u <> None <-> In u (node_list g);
  wf_rownd : forall u r, nget (adj g) u = Some r -> NoDup (dkeys r);
  wf_in : forall u v, mk g u v <> None -> In v (node_list g);
  wf_sym : forall u v, mk g u v <> None -> mk g v u <> None
}.

Definition connb (g : graph) (u v : nat) : bool :=
  match mk g u v with Some _ => true | None => false end.
Definition markb (m : mark) (g : graph) (u v : nat) : bool :=
  match mk g u v with Some m' => mark_eqb m' m | None => false end.
Definition dirb (g : graph) (u v : nat) : bool := markb Tail g v u && markb Arrow g u v.
Definition undb (g : graph) (u v : nat) : bool := markb Tail g v u && markb Tail g u v.

Lemma mark_eqb_spec : forall a b, mark_eqb a b = true <-> a = b.
Proof. destruct a, b; simpl; split; congruence. Qed.

Lemma mark_eqb_refl : forall a, mark_eqb a a = true.
Proof. destruct a; auto. Qed.

Lemma wf_in_l : forall g u v, WF g -> mk g u v <> None -> In u (node_list g).
Proof. intros. eapply wf_in; eauto. apply wf_sym; eauto. Qed.

Lemma wf_row : forall g u, WF g -> In u (node_list g) -> exists r, nget (adj g) u = Some r.
Proof.
  intros g u W H. apply (wf_rows g W) in H. destruct (nget (adj g) u); eauto. congruence.
Qed.

Lemma check_ok : forall g u, WF g -> In u (node_list g) -> check_missing_node g u = Ok tt.
Proof.
  intros g u W H. unfold check_missing_node.
  apply (wf_set g W) in H. apply memb_In in H. rewrite H. reflexivity.
Qed.

Lemma check_err : forall g u, WF g -> ~ In u (node_list g) ->
  check_missing_node g u = Err AssertionError.
Proof.
  intros g u W H. unfold check_missing_node.
  rewrite <- (wf_set g W) in H. apply memb_false in H. rewrite H. reflexivity.
Qed.

Lemma connb_sym : forall g u v, WF g -> connb g u v = connb g v u.
Proof.
  intros g u v W. unfold connb.
  pose proof (wf_sym g W u v). pose proof (wf_sym g W v u).
  destruct (mk g u v), (mk g v u); auto; exfalso.
  - apply H; congruence.
  - apply H0; congruence.
Qed.

Lemma is_connected_ok : forall g u v, WF g -> In u (node_list g) -> In v (node_list g) ->
  is_connected g u v = Ok (connb g u v).
Proof.
  intros g u v W Hu Hv. unfold is_connected.
  rewrite !check_ok by auto. simpl. unfold row, dgetE.
  destruct (wf_row g u W Hu) as [r Hr]. destruct (wf_row g v W Hv) as [r' Hr'].
  rewrite Hr, Hr'. simpl.
  pose proof (connb_sym g u v W) as Hs. unfold connb, mk in *. rewrite Hr, Hr' in *.
  unfold dmem. destruct (nget r v), (nget r' u); auto. discriminate.
Qed.

Lemma is_mark_ok : forall m g u v, WF g -> In u (node_list g) -> In v (node_list g) ->
  is_mark m g u v = Ok (markb m g u v).
Proof.
  intros m g u v W Hu Hv. unfold is_mark. rewrite is_connected_ok by auto. simpl.
  unfold connb, markb, adj_at, row, dgetE.
  destruct (wf_row g u W Hu) as [r Hr]. unfold mk. rewrite Hr. simpl.
  destruct (nget r v); auto.
Qed.

Lemma markb_connb : forall m g u v, markb m g u v = true -> connb g u v = true.
Proof. unfold markb, connb. intros. destruct (mk g u v); auto. Qed.

Lemma is_fully_directed_ok : forall g u v, WF g -> In u (node_list g) -> In v (node_list g) ->
  is_fully_directed g u v = Ok (dirb g u v).
Proof.
  intros g u v W Hu Hv. unfold is_fully_directed, is_tail, is_arrow.
  rewrite is_connected_ok by auto. simpl. rewrite !is_mark_ok by auto. simpl.
  unfold dirb. rewrite connb_sym by auto.
  destruct (connb g v u) eqn:C; destruct (markb Tail g v u) eqn:T; auto.
  apply markb_connb in T. congruence.
Qed.

Lemma is_fully_undirected_ok : forall g u v, WF g -> In u (node_list g) -> In v (node_list g) ->
  is_fully_undirected g u v = Ok (undb g u v).
Proof.
  intros g u v W Hu Hv. unfold is_fully_undirected, is_tail.
  rewrite is_connected_ok by auto. simpl. rewrite !is_mark_ok by auto. simpl.
  unfold undb. rewrite connb_sym by auto.
  destruct (connb g v u) eqn:C; destruct (markb Tail g v u) eqn:T; auto.
  apply markb_connb in T. congruence.
Qed.

Definition edge_of (g : graph) (u v : nat) : option edge :=
  match mk g v u, mk g u v with
  | Some mu, Some mv => Some (Edge u v mu mv)
  | _, _ => None
  end.

Lemma get_edge_ok : forall g u v, WF g -> In u (node_list g) -> In v (node_list g) ->
  get_edge g u v = Ok (edge_of g u v).
Proof.
  intros g u v W Hu Hv. unfold get_edge. rewrite is_connected_ok by auto. simpl.
  pose proof (connb_sym g u v W) as Hs.
  unfold edge_of, connb, adj_at, row, dgetE in *.
  destruct (wf_row g u W Hu) as [r Hr]. destruct (wf_row g v W Hv) as [r' Hr'].
  unfold mk in *. rewrite Hr, Hr' in *. simpl.
  destruct (nget r v), (nget r' u); auto; discriminate.
Qed.

Definition nbrs (g : graph) (u : nat) : list nat :=
  match nget (adj g) u with Some r => dkeys r | None => [] end.

Lemma get_neighbours_ok : forall g u, WF g -> In u (node_list g) ->
  get_neighbours g u = Ok (nbrs g u).
Proof.
  intros g u W H. unfold get_neighbours, nbrs, row, dgetE.
  destruct (wf_row g u W H) as [r ->]. reflexivity.
Qed.

Lemma nbrs_In : forall g u v, In v (nbrs g u) <-> mk g u v <> None.
Proof.
  intros. unfold nbrs, mk. destruct (nget (adj g) u).
  - rewrite (dget_Some_key Nat.eqb Neqb_spec). tauto.
  - simpl. split; [tauto|congruence].
Qed.

Lemma connb_true : forall g u v, connb g u v = true <-> mk g u v <> None.
Proof. intros. unfold connb. destruct (mk g u v); split; congruence. Qed.

Lemma connb_false : forall g u v, connb g u v = false <-> mk g u v = None.
Proof. intros. unfold connb. destruct (mk g u v); split; congruence. Qed.

Lemma nbrs_connb : forall g u v, In v (nbrs g u) <-> connb g u v = true.
Proof. intros. rewrite nbrs_In, connb_true. tauto. Qed.

Lemma nbrs_NoDup : forall g u, WF g -> NoDup (nbrs g u).
Proof.
  intros g u W. unfold nbrs. destruct (nget (adj g) u) eqn:E; [|constructor].
  eapply wf_rownd; eauto.
Qed.

(* ---------- construction ---------- *)
Lemma nget_init_adj : forall l u, nget (init_adj l) u = if memb u l then Some [] else None.
Proof.
  induction l as [|a l IH]; intro u; simpl; auto.
  destruct (Nat.eqb_spec u a); simpl; auto.
Qed.

Lemma nodup_length_eq : forall l : list nat, length (py_set l) = length l <-> NoDup l.
Proof.
  intro l. split; intro H.
  - unfold py_set in H. induction l as [|a l IH]; [constructor|].
    simpl in H. destruct (in_dec Nat.eq_dec a l).
    + pose proof (NoDup_incl_length (NoDup_nodup Nat.eq_dec l)
        (fun x => proj1 (nodup_In Nat.eq_dec l x))). simpl in H. lia.
    + simpl in H. constructor; auto.
  - rewrite NoDup_nodup_id; auto.
Qed.

Lemma new_graph_ok : forall k l, NoDup l ->
  exists g, new_graph k l = Ok g /\ WF g /\ g_kind g = k /\ node_list g = l /\
            (forall u v, mk g u v = None).
Proof.
  intros k l ND. unfold new_graph.
  assert (E : length (py_set l) = length l) by (apply nodup_length_eq; auto).
  rewrite E, Nat.eqb_refl. eexists. split; [reflexivity|].
  assert (Hmk : forall u v, mk (mkGraph k l (py_set l) (init_adj (py_set l))) u v = None).
  { intros. unfold mk. simpl. rewrite nget_init_adj. destruct (memb u (py_set l)); auto. }
  split; [|auto].
  constructor; simpl; auto.
  - apply py_set_NoDup.
  - intro. apply py_set_In.
  - unfold dkeys, init_adj. rewrite map_map. simpl. rewrite map_id. apply py_set_NoDup.
  - intro u. rewrite nget_init_adj. rewrite <- (py_set_In u l), <- memb_In.
    destruct (memb u (py_set l)); split; congruence.
  - intros u r. rewrite nget_init_adj. destruct (memb u (py_set l)); intro H; inversion H. constructor.
  - intros u v H. rewrite Hmk in H. congruence.
Qed.

Lemma new_graph_err : forall k l, ~ NoDup l -> new_graph k l = Err AssertionError.
Proof.
  intros k l H. unfold new_graph. destruct (Nat.eqb_spec (length (py_set l)) (length l)); auto.
  apply nodup_length_eq in e. contradiction.
Qed.

Lemma new_graph_inv : forall k l g, new_graph k l = Ok g ->
  NoDup l /\ WF g /\ g_kind g = k /\ node_list g = l /\ (forall u v, mk g u v = None).
Proof.
  intros k l g H.
  assert (ND : NoDup l).
  { unfold new_graph in H. destruct (Nat.eqb_spec (length (py_set l)) (length l)); [|discriminate].
    apply nodup_length_eq. auto. }
  split; auto. destruct (new_graph_ok k l ND) as [g' [E Hg]].
  rewrite H in E. inversion E. subst. auto.
Qed.

(* ---------- single updates ---------- *)
Definition same_nodes (g g' : graph) : Prop :=
  g_kind g' = g_kind g /\ node_list g' = node_list g /\ node_set g' = node_set g.

Lemma same_nodes_refl : forall g, same_nodes g g.
Proof. unfold same_nodes. auto. Qed.

Lemma same_nodes_trans : forall a b c, same_nodes a b -> same_nodes b c -> same_nodes a c.
Proof. unfold same_nodes. intuition congruence. Qed.

(** The part of [WF] that does not involve symmetry of the table. *)
Record WF0 (g : graph) : Prop := {
  wf0_nodup : NoDup (node_list g);
  wf0_setnd : NoDup (node_set g);
  wf0_set : forall u, In u (node_set g) <-> In u (node_list g);
  wf0_keys : NoDup (dkeys (adj g));
  wf0_rows : forall u, nget (adj g) u <> None <-> In u (node_list g);
  wf0_rownd : forall u r, nget (adj g) u = Some r -> NoDup (dkeys r)
}.

Lemma WF_WF0 : forall g, WF g -> WF0 g.
Proof. intros g []. constructor; auto. Qed.

Lemma WF0_WF : forall g, WF0 g ->
  (forall u v, mk g u v <> None -> In v (node_list g)) ->
  (forall u v, mk g u v <> None -> mk g v u <> None) -> WF g.
Proof. intros g [] H1 H2. constructor; auto. Qed.

Lemma adj_update_ok : forall g u v m, WF0 g -> In u (node_list g) ->
  exists g', adj_update u v m g = (g', Ok tt) /\ WF0 g' /\ same_nodes g g' /\
    forall a b, mk g' a b = if (Nat.eqb a u && Nat.eqb b v)%bool then Some m else mk g a b.
Proof.
  intros g u v m W Hu. unfold adj_update, row, dgetE.
  pose proof (wf0_rows g W u) as Hr. destruct (nget (adj g) u) as [r|] eqn:E.
  2:{ exfalso. apply Hr in Hu. congruence. }
  eexists. split; [reflexivity|]. split; [|split].
  - destruct W. constructor; simpl; auto.
    + apply NoDup_dset; auto. apply Neqb_spec.
    + intro a. destruct (Nat.eq_dec u a).
      * subst a. rewrite (dget_dset_eq Nat.eqb Neqb_spec). intuition congruence.
      * rewrite (dget_dset_neq Nat.eqb Neqb_spec) by auto. auto.
    + intros a r'. destruct (Nat.eq_dec u a).
      * subst a. rewrite (dget_dset_eq Nat.eqb Neqb_spec). intro H. inversion H.
        apply NoDup_dset; eauto. apply Neqb_spec.
      * rewrite (dget_dset_neq Nat.eqb Neqb_spec) by auto. eauto.
  - unfold same_nodes. auto.
  - intros a b. unfold mk. simpl. destruct (Nat.eqb_spec a u).
    + subst a. rewrite (dget_dset_eq Nat.eqb Neqb_spec), E. simpl.
      destruct (Nat.eqb_spec b v).
      * subst. apply dget_dset_eq. apply Neqb_spec.
      * apply dget_dset_neq; auto. apply Neqb_spec.
    + simpl. rewrite (dget_dset_neq Nat.eqb Neqb_spec) by auto. reflexivity.
Qed.

Lemma adj_pop_ok : forall g u v, WF0 g -> In u (node_list g) ->
  exists g', adj_pop u v g = (g', Ok tt) /\ WF0 g' /\ same_nodes g g' /\
    forall a b, mk g' a b = if (Nat.eqb a u && Nat.eqb b v)%bool then None else mk g a b.
Proof.
  intros g u v W Hu. unfold adj_pop, row, dgetE.
  pose proof (wf0_rows g W u) as Hr. destruct (nget (adj g) u) as [r|] eqn:E.
  2:{ exfalso. apply Hr in Hu. congruence. }
  eexists. split; [reflexivity|]. split; [|split].
  - destruct W. constructor; simpl; auto.
    + apply NoDup_dset; auto. apply Neqb_spec.
    + intro a. destruct (Nat.eq_dec u a).
      * subst a. rewrite (dget_dset_eq Nat.eqb Neqb_spec). intuition congruence.
      * rewrite (dget_dset_neq Nat.eqb Neqb_spec) by auto. auto.
    + intros a r'. destruct (Nat.eq_dec u a).
      * subst a. rewrite (dget_dset_eq Nat.eqb Neqb_spec). intro H. inversion H.
        apply NoDup_dpop; eauto.
      * rewrite (dget_dset_neq Nat.eqb Neqb_spec) by auto. eauto.
  - unfold same_nodes. auto.
  - intros a b. unfold mk. simpl. destruct (Nat.eqb_spec a u).
    + subst a. rewrite (dget_dset_eq Nat.eqb Neqb_spec), E. simpl.
      destruct (Nat.eqb_spec b v).
      * subst. apply dget_dpop_eq. apply Neqb_spec. eapply wf0_rownd; eauto.
      * apply dget_dpop_neq; auto. apply Neqb_spec.
    + simpl. rewrite (dget_dset_neq Nat.eqb Neqb_spec) by auto. reflexivity.
Qed.

(* ---------- Hoare-style rules for method bodies ---------- *)
Definition triple {A} (P : graph -> Prop) (m : M A) (Q : A -> graph -> Prop) : Prop :=
  forall g, P g -> exists g' a, m g = (g', Ok a) /\ Q a g'.

Lemma triple_ret : forall {A} (P : graph -> Prop) (a : A) (Q : A -> graph -> Prop),
  (forall g, P g -> Q a g) -> triple P (ret a) Q.
Proof. intros A P a Q H g HP. exists g, a. split; auto. Qed.

Lemma triple_bind : forall {A B} P (m : M A) R (f : A -> M B) Q,
  triple P m R -> (forall a, triple (R a) (f a) Q) -> triple P (bind m f) Q.
Proof.
  intros A B P m R f Q H1 H2 g HP. destruct (H1 g HP) as [g1 [a [E1 HR]]].
  destruct (H2 a g1 HR) as [g2 [b [E2 HQ]]].
  exists g2, b. split; auto. unfold bind. rewrite E1. auto.
Qed.

Lemma triple_conseq : forall {A} (P P' : graph -> Prop) (m : M A) (Q Q' : A -> graph -> Prop),
  triple P' m Q' -> (forall g, P g -> P' g) -> (forall a g, Q' a g -> Q a g) -> triple P m Q.
Proof.
  intros A P P' m Q Q' H HP HQ g Hg. destruct (H g (HP g Hg)) as [g' [a [E Ha]]]. eauto.
Qed.

Lemma triple_query : forall {A} (P : graph -> Prop) (q : graph -> res A) (Q : A -> graph -> Prop),
  (forall g, P g -> exists a, q g = Ok a /\ Q a g) -> triple P (query q) Q.
Proof.
  intros A P q Q H g HP. destruct (H g HP) as [a [E HQ]]. exists g, a.
  unfold query. rewrite E. auto.
Qed.

Lemma triple_foldM : forall {X S} (I : S -> graph -> Prop) (f : S -> X -> M S) (l : list X) s,
  (forall s x, In x l -> triple (I s) (f s x) I) ->
  triple (I s) (foldM f s l) I.
Proof.
  intros X S I f. induction l as [|x l IH]; intros s H; simpl.
  - apply triple_ret. auto.
  - eapply triple_bind; [apply H; simpl; auto|]. intro s'. apply IH. intros. apply H. simpl; auto.
Qed.

Lemma triple_forM : forall {X} (I : graph -> Prop) (f : X -> M unit) (l : list X),
  (forall x, In x l -> triple I (f x) (fun _ => I)) ->
  triple I (forM l f) (fun _ => I).
Proof.
  intros X I f. induction l as [|x l IH]; intros H; simpl.
  - apply triple_ret. auto.
  - eapply triple_bind; [apply H; simpl; auto|]. intro a. simpl. apply IH. intros. apply H. simpl; auto.
Qed.

(** Loop with an invariant that tracks the processed prefix. *)
Lemma triple_foldM_idx : forall {X S} (I : list X -> S -> graph -> Prop) (f : S -> X -> M S) (l : list X) s pre,
  (forall pre s x suf, pre ++ x :: suf = l -> triple (I pre s) (f s x) (I (pre ++ [x]))) ->
  forall l', pre ++ l' = l -> triple (I pre s) (foldM f s l') (I l).
Proof.
  intros X S I f l s pre H l'. revert s pre. induction l' as [|x l' IH]; intros s pre E; simpl.
  - rewrite app_nil_r in E. subst. apply triple_ret. auto.
  - eapply triple_bind; [eapply H; eauto|]. intro s'. apply IH. rewrite <- app_assoc. auto.
Qed.

(* ---------- add_edge ---------- *)
Definition adds (g : graph) (e : edge) (a b : nat) : option mark :=
  if (Nat.eqb a (node_v e) && Nat.eqb b (node_u e))%bool then Some (mark_u e)
  else if (Nat.eqb a (node_u e) && Nat.eqb b (node_v e))%bool then Some (mark_v e)
  else mk g a b.

Lemma base_add_edge_ok : forall g e ow, WF g ->
  In (node_u e) (node_list g) -> In (node_v e) (node_list g) ->
  (ow = true \/ mk g (node_u e) (node_v e) = None) ->
  exists g', base_add_edge e ow g = (g', Ok tt) /\ WF g' /\ same_nodes g g' /\
    forall a b, mk g' a b = adds g e a b.
Proof.
  intros g e ow W Hu Hv Ho. unfold base_add_edge, bind, query.
  rewrite !check_ok by auto.
  replace ((if ow then ret tt else
     fun g0 : graph => match (g0, is_connected g0 (node_u e) (node_v e)) with
       | (g', Ok a) => (g', rassert (negb a)) | (g', Err e0) => (g', Err e0) end) g)
    with (g, Ok tt).
  2:{ destruct ow; [reflexivity|]. destruct Ho as [Ho|Ho]; [discriminate|].
      rewrite is_connected_ok by auto. unfold connb. rewrite Ho. reflexivity. }
  destruct (adj_update_ok g (node_u e) (node_v e) (mark_v e) (WF_WF0 g W) Hu)
    as [g1 [E1 [W1 [S1 M1]]]]. rewrite E1.
  assert (Hv1 : In (node_v e) (node_list g1)) by (destruct S1 as [_ [-> _]]; auto).
  destruct (adj_update_ok g1 (node_v e) (node_u e) (mark_u e) W1 Hv1)
    as [g2 [E2 [W2 [S2 M2]]]].
  exists g2. split; auto. pose proof (same_nodes_trans _ _ _ S1 S2) as S12.
  assert (HM : forall a b, mk g2 a b = adds g e a b).
  { intros a b. rewrite M2, M1. reflexivity. }
  split; [|split; auto]. apply WF0_WF; auto.
  - intros a b. rewrite HM. unfold adds. destruct S12 as [_ [-> _]].
    destruct (Nat.eqb_spec a (node_v e)) as [E3|E3]; destruct (Nat.eqb_spec b (node_u e)) as [E4|E4];
      destruct (Nat.eqb_spec a (node_u e)) as [E5|E5]; destruct (Nat.eqb_spec b (node_v e)) as [E6|E6];
      simpl; intros; try (rewrite E4; auto; fail); try (rewrite E6; auto; fail);
      eapply wf_in; eauto.
  - intros a b. rewrite !HM. unfold adds.
    destruct (Nat.eqb_spec a (node_v e)); destruct (Nat.eqb_spec b (node_u e));
      destruct (Nat.eqb_spec a (node_u e)); destruct (Nat.eqb_spec b (node_v e)); simpl;
      subst; try congruence; intros; try (apply wf_sym; auto; fail).
Qed.

Lemma add_edge_ok : forall g e ow, WF g ->
  class_check (g_kind g) e = Ok tt ->
  In (node_u e) (node_list g) -> In (node_v e) (node_list g) ->
  (ow = true \/ mk g (node_u e) (node_v e) = None) ->
  exists g', add_edge e ow g = (g', Ok tt) /\ WF g' /\ same_nodes g g' /\
    forall a b, mk g' a b = adds g e a b.
Proof.
  intros g e ow W Hc Hu Hv Ho. unfold add_edge, bind, query. rewrite Hc.
  apply base_add_edge_ok; auto.
Qed.

Lemma class_check_cases : forall k e, class_check k e = Ok tt \/ class_check k e = Err AssertionError.
Proof.
  intros k [u v mu mv]. destruct k, mu, mv; simpl; auto.
Qed.

(** Every way [add_edge] can end. *)
Lemma add_edge_cases : forall g e ow, WF g ->
  (exists g', add_edge e ow g = (g', Ok tt) /\ WF g' /\ same_nodes g g' /\
     (forall a b, mk g' a b = adds g e a b) /\
     class_check (g_kind g) e = Ok tt /\
     In (node_u e) (node_list g) /\ In (node_v e) (node_list g) /\
     (ow = true \/ mk g (node_u e) (node_v e) = None))
  \/ (add_edge e ow g = (g, Err AssertionError) /\
      (class_check (g_kind g) e = Err AssertionError \/
       ~ In (node_u e) (node_list g) \/ ~ In (node_v e) (node_list g) \/
       (ow = false /\ mk g (node_u e) (node_v e) <> None))).
Proof.
  intros g e ow W. destruct (class_check_cases (g_kind g) e) as [Hc|Hc].
  2:{ right. unfold add_edge, bind, query. rewrite Hc. auto. }
  destruct (in_dec Nat.eq_dec (node_u e) (node_list g)) as [Hu|Hu].
  2:{ right. unfold add_edge, base_add_edge, bind, query. rewrite Hc, check_err by auto. auto. }
  destruct (in_dec Nat.eq_dec (node_v e) (node_list g)) as [Hv|Hv].
  2:{ right. unfold add_edge, base_add_edge, bind, query.
      rewrite Hc, check_ok, check_err by auto. auto. }
  destruct ow.
  { left. destruct (add_edge_ok g e true W Hc Hu Hv) as [g' [E [W' [S' M']]]]; auto.
    exists g'. repeat (split; auto); apply S'. }
  destruct (mk g (node_u e) (node_v e)) eqn:Hm.
  2:{ left. destruct (add_edge_ok g e false W Hc Hu Hv) as [g' [E [W' [S' M']]]]; auto.
      exists g'. repeat (split; auto); apply S'. }
  right. split.
  - unfold add_edge, base_add_edge, bind, query. rewrite Hc, !check_ok by auto.
    rewrite is_connected_ok by auto. unfold connb. rewrite Hm. reflexivity.
  - right. right. right. split; auto. congruence.
Qed.

(* ---------- remove_edge ---------- *)
Definition subs (g : graph) (u v a b : nat) : option mark :=
  if (Nat.eqb a v && Nat.eqb b u)%bool then None
  else if (Nat.eqb a u && Nat.eqb b v)%bool then None
  else mk g a b.

Lemma remove_edge_ok : forall g u v, WF g ->
  In u (node_list g) -> In v (node_list g) ->
  exists g', remove_edge u v g = (g', Ok tt) /\ WF g' /\ same_nodes g g' /\
    forall a b, mk g' a b = subs g u v a b.
Proof.
  intros g u v W Hu Hv. unfold remove_edge, bind, query.
  rewrite is_connected_ok by auto. destruct (connb g u v) eqn:C.
  - destruct (adj_pop_ok g u v (WF_WF0 g W) Hu) as [g1 [E1 [W1 [S1 M1]]]]. rewrite E1.
    assert (Hv1 : In v (node_list g1)) by (destruct S1 as [_ [-> _]]; auto).
    destruct (adj_pop_ok g1 v u W1 Hv1) as [g2 [E2 [W2 [S2 M2]]]].
    exists g2. split; auto. pose proof (same_nodes_trans _ _ _ S1 S2) as S12.
    assert (HM : forall a b, mk g2 a b = subs g u v a b).
    { intros a b. rewrite M2, M1. reflexivity. }
    split; [|split; auto]. apply WF0_WF; auto.
    + intros a b. rewrite HM. unfold subs. destruct S12 as [_ [-> _]].
      destruct (Nat.eqb a v && Nat.eqb b u); [congruence|].
      destruct (Nat.eqb a u && Nat.eqb b v); [congruence|]. apply wf_in; auto.
    + intros a b. rewrite !HM. unfold subs.
      destruct (Nat.eqb_spec a v); destruct (Nat.eqb_spec b u);
      destruct (Nat.eqb_spec a u); destruct (Nat.eqb_spec b v); simpl;
      subst; try congruence; intros; try (apply wf_sym; auto; fail).
  - exists g. split; auto. split; auto. split; [apply same_nodes_refl|].
    intros a b. unfold subs.
    assert (C' : connb g v u = false) by (rewrite connb_sym; auto).
    unfold connb in *.
    destruct (Nat.eqb_spec a v) as [E3|E3]; destruct (Nat.eqb_spec b u) as [E4|E4];
      destruct (Nat.eqb_spec a u) as [E5|E5]; destruct (Nat.eqb_spec b v) as [E6|E6];
      simpl; try rewrite E3, E4; try rewrite E5, E6; auto;
      destruct (mk g u v); destruct (mk g v u); congruence.
Qed.

Lemma remove_edge_cases : forall g u v, WF g ->
  (exists g', remove_edge u v g = (g', Ok tt) /\ WF g' /\ same_nodes g g' /\
    (forall a b, mk g' a b = subs g u v a b) /\ In u (node_list g) /\ In v (node_list g))
  \/ (remove_edge u v g = (g, Err AssertionError) /\
      (~ In u (node_list g) \/ ~ In v (node_list g))).
Proof.
  intros g u v W.
  destruct (in_dec Nat.eq_dec u (node_list g)) as [Hu|Hu].
  2:{ right. unfold remove_edge, bind, query, is_connected. rewrite check_err by auto. auto. }
  destruct (in_dec Nat.eq_dec v (node_list g)) as [Hv|Hv].
  2:{ right. unfold remove_edge, bind, query, is_connected.
      rewrite check_ok, check_err by auto. auto. }
  left. destruct (remove_edge_ok g u v W Hu Hv) as [g' [E [W' [S' M']]]].
  exists g'. repeat (split; auto); apply S'.
Qed.

(* ---------- nodes ---------- *)
Lemma add_node_ok : forall g u, WF g ->
  exists g', add_node u g = (g', Ok tt) /\ WF g' /\ g_kind g' = g_kind g /\
    node_list g' = (if memb u (node_list g) then node_list g else node_list g ++ [u]) /\
    forall a b, mk g' a b = mk g a b.
Proof.
  intros g u W. unfold add_node.
  assert (E : memb u (node_set g) = memb u (node_list g)).
  { destruct (memb u (node_list g)) eqn:E.
    - apply memb_In. apply (wf_set g W). apply memb_In. auto.
    - apply memb_false. rewrite (wf_set g W). apply memb_false. auto. }
  rewrite E. destruct (memb u (node_list g)) eqn:Em.
  { exists g. auto. }
  apply memb_false in Em. assert (Es : ~ In u (node_set g)) by (rewrite (wf_set g W); auto).
  assert (Er : nget (adj g) u = None).
  { destruct (nget (adj g) u) eqn:Ex; auto. exfalso. apply Em. apply (wf_rows g W). congruence. }
  assert (Hmk : forall a b, mk (mkGraph (g_kind g) (node_list g ++ [u]) (node_set g ++ [u])
                (nset (adj g) u [])) a b = mk g a b).
  { intros a b. unfold mk. simpl. destruct (Nat.eq_dec u a).
    - subst. rewrite (dget_dset_eq Nat.eqb Neqb_spec), Er. reflexivity.
    - rewrite (dget_dset_neq Nat.eqb Neqb_spec) by auto. reflexivity. }
  eexists. split; [reflexivity|]. split; [|auto].
  constructor; simpl.
  - apply NoDup_snoc; auto. apply W.
  - apply NoDup_snoc; auto. apply W.
  - intro a. rewrite !in_app_iff, (wf_set g W). tauto.
  - apply NoDup_dset. apply Neqb_spec. apply W.
  - intro a. destruct (Nat.eq_dec u a).
    + subst. rewrite (dget_dset_eq Nat.eqb Neqb_spec), in_app_iff. simpl. intuition congruence.
    + rewrite (dget_dset_neq Nat.eqb Neqb_spec) by auto.
      rewrite (wf_rows g W), in_app_iff. simpl. intuition congruence.
  - intros a r. destruct (Nat.eq_dec u a).
    + subst. rewrite (dget_dset_eq Nat.eqb Neqb_spec). intro H. inversion H. constructor.
    + rewrite (dget_dset_neq Nat.eqb Neqb_spec) by auto. apply W.
  - intros a b. rewrite Hmk. intro H. apply in_app_iff. left. eapply wf_in; eauto.
  - intros a b. rewrite !Hmk. apply W.
Qed.

Lemma forM_adj_pop : forall u l g, WF0 g -> incl l (node_list g) ->
  exists g', forM l (fun v => adj_pop v u) g = (g', Ok tt) /\ WF0 g' /\ same_nodes g g' /\
    forall a b, mk g' a b = if (memb a l && Nat.eqb b u)%bool then None else mk g a b.
Proof.
  intros u. induction l as [|x l IH]; intros g W Hl; simpl.
  - exists g. split; [reflexivity|]. split; auto. split; [apply same_nodes_refl|]. auto.
  - unfold bind.
    destruct (adj_pop_ok g x u W) as [g1 [E1 [W1 [S1 M1]]]]; [apply Hl; simpl; auto|].
    rewrite E1.
    destruct (IH g1 W1) as [g2 [E2 [W2 [S2 M2]]]].
    { destruct S1 as [_ [-> _]]. intros y Hy. apply Hl. simpl. auto. }
    exists g2. split; auto. split; auto. split; [eapply same_nodes_trans; eauto|].
    intros a b. rewrite M2, M1. destruct (Nat.eqb a x); simpl; auto.
    destruct (Nat.eqb b u); simpl; auto.
    + destruct (memb a l); auto.
    + rewrite andb_false_r. auto.
Qed.

Lemma remove_node_ok : forall g u, WF g -> In u (node_list g) ->
  exists g', remove_node u g = (g', Ok tt) /\ WF g' /\ g_kind g' = g_kind g /\
    node_list g' = lremove u (node_list g) /\
    forall a b, mk g' a b = if (Nat.eqb a u || Nat.eqb b u)%bool then None else mk g a b.
Proof.
  intros g u W Hu. unfold remove_node, bind, query. rewrite check_ok by auto.
  destruct (forM_adj_pop u (node_set g) g (WF_WF0 g W)) as [g1 [E1 [W1 [S1 M1]]]].
  { intros x Hx. apply (wf_set g W). auto. }
  rewrite E1. unfold update.
  destruct S1 as [Sk [Sn Ss]].
  eexists. split; [reflexivity|].
  set (g2 := mkGraph _ _ _ _).
  assert (Hmk : forall a b, mk g2 a b = if (Nat.eqb a u || Nat.eqb b u)%bool then None else mk g a b).
  { intros a b. specialize (M1 a b). unfold g2, mk. simpl. destruct (Nat.eqb_spec a u); simpl.
    - subst. rewrite (dget_dpop_eq Nat.eqb Neqb_spec) by apply W1. reflexivity.
    - rewrite (dget_dpop_neq Nat.eqb Neqb_spec) by auto. fold (mk g1 a b). rewrite M1.
      destruct (Nat.eqb_spec b u); simpl.
      + destruct (memb a (node_set g)) eqn:Ea; simpl; auto.
        apply memb_false in Ea. destruct (mk g a b) eqn:Em; auto.
        exfalso. apply Ea. apply (wf_set g W). eapply wf_in_l; eauto. rewrite Em. congruence.
      + rewrite andb_false_r. unfold mk. reflexivity. }
  split; [|repeat split; auto].
  - constructor.
    + simpl. rewrite Sn. apply NoDup_lremove. apply W.
    + simpl. rewrite Ss. apply NoDup_lremove. apply W.
    + intro a. simpl. rewrite Sn, Ss. rewrite !In_lremove by apply W. rewrite (wf_set g W). tauto.
    + simpl. apply NoDup_dpop. apply W1.
    + intro a. simpl. rewrite Sn, In_lremove by apply W. destruct (Nat.eq_dec u a).
      * subst. rewrite (dget_dpop_eq Nat.eqb Neqb_spec) by apply W1. intuition congruence.
      * rewrite (dget_dpop_neq Nat.eqb Neqb_spec) by auto.
        rewrite (wf0_rows g1 W1), Sn. intuition congruence.
    + intros a r. simpl. destruct (Nat.eq_dec u a).
      * subst. rewrite (dget_dpop_eq Nat.eqb Neqb_spec) by apply W1. discriminate.
      * rewrite (dget_dpop_neq Nat.eqb Neqb_spec) by auto. apply W1.
    + intros a b. rewrite Hmk. simpl. rewrite Sn, In_lremove by apply W.
      destruct (Nat.eqb_spec a u); destruct (Nat.eqb_spec b u); simpl; try congruence.
      intro H. split; auto. eapply wf_in; eauto.
    + intros a b. rewrite !Hmk. rewrite (orb_comm (Nat.eqb b u)).
      destruct (Nat.eqb a u || Nat.eqb b u); [congruence|]. apply W.
  - simpl. rewrite Sn. reflexivity.
Qed.

Lemma remove_node_err : forall g u, WF g -> ~ In u (node_list g) ->
  remove_node u g = (g, Err AssertionError).
Proof.
  intros g u W H. unfold remove_node, bind, query. rewrite check_err by auto. reflexivity.
Qed.
