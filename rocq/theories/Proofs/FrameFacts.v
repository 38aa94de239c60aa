(** get_edge depends only on the node list and the two marks of the pair. *)

From Coq Require Import List Arith Bool Lia.
From Verif Require Import Model.Py Model.Graph Spec.API.
From Verif Require Import Proofs.PyFacts Proofs.GraphFacts Proofs.HistoryFacts Proofs.EdgeFacts.
Import ListNotations.

Lemma get_edge_err : forall g u v, WF g -> ~ (In u (node_list g) /\ In v (node_list g)) ->
  get_edge g u v = Err AssertionError.
Proof.
  intros g u v W H. unfold get_edge, is_connected.
  destruct (in_dec Nat.eq_dec u (node_list g)) as [Hu|Hu].
  - rewrite check_ok, check_err by tauto. reflexivity.
  - rewrite check_err by tauto. reflexivity.
Qed.

Lemma get_edge_frame : forall g g' a b, WF g -> WF g' ->
  (In a (node_list g) <-> In a (node_list g')) -> (In b (node_list g) <-> In b (node_list g')) ->
  mk g' a b = mk g a b -> mk g' b a = mk g b a ->
  get_edge g' a b = get_edge g a b.
Proof.
  intros g g' a b W W' Ha Hb M1 M2.
  destruct (in_dec Nat.eq_dec a (node_list g)) as [Da|Da];
  destruct (in_dec Nat.eq_dec b (node_list g)) as [Db|Db].
  - rewrite !get_edge_ok by tauto. unfold edge_of. rewrite M1, M2. auto.
  - rewrite !get_edge_err by tauto. auto.
  - rewrite !get_edge_err by tauto. auto.
  - rewrite !get_edge_err by tauto. auto.
Qed.

Lemma class_check_iff : forall k e, class_check k e = Ok tt <-> marks_allowed k e.
Proof.
  intros k [u v mu mv]; destruct k, mu, mv; simpl; unfold check_mark, rassert; simpl;
    split; try tauto; try discriminate; intuition discriminate.
Qed.

Lemma adds_other : forall g e a b, ~ same_pair a b (node_u e) (node_v e) -> adds g e a b = mk g a b.
Proof.
  intros g e a b H. unfold adds, same_pair in *.
  destruct (Nat.eqb_spec a (node_v e)), (Nat.eqb_spec b (node_u e)); simpl;
  destruct (Nat.eqb_spec a (node_u e)), (Nat.eqb_spec b (node_v e)); simpl; auto; tauto.
Qed.

Lemma subs_other : forall g u v a b, ~ same_pair a b u v -> subs g u v a b = mk g a b.
Proof.
  intros g u v a b H. unfold subs, same_pair in *.
  destruct (Nat.eqb_spec a v), (Nat.eqb_spec b u); simpl;
  destruct (Nat.eqb_spec a u), (Nat.eqb_spec b v); simpl; auto; tauto.
Qed.

Lemma same_pair_sym : forall a b u v, same_pair a b u v -> same_pair b a u v.
Proof. unfold same_pair. tauto. Qed.

(** A raising [forM] of calls that do nothing when they raise. *)
Lemma forM_err : forall {X} (I : graph -> Prop) (f : X -> M unit) l g g' e,
  (forall x g, I g -> I (fst (f x g))) ->
  (forall x g g' e, I g -> f x g = (g', Err e) -> g' = g) ->
  I g -> forM l f g = (g', Err e) ->
  exists pre bad post, l = pre ++ bad :: post /\ forM pre f g = (g', Ok tt) /\ f bad g' = (g', Err e).
Proof.
  intros X I f l. induction l as [|x l IH]; intros g g' e HI Hf Hg H; simpl in H.
  - discriminate.
  - unfold bind in H. destruct (f x g) as [g1 [[]|e1]] eqn:E.
    + assert (I g1). { specialize (HI x g Hg). rewrite E in HI. auto. }
      destruct (IH g1 g' e HI Hf H0 H) as [pre [bad [post [E1 [E2 E3]]]]].
      exists (x :: pre), bad, post. subst. split; auto. split; auto.
      simpl. unfold bind. rewrite E. auto.
    + inversion H; subst. assert (g' = g) by eauto. subst.
      exists [], x, l. auto.
Qed.
