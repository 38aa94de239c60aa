(** C08-C12: topological order, acyclicity and d-separation. *)

From Coq Require Import List Arith Bool Lia Permutation.
From Verif Require Import Model.Py Model.Graph Model.DiGraph Spec.API Spec.Digraphs.
From Verif Require Import Proofs.PyFacts Proofs.GraphFacts Proofs.DSepTheory Proofs.FinGraph Proofs.RelExt
  Proofs.DiGraphFacts Proofs.TopoFacts Proofs.HistoryFacts Proofs.DagFacts.
From Verif Require Import Props.Examples.
Import ListNotations.

(* ------------------------------------------------------------------ C08 *)
Theorem C08_topo_sort_parents_first : forall g, reachable KDiGraph g ->
  exists l, topo_sort g = Ok l /\ NoDup l /\ incl l (nodes g) /\
    (forall l1 u l2, l = l1 ++ u :: l2 -> forall p, directed g p u -> In p l1) /\
    (acyclic (directed g) -> Permutation l (nodes g)).
Proof.
  intros g R. assert (D := reachable_DG _ R). assert (W := dg_wf g D).
  assert (irr : forall u, ~ arc g u u) by (intros u H; apply (dg_loop g D u); exact H).
  destruct (topo_sort_ok g W irr) as [O [E [ND [Hi [Hp _]]]]].
  exists O. split; auto. split; auto. split; auto. split.
  - intros l1 u l2 El p Hd. apply directed_arc in Hd; auto. eapply Hp; eauto.
  - intro Ac. apply (acyclic_ext _ (arc g) (directed_arc g D)) in Ac.
    apply (topo_complete g W irr O E) in Ac.
    apply NoDup_Permutation_bis; auto. unfold nodes. lia.
Qed.
Print Assumptions C08_topo_sort_parents_first.

Example C08_example : topo_sort ex_dag = Ok [0; 1; 2; 3; 4] /\ topo_sort ex_cyc = Ok [] /\
  acyclic (directed ex_dag).
Proof.
  split; [vm_compute; reflexivity|]. split; [vm_compute; reflexivity|].
  apply (C09_aux ex_dag ex_dag_reachable). vm_compute. reflexivity.
Qed.

(* ------------------------------------------------------------------ C09 *)
Theorem C09_is_acyclic_decides : forall g, reachable KDiGraph g ->
  exists b, is_acyclic g = Ok b /\ (b = true <-> acyclic (directed g)).
Proof. exact is_acyclic_directed. Qed.
Print Assumptions C09_is_acyclic_decides.

Example C09_example : is_acyclic ex_dag = Ok true /\ is_acyclic ex_cyc = Ok false /\
  dpath1 (directed ex_cyc) 0 0.
Proof.
  split; [vm_compute; reflexivity|]. split; [vm_compute; reflexivity|].
  apply dp1_intro with 1; [vm_compute; reflexivity|].
  apply dp_step with 2; [vm_compute; reflexivity|].
  apply dp_step with 0; [vm_compute; reflexivity|]. constructor.
Qed.

(* ------------------------------------------------------------------ C10 *)
Theorem C10_is_d_separate_decides : forall g x y z, reachable KDiGraph g ->
  In x (nodes g) -> In y (nodes g) -> incl z (nodes g) ->
  exists b, is_d_separate g x y z = Ok b /\
    (b = true <-> dsep (directed g) (fun u => In u z) x y).
Proof. exact is_d_separate_directed. Qed.
Print Assumptions C10_is_d_separate_decides.

(** 0 and 1 are separated by nothing, but conditioning on the descendant 4 of
    the collider 2 opens the path 0 - 2 - 1. *)
Example C10_example : is_d_separate ex_dag 0 1 [] = Ok true /\ is_d_separate ex_dag 0 1 [4] = Ok false /\
  active_path (directed ex_dag) (fun u => In u [4]) 0 1 [0; 2; 1].
Proof.
  split; [vm_compute; reflexivity|]. split; [vm_compute; reflexivity|].
  split; [repeat constructor; simpl; intuition discriminate|].
  split; [reflexivity|]. split; [reflexivity|].
  split; [simpl; intuition discriminate|]. split; [simpl; intuition discriminate|].
  split.
  - split; [left; vm_compute; reflexivity|]. split; [right; vm_compute; reflexivity|]. exact I.
  - split; [|exact I]. split.
    + intros _. exists 4. split; [simpl; auto|]. apply dp_step with 3; [vm_compute; reflexivity|].
      apply dp_step with 4; [vm_compute; reflexivity|]. constructor.
    + intro H. exfalso. apply H. split; vm_compute; reflexivity.
Qed.

(* ------------------------------------------------------------------ C11 *)
Theorem C11_symmetric : forall g x y z, reachable KDiGraph g ->
  In x (nodes g) -> In y (nodes g) -> incl z (nodes g) ->
  is_d_separate g x y z = is_d_separate g y x z.
Proof.
  intros g x y z R Hx Hy Hz.
  destruct (is_d_separate_directed g x y z R Hx Hy Hz) as [b [E H]].
  destruct (is_d_separate_directed g y x z R Hy Hx Hz) as [b' [E' H']].
  rewrite E, E'. f_equal.
  rewrite dsep_sym in H.
  rewrite <- H in H'. destruct b, b'; auto; [symmetry; apply H'|apply H']; auto.
Qed.
Print Assumptions C11_symmetric.

Theorem C11_depends_on_set : forall g x y z z', reachable KDiGraph g ->
  In x (nodes g) -> In y (nodes g) -> incl z (nodes g) -> (forall u, In u z <-> In u z') ->
  is_d_separate g x y z = is_d_separate g x y z'.
Proof.
  intros g x y z z' R Hx Hy Hz S.
  assert (Hz' : incl z' (nodes g)) by (intros u Hu; apply Hz, S, Hu).
  destruct (is_d_separate_directed g x y z R Hx Hy Hz) as [b [E H]].
  destruct (is_d_separate_directed g x y z' R Hx Hy Hz') as [b' [E' H']].
  rewrite E, E'. f_equal.
  rewrite (dsep_Zext _ _ (fun u => In u z') x y S) in H.
  rewrite <- H in H'. destruct b, b'; auto; [symmetry; apply H'|apply H']; auto.
Qed.
Print Assumptions C11_depends_on_set.

Theorem C11_conditioned_endpoint : forall g x y z, reachable KDiGraph g ->
  In x (nodes g) -> In y (nodes g) -> incl z (nodes g) -> In x z \/ In y z ->
  is_d_separate g x y z = Ok true.
Proof.
  intros g x y z R Hx Hy Hz H.
  destruct (is_d_separate_directed g x y z R Hx Hy Hz) as [b [E Hb]].
  rewrite E. f_equal. apply Hb. intros [p [_ [_ [_ [Zx [Zy _]]]]]]. tauto.
Qed.
Print Assumptions C11_conditioned_endpoint.

Example C11_example : is_d_separate ex_dag 1 4 [3; 0; 3] = Ok true /\ is_d_separate ex_dag 4 1 [0; 3] = Ok true /\
  is_d_separate ex_dag 1 4 [3] = Ok false /\ is_d_separate ex_cyc 0 3 [2] = Ok true.
Proof. vm_compute. auto. Qed.

(* ------------------------------------------------------------------ C12 *)
Theorem C12_adjacent_never_separated : forall g x y z, reachable KDiGraph g ->
  x <> y -> connected g x y -> incl z (nodes g) -> ~ In x z -> ~ In y z ->
  is_d_separate g x y z = Ok false.
Proof. exact adjacent_not_separated. Qed.
Print Assumptions C12_adjacent_never_separated.

Theorem C12_parents_separate : forall g u v, reachable KDiGraph g -> acyclic (directed g) ->
  In u (nodes g) -> In v (nodes g) -> u <> v -> ~ connected g u v ->
  exists w ps, (w = u \/ w = v) /\ get_parents g w = Ok ps /\
    is_d_separate g u v ps = Ok true /\
    NoDup ps /\ ~ In u ps /\ ~ In v ps /\ length ps <= number_of_nodes g - 2.
Proof. exact nonadjacent_separated. Qed.
Print Assumptions C12_parents_separate.

Example C12_example : is_d_separate ex_dag 2 4 [3; 0] = Ok true /\ get_parents ex_dag 4 = Ok [3; 0] /\
  ~ connected ex_dag 2 4 /\ connected ex_dag 3 4.
Proof.
  split; [vm_compute; reflexivity|]. split; [vm_compute; reflexivity|].
  split; [intro H; vm_compute in H; discriminate H|vm_compute; reflexivity].
Qed.
