(** The directed-graph results restated for the relation [directed]. *)

From Coq Require Import List Arith Bool Lia Permutation.
From Verif Require Import Model.Py Model.Graph Model.DiGraph Spec.API Spec.Digraphs.
From Verif Require Import Proofs.PyFacts Proofs.GraphFacts Proofs.DSepTheory Proofs.FinGraph Proofs.RelExt
  Proofs.DiGraphFacts Proofs.TopoFacts Proofs.HistoryFacts.
Import ListNotations.

Lemma is_acyclic_directed : forall g, reachable KDiGraph g ->
  exists b, is_acyclic g = Ok b /\ (b = true <-> acyclic (directed g)).
Proof.
  intros g R. assert (D := reachable_DG _ R). assert (W := dg_wf g D).
  assert (irr : forall u, ~ arc g u u) by (intros u H; apply (dg_loop g D u); exact H).
  destruct (is_acyclic_ok g W irr) as [b [E H]]. exists b. split; auto.
  rewrite (acyclic_ext _ (arc g) (directed_arc g D)). auto.
Qed.

Lemma C09_aux : forall g, reachable KDiGraph g -> is_acyclic g = Ok true -> acyclic (directed g).
Proof.
  intros g R H. destruct (is_acyclic_directed g R) as [b [E Hb]]. apply Hb. congruence.
Qed.

Lemma is_d_separate_directed : forall g x y z, reachable KDiGraph g ->
  In x (nodes g) -> In y (nodes g) -> incl z (nodes g) ->
  exists b, is_d_separate g x y z = Ok b /\
    (b = true <-> dsep (directed g) (fun u => In u z) x y).
Proof.
  intros g x y z R Hx Hy Hz. assert (D := reachable_DG _ R).
  destruct (is_d_separate_ok g x y z D Hx Hy Hz) as [b [E H]]. exists b. split; auto.
  rewrite (dsep_ext _ (arc g) (directed_arc g D)). auto.
Qed.

Lemma directed_asym : forall g, reachable KDiGraph g -> forall u v, directed g u v -> ~ directed g v u.
Proof.
  intros g R u v. assert (D := reachable_DG _ R). rewrite !directed_arc by auto. apply arc_asym. auto.
Qed.

Lemma adjacent_not_separated : forall g x y z, reachable KDiGraph g ->
  x <> y -> connected g x y -> incl z (nodes g) -> ~ In x z -> ~ In y z ->
  is_d_separate g x y z = Ok false.
Proof.
  intros g x y z R N C Hz Zx Zy. assert (D := reachable_DG _ R). assert (W := dg_wf g D).
  apply connected_iff in C; auto.
  destruct (is_d_separate_ok g x y z D) as [b [E H]]; auto.
  { eapply wf_in_l; eauto. } { eapply wf_in; eauto. }
  rewrite E. f_equal. destruct b; auto. exfalso.
  apply (adjacent_not_dsep (arc g) (arc_asym g D) (fun u => In u z) x y); auto.
  - apply adjacent_mk; auto.
  - apply H. auto.
Qed.

(** Paths increase the rank. *)
Lemma rank_dpath : forall g (f : nat -> nat), WF g ->
  (forall u v, In u (node_list g) -> In v (node_list g) -> arc g u v -> f u < f v) ->
  forall u v, dpath (arc g) u v -> u = v \/ f u < f v.
Proof.
  intros g f W H u v D. induction D as [|u v w He D IH]; auto. right.
  destruct (arc_nodes g u v W He) as [Hu Hv]. specialize (H u v Hu Hv He).
  destruct IH as [<-|IH]; lia.
Qed.

Lemma len_avoid2 : forall (l V : list nat) u v, NoDup l -> NoDup V -> incl l V -> In u V -> In v V -> u <> v ->
  ~ In u l -> ~ In v l -> length l <= length V - 2.
Proof.
  intros l V u v ND NV I Hu Hv N Nu Nv.
  assert (NoDup (u :: v :: l)).
  { constructor; [simpl; intuition congruence|]. constructor; auto. }
  assert (incl (u :: v :: l) V) by (intros x [<-|[<-|Hx]]; auto).
  pose proof (NoDup_incl_length H H0). simpl in *. lia.
Qed.

Lemma nonadjacent_sep_arc : forall g u v, DG g -> acyclic (arc g) ->
  In u (node_list g) -> In v (node_list g) -> u <> v -> mk g u v = None ->
  exists w, (w = u \/ w = v) /\ dsep (arc g) (fun x => In x (parents g w)) u v /\
    ~ In u (parents g w) /\ ~ In v (parents g w).
Proof.
  intros g u v D Ac Hu Hv N M. assert (W := dg_wf g D).
  destruct (rank_fun (arc g) (arc_dec g) (node_list g) Ac (wf_nodup g W)) as [f Hf].
  pose proof (rank_dpath g f W Hf) as Hr.
  assert (Na : ~ adjacent (arc g) u v) by (rewrite adjacent_mk by auto; congruence).
  assert (Na' : ~ adjacent (arc g) v u) by (intro H; apply Na; apply adjacent_sym; auto).
  assert (P : forall w, dsep (arc g) (parents_of (arc g) w) u v ->
     dsep (arc g) (fun x => In x (parents g w)) u v).
  { intro w. rewrite (dsep_Zext (arc g) (fun x => In x (parents g w)) (parents_of (arc g) w)); auto.
    intro x. apply in_parents; auto. }
  assert (Np : forall a b, ~ adjacent (arc g) a b -> ~ In a (parents g b)).
  { intros a b H Hi. apply H. left. apply in_parents in Hi; auto. }
  assert (Ns : forall a, ~ In a (parents g a)).
  { intros a Hi. apply in_parents in Hi; auto. apply (dg_loop g D a). exact Hi. }
  destruct (Nat.le_gt_cases (f u) (f v)) as [L|L].
  - exists v. split; auto. split; [|split; auto].
    apply P. apply dsep_sym.
    apply parents_separate; auto. { apply arc_asym; auto. }
    intro Hd. apply Hr in Hd. destruct Hd as [?|?]; [congruence|lia].
  - exists u. split; auto. split; [|split; auto].
    apply P. apply parents_separate; auto. { apply arc_asym; auto. }
    intro Hd. apply Hr in Hd. destruct Hd as [?|?]; [congruence|lia].
Qed.

Lemma nonadjacent_separated : forall g u v, reachable KDiGraph g -> acyclic (directed g) ->
  In u (nodes g) -> In v (nodes g) -> u <> v -> ~ connected g u v ->
  exists w ps, (w = u \/ w = v) /\ get_parents g w = Ok ps /\
    is_d_separate g u v ps = Ok true /\
    NoDup ps /\ ~ In u ps /\ ~ In v ps /\ length ps <= number_of_nodes g - 2.
Proof.
  intros g u v R Ac Hu Hv N C. assert (D := reachable_DG _ R). assert (W := dg_wf g D).
  apply (acyclic_ext _ (arc g) (directed_arc g D)) in Ac. rewrite connected_iff in C by auto.
  assert (M : mk g u v = None) by (destruct (mk g u v); auto; exfalso; apply C; congruence).
  destruct (nonadjacent_sep_arc g u v D Ac Hu Hv N M) as [w [Hw [Ds [Nu Nv]]]].
  exists w, (parents g w). split; auto.
  assert (In w (node_list g)) by (destruct Hw; subst; auto).
  assert (Ip : incl (parents g w) (node_list g)).
  { intros x Hx. apply in_parents in Hx; auto. apply arc_nodes in Hx; tauto. }
  split; [apply get_parents_ok; auto|]. split; [|split; [apply parents_NoDup; auto|]].
  - destruct (is_d_separate_ok g u v (parents g w) D Hu Hv Ip) as [b [E Hb]]. rewrite E. f_equal. apply Hb. auto.
  - split; auto. split; auto. unfold number_of_nodes, nodes. eapply len_avoid2 with (u := u) (v := v); eauto.
    + apply parents_NoDup; auto.
    + apply W.
Qed.
