(** The directed-graph vocabulary only depends on the extension of the edge
    relation. *)

From Coq Require Import List Arith.
From Verif Require Import Spec.Digraphs.
Import ListNotations.

Section Ext.
  Variables E F : nat -> nat -> Prop.
  Hypothesis EF : forall u v, E u v <-> F u v.

  Lemma dpath_ext1 : forall u v, dpath E u v -> dpath F u v.
  Proof using EF. intros u v H. induction H; [constructor|]. econstructor; eauto. apply EF; auto. Qed.

  Lemma dpath1_ext1 : forall u v, dpath1 E u v -> dpath1 F u v.
  Proof using EF.
    intros u v H. destruct H. econstructor; [apply EF; eauto|]. apply dpath_ext1. auto.
  Qed.

  Lemma adjacent_ext : forall u v, adjacent E u v <-> adjacent F u v.
  Proof using EF. intros. unfold adjacent. rewrite !EF. tauto. Qed.

  Lemma vstruct_ext : forall u w v, vstruct E u w v <-> vstruct F u w v.
  Proof using EF. intros. unfold vstruct. rewrite !EF, adjacent_ext. tauto. Qed.

  Lemma linked_ext : forall p, linked E p <-> linked F p.
  Proof using EF.
    induction p as [|a p IH]; simpl; [tauto|]. destruct p; [tauto|]. rewrite IH, adjacent_ext. tauto.
  Qed.
End Ext.

Section Ext2.
  Variables E F : nat -> nat -> Prop.
  Hypothesis EF : forall u v, E u v <-> F u v.
  Let FE : forall u v, F u v <-> E u v.
  Proof using EF. intros. rewrite EF. tauto. Qed.

  Lemma dpath_ext : forall u v, dpath E u v <-> dpath F u v.
  Proof using EF. intros. split; apply dpath_ext1; auto. Qed.

  Lemma dpath1_ext : forall u v, dpath1 E u v <-> dpath1 F u v.
  Proof using EF. intros. split; apply dpath1_ext1; auto. Qed.

  Lemma acyclic_ext : acyclic E <-> acyclic F.
  Proof using EF. unfold acyclic. split; intros H u C; apply (H u); apply dpath1_ext; auto. Qed.

  Lemma open_triple_ext : forall Z a b c, open_triple E Z a b c <-> open_triple F Z a b c.
  Proof using EF.
    intros. unfold open_triple. rewrite !EF.
    assert (Q : (exists d, Z d /\ dpath E b d) <-> (exists d, Z d /\ dpath F b d)).
    { split; intros [d [H1 H2]]; exists d; split; auto; apply dpath_ext; auto. }
    rewrite Q. tauto.
  Qed.

  Lemma open_triples_ext : forall Z p, open_triples E Z p <-> open_triples F Z p.
  Proof using EF.
    intro Z. induction p as [|a p IH]; simpl; [tauto|]. destruct p as [|b p]; [tauto|].
    destruct p as [|c p]; [tauto|]. rewrite IH, open_triple_ext. tauto.
  Qed.

  Lemma active_path_ext : forall Z x y p, active_path E Z x y p <-> active_path F Z x y p.
  Proof using EF.
    intros. unfold active_path. rewrite (linked_ext E F) by auto. rewrite open_triples_ext. tauto.
  Qed.

  Lemma dsep_ext : forall Z x y, dsep E Z x y <-> dsep F Z x y.
  Proof using EF.
    intros. unfold dsep. split; intros H [p Hp]; apply H; exists p; apply active_path_ext; auto.
  Qed.
End Ext2.

Lemma open_triples_Zext : forall E (Z Z' : nat -> Prop) p, (forall u, Z u <-> Z' u) ->
  (open_triples E Z p <-> open_triples E Z' p).
Proof.
  intros E Z Z' p H. induction p as [|a p IH]; simpl; [tauto|]. destruct p as [|b p]; [tauto|].
  destruct p as [|c p]; [tauto|]. rewrite IH. unfold open_triple. rewrite (H b).
  assert (Q : (exists d, Z d /\ dpath E b d) <-> (exists d, Z' d /\ dpath E b d)).
  { split; intros [d [H1 H2]]; exists d; split; auto; apply H; auto. }
  rewrite Q. tauto.
Qed.

Lemma dsep_Zext : forall E (Z Z' : nat -> Prop) x y, (forall u, Z u <-> Z' u) ->
  (dsep E Z x y <-> dsep E Z' x y).
Proof.
  intros E Z Z' x y H. unfold dsep, active_path.
  split; intros N [p Hp]; apply N; exists p.
  - rewrite (H x), (H y), (open_triples_Zext E Z Z' p H). exact Hp.
  - rewrite <- (H x), <- (H y), <- (open_triples_Zext E Z Z' p H). exact Hp.
Qed.
