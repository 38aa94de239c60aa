(** Finite directed graphs: sources, ranks, and the absence of cycles. *)

From Coq Require Import List Arith Lia Bool Wf_nat ListDec Permutation.
From Verif Require Import Spec.Digraphs Proofs.DSepTheory.
Import ListNotations.

Section Fin.
  Variable E : nat -> nat -> Prop.
  Hypothesis E_dec : forall u v, {E u v} + {~ E u v}.

  (** Follow predecessors inside [S]: a chain s_k -> ... -> s_0. *)
  Inductive chain : list nat -> Prop :=
  | ch_one : forall s, chain [s]
  | ch_cons : forall p s l, E p s -> chain (s :: l) -> chain (p :: s :: l).


  Lemma chain_tail : forall a b l, chain (a :: b :: l) -> chain (b :: l).
  Proof using. intros a b l H. inversion H; auto. Qed.

  Lemma chain_reach : forall l a w, chain (a :: l) -> In w l -> dpath1 E a w.
  Proof using.
    induction l as [|b l IH]; intros a w H Hw; [destruct Hw|].
    inversion H; subst. destruct Hw as [<-|Hw].
    - econstructor; eauto. constructor.
    - econstructor; eauto. apply dpath1_dpath. apply IH; auto.
  Qed.

  Lemma chain_suffix : forall l1 l2, chain (l1 ++ l2) -> l2 <> [] -> chain l2.
  Proof using.
    induction l1 as [|a l1 IH]; simpl; auto. intros l2 H Hn. apply IH; auto.
    inversion H; subst; auto. destruct l1; simpl in *; subst; congruence.
  Qed.

  Lemma chain_acyclic_NoDup : forall l, acyclic E -> chain l -> NoDup l.
  Proof using.
    intros l Ac. induction l as [|a l IH]; intro H; [constructor|].
    constructor.
    - intro Hi. apply (Ac a). eapply chain_reach; eauto.
    - destruct l; [constructor|]. apply IH. eapply chain_tail; eauto.
  Qed.

  Lemma chain_extend : forall S, (forall s, In s S -> exists p, In p S /\ E p s) ->
    forall n s, In s S -> exists l, chain l /\ length l = n + 1 /\ incl l S.
  Proof using.
    intros S HS. induction n as [|n IH]; intros s Hs.
    - exists [s]. split; [constructor|]. split; auto. intros x [<-|[]]; auto.
    - destruct (IH s Hs) as [l [C [L I]]]. destruct l as [|a l]; [simpl in L; lia|].
      destruct (HS a) as [p [Hp He]]; [apply I; simpl; auto|].
      exists (p :: a :: l). split; [constructor; auto|]. split; [simpl in *; lia|].
      intros x [<-|Hx]; auto.
  Qed.

  (** A nonempty finite set of an acyclic graph has an element without
      predecessor in the set. *)
  Theorem source_exists : forall S, acyclic E -> S <> [] ->
    exists s, In s S /\ forall p, In p S -> ~ E p s.
  Proof using E_dec.
    intros S Ac Hne.
    destruct (Exists_dec (fun s => Forall (fun p => ~ E p s) S) S) as [H|H].
    { intro s. apply Forall_dec. intro p. destruct (E_dec p s); auto. }
    - apply Exists_exists in H. destruct H as [s [Hs HF]]. exists s. split; auto.
      intros p Hp. rewrite Forall_forall in HF. auto.
    - exfalso.
      assert (HS : forall s, In s S -> exists p, In p S /\ E p s).
      { intros s Hs. destruct (Exists_dec (fun p => E p s) S) as [Hx|Hx].
        - intro p. apply E_dec.
        - apply Exists_exists in Hx. destruct Hx as [p [? ?]]. eauto.
        - exfalso. apply H. apply Exists_exists. exists s. split; auto.
          apply Forall_forall. intros p Hp He. apply Hx. apply Exists_exists. eauto. }
      destruct S as [|s0 S0]; [congruence|].
      destruct (chain_extend (s0 :: S0) HS (length (s0 :: S0)) s0) as [l [C [L I]]]; [simpl; auto|].
      pose proof (NoDup_incl_length (chain_acyclic_NoDup l Ac C) I). simpl in *. lia.
  Qed.
End Fin.

Section Rank.
  Variable E : nat -> nat -> Prop.
  Hypothesis E_dec : forall u v, {E u v} + {~ E u v}.

  (** A parents-first enumeration. *)
  Definition topo_order (l : list nat) : Prop :=
    forall l1 v l2, l = l1 ++ v :: l2 -> forall u, E u v -> In u (l1 ++ v :: l2) -> In u l1.

  Lemma remove_length : forall (x : nat) l, NoDup l -> In x l ->
    length (remove Nat.eq_dec x l) + 1 = length l.
  Proof.
    induction l as [|a l IH]; simpl; intros ND H; [tauto|]. inversion ND; subst.
    destruct (Nat.eq_dec x a).
    - subst. rewrite notin_remove; auto. lia.
    - destruct H; [congruence|]. simpl. rewrite <- IH; auto.
  Qed.

  Lemma NoDup_remove' : forall (x : nat) l, NoDup l -> NoDup (remove Nat.eq_dec x l).
  Proof.
    induction l as [|a l IH]; simpl; intros ND; auto. inversion ND; subst.
    destruct (Nat.eq_dec x a); auto. constructor; auto. intro H. apply in_remove in H. tauto.
  Qed.

  Theorem rank_exists : forall S, acyclic E -> NoDup S ->
    exists l, Permutation l S /\ topo_order l.
  Proof using E_dec.
    intros S Ac. remember (length S) as n eqn:Hn. revert S Hn.
    induction n as [|n IH]; intros S Hn ND.
    - destruct S; [|discriminate]. exists []. split; auto. intros [|? ?] v l2 H; discriminate.
    - destruct (source_exists E E_dec S Ac) as [s [Hs Hp]]; [intro Z0; subst S; discriminate|].
      destruct (IH (remove Nat.eq_dec s S)) as [l [P T]].
      + pose proof (remove_length s S ND Hs). lia.
      + apply NoDup_remove'. auto.
      + exists (s :: l).
        assert (PS : Permutation (s :: l) S).
        { apply NoDup_Permutation; auto.
          - constructor. + intro H. apply (Permutation_in _ P) in H. apply in_remove in H. tauto.
            + eapply Permutation_NoDup; [apply Permutation_sym; eauto|]. apply NoDup_remove'; auto.
          - intro x. simpl. split.
            + intros [<-|H]; auto. apply (Permutation_in _ P) in H. apply in_remove in H. tauto.
            + intro H. destruct (Nat.eq_dec s x); auto. right.
              apply (Permutation_in _ (Permutation_sym P)). apply in_in_remove; auto. }
        split; auto.
        intros l1 v l2 Hl u Hu Hin. destruct l1 as [|a l1]; simpl in Hl; inversion Hl; subst.
        * exfalso. apply (Hp u); auto. apply (Permutation_in _ PS). simpl in *. auto.
        * simpl in *. destruct Hin as [<-|Hin]; auto. right. eapply T; eauto.
  Qed.

  Fixpoint index_of (x : nat) (l : list nat) : nat :=
    match l with [] => 0 | y :: r => if Nat.eq_dec x y then 0 else S (index_of x r) end.

  Lemma index_of_app : forall l1 x l2, ~ In x l1 -> index_of x (l1 ++ x :: l2) = length l1.
  Proof.
    induction l1 as [|a l1 IH]; intros x l2 H; simpl.
    - destruct (Nat.eq_dec x x); congruence.
    - destruct (Nat.eq_dec x a). + subst. exfalso. apply H. simpl. auto.
      + f_equal. apply IH. intro. apply H. simpl. auto.
  Qed.

  Lemma index_of_lt : forall l x, In x l -> index_of x l < length l.
  Proof.
    induction l as [|a l IH]; intros x H; simpl in *; [tauto|].
    destruct (Nat.eq_dec x a); [lia|]. destruct H; [congruence|]. apply IH in H. lia.
  Qed.

  Lemma index_of_prefix : forall l1 l2 x, In x l1 -> index_of x (l1 ++ l2) < length l1.
  Proof.
    induction l1 as [|a l1 IH]; intros l2 x H; simpl in *; [tauto|].
    destruct (Nat.eq_dec x a); [lia|]. destruct H; [congruence|]. apply (IH l2) in H. lia.
  Qed.

  (** A numeric rank increasing along edges between members of [S]. *)
  Theorem rank_fun : forall S, acyclic E -> NoDup S ->
    exists f : nat -> nat, forall u v, In u S -> In v S -> E u v -> f u < f v.
  Proof using E_dec.
    intros S Ac ND. destruct (rank_exists S Ac ND) as [l [P T]].
    exists (fun x => index_of x l). intros u v Hu Hv He.
    assert (NDl : NoDup l) by (eapply Permutation_NoDup; [apply Permutation_sym; eauto|auto]).
    apply (Permutation_in _ (Permutation_sym P)) in Hu, Hv.
    destruct (in_split v l Hv) as [l1 [l2 ->]].
    specialize (T l1 v l2 eq_refl u He Hu).
    rewrite (index_of_app l1 v l2).
    - apply index_of_prefix. auto.
    - apply NoDup_remove_2 in NDl. intro. apply NDl. apply in_app_iff. auto.
  Qed.
End Rank.

(** Existence of a rank excludes cycles. *)
Lemma rank_acyclic : forall (E : nat -> nat -> Prop) (f : nat -> nat),
  (forall u v, E u v -> f u < f v) -> acyclic E.
Proof.
  intros E f H u C.
  assert (G : forall a b, dpath E a b -> f a <= f b).
  { intros a b D. induction D as [|a b c He D IH]; auto. specialize (H _ _ He). lia. }
  inversion C as [a b c He D]; subst. specialize (H _ _ He). specialize (G _ _ D). lia.
Qed.

Lemma acyclic_asym : forall E : nat -> nat -> Prop, acyclic E -> forall u v, E u v -> ~ E v u.
Proof.
  intros E Ac u v H1 H2. apply (Ac u). econstructor; eauto. econstructor; eauto. constructor.
Qed.
