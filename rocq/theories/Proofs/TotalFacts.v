(** Total scores of DAGs: a score with the covered-edge exchange property is
    score equivalent. *)

From Coq Require Import List Arith Lia Bool Permutation QArith Lqa.
From Verif Require Import Spec.Digraphs Spec.Covered Spec.GESSpec Spec.Totals Proofs.FinGraph Proofs.RelExt Proofs.CoveredFacts.
Import ListNotations.
Open Scope nat_scope.

Lemma sumQ_ext : forall l f g, (forall a, In a l -> (f a == g a)%Q) -> (sumQ l f == sumQ l g)%Q.
Proof. induction l as [|a l IH]; simpl; intros f g H; [reflexivity|]. rewrite (H a) by auto. rewrite (IH f g); auto. reflexivity. Qed.
Lemma sumQ_perm : forall l l' f, Permutation l l' -> (sumQ l f == sumQ l' f)%Q.
Proof. intros l l' f P. induction P; simpl; try lra. Qed.

Lemma two_first : forall (N : list nat) x y, NoDup N -> In x N -> In y N -> x <> y ->
  exists r, Permutation N (x :: y :: r) /\ ~ In x r /\ ~ In y r.
Proof.
  intros N x y ND Hx Hy D. apply in_split in Hx. destruct Hx as [l1 [l2 ->]].
  assert (Permutation (l1 ++ x :: l2) (x :: l1 ++ l2)) as P1 by (symmetry; apply Permutation_middle).
  assert (In y (l1 ++ l2)) as Hy'. { apply in_app_iff. apply in_app_iff in Hy. destruct Hy as [|[|]]; auto. congruence. }
  apply in_split in Hy'. destruct Hy' as [k1 [k2 E]]. rewrite E in P1.
  exists (k1 ++ k2). assert (Permutation (l1 ++ x :: l2) (x :: y :: k1 ++ k2)) as P2.
  { rewrite P1. constructor. symmetry. apply Permutation_middle. }
  split; auto. assert (NoDup (x :: y :: k1 ++ k2)) as Q by (eapply Permutation_NoDup; [exact P2|auto]).
  inversion Q as [|? ? Q1 Q2]; subst. inversion Q2; subst. split; auto. intro. apply Q1. right. auto.
Qed.

Lemma one_first : forall (N : list nat) x, NoDup N -> In x N -> exists r, Permutation N (x :: r) /\ ~ In x r.
Proof.
  intros N x ND Hx. apply in_split in Hx. destruct Hx as [l1 [l2 ->]].
  exists (l1 ++ l2). split; [symmetry; apply Permutation_middle|]. apply NoDup_remove_2 in ND. auto.
Qed.

(** The parents of v, from a decision procedure for the edges. *)
Definition parents_of (n : nat) (E : nat -> nat -> Prop) (Ed : forall u v, {E u v} + {~ E u v}) (v : nat) : list nat :=
  filter (fun u => if Ed u v then true else false) (seq 0 n).
Lemma parents_of_ok : forall n (E : nat -> nat -> Prop) Ed v, (forall u v, E u v -> u < n /\ v < n) ->
  NoDup (parents_of n E Ed v) /\ forall u, In u (parents_of n E Ed v) <-> E u v.
Proof.
  intros n E Ed v B. unfold parents_of. split; [apply NoDup_filter, seq_NoDup|].
  intro u. rewrite filter_In, in_seq. destruct (Ed u v) as [H|H].
  - destruct (B u v H). intuition lia.
  - intuition discriminate.
Qed.

Lemma total_exists : forall sf n (E : nat -> nat -> Prop) (Ed : forall u v, {E u v} + {~ E u v}), (forall u v, E u v -> u < n /\ v < n) ->
  total_score sf n E (sumQ (seq 0 n) (fun v => sf v (parents_of n E Ed v))).
Proof. intros sf n E Ed B. exists (parents_of n E Ed). split; [|reflexivity]. intros v _. apply parents_of_ok. auto. Qed.

(** A total score lists the parents, so that edges are decidable. *)
Lemma total_dec : forall sf n (E : nat -> nat -> Prop) a, (forall u v, E u v -> u < n /\ v < n) -> total_score sf n E a ->
  exists _ : (forall u v, {E u v} + {~ E u v}), True.
Proof.
  intros sf n E a B [pa [H _]].
  assert (D : forall u v, {E u v} + {~ E u v}).
  { intros u v. destruct (lt_dec v n) as [L|L]; [|right; intro Q; apply L; apply (B u v Q)].
    destruct (in_dec Nat.eq_dec u (pa v)) as [I|I]; [left; apply (H v L); auto|right; intro Q; apply I; apply (H v L); auto]. }
  exists D. auto.
Qed.

(** Totals of two graphs that differ in the parents of one variable only. *)
Lemma total_diff : forall sf n E F a b y, set_score sf -> y < n -> total_score sf n E a -> total_score sf n F b ->
  (forall u v, v <> y -> (E u v <-> F u v)) ->
  exists lE lF, (NoDup lE /\ forall u, In u lE <-> E u y) /\ (NoDup lF /\ forall u, In u lF <-> F u y) /\
    (b - a == sf y lF - sf y lE)%Q.
Proof.
  intros sf n E F a b y S Hy [pe [He Ea]] [pf [Hf Fb]] Same.
  exists (pe y), (pf y). split; auto. split; auto. rewrite Ea, Fb.
  destruct (one_first (seq 0 n) y (seq_NoDup n 0)) as [r [P Nr]]; [apply in_seq; lia|].
  rewrite (sumQ_perm _ _ (fun v => sf v (pf v)) P), (sumQ_perm _ _ (fun v => sf v (pe v)) P). cbn [sumQ].
  assert (X : (sumQ r (fun v => sf v (pf v)) == sumQ r (fun v => sf v (pe v)))%Q).
  { apply sumQ_ext. intros v Hv. assert (v <> y) by (intros ->; auto).
    assert (v < n) by (assert (I : In v (seq 0 n)) by (eapply Permutation_in; [symmetry; exact P|right; auto]); apply in_seq in I; lia).
    rewrite (S v (pf v) (pe v)); [reflexivity|]. intro u. rewrite (proj2 (Hf v H0)), (proj2 (He v H0)). symmetry. auto. }
  rewrite X. ring.
Qed.

(** The total is a function of the graph. *)
Lemma total_unique : forall sf n E F a b, set_score sf -> (forall u v, E u v <-> F u v) ->
  total_score sf n E a -> total_score sf n F b -> (a == b)%Q.
Proof.
  intros sf n E F a b S X [pe [He Ea]] [pf [Hf Fb]]. rewrite Ea, Fb. apply sumQ_ext. intros v Hv. apply in_seq in Hv.
  rewrite (S v (pe v) (pf v)); [reflexivity|]. intro u. rewrite (proj2 (Hf v ltac:(lia))), (proj2 (He v ltac:(lia))). auto.
Qed.

(** Turning a covered edge x -> y whose ends have the further parents P. *)
Definition covered_exchange (sf : nat -> list nat -> Q) (n : nat) : Prop :=
  forall x y P, x < n -> y < n -> x <> y -> ~ In x P -> ~ In y P ->
    (sf x P + sf y (x :: P) == sf y P + sf x (y :: P))%Q.

Section Turn.
  Variable sf : nat -> list nat -> Q.
  Variable n : nat.
  Hypothesis S : set_score sf.
  Hypothesis X : covered_exchange sf n.

  Lemma turn_total : forall (E : nat -> nat -> Prop) a b x y, dag_over n E -> covered E x y ->
    total_score sf n E a -> total_score sf n (turned E x y) b -> (a == b)%Q.
  Proof using S X.
    intros E a b x y [AE B] C [pe [He Ea]] [pf [Hf Fb]].
    assert (Nxy : x <> y) by (apply (cov_neq E x y AE C)).
    assert (Irr : forall u, ~ E u u) by (intros u Q; apply (AE u); econstructor; [exact Q|constructor]).
    destruct (B x y (proj1 C)) as [Lx Ly].
    destruct (two_first (seq 0 n) x y (seq_NoDup n 0)) as [r [P [Rx Ry]]]; auto; try (apply in_seq; lia).
    rewrite Ea, Fb. rewrite (sumQ_perm _ _ (fun v => sf v (pe v)) P), (sumQ_perm _ _ (fun v => sf v (pf v)) P). cbn [sumQ].
    assert (Rest : (sumQ r (fun v => sf v (pe v)) == sumQ r (fun v => sf v (pf v)))%Q).
    { apply sumQ_ext. intros v Hv. assert (v <> x) by (intros ->; auto). assert (v <> y) by (intros ->; auto).
      assert (Lv : v < n) by (assert (I : In v (seq 0 n)) by (eapply Permutation_in; [symmetry; exact P|right; right; auto]); apply in_seq in I; lia).
      rewrite (S v (pe v) (pf v)); [reflexivity|]. intro u. rewrite (proj2 (He v Lv)), (proj2 (Hf v Lv)). unfold turned.
      split; [intro; left; split; auto; tauto|]. intros [[Q _]|[_ Q]]; auto. congruence. }
    destruct C as [Cxy Cc]. set (P0 := pe x).
    assert (Nx : ~ In x P0) by (unfold P0; rewrite (proj2 (He x Lx)); auto).
    assert (Ny : ~ In y P0) by (unfold P0; rewrite (proj2 (He x Lx)); intro Q; exact (acyclic_asym E AE _ _ Cxy Q)).
    assert (S1 : sf y (pe y) = sf y (x :: P0)).
    { apply S. intro u. rewrite (proj2 (He y Ly)). simpl. unfold P0. rewrite (proj2 (He x Lx)).
      destruct (Nat.eq_dec u x) as [->|D]; [tauto|]. rewrite (Cc u D). split; auto. intros [Q|Q]; congruence. }
    assert (S2 : sf y (pf y) = sf y P0).
    { apply S. intro u. rewrite (proj2 (Hf y Ly)). unfold P0. rewrite (proj2 (He x Lx)). unfold turned. split.
      - intros [[Q D]|[_ Q]]; [|congruence]. apply Cc; auto; intro; subst; auto.
      - intro Q. left. assert (u <> x) by (intro; subst; exact (Irr x Q)). split; [apply Cc; auto|]. tauto. }
    assert (S3 : sf x (pf x) = sf x (y :: P0)).
    { apply S. intro u. rewrite (proj2 (Hf x Lx)). simpl. unfold P0. rewrite (proj2 (He x Lx)). unfold turned. split.
      - intros [[Q D]|[Q _]]; auto.
      - intros [<-|Q]; [right; auto|]. left. split; auto. intros [_ Q2]. congruence. }
    pose proof (X x y P0 Lx Ly Nxy Nx Ny) as T. fold P0. rewrite S1, S2, S3, Rest. lra.
  Qed.

  Theorem exchange_equivalent : score_equivalent sf n.
  Proof using S X.
    intros E F a b [AE BE] [AF BF] EF HE HF.
    assert (T : by_covered_turns F E).
    { destruct (total_dec sf n E a BE HE) as [Ed _]. destruct (total_dec sf n F b BF HF) as [Fd _].
      apply (equivalent_by_turns E F (seq 0 n)); auto using seq_NoDup. intros u v Q. destruct (BE u v Q). rewrite !in_seq. lia. }
    clear EF. revert a HE. induction T as [E H|E x y C T IH]; intros a HE.
    - apply (total_unique sf n E F a b); auto.
    - destruct (total_dec sf n E a BE HE) as [Ed _].
      assert (BE' : forall u v, turned E x y u v -> u < n /\ v < n).
      { intros u v [[Q _]|[-> ->]]; auto. destruct (BE x y (proj1 C)). auto. }
      rewrite (turn_total E a _ x y (conj AE BE) C HE (total_exists sf n (turned E x y) (turned_dec E Ed x y) BE')).
      apply IH; auto.
      + apply turned_acyclic; auto.
      + apply total_exists. auto.
  Qed.
End Turn.

(** Differences of a set function are an example: BIC and BDeu have this form. *)
Lemma set_function_score : forall (h : list nat -> Q) n, (forall l l', (forall x, In x l <-> In x l') -> h l = h l') ->
  set_score (fun j l => h (j :: l) - h l)%Q /\ score_equivalent (fun j l => h (j :: l) - h l)%Q n.
Proof.
  intros h n H.
  assert (S : set_score (fun j l => h (j :: l) - h l)%Q).
  { intros j l l' E. rewrite (H (j :: l) (j :: l')), (H l l'); auto. intro x. simpl. rewrite E. tauto. }
  split; auto. apply exchange_equivalent; auto.
  intros x y P _ _ _ _ _. rewrite (H (y :: x :: P) (x :: y :: P)); [ring|]. intro z. simpl. tauto.
Qed.
