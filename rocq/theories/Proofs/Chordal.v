(** Perfect elimination orders: any vertex of a graph that has one can be made
    the root of an acyclic orientation without v-structures. *)

From Coq Require Import List Arith Bool Lia Permutation.
From Verif Require Import Spec.Digraphs Proofs.FinGraph.
Import ListNotations.

Section Chordal.
  Variable U : nat -> nat -> Prop.
  Hypothesis Usym : forall x y, U x y -> U y x.
  Hypothesis Uirr : forall x, ~ U x x.
  Hypothesis Udec : forall x y, {U x y} + {~ U x y}.

  Definition clique (K : list nat) : Prop := forall x y, In x K -> In y K -> x <> y -> U x y.
  Definition simplicial (s : nat) (l : list nat) : Prop :=
    forall x y, In x l -> In y l -> U s x -> U s y -> x <> y -> U x y.
  Fixpoint peo (l : list nat) : Prop :=
    match l with [] => True | z :: r => ~ In z r /\ simplicial z r /\ peo r end.

  Lemma peo_NoDup : forall l, peo l -> NoDup l.
  Proof using. induction l; simpl; intros; constructor; tauto. Qed.

  Lemma peo_remove : forall s l, peo l -> peo (remove Nat.eq_dec s l).
  Proof using.
    intros s. induction l as [|z r IH]; simpl; auto. intros [H1 [H2 H3]].
    destruct (Nat.eq_dec s z); auto. simpl. split; [|split; auto].
    - intro Q. apply in_remove in Q. tauto.
    - intros x y Hx Hy. apply in_remove in Hx, Hy. apply H2; tauto.
  Qed.

  Definition nb (z : nat) (l : list nat) : list nat := filter (fun x => if Udec z x then true else false) l.
  Lemma in_nb : forall z l x, In x (nb z l) <-> In x l /\ U z x.
  Proof using. intros. unfold nb. rewrite filter_In. destruct (Udec z x); intuition congruence. Qed.

  Lemma outside_dec : forall K l : list nat, (exists v, In v l /\ ~ In v K) \/ incl l K.
  Proof using.
    intro K. induction l as [|a l IH]; [right; intros ? []|].
    destruct (in_dec Nat.eq_dec a K) as [H|H]; [|left; exists a; simpl; auto].
    destruct IH as [[v [Hv Hn]]|IH]; [left; exists v; simpl; auto|]. right. intros x [<-|Hx]; auto.
  Qed.

  Lemma simplicial_exists : forall l K, peo l -> clique K -> incl K l -> (exists v, In v l /\ ~ In v K) ->
    exists s, In s l /\ ~ In s K /\ simplicial s l.
  Proof using Usym Uirr Udec.
    induction l as [|z r IH]; intros K P C I [v [Hv Nv]]; [destruct Hv|].
    destruct P as [Nz [Sz P]].
    assert (Sz' : simplicial z (z :: r)).
    { intros x y [<-|Hx] [<-|Hy] U1 U2 N; try (exfalso; eapply Uirr; eauto; fail). auto. }
    destruct (in_dec Nat.eq_dec z K) as [Hz|Hz]; [|exists z; simpl; auto].
    assert (KK : forall x, In x K -> x <> z -> In x (nb z r)).
    { intros x Hx N. apply in_nb. destruct (I x Hx) as [->|H]; [congruence|]. split; auto. }
    destruct (outside_dec (nb z r) r) as [Ho|Ho].
    - destruct (IH (nb z r) P) as [s [Hs [Ns Ss]]]; auto.
      + intros x y Hx Hy N. apply in_nb in Hx, Hy. apply Sz; tauto.
      + intros x Hx. apply in_nb in Hx. tauto.
      + exists s. split; [simpl; auto|].
        assert (s <> z) by (intros ->; auto).
        split; [intro Q; apply Ns; auto|].
        assert (NU : ~ U s z). { intro Q. apply Ns. apply in_nb. auto. }
        intros x y [<-|Hx] [<-|Hy] U1 U2 N; try contradiction. apply Ss; auto.
    - assert (CU : forall x y, In x (z :: r) -> In y (z :: r) -> x <> y -> U x y).
      { intros x y [<-|Hx] [<-|Hy] N; try congruence.
        - apply Ho in Hy. apply in_nb in Hy. tauto.
        - apply Ho in Hx. apply in_nb in Hx. apply Usym. tauto.
        - assert (Qx := Ho _ Hx). assert (Qy := Ho _ Hy). apply in_nb in Qx, Qy. apply Sz; tauto. }
      exists v. split; auto. split; auto. intros x y Hx Hy _ _ N. auto.
  Qed.

  Lemma simplicial_incl : forall s l l', simplicial s l -> incl l' l -> simplicial s l'.
  Proof using. intros s l l' H I x y Hx Hy. apply H; auto. Qed.

  Lemma reroot : forall n l b, length l = n -> peo l -> In b l ->
    exists l0, peo (l0 ++ [b]) /\ forall x, In x (l0 ++ [b]) <-> In x l.
  Proof using Usym Uirr Udec.
    induction n as [|n IH]; intros l b L P Hb; [destruct l; [destruct Hb|discriminate]|].
    destruct (outside_dec [b] l) as [Ho|Ho].
    - destruct (simplicial_exists l [b] P) as [s [Hs [Ns Ss]]]; auto.
      { intros x y [<-|[]] [<-|[]] N. congruence. }
      { intros x [<-|[]]. auto. }
      assert (Nsb : s <> b) by (intros ->; apply Ns; simpl; auto).
      destruct (IH (remove Nat.eq_dec s l) b) as [l0 [P0 H0]].
      + pose proof (remove_length s l (peo_NoDup _ P) Hs). lia.
      + apply peo_remove. auto.
      + apply in_in_remove; auto.
      + exists (s :: l0). simpl. split.
        * split; [rewrite H0; apply remove_In|]. split; auto.
          eapply simplicial_incl; [exact Ss|]. intros x Hx. apply H0 in Hx. apply in_remove in Hx. tauto.
        * intro x. rewrite H0. split.
          -- intros [<-|Hx]; auto. apply in_remove in Hx. tauto.
          -- intro Hx. destruct (Nat.eq_dec s x); auto. right. apply in_in_remove; auto.
    - exists []. simpl. split; [split; [tauto|]; split; [intros ? ? []|auto]|].
      intro x. split; [intros [<-|[]]; auto|]. intro Hx. apply Ho in Hx. simpl in Hx. tauto.
  Qed.

  (** Later in the list points to earlier in the list. *)
  Definition orient (l : list nat) (x y : nat) : Prop :=
    U x y /\ In x l /\ In y l /\ index_of y l < index_of x l.

  Lemma orient_acyclic : forall l, acyclic (orient l).
  Proof using.
    intro l. apply rank_acyclic with (f := fun x => length l - index_of x l).
    intros u v [_ [Hu [Hv L]]]. pose proof (index_of_lt l u Hu). lia.
  Qed.

  Lemma index_inj : forall l x y, In x l -> In y l -> index_of x l = index_of y l -> x = y.
  Proof using.
    induction l as [|a l IH]; simpl; intros x y Hx Hy E; [tauto|].
    destruct (Nat.eq_dec x a), (Nat.eq_dec y a); try discriminate; [congruence|].
    inversion E. apply IH; auto; [destruct Hx|destruct Hy]; congruence || auto.
  Qed.

  Lemma orient_total : forall l x y, U x y -> In x l -> In y l -> orient l x y \/ orient l y x.
  Proof using Usym Uirr.
    intros l x y H Hx Hy. destruct (lt_eq_lt_dec (index_of x l) (index_of y l)) as [[L|L]|L].
    - right. repeat split; auto.
    - exfalso. apply index_inj in L; auto. subst. eapply Uirr; eauto.
    - left. repeat split; auto.
  Qed.

  Lemma orient_shield : forall l x y z, peo l -> orient l x y -> orient l z y -> x <> z -> U x z.
  Proof using Usym.
    intros l x y z P [U1 [Hx [Hy L1]]] [U2 [Hz [_ L2]]] N.
    assert (Q : exists l1 r, l = l1 ++ y :: r /\ ~ In y l1).
    { destruct (in_split y l Hy) as [l1 [r E]]. exists l1, r. split; auto.
      apply peo_NoDup in P. rewrite E in P. apply NoDup_remove_2 in P. intro Q. apply P. apply in_app_iff. auto. }
    destruct Q as [l1 [r [E Ny]]].
    assert (A : forall w, In w l -> index_of y l < index_of w l -> In w r).
    { intros w Hw L. rewrite E in Hw. apply in_app_iff in Hw. destruct Hw as [Hw|[<-|Hw]]; auto; [|lia].
      exfalso. rewrite E in L. rewrite index_of_app in L by auto.
      pose proof (index_of_prefix l1 (y :: r) w Hw). lia. }
    assert (S : simplicial y r).
    { rewrite E in P. clear - P. induction l1; simpl in P; tauto. }
    apply S; auto.
  Qed.

  Lemma orient_root : forall l0 b a, peo (l0 ++ [b]) -> In a (l0 ++ [b]) -> U b a -> orient (l0 ++ [b]) b a.
  Proof using Uirr.
    intros l0 b a P Ha H. assert (Hb : In b (l0 ++ [b])) by (apply in_app_iff; simpl; auto).
    repeat split; auto.
    assert (Nb : ~ In b l0).
    { apply peo_NoDup in P. apply NoDup_remove_2 in P. rewrite app_nil_r in P. auto. }
    rewrite (index_of_app l0 b []) by auto. apply index_of_prefix.
    apply in_app_iff in Ha. destruct Ha as [Ha|[<-|[]]]; auto. exfalso. eapply Uirr; eauto.
  Qed.
End Chordal.

(** The reverse of a topological order of an acyclic orientation in which
    parents are pairwise adjacent is a perfect elimination order. *)
Lemma peo_of_topo : forall (U E : nat -> nat -> Prop) l, NoDup l ->
  (forall x y, U x y -> E x y \/ E y x) ->
  (forall x y z, U x z -> U y z -> E x z -> E y z -> x <> y -> U x y) ->
  (forall x y, U x y -> U y x) ->
  topo_order E l -> peo U (rev l).
Proof.
  intros U E l ND UE SH Us. revert ND. induction l as [|z l IH] using rev_ind; intros ND T; simpl; auto.
  rewrite rev_unit. simpl. assert (Nz : ~ In z l).
  { apply NoDup_remove_2 in ND. rewrite app_nil_r in ND. auto. }
  split; [rewrite <- in_rev; auto|]. split.
  - intros x y Hx Hy U1 U2 N. rewrite <- in_rev in Hx, Hy.
    assert (Q : forall w, In w l -> U z w -> E w z).
    { intros w Hw Uw. destruct (UE z w Uw) as [Ez|Ez]; auto. exfalso.
      destruct (in_split w l Hw) as [l1 [l2 El]].
      specialize (T l1 w (l2 ++ [z])). rewrite El in T. rewrite <- app_assoc in T. specialize (T eq_refl z Ez).
      assert (Hz : In z l1). { apply T. rewrite <- ?app_assoc. apply in_app_iff. right. simpl. right. apply in_app_iff. simpl. auto. }
      apply Nz. rewrite El. apply in_app_iff. auto. }
    apply (SH x y z); auto.
  - apply IH.
    + apply NoDup_remove_1 in ND. rewrite app_nil_r in ND. auto.
    + intros l1 v l2 E1 u Eu Hu. apply (T l1 v (l2 ++ [z])).
      * rewrite E1, <- app_assoc. auto.
      * auto.
      * apply in_app_iff in Hu. apply in_app_iff. destruct Hu as [Hu|[Hu|Hu]]; simpl; auto.
        right. right. apply in_app_iff. auto.
Qed.
