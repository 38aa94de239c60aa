(** The members of a Markov equivalence class that orient a clique of
    reversible edges first: a node can be given exactly its compelled parents
    and a clique of its neighbours as parents. *)

From Coq Require Import List Arith Bool Lia Permutation.
From Verif Require Import Spec.Digraphs Proofs.FinGraph Proofs.Chordal Proofs.MeekComplete.
Import ListNotations.

Section Root.
  Variable U : nat -> nat -> Prop.
  Hypothesis Usym : forall x y, U x y -> U y x.
  Hypothesis Uirr : forall x, ~ U x x.
  Hypothesis Udec : forall x y, {U x y} + {~ U x y}.

  Lemma clique_peo : forall K, NoDup K -> clique U K -> peo U K.
  Proof using.
    induction K as [|z K IH]; simpl; auto. intros ND C. inversion ND; subst. split; auto. split.
    - intros x y Hx Hy _ _ N. apply C; simpl; auto.
    - apply IH; auto. intros x y Hx Hy. apply C; simpl; auto.
  Qed.

  Lemma reroot_clique : forall n l K, length l = n -> peo U l -> NoDup K -> clique U K -> incl K l ->
    exists l0, peo U (l0 ++ K) /\ forall x, In x (l0 ++ K) <-> In x l.
  Proof using Usym Uirr Udec.
    induction n as [|n IH]; intros l K L P ND C I.
    - destruct l; [|discriminate]. destruct K as [|k K]; [|destruct (I k); simpl; auto].
      exists []. simpl. tauto.
    - destruct (outside_dec K l) as [Ho|Ho].
      + destruct (simplicial_exists U Usym Uirr Udec l K P C I Ho) as [s [Hs [Ns Ss]]].
        destruct (IH (remove Nat.eq_dec s l) K) as [l0 [P0 H0]]; auto.
        * pose proof (remove_length s l (peo_NoDup _ _ P) Hs). lia.
        * apply peo_remove. auto.
        * intros x Hx. apply in_in_remove; auto. intros ->. auto.
        * exists (s :: l0). simpl. split.
          -- split; [rewrite H0; apply remove_In|]. split; auto.
             eapply simplicial_incl; [exact Ss|]. intros x Hx. apply H0 in Hx. apply in_remove in Hx. tauto.
          -- intro x. rewrite H0. split.
             ++ intros [<-|Hx]; auto. apply in_remove in Hx. tauto.
             ++ intro Hx. destruct (Nat.eq_dec s x); auto. right. apply in_in_remove; auto.
      + exists []. simpl. split; [apply clique_peo; auto|]. intro x. split; auto.
  Qed.

  Lemma orient_clique : forall l0 y C x, peo U (l0 ++ y :: C) -> clique U (y :: C) ->
    (orient U (l0 ++ y :: C) x y <-> In x C).
  Proof using.
    intros l0 y C x P K.
    assert (ND := peo_NoDup _ _ P). assert (Ny := NoDup_remove_2 _ _ _ ND). rewrite in_app_iff in Ny.
    split.
    - intros [Hu [Hx [_ L]]]. apply in_app_iff in Hx. destruct Hx as [Hx|[<-|Hx]]; auto; [|lia].
      rewrite (index_of_app l0 y C) in L by tauto. pose proof (index_of_prefix l0 (y :: C) x Hx). lia.
    - intro Hx. assert (N : x <> y) by (intros ->; tauto).
      assert (Nx : ~ In x l0).
      { intro Q. apply in_split in Q. destruct Q as [a [b ->]]. rewrite <- app_assoc in ND. simpl in ND.
        apply NoDup_remove_2 in ND. apply ND. rewrite !in_app_iff. simpl. auto. }
      split; [apply K; simpl; auto|]. split; [apply in_app_iff; simpl; auto|]. split; [apply in_app_iff; simpl; auto|].
      rewrite (index_of_app l0 y C) by tauto.
      destruct (lt_dec (length l0) (index_of x (l0 ++ y :: C))) as [Q|Q]; auto. exfalso.
      assert (A : forall l r, ~ In x l -> length l <= index_of x (l ++ r)).
      { clear. induction l as [|a l IH]; simpl; intros r H; [lia|]. destruct (Nat.eq_dec x a); [exfalso; apply H; auto|].
        assert (length l <= index_of x (l ++ r)); [apply IH; tauto|lia]. }
      specialize (A (l0 ++ [y]) C). rewrite <- app_assoc in A. simpl in A.
      rewrite app_length in A. simpl in A. assert (~ In x (l0 ++ [y])) by (rewrite in_app_iff; simpl; intuition). specialize (A H). lia.
  Qed.

  Lemma orient_outside : forall l0 K w h, peo U (l0 ++ K) -> In w K -> In h l0 -> U w h -> orient U (l0 ++ K) w h.
  Proof using.
    intros l0 K w h P Hw Hh H. split; auto. split; [apply in_app_iff; auto|]. split; [apply in_app_iff; auto|].
    assert (ND := peo_NoDup _ _ P).
    assert (Nw : ~ In w l0).
    { intro Q. apply in_split in Q. destruct Q as [a [b ->]]. rewrite <- app_assoc in ND. simpl in ND.
      apply NoDup_remove_2 in ND. apply ND. rewrite !in_app_iff. auto. }
    assert (A : forall l, ~ In w l -> length l <= index_of w (l ++ K)).
    { clear. induction l as [|a l IH]; simpl; intros Hn; [lia|]. destruct (Nat.eq_dec w a); [exfalso; apply Hn; auto|].
      assert (length l <= index_of w (l ++ K)); [apply IH; tauto|lia]. }
    specialize (A l0 Nw). pose proof (index_of_prefix l0 K h Hh). lia.
  Qed.
End Root.

Lemma orient_dec : forall U (Udec : forall x y, {U x y} + {~ U x y}) l x y, {orient U l x y} + {~ orient U l x y}.
Proof.
  intros U Udec l x y. unfold orient. destruct (Udec x y); [|right; tauto].
  destruct (in_dec Nat.eq_dec x l); [|right; tauto]. destruct (in_dec Nat.eq_dec y l); [|right; tauto].
  destruct (lt_dec (index_of y l) (index_of x l)); [left|right]; tauto.
Qed.

Section Class.
  Variable E : nat -> nat -> Prop.
  Hypothesis Edec : forall u v, {E u v} + {~ E u v}.
  Variable V : list nat.
  Hypothesis ndV : NoDup V.
  Hypothesis EV : forall u v, E u v -> In u V /\ In v V.
  Hypothesis Ac : acyclic E.

  (** In the class of [E] there is a DAG in which the parents of [y] are its
      compelled parents and the clique [C] of its neighbours; edges of the
      clique and [y] to other neighbours point outwards. *)
  Lemma clique_first : forall y C, In y V -> NoDup (y :: C) -> clique (und E) (y :: C) ->
    exists (F : nat -> nat -> Prop) (Fd : forall u v, {F u v} + {~ F u v}),
      acyclic F /\ markov_equiv E F /\ (forall a b, MD E a b -> F a b) /\
      (forall a b, F a b -> MD E a b \/ und E a b) /\
      (forall x, F x y <-> MD E x y \/ In x C) /\
      (forall w h, In w (y :: C) -> ~ In h (y :: C) -> und E w h -> F w h).
  Proof using Edec ndV EV Ac.
    intros y C Hy ND K.
    destruct (MD_decb E Edec V EV Ac) as [m Hm].
    assert (MDdec : forall x y, {MD E x y} + {~ MD E x y}).
    { intros a b. destruct (m a b) eqn:M; [left; apply Hm; auto|right; rewrite <- Hm; congruence]. }
    assert (MDor : forall x y, MD E x y \/ ~ MD E x y) by (intros a b; destruct (MDdec a b); auto).
    assert (Udec : forall x y, {und E x y} + {~ und E x y}).
    { intros a b. unfold und, adjacent. destruct (Edec a b), (Edec b a), (MDdec a b), (MDdec b a); try (left; tauto); right; tauto. }
    assert (Us := und_sym E). assert (Ui := und_irr E Ac).
    destruct (rank_exists E Edec V Ac ndV) as [l [PL T]].
    assert (NDl : NoDup l) by (eapply Permutation_NoDup; [apply Permutation_sym; eauto|auto]).
    assert (P : peo (und E) (rev l)).
    { apply peo_of_topo with (E := E); auto.
      - intros a b [H _]. auto.
      - intros. eapply und_shield; eauto. }
    assert (InL : forall x, In x (rev l) <-> In x V).
    { intro x. rewrite <- in_rev. split; [apply Permutation_in; auto|apply Permutation_in, Permutation_sym; auto]. }
    assert (AV : forall a b, und E a b -> In a V /\ In b V).
    { intros a b [[H|H] _]; apply EV in H; tauto. }
    assert (IK : incl (y :: C) (rev l)).
    { intros x [<-|Hx]; apply InL; auto. assert (N : x <> y) by (intros ->; inversion ND; auto).
      apply (AV x y). apply K; simpl; auto. }
    destruct (reroot_clique (und E) Us Ui Udec (length (rev l)) (rev l) (y :: C) eq_refl P ND K IK) as [l0 [P0 H0]].
    set (F := orient (und E) (l0 ++ y :: C)).
    assert (FU : forall a b, F a b -> und E a b) by (intros a b H; apply H).
    assert (FT : forall a b, und E a b -> F a b \/ F b a).
    { intros a b H. destruct (AV _ _ H). apply orient_total; auto; apply H0, InL; auto. }
    assert (Fd : forall u v, {comb E F u v} + {~ comb E F u v}).
    { intros a b. unfold comb. destruct (MDdec a b), (orient_dec (und E) Udec (l0 ++ y :: C) a b); unfold F; try (left; tauto); right; tauto. }
    exists (comb E F), Fd. split; [|split; [|split; [|split; [|split]]]].
    - apply comb_acyclic; auto. apply orient_acyclic.
    - apply comb_equiv; auto. intros. eapply orient_shield; eauto.
    - intros a b H. left. auto.
    - intros a b [H|H]; auto.
    - intro x. unfold comb, F. rewrite orient_clique; auto. tauto.
    - intros w h Hw Hh Hu. right. unfold F. apply orient_outside; auto.
      destruct (AV _ _ Hu) as [_ Hv]. apply InL, H0, in_app_iff in Hv. tauto.
  Qed.
End Class.
