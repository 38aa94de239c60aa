(** Score equivalence: a local score that depends on the set of parents and is
    unchanged in total when a covered edge is turned gives equivalent DAGs the
    same score. *)

From Coq Require Import List Arith Lia Bool Permutation Reals Lra.
From Verif Require Import Spec.Digraphs Spec.Covered Spec.Scores Proofs.FinGraph Proofs.RelExt Proofs.CoveredFacts.
Import ListNotations.
Open Scope nat_scope.

(* ---------- sums ---------- *)
Lemma sumR_ext : forall l f g, (forall a, In a l -> f a = g a) -> sumR l f = sumR l g.
Proof. induction l as [|a l IH]; simpl; intros f g H; auto. rewrite (H a) by auto. rewrite (IH f g); auto. Qed.
Lemma sumR_perm : forall l l' f, Permutation l l' -> sumR l f = sumR l' f.
Proof. intros l l' f P. induction P; simpl; try lra. Qed.
Lemma sumR_plus : forall l f g, sumR l (fun a => f a + g a)%R = (sumR l f + sumR l g)%R.
Proof. induction l as [|a l IH]; simpl; intros; [lra|]. rewrite IH. lra. Qed.
Lemma sumR_minus : forall l f g, sumR l (fun a => f a - g a)%R = (sumR l f - sumR l g)%R.
Proof. induction l as [|a l IH]; simpl; intros; [lra|]. rewrite IH. lra. Qed.
Lemma sumR_scal : forall l c f, sumR l (fun a => c * f a)%R = (c * sumR l f)%R.
Proof. induction l as [|a l IH]; simpl; intros; [lra|]. rewrite IH. lra. Qed.
Lemma sumR_scalr : forall l c f, sumR l (fun a => f a * c)%R = (sumR l f * c)%R.
Proof. induction l as [|a l IH]; simpl; intros; [lra|]. rewrite IH. lra. Qed.
Lemma sumR_zero : forall l f, (forall a, In a l -> f a = 0%R) -> sumR l f = 0%R.
Proof. induction l as [|a l IH]; simpl; intros f H; auto. rewrite (H a), IH by auto. lra. Qed.
Lemma sumR_swap : forall l l' f, sumR l (fun a => sumR l' (fun b => f a b)) = sumR l' (fun b => sumR l (fun a => f a b)).
Proof.
  induction l as [|a l IH]; simpl; intros l' f. { symmetry. apply sumR_zero. auto. }
  rewrite IH, <- sumR_plus. auto.
Qed.
Lemma sumR_app : forall l l' f, sumR (l ++ l') f = (sumR l f + sumR l' f)%R.
Proof. induction l as [|a l IH]; simpl; intros; [lra|]. rewrite IH. lra. Qed.

Lemma nodup_perm : forall {A} (l l' : list A), NoDup l -> NoDup l' -> (forall x, In x l <-> In x l') -> Permutation l l'.
Proof. intros. apply NoDup_Permutation; auto. Qed.

(** A sum over a larger list whose further terms vanish. *)
Lemma sumR_support : forall N P f, NoDup N -> NoDup P -> incl P N -> (forall a, In a N -> ~ In a P -> f a = 0%R) -> sumR N f = sumR P f.
Proof.
  intros N P f NN NP I Z.
  assert (Permutation N (P ++ filter (fun a => negb (existsb (Nat.eqb a) P)) N)) as Q.
  { apply nodup_perm; auto.
    - assert (forall a, existsb (Nat.eqb a) P = true <-> In a P) as EX.
      { intro a. rewrite existsb_exists. split; [intros [x [Hx Ex]]; apply Nat.eqb_eq in Ex; subst; auto|].
        intro. exists a. split; auto. apply Nat.eqb_refl. }
      clear Z. induction P as [|p P IH]; [apply NoDup_filter; auto|]. simpl.
      apply NoDup_cons.
      + rewrite in_app_iff, filter_In. inversion NP; subst. intros [Q|[_ Q]]; auto.
        rewrite Nat.eqb_refl in Q. discriminate.
      + inversion NP; subst. clear IH. 
        assert (forall P', NoDup P' -> (forall x, In x P' -> In x (p :: P)) -> NoDup (P' ++ filter (fun a => negb ((a =? p) || existsb (Nat.eqb a) P)) N)) as G.
        { induction P' as [|b P' IH]; intros ND' S; simpl; [apply NoDup_filter; auto|].
          inversion ND'; subst. constructor; [|apply IH; auto; intros; apply S; right; auto].
          rewrite in_app_iff, filter_In. intros [Q|[_ Q]]; auto.
          assert (In b (p :: P)) as Hb by (apply S; left; auto).
          assert (((b =? p) || existsb (Nat.eqb b) P) = true) as T.
          { destruct Hb as [->|Hb]; [rewrite Nat.eqb_refl; auto|]. apply orb_true_iff. right. apply existsb_exists. exists b. split; auto. apply Nat.eqb_refl. }
          rewrite T in Q. discriminate. }
        apply G; auto. intros; right; auto.
    - intro x. rewrite in_app_iff, filter_In, negb_true_iff. split.
      + intro Hx. destruct (existsb (Nat.eqb x) P) eqn:Ex; [left|right; auto].
        apply existsb_exists in Ex. destruct Ex as [y [Hy Ey]]. apply Nat.eqb_eq in Ey. subst. auto.
      + intros [Hx|[Hx _]]; auto. }
  rewrite (sumR_perm _ _ f Q), sumR_app, (sumR_zero (filter _ N)); [lra|].
  intros a Ha. apply filter_In in Ha. destruct Ha as [Ha Q']. apply Z; auto. intro Hp.
  apply negb_true_iff in Q'. assert (existsb (Nat.eqb a) P = true) as T by (apply existsb_exists; exists a; split; auto; apply Nat.eqb_refl).
  congruence.
Qed.

Lemma split_two : forall (N : list nat) x y, NoDup N -> In x N -> In y N -> x <> y -> exists r, Permutation N (x :: y :: r) /\ ~ In x r /\ ~ In y r.
Proof.
  intros N x y ND Hx Hy D. apply in_split in Hx. destruct Hx as [l1 [l2 ->]].
  assert (Permutation (l1 ++ x :: l2) (x :: l1 ++ l2)) as P1 by (symmetry; apply Permutation_middle).
  assert (In y (l1 ++ l2)) as Hy'. { apply in_app_iff. apply in_app_iff in Hy. destruct Hy as [|[|]]; auto. congruence. }
  apply in_split in Hy'. destruct Hy' as [k1 [k2 E]]. rewrite E in P1.
  exists (k1 ++ k2). assert (Permutation (l1 ++ x :: l2) (x :: y :: k1 ++ k2)) as P2.
  { rewrite P1. constructor. symmetry. apply Permutation_middle. }
  split; auto. assert (NoDup (x :: y :: k1 ++ k2)) as Q by (eapply Permutation_NoDup; [exact P2|auto]).
  inversion Q as [|? ? Q1 Q2]; subst. inversion Q2; subst. split; auto. intro. apply Q1. right. auto.
Qed.

(* ---------- score equivalence ---------- *)
Section Equivalence.
  Variable s : nat -> list nat -> R.
  Variable n : nat.
  Definition good (P : list nat) : Prop := NoDup P /\ (forall p, In p P -> p < n).
  (** The score depends on the set of parents. *)
  Hypothesis s_set : forall v P P', v < n -> good P -> good P' -> ~ In v P -> (forall u, In u P <-> In u P') -> s v P = s v P'.
  (** Turning a covered edge. *)
  Hypothesis s_turn : forall x y P, x < n -> y < n -> x <> y -> good P -> ~ In x P -> ~ In y P ->
    (s x P + s y (x :: P) = s y P + s x (y :: P))%R.

  Let N := seq 0 n.
  Lemma N_in : forall v, In v N <-> v < n.
  Proof using. intro v. unfold N. rewrite in_seq. lia. Qed.
  Lemma N_nd : NoDup N.
  Proof using. apply seq_NoDup. Qed.

  Definition pal (E : nat -> nat -> Prop) (Ed : forall u v, {E u v} + {~ E u v}) (v : nat) : list nat :=
    filter (fun u => if Ed u v then true else false) N.
  Lemma pal_good : forall E Ed v, good (pal E Ed v).
  Proof using.
    intros. unfold pal. split; [apply NoDup_filter, N_nd|]. intros p Hp. apply filter_In in Hp. apply N_in. tauto.
  Qed.
  Lemma pal_in : forall (E : nat -> nat -> Prop) Ed u v, (forall u v, E u v -> u < n /\ v < n) -> In u (pal E Ed v) <-> E u v.
  Proof using.
    intros E Ed u v B. unfold pal. rewrite filter_In. destruct (Ed u v); split; try tauto; try (intros [_ Q]; discriminate).
    intro H. split; auto. apply N_in. apply (B u v H).
  Qed.
  Definition total (E : nat -> nat -> Prop) Ed : R := sumR N (fun v => s v (pal E Ed v)).

  Lemma turn_total : forall (E : nat -> nat -> Prop) Ed x y, acyclic E -> (forall u v, E u v -> u < n /\ v < n) -> covered E x y ->
    total E Ed = total (turned E x y) (turned_dec E Ed x y).
  Proof using s_set s_turn.
    intros E Ed x y AE B C. set (E' := turned E x y). set (Ed' := turned_dec E Ed x y).
    assert (x <> y) as Nxy by (apply (cov_neq E x y AE C)).
    assert (forall u, ~ E u u) as Irr by (intros u Q; apply (AE u); econstructor; [exact Q|constructor]).
    destruct (B x y (proj1 C)) as [Lx Ly].
    assert (forall u v, E' u v -> u < n /\ v < n) as B'.
    { intros u v [[Q _]|[-> ->]]; auto. }
    assert (acyclic E') as AE' by (apply turned_acyclic; auto).
    assert (forall u, ~ E' u u) as Irr' by (intros u Q; apply (AE' u); econstructor; [exact Q|constructor]).
    destruct (split_two N x y N_nd (proj2 (N_in x) Lx) (proj2 (N_in y) Ly) Nxy) as [r [P [Rx Ry]]].
    unfold total. rewrite (sumR_perm _ _ (fun v => s v (pal E Ed v)) P), (sumR_perm _ _ (fun v => s v (pal E' Ed' v)) P). cbn [sumR].
    assert (sumR r (fun v => s v (pal E Ed v)) = sumR r (fun v => s v (pal E' Ed' v))) as Rest.
    { apply sumR_ext. intros v Hv. assert (v <> x) by (intro; subst; auto). assert (v <> y) by (intro; subst; auto).
      assert (v < n) as Lv. { apply N_in. eapply Permutation_in; [symmetry; exact P|]. right; right; auto. }
      apply s_set; auto; try apply pal_good.
      - rewrite pal_in; auto.
      - intro u. rewrite !pal_in; auto. unfold E', turned. split; [intro; left; split; auto; tauto|]. intros [[Q _]|[_ Q]]; auto. congruence. }
    set (P0 := pal E Ed x). destruct C as [Cxy Cc].
    assert (~ In x P0) as Nx by (unfold P0; rewrite pal_in; auto).
    assert (~ In y P0) as Ny. { unfold P0. rewrite pal_in; auto. intro Q. exact (acyclic_asym E AE _ _ Cxy Q). }
    assert (good P0) as G0 by apply pal_good.
    assert (good (x :: P0)) as Gx. { destruct G0. split; [constructor; auto|]. intros p [<-|Hp]; auto. }
    assert (good (y :: P0)) as Gy. { destruct G0. split; [constructor; auto|]. intros p [<-|Hp]; auto. }
    assert (s y (pal E Ed y) = s y (x :: P0)) as S1.
    { apply s_set; auto; try apply pal_good; [rewrite pal_in; auto|].
      intro u. rewrite pal_in; auto. simpl. unfold P0. rewrite pal_in; auto. destruct (Nat.eq_dec u x) as [->|D]; [tauto|].
      rewrite (Cc u D). split; [auto|]. intros [Q|Q]; congruence. }
    assert (s y (pal E' Ed' y) = s y P0) as S2.
    { apply s_set; auto; try apply pal_good; [rewrite pal_in; auto|].
      intro u. rewrite pal_in; auto. unfold P0. rewrite pal_in; auto. unfold E', turned. split.
      - intros [[Q D]|[_ Q]]; [|congruence]. apply Cc; auto; intro; subst; auto.
      - intro Q. left. assert (u <> x) by (intro; subst; exact (Irr x Q)). split; [apply Cc; auto|]. tauto. }
    assert (s x (pal E' Ed' x) = s x (y :: P0)) as S3.
    { apply s_set; auto; try apply pal_good; [rewrite pal_in; auto|].
      intro u. rewrite pal_in; auto. simpl. unfold P0. rewrite pal_in; auto. unfold E', turned. split.
      - intros [[Q D]|[Q _]]; auto.
      - intros [<-|Q]; [right; auto|]. left. split; auto. intros [_ Q2]. congruence. }
    pose proof (s_turn x y P0 Lx Ly Nxy G0 Nx Ny) as T. fold P0. rewrite S1, S2, S3, Rest. lra.
  Qed.

  Theorem score_equivalent : forall (E F : nat -> nat -> Prop) Ed Fd, acyclic E -> acyclic F ->
    (forall u v, E u v -> u < n /\ v < n) -> (forall u v, F u v -> u < n /\ v < n) -> markov_equiv E F ->
    total E Ed = total F Fd.
  Proof using s_set s_turn.
    intros E F Ed Fd AE AF BE BF EF.
    assert (by_covered_turns F E) as T.
    { apply (equivalent_by_turns E F N); auto using N_nd. intros u v Q. rewrite !N_in. auto. }
    clear EF. induction T as [E H|E x y C T IH].
    - unfold total. apply sumR_ext. intros v Hv. apply N_in in Hv. apply s_set; auto; try apply pal_good.
      + rewrite pal_in; auto. intro Q. apply (AE v). econstructor; [exact Q|constructor].
      + intro u. rewrite !pal_in; auto.
    - rewrite (turn_total E Ed x y); auto. apply IH.
      + apply turned_acyclic; auto.
      + intros u v [[Q _]|[-> ->]]; auto. destruct (BE x y (proj1 C)). auto.
  Qed.
End Equivalence.
