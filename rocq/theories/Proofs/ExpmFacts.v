(** Matrices as a ring up to equality on the indices below n, and polynomials. *)

From Coq Require Import List Arith Lia Bool ZArith QArith Qreals Reals Lra Setoid Morphisms RelationClasses.
From Verif Require Import Model.Py Model.LocalScore Model.KCI Model.Expm Spec.Scores Spec.ExpmSpec Proofs.BicFacts Proofs.PopulationFacts Proofs.KCIFacts Proofs.GaussianFacts.
Import ListNotations.
Open Scope R_scope.

Definition meq (n : nat) (A B : rmat) : Prop := forall i j, (i < n)%nat -> (j < n)%nat -> A i j = B i j.
#[global] Instance meq_equiv : forall n, Equivalence (meq n).
Proof.
  intro n. split.
  - intros A i j _ _. auto.
  - intros A B H i j Hi Hj. symmetry. auto.
  - intros A B C H K i j Hi Hj. rewrite H; auto.
Qed.
#[global] Instance rdot_proper : forall n, Proper (meq n ==> meq n ==> meq n) (rdot n).
Proof. intros n A A' HA B B' HB i j Hi Hj. unfold rdot. apply rs_ext. intros k Hk. rewrite HA, HB; auto. Qed.
#[global] Instance radd_proper : forall n, Proper (meq n ==> meq n ==> meq n) radd.
Proof. intros n A A' HA B B' HB i j Hi Hj. unfold radd. rewrite HA, HB; auto. Qed.
#[global] Instance rscale_proper : forall n, Proper (eq ==> meq n ==> meq n) rscale.
Proof. intros n c c' -> A A' HA i j Hi Hj. unfold rscale. rewrite HA; auto. Qed.

Definition mzero : rmat := fun _ _ => 0.
Lemma dot_assoc : forall n A B C, meq n (rdot n (rdot n A B) C) (rdot n A (rdot n B C)).
Proof.
  intros n A B C i j Hi Hj. unfold rdot. rewrite (rs_ext n _ (fun k => rsumn n (fun l => A i l * B l k * C k j))) by (intros; rewrite rs_scalr; auto).
  rewrite rs_swap. apply rs_ext. intros l Hl. rewrite <- rs_scal. apply rs_ext. intros k Hk. ring.
Qed.
Lemma dot_add_l : forall n A B C, meq n (rdot n (radd A B) C) (radd (rdot n A C) (rdot n B C)).
Proof. intros n A B C i j Hi Hj. unfold rdot, radd. rewrite <- rs_plus. apply rs_ext. intros. ring. Qed.
Lemma dot_add_r : forall n A B C, meq n (rdot n A (radd B C)) (radd (rdot n A B) (rdot n A C)).
Proof. intros n A B C i j Hi Hj. unfold rdot, radd. rewrite <- rs_plus. apply rs_ext. intros. ring. Qed.
Lemma dot_scale_l : forall n c A B, meq n (rdot n (rscale c A) B) (rscale c (rdot n A B)).
Proof. intros n c A B i j Hi Hj. unfold rdot, rscale. rewrite <- rs_scal. apply rs_ext. intros. ring. Qed.
Lemma dot_scale_r : forall n c A B, meq n (rdot n A (rscale c B)) (rscale c (rdot n A B)).
Proof. intros n c A B i j Hi Hj. unfold rdot, rscale. rewrite <- rs_scal. apply rs_ext. intros. ring. Qed.
Lemma dot_id_l : forall n A, meq n (rdot n rident A) A.
Proof. intros n A i j Hi Hj. unfold rdot, rident. apply (rs_delta n i (fun k => A k j)). auto. Qed.
Lemma dot_id_r : forall n A, meq n (rdot n A rident) A.
Proof.
  intros n A i j Hi Hj. unfold rdot, rident. rewrite (rs_ext n _ (fun k => (if Nat.eqb j k then 1 else 0) * A i k)).
  - apply (rs_delta n j (fun k => A i k)). auto.
  - intros k Hk. rewrite (Nat.eqb_sym k j). ring.
Qed.
Lemma dot_zero_l : forall n A, meq n (rdot n mzero A) mzero.
Proof. intros n A i j Hi Hj. apply rs_zero. intros. unfold mzero. ring. Qed.
Lemma dot_zero_r : forall n A, meq n (rdot n A mzero) mzero.
Proof. intros n A i j Hi Hj. apply rs_zero. intros. unfold mzero. ring. Qed.

(* ---------- polynomials ---------- *)
Fixpoint padd (p q : list R) : list R := match p, q with [], _ => q | _, [] => p | a :: p', b :: q' => (a + b) :: padd p' q' end.
Definition pscale (c : R) (p : list R) : list R := map (Rmult c) p.
Fixpoint pmul (p q : list R) : list R := match p with [] => [] | a :: p' => padd (pscale a q) (0 :: pmul p' q) end.
Fixpoint peval (n : nat) (A : rmat) (p : list R) : rmat :=
  match p with [] => mzero | c :: p' => radd (rscale c rident) (rdot n A (peval n A p')) end.

Lemma peval_add : forall n A p q, meq n (peval n A (padd p q)) (radd (peval n A p) (peval n A q)).
Proof.
  intros n A. induction p as [|a p IH]; intros [|b q]; simpl.
  - intros i j _ _. unfold radd, mzero. ring.
  - intros i j _ _. unfold radd, mzero. ring.
  - intros i j _ _. unfold radd, mzero. ring.
  - rewrite IH, dot_add_r. intros i j _ _. unfold radd, rscale. ring.
Qed.
Lemma peval_scale : forall n A c p, meq n (peval n A (pscale c p)) (rscale c (peval n A p)).
Proof.
  intros n A c p. induction p as [|a p IH]; simpl.
  - intros i j _ _. unfold rscale, mzero. ring.
  - rewrite IH, dot_scale_r. intros i j _ _. unfold radd, rscale. ring.
Qed.
Lemma peval_mul : forall n A p q, meq n (peval n A (pmul p q)) (rdot n (peval n A p) (peval n A q)).
Proof.
  intros n A p q. induction p as [|a p IH]; simpl.
  - rewrite dot_zero_l. reflexivity.
  - rewrite peval_add, peval_scale. simpl. rewrite IH, dot_add_l, dot_scale_l, dot_id_l, dot_assoc.
    intros i j _ _. unfold radd, rscale. ring.
Qed.
Lemma peval_pad : forall n A p q, (forall k, nth k p 0 = nth k q 0) -> meq n (peval n A p) (peval n A q).
Proof.
  intros n A. assert (forall p, (forall k, nth k p 0 = 0) -> meq n (peval n A p) mzero) as Z.
  { induction p as [|a p IH]; intro H; simpl; [reflexivity|]. rewrite IH by (intro k; apply (H (S k))). rewrite dot_zero_r.
    specialize (H 0%nat). simpl in H. subst. intros i j _ _. unfold radd, rscale, mzero. ring. }
  induction p as [|a p IH]; intros q H.
  - symmetry. apply Z. intro k. rewrite <- H. destruct k; auto.
  - destruct q as [|b q].
    + apply Z. intro k. rewrite H. destruct k; auto.
    + simpl. pose proof (H 0%nat) as H0. simpl in H0. subst. rewrite (IH q) by (intro k; apply (H (S k))). reflexivity.
Qed.

(** A matrix that is a polynomial of A. *)
Definition rep (n : nat) (A M : rmat) (p : list R) : Prop := meq n M (peval n A p).
Lemma rep_id : forall n A, rep n A rident [1].
Proof. intros n A. unfold rep. simpl. rewrite dot_zero_r. intros i j _ _. unfold radd, rscale, mzero. ring. Qed.
Lemma rep_self : forall n A, rep n A A [0; 1].
Proof. intros n A. unfold rep. change (peval n A [0; 1]) with (radd (rscale 0 rident) (rdot n A (peval n A [1]))).
  assert (meq n rident (peval n A [1])) as E by apply rep_id. rewrite <- E, dot_id_r. intros i j _ _. unfold radd, rscale. ring. Qed.
Lemma rep_add : forall n A M N p q, rep n A M p -> rep n A N q -> rep n A (radd M N) (padd p q).
Proof. intros n A M N p q H K. unfold rep in *. rewrite peval_add, H, K. reflexivity. Qed.
Lemma rep_scale : forall n A M c p, rep n A M p -> rep n A (rscale c M) (pscale c p).
Proof. intros n A M c p H. unfold rep in *. rewrite peval_scale, H. reflexivity. Qed.
Lemma rep_dot : forall n A M N p q, rep n A M p -> rep n A N q -> rep n A (rdot n M N) (pmul p q).
Proof. intros n A M N p q H K. unfold rep in *. rewrite peval_mul, H, K. reflexivity. Qed.
Fixpoint ppow (p : list R) (k : nat) : list R := match k with O => [1] | S k' => pmul p (ppow p k') end.
Lemma rep_pow : forall n A M p k, rep n A M p -> rep n A (rpow n M k) (ppow p k).
Proof. intros n A M p k H. induction k as [|k IH]; simpl; [apply rep_id|apply rep_dot; auto]. Qed.
Fixpoint pcombo (b : list R) (q : list (list R)) : list R :=
  match b, q with c :: b', p :: q' => padd (pscale c p) (pcombo b' q') | _, _ => [] end.
Lemma rep_combo : forall n A b Ms ps, Forall2 (rep n A) Ms ps -> rep n A (combo b Ms) (pcombo b ps).
Proof.
  intros n A b Ms ps H. revert b. induction H as [|M p Ms ps HM H IH]; intros [|c b]; simpl; try (intros i j _ _; reflexivity).
  apply rep_add; auto. apply rep_scale. auto.
Qed.
Lemma rep_ext : forall n A M p q, rep n A M p -> (forall k, nth k p 0 = nth k q 0) -> rep n A M q.
Proof. intros n A M p q H E. unfold rep in *. rewrite H. apply peval_pad. auto. Qed.

(* ---------- the specification's powers ---------- *)
Lemma power_model : forall n A k, meq n (power n A k) (rpow n A k).
Proof.
  intros n A k. induction k as [|k IH]; simpl; [reflexivity|]. intros i j Hi Hj. unfold rdot. rewrite rsumn_sumR. apply sum_ext. intros a Ha. rewrite IH by auto. auto.
Qed.
Lemma peval_sum : forall n A p, meq n (peval n A p) (fun i j => rsumn (length p) (fun k => nth k p 0 * rpow n A k i j)).
Proof.
  intros n A p. induction p as [|c p IH]; [intros i j _ _; reflexivity|]. cbn [peval]. rewrite IH. intros i j Hi Hj. cbn [length].
  rewrite rsumn_sumR. unfold sumRn. rewrite <- cons_seq. cbn [sumR]. unfold radd, rscale, rdot at 1. cbn [nth rpow]. f_equal.
  rewrite (rs_ext n _ (fun a => rsumn (length p) (fun k => nth k p 0 * (A i a * rpow n A k a j)))).
  - rewrite rs_swap. rewrite rsumn_sumR. unfold sumRn. rewrite <- seq_shift.
    assert (forall l f, sumR (map S l) f = sumR l (fun k => f (S k))) as SH by (induction l as [|x l IHl]; intro f; simpl; auto; rewrite IHl; auto).
    rewrite SH. apply sum_ext. intros k Hk. cbn [nth rpow]. unfold rdot. rewrite rs_scal. auto.
  - intros a Ha. rewrite <- rs_scal. apply rs_ext. intros k Hk. ring.
Qed.
Lemma polynomial_peval : forall n A p, meq n (polynomial n p A) (peval n A p).
Proof.
  intros n A p. rewrite peval_sum. intros i j Hi Hj. unfold polynomial. rewrite rsumn_sumR. apply sum_ext. intros k Hk. rewrite power_model by auto. auto.
Qed.
