(** Finite sums over the rationals and matrices. *)

From Coq Require Import List Arith Bool Lia QArith Qabs Lqa.
From Verif Require Import Model.SHP Model.Matrix Spec.Sums Proofs.SimFacts.
Import ListNotations.
Open Scope nat_scope.

Lemma msum_sumQ : forall n f, (msum n f == sumQ n f)%Q.
Proof. intros. apply qsum_seq. Qed.

Lemma sumQ_zero : forall n, (sumQ n (fun _ => 0) == 0)%Q.
Proof. induction n; simpl; [reflexivity|]. rewrite IHn. ring. Qed.

Lemma sumQ_const : forall n c, (sumQ n (fun _ => c) == inject_Z (Z.of_nat n) * c)%Q.
Proof.
  induction n as [|n IH]; intro c; simpl sumQ; [simpl; ring|]. rewrite IH.
  rewrite Nat2Z.inj_succ. unfold Z.succ. rewrite inject_Z_plus. ring.
Qed.

Lemma sumQ_add : forall n f g, (sumQ n (fun i => f i + g i) == sumQ n f + sumQ n g)%Q.
Proof. induction n as [|n IH]; intros f g; simpl; [ring|]. rewrite IH. ring. Qed.

Lemma sumQ_sub : forall n f g, (sumQ n (fun i => f i - g i) == sumQ n f - sumQ n g)%Q.
Proof. induction n as [|n IH]; intros f g; simpl; [ring|]. rewrite IH. ring. Qed.

Lemma sumQ_scale_l : forall n c f, (sumQ n (fun i => c * f i) == c * sumQ n f)%Q.
Proof. induction n as [|n IH]; intros c f; simpl; [ring|]. rewrite IH. ring. Qed.

Lemma sumQ_scale_r : forall n c f, (sumQ n (fun i => f i * c) == sumQ n f * c)%Q.
Proof. induction n as [|n IH]; intros c f; simpl; [ring|]. rewrite IH. ring. Qed.

Lemma sumQ_swap : forall n m f, (sumQ n (fun i => sumQ m (fun j => f i j)) == sumQ m (fun j => sumQ n (fun i => f i j)))%Q.
Proof.
  induction n as [|n IH]; intros m f; simpl.
  - rewrite sumQ_zero. reflexivity.
  - rewrite IH, <- sumQ_add. reflexivity.
Qed.

Lemma sumQ_single : forall n k c, k < n -> (sumQ n (fun i => if Nat.eqb i k then c else 0) == c)%Q.
Proof.
  induction n as [|n IH]; intros k c H; [lia|]. simpl. destruct (Nat.eqb_spec n k).
  - subst. rewrite (sumQ_ext k _ (fun _ => 0%Q)); [rewrite sumQ_zero; ring|].
    intros i Hi. destruct (Nat.eqb_spec i k); [lia|reflexivity].
  - rewrite IH by lia. ring.
Qed.

Lemma sumQ_nonneg : forall n f, (forall i, i < n -> (0 <= f i)%Q) -> (0 <= sumQ n f)%Q.
Proof.
  induction n as [|n IH]; intros f H; simpl; [apply Qle_refl|].
  assert (0 <= sumQ n f)%Q by (apply IH; auto). assert (0 <= f n)%Q by auto. lra.
Qed.

Lemma sumQ_ge_term : forall n f k, (forall i, i < n -> (0 <= f i)%Q) -> k < n -> (f k <= sumQ n f)%Q.
Proof.
  induction n as [|n IH]; intros f k H Hk; simpl; [lia|].
  assert (0 <= sumQ n f)%Q by (apply sumQ_nonneg; auto). assert (0 <= f n)%Q by auto.
  destruct (Nat.eq_dec k n) as [->|]; [lra|]. assert (f k <= sumQ n f)%Q by (apply IH; auto; lia). lra.
Qed.

Lemma sumQ_pos : forall n f k, (forall i, i < n -> (0 <= f i)%Q) -> k < n -> (0 < f k)%Q -> (0 < sumQ n f)%Q.
Proof. intros n f k H Hk Hp. pose proof (sumQ_ge_term n f k H Hk). lra. Qed.

Lemma sumQ_le : forall n f g, (forall i, i < n -> (f i <= g i)%Q) -> (sumQ n f <= sumQ n g)%Q.
Proof.
  induction n as [|n IH]; intros f g H; simpl; [apply Qle_refl|].
  assert (sumQ n f <= sumQ n g)%Q by (apply IH; auto). assert (f n <= g n)%Q by auto. lra.
Qed.

Lemma mdot_sumQ : forall n A B i j, (mdot n A B i j == sumQ n (fun k => A i k * B k j))%Q.
Proof. intros. apply msum_sumQ. Qed.

Lemma mtrace_sumQ : forall n A, (mtrace n A == sumQ n (fun i => A i i))%Q.
Proof. intros. apply msum_sumQ. Qed.

(** Equality of matrices below a size. *)
Definition meq (n : nat) (A B : qmat) : Prop := forall i j, i < n -> j < n -> (A i j == B i j)%Q.

Lemma meq_refl : forall n A, meq n A A.
Proof. intros n A i j _ _. reflexivity. Qed.

Lemma meq_sym : forall n A B, meq n A B -> meq n B A.
Proof. intros n A B H i j Hi Hj. symmetry. auto. Qed.

Lemma meq_trans : forall n A B C, meq n A B -> meq n B C -> meq n A C.
Proof. intros n A B C H1 H2 i j Hi Hj. rewrite (H1 i j Hi Hj). auto. Qed.

Lemma mdot_meq : forall n A A' B B', meq n A A' -> meq n B B' -> meq n (mdot n A B) (mdot n A' B').
Proof.
  intros n A A' B B' HA HB i j Hi Hj. rewrite !mdot_sumQ. apply sumQ_ext. intros k Hk. rewrite (HA i k Hi Hk), (HB k j Hk Hj). reflexivity.
Qed.

Lemma mdot_assoc : forall n A B C, meq n (mdot n (mdot n A B) C) (mdot n A (mdot n B C)).
Proof.
  intros n A B C i j Hi Hj. rewrite !mdot_sumQ.
  rewrite (sumQ_ext n _ (fun k => sumQ n (fun l => A i l * B l k * C k j)%Q)).
  2:{ intros k Hk. rewrite mdot_sumQ, <- sumQ_scale_r. reflexivity. }
  rewrite (sumQ_ext n (fun k => A i k * mdot n B C k j)%Q (fun k => sumQ n (fun l => A i k * B k l * C l j)%Q)).
  2:{ intros k Hk. rewrite mdot_sumQ, <- sumQ_scale_l. apply sumQ_ext. intros; ring. }
  apply sumQ_swap.
Qed.

Lemma meye_l : forall n A, meq n (mdot n meye A) A.
Proof.
  intros n A i j Hi Hj. rewrite mdot_sumQ.
  rewrite (sumQ_ext n _ (fun k => if Nat.eqb k i then A i j else 0%Q)); [apply sumQ_single; auto|].
  intros k Hk. unfold meye. rewrite Nat.eqb_sym. destruct (Nat.eqb_spec k i); [subst; ring|ring].
Qed.

Lemma meye_r : forall n A, meq n (mdot n A meye) A.
Proof.
  intros n A i j Hi Hj. rewrite mdot_sumQ.
  rewrite (sumQ_ext n _ (fun k => if Nat.eqb k j then A i j else 0%Q)); [apply sumQ_single; auto|].
  intros k Hk. unfold meye. destruct (Nat.eqb_spec k j); [subst; ring|ring].
Qed.

Lemma mpow_meq : forall n A B k, meq n A B -> meq n (mpow n A k) (mpow n B k).
Proof. induction k; intros H; simpl; [apply meq_refl|]. apply mdot_meq; auto. Qed.

Lemma mpow_add : forall n A k l, meq n (mpow n A (k + l)) (mdot n (mpow n A k) (mpow n A l)).
Proof.
  induction k as [|k IH]; intro l; simpl.
  - apply meq_sym. apply meye_l.
  - eapply meq_trans; [apply mdot_meq; [apply meq_refl|apply IH]|]. apply meq_sym. apply mdot_assoc.
Qed.

Lemma mtrace_meq : forall n A B, meq n A B -> (mtrace n A == mtrace n B)%Q.
Proof. intros n A B H. rewrite !mtrace_sumQ. apply sumQ_ext. auto. Qed.
