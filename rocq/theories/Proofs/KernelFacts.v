(** Centering, squared distances and the kernel statistic. *)

From Coq Require Import List Arith Bool Lia ZArith QArith Lqa.
From Verif Require Import Model.Py Model.SHP Model.Matrix Model.Kernel Spec.Sums.
From Verif Require Import Proofs.PyFacts Proofs.SimFacts Proofs.MatrixFacts.
Import ListNotations.
Open Scope nat_scope.

Lemma nq_nonzero : forall n, 0 < n -> ~ (inject_Z (Z.of_nat n) == 0)%Q.
Proof. intros n H C. unfold Qeq in C. simpl in C. lia. Qed.

(** The centered entry in terms of sums. *)
Lemma center_entry : forall n K i j,
  (center_kernel_matrix n K i j == K i j - (sumQ n (fun l => K l j) + sumQ n (fun l => K l i)) / inject_Z (Z.of_nat n)
     + sumQ n (fun j => sumQ n (fun l => K l j)) / (inject_Z (Z.of_nat n) * inject_Z (Z.of_nat n)))%Q.
Proof.
  intros. unfold center_kernel_matrix. rewrite !msum_sumQ.
  rewrite (sumQ_ext n (fun j0 => msum n (fun i0 => K i0 j0)) (fun j0 => sumQ n (fun l => K l j0))) by (intros; apply msum_sumQ).
  reflexivity.
Qed.

(** Subtracting the mean of each column. *)
Definition centered (n : nat) (X : qmat) : qmat :=
  fun i a => (X i a - sumQ n (fun l => X l a) / inject_Z (Z.of_nat n))%Q.

Lemma sumQ_div : forall n f c, (sumQ n (fun i => f i / c) == sumQ n f / c)%Q.
Proof. intros. unfold Qdiv. apply sumQ_scale_r. Qed.

Lemma centered_sum : forall n X a, 0 < n -> (sumQ n (fun i => centered n X i a) == 0)%Q.
Proof.
  intros n X a Hn. unfold centered. rewrite sumQ_sub, sumQ_const. field. apply nq_nonzero; auto.
Qed.

Lemma sumQ_mul : forall n m f g, (sumQ n f * sumQ m g == sumQ n (fun i => sumQ m (fun j => f i * g j)))%Q.
Proof.
  intros. rewrite <- sumQ_scale_r. apply sumQ_ext. intros i Hi. rewrite <- sumQ_scale_l. reflexivity.
Qed.

Lemma sq_nonneg : forall x : Q, (0 <= x * x)%Q.
Proof. intro x. nra. Qed.

Lemma sumQ_zero_terms : forall n f, (forall i, i < n -> (0 <= f i)%Q) -> (sumQ n f == 0)%Q -> forall i, i < n -> (f i == 0)%Q.
Proof.
  intros n f H Z i Hi. pose proof (sumQ_ge_term n f i H Hi). pose proof (H i Hi). apply Qle_antisym; [lra|auto].
Qed.

(** The centered linear kernel is the Gram matrix of the centered data. *)
Lemma center_linear : forall x i j, 0 < rows x ->
  (center_kernel_matrix (rows x) (linear_kernel x x) i j ==
   sumQ (cols x) (fun a => centered (rows x) (val x) i a * centered (rows x) (val x) j a))%Q.
Proof.
  intros x i j Hn. set (n := rows x) in *. set (m := cols x). set (X := val x).
  assert (NZ := nq_nonzero n Hn). set (nq := inject_Z (Z.of_nat n)) in *.
  set (s := fun a => sumQ n (fun l => X l a)).
  assert (L : forall u v, (linear_kernel x x u v == sumQ m (fun a => X u a * X v a))%Q) by (intros; unfold linear_kernel; apply msum_sumQ).
  assert (C : forall v, (sumQ n (fun l => linear_kernel x x l v) == sumQ m (fun a => s a * X v a))%Q).
  { intro v. rewrite (sumQ_ext n _ (fun l => sumQ m (fun a => X l a * X v a))%Q) by (intros; apply L).
    rewrite sumQ_swap. apply sumQ_ext. intros a Ha. rewrite sumQ_scale_r. reflexivity. }
  rewrite center_entry. fold nq.
  rewrite (sumQ_ext n (fun j0 => sumQ n (fun l => linear_kernel x x l j0)) (fun v => sumQ m (fun a => s a * X v a))%Q) by (intros; apply C).
  rewrite !C, L.
  assert (T : (sumQ n (fun v => sumQ m (fun a => s a * X v a)) == sumQ m (fun a => s a * s a))%Q).
  { rewrite sumQ_swap. apply sumQ_ext. intros a Ha. rewrite sumQ_scale_l. reflexivity. }
  rewrite T.
  rewrite <- sumQ_add, <- !sumQ_div, <- sumQ_sub, <- sumQ_add.
  apply sumQ_ext. intros a Ha. unfold centered. fold X nq. change (sumQ n (fun l => X l a)) with (s a). field. exact NZ.
Qed.

Lemma hsic_linear : forall x y, rows x = rows y -> 0 < rows x ->
  (kci_stat linear_kernel x y ==
   sumQ (cols x) (fun a => sumQ (cols y) (fun b =>
     sumQ (rows x) (fun i => centered (rows x) (val x) i a * centered (rows y) (val y) i b) *
     sumQ (rows x) (fun i => centered (rows x) (val x) i a * centered (rows y) (val y) i b))))%Q.
Proof.
  intros x y E Hn. unfold kci_stat, hsic_stat. rewrite msum_sumQ.
  set (cx := centered (rows x) (val x)). set (cy := centered (rows y) (val y)). set (n := rows x) in *.
  rewrite (sumQ_ext n _ (fun i => sumQ n (fun j => sumQ (cols x) (fun a => sumQ (cols y) (fun b => (cx i a * cy i b) * (cx j a * cy j b))))%Q)).
  2:{ intros i Hi. rewrite msum_sumQ. apply sumQ_ext. intros j Hj.
      pose proof (center_linear x i j Hn) as C1. assert (Hy : 0 < rows y) by lia. pose proof (center_linear y i j Hy) as C2.
      fold n in C1. rewrite C1, C2. fold cx cy. rewrite sumQ_mul.
      apply sumQ_ext. intros a Ha. apply sumQ_ext. intros b Hb. ring. }
  (* move the sums over samples inside *)
  rewrite (sumQ_ext n _ (fun i => sumQ (cols x) (fun a => sumQ (cols y) (fun b => (cx i a * cy i b) * sumQ n (fun j => cx j a * cy j b))))%Q).
  2:{ intros i Hi. rewrite sumQ_swap. apply sumQ_ext. intros a Ha. rewrite sumQ_swap. apply sumQ_ext. intros b Hb. apply sumQ_scale_l. }
  rewrite sumQ_swap. apply sumQ_ext. intros a Ha. rewrite sumQ_swap. apply sumQ_ext. intros b Hb. apply sumQ_scale_r.
Qed.

(* ---------- dist2 ---------- *)
Lemma dist2_expand : forall x c i j, cols x = cols c ->
  (row_squares x i + row_squares c j - 2 * msum (cols x) (fun k => val x i k * val c j k) ==
   sumQ (cols x) (fun k => (val x i k - val c j k) * (val x i k - val c j k)))%Q.
Proof.
  intros x c i j E. unfold row_squares. rewrite !msum_sumQ, <- E, <- sumQ_scale_l, <- sumQ_add, <- sumQ_sub.
  apply sumQ_ext. intros k Hk. ring.
Qed.

Lemma clamp_nonneg : forall A i j, (0 <= A i j)%Q -> clamp A i j = A i j.
Proof. intros A i j H. unfold clamp. apply Qle_bool_iff in H. rewrite H. reflexivity. Qed.

(* ---------- the cache ---------- *)
Lemma Zeqb_ok : forall a b : Z, Z.eqb a b = true <-> a = b.
Proof. intros. apply Z.eqb_eq. Qed.
