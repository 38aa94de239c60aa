(** Majorants of polynomials of matrices, and norms. *)

From Coq Require Import List Arith Lia Bool ZArith QArith Qreals Reals Lra Setoid Morphisms.
From Verif Require Import Model.Py Model.LocalScore Model.KCI Model.Expm Spec.Scores Spec.ExpmSpec Proofs.BicFacts Proofs.PopulationFacts Proofs.KCIFacts Proofs.GaussianFacts Proofs.ExpmFacts Proofs.TaylorFacts.
Import ListNotations.
Open Scope R_scope.

(* ---------- scalar polynomials ---------- *)
Fixpoint seval (a : R) (p : list R) : R := match p with [] => 0 | c :: p' => c + a * seval a p' end.
Lemma seval_add : forall a p q, seval a (padd p q) = seval a p + seval a q.
Proof. intros a. induction p as [|x p IH]; intros [|y q]; simpl; try ring. rewrite IH. ring. Qed.
Lemma seval_scale : forall a c p, seval a (pscale c p) = c * seval a p.
Proof. intros a c. induction p as [|x p IH]; simpl; [ring|]. fold (pscale c p). rewrite IH. ring. Qed.
Lemma seval_mul : forall a p q, seval a (pmul p q) = seval a p * seval a q.
Proof. intros a p q. induction p as [|x p IH]; simpl; [ring|]. rewrite seval_add, seval_scale. simpl. rewrite IH. ring. Qed.
Lemma seval_pow : forall a p k, seval a (ppow p k) = seval a p ^ k.
Proof. intros a p k. induction k as [|k IH]; simpl; [ring|]. rewrite seval_mul, IH. ring. Qed.
Lemma nth_padd : forall p q k, nth k (padd p q) 0 = nth k p 0 + nth k q 0.
Proof. induction p as [|a p IH]; intros [|b q] k; simpl; try (destruct k; simpl; ring). destruct k as [|k]; simpl; auto. Qed.
Lemma nth_pscale : forall c p k, nth k (pscale c p) 0 = c * nth k p 0.
Proof. intros c p. induction p as [|a p IH]; intros [|k]; simpl; try ring. apply IH. Qed.
Lemma nth_pmul : forall p q k, nth k (pmul p q) 0 = sum_f_R0 (fun i => nth i p 0 * nth (k - i) q 0) k.
Proof.
  induction p as [|a p IH]; intros q k.
  - simpl pmul. rewrite sum_eq_R0; [destruct k; auto|]. intros i _. destruct i; simpl; ring.
  - cbn [pmul]. rewrite nth_padd, nth_pscale. destruct k as [|k]; [simpl; ring|].
    rewrite (decomp_sum (fun i => nth i (a :: p) 0 * nth (S k - i) q 0) (S k)) by lia. rewrite Nat.sub_0_r. change (nth (S k) (0 :: pmul p q) 0) with (nth k (pmul p q) 0). rewrite IH. auto.
Qed.

(** Every coefficient of p is in absolute value at most that of q. *)
Definition maj (p q : list R) : Prop := forall k, Rabs (nth k p 0) <= nth k q 0.
Lemma maj_add : forall p q p' q', maj p q -> maj p' q' -> maj (padd p p') (padd q q').
Proof. intros p q p' q' H H' k. rewrite !nth_padd. eapply Rle_trans; [apply Rabs_triang|]. specialize (H k); specialize (H' k); lra. Qed.
Lemma sum_f_abs_le : forall f g k, (forall i, (i <= k)%nat -> Rabs (f i) <= g i) -> Rabs (sum_f_R0 f k) <= sum_f_R0 g k.
Proof.
  intros f g k. induction k as [|k IH]; intro H; simpl; [apply H; lia|].
  eapply Rle_trans; [apply Rabs_triang|]. specialize (IH ltac:(intros; apply H; lia)). specialize (H (S k) ltac:(lia)). lra.
Qed.
Lemma maj_mul : forall p q p' q', maj p q -> maj p' q' -> maj (pmul p p') (pmul q q').
Proof.
  intros p q p' q' H H' k. rewrite !nth_pmul. apply sum_f_abs_le. intros i _. rewrite Rabs_mult. apply Rmult_le_compat; auto using Rabs_pos.
Qed.
Lemma maj_one : maj [1] [1].
Proof. intros [|[|k]]; simpl; try (rewrite Rabs_R1; lra); rewrite Rabs_R0; lra. Qed.
Lemma maj_nil : maj [] [].
Proof. intros [|k]; simpl; rewrite Rabs_R0; lra. Qed.
Lemma maj_pow : forall p q m, maj p q -> maj (ppow p m) (ppow q m).
Proof. intros p q m H. induction m as [|m IH]; simpl; [apply maj_one|apply maj_mul; auto]. Qed.
Lemma maj_self : forall p, (forall k, 0 <= nth k p 0) -> maj p p.
Proof. intros p H k. rewrite Rabs_pos_eq; auto. lra. Qed.
Lemma maj_nonneg : forall p q, maj p q -> forall k, 0 <= nth k q 0.
Proof. intros p q H k. eapply Rle_trans; [apply Rabs_pos|apply H]. Qed.
Lemma seval_nonneg : forall a p, 0 <= a -> (forall k, 0 <= nth k p 0) -> 0 <= seval a p.
Proof.
  intros a p Ha. induction p as [|c p IH]; intro H; simpl; [lra|]. pose proof (H 0%nat) as H0. simpl in H0.
  specialize (IH (fun k => H (S k))). pose proof (Rmult_le_pos _ _ Ha IH). lra.
Qed.

(* ---------- differences of powers ---------- *)
Definition pminus (p q : list R) : list R := padd p (pscale (-1) q).
Lemma nth_pminus : forall p q k, nth k (pminus p q) 0 = nth k p 0 - nth k q 0.
Proof. intros. unfold pminus. rewrite nth_padd, nth_pscale. ring. Qed.
Lemma seval_pminus : forall a p q, seval a (pminus p q) = seval a p - seval a q.
Proof. intros. unfold pminus. rewrite seval_add, seval_scale. ring. Qed.
#[global] Instance difference_proper : forall n, Proper (meq n ==> meq n ==> meq n) difference.
Proof. intros n A A' H B B' H' i j Hi Hj. unfold difference. rewrite (H i j), (H' i j); auto. Qed.
Lemma peval_pminus : forall n A p q, meq n (peval n A (pminus p q)) (difference (peval n A p) (peval n A q)).
Proof.
  intros n A p q. unfold pminus. rewrite peval_add, peval_scale. intros i j _ _. unfold radd, rscale, difference. ring.
Qed.
(** u^m - v^m as a combination of u - v. *)
Fixpoint pdiff (d u v : list R) (m : nat) : list R := match m with O => [] | S m' => padd (pmul d (ppow u m')) (pmul v (pdiff d u v m')) end.
Lemma pdiff_eval : forall n A u v m, meq n (peval n A (pdiff (pminus u v) u v m)) (difference (peval n A (ppow u m)) (peval n A (ppow v m))).
Proof.
  intros n A u v m. induction m as [|m IH].
  - simpl. intros i j _ _. unfold mzero, difference. ring.
  - cbn [pdiff ppow]. rewrite peval_add, !peval_mul, IH, peval_pminus.
    assert (meq n (difference (rdot n (peval n A u) (peval n A (ppow u m))) (rdot n (peval n A v) (peval n A (ppow v m))))
      (radd (rdot n (difference (peval n A u) (peval n A v)) (peval n A (ppow u m))) (rdot n (peval n A v) (difference (peval n A (ppow u m)) (peval n A (ppow v m)))))) as E.
    { assert (forall X Y, meq n (difference X Y) (radd X (rscale (-1) Y))) as D by (intros X Y a b _ _; unfold difference, radd, rscale; ring).
      rewrite !D. rewrite dot_add_l, dot_add_r, dot_scale_l, dot_scale_r, !dot_assoc || rewrite dot_add_l, dot_add_r, dot_scale_l, dot_scale_r.
      intros a b _ _. unfold radd, rscale. ring. }
    rewrite E. reflexivity.
Qed.
Lemma pdiff_maj : forall u v d m, maj (pminus u v) d -> maj v v -> maj (pdiff (pminus u v) u v m) (pdiff d (padd v d) v m).
Proof.
  intros u v d m Hd Hv. assert (maj u (padd v d)) as Hu.
  { intro k. rewrite nth_padd. specialize (Hd k). rewrite nth_pminus in Hd. specialize (Hv k).
    replace (nth k u 0) with ((nth k u 0 - nth k v 0) + nth k v 0) by ring. eapply Rle_trans; [apply Rabs_triang|]. lra. }
  induction m as [|m IH]; cbn [pdiff]; [apply maj_nil|]. apply maj_add; apply maj_mul; auto. apply maj_pow. auto.
Qed.
Lemma pdiff_seval : forall a d v m, seval a (pdiff d (padd v d) v m) = (seval a v + seval a d) ^ m - seval a v ^ m.
Proof.
  intros a d v m. induction m as [|m IH]; cbn [pdiff]; [simpl; ring|]. rewrite seval_add, !seval_mul, seval_pow, seval_add, IH. simpl. ring.
Qed.

(* ---------- norms ---------- *)
(** What a statement "the norm of A is at most b" has to satisfy. *)
Record normlike (n : nat) (N : rmat -> R -> Prop) (iota : R) : Prop := {
  nl_ext : forall A B a, meq n A B -> N A a -> N B a;
  nl_mono : forall A a b, N A a -> a <= b -> N A b;
  nl_add : forall A B a b, N A a -> N B b -> N (radd A B) (a + b);
  nl_scale : forall A a c, 0 <= a -> N A a -> N (rscale c A) (Rabs c * a);
  nl_dot : forall A B a b, 0 <= a -> 0 <= b -> N A a -> N B b -> N (rdot n A B) (a * b);
  nl_one : N rident iota;
  nl_iota : 0 <= iota;
  nl_sum : forall A, N A (norm1 n A);
  nl_closed : forall A a, (forall e, 0 < e -> N A (a + e)) -> N A a
}.
Lemma norm1_ext : forall n A B, meq n A B -> norm1 n A = norm1 n B.
Proof. intros n A B H. unfold norm1. apply rs_ext2. intros i j Hi Hj. rewrite (H i j Hi Hj). auto. Qed.
Lemma norm1_zero : forall n, norm1 n mzero = 0.
Proof. intro n. unfold norm1. apply rs_zero. intros i _. apply rs_zero. intros j _. unfold mzero. apply Rabs_R0. Qed.
Lemma norm1_nonneg : forall n A, 0 <= norm1 n A.
Proof. intros. unfold norm1. apply rs_nonneg. intros i _. apply rs_nonneg. intros j _. apply Rabs_pos. Qed.
Lemma peval_norm : forall n N iota A a p q, normlike n N iota -> 0 <= a -> N A a -> maj p q -> N (peval n A p) (iota * seval a q).
Proof.
  intros n N iota A a p q HN Ha HA. revert q. induction p as [|c p IH]; intros q H.
  - apply (nl_mono _ _ _ HN) with (norm1 n mzero); [apply (nl_sum _ _ _ HN)|]. rewrite norm1_zero. apply Rmult_le_pos; [apply (nl_iota _ _ _ HN)|]. apply seval_nonneg; auto. eapply maj_nonneg; eauto.
  - cbn [peval].
    assert (exists q0 q', Rabs c <= q0 /\ maj p q' /\ seval a q = q0 + a * seval a q') as (q0 & q' & H0 & H1 & E).
    { destruct q as [|q0 q'].
      - exists 0, []. split; [apply (H 0%nat)|]. split; [|simpl; ring]. intro k. specialize (H (S k)). simpl in *. destruct k; auto.
      - exists q0, q'. split; [apply (H 0%nat)|]. split; [|simpl; ring]. intro k. apply (H (S k)). }
    rewrite E. apply (nl_mono _ _ _ HN) with (Rabs c * iota + a * (iota * seval a q')).
    + apply (nl_add _ _ _ HN); [apply (nl_scale _ _ _ HN); [apply (nl_iota _ _ _ HN)|apply (nl_one _ _ _ HN)]|].
      apply (nl_dot _ _ _ HN); [auto| |auto|apply (IH q' H1)]. apply Rmult_le_pos; [apply (nl_iota _ _ _ HN)|]. apply seval_nonneg; auto. eapply maj_nonneg; eauto.
    + pose proof (nl_iota _ _ _ HN) as I. pose proof (Rmult_le_compat_r _ _ _ I H0). lra.
Qed.
