(** The block matrix of the backward pass and the derivative of the exponential. *)

From Coq Require Import List Arith Lia Bool ZArith QArith Qreals Reals Lra Setoid Morphisms.
From Verif Require Import Model.Py Model.LocalScore Model.KCI Model.Expm Spec.Scores Spec.ExpmSpec Proofs.BicFacts Proofs.PopulationFacts Proofs.KCIFacts Proofs.GaussianFacts Proofs.ExpmFacts Proofs.TaylorFacts Proofs.MajorFacts Proofs.ExpFacts Proofs.ExpAccuracyFacts.
Import ListNotations.
Open Scope R_scope.

(* ---------- block matrices ---------- *)
Lemma rs_split : forall n m f, rsumn (n + m) f = rsumn n f + rsumn m (fun k => f (n + k)%nat).
Proof.
  intros n m f. induction m as [|m IH]; [rewrite Nat.add_0_r; unfold rsumn at 3; simpl; ring|]. rewrite Nat.add_succ_r, !rs_S, IH. ring.
Qed.
#[global] Instance block_proper : forall n, Proper (meq n ==> meq n ==> meq (2 * n)) (block n).
Proof.
  intros n A A' HA E E' HE i j Hi Hj. unfold block. destruct (Nat.ltb_spec i n), (Nat.ltb_spec j n); auto; [apply HE|apply HA]; lia.
Qed.
Ltac blk := unfold block; repeat match goal with |- context [Nat.ltb ?a ?b] => destruct (Nat.ltb_spec a b); try lia end.
Lemma block_dot : forall n A E B F, meq (2 * n) (rdot (2 * n) (block n A E) (block n B F)) (block n (rdot n A B) (radd (rdot n A F) (rdot n E B))).
Proof.
  intros n A E B F i j Hi Hj. unfold rdot at 1. replace (2 * n)%nat with (n + n)%nat by lia. rewrite rs_split.
  destruct (Nat.ltb_spec i n) as [Li|Li]; destruct (Nat.ltb_spec j n) as [Lj|Lj].
  - replace (rsumn n (fun k => block n A E i (n + k)%nat * block n B F (n + k)%nat j)) with 0; [|symmetry; apply rs_zero; intros k Hk; blk; ring].
    rewrite Rplus_0_r. unfold block at 3. destruct (Nat.ltb_spec i n); [|lia]. destruct (Nat.ltb_spec j n); [|lia]. unfold rdot. apply rs_ext. intros k Hk. blk. auto.
  - unfold block at 5. destruct (Nat.ltb_spec i n); [|lia]. destruct (Nat.ltb_spec j n); [lia|]. unfold radd, rdot. f_equal; apply rs_ext; intros k Hk; blk; try (replace (n + k - n)%nat with k by lia); auto.
  - replace (block n (rdot n A B) (radd (rdot n A F) (rdot n E B)) i j) with 0 by (blk; auto). rewrite !rs_zero; [ring| |]; intros k Hk; blk; ring.
  - replace (rsumn n (fun k => block n A E i k * block n B F k j)) with 0; [|symmetry; apply rs_zero; intros k Hk; blk; ring].
    rewrite Rplus_0_l. unfold block at 3. destruct (Nat.ltb_spec i n); [lia|]. destruct (Nat.ltb_spec j n); [lia|]. unfold rdot. apply rs_ext. intros k Hk. blk. replace (n + k - n)%nat with k by lia. auto.
Qed.
Lemma block_one : forall n c, meq (2 * n) (rscale c rident) (block n (rscale c rident) mzero).
Proof.
  intros n c i j Hi Hj. blk; unfold rscale, rident, mzero; repeat match goal with |- context [Nat.eqb ?a ?b] => destruct (Nat.eqb_spec a b); try lia end; ring.
Qed.
Lemma block_add : forall n A E B F, meq (2 * n) (radd (block n A E) (block n B F)) (block n (radd A B) (radd E F)).
Proof. intros n A E B F i j Hi Hj. unfold radd, block. destruct (Nat.ltb i n), (Nat.ltb j n); auto; ring. Qed.

(** The derivative of the polynomial p at A in the direction E. *)
Fixpoint dpoly (n : nat) (A E : rmat) (p : list R) : rmat :=
  match p with [] => mzero | _ :: p' => radd (rdot n A (dpoly n A E p')) (rdot n E (peval n A p')) end.
Lemma block_peval : forall n A E p, meq (2 * n) (peval (2 * n) (block n A E) p) (block n (peval n A p) (dpoly n A E p)).
Proof.
  intros n A E p. induction p as [|c p IH]; cbn [peval dpoly].
  - intros i j Hi Hj. blk; auto.
  - rewrite IH, block_dot. etransitivity; [apply radd_proper; [apply block_one|reflexivity]|]. rewrite block_add. apply block_proper; [reflexivity|]. intros i j _ _. unfold radd, mzero. ring.
Qed.
#[global] Instance peval_proper : forall n, Proper (meq n ==> eq ==> meq n) (peval n).
Proof. intros n A B H p q <-. induction p as [|c p IH]; cbn [peval]; [reflexivity|]. rewrite IH, H. reflexivity. Qed.
Lemma dpoly_ext : forall n A B E p, meq n A B -> meq n (dpoly n A E p) (dpoly n B E p).
Proof. intros n A B E p H. induction p as [|c p IH]; cbn [dpoly]; [reflexivity|]. rewrite IH, H. reflexivity. Qed.

(* ---------- the adjoint ---------- *)
Definition rinner (n : nat) (A B : rmat) : R := rsumn n (fun i => rsumn n (fun j => A i j * B i j)).
Lemma inner_model : forall n A B, inner n A B = rinner n A B.
Proof. intros. unfold inner, rinner. rewrite <- rsumn_sumR. apply rs_ext. intros. rewrite rsumn_sumR. auto. Qed.
Lemma rinner_ext : forall n A B C D, meq n A B -> meq n C D -> rinner n A C = rinner n B D.
Proof. intros n A B C D H H'. unfold rinner. apply rs_ext2. intros i j Hi Hj. rewrite (H i j), (H' i j); auto. Qed.
Lemma rinner_add_l : forall n A B C, rinner n (radd A B) C = rinner n A C + rinner n B C.
Proof. intros. unfold rinner. rewrite <- rs_plus. apply rs_ext. intros. rewrite <- rs_plus. apply rs_ext. intros. unfold radd. ring. Qed.
Lemma rinner_add_r : forall n A B C, rinner n A (radd B C) = rinner n A B + rinner n A C.
Proof. intros. unfold rinner. rewrite <- rs_plus. apply rs_ext. intros. rewrite <- rs_plus. apply rs_ext. intros. unfold radd. ring. Qed.
Lemma rinner_zero_l : forall n C, rinner n mzero C = 0.
Proof. intros. unfold rinner. apply rs_zero. intros. apply rs_zero. intros. unfold mzero. ring. Qed.
Lemma rinner_zero_r : forall n C, rinner n C mzero = 0.
Proof. intros. unfold rinner. apply rs_zero. intros. apply rs_zero. intros. unfold mzero. ring. Qed.
(** <G B^T, E> = <G, E B>  and  <A^T H, E> = <H, A E>. *)
Lemma rinner_right : forall n G B E, rinner n (rdot n G (rtranspose B)) E = rinner n G (rdot n E B).
Proof.
  intros n G B E. unfold rinner. apply rs_ext. intros i Hi. unfold rdot, rtranspose.
  transitivity (rsumn n (fun j => rsumn n (fun k => G i k * B j k * E i j))); [apply rs_ext; intros; rewrite <- rs_scalr; auto|].
  rewrite rs_swap. apply rs_ext. intros k Hk. rewrite <- rs_scal. apply rs_ext. intros. ring.
Qed.
Lemma rinner_left : forall n A H E, rinner n (rdot n (rtranspose A) H) E = rinner n H (rdot n A E).
Proof.
  intros n A H E. unfold rinner.
  transitivity (rsumn n (fun i => rsumn n (fun k => rsumn n (fun j => A k i * H k j * E i j)))).
  { apply rs_ext. intros i Hi. rewrite rs_swap. apply rs_ext. intros j Hj. unfold rdot, rtranspose. rewrite <- rs_scalr. auto. }
  rewrite rs_swap. apply rs_ext. intros k Hk. rewrite rs_swap. apply rs_ext. intros j Hj. unfold rdot. rewrite <- rs_scal. apply rs_ext. intros. ring.
Qed.
Lemma transpose_dot : forall n A B, meq n (rtranspose (rdot n A B)) (rdot n (rtranspose B) (rtranspose A)).
Proof. intros n A B i j Hi Hj. unfold rtranspose, rdot. apply rs_ext. intros. ring. Qed.
Lemma peval_commute : forall n A p, meq n (rdot n (peval n A p) A) (rdot n A (peval n A p)).
Proof.
  intros n A p. induction p as [|c p IH]; cbn [peval]; [rewrite dot_zero_l, dot_zero_r; reflexivity|].
  rewrite dot_add_l, dot_add_r, dot_assoc, IH, dot_scale_l, dot_scale_r, dot_id_l, dot_id_r. reflexivity.
Qed.
#[global] Instance transpose_proper : forall n, Proper (meq n ==> meq n) rtranspose.
Proof. intros n A B H i j Hi Hj. unfold rtranspose. apply H; auto. Qed.
Lemma transpose_peval : forall n A p, meq n (peval n (rtranspose A) p) (rtranspose (peval n A p)).
Proof.
  intros n A p. induction p as [|c p IH]; cbn [peval]; [reflexivity|]. rewrite IH.
  assert (meq n (rtranspose (radd (rscale c rident) (rdot n A (peval n A p)))) (radd (rscale c rident) (rtranspose (rdot n A (peval n A p))))) as E.
  { intros i j _ _. unfold rtranspose, radd, rscale, rident. rewrite (Nat.eqb_sym j i). auto. }
  rewrite E. apply radd_proper; [reflexivity|]. rewrite <- (peval_commute n A p), transpose_dot. reflexivity.
Qed.
Lemma dpoly_left : forall n A E p, meq n (dpoly n A (rdot n A E) p) (rdot n A (dpoly n A E p)).
Proof.
  intros n A E p. induction p as [|c p IH]; cbn [dpoly]; [rewrite dot_zero_r; reflexivity|]. rewrite IH, dot_add_r, dot_assoc. reflexivity.
Qed.
Lemma adjoint : forall n A G E p, rinner n (dpoly n (rtranspose A) G p) E = rinner n G (dpoly n A E p).
Proof.
  intros n A G E p. revert E. induction p as [|c p IH]; intro E; cbn [dpoly]; [rewrite rinner_zero_l, rinner_zero_r; auto|].
  rewrite rinner_add_l, rinner_add_r. f_equal.
  - rewrite rinner_left, IH. apply rinner_ext; [reflexivity|]. apply dpoly_left.
  - rewrite (rinner_ext n _ (rdot n G (rtranspose (peval n A p))) E E); [apply rinner_right| |reflexivity]. rewrite transpose_peval. reflexivity.
Qed.

(* ---------- the derivative of a polynomial ---------- *)
Lemma derivable_ext : forall f g x l, (forall t, f t = g t) -> derivable_pt_lim f x l -> derivable_pt_lim g x l.
Proof. intros f g x l H D e He. destruct (D e He) as [d Hd]. exists d. intros h H0 H1. rewrite <- !H. auto. Qed.
Lemma derivable_rsumn : forall n (f : nat -> R -> R) l x, (forall i, (i < n)%nat -> derivable_pt_lim (f i) x (l i)) -> derivable_pt_lim (fun t => rsumn n (fun i => f i t)) x (rsumn n l).
Proof.
  intros n f l x. induction n as [|n IH]; intro H; [apply (derivable_pt_lim_const 0)|]. rewrite rs_S. apply (derivable_ext (fun t => rsumn n (fun i => f i t) + f n t)); [intro; symmetry; apply rs_S|].
  apply (derivable_pt_lim_plus (fun t => rsumn n (fun i => f i t)) (f n)); auto.
Qed.
Lemma directional_poly : forall n A E p i j, (i < n)%nat -> (j < n)%nat ->
  derivable_pt_lim (fun t => peval n (fun a b => A a b + t * E a b) p i j) 0 (dpoly n A E p i j).
Proof.
  intros n A E p. induction p as [|c p IH]; intros i j Hi Hj; cbn [peval dpoly]; [apply (derivable_pt_lim_const 0)|].
  unfold radd at 1. unfold rdot at 1.
  replace (radd (rdot n A (dpoly n A E p)) (rdot n E (peval n A p)) i j) with (0 + rsumn n (fun k => E i k * peval n A p k j + A i k * dpoly n A E p k j)).
  2:{ rewrite Rplus_0_l, rs_plus. unfold radd, rdot. ring. }
  apply (derivable_pt_lim_plus (fun _ => rscale c rident i j)); [apply (derivable_pt_lim_const (rscale c rident i j))|].
  apply (derivable_rsumn n (fun k t => (A i k + t * E i k) * peval n (fun a b => A a b + t * E a b) p k j)). intros k Hk.
  assert (E i k * peval n A p k j + A i k * dpoly n A E p k j = E i k * peval n (fun a b => A a b + 0 * E a b) p k j + (A i k + 0 * E i k) * dpoly n A E p k j) as EQ.
  { assert (meq n A (fun a b => A a b + 0 * E a b)) as H by (intros a b _ _; ring). rewrite (peval_proper n _ _ H p p eq_refl k j Hk Hj). ring. }
  rewrite EQ. apply (derivable_pt_lim_mult (fun t => A i k + t * E i k) (fun t => peval n (fun a b => A a b + t * E a b) p k j)); [|apply IH; auto].
  apply (derivable_ext (fun t => A i k + E i k * t)); [intro; ring|]. assert (derivable_pt_lim (fun t => A i k + E i k * t) 0 (0 + E i k * 1)) as D.
  { apply (derivable_pt_lim_plus (fun _ => A i k) (fun t => E i k * t)); [apply (derivable_pt_lim_const (A i k))|]. apply (derivable_pt_lim_scal (fun t => t)). apply derivable_pt_lim_id. }
  rewrite Rplus_0_l, Rmult_1_r in D. exact D.
Qed.

(* ---------- the derivative of the exponential ---------- *)
Fixpoint dseval (a : R) (p : list R) : R := match p with [] => 0 | _ :: p' => a * dseval a p' + seval a p' end.
Lemma seval_mono : forall a b p, 0 <= a <= b -> (forall k, 0 <= nth k p 0) -> seval a p <= seval b p.
Proof.
  intros a b p H. induction p as [|c p IH]; intro P; cbn [seval]; [lra|]. apply Rplus_le_compat_l. apply Rmult_le_compat; try tauto.
  - apply seval_nonneg; [tauto|]. intro k. apply (P (S k)).
  - apply IH. intro k. apply (P (S k)).
Qed.
Definition shifted (A E : rmat) (t : R) : rmat := fun a b => A a b + t * E a b.
Lemma increment : forall n N iota A E a e t p, normlike n N iota -> 0 <= a -> 0 <= e -> N A a -> N E e -> (forall k, 0 <= nth k p 0) ->
  N (difference (peval n (shifted A E t) p) (peval n A p)) (iota * (seval (a + Rabs t * e) p - seval a p)).
Proof.
  intros n N iota A E a e t p HN Ha He HA HE. set (h := Rabs t * e). assert (0 <= h) as Hh by (apply Rmult_le_pos; auto using Rabs_pos).
  assert (meq n (shifted A E t) (radd A (rscale t E))) as ES by (intros i j _ _; unfold shifted, radd, rscale; ring).
  assert (N (rscale t E) h) as HtE by (apply (nl_scale _ _ _ HN); auto).
  assert (N (shifted A E t) (a + h)) as HAt by (apply (nl_ext _ _ _ HN) with (radd A (rscale t E)); [symmetry; auto|]; apply (nl_add _ _ _ HN); auto).
  pose proof (nl_iota _ _ _ HN) as Hi.
  induction p as [|c p IH]; intro P.
  - apply (nl_ext _ _ _ HN) with mzero; [intros i j _ _; unfold difference; simpl; unfold mzero; ring|]. apply (nl_mono _ _ _ HN) with (norm1 n mzero); [apply (nl_sum _ _ _ HN)|]. rewrite norm1_zero. simpl. lra.
  - assert (forall k, 0 <= nth k p 0) as P' by (intro k; apply (P (S k))). specialize (IH P').
    apply (nl_ext _ _ _ HN) with (radd (rdot n A (difference (peval n (shifted A E t) p) (peval n A p))) (rdot n (rscale t E) (peval n (shifted A E t) p))).
    { cbn [peval]. assert (forall X Y, meq n (difference X Y) (radd X (rscale (-1) Y))) as D by (intros X Y i j _ _; unfold difference, radd, rscale; ring).
      rewrite !D, dot_add_r, dot_scale_r. rewrite ES at 3. rewrite dot_add_l. intros i j _ _. unfold radd, rscale. ring. }
    assert (N (peval n (shifted A E t) p) (iota * seval (a + h) p)) as HPt by (apply (peval_norm n N iota _ (a + h) p p); auto; [lra|apply maj_self; auto]).
    apply (nl_mono _ _ _ HN) with (a * (iota * (seval (a + h) p - seval a p)) + h * (iota * seval (a + h) p)).
    + apply (nl_add _ _ _ HN).
      * apply (nl_dot _ _ _ HN); auto. apply Rmult_le_pos; auto. pose proof (seval_mono a (a + h) p ltac:(lra) P'). lra.
      * apply (nl_dot _ _ _ HN); auto. apply Rmult_le_pos; auto. apply seval_nonneg; auto. lra.
    + right. cbn [seval]. ring.
Qed.
Lemma second_order : forall n N iota A E a e t p, normlike n N iota -> 0 <= a -> 0 <= e -> N A a -> N E e -> (forall k, 0 <= nth k p 0) ->
  0 <= seval (a + Rabs t * e) p - seval a p - Rabs t * e * dseval a p /\
  N (difference (difference (peval n (shifted A E t) p) (peval n A p)) (rscale t (dpoly n A E p))) (iota * (seval (a + Rabs t * e) p - seval a p - Rabs t * e * dseval a p)).
Proof.
  intros n N iota A E a e t p HN Ha He HA HE. set (h := Rabs t * e). assert (0 <= h) as Hh by (apply Rmult_le_pos; auto using Rabs_pos).
  assert (meq n (shifted A E t) (radd A (rscale t E))) as ES by (intros i j _ _; unfold shifted, radd, rscale; ring).
  assert (N (rscale t E) h) as HtE by (apply (nl_scale _ _ _ HN); auto).
  pose proof (nl_iota _ _ _ HN) as Hi.
  induction p as [|c p IH]; intro P.
  - split; [simpl; lra|]. apply (nl_ext _ _ _ HN) with mzero; [intros i j _ _; unfold difference, rscale; simpl; unfold mzero; ring|]. apply (nl_mono _ _ _ HN) with (norm1 n mzero); [apply (nl_sum _ _ _ HN)|]. rewrite norm1_zero. simpl. lra.
  - assert (forall k, 0 <= nth k p 0) as P' by (intro k; apply (P (S k))). destruct (IH P') as [Q IH'].
    assert (seval (a + h) (c :: p) - seval a (c :: p) - h * dseval a (c :: p) = a * (seval (a + h) p - seval a p - h * dseval a p) + h * (seval (a + h) p - seval a p)) as EQ by (cbn [seval dseval]; ring).
    pose proof (seval_mono a (a + h) p ltac:(lra) P') as M.
    split; [rewrite EQ; apply Rplus_le_le_0_compat; apply Rmult_le_pos; lra|].
    apply (nl_ext _ _ _ HN) with (radd (rdot n A (difference (difference (peval n (shifted A E t) p) (peval n A p)) (rscale t (dpoly n A E p)))) (rdot n (rscale t E) (difference (peval n (shifted A E t) p) (peval n A p)))).
    { cbn [peval dpoly]. assert (forall X Y, meq n (difference X Y) (radd X (rscale (-1) Y))) as D by (intros X Y i j _ _; unfold difference, radd, rscale; ring).
      assert (forall Y, meq n (rdot n (shifted A E t) Y) (radd (rdot n A Y) (rscale t (rdot n E Y)))) as ED by (intro Y; rewrite ES, dot_add_l, dot_scale_l; reflexivity).
      rewrite !D, ED, !dot_add_r, !dot_scale_r, !dot_scale_l, ?dot_add_r, ?dot_scale_r. intros i j _ _. unfold radd, rscale. ring. }
    apply (nl_mono _ _ _ HN) with (a * (iota * (seval (a + h) p - seval a p - h * dseval a p)) + h * (iota * (seval (a + h) p - seval a p))).
    + apply (nl_add _ _ _ HN).
      * apply (nl_dot _ _ _ HN); auto. apply Rmult_le_pos; auto.
      * apply (nl_dot _ _ _ HN); auto; [apply Rmult_le_pos; lra|]. apply increment; auto.
    + right. rewrite EQ. ring.
Qed.

Lemma dseval_sum : forall a p, dseval a p = rsumn (length p) (fun k => nth k p 0 * (INR k * a ^ (k - 1))).
Proof.
  intros a p. induction p as [|c p IH]; [reflexivity|]. cbn [dseval length]. rewrite IH, seval_sum. replace (S (length p)) with (1 + length p)%nat by lia. rewrite rs_split, rs_one.
  change (INR 0) with 0. rewrite Rmult_0_l, Rmult_0_r, Rplus_0_l, <- rs_scal, <- rs_plus. apply rs_ext. intros k Hk. cbn [Nat.add nth]. rewrite S_INR. replace (S k - 1)%nat with k by lia.
  destruct k as [|k]; [simpl; ring|]. replace (S k - 1)%nat with k by lia. cbn [pow]. ring.
Qed.
Lemma dseval_tcoef : forall a N, dseval a (tcoef (S N)) = T N a.
Proof.
  intros a N. rewrite dseval_sum. unfold tcoef at 1. rewrite map_length, seq_length. replace (S (S N)) with (1 + S N)%nat by lia. rewrite rs_split, rs_one. change (INR 0) with 0. rewrite Rmult_0_l, Rmult_0_r, Rplus_0_l.
  rewrite rsumn_sum_f. unfold T. apply sum_eq. intros k Hk. rewrite nth_tcoef. cbn [Nat.add]. destruct (Nat.ltb_spec (S k) (S (S N))); [|lia]. replace (S k - 1)%nat with k by lia.
  change (fact (S k)) with (S k * fact k)%nat. rewrite mult_INR. pose proof (not_0_INR (S k) ltac:(lia)). pose proof (INR_fact_neq_0 k). field. auto.
Qed.
Lemma corner_limit : forall n A E F, is_exp (2 * n) (block n A E) F -> mcv n (fun N => dpoly n A E (tcoef N)) (fun i j => F i (n + j)%nat).
Proof.
  intros n A E F H i j Hi Hj. apply is_exp_mcv in H. apply (cv_ext (fun N => peval (2 * n) (block n A E) (tcoef N) i (n + j)%nat)); [|apply H; lia].
  intro N. rewrite (block_peval n A E (tcoef N) i (n + j)%nat) by lia. unfold block. destruct (Nat.ltb_spec i n); [|lia]. destruct (Nat.ltb_spec (n + j) n); [lia|]. f_equal. lia.
Qed.
Lemma exp_second_order : forall n A E F f t, is_exp (2 * n) (block n A E) F -> (forall X, is_exp n X (f X)) -> forall i j, (i < n)%nat -> (j < n)%nat ->
  Rabs (f (shifted A E t) i j - f A i j - t * F i (n + j)%nat) <=
  INR n * (exp (norm1 n A + Rabs t * (norm1 n E + 1)) - exp (norm1 n A) - Rabs t * (norm1 n E + 1) * exp (norm1 n A)).
Proof.
  intros n A E F f t HF Hf i j Hi Hj. set (a := norm1 n A). set (e := norm1 n E + 1).
  assert (0 <= a) as Ha by apply norm1_nonneg. assert (0 <= e) as He by (unfold e; pose proof (norm1_nonneg n E); lra).
  apply (@Rle_cv_lim (fun N => Rabs (peval n (shifted A E t) (tcoef (N + 1)) i j - peval n A (tcoef (N + 1)) i j - t * dpoly n A E (tcoef (N + 1)) i j))
    (fun N => INR n * (T (N + 1) (a + Rabs t * e) - T (N + 1) a - Rabs t * e * T N a))).
  - intro N. destruct (second_order n (Nsum n) (INR n) A E a e t (tcoef (N + 1)) (normlike_sum n) Ha He (Rle_refl _)) as [_ P]; [unfold Nsum, e; lra|apply tcoef_nonneg|].
    unfold Nsum in P. rewrite Nat.add_1_r in *. rewrite dseval_tcoef, !seval_tcoef in P. eapply Rle_trans; [|exact P].
    apply (entry_norm1 n (difference (difference (peval n (shifted A E t) (tcoef (S N))) (peval n A (tcoef (S N)))) (rscale t (dpoly n A E (tcoef (S N))))) i j Hi Hj).
  - apply (cv_cvabs (fun N => peval n (shifted A E t) (tcoef (N + 1)) i j - peval n A (tcoef (N + 1)) i j - t * dpoly n A E (tcoef (N + 1)) i j)).
    apply (CV_minus (fun N => peval n (shifted A E t) (tcoef (N + 1)) i j - peval n A (tcoef (N + 1)) i j)).
    + apply (CV_minus (fun N => peval n (shifted A E t) (tcoef (N + 1)) i j)); [apply (mcv_shift n (fun N => peval n (shifted A E t) (tcoef N)))|apply (mcv_shift n (fun N => peval n A (tcoef N)))]; auto; apply is_exp_mcv; apply Hf.
    + apply (CV_mult (fun _ => t)); [apply cv_const|]. apply (mcv_shift n (fun N => dpoly n A E (tcoef N)) (fun i j => F i (n + j)%nat)); auto. apply corner_limit. auto.
  - apply (CV_mult (fun _ => INR n)); [apply cv_const|]. apply (CV_minus (fun N => T (N + 1) (a + Rabs t * e) - T (N + 1) a)).
    + apply (CV_minus (fun N => T (N + 1) (a + Rabs t * e))); apply (CV_shift' (fun N => T N _)); apply T_cv.
    + apply (CV_mult (fun _ => Rabs t * e)); [apply cv_const|apply T_cv].
Qed.
Lemma exp_directional : forall n A E F f, is_exp (2 * n) (block n A E) F -> (forall X, is_exp n X (f X)) -> directional n f A E (fun i j => F i (n + j)%nat).
Proof.
  intros n A E F f HF Hf i j Hi Hj eps Heps. set (a := norm1 n A). set (e := norm1 n E + 1).
  assert (0 < e) as He by (unfold e; pose proof (norm1_nonneg n E); lra). assert (0 < INR n) as Hn by (apply lt_0_INR; lia).
  assert (0 < INR n * e) as Hne by (apply Rmult_lt_0_compat; auto).
  destruct (derivable_pt_lim_exp a (eps / (INR n * e))) as [d Hd]; [apply Rdiv_lt_0_compat; auto|].
  assert (0 < d / e) as Hde by (apply Rdiv_lt_0_compat; auto; apply cond_pos). exists (mkposreal _ Hde). intros t Ht Hlt. simpl in Hlt.
  pose proof (exp_second_order n A E F f t HF Hf i j Hi Hj) as B. fold a in B. fold e in B. rewrite Rplus_0_l.
  assert (f (fun a0 b => A a0 b + 0 * E a0 b) i j = f A i j) as E0.
  { apply (exp_unique n A); auto. apply (is_exp_ext n (fun a0 b => A a0 b + 0 * E a0 b)); [intros x y _ _; ring|apply Hf]. }
  rewrite E0. fold (shifted A E t).
  assert (0 < Rabs t) as Pt by (apply Rabs_pos_lt; auto). set (h := Rabs t * e) in *. assert (0 < h) as Ph by (apply Rmult_lt_0_compat; auto).
  assert (Rabs h < d) as Lh.
  { rewrite Rabs_pos_eq by lra. unfold h. apply (Rmult_lt_compat_r e) in Hlt; auto. unfold Rdiv in Hlt. rewrite Rmult_assoc, Rinv_l in Hlt by lra. lra. }
  specialize (Hd h ltac:(lra) Lh).
  replace ((f (shifted A E t) i j - f A i j) / t - F i (n + j)%nat) with ((f (shifted A E t) i j - f A i j - t * F i (n + j)%nat) * / t) by (field; auto).
  rewrite Rabs_mult, Rabs_inv. apply (Rmult_lt_reg_r (Rabs t)); auto. rewrite Rmult_assoc, Rinv_l, Rmult_1_r by lra. eapply Rle_lt_trans; [exact B|].
  apply Rle_lt_trans with (INR n * (h * Rabs ((exp (a + h) - exp a) / h - exp a))).
  - apply Rmult_le_compat_l; [lra|]. apply Rle_trans with (h * ((exp (a + h) - exp a) / h - exp a)); [right; field; lra|]. apply Rmult_le_compat_l; [lra|]. apply Rle_abs.
  - apply Rlt_le_trans with (INR n * (h * (eps / (INR n * e)))); [apply Rmult_lt_compat_l; auto; apply Rmult_lt_compat_l; auto|]. right. unfold h. field. split; lra.
Qed.
