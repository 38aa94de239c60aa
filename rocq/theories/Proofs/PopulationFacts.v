(** The matrix that stands for infinitely many samples of a linear model. *)

From Coq Require Import List Arith Lia Bool Permutation Reals Lra.
From Verif Require Import Spec.Digraphs Spec.Scores Spec.LinearSem.
From Verif Require Import Proofs.FinGraph Proofs.NumpyFacts Proofs.RelExt Proofs.NxFacts Proofs.ScoreFacts.
Import ListNotations.
Open Scope R_scope.

Lemma sum_ext : forall n f g, (forall i, (i < n)%nat -> f i = g i) -> sumRn n f = sumRn n g.
Proof. intros n f g H. unfold sumRn. apply sumR_ext. intros a Ha. apply in_seq in Ha. apply H. lia. Qed.
Lemma sum_zero : forall n f, (forall i, (i < n)%nat -> f i = 0) -> sumRn n f = 0.
Proof. intros n f H. unfold sumRn. apply sumR_zero. intros a Ha. apply in_seq in Ha. apply H. lia. Qed.
Lemma sum_plus : forall n f g, sumRn n (fun i => f i + g i) = sumRn n f + sumRn n g.
Proof. intros. apply sumR_plus. Qed.
Lemma sum_minus : forall n f g, sumRn n (fun i => f i - g i) = sumRn n f - sumRn n g.
Proof. intros. apply sumR_minus. Qed.
Lemma sum_scal : forall n c f, sumRn n (fun i => c * f i) = c * sumRn n f.
Proof. intros. apply sumR_scal. Qed.
Lemma sum_scalr : forall n c f, sumRn n (fun i => f i * c) = sumRn n f * c.
Proof. intros. apply sumR_scalr. Qed.
Lemma sum_swap : forall n m f, sumRn n (fun a => sumRn m (fun b => f a b)) = sumRn m (fun b => sumRn n (fun a => f a b)).
Proof. intros. apply sumR_swap. Qed.
Lemma sum_S : forall n f, sumRn (S n) f = sumRn n f + f n.
Proof. intros n f. unfold sumRn. rewrite seq_S, sumR_app. simpl. lra. Qed.

Lemma sum_delta : forall n j f, (j < n)%nat -> sumRn n (fun i => (if Nat.eqb j i then 1 else 0) * f i) = f j.
Proof.
  induction n as [|n IH]; intros j f H; [lia|]. rewrite sum_S. destruct (Nat.eq_dec j n) as [->|N].
  - rewrite Nat.eqb_refl, sum_zero; [lra|]. intros i Hi. destruct (Nat.eqb_spec n i); [lia|lra].
  - rewrite IH by lia. destruct (Nat.eqb_spec j n); [lia|lra].
Qed.

Lemma sum_delta_r : forall n j f, (j < n)%nat -> sumRn n (fun i => f i * (if Nat.eqb i j then 1 else 0)) = f j.
Proof.
  intros n j f H. rewrite <- (sum_delta n j f) by auto. apply sum_ext. intros i _. rewrite Nat.eqb_sym. ring.
Qed.

Lemma sum_nonneg : forall n f, (forall i, (i < n)%nat -> 0 <= f i) -> 0 <= sumRn n f.
Proof.
  induction n as [|n IH]; intros f H; [unfold sumRn; simpl; lra|]. rewrite sum_S.
  pose proof (IH f (fun i Hi => H i (Nat.lt_lt_succ_r _ _ Hi))). pose proof (H n (Nat.lt_succ_diag_r n)). lra.
Qed.

Lemma sum_nonneg_zero : forall n f, (forall i, (i < n)%nat -> 0 <= f i) -> sumRn n f = 0 -> forall i, (i < n)%nat -> f i = 0.
Proof.
  induction n as [|n IH]; intros f H Z i Hi; [lia|]. rewrite sum_S in Z.
  assert (Hn : forall i, (i < n)%nat -> 0 <= f i) by (intros; apply H; lia).
  pose proof (sum_nonneg n f Hn). pose proof (H n (Nat.lt_succ_diag_r n)).
  destruct (Nat.eq_dec i n) as [->|N]; [lra|]. apply (IH f Hn); [lra|lia].
Qed.

(* ---------- ranks ---------- *)
(** A finite acyclic relation has a rank below the number of nodes. *)
Lemma adj_rank : forall d adj, acyclic (E d adj) ->
  exists rk, (forall u v, E d adj u v -> (rk u < rk v)%nat) /\ forall u, (u < d)%nat -> (rk u < d)%nat.
Proof.
  intros d adj A. destruct (topological_sort_ok d adj) as [[_ [l [_ [P T]]]]|[B _]]; [|contradiction].
  assert (ND : NoDup l) by (apply (Permutation_NoDup (Permutation_sym P)), seq_NoDup).
  assert (L : length l = d) by (rewrite (Permutation_length P), seq_length; auto).
  assert (I : forall u, (u < d)%nat -> In u l) by (intros u Hu; apply (Permutation_in _ (Permutation_sym P)), in_seq; lia).
  exists (fun u => index_of u l). split.
  - intros u v Huv. assert (Hv : In v l) by (apply I; destruct Huv as [_ [? _]]; auto).
    destruct (in_split v l Hv) as [l1 [l2 Q]]. specialize (T l1 v l2 Q u Huv). rewrite Q.
    rewrite index_of_app. apply index_of_prefix; auto.
    rewrite Q in ND. apply NoDup_remove_2 in ND. intro X. apply ND. apply in_app_iff. auto.
  - intros u Hu. rewrite <- L. apply index_of_lt. apply I. auto.
Qed.

Lemma weighted_rank : forall d (P : nat -> nat -> Prop), (forall u v, {P u v} + {~ P u v}) ->
  acyclic (fun u v => (u < d)%nat /\ (v < d)%nat /\ P u v) ->
  exists rk, (forall u v, (u < d)%nat -> (v < d)%nat -> P u v -> (rk u < rk v)%nat) /\ forall u, (u < d)%nat -> (rk u < d)%nat.
Proof.
  intros d P D A. destruct (adj_rank d (fun u v => if D u v then true else false)) as [rk [H1 H2]].
  - intros u C. apply (A u). revert C. apply dpath1_ext1. intros x y. unfold E. destruct (D x y); split; intuition congruence.
  - exists rk. split; auto. intros u v Hu Hv H. apply H1. unfold E. destruct (D u v); auto.
Qed.

(* ---------- effects ---------- *)
Section Effects.
  Variable d : nat.
  Variable W : nat -> nat -> R.
  Variable rk : nat -> nat.
  Hypothesis up : forall u v, (u < d)%nat -> (v < d)%nat -> W u v <> 0 -> (rk u < rk v)%nat.
  Hypothesis low : forall u, (u < d)%nat -> (rk u < d)%nat.

  Lemma along_rank : forall k r j, (r < d)%nat -> (j < d)%nat -> along d W k r j <> 0 -> (rk r + k <= rk j)%nat.
  Proof using up.
    induction k as [|k IH]; intros r j Hr Hj H; simpl in H.
    - destruct (Nat.eqb_spec r j); [subst; lia|lra].
    - destruct (Nat.le_gt_cases (rk r + S k) (rk j)) as [L|L]; auto. exfalso. apply H. apply sum_zero. intros i Hi.
      destruct (Req_dec (W i j) 0) as [Z|Z]; [rewrite Z; ring|].
      destruct (Req_dec (along d W k r i) 0) as [Y|Y]; [rewrite Y; ring|].
      pose proof (IH r i Hr Hi Y). pose proof (up i j Hi Hj Z). lia.
  Qed.

  Lemma along_end : forall r j, (r < d)%nat -> (j < d)%nat -> along d W d r j = 0.
  Proof using up low.
    intros r j Hr Hj. destruct (Req_dec (along d W d r j) 0) as [Z|Z]; auto.
    pose proof (along_rank d r j Hr Hj Z). pose proof (low j Hj). lia.
  Qed.

  Lemma along_left : forall k r j, (r < d)%nat -> (j < d)%nat -> along d W (S k) r j = sumRn d (fun i => W r i * along d W k i j).
  Proof using.
    induction k as [|k IH]; intros r j Hr Hj.
    - cbn [along]. rewrite sum_delta by auto. rewrite sum_delta_r by auto. auto.
    - change (along d W (S (S k)) r j) with (sumRn d (fun i => along d W (S k) r i * W i j)).
      rewrite (sum_ext d _ (fun i => sumRn d (fun a => W r a * along d W k a i) * W i j)).
      2:{ intros i Hi. rewrite IH by auto. auto. }
      rewrite (sum_ext d _ (fun i => sumRn d (fun a => W r a * (along d W k a i * W i j)))).
      2:{ intros i Hi. rewrite <- sum_scalr. apply sum_ext. intros a _. ring. }
      rewrite sum_swap. apply sum_ext. intros a Ha. cbn [along]. rewrite sum_scal. auto.
  Qed.

  Lemma telescope : forall n f, sumRn n (fun k => f k - f (S k)) = f O - f n.
  Proof using. induction n as [|n IH]; intro f; [unfold sumRn; simpl; lra|]. rewrite sum_S, IH. lra. Qed.

  Lemma effect_step : forall r j, (r < d)%nat -> (j < d)%nat ->
    effect d W r j = sumRn d (fun i => effect d W r i * W i j) + (if Nat.eqb r j then 1 else 0).
  Proof using up low.
    intros r j Hr Hj. unfold effect.
    assert (sumRn d (fun i => sumRn d (fun k => along d W k r i) * W i j) = sumRn d (fun k => along d W (S k) r j)) as H1.
    { rewrite (sum_ext d _ (fun i => sumRn d (fun k => along d W k r i * W i j))) by (intros; rewrite sum_scalr; auto).
      rewrite sum_swap. auto. }
    rewrite H1. pose proof (telescope d (fun k => along d W k r j)) as T. cbv beta in T. rewrite sum_minus, along_end in T by auto.
    change (along d W 0 r j) with (if Nat.eqb r j then 1 else 0) in T. lra.
  Qed.

  Lemma effect_step_left : forall r j, (r < d)%nat -> (j < d)%nat ->
    effect d W r j = sumRn d (fun i => W r i * effect d W i j) + (if Nat.eqb r j then 1 else 0).
  Proof using up low.
    intros r j Hr Hj. unfold effect.
    assert (sumRn d (fun i => W r i * sumRn d (fun k => along d W k i j)) = sumRn d (fun k => along d W (S k) r j)) as H1.
    { rewrite (sum_ext d _ (fun i => sumRn d (fun k => W r i * along d W k i j))) by (intros; rewrite sum_scal; auto).
      rewrite sum_swap. apply sum_ext. intros k _. rewrite along_left by auto. auto. }
    rewrite H1. pose proof (telescope d (fun k => along d W k r j)) as T. cbv beta in T. rewrite sum_minus, along_end in T by auto.
    change (along d W 0 r j) with (if Nat.eqb r j then 1 else 0) in T. lra.
  Qed.

  Definition eye_less : nat -> nat -> R := fun i j => (if Nat.eqb i j then 1 else 0) - W i j.

  Lemma effect_inverse : inverse_of d eye_less (effect d W).
  Proof using up low.
    intros i j Hi Hj. unfold eye_less. split.
    - rewrite (sum_ext d _ (fun k => (if Nat.eqb i k then 1 else 0) * effect d W k j - W i k * effect d W k j)) by (intros; ring).
      rewrite sum_minus, sum_delta by auto. rewrite (effect_step_left i j) by auto. ring.
    - rewrite (sum_ext d _ (fun k => effect d W i k * (if Nat.eqb k j then 1 else 0) - effect d W i k * W k j)) by (intros; ring).
      rewrite sum_minus, sum_delta_r by auto. rewrite (effect_step i j) at 1 by auto. ring.
  Qed.

  Lemma inverse_unique : forall A B C, inverse_of d A B -> inverse_of d A C -> forall i j, (i < d)%nat -> (j < d)%nat -> B i j = C i j.
  Proof using.
    intros A B C HB HC i j Hi Hj.
    rewrite <- (sum_delta_r d j (fun k => B i k)) by auto.
    rewrite (sum_ext d _ (fun k => sumRn d (fun l => B i k * (A k l * C l j)))).
    2:{ intros k Hk. rewrite sum_scal. destruct (HC k j Hk Hj) as [-> _]. auto. }
    rewrite sum_swap. rewrite (sum_ext d _ (fun l => (if Nat.eqb i l then 1 else 0) * C l j)).
    2:{ intros l Hl. destruct (HB i l Hi Hl) as [_ <-]. rewrite <- sum_scalr. apply sum_ext. intros; ring. }
    rewrite (sum_delta d i (fun l => C l j)) by auto. auto.
  Qed.

  Lemma effect_rank : forall r j, (r < d)%nat -> (j < d)%nat -> effect d W r j <> 0 -> (rk r <= rk j)%nat.
  Proof using up.
    intros r j Hr Hj H. destruct (Nat.le_gt_cases (rk r) (rk j)) as [L|L]; auto. exfalso. apply H. apply sum_zero.
    intros k _. destruct (Req_dec (along d W k r j) 0) as [Z|Z]; auto. pose proof (along_rank k r j Hr Hj Z). lia.
  Qed.
End Effects.

(* ---------- the risk ---------- *)
Section Risk.
  Variable d : nat.
  Variables W B X : nat -> nat -> R.
  Variable s : nat -> R.
  Variable c : R.
  Variable rk : nat -> nat.
  Hypothesis upW : forall u v, (u < d)%nat -> (v < d)%nat -> W u v <> 0 -> (rk u < rk v)%nat.
  Hypothesis upB : forall u v, (u < d)%nat -> (v < d)%nat -> B u v <> 0 -> (rk u < rk v)%nat.
  Hypothesis low : forall u, (u < d)%nat -> (rk u < d)%nat.
  Hypothesis HX : forall r j, (r < d)%nat -> (j < d)%nat -> X r j = c * s r * effect d W r j.

  Definition diff (r j : nat) : R := sumRn d (fun i => X r i * (W i j - B i j)).

  Lemma X_step : forall r j, (r < d)%nat -> (j < d)%nat ->
    X r j = sumRn d (fun i => X r i * W i j) + (if Nat.eqb r j then c * s j else 0).
  Proof using upW low HX.
    intros r j Hr Hj. rewrite HX by auto. rewrite (effect_step d W rk) by auto.
    rewrite (sum_ext d (fun i => X r i * W i j) (fun i => c * s r * (effect d W r i * W i j))) by (intros; rewrite HX by auto; ring).
    rewrite sum_scal. destruct (Nat.eqb_spec r j); [subst; ring|ring].
  Qed.

  Lemma error_eq : forall r j, (r < d)%nat -> (j < d)%nat ->
    X r j - sumRn d (fun i => X r i * B i j) = (if Nat.eqb r j then c * s j else 0) + diff r j.
  Proof using upW low HX.
    intros r j Hr Hj. rewrite (X_step r j) by auto. unfold diff.
    rewrite (sum_ext d (fun i => X r i * (W i j - B i j)) (fun i => X r i * W i j - X r i * B i j)) by (intros; ring).
    rewrite sum_minus. ring.
  Qed.

  Lemma diff_diag : forall j, (j < d)%nat -> diff j j = 0.
  Proof using upW upB HX.
    intros j Hj. apply sum_zero. intros i Hi. rewrite HX by auto.
    destruct (Req_dec (effect d W j i) 0) as [Z|Z]; [rewrite Z; ring|].
    pose proof (effect_rank d W rk upW j i Hj Hi Z) as L.
    assert (W i j = 0) as ->. { destruct (Req_dec (W i j) 0) as [Y|Y]; auto. pose proof (upW i j Hi Hj Y). lia. }
    assert (B i j = 0) as ->. { destruct (Req_dec (B i j) 0) as [Y|Y]; auto. pose proof (upB i j Hi Hj Y). lia. }
    ring.
  Qed.

  Lemma sq_split : forall r j, (r < d)%nat -> (j < d)%nat ->
    Rsqr (X r j - sumRn d (fun i => X r i * B i j)) = (if Nat.eqb r j then 1 else 0) * (c * c * (s j * s j)) + Rsqr (diff r j).
  Proof using upW upB low HX.
    intros r j Hr Hj. rewrite error_eq by auto. destruct (Nat.eqb_spec r j) as [->|N]; unfold Rsqr.
    - rewrite diff_diag by auto. ring.
    - ring.
  Qed.

  Lemma risk_split : (0 < d)%nat -> c * c = INR d ->
    risk d X B = sumRn d (fun j => s j * s j) + / INR d * sumRn d (fun r => sumRn d (fun j => Rsqr (diff r j))).
  Proof using upW upB low HX.
    intros Hd Hc. assert (INR d <> 0) as N by (apply not_0_INR; lia). unfold risk.
    rewrite (sum_ext d _ (fun r => c * c * (s r * s r) + sumRn d (fun j => Rsqr (diff r j)))).
    2:{ intros r Hr. rewrite (sum_ext d _ (fun j => (if Nat.eqb r j then 1 else 0) * (c * c * (s j * s j)) + Rsqr (diff r j))) by (intros; apply sq_split; auto).
        rewrite sum_plus, sum_delta by auto. auto. }
    rewrite sum_plus, sum_scal, Hc. field. auto.
  Qed.

  Lemma diff_zero : (forall r, (r < d)%nat -> c * s r <> 0) -> (forall r j, (r < d)%nat -> (j < d)%nat -> diff r j = 0) ->
    forall i j, (i < d)%nat -> (j < d)%nat -> B i j = W i j.
  Proof using upW low HX.
    intros Hs Z i j Hi Hj.
    assert (forall r, (r < d)%nat -> sumRn d (fun k => effect d W r k * (W k j - B k j)) = 0) as Y.
    { intros r Hr. apply (Rmult_eq_reg_l (c * s r)); auto. rewrite Rmult_0_r, <- sum_scal. rewrite <- (Z r j Hr Hj).
      apply sum_ext. intros k Hk. rewrite HX by auto. ring. }
    assert (W i j - B i j = 0) as G; [|lra].
    rewrite <- (sum_delta d i (fun k => W k j - B k j)) by auto.
    rewrite (sum_ext d _ (fun k => sumRn d (fun r => eye_less W i r * (effect d W r k * (W k j - B k j))))).
    2:{ intros k Hk. destruct (effect_inverse d W rk upW low i k Hi Hk) as [<- _]. rewrite <- sum_scalr. apply sum_ext. intros; ring. }
    rewrite sum_swap. apply sum_zero. intros r Hr. rewrite sum_scal, Y by auto. ring.
  Qed.
End Risk.
