(** The first two stages with the kernel test. *)

From Coq Require Import List Arith Lia Bool Reals Lra.
From Verif Require Import Model.Py Model.LocalScore Model.KCI Model.OLC Spec.Scores Proofs.ScoreFacts Proofs.BicFacts Proofs.KCIFacts Proofs.FisherCombFacts Proofs.OLCPairs.
Import ListNotations.
Open Scope nat_scope.

Definition affine (u v : list R) : Prop := exists a b, (a <> 0)%R /\ v = map (fun t => a * t + b)%R u.

Lemma affine_refl : forall u, affine u u.
Proof. intro u. exists 1%R, 0%R. split; [lra|]. rewrite <- (map_id u) at 1. apply map_ext. intro. ring. Qed.
Lemma affine_trans : forall u v w, affine u v -> affine v w -> affine u w.
Proof.
  intros u v w (a & b & Ha & ->) (c & d & Hc & ->). exists (c * a)%R, (c * b + d)%R. split; [apply Rmult_integral_contrapositive; auto|].
  rewrite map_map. apply map_ext. intro. ring.
Qed.
Lemma affine_shift : forall u c, affine u (map (fun t => t - c)%R u).
Proof. intros u c. exists 1%R, (- c)%R. split; [lra|]. apply map_ext. intro. ring. Qed.
Lemma affine_length : forall u v, affine u v -> length v = length u.
Proof. intros u v (a & b & _ & ->). apply map_length. Qed.

Lemma column_affine : forall u a b i, i < length u -> column (map (fun t => a * t + b)%R u) i 0 = (a * column u i 0%nat + b)%R.
Proof.
  intros u a b i H. unfold column. rewrite (nth_indep (map (fun t => (a * t + b)%R) u) 0%R (a * 0 + b)%R) by (rewrite map_length; auto).
  apply (map_nth (fun t => (a * t + b)%R)).
Qed.

Lemma kci_pval_sym : forall gcdf u v, length u = length v -> kci_pval gcdf u v = kci_pval gcdf v u.
Proof. intros gcdf u v E. unfold kci_pval. rewrite E. f_equal. apply kci_symmetric. Qed.

Lemma kci_pval_left : forall gcdf u u' v, affine u u' -> kci_pval gcdf u' v = kci_pval gcdf u v.
Proof.
  intros gcdf u u' v A. unfold kci_pval. rewrite (affine_length _ _ A). f_equal. destruct A as (a & b & Ha & ->).
  apply kci_affine with (a := fun _ => a) (b := fun _ => b); auto. intros i c Hi Hc. replace c with 0 by lia. apply column_affine; auto.
Qed.

Lemma kci_pval_affine : forall gcdf u u' v v', length u = length v -> affine u u' -> affine v v' -> kci_pval gcdf u' v' = kci_pval gcdf u v.
Proof.
  intros gcdf u u' v v' E A B. rewrite (kci_pval_left gcdf u u' v' A). rewrite kci_pval_sym by (rewrite (affine_length _ _ B); auto).
  rewrite (kci_pval_left gcdf v v' u B). apply kci_pval_sym. auto.
Qed.

Lemma rsum_zero : forall l, (forall v, In v l -> (0 <= v)%R) -> rsum l = 0%R -> forall v, In v l -> v = 0%R.
Proof.
  intros l H. assert (0 <= rsum l)%R as P.
  { clear -H. induction l as [|a l IH]; unfold rsum in *; simpl; [lra|]. specialize (IH (fun v Hv => H v (or_intror Hv))). specialize (H a (or_introl eq_refl)). lra. }
  revert P. induction l as [|a l IH]; intros P E v I; [destruct I|].
  assert (0 <= a)%R as Pa by (apply H; left; auto).
  assert (0 <= rsum l)%R as Pl.
  { clear -H. induction l as [|b l IH]; unfold rsum in *; simpl; [lra|]. assert (0 <= b)%R by (apply H; right; left; auto).
    assert (0 <= fold_right Rplus 0 l)%R; [|lra]. apply IH. intros v [->|Hv]; apply H; [left|right; right]; auto. }
  unfold rsum in *. cbn [fold_right] in E. destruct I as [<-|I]; [lra|]. apply IH; auto; [|lra]. intros w Hw. apply H. right. auto.
Qed.

(** A column whose standard deviation vanishes is constant, and never accepted. *)
Lemma flat_none : forall gcdf u v, u <> [] -> (rsum (map (fun t => (t - rmean u) * (t - rmean u)) u) / INR (length u))%R = 0%R -> kci_pval gcdf u v = None.
Proof.
  intros gcdf u v NE E. assert (0 < length u) as L by (destruct u; [congruence|simpl; lia]).
  assert (0 < INR (length u))%R as PI by (apply lt_0_INR; auto).
  assert (rsum (map (fun t => (t - rmean u) * (t - rmean u)) u) = 0)%R as Z.
  { apply Rmult_eq_reg_r with (/ INR (length u))%R; [rewrite Rmult_0_l; exact E|]. apply Rinv_neq_0_compat. lra. }
  assert (forall t, In t u -> t = rmean u) as C.
  { intros t I. assert ((t - rmean u) * (t - rmean u) = 0)%R as S.
    { apply (rsum_zero (map (fun t => ((t - rmean u) * (t - rmean u))%R) u)); auto.
      - intros w Iw. apply in_map_iff in Iw. destruct Iw as [r [<- _]]. apply Rle_0_sqr.
      - apply in_map_iff. exists t. auto. }
    apply Rmult_integral in S. lra. }
  unfold kci_pval. rewrite kci_flat; auto. intros c Hc. unfold col_std.
  assert (forall i, i < length u -> column u i c = rmean u) as K by (intros i Hi; unfold column; apply C; apply nth_In; auto).
  assert (col_mean (length u) (column u) c = rmean u) as M.
  { unfold col_mean. rewrite (rsumn_ext _ _ (fun _ => rmean u)) by auto. rewrite rsumn_const. field. lra. }
  rewrite M. rewrite (rsumn_ext _ _ (fun _ => 0%R)) by (intros i Hi; rewrite K by auto; ring).
  rewrite rsumn_const. unfold Rdiv. rewrite Rmult_0_r, Rmult_0_l. apply sqrt_0.
Qed.

Lemma normalize_affine : forall gcdf u v level, rge level (kci_pval gcdf u v) = true -> affine u (normalize u).
Proof.
  intros gcdf u v level H. destruct u as [|t u]; [apply affine_refl|]. unfold normalize.
  set (w := t :: u) in *. set (q := (rsum (map (fun v0 => (v0 - rmean w) * (v0 - rmean w)) w) / INR (length w))%R).
  assert (sqrt q <> 0%R) as N.
  { intro E. assert (0 <= q)%R as Pq.
    { unfold q, Rdiv. apply Rmult_le_pos; [|left; apply Rinv_0_lt_compat, lt_0_INR; simpl; lia].
      clear. induction w as [|a w IH]; unfold rsum; simpl; [lra|]. generalize (rmean (a :: w)). intro m.
      assert (forall l, (0 <= fold_right Rplus 0 (map (fun v0 => (v0 - m) * (v0 - m)) l))%R) as K.
      { induction l as [|b l IHl]; simpl; [lra|]. pose proof (Rle_0_sqr (b - m)). unfold Rsqr in *. lra. }
      specialize (K w). pose proof (Rle_0_sqr (a - m)). unfold Rsqr in *. lra. }
    apply sqrt_eq_0 in E; auto. rewrite (flat_none gcdf w v) in H; [discriminate|discriminate|exact E]. }
  exists (/ sqrt q)%R, (- rmean w / sqrt q)%R. split; [apply Rinv_neq_0_compat; auto|]. apply map_ext. intro s. field. auto.
Qed.

Section Real.
  Variable gcdf : R -> R -> R -> R.
  Variables alpha beta : R.
  Variable icpt : list (list R) -> list R -> R.
  Variable sur : (nat -> list R) -> (nat -> nat -> R) -> list nat -> list nat -> option nat -> option (list R).
  Variable covd : (nat -> list R) -> nat -> nat -> R.
  Variables cov2 load : list R -> list R -> R.
  Variable sm : R -> bool.
  Notation D := (olc_real gcdf alpha beta icpt sur covd cov2 load sm).
  Variables n N : nat.
  Variable data : nat -> list R.
  Hypothesis HL : forall k, k < n -> length (data k) = N.

  Definition tested (x y : nat) : bool := rge alpha (kci_pval gcdf (data x) (data y)).

  Lemma tested_sym : forall x y, x < n -> y < n -> tested x y = tested y x.
  Proof using HL. intros x y Hx Hy. unfold tested. rewrite kci_pval_sym; auto. rewrite !HL; auto. Qed.

  Lemma real_acc : forall x y u v X, x < n -> y < n -> affine (data x) u -> affine (data y) v ->
    rge alpha (kci_pval gcdf (map (fun t => t - icpt X u)%R u) v) = tested x y.
  Proof using HL.
    intros x y u v X Hx Hy A B. unfold tested. rewrite (kci_pval_affine gcdf (data x) _ (data y) v); auto; [rewrite !HL; auto|].
    eapply affine_trans; [exact A|]. apply affine_shift.
  Qed.

  Lemma real_norm : forall x y u v X, x < n -> y < n -> affine (data x) u -> affine (data y) v -> tested x y = true ->
    affine (data x) (normalize (map (fun t => t - icpt X u)%R u)).
  Proof using HL.
    intros x y u v X Hx Hy A B T. eapply affine_trans; [exact A|]. eapply affine_trans; [apply (affine_shift u (icpt X u))|].
    apply (normalize_affine gcdf _ v alpha). rewrite (real_acc x y u v X); auto.
  Qed.

  Lemma real_stage1 : forall f, exists s, stage1 D n (S (S f)) (start1 D n data) = Ok s /\ settled D n data affine s.
  Proof using HL.
    intro f. apply (stage1_settled D n data affine).
    - intros. apply affine_refl.
    - exact tested_sym.
    - exact real_acc.
    - exact real_norm.
  Qed.

  Lemma real_fisher : forall x ys u X d, (1 / 100000 < alpha)%R -> (alpha <= / 20)%R -> x < n ->
    (forall y, In y ys -> y < n /\ affine (data y) (d y) /\ tested x y = false) -> ys <> [] -> affine (data x) u ->
    rge alpha (fisher_test (map (fun y => kci_pval gcdf (map (fun t => t - icpt X u)%R u) (d y)) ys)) = false.
  Proof using HL.
    intros x ys u X d A1 A2 Hx H NE A. apply fisher_below; auto.
    - destruct ys; [congruence|discriminate].
    - intros p I. apply in_map_iff in I. destruct I as [y [<- Iy]]. destruct (H y Iy) as (Hy & B & T). rewrite (real_acc x y); auto.
  Qed.

  Lemma real_pairs : forall f, n <> 1 -> (1 / 100000 < alpha)%R -> (alpha <= / 20)%R ->
    exists s, olc_pairs D n (S (S f)) data = Ok s /\ settled D n data affine s.
  Proof using HL.
    intros f N1 A1 A2. destruct (real_stage1 f) as [s [E S]]. exists (clear D s). split; [|exact S].
    unfold olc_pairs. rewrite E. cbn [rbind]. apply (stage2_settled D n data affine); auto.
    intros x ys u X d Hx H NE A. apply (real_fisher x ys u X d); auto.
  Qed.
End Real.
