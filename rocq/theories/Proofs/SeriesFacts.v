(** Power series of a matrix whose powers are bounded by a geometric sequence. *)

From Coq Require Import List Arith Lia Bool ZArith QArith Qreals Reals Lra Setoid Morphisms.
From Verif Require Import Model.Py Model.LocalScore Model.KCI Model.Expm Spec.Scores Spec.ExpmSpec Proofs.BicFacts Proofs.PopulationFacts Proofs.KCIFacts Proofs.GaussianFacts Proofs.ExpmFacts Proofs.TaylorFacts Proofs.MajorFacts Proofs.ExpFacts Proofs.ExpAccuracyFacts.
Import ListNotations.
Open Scope R_scope.

(* ---------- sequences of coefficients ---------- *)
Definition pre (a : nat -> R) (K : nat) : list R := map a (seq 0 (S K)).
Definition absq (a : nat -> R) : nat -> R := fun k => Rabs (a k).
Definition conv (a b : nat -> R) (k : nat) : R := sum_f_R0 (fun i => a i * b (k - i)%nat) k.
Definition wsum (t : R) (a : nat -> R) (K : nat) : R := seval t (pre (absq a) K).
Definition bounded (t : R) (a : nat -> R) (B : R) : Prop := forall K, wsum t a K <= B.

Lemma nth_pre : forall a K k, nth k (pre a K) 0 = if Nat.ltb k (S K) then a k else 0.
Proof. intros. apply nth_map_seq. Qed.
Lemma wsum_sum : forall t a K, wsum t a K = sum_f_R0 (fun k => Rabs (a k) * t ^ k) K.
Proof. intros. unfold wsum, pre. apply seval_seq. Qed.
Lemma seval_le : forall t p q, 0 <= t -> (forall k, nth k p 0 <= nth k q 0) -> seval t p <= seval t q.
Proof.
  intros t p q Ht H. assert (0 <= seval t (pminus q p)) as S by (apply seval_nonneg; auto; intro k; rewrite nth_pminus; specialize (H k); lra). rewrite seval_pminus in S. lra.
Qed.
Lemma wsum_grow : forall t a K, 0 <= t -> wsum t a K <= wsum t a (S K).
Proof. intros t a K Ht. rewrite !wsum_sum, tech5. assert (0 <= Rabs (a (S K)) * t ^ S K) by (apply Rmult_le_pos; [apply Rabs_pos|apply pow_le; auto]). lra. Qed.
Lemma wsum_mono : forall t a K N, 0 <= t -> (K <= N)%nat -> wsum t a K <= wsum t a N.
Proof. intros t a K N Ht H. induction H; [lra|]. eapply Rle_trans; [exact IHle|apply wsum_grow; auto]. Qed.
Lemma wsum_pos : forall t a K, 0 <= t -> 0 <= wsum t a K.
Proof. intros t a K Ht. apply seval_nonneg; auto. intro k. rewrite nth_pre. destruct (Nat.ltb_spec k (S K)); [apply Rabs_pos|lra]. Qed.
Lemma wsum_ext : forall t a b K, (forall k, (k <= K)%nat -> Rabs (a k) = Rabs (b k)) -> wsum t a K = wsum t b K.
Proof. intros t a b K H. rewrite !wsum_sum. apply sum_eq. intros k Hk. rewrite H; auto. Qed.
Lemma wsum_le : forall t a b K, 0 <= t -> (forall k, (k <= K)%nat -> Rabs (a k) <= Rabs (b k)) -> wsum t a K <= wsum t b K.
Proof. intros t a b K Ht H. rewrite !wsum_sum. apply sum_Rle. intros k Hk. apply Rmult_le_compat_r; [apply pow_le; auto|auto]. Qed.
Lemma wsum_cv : forall t a B, 0 <= t -> bounded t a B -> exists l, Un_cv (wsum t a) l.
Proof.
  intros t a B Ht H. destruct (growing_cv (wsum t a)) as [l Hl]; [intro K; apply wsum_grow; auto|exists B; intros x [K ->]; apply H|]. exists l. auto.
Qed.

Lemma rsum_app : forall l m, rsum (l ++ m) = rsum l + rsum m.
Proof. intros l m. unfold rsum. induction l as [|a l IH]; simpl; [ring|]. rewrite IH. ring. Qed.
Lemma rsum_rev : forall l, rsum (rev l) = rsum l.
Proof. induction l as [|a l IH]; [auto|]. cbn [rev]. rewrite rsum_app, IH. unfold rsum. simpl. ring. Qed.
Lemma conv_comm : forall a b k, conv a b k = conv b a k.
Proof.
  intros a b k. unfold conv. rewrite <- !rsumn_sum_f. unfold rsumn. rewrite <- (rsum_rev (map (fun i => b i * a (k - i)%nat) (seq 0 (S k)))).
  f_equal. rewrite <- map_rev. apply (nth_ext _ _ 0 0); [rewrite !map_length, rev_length, seq_length; auto|]. intros i Hi. rewrite map_length, seq_length in Hi.
  rewrite (nth_indep _ 0 (a 0%nat * b (k - 0)%nat)) by (rewrite map_length, seq_length; auto). rewrite (map_nth (fun i => a i * b (k - i)%nat)). rewrite seq_nth by auto.
  rewrite (nth_indep _ 0 (b 0%nat * a (k - 0)%nat)) by (rewrite map_length, rev_length, seq_length; auto). rewrite (map_nth (fun i => b i * a (k - i)%nat)).
  rewrite rev_nth by (rewrite seq_length; auto). rewrite seq_length, seq_nth by lia. replace (0 + (S k - S i))%nat with (k - i)%nat by lia. replace (k - (k - i))%nat with i by lia. cbn [Nat.add]. ring.
Qed.

Lemma conv_abs : forall a b k, Rabs (conv a b k) <= conv (absq a) (absq b) k.
Proof. intros a b k. unfold conv. apply sum_f_abs_le. intros i Hi. rewrite Rabs_mult. unfold absq. lra. Qed.
Lemma conv_abs_pos : forall a b k, 0 <= conv (absq a) (absq b) k.
Proof. intros. eapply Rle_trans; [apply Rabs_pos|apply conv_abs]. Qed.
Lemma nth_prod : forall a b K k, (k <= K)%nat -> nth k (pmul (pre a K) (pre b K)) 0 = conv a b k.
Proof.
  intros a b K k H. rewrite nth_pmul. unfold conv. apply sum_eq. intros i Hi. rewrite !nth_pre. destruct (Nat.ltb_spec i (S K)); [|lia]. destruct (Nat.ltb_spec (k - i) (S K)); [auto|lia].
Qed.
Lemma nth_prod_pos : forall a b K k, 0 <= nth k (pmul (pre (absq a) K) (pre (absq b) K)) 0.
Proof.
  intros a b K k. rewrite nth_pmul. apply cond_pos_sum. intro i. rewrite !nth_pre. apply Rmult_le_pos; [destruct (Nat.ltb i (S K))|destruct (Nat.ltb (k - i) (S K))]; unfold absq; try lra; apply Rabs_pos.
Qed.
Definition csum (t : R) (a b : nat -> R) (K : nat) : R := seval t (pre (conv (absq a) (absq b)) K).
Lemma csum_low : forall t a b K, 0 <= t -> csum t a b K <= wsum t a K * wsum t b K.
Proof.
  intros t a b K Ht. unfold csum, wsum. rewrite <- seval_mul. apply seval_le; auto. intro k. rewrite nth_pre. destruct (Nat.ltb_spec k (S K)); [right; symmetry; apply nth_prod; lia|apply nth_prod_pos].
Qed.
Lemma csum_high : forall t a b K, 0 <= t -> wsum t a K * wsum t b K <= csum t a b (2 * K).
Proof.
  intros t a b K Ht. unfold csum, wsum. rewrite <- seval_mul. apply seval_le; auto. intro k. rewrite nth_pre, nth_pmul. destruct (Nat.ltb_spec k (S (2 * K))) as [L|L].
  - unfold conv. apply sum_Rle. intros i Hi. rewrite !nth_pre. assert (0 <= absq a i * absq b (k - i)%nat) by (apply Rmult_le_pos; apply Rabs_pos).
    destruct (Nat.ltb i (S K)), (Nat.ltb (k - i) (S K)); lra.
  - right. rewrite <- rsumn_sum_f. apply rs_zero. intros i Hi. rewrite !nth_pre. destruct (Nat.ltb_spec i (S K)); [|ring]. destruct (Nat.ltb_spec (k - i) (S K)); [lia|ring].
Qed.
Lemma csum_grow : forall t a b K, 0 <= t -> csum t a b K <= csum t a b (S K).
Proof.
  intros t a b K Ht. unfold csum. apply seval_le; auto. intro k. rewrite !nth_pre. pose proof (conv_abs_pos a b k). destruct (Nat.ltb_spec k (S K)), (Nat.ltb_spec k (S (S K))); try lra. lia.
Qed.
Lemma csum_gap : forall t a b A B, 0 <= t -> bounded t a A -> bounded t b B -> Un_cv (fun K => wsum t a K * wsum t b K - csum t a b K) 0.
Proof.
  intros t a b A B Ht HA HB. destruct (growing_cv (csum t a b)) as [l Hl].
  - intro K. apply csum_grow; auto.
  - exists (A * B). intros x [K ->]. eapply Rle_trans; [apply csum_low; auto|]. apply Rmult_le_compat; auto using wsum_pos.
  - intros e He. assert (0 < e / 2) as He2 by lra. destruct (Hl _ He2) as [K HK]. exists K. intros k Hk. pose proof (HK k Hk) as H1. pose proof (HK (2 * k)%nat ltac:(lia)) as H2.
    pose proof (csum_low t a b k Ht). pose proof (csum_high t a b k Ht). unfold R_dist in *. rewrite Rminus_0_r, Rabs_pos_eq by lra.
    apply Rabs_def2 in H1. apply Rabs_def2 in H2. lra.
Qed.
Lemma conv_bounded : forall t a b A B, 0 <= t -> bounded t a A -> bounded t b B -> bounded t (conv a b) (A * B).
Proof.
  intros t a b A B Ht HA HB K. eapply Rle_trans; [|eapply Rle_trans; [apply (csum_low t a b K Ht)|apply Rmult_le_compat; auto using wsum_pos]].
  unfold csum, wsum. apply seval_le; auto. intro k. rewrite !nth_pre. destruct (Nat.ltb k (S K)); [apply conv_abs|lra].
Qed.

(* ---------- matrices ---------- *)
Definition powers_within (n : nat) (A : rmat) (M t : R) : Prop := forall k, norm1 n (rpow n A k) <= M * t ^ k.
Lemma norm1_add : forall n A B, norm1 n (radd A B) <= norm1 n A + norm1 n B.
Proof. intros n A B. apply (nl_add _ _ _ (normlike_sum n)); unfold Nsum; lra. Qed.
Lemma norm1_scale : forall n c A, norm1 n (rscale c A) <= Rabs c * norm1 n A.
Proof. intros n c A. apply (nl_scale _ _ _ (normlike_sum n)); [apply norm1_nonneg|unfold Nsum; lra]. Qed.
Lemma norm1_dot : forall n A B, norm1 n (rdot n A B) <= norm1 n A * norm1 n B.
Proof. intros n A B. apply (nl_dot _ _ _ (normlike_sum n)); try apply norm1_nonneg; unfold Nsum; lra. Qed.
Lemma norm1_combination : forall n L (c : nat -> R) (X : nat -> rmat), norm1 n (fun i j => rsumn L (fun k => c k * X k i j)) <= rsumn L (fun k => Rabs (c k) * norm1 n (X k)).
Proof.
  intros n L c X. induction L as [|L IH].
  - rewrite (norm1_ext n _ mzero) by (intros i j _ _; unfold rsumn, rsum; simpl; auto). rewrite norm1_zero. unfold rsumn, rsum. simpl. lra.
  - rewrite rs_S. rewrite (norm1_ext n _ (radd (fun i j => rsumn L (fun k => c k * X k i j)) (rscale (c L) (X L)))) by (intros i j _ _; rewrite rs_S; reflexivity).
    eapply Rle_trans; [apply norm1_add|]. apply Rplus_le_compat; [exact IH|apply norm1_scale].
Qed.
Lemma peval_norm_sum : forall n A p, norm1 n (peval n A p) <= rsumn (length p) (fun k => Rabs (nth k p 0) * norm1 n (rpow n A k)).
Proof. intros n A p. rewrite (norm1_ext n _ _ (peval_sum n A p)). apply (norm1_combination n (length p) (fun k => nth k p 0) (fun k => rpow n A k)). Qed.
Lemma nth_map_abs : forall p k, nth k (map Rabs p) 0 = Rabs (nth k p 0).
Proof. intros p k. rewrite <- Rabs_R0 at 1. apply map_nth. Qed.
Lemma peval_within : forall n A M t p q, 0 <= M -> 0 <= t -> powers_within n A M t -> maj p q -> norm1 n (peval n A p) <= M * seval t q.
Proof.
  intros n A M t p q HM Ht HA Hm. eapply Rle_trans; [apply peval_norm_sum|]. apply Rle_trans with (rsumn (length p) (fun k => M * (nth k (map Rabs p) 0 * t ^ k))).
  - apply rs_le. intros k Hk. rewrite nth_map_abs. specialize (HA k). pose proof (Rabs_pos (nth k p 0)).
    apply Rle_trans with (Rabs (nth k p 0) * (M * t ^ k)); [apply Rmult_le_compat_l; auto|]. right. ring.
  - rewrite rs_scal. apply Rmult_le_compat_l; auto. rewrite <- (map_length Rabs p), <- seval_sum. apply seval_le; auto. intro k. rewrite nth_map_abs. apply Hm.
Qed.

Definition ser (n : nat) (A : rmat) (a : nat -> R) (L : rmat) : Prop := mcv n (fun K => peval n A (pre a K)) L.
Lemma ser_unique : forall n A a L L', ser n A a L -> ser n A a L' -> meq n L L'.
Proof. intros. eapply mcv_unique; eauto. Qed.
Lemma ser_ext : forall n A a b L, (forall k, a k = b k) -> ser n A a L -> ser n A b L.
Proof. intros n A a b L H C. refine (mcv_ext n _ _ L _ C). intro K. cbv beta. apply peval_pad. intro k. rewrite !nth_pre. destruct (Nat.ltb k (S K)); auto. Qed.
Lemma ser_meq : forall n A a L L', meq n L L' -> ser n A a L -> ser n A a L'.
Proof. intros n A a L L' H C. eapply mcv_limit; eauto. Qed.
Lemma ser_list : forall n A p, ser n A (fun k => nth k p 0) (peval n A p).
Proof.
  intros n A p i j Hi Hj e He. exists (length p). intros K HK. rewrite (peval_pad n A (pre (fun k => nth k p 0) K) p); auto; [rewrite R_dist_eq; auto|].
  intro k. rewrite nth_pre. destruct (Nat.ltb_spec k (S K)); auto. symmetry. apply nth_overflow. lia.
Qed.
Lemma ser_exists : forall n A M t a B, 0 <= M -> 0 <= t -> powers_within n A M t -> bounded t a B -> exists L, ser n A a L.
Proof.
  intros n A M t a B HM Ht HA HB. destruct (wsum_cv t a B Ht HB) as [w Hw]. pose proof (CV_Cauchy _ (exist (fun l => Un_cv (wsum t a) l) w Hw)) as CW.
  assert (forall i j, (i < n)%nat -> (j < n)%nat -> Cauchy_crit (fun K => peval n A (pre a K) i j)) as CC.
  { intros i j Hi Hj e He. assert (0 < M + 1) as PM by lra. destruct (CW (e / (M + 1))) as [K HK]; [apply Rdiv_lt_0_compat; auto|]. exists K.
    assert (forall p q, (K <= p)%nat -> (p <= q)%nat -> R_dist (peval n A (pre a q) i j) (peval n A (pre a p) i j) < e) as W.
    { intros p q Hp Hq. specialize (HK q p ltac:(lia) ltac:(lia)). unfold R_dist in *. apply Rle_lt_trans with (M * (wsum t a q - wsum t a p)).
      - unfold wsum. rewrite <- (seval_pminus t (pre (absq a) q) (pre (absq a) p)). eapply Rle_trans; [|apply (peval_within n A M t (pminus (pre a q) (pre a p)) _ HM Ht HA)].
        + rewrite (norm1_ext n _ _ (peval_pminus n A (pre a q) (pre a p))). apply (entry_norm1 n (difference (peval n A (pre a q)) (peval n A (pre a p)))); auto.
        + intro k. rewrite !nth_pminus, !nth_pre. destruct (Nat.ltb_spec k (S q)), (Nat.ltb_spec k (S p)); try lia; unfold absq; rewrite ?Rminus_0_r; rewrite ?Rminus_eq_0, ?Rabs_R0; lra.
      - pose proof (wsum_mono t a p q Ht Hq). rewrite Rabs_pos_eq in HK by lra. apply Rle_lt_trans with ((M + 1) * (wsum t a q - wsum t a p)); [apply Rmult_le_compat_r; lra|].
        apply (Rmult_lt_compat_l (M + 1)) in HK; auto. unfold Rdiv in HK. replace ((M + 1) * (e * / (M + 1))) with e in HK by (field; lra). auto. }
    intros p q Hp Hq. destruct (Nat.le_ge_cases p q) as [L|L]; [rewrite R_dist_sym|]; apply W; auto. }
  exists (fun i j => match lt_dec i n, lt_dec j n with left Hi, left Hj => proj1_sig (R_complete _ (CC i j Hi Hj)) | _, _ => 0 end).
  intros i j Hi Hj. destruct (lt_dec i n) as [Li|]; [|contradiction]. destruct (lt_dec j n) as [Lj|]; [|contradiction]. destruct (R_complete _ (CC i j Li Lj)) as [l Hl]. exact Hl.
Qed.
Lemma ser_mul : forall n A M t a b B B' L L', 0 <= M -> 0 <= t -> powers_within n A M t -> bounded t a B -> bounded t b B' -> ser n A a L -> ser n A b L' -> ser n A (conv a b) (rdot n L L').
Proof.
  intros n A M t a b B B' L L' HM Ht HA Ha Hb HL HL'. pose proof (mcv_dot n _ _ _ _ HL HL') as C. pose proof (csum_gap t a b B B' Ht Ha Hb) as Z.
  assert (forall K i j, (i < n)%nat -> (j < n)%nat -> Rabs (rdot n (peval n A (pre a K)) (peval n A (pre b K)) i j - peval n A (pre (conv a b) K) i j) <= M * (wsum t a K * wsum t b K - csum t a b K)) as D.
  { intros K i j Hi Hj. rewrite <- (peval_mul n A (pre a K) (pre b K) i j Hi Hj). unfold wsum, csum. rewrite <- seval_mul, <- seval_pminus.
    eapply Rle_trans; [|apply (peval_within n A M t (pminus (pmul (pre a K) (pre b K)) (pre (conv a b) K)) _ HM Ht HA)].
    - rewrite (norm1_ext n _ _ (peval_pminus n A (pmul (pre a K) (pre b K)) (pre (conv a b) K))). apply (entry_norm1 n (difference (peval n A (pmul (pre a K) (pre b K))) (peval n A (pre (conv a b) K)))); auto.
    - intro k. rewrite !nth_pminus, !(nth_pre (conv _ _)). destruct (Nat.ltb_spec k (S K)).
      + rewrite !nth_prod by lia. rewrite !Rminus_eq_0, Rabs_R0. lra.
      + rewrite !Rminus_0_r. rewrite !nth_pmul. apply sum_f_abs_le. intros i0 _. rewrite Rabs_mult, !nth_pre. unfold absq.
        destruct (Nat.ltb i0 (S K)), (Nat.ltb (k - i0) (S K)); rewrite ?Rabs_R0; lra. }
  intros i j Hi Hj e He. assert (0 < M + 1) as PM by lra. assert (0 < e / 2 / (M + 1)) as HeM by (apply Rdiv_lt_0_compat; lra). assert (0 < e / 2) as He2 by lra.
  destruct (C i j Hi Hj (e / 2) He2) as [K HK]. destruct (Z _ HeM) as [K' HK']. exists (K + K')%nat. intros N HN.
  specialize (HK N ltac:(lia)). specialize (HK' N ltac:(lia)). specialize (D N i j Hi Hj). unfold R_dist in *. rewrite Rminus_0_r in HK'.
  pose proof (csum_low t a b N Ht) as Lw. rewrite Rabs_pos_eq in HK' by lra. apply (Rmult_lt_compat_l (M + 1)) in HK'; auto. replace ((M + 1) * (e / 2 / (M + 1))) with (e / 2) in HK' by (field; lra).
  assert (M * (wsum t a N * wsum t b N - csum t a b N) <= (M + 1) * (wsum t a N * wsum t b N - csum t a b N)) by (apply Rmult_le_compat_r; lra).
  replace (peval n A (pre (conv a b) N) i j - rdot n L L' i j) with
    (- (rdot n (peval n A (pre a N)) (peval n A (pre b N)) i j - peval n A (pre (conv a b) N) i j) + (rdot n (peval n A (pre a N)) (peval n A (pre b N)) i j - rdot n L L' i j)) by ring.
  eapply Rle_lt_trans; [apply Rabs_triang|]. rewrite Rabs_Ropp. lra.
Qed.
Lemma ser_commute : forall n A M t a b B B' L L', 0 <= M -> 0 <= t -> powers_within n A M t -> bounded t a B -> bounded t b B' -> ser n A a L -> ser n A b L' -> meq n (rdot n L L') (rdot n L' L).
Proof.
  intros n A M t a b B B' L L' HM Ht HA Ha Hb HL HL'. apply (ser_unique n A (conv a b)); [exact (ser_mul n A M t a b B B' L L' HM Ht HA Ha Hb HL HL')|].
  apply (ser_ext n A (conv b a)); [intro; apply conv_comm|exact (ser_mul n A M t b a B' B L' L HM Ht HA Hb Ha HL' HL)].
Qed.
Lemma ser_sub : forall n A a b L L', ser n A a L -> ser n A b L' -> ser n A (fun k => a k - b k) (difference L L').
Proof.
  intros n A a b L L' H H' i j Hi Hj. apply (cv_ext (fun K => peval n A (pre a K) i j - peval n A (pre b K) i j)).
  - intro K. change (peval n A (pre a K) i j - peval n A (pre b K) i j) with (difference (peval n A (pre a K)) (peval n A (pre b K)) i j). rewrite <- (peval_pminus n A (pre a K) (pre b K) i j Hi Hj). apply peval_pad; auto. intro k. rewrite nth_pminus, !nth_pre. destruct (Nat.ltb k (S K)); ring.
  - apply CV_minus; [apply (H i j)|apply (H' i j)]; auto.
Qed.
Lemma ser_norm : forall n A a L b, ser n A a L -> (forall K, sum_f_R0 (fun k => Rabs (a k) * norm1 n (rpow n A k)) K <= b) -> norm1 n L <= b.
Proof.
  intros n A a L b HL H. pose proof (limit_norm n (Nsum n) (INR n) (fun K => peval n A (pre a K)) L mzero b (normlike_sum n) HL) as P.
  assert (forall X, norm1 n (difference mzero X) = norm1 n X) as Z by (intro X; unfold norm1; apply rs_ext2; intros; unfold difference, mzero; rewrite Rminus_0_l, Rabs_Ropp; auto).
  unfold Nsum in P. rewrite Z in P. apply P. intro K. rewrite Z. eapply Rle_trans; [apply peval_norm_sum|]. eapply Rle_trans; [|apply (H K)]. right. unfold pre at 1. rewrite map_length, seq_length, rsumn_sum_f.
  apply sum_eq. intros k Hk. rewrite nth_pre. destruct (Nat.ltb_spec k (S K)); [auto|lia].
Qed.

(* ---------- the reciprocal of a series with constant term 1 ---------- *)
Fixpoint inverses (w : nat -> R) (k : nat) : list R :=
  match k with O => [1] | S k' => let l := inverses w k' in - rsumn (S k') (fun i => w (S i) * nth i l 0) :: l end.
Definition inverse (w : nat -> R) (k : nat) : R := nth 0 (inverses w k) 0.
Lemma inverses_nth : forall w k i, (i <= k)%nat -> nth i (inverses w k) 0 = inverse w (k - i).
Proof.
  intros w k. induction k as [|k IH]; intros i Hi; [replace i with 0%nat by lia; auto|]. destruct i as [|i]; [rewrite Nat.sub_0_r; auto|]. cbn [inverses nth]. rewrite IH by lia. f_equal.
Qed.
Lemma inverse_S : forall w k, inverse w (S k) = - rsumn (S k) (fun i => w (S i) * inverse w (k - i)).
Proof. intros w k. unfold inverse at 1. cbn [inverses nth]. f_equal. apply rs_ext. intros i Hi. rewrite inverses_nth by lia. auto. Qed.
Definition delta (k : nat) : R := match k with O => 1 | _ => 0 end.
Lemma inverse_conv : forall w k, w 0%nat = 1 -> conv w (inverse w) k = delta k.
Proof.
  intros w k H. unfold conv. destruct k as [|k]; [simpl; rewrite H; unfold inverse; simpl; ring|]. rewrite decomp_sum by lia. rewrite H. cbn [Nat.sub Nat.pred delta]. rewrite inverse_S, rsumn_sum_f. ring.
Qed.
Lemma inverse_bounded : forall t w D, 0 <= t -> w 0%nat = 1 -> 0 <= D < 1 -> (forall K, wsum t w K <= 1 + D) -> bounded t (inverse w) (/ (1 - D)).
Proof.
  intros t w D Ht H HD HW K. set (w0 := fun k => match k with O => 0 | _ => w k end).
  assert (wsum t w0 K <= D) as W0.
  { specialize (HW K). rewrite wsum_sum in *. destruct K as [|K]; [simpl in *; rewrite Rabs_R0; lra|]. rewrite decomp_sum in * by lia. cbn [Nat.pred] in *. rewrite H in HW. simpl (0 ^ 0)%nat in HW. rewrite Rabs_R1 in HW. simpl (t ^ 0) in HW.
    cbn [w0] in *. rewrite Rabs_R0. lra. }
  assert (wsum t (inverse w) K <= 1 + csum t w0 (inverse w) K) as W1.
  { unfold wsum, csum. apply Rle_trans with (seval t (padd [1] (pre (conv (absq w0) (absq (inverse w))) K))); [|rewrite seval_add; simpl; lra].
    apply seval_le; auto. intro k. rewrite nth_padd, !nth_pre. destruct (Nat.ltb_spec k (S K)) as [L|L].
    - destruct k as [|k].
      + pose proof (conv_abs_pos w0 (inverse w) 0). change (nth 0 [1] 0) with 1. replace (absq (inverse w) 0%nat) with 1 by (unfold absq; change (inverse w 0) with 1; rewrite Rabs_R1; auto). lra.
      + replace (nth (S k) [1] 0) with 0 by (destruct k; auto). rewrite Rplus_0_l. unfold absq at 1. rewrite inverse_S, Rabs_Ropp. unfold conv. rewrite decomp_sum by lia. cbn [Nat.pred].
        replace (absq w0 0%nat) with 0 by (unfold absq, w0; rewrite Rabs_R0; auto). rewrite Rmult_0_l, Rplus_0_l, rsumn_sum_f. apply sum_f_abs_le. intros i Hi. rewrite Rabs_mult. unfold absq. cbn [Nat.sub w0]. lra.
    - rewrite Rplus_0_r. destruct k as [|[|k]]; simpl; lra || lia. }
  pose proof (csum_low t w0 (inverse w) K Ht) as W2. pose proof (wsum_pos t (inverse w) K Ht) as W3.
  assert (wsum t w0 K * wsum t (inverse w) K <= D * wsum t (inverse w) K) by (apply Rmult_le_compat_r; auto).
  apply (Rmult_le_reg_r (1 - D)); [lra|]. rewrite Rinv_l by lra. lra.
Qed.
