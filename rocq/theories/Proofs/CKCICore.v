(** The answer of the conditional kernel test, and what it depends on. *)

From Coq Require Import List Arith Lia Bool Permutation Reals Lra.
From Verif Require Import Model.Py Model.LocalScore Model.KCI Model.HSIC Model.Expm Model.CVScore Model.CKCI
  Spec.Scores Spec.KernelSpec Spec.KCISpec Spec.CVSpec Spec.CKCISpec
  Proofs.BicFacts Proofs.KCIFacts Proofs.GaussianFacts Proofs.FrechetFacts Proofs.HSICFacts Proofs.MedianFacts Proofs.ExpmFacts Proofs.CholeskyFacts Proofs.CVFacts Proofs.CKCIFacts.
Import ListNotations.
Open Scope R_scope.

Lemma agree_sym' : forall n A B, agree n n A B -> agree n n B A.
Proof. intros n A B H i j Hi Hj. symmetry. auto. Qed.
Lemma agree_trans' : forall n A B C, agree n n A B -> agree n n B C -> agree n n A C.
Proof. intros n A B C H H' i j Hi Hj. rewrite H, H'; auto. Qed.

(* ---------- the answer ---------- *)
Lemma sum_prod_sum : forall n A B, sum_prod n A B = sumRn n (fun i => sumRn n (fun j => A i j * B i j)).
Proof. intros. unfold sum_prod. rewrite <- rsumn_sumR. apply rs_ext. intros. apply rsumn_sumR. Qed.
Lemma variance_zero : forall n A B, cond_variance n A B = 0 -> cond_mean n A B = 0.
Proof.
  intros n A B H. unfold cond_variance, cond_mean in *. rewrite <- rsumn_sumR in *.
  assert (H0 : rsumn n (fun i => rsumn n (fun j => Rsqr (A i j * B i j))) = 0).
  { rewrite (rs_ext n _ (fun i => sumRn n (fun j => Rsqr (A i j * B i j)))) by (intros; apply rsumn_sumR). lra. }
  apply rs_zero. intros i Hi.
  assert (forall i, (i < n)%nat -> 0 <= rsumn n (fun j => Rsqr (A i j * B i j))) as N by (intros; apply rs_nonneg; intros; apply Rle_0_sqr).
  pose proof (rs_nonneg_zero n _ N H0 i Hi) as Z. cbv beta in Z.
  pose proof (rs_nonneg_zero n (fun j => Rsqr (A i j * B i j)) (fun j _ => Rle_0_sqr _) Z i Hi) as Q. apply Rsqr_0_uniq. auto.
Qed.

Lemma kernel_answer : forall gcdf pinv eigs b n t Kx Ky Kzx Kzy ex ey st A B M size, (0 < n)%nat -> 0 <= t -> inverts pinv -> eigensolver eigs ->
  sym n Kx -> psd n Kx -> sym n Ky -> psd n Ky -> sym n Kzx -> psd n Kzx -> sym n Kzy -> psd n Kzy -> 0 < ex -> 0 < ey ->
  (b = false -> Kzx = Kzy) ->
  kci_v_statistic pinv b n Kx Ky Kzx Kzy ex ey = (st, A, B) -> get_uuprod eigs n t A B = (M, size) ->
  kci_answer gcdf n t Kx Ky Kzx Kzy ex ey (conditional_pvalue gcdf M size st) st /\ 0 <= st.
Proof.
  intros gcdf pinv eigs b n t Kx Ky Kzx Kzy ex ey st A B M size Hn Ht Hp He SX PX SY PY SZX PZX SZY PZY Hex Hey Hb E U.
  set (Rx := rscale ex (pinv n (radd Kzx (rscale ex rident)))) in *. set (Ry := rscale ey (pinv n (radd Kzy (rscale ey rident)))) in *.
  destruct (residual_spec pinv n Hp Kzx ex Hex SZX PZX) as [Mx Sx]. fold Rx in Mx, Sx.
  destruct (residual_spec pinv n Hp Kzy ey Hey SZY PZY) as [My Sy]. fold Ry in My, Sy.
  assert (EA : A = rdot n Rx (rdot n Kx Rx) /\ B = rdot n Ry (rdot n Ky Ry) /\ st = sum_prod n A B).
  { unfold kci_v_statistic, center_regression in E. fold Rx Ry in E. cbv zeta in E. cbn [fst] in E.
    assert (T : forall c, (if c || b then rdot n Ry (rdot n Ky Ry) else rdot n Rx (rdot n Ky Rx)) = B ->
      (c || b = false -> ex = ey) -> B = rdot n Ry (rdot n Ky Ry)).
    { intros c Ec I. destruct (c || b) eqn:O; [auto|]. specialize (I eq_refl). apply orb_false_iff in O. destruct O as [_ O].
      rewrite <- Ec. unfold Rx, Ry. rewrite (Hb O), I. auto. }
    injection E as E1 E2 E3. split; auto. split; [|rewrite <- E1, E3, <- E2; auto].
    apply (T _ E3). destruct (Req_EM_T ex ey); auto. simpl. discriminate. }
  clear E. destruct EA as [-> [-> ->]].
  assert (GA : agree n n (rdot n Rx (rdot n Kx Rx)) (sandwich n Rx Kx)) by apply rdot_sandwich.
  assert (GB : agree n n (rdot n Ry (rdot n Ky Ry)) (sandwich n Ry Ky)) by apply rdot_sandwich.
  set (A := rdot n Rx (rdot n Kx Rx)) in *. set (B := rdot n Ry (rdot n Ky Ry)) in *.
  assert (SA : sym n A). { intros i j Hi Hj. rewrite !GA by auto. apply sandwich_sym; auto. }
  assert (SB : sym n B). { intros i j Hi Hj. rewrite !GB by auto. apply sandwich_sym; auto. }
  assert (PA : psd n A). { apply (psd_ext n (sandwich n Rx Kx)); [apply agree_sym'; auto|apply sandwich_psd; auto]. }
  assert (PB : psd n B). { apply (psd_ext n (sandwich n Ry Ky)); [apply agree_sym'; auto|apply sandwich_psd; auto]. }
  split; [|apply sum_prod_psd; auto].
  destruct (uuprod_moments eigs n t A B M size Hn Ht He SA PA SB PB U) as [A' [B' [DA [DB [E1 E2]]]]].
  exists Rx, Ry, A', B'. split; auto. split; auto. split; [|split; [|split; [|split]]].
  - rewrite <- sum_prod_sum. apply sum_prod_ext; auto.
  - eapply dominant_ext; [exact GA| |exact DA]. intros i j _ _. auto.
  - eapply dominant_ext; [exact GB| |exact DB]. intros i j _ _. auto.
  - intro Z. unfold conditional_pvalue. rewrite E1, Z. destruct (Req_EM_T 0 0); [auto|lra].
  - intro Z. unfold conditional_pvalue. rewrite E1, E2. destruct (Req_EM_T (cond_mean n A' B') 0) as [|_]; [contradiction|].
    destruct (Req_EM_T (cond_variance n A' B') 0) as [V|_]; [exfalso; apply Z, variance_zero, V|]. reflexivity.
Qed.

(* ---------- the order of the samples ---------- *)
Section Order.
  Variable n : nat.
  Variable p : nat -> nat.
  Hypothesis Hp : Permutation (map p (seq 0 n)) (seq 0 n).

  Definition back (i : nat) : nat := hd 0%nat (filter (fun j => Nat.eqb (p j) i) (seq 0 n)).
  Lemma back_p : forall i, (i < n)%nat -> back (p i) = i.
  Proof using Hp.
    intros i Hi. unfold back. assert (In i (filter (fun j => Nat.eqb (p j) (p i)) (seq 0 n))) as I.
    { apply filter_In. split; [apply in_seq; lia|apply Nat.eqb_refl]. }
    destruct (filter (fun j => Nat.eqb (p j) (p i)) (seq 0 n)) as [|a l] eqn:E; [destruct I|]. simpl.
    assert (In a (a :: l)) as J by (left; auto). rewrite <- E in J. apply filter_In in J. destruct J as [J1 J2]. apply in_seq in J1. apply Nat.eqb_eq in J2.
    apply (p_inj n p Hp); auto; lia.
  Qed.

  Lemma residual_both : forall K e Rm, residual_maker n K e Rm -> residual_maker n (both p K) e (both p Rm).
  Proof using Hp.
    intros K e Rm H v. destruct (H (fun i => v (back i))) as [a [A1 A2]]. exists (fun i => a (p i)). split; intros i Hi; unfold both.
    - specialize (A1 (p i) (p_lt n p Hp i Hi)). rewrite back_p in A1 by auto. rewrite <- A1, <- !rsumn_sumR. f_equal.
      apply (rsumn_perm n p Hp (fun j => K (p i) j * a j)).
    - specialize (A2 (p i) (p_lt n p Hp i Hi)). rewrite back_p in A2 by auto. rewrite <- !rsumn_sumR in *.
      rewrite (rsumn_perm n p Hp (fun j => K (p i) j * a j)). rewrite <- A2, <- (rsumn_perm n p Hp (fun j => Rm (p i) j * v (back j))).
      apply rs_ext. intros j Hj. rewrite back_p by auto. auto.
  Qed.
  Lemma sandwich_both : forall Rm K i j, sandwich n (both p Rm) (both p K) i j = sandwich n Rm K (p i) (p j).
  Proof using Hp.
    intros Rm K i j. unfold sandwich, both. rewrite <- !rsumn_sumR.
    rewrite <- (rsumn_perm n p Hp (fun a => sumRn n (fun b => Rm (p i) a * K a b * Rm b (p j)))). apply rs_ext. intros a Ha. rewrite <- !rsumn_sumR.
    apply (rsumn_perm n p Hp (fun b => Rm (p i) (p a) * K (p a) b * Rm b (p j))).
  Qed.
  Lemma dominant_both : forall t K A, dominant_part n t K A -> dominant_part n t (both p K) (both p A).
  Proof using Hp.
    intros t K A (w & V & top & [D1 [D2 D3]] & C & Mx & E). exists w, (fun i c => V (p i) c), top. split; [|split; [|split]]; auto.
    - split; [|split].
      + intros i j Hi Hj. unfold both. rewrite D1 by (apply (p_lt n p Hp); auto). auto.
      + intros c c' Hc Hc'. rewrite <- rsumn_sumR. rewrite (rsumn_perm n p Hp (fun i => V i c * V i c')). rewrite rsumn_sumR. auto.
      + intros i j Hi Hj. rewrite D3 by (apply (p_lt n p Hp); auto).
        destruct (Nat.eqb_spec i j) as [->|N]; [rewrite Nat.eqb_refl; auto|]. destruct (Nat.eqb_spec (p i) (p j)) as [Q|]; auto.
        exfalso. apply N. apply (p_inj n p Hp); auto.
    - intros i j Hi Hj. unfold both. rewrite E by (apply (p_lt n p Hp); auto). auto.
  Qed.
  Lemma mean_both : forall A B, cond_mean n (both p A) (both p B) = cond_mean n A B.
  Proof using Hp. intros. unfold cond_mean, both. rewrite <- !rsumn_sumR. apply (rsumn_perm n p Hp (fun i => A i i * B i i)). Qed.
  Lemma variance_both : forall A B, cond_variance n (both p A) (both p B) = cond_variance n A B.
  Proof using Hp.
    intros. unfold cond_variance, both. f_equal. rewrite <- !rsumn_sumR.
    rewrite <- (rsumn_perm n p Hp (fun i => sumRn n (fun j => Rsqr (A i j * B i j)))). apply rs_ext. intros i Hi. rewrite <- !rsumn_sumR.
    apply (rsumn_perm n p Hp (fun j => Rsqr (A (p i) j * B (p i) j))).
  Qed.

  Lemma residual_ext : forall K L e Rm, agree n n K L -> residual_maker n K e Rm -> residual_maker n L e Rm.
  Proof using.
    intros K L e Rm HK H v. destruct (H v) as [a [A1 A2]]. exists a. split; intros i Hi; rewrite <- !rsumn_sumR in *.
    - specialize (A1 i Hi). rewrite <- rsumn_sumR in A1. rewrite <- A1. f_equal. apply rs_ext. intros j Hj. rewrite HK by auto. auto.
    - specialize (A2 i Hi). rewrite <- !rsumn_sumR in A2. rewrite A2. f_equal. apply rs_ext. intros j Hj. rewrite HK by auto. auto.
  Qed.
  Lemma mean_ext : forall A A' B B', agree n n A A' -> agree n n B B' -> cond_mean n A B = cond_mean n A' B'.
  Proof using. intros A A' B B' HA HB. unfold cond_mean. rewrite <- !rsumn_sumR. apply rs_ext. intros. rewrite HA, HB by auto. auto. Qed.
  Lemma variance_ext : forall A A' B B', agree n n A A' -> agree n n B B' -> cond_variance n A B = cond_variance n A' B'.
  Proof using.
    intros A A' B B' HA HB. unfold cond_variance. f_equal. rewrite <- !rsumn_sumR. apply rs_ext. intros i Hi. rewrite <- !rsumn_sumR. apply rs_ext. intros.
    rewrite HA, HB by auto. auto.
  Qed.

  (** The answer is determined, and does not change when all matrices are reordered. *)
  Lemma answer_unique : forall gcdf t Kx Ky Kzx Kzy Kx' Ky' Kzx' Kzy' ex ey q s q' s', 0 < ex -> 0 < ey ->
    sym n Kzx' -> psd n Kzx' -> sym n Kzy' -> psd n Kzy' ->
    agree n n Kx' (both p Kx) -> agree n n Ky' (both p Ky) -> agree n n Kzx' (both p Kzx) -> agree n n Kzy' (both p Kzy) ->
    kci_answer gcdf n t Kx Ky Kzx Kzy ex ey q s -> kci_answer gcdf n t Kx' Ky' Kzx' Kzy' ex ey q' s' -> q' = q /\ s' = s.
  Proof using Hp.
    intros gcdf t Kx Ky Kzx Kzy Kx' Ky' Kzx' Kzy' ex ey q s q' s' Hex Hey S1 P1 S2 P2 AX AY AZX AZY
      (Rx & Ry & A & B & RX & RY & -> & DA & DB & Q1 & Q2) (Rx' & Ry' & A' & B' & RX' & RY' & -> & DA' & DB' & Q1' & Q2').
    assert (RR : forall K K' e R1 R2, 0 < e -> sym n K' -> psd n K' -> agree n n K' (both p K) -> residual_maker n K e R1 -> residual_maker n K' e R2 -> meq n R2 (both p R1)).
    { intros K K' e R1 R2 He S P HA H1 H2. apply (residual_unique n K' e); auto. apply (residual_ext (both p K)); [apply agree_sym'; auto|]. apply residual_both; auto. }
    pose proof (RR _ _ _ _ _ Hex S1 P1 AZX RX RX') as EX. pose proof (RR _ _ _ _ _ Hey S2 P2 AZY RY RY') as EY.
    assert (SS : forall R1 R2 K K', meq n R2 (both p R1) -> agree n n K' (both p K) -> agree n n (sandwich n R2 K') (both p (sandwich n R1 K))).
    { intros R1 R2 K K' HR HK i j Hi Hj. rewrite (sandwich_ext n R2 (both p R1) K' (both p K) HR HK i j Hi Hj). apply sandwich_both. }
    pose proof (SS _ _ _ _ EX AX) as SX. pose proof (SS _ _ _ _ EY AY) as SY.
    assert (ES : sumRn n (fun i => sumRn n (fun j => sandwich n Rx' Kx' i j * sandwich n Ry' Ky' i j)) = sumRn n (fun i => sumRn n (fun j => sandwich n Rx Kx i j * sandwich n Ry Ky i j))).
    { rewrite <- !sum_prod_sum. rewrite (sum_prod_ext n _ _ _ _ SX SY). apply (sum_prod_rows n p Hp). }
    assert (GA : agree n n A' (both p A)).
    { apply (dominant_unique n t (sandwich n Rx' Kx')); auto. eapply dominant_ext; [apply agree_sym'; exact SX| |apply dominant_both; exact DA]. intros i j _ _; auto. }
    assert (GB : agree n n B' (both p B)).
    { apply (dominant_unique n t (sandwich n Ry' Ky')); auto. eapply dominant_ext; [apply agree_sym'; exact SY| |apply dominant_both; exact DB]. intros i j _ _; auto. }
    rewrite (mean_ext _ _ _ _ GA GB), (variance_ext _ _ _ _ GA GB), mean_both, variance_both, ES in Q2'. rewrite (mean_ext _ _ _ _ GA GB), mean_both in Q1'.
    split; [|exact ES]. destruct (Req_dec (cond_mean n A B) 0) as [Z|Z]; [rewrite Q1, Q1'|rewrite Q2, Q2']; auto.
  Qed.
End Order.

(* ---------- kernels depend on inner products ---------- *)
Definition gram (d : nat) (X : rmat) : rmat := fun i j => rsumn d (fun c => X i c * X j c).
Lemma sq_dists_gram : forall d X i j, sq_dists d X i j = gram d X i i + gram d X j j - 2 * gram d X i j.
Proof. intros d X i j. unfold sq_dists, gram. rewrite <- rs_plus, <- rs_scal, <- rs_minus. apply rs_ext. intros. ring. Qed.

Lemma all_distances_map : forall n d X, all_distances n d X = map (fun q => sqrt (sq_dists d X (fst q) (snd q))) (list_prod (seq 0 n) (seq 0 n)).
Proof.
  intros n d X. unfold all_distances.
  assert (forall l' l, flat_map (fun i => map (fun j => sqrt (sq_dists d X i j)) l') l = map (fun q => sqrt (sq_dists d X (fst q) (snd q))) (list_prod l l')) as K; [|apply K].
  induction l as [|i l IH]; simpl; auto. rewrite map_app, map_map, <- IH. auto.
Qed.
Lemma positives_ext_map : forall (f g : nat * nat -> R) l, (forall q, In q l -> f q = g q) -> positives (map f l) = positives (map g l).
Proof. intros f g l H. f_equal. apply map_ext_in. auto. Qed.

Lemma all_distances_order : forall n p d X X', Permutation (map p (seq 0 n)) (seq 0 n) ->
  (forall i j, (i < n)%nat -> (j < n)%nat -> sq_dists d X' i j = sq_dists d X (p i) (p j)) ->
  Permutation (all_distances n d X') (all_distances n d X).
Proof.
  intros n p d X X' Hp H. unfold all_distances.
  transitivity (flat_map (fun i => map (fun j => sqrt (sq_dists d X i j)) (map p (seq 0 n))) (map p (seq 0 n))).
  - apply Permutation_refl'. assert (forall l, (forall i, In i l -> (i < n)%nat) -> flat_map (fun i => map (fun j => sqrt (sq_dists d X' i j)) (seq 0 n)) l
      = flat_map (fun i => map (fun j => sqrt (sq_dists d X i j)) (map p (seq 0 n))) (map p l)) as K; [|apply K; intros i Hi; apply in_seq in Hi; lia].
    induction l as [|i l IH]; intro I; simpl; auto. rewrite IH by (intros; apply I; right; auto). f_equal. rewrite map_map. apply map_ext_in. intros j Hj.
    apply in_seq in Hj. rewrite H; [auto|apply I; left; auto|lia].
  - transitivity (flat_map (fun i => map (fun j => sqrt (sq_dists d X i j)) (seq 0 n)) (map p (seq 0 n))).
    + assert (forall l, Permutation (flat_map (fun i => map (fun j => sqrt (sq_dists d X i j)) (map p (seq 0 n))) l) (flat_map (fun i => map (fun j => sqrt (sq_dists d X i j)) (seq 0 n)) l)) as K; [|apply K].
      induction l as [|a l IH]; simpl; auto. apply Permutation_app; auto. apply Permutation_map. auto.
    + apply Permutation_flat_map. auto.
Qed.

Lemma positives_perm' : forall l l', Permutation l l' -> Permutation (positives l) (positives l').
Proof. intros l l' H. apply positives_perm. auto. Qed.
Lemma id_perm : forall n p, (forall i, (i < n)%nat -> p i = i) -> Permutation (map p (seq 0 n)) (seq 0 n).
Proof. intros n p H. rewrite <- (map_id (seq 0 n)) at 2. apply Permutation_refl'. apply map_ext_in. intros a Ha. apply in_seq in Ha. apply H. lia. Qed.

(** The same inner products in another order: the same kernel in another order.  [p] may be any
    order, except for the median of a random choice of the samples. *)
Lemma kernel_order : forall perm k n d d' X X' p, Permutation (map p (seq 0 n)) (seq 0 n) ->
  (k = Gaussian MedianRule -> (1000 < n)%nat -> (forall i, (i < n)%nat -> p i = i) /\ forall i, (i < n)%nat -> (perm i < n)%nat) ->
  (k = Gaussian EmpiricalKCI \/ k = Gaussian EmpiricalHSIC -> d' = d) ->
  (forall i j, (i < n)%nat -> (j < n)%nat -> gram d' X' i j = gram d X (p i) (p j)) ->
  match kernel_matrix perm k n d X, kernel_matrix perm k n d' X' with
  | Some K, Some K' => agree n n K' (both p K)
  | None, None => True
  | _, _ => False
  end.
Proof.
  intros perm k n d d' X X' p Hp Hm Hd G.
  assert (SD : forall i j, (i < n)%nat -> (j < n)%nat -> sq_dists d' X' i j = sq_dists d X (p i) (p j)) by (intros; rewrite !sq_dists_gram, !G by auto; auto).
  destruct k as [|g c|rule]; cbn [kernel_matrix].
  - intros i j Hi Hj. apply (G i j); auto.
  - intros i j Hi Hj. unfold both. pose proof (G i j Hi Hj) as Q. unfold gram in Q. rewrite Q. auto.
  - assert (W : kernel_width perm rule n d' X' = kernel_width perm rule n d X).
    { destruct rule as [w| | |]; cbn [kernel_width]; [reflexivity| | |].
      - unfold width_by_median. destruct (Nat.ltb_spec 1000 n) as [L|L].
        + destruct (Hm eq_refl L) as [I J].
          assert (Q : forall m, (m <= n)%nat -> all_distances m d' (fun i => X' (perm i)) = all_distances m d (fun i => X (perm i))).
          { intros m Lm. rewrite !all_distances_map. apply map_ext_in. intros [i j] Q. apply in_prod_iff in Q. destruct Q as [Q1 Q2]. apply in_seq in Q1, Q2. cbn [fst snd]. f_equal.
            change (sq_dists d (fun i => X (perm i)) i j) with (sq_dists d X (perm i) (perm j)). change (sq_dists d' (fun i => X' (perm i)) i j) with (sq_dists d' X' (perm i) (perm j)).
            rewrite SD by (apply J; lia). rewrite !I by (apply J; lia). reflexivity. }
          cbv beta iota. rewrite Q; [reflexivity|]. apply Nat.lt_le_incl. exact L.
        + rewrite (median_perm (positives (all_distances n d' X')) (positives (all_distances n d X))); auto.
          apply positives_perm. unfold all_distances.
          transitivity (flat_map (fun i => map (fun j => sqrt (sq_dists d X i j)) (map p (seq 0 n))) (map p (seq 0 n))).
          * apply Permutation_refl'. assert (forall l, (forall i, In i l -> (i < n)%nat) -> flat_map (fun i => map (fun j => sqrt (sq_dists d' X' i j)) (seq 0 n)) l
              = flat_map (fun i => map (fun j => sqrt (sq_dists d X i j)) (map p (seq 0 n))) (map p l)) as K; [|apply K; intros i Hi; apply in_seq in Hi; lia].
            induction l as [|i l IH]; intro I; simpl; auto. rewrite IH by (intros; apply I; right; auto). f_equal. rewrite map_map. apply map_ext_in. intros j Hj.
            apply in_seq in Hj. rewrite SD; [auto|apply I; left; auto|lia].
          * transitivity (flat_map (fun i => map (fun j => sqrt (sq_dists d X i j)) (seq 0 n)) (map p (seq 0 n))).
            -- assert (forall l, Permutation (flat_map (fun i => map (fun j => sqrt (sq_dists d X i j)) (map p (seq 0 n))) l) (flat_map (fun i => map (fun j => sqrt (sq_dists d X i j)) (seq 0 n)) l)) as K; [|apply K].
               induction l as [|a l IH]; simpl; auto. apply Permutation_app; auto. apply Permutation_map. auto.
            -- apply Permutation_flat_map. auto.
      - rewrite Hd by auto. auto.
      - rewrite Hd by auto. auto. }
    rewrite W. destruct (kernel_width perm rule n d X) as [w|]; auto. intros i j Hi Hj. unfold both. rewrite SD by auto. auto.
Qed.

(** Centring in another order. *)
Lemma center_real_order : forall n p K K', Permutation (map p (seq 0 n)) (seq 0 n) -> agree n n K' (both p K) -> agree n n (center_real n K') (both p (center_real n K)).
Proof.
  intros n p K K' Hp H i j Hi Hj. unfold both, center_real.
  assert (C : forall j, (j < n)%nat -> rsumn n (fun k => K' k j) = rsumn n (fun k => K k (p j))).
  { intros k Hk. rewrite <- (rsumn_perm n p Hp (fun i => K i (p k))). apply rs_ext. intros l Hl. rewrite H by auto. auto. }
  rewrite !C, H by auto. f_equal. f_equal. rewrite <- (rsumn_perm n p Hp (fun j => rsumn n (fun k => K k j))). apply rs_ext. auto.
Qed.

(* ---------- what the kernels and the data are ---------- *)
Lemma positive_distances_model : forall m d X, positive_distances m d X = positives (all_distances m d X).
Proof.
  intros m d X. unfold positive_distances, positives. rewrite all_distances_map. f_equal. apply map_ext. intros q. f_equal. unfold squared_distance, sq_dists. rewrite rsumn_sumR. auto.
Qed.
Lemma width_spec : forall perm rule n d X w, kernel_width perm rule n d X = Some w -> width_of rule n d X w.
Proof.
  intros perm rule n d X w E. destruct rule as [v| | |]; cbn [kernel_width] in E.
  - injection E as <-. reflexivity.
  - unfold width_by_median in E. cbn. destruct (Nat.ltb_spec 1000 n) as [L|L].
    + destruct (median (positives (all_distances 1000 d (fun i => X (perm i))))) as [m|] eqn:Em; [|discriminate]. injection E as <-.
      exists perm, m. split; [lia|]. rewrite Nat.min_r by lia. rewrite positive_distances_model. split; [apply median_is; auto|].
      unfold Rdiv. rewrite Rmult_1_l. f_equal. transitivity (sqrt 2 * sqrt 2 * (m * m)); [ring|]. rewrite sqrt_sqrt by lra. ring.
    + destruct (median (positives (all_distances n d X))) as [m|] eqn:Em; [|discriminate]. injection E as <-.
      exists (fun i => i), m. split; [auto|]. rewrite Nat.min_l by lia. rewrite positive_distances_model. split; [apply median_is; auto|].
      unfold Rdiv. rewrite Rmult_1_l. f_equal. transitivity (sqrt 2 * sqrt 2 * (m * m)); [ring|]. rewrite sqrt_sqrt by lra. ring.
  - injection E as <-. unfold width_by_empirical_kci. cbn [width_of].
    assert (X1 : forall s, / (s * s * INR d) = 1 / (s * s) / INR d) by (intros; unfold Rdiv; rewrite Rinv_mult; ring).
    destruct (Nat.ltb_spec n 200) as [L|L]; [|destruct (Nat.ltb_spec n 1200) as [L'|L']].
    + exists (12 / 10). split; [left; split; [lia|reflexivity]|]. rewrite X1. replace 1.2 with (12 / 10) by lra. reflexivity.
    + exists (7 / 10). split; [right; left; split; [lia|reflexivity]|]. rewrite X1. replace 0.7 with (7 / 10) by lra. reflexivity.
    + exists (4 / 10). split; [right; right; split; [lia|reflexivity]|]. rewrite X1. replace 0.4 with (4 / 10) by lra. reflexivity.
  - injection E as <-. unfold width_by_empirical_hsic. cbn [width_of].
    assert (X1 : forall s, INR d / (s * s) = 1 / (s * s) * INR d) by (intros; unfold Rdiv; ring).
    destruct (Nat.ltb_spec n 200) as [L|L]; [|destruct (Nat.ltb_spec n 1200) as [L'|L']].
    + exists (8 / 10). split; [left; split; [lia|reflexivity]|]. rewrite X1. replace 0.8 with (8 / 10) by lra. reflexivity.
    + exists (5 / 10). split; [right; left; split; [lia|reflexivity]|]. rewrite X1. replace 0.5 with (5 / 10) by lra. reflexivity.
    + exists (3 / 10). split; [right; right; split; [lia|reflexivity]|]. rewrite X1. replace 0.3 with (3 / 10) by lra. reflexivity.
Qed.
Lemma kernel_spec : forall perm k n d X K, kernel_matrix perm k n d X = Some K -> is_kernel k n d X K.
Proof.
  intros perm k n d X K E. destruct k as [|g c|rule]; cbn [kernel_matrix] in E; cbn.
  - injection E as <-. intros. apply rsumn_sumR.
  - injection E as <-. intros. rewrite rsumn_sumR. auto.
  - destruct (kernel_width perm rule n d X) as [w|] eqn:W; [|discriminate]. injection E as <-. exists w. split; [eapply width_spec; eauto|].
    intros i j Hi Hj. f_equal. unfold squared_distance. rewrite <- rsumn_sumR. unfold sq_dists. lra.
Qed.

Lemma std_zero : forall n X c, (0 < n)%nat -> col_std n X c = 0 <-> (forall i j, (i < n)%nat -> (j < n)%nat -> X i c = X j c).
Proof.
  intros n X c Hn.
  assert (NN : 0 <= rsumn n (fun i => (X i c - col_mean n X c) * (X i c - col_mean n X c))) by (apply rs_nonneg; intros; apply Rle_0_sqr). split.
  - intros E i j Hi Hj. destruct (Nat.eq_dec n 1) as [->|N1]; [replace i with j by lia; auto|].
    assert (2 <= INR n) as N2 by (change 2 with (INR 2); apply le_INR; lia).
    unfold col_std in E. apply sqrt_eq_0 in E.
    2:{ unfold Rdiv. apply Rmult_le_pos; auto. left. apply Rinv_0_lt_compat. lra. }
    apply Rmult_integral in E. destruct E as [E|E]; [|exfalso; apply (Rinv_neq_0_compat (INR n - 1)); [lra|auto]].
    assert (forall k, (k < n)%nat -> X k c = col_mean n X c) as K.
    { intros k Hk. pose proof (rs_nonneg_zero n _ (fun i _ => Rle_0_sqr (X i c - col_mean n X c)) E k Hk) as Z. apply Rsqr_0_uniq in Z. lra. }
    rewrite !K by auto. auto.
  - intro H. unfold col_std. assert (M : forall i, (i < n)%nat -> X i c = col_mean n X c).
    { intros i Hi. unfold col_mean. rewrite (rs_ext n _ (fun _ => X i c)) by (intros j Hj; apply H; auto). rewrite rs_const. field. apply not_0_INR. lia. }
    rewrite rs_zero by (intros i Hi; rewrite (M i Hi); ring). unfold Rdiv. rewrite Rmult_0_l. apply sqrt_0.
Qed.
Lemma zscore_spec : forall n d X, (0 < n)%nat -> standardised n d X (zscore n X).
Proof.
  intros n d X Hn c Hc. split.
  - intros H i Hi. apply zscore_flat. apply std_zero; auto.
  - intros (a & b & Ha & Hb & NE) i Hi. unfold zscore. destruct (Req_EM_T (col_std n X c) 0) as [E|_].
    + exfalso. apply NE. apply (proj1 (std_zero n X c Hn) E); auto.
    + unfold col_std, mean_of. change (col_mean n X c) with (rsumn n (fun i => X i c) / INR n). rewrite !rsumn_sumR. auto.
Qed.
Lemma concat_spec : forall n dx dz X Z, joined n dx dz X Z (concat_half dx X Z).
Proof.
  intros n dx dz X Z i Hi. unfold concat_half. split; intros c Hc.
  - destruct (Nat.ltb_spec c dx); [auto|lia].
  - destruct (Nat.ltb_spec (dx + c) dx); [lia|]. replace (dx + c - dx)%nat with c by lia. unfold Rdiv. ring.
Qed.
Lemma gram_concat : forall dx dz X Z i j, gram (dx + dz) (concat_half dx X Z) i j = gram dx X i j + / 4 * gram dz Z i j.
Proof.
  intros. unfold gram. rewrite rs_split. f_equal.
  - apply rs_ext. intros c Hc. unfold concat_half. destruct (Nat.ltb_spec c dx); [auto|lia].
  - rewrite <- rs_scal. apply rs_ext. intros c Hc. unfold concat_half. destruct (Nat.ltb_spec (dx + c) dx); [lia|]. replace (dx + c - dx)%nat with c by lia. field.
Qed.

(* ---------- the answer of the program ---------- *)
Lemma answer_ext : forall gcdf n t Kx Ky Kzx Kzy Kx' Ky' Kzx' Kzy' ex ey q s, agree n n Kx Kx' -> agree n n Ky Ky' -> agree n n Kzx Kzx' -> agree n n Kzy Kzy' ->
  kci_answer gcdf n t Kx Ky Kzx Kzy ex ey q s -> kci_answer gcdf n t Kx' Ky' Kzx' Kzy' ex ey q s.
Proof.
  intros gcdf n t Kx Ky Kzx Kzy Kx' Ky' Kzx' Kzy' ex ey q s AX AY AZX AZY (Rx & Ry & A & B & RX & RY & E & DA & DB & Q).
  assert (M : forall Rm, meq n Rm Rm) by (intros; reflexivity).
  exists Rx, Ry, A, B. split; [|split; [|split; [|split; [|split]]]]; auto.
  - apply (residual_ext n Kzx); auto.
  - apply (residual_ext n Kzy); auto.
  - rewrite E, <- !sum_prod_sum. apply sum_prod_ext; apply sandwich_ext; auto.
  - apply (dominant_ext n t (sandwich n Rx Kx) _ A); [apply sandwich_ext; auto|intros i j _ _; auto|auto].
  - apply (dominant_ext n t (sandwich n Ry Ky) _ B); [apply sandwich_ext; auto|intros i j _ _; auto|auto].
Qed.
Lemma center_real_doubly : forall n K, (forall i j, K i j = K j i) -> agree n n (center_real n K) (doubly_centered n K).
Proof.
  intros n K S i j Hi Hj. unfold center_real, doubly_centered. rewrite <- !rsumn_sumR.
  rewrite (rs_ext n (fun a => K i a) (fun a => K a i)) by auto.
  rewrite (rs_ext n (fun a => sumRn n (fun b => K a b)) (fun a => rsumn n (fun b => K b a))) by (intros; rewrite <- rsumn_sumR; apply rs_ext; auto).
  unfold Rdiv. ring.
Qed.

  Lemma kept_prefix : forall T t (w : nat -> R), (0 < T)%nat -> (forall c c', (c <= c')%nat -> (c' < T)%nat -> w c' <= w c) ->
    rmaxn T w = w 0%nat /\ exists m, (m <= T)%nat /\ kept T t w = seq 0 m /\ forall c, (c < T)%nat -> ((c < m)%nat <-> t * w 0%nat < w c).
  Proof.
    intros T t w HT D. assert (Mx : rmaxn T w = w 0%nat).
    { apply Rle_antisym; [|apply rmaxn_ge; auto]. destruct (rmaxn_in T w HT) as [c [Hc <-]]. apply D; lia. }
    split; auto. unfold kept. rewrite Mx. clear Mx.
    assert (forall U, (U <= T)%nat -> exists m, (m <= U)%nat /\ filter (fun c => if Rlt_dec (w 0%nat * t) (w c) then true else false) (seq 0 U) = seq 0 m /\ forall c, (c < U)%nat -> ((c < m)%nat <-> t * w 0%nat < w c)) as K; [|destruct (K T) as [m Q]; [lia|]; exists m; auto].
    induction U as [|U IH]; intro HU.
    - exists 0%nat. split; [lia|]. split; [reflexivity|]. intros; lia.
    - destruct IH as [m [L [F I]]]; [lia|]. rewrite seq_S, filter_app, F. simpl. destruct (Rlt_dec (w 0%nat * t) (w U)) as [G|G].
      + assert (m = U) as ->.
        { destruct (Nat.eq_dec m U); auto. exfalso. assert (~ (m < m)%nat) as N by lia. apply N. apply I; [lia|]. pose proof (D m U ltac:(lia) ltac:(lia)). lra. }
        exists (S U). split; [lia|]. split; [rewrite seq_S; auto|]. intros c Hc. split; [|lia]. intros _. destruct (Nat.eq_dec c U) as [->|]; [lra|]. apply I; lia.
      + exists m. split; [lia|]. split; [apply app_nil_r|]. intros c Hc. destruct (Nat.eq_dec c U) as [->|]; [split; [lia|intro; exfalso; lra]|]. apply I. lia.
  Qed.

Section Program.
  Variables (gcdf : R -> R -> R -> R) (pinv : nat -> rmat -> rmat) (eigs : nat -> rmat -> (nat -> R) * rmat) (perm : nat -> nat -> nat)
    (gp : R -> nat -> rmat -> rmat -> rmat * R) (s : settings) (n : nat) (data : rmat) (x y z : list nat).
  Hypothesis Hn : (0 < n)%nat.
  Hypothesis Hp : inverts pinv.
  Hypothesis He : eigensolver eigs.
  Hypothesis Ht : 0 <= threshold s.
  Hypothesis PX : positive_kernel (kernel_x s).
  Hypothesis PY : positive_kernel (kernel_y s).
  Let X := zscore n (select data x).
  Let Y := zscore n (select data y).
  Let Z := zscore n (select data z).
  Let XZ := concat_half (length x) X Z.

  Lemma centred_kernel : forall pm k d D K, positive_kernel k -> kernel_matrix pm k n d D = Some K -> sym n (center_real n K) /\ psd n (center_real n K).
  Proof using Hn.
    intros pm k d D K P E. pose proof (kernel_sym _ _ _ _ _ _ E) as S. split; [intros i j _ _; apply centered_symm; auto|].
    apply centered_psd; auto. eapply kernel_multiplier; eauto.
  Qed.

  Lemma given_answer : forall kz q st, kernel_z s = Some kz -> positive_kernel kz -> 0 < epsilon_x s -> 0 < epsilon_y s ->
    conditional gcdf pinv eigs perm gp s n data x y z = Ok (Some (q, st)) ->
    exists Kx Ky Kz, kernel_matrix (perm 0%nat) (kernel_x s) n (length x + length z) XZ = Some Kx /\ kernel_matrix (perm 1%nat) (kernel_y s) n (length y) Y = Some Ky /\
      kernel_matrix (perm 2%nat) kz n (length z) Z = Some Kz /\
      kci_answer gcdf n (threshold s) (center_real n Kx) (center_real n Ky) (center_real n Kz) (center_real n Kz) (epsilon_x s) (epsilon_y s) q st /\ 0 <= st.
  Proof using Hn Hp He Ht PX PY.
    intros kz q st Ez PZ Hex Hey E. unfold conditional, kernel_matrices in E. cbv zeta in E. rewrite Ez in E. fold X Y Z in E. fold XZ in E.
    destruct (kernel_matrix (perm 0%nat) (kernel_x s) n (length x + length z) XZ) as [Kx|] eqn:EX; [|discriminate].
    destruct (kernel_matrix (perm 1%nat) (kernel_y s) n (length y) Y) as [Ky|] eqn:EY; [|discriminate].
    destruct (kernel_matrix (perm 2%nat) kz n (length z) Z) as [Kz|] eqn:EZ; [|discriminate].
    cbn [rbind] in E.
    destruct (kci_v_statistic pinv false n (center_real n Kx) (center_real n Ky) (center_real n Kz) (center_real n Kz) (epsilon_x s) (epsilon_y s)) as [[st' A] B] eqn:K1.
    destruct (get_uuprod eigs n (threshold s) A B) as [M size] eqn:K2. injection E as <- <-.
    exists Kx, Ky, Kz. split; auto. split; auto. split; auto.
    destruct (centred_kernel _ _ _ _ _ PX EX) as [SX QX]. destruct (centred_kernel _ _ _ _ _ PY EY) as [SY QY]. destruct (centred_kernel _ _ _ _ _ PZ EZ) as [SZ QZ].
    apply (kernel_answer gcdf pinv eigs false n (threshold s) _ _ _ _ _ _ st' A B M size); auto.
  Qed.

  Lemma given_total : forall kz, kernel_z s = Some kz ->
    kernel_matrix (perm 0%nat) (kernel_x s) n (length x + length z) XZ <> None -> kernel_matrix (perm 1%nat) (kernel_y s) n (length y) Y <> None ->
    kernel_matrix (perm 2%nat) kz n (length z) Z <> None -> exists q st, conditional gcdf pinv eigs perm gp s n data x y z = Ok (Some (q, st)).
  Proof using.
    intros kz Ez NX NY NZ. unfold conditional, kernel_matrices. cbv zeta. rewrite Ez. fold X Y Z. fold XZ.
    destruct (kernel_matrix (perm 0%nat) (kernel_x s) n (length x + length z) XZ) as [Kx|] eqn:EX; [|contradiction].
    destruct (kernel_matrix (perm 1%nat) (kernel_y s) n (length y) Y) as [Ky|] eqn:EY; [|contradiction].
    destruct (kernel_matrix (perm 2%nat) kz n (length z) Z) as [Kz|] eqn:EZ; [|contradiction].
    cbn [rbind].
    destruct (kci_v_statistic pinv false n (center_real n Kx) (center_real n Ky) (center_real n Kz) (center_real n Kz) (epsilon_x s) (epsilon_y s)) as [[st' A] B] eqn:K1.
    destruct (get_uuprod eigs n (threshold s) A B) as [M size] eqn:K2. eauto.
  Qed.
  Lemma given_none : forall kz, kernel_z s = Some kz ->
    kernel_matrix (perm 0%nat) (kernel_x s) n (length x + length z) XZ = None \/ kernel_matrix (perm 1%nat) (kernel_y s) n (length y) Y = None \/
    kernel_matrix (perm 2%nat) kz n (length z) Z = None -> conditional gcdf pinv eigs perm gp s n data x y z = Ok None.
  Proof using.
    intros kz Ez N. unfold conditional, kernel_matrices. cbv zeta. rewrite Ez. fold X Y Z. fold XZ.
    destruct (kernel_matrix (perm 0%nat) (kernel_x s) n (length x + length z) XZ) as [Kx|] eqn:EX; [|reflexivity].
    destruct (kernel_matrix (perm 1%nat) (kernel_y s) n (length y) Y) as [Ky|] eqn:EY; [|reflexivity].
    destruct (kernel_matrix (perm 2%nat) kz n (length z) Z) as [Kz|] eqn:EZ; [|reflexivity].
    destruct N as [N|[N|N]]; discriminate.
  Qed.

  (* the Gaussian process *)
  Lemma process_spec : forall wz K D r, sym n K -> psd n K -> kernel_matrix_for_z eigs gp (threshold s) wz n K D = Ok r ->
    exists m vx, process_targets n (threshold s) K m vx /\ r = gp wz m vx D.
  Proof using He Hn Ht.
    intros wz K D r S P E. unfold kernel_matrix_for_z in E. set (H := rscale (/ 2) (radd K (rtranspose K))) in *.
    assert (HK : agree n n H K). { intros i j Hi Hj. unfold H, rscale, radd, rtranspose. rewrite (S j i) by auto. field. }
    destruct (He n H) as [De Ds]. { intros i j Hi Hj. rewrite !HK by auto. auto. }
    destruct (eigs n H) as [w V]. cbn [fst snd] in De, Ds.
    set (T := Nat.min 400 (n / 4)) in *. destruct (Nat.eqb_spec T 0) as [|NT]; [discriminate|].
    assert (T <= n)%nat as LT. { unfold T. pose proof (Nat.div_le_upper_bound n 4 n ltac:(lia) ltac:(lia)). lia. }
    destruct (kept_prefix T (threshold s) w ltac:(lia)) as [Mx [m [Lm [F I]]]]; [intros; apply Ds; lia|].
    rewrite F in E. destruct m as [|m]; [discriminate|]. cbn [seq] in E. change (0%nat :: seq 1 m) with (seq 0 (Datatypes.S m)) in E. injection E as <-.
    assert (W : forall c, (c < n)%nat -> 0 <= w c).
    { apply (eig_nonneg n H w V De). apply (psd_ext n K); auto. intros i j Hi Hj. symmetry. auto. }
    assert (W0 : 0 < w 0%nat).
    { pose proof (proj1 (I 0%nat ltac:(lia)) ltac:(lia)) as G. destruct (W 0%nat Hn) as [|E0]; auto. rewrite <- E0 in G. rewrite Rmult_0_r in G. lra. }
    rewrite seq_length. exists (Datatypes.S m). eexists. split; [|reflexivity].
    exists w, V. split; [|split; [exact Ds|split; [fold T; lia|split; [exact I|]]]].
    - destruct De as [D1 D23]. split; auto. intros i j Hi Hj. rewrite <- HK by auto. auto.
    - intros i c Hi Hc. cbv beta. replace (match c with 0%nat => 0%nat | Datatypes.S m0 => nth m0 (seq 1 m) 0%nat end) with c by (destruct c as [|c]; [reflexivity|]; rewrite seq_nth by lia; lia). unfold Rdiv.
      assert (0 < INR n) by (apply lt_0_INR; lia). assert (0 < / w 0%nat) by (apply Rinv_0_lt_compat; auto). assert (0 <= w c) by (apply W; lia).
      rewrite sqrt_mult, sqrt_mult, sqrt_inv by (try lra; apply Rmult_le_pos; lra). ring.
  Qed.

  Lemma process_answer : forall q st, kernel_z s = None -> regressor gp n -> conditional gcdf pinv eigs perm gp s n data x y z = Ok (Some (q, st)) ->
    exists Kx Ky wz mx vx my vy, kernel_matrix (perm 0%nat) (kernel_x s) n (length x + length z) XZ = Some Kx /\ kernel_matrix (perm 1%nat) (kernel_y s) n (length y) Y = Some Ky /\
      process_targets n (threshold s) (center_real n Kx) mx vx /\ process_targets n (threshold s) (center_real n Ky) my vy /\
      kci_answer gcdf n (threshold s) (center_real n Kx) (center_real n Ky) (fst (gp wz mx vx Z)) (fst (gp wz my vy Z)) (snd (gp wz mx vx Z)) (snd (gp wz my vy Z)) q st /\ 0 <= st /\
      (forall v, kernel_x s = Gaussian (Manual v) -> wz = sqrt (1 / (v * INR (length x + length z)))).
  Proof using Hn Hp He Ht PX PY.
    intros q st Ez Hg E. unfold conditional, kernel_matrices in E. cbv zeta in E. rewrite Ez in E. fold X Y Z in E. fold XZ in E.
    destruct (kernel_matrix (perm 0%nat) (kernel_x s) n (length x + length z) XZ) as [Kx|] eqn:EX; [|discriminate].
    destruct (kernel_matrix (perm 1%nat) (kernel_y s) n (length y) Y) as [Ky|] eqn:EY; [|discriminate].
    destruct (centred_kernel _ _ _ _ _ PX EX) as [SX QX]. destruct (centred_kernel _ _ _ _ _ PY EY) as [SY QY].
    set (wz := width_z (perm 0%nat) (kernel_x s) n (length x + length z) XZ) in *.
    destruct (kernel_matrix_for_z eigs gp (threshold s) wz n (center_real n Kx) Z) as [zx|] eqn:G1; [|discriminate].
    destruct (kernel_matrix_for_z eigs gp (threshold s) wz n (center_real n Ky) Z) as [zy|] eqn:G2; [|discriminate].
    cbn [rbind] in E.
    destruct (process_spec _ _ _ _ SX QX G1) as [mx [vx [T1 ->]]]. destruct (process_spec _ _ _ _ SY QY G2) as [my [vy [T2 ->]]].
    destruct (Hg wz mx vx Z) as [S1 [P1 E1]]. destruct (Hg wz my vy Z) as [S2 [P2 E2]].
    destruct (kci_v_statistic pinv true n (center_real n Kx) (center_real n Ky) (fst (gp wz mx vx Z)) (fst (gp wz my vy Z)) (snd (gp wz mx vx Z)) (snd (gp wz my vy Z))) as [[st' A] B] eqn:K1.
    destruct (get_uuprod eigs n (threshold s) A B) as [M size] eqn:K2. injection E as <- <-.
    exists Kx, Ky, wz, mx, vx, my, vy. split; auto. split; auto. split; auto. split; auto.
    destruct (kernel_answer gcdf pinv eigs true n (threshold s) (center_real n Kx) (center_real n Ky) (fst (gp wz mx vx Z)) (fst (gp wz my vy Z)) (snd (gp wz mx vx Z)) (snd (gp wz my vy Z)) st' A B M size) as [R1 R2]; auto.
    { discriminate. }
    split; auto. split; auto. intros v Ev. unfold wz, width_z. rewrite Ev. auto.
  Qed.
End Program.
