(** The conditional kernel test: kernels, residuals, and the null distribution. *)

From Coq Require Import List Arith Lia Bool Permutation Reals Lra.
From Verif Require Import Model.Py Model.LocalScore Model.KCI Model.HSIC Model.Expm Model.CVScore Model.CKCI
  Spec.Scores Spec.KernelSpec Spec.KCISpec Spec.CVSpec Spec.CKCISpec
  Proofs.BicFacts Proofs.KCIFacts Proofs.GaussianFacts Proofs.FrechetFacts Proofs.HSICFacts Proofs.MedianFacts Proofs.ExpmFacts Proofs.CholeskyFacts Proofs.CVFacts.
Import ListNotations.
Open Scope R_scope.

(* ---------- kernels ---------- *)
Lemma width_rule_nonneg : forall perm rule n d X w, (forall v, rule = Manual v -> 0 <= v) -> kernel_width perm rule n d X = Some w -> 0 <= w.
Proof.
  intros perm rule n d X w H E. destruct rule as [v| | |]; cbn in E.
  - injection E as <-. auto.
  - unfold width_by_median in E. destruct (Nat.ltb 1000 n); destruct (median _) as [m|]; try discriminate; injection E as <-;
      unfold Rdiv; rewrite Rmult_1_l; match goal with |- 0 <= / ?a => assert (0 <= a) as Q by apply Rle_0_sqr end;
      (destruct Q as [Q|Q]; [left; apply Rinv_0_lt_compat; auto|rewrite <- Q, Rinv_0; lra]).
  - injection E as <-. unfold width_by_empirical_kci. unfold Rdiv. apply Rmult_le_pos.
    + destruct (Nat.ltb n 200); [|destruct (Nat.ltb n 1200)]; (rewrite Rmult_1_l; left; apply Rinv_0_lt_compat; lra).
    + destruct d; [simpl; rewrite Rinv_0; lra|]. left. apply Rinv_0_lt_compat. apply lt_0_INR. lia.
  - injection E as <-. unfold width_by_empirical_hsic. unfold Rdiv. apply Rmult_le_pos; [|apply pos_INR].
    destruct (Nat.ltb n 200); [|destruct (Nat.ltb n 1200)]; (rewrite Rmult_1_l; left; apply Rinv_0_lt_compat; lra).
Qed.

Lemma sq_dists_sym : forall d X i j, sq_dists d X i j = sq_dists d X j i.
Proof. intros. unfold sq_dists. apply rs_ext. intros. ring. Qed.
Lemma kernel_sym : forall perm k n d X K, kernel_matrix perm k n d X = Some K -> forall i j, K i j = K j i.
Proof.
  intros perm k n d X K E i j. destruct k as [|g c|rule]; cbn in E.
  - injection E as <-. apply rs_ext. intros. ring.
  - injection E as <-. f_equal. f_equal. apply rs_ext. intros. ring.
  - destruct (kernel_width perm rule n d X) as [w|]; [|discriminate]. injection E as <-. rewrite (sq_dists_sym d X i j). auto.
Qed.
Lemma kernel_multiplier : forall perm k n d X K, positive_kernel k -> kernel_matrix perm k n d X = Some K -> multiplier n K.
Proof.
  intros perm k n d X K P E. destruct k as [|g c|rule]; cbn in E.
  - injection E as <-. apply multiplier_gram.
  - injection E as <-. cbn in P. apply multiplier_pow. apply (multiplier_plus n (fun _ _ => c)); [|apply multiplier_gram].
    apply (multiplier_ext n (fun i j => c * 1)); [intros i j _ _; ring|]. apply multiplier_scal; auto. apply multiplier_one.
  - destruct (kernel_width perm rule n d X) as [w|] eqn:W; [|discriminate]. injection E as <-.
    assert (0 <= w) as Hw by (apply (width_rule_nonneg perm rule n d X w); auto; intros v ->; auto).
    apply (multiplier_ext n (fun i j => exp (- (w / 2) * sq_dists d X i j))); [intros i j _ _; f_equal; unfold Rdiv; ring|].
    apply gaussian_multiplier. lra.
Qed.

Lemma center_real_centered : forall n K, (0 < n)%nat -> (forall i j, K i j = K j i) -> agree n n (center_real n K) (centered n K).
Proof.
  intros n K Hn Hs i j Hi Hj. rewrite centered_formula by auto. unfold center_real.
  rewrite (rs_ext n (fun k => K k i) (fun k => K i k)) by auto.
  rewrite (rs_swap n n (fun k l => K k l)). pose proof (N_nz n Hn) as NZ. field. auto.
Qed.
Lemma centered_psd : forall n K, (0 < n)%nat -> (forall i j, K i j = K j i) -> multiplier n K -> psd n (center_real n K).
Proof.
  intros n K Hn Hs M. apply (psd_ext n (centered n K)); [intros i j Hi Hj; symmetry; apply center_real_centered; auto|].
  apply psd_centered, multiplier_psd, M.
Qed.
Lemma centered_symm : forall n K, (forall i j, K i j = K j i) -> forall i j, center_real n K i j = center_real n K j i.
Proof. intros n K Hs i j. unfold center_real. rewrite (Hs i j). unfold Rdiv. ring. Qed.

(* ---------- residuals ---------- *)
Section Residual.
  Variables (pinv : nat -> rmat -> rmat) (n : nat).
  Hypothesis Hp : inverts pinv.
  Variables (Kz : rmat) (e : R).
  Hypothesis He : 0 < e.
  Hypothesis Hs : sym n Kz.
  Hypothesis Hk : psd n Kz.

  Let A := radd Kz (rscale e rident).
  Lemma A_below : bounded_below n e A.
  Proof using Hk He.
    intro v. rewrite psd_quad in Hk. specialize (Hk v). unfold A, radd, rscale. unfold quad in *.
    rewrite (rs_ext n (fun i => rsumn n (fun j => v i * v j * (Kz i j + e * rident i j))) (fun i => rsumn n (fun j => v i * v j * Kz i j) + e * (v i * v i))).
    - rewrite rs_plus, rs_scal. lra.
    - intros i Hi. rewrite (rs_ext n _ (fun j => v i * v j * Kz i j + (if Nat.eqb i j then 1 else 0) * (e * (v i * v j)))).
      + rewrite rs_plus. rewrite rs_delta by auto. auto.
      + intros j Hj. unfold rident. ring.
  Qed.
  Lemma A_sym : sym n A.
  Proof using Hs. intros i j Hi Hj. unfold A, radd, rscale, rident. rewrite Hs by auto. rewrite Nat.eqb_sym. auto. Qed.

  Lemma residual_exists : exists B, sym n B /\ inverse_of n A B /\ meq n (rscale e (pinv n A)) (rscale e B).
  Proof using Hp Hs Hk He.
    destruct (pdinv_inverse tri_inv (fun _ _ => None) n e A tri_inv_inverts He A_sym A_below) as [B [_ [S I]]].
    exists B. split; [intros i j _ _; apply S|]. split; auto. intros i j Hi Hj. unfold rscale. rewrite (Hp n A B I) by auto. auto.
  Qed.

  Lemma residual_spec : residual_maker n Kz e (rscale e (pinv n A)) /\ sym n (rscale e (pinv n A)).
  Proof using Hp Hs Hk He.
    destruct residual_exists as [B [S [I E]]]. split.
    - intro v. exists (fun i => rsumn n (fun j => B i j * v j)). apply inverse_meq in I. destruct I as [I _].
      assert (S1 : forall i, (i < n)%nat -> rsumn n (fun j => Kz i j * rsumn n (fun k => B j k * v k)) + e * rsumn n (fun k => B i k * v k) = v i).
      { intros i Hi. rewrite <- (rs_delta n i v Hi).
        rewrite (rs_ext n (fun k => (if Nat.eqb i k then 1 else 0) * v k) (fun k => rsumn n (fun j => Kz i j * B j k * v k) + e * (B i k * v k))).
        - rewrite rs_plus, rs_scal. f_equal. rewrite rs_swap. apply rs_ext. intros j Hj. rewrite <- rs_scal. apply rs_ext. intros. ring.
        - intros k Hk'. specialize (I i k Hi Hk'). unfold rdot, A, radd, rscale, rident in I. rewrite <- I, <- rs_scalr.
          rewrite (rs_ext n (fun i0 => (Kz i i0 + e * (if Nat.eqb i i0 then 1 else 0)) * B i0 k * v k)
            (fun i0 => Kz i i0 * B i0 k * v k + (if Nat.eqb i i0 then 1 else 0) * (e * (B i0 k * v k)))) by (intros; ring).
          rewrite rs_plus, rs_delta by auto. auto. }
      split; intros i Hi.
      + rewrite <- (rsumn_sumR n (fun j => Kz i j * _)). auto.
      + rewrite <- !rsumn_sumR. specialize (S1 i Hi).
        rewrite (rs_ext n (fun j => rscale e (pinv n A) i j * v j) (fun j => e * (B i j * v j))) by (intros j Hj; rewrite E by auto; unfold rscale; ring).
        rewrite rs_scal. lra.
    - intros i j Hi Hj. rewrite !E by auto. unfold rscale. rewrite S by auto. auto.
  Qed.
End Residual.

(** There is only one matrix that makes these residuals. *)
Lemma residual_unique : forall n K e R1 R2, 0 < e -> sym n K -> psd n K -> residual_maker n K e R1 -> residual_maker n K e R2 -> meq n R1 R2.
Proof.
  intros n K e R1 R2 He Hs Hk H1 H2 i j Hi Hj.
  destruct (H1 (fun k => if Nat.eqb j k then 1 else 0)) as [a [A1 A2]]. destruct (H2 (fun k => if Nat.eqb j k then 1 else 0)) as [b [B1 B2]].
  assert (D : forall k, (k < n)%nat -> a k - b k = 0).
  { set (d := fun k => a k - b k).
    assert (Z : forall k, (k < n)%nat -> rsumn n (fun l => K k l * d l) + e * d k = 0).
    { intros k Hk'. specialize (A1 k Hk'). specialize (B1 k Hk'). rewrite <- rsumn_sumR in A1, B1. unfold d.
      rewrite (rs_ext n _ (fun l => K k l * a l - K k l * b l)) by (intros; ring). rewrite rs_minus. lra. }
    pose proof (A_below n K e He Hk d) as Q. 
    assert (quad n d (radd K (rscale e rident)) = 0) as Q0.
    { unfold quad. apply rs_zero. intros k Hk'. rewrite (rs_ext n _ (fun l => d k * (K k l * d l) + (if Nat.eqb k l then 1 else 0) * (e * (d k * d l)))).
      - rewrite rs_plus, rs_scal, rs_delta by auto. specialize (Z k Hk'). replace (e * (d k * d k)) with (d k * (e * d k)) by ring.
        rewrite <- Rmult_plus_distr_l, Z. ring.
      - intros l Hl. unfold radd, rscale, rident. ring. }
    rewrite Q0 in Q. assert (rsumn n (fun i => d i * d i) = 0) as S0.
    { apply Rle_antisym; [nra|]. apply rs_nonneg. intros. apply Rle_0_sqr. }
    intros k Hk'. pose proof (rs_nonneg_zero n (fun i => d i * d i) (fun i _ => Rle_0_sqr (d i)) S0 k Hk') as W. cbv beta in W.
    apply Rmult_integral in W. destruct W; auto. }
  specialize (A2 i Hi). specialize (B2 i Hi). rewrite <- !rsumn_sumR in A2, B2.
  rewrite (rs_ext n (fun k => R1 i k * _) (fun k => (if Nat.eqb j k then 1 else 0) * R1 i k)) in A2 by (intros; ring).
  rewrite (rs_ext n (fun k => R2 i k * _) (fun k => (if Nat.eqb j k then 1 else 0) * R2 i k)) in B2 by (intros; ring).
  rewrite rs_delta in A2, B2 by auto. rewrite A2, B2. f_equal. apply rs_ext. intros k Hk'. specialize (D k Hk'). f_equal. lra.
Qed.

(* ---------- the statistic ---------- *)
Lemma rdot_sandwich : forall n Rm K, agree n n (rdot n Rm (rdot n K Rm)) (sandwich n Rm K).
Proof.
  intros n Rm K i j Hi Hj. unfold rdot, sandwich. rewrite <- rsumn_sumR. apply rs_ext. intros a Ha. rewrite <- rsumn_sumR, <- rs_scal. apply rs_ext. intros. ring.
Qed.
Lemma sandwich_ext : forall n R1 R2 K1 K2, meq n R1 R2 -> agree n n K1 K2 -> agree n n (sandwich n R1 K1) (sandwich n R2 K2).
Proof.
  intros n R1 R2 K1 K2 HR HK i j Hi Hj. unfold sandwich. rewrite <- !rsumn_sumR. apply rs_ext. intros a Ha. rewrite <- !rsumn_sumR. apply rs_ext. intros b Hb.
  rewrite HR, HK, (HR b j) by auto. auto.
Qed.
Lemma sandwich_sym : forall n Rm K, sym n Rm -> sym n K -> sym n (sandwich n Rm K).
Proof.
  intros n Rm K HR HK i j Hi Hj. unfold sandwich. rewrite <- !rsumn_sumR.
  rewrite (rs_ext n _ (fun a => rsumn n (fun b => Rm i a * K a b * Rm b j))) by (intros; rewrite <- rsumn_sumR; auto).
  rewrite (rs_ext n (fun a => sumRn n (fun b => Rm j a * K a b * Rm b i)) (fun a => rsumn n (fun b => Rm j a * K a b * Rm b i))) by (intros; rewrite <- rsumn_sumR; auto).
  rewrite rs_swap. apply rs_ext2. intros a b Ha Hb. rewrite (HR i b), (HR a j), (HK b a) by auto. ring.
Qed.
Lemma quad_sandwich : forall n Rm K v, sym n Rm -> quad n v (sandwich n Rm K) = quad n (fun a => rsumn n (fun i => Rm a i * v i)) K.
Proof.
  intros n Rm K v HR. unfold quad.
  transitivity (rsumn n (fun i => rsumn n (fun j => rsumn n (fun a => rsumn n (fun b => v i * v j * (Rm i a * K a b * Rm b j)))))).
  { apply rs_ext2. intros i j Hi Hj. unfold sandwich. rewrite <- rsumn_sumR, <- rs_scal. apply rs_ext. intros a Ha. rewrite <- rsumn_sumR, <- rs_scal. auto. }
  transitivity (rsumn n (fun a => rsumn n (fun b => rsumn n (fun i => rsumn n (fun j => v i * v j * (Rm i a * K a b * Rm b j)))))).
  - rewrite (rs_ext n _ (fun i => rsumn n (fun a => rsumn n (fun j => rsumn n (fun b => v i * v j * (Rm i a * K a b * Rm b j)))))) by (intros; apply rs_swap).
    rewrite rs_swap. apply rs_ext. intros a Ha.
    rewrite (rs_ext n _ (fun i => rsumn n (fun b => rsumn n (fun j => v i * v j * (Rm i a * K a b * Rm b j))))) by (intros; apply rs_swap).
    apply rs_swap.
  - apply rs_ext2. intros a b Ha Hb. rewrite <- rs_scalr, <- rs_scalr. apply rs_ext. intros i Hi. rewrite <- rs_scal, <- rs_scalr. apply rs_ext. intros j Hj. rewrite (HR i a) by auto. ring.
Qed.
Lemma sandwich_psd : forall n Rm K, sym n Rm -> psd n K -> psd n (sandwich n Rm K).
Proof. intros n Rm K HR HK. apply psd_quad. intro v. rewrite quad_sandwich by auto. apply psd_quad. auto. Qed.

(** The sum of the products of two positive semidefinite matrices. *)
Lemma sum_prod_psd : forall n A B, sym n A -> psd n A -> psd n B -> 0 <= sum_prod n A B.
Proof.
  intros n A B S PA PB. destruct (psd_gram n A S PA) as [phi E]. unfold sum_prod.
  rewrite (rs_ext2 n n _ (fun i j => rsumn n (fun c => phi i c * phi j c * B i j))) by (intros i j Hi Hj; rewrite E by auto; rewrite <- rs_scalr; auto).
  rewrite (rs_ext n _ (fun i => rsumn n (fun c => rsumn n (fun j => phi i c * phi j c * B i j)))) by (intros; apply rs_swap).
  rewrite rs_swap. apply rs_nonneg. intros c Hc. rewrite psd_quad in PB. apply (PB (fun i => phi i c)).
Qed.

(* ---------- eigenvalues ---------- *)
Section Eigen.
  Variables (n : nat) (K : rmat) (w : nat -> R) (V : rmat).
  Hypothesis D : eigendecomposition n K w V.

  Lemma eig_vec : forall i c, (i < n)%nat -> (c < n)%nat -> rsumn n (fun j => K i j * V j c) = w c * V i c.
  Proof using D.
    intros i c Hi Hc. destruct D as [D1 [D2 _]].
    rewrite (rs_ext n _ (fun j => rsumn n (fun c' => w c' * V i c' * (V j c' * V j c)))).
    2:{ intros j Hj. rewrite D1 by auto. rewrite <- rsumn_sumR, <- rs_scalr. apply rs_ext. intros. ring. }
    rewrite rs_swap. rewrite (rs_ext n _ (fun c' => (if Nat.eqb c c' then 1 else 0) * (w c' * V i c'))); [apply rs_delta; auto|].
    intros c' Hc'. rewrite rs_scal. rewrite rsumn_sumR, D2 by auto. rewrite Nat.eqb_sym. ring.
  Qed.
  Lemma eig_nonneg : psd n K -> forall c, (c < n)%nat -> 0 <= w c.
  Proof using D.
    intros P c Hc. rewrite psd_quad in P. specialize (P (fun i => V i c)). unfold quad in P.
    rewrite (rs_ext n _ (fun i => w c * (V i c * V i c))) in P.
    - rewrite rs_scal in P. destruct D as [_ [D2 _]]. rewrite rsumn_sumR, D2, Nat.eqb_refl in P by auto. lra.
    - intros i Hi. rewrite (rs_ext n _ (fun j => V i c * (K i j * V j c))) by (intros; ring). rewrite rs_scal, eig_vec by auto. ring.
  Qed.
End Eigen.

(** Two decompositions: eigenvectors of different eigenvalues are orthogonal. *)
Section TwoEigen.
  Variables (n : nat) (K : rmat) (w u : nat -> R) (V U : rmat).
  Hypothesis S : sym n K.
  Hypothesis DV : eigendecomposition n K w V.
  Hypothesis DU : eigendecomposition n K u U.

  Let M c d := rsumn n (fun i => V i c * U i d).
  Lemma cross : forall c d, (c < n)%nat -> (d < n)%nat -> M c d <> 0 -> w c = u d.
  Proof using S DV DU.
    intros c d Hc Hd NZ.
    assert (w c * M c d = u d * M c d) as E.
    { unfold M. rewrite <- !rs_scal.
      transitivity (rsumn n (fun i => rsumn n (fun j => K i j * V j c * U i d))).
      - apply rs_ext. intros i Hi. rewrite rs_scalr, (eig_vec n K w V DV) by auto. ring.
      - rewrite rs_swap. apply rs_ext. intros j Hj.
        rewrite (rs_ext n _ (fun i => V j c * (K j i * U i d))) by (intros i Hi; rewrite (S i j) by auto; ring).
        rewrite rs_scal, (eig_vec n K u U DU) by auto. ring. }
    apply (Rmult_eq_reg_r (M c d)); auto.
  Qed.
  (** A vector of one system in terms of the other. *)
  Lemma expand : forall i c, (i < n)%nat -> rsumn n (fun d => U i d * M c d) = V i c.
  Proof using DU.
    intros i c Hi. unfold M. destruct DU as [_ [_ D3]].
    rewrite (rs_ext n _ (fun d => rsumn n (fun j => V j c * (U i d * U j d)))) by (intros; rewrite <- rs_scal; apply rs_ext; intros; ring).
    rewrite rs_swap. rewrite (rs_ext n _ (fun j => (if Nat.eqb i j then 1 else 0) * V j c)); [apply (rs_delta n i (fun j => V j c)); auto|].
    intros j Hj. rewrite rs_scal, rsumn_sumR, D3 by auto. ring.
  Qed.
  Lemma same_value : forall c, (c < n)%nat -> exists d, (d < n)%nat /\ u d = w c.
  Proof using S DV DU.
    intros c Hc. destruct (Classical_Prop.classic (exists d, (d < n)%nat /\ M c d <> 0)) as [[d [Hd NZ]]|N].
    - exists d. split; auto. symmetry. apply cross; auto.
    - exfalso. assert (Z : forall i, (i < n)%nat -> V i c = 0).
      { intros i Hi. rewrite <- (expand i c Hi). apply rs_zero. intros d Hd. destruct (Req_dec (M c d) 0) as [->|NZ]; [ring|]. exfalso. eauto. }
      destruct DV as [_ [D2 _]]. specialize (D2 c c Hc Hc). rewrite Nat.eqb_refl in D2. rewrite <- rsumn_sumR in D2.
      rewrite rs_zero in D2 by (intros; rewrite Z by auto; ring). lra.
  Qed.
  (** A function of the matrix does not depend on the decomposition. *)
  Lemma calculus : forall f i j, (i < n)%nat -> (j < n)%nat ->
    rsumn n (fun c => f (w c) * V i c * V j c) = rsumn n (fun d => f (u d) * U i d * U j d).
  Proof using S DV DU.
    intros f i j Hi Hj.
    transitivity (rsumn n (fun c => rsumn n (fun d => f (u d) * U i d * M c d) * V j c)).
    - apply rs_ext. intros c Hc. f_equal. rewrite <- (expand i c Hi) at 1. rewrite <- rs_scal. apply rs_ext. intros d Hd.
      destruct (Req_dec (M c d) 0) as [->|NZ]; [ring|]. rewrite (cross c d) by auto. ring.
    - rewrite (rs_ext n _ (fun c => rsumn n (fun d => f (u d) * U i d * (M c d * V j c)))) by (intros; rewrite <- rs_scalr; apply rs_ext; intros; ring).
      rewrite rs_swap. apply rs_ext. intros d Hd. rewrite rs_scal. f_equal. unfold M. destruct DV as [_ [_ D3]].
      rewrite (rs_ext n _ (fun c => rsumn n (fun k => U k d * (V j c * V k c)))) by (intros; rewrite <- rs_scalr; apply rs_ext; intros; ring).
      rewrite rs_swap. rewrite (rs_ext n _ (fun k => (if Nat.eqb j k then 1 else 0) * U k d)); [apply (rs_delta n j (fun k => U k d)); auto|].
      intros k Hk. rewrite rs_scal, rsumn_sumR, D3 by auto. ring.
  Qed.
End TwoEigen.

Lemma eig_sym : forall n K w V, eigendecomposition n K w V -> sym n K.
Proof. intros n K w V [D _] i j Hi Hj. rewrite !D by auto. rewrite <- !rsumn_sumR. apply rs_ext. intros. ring. Qed.
Lemma dominant_unique : forall n t K A B, dominant_part n t K A -> dominant_part n t K B -> agree n n A B.
Proof.
  intros n t K A B (w & V & top & DV & (c & Hc & Ec) & Mx & EA) (u & U & top' & DU & (d & Hd & Ed) & Mx' & EB) i j Hi Hj.
  pose proof (eig_sym n K w V DV) as S.
  assert (top = top') as <-.
  { apply Rle_antisym.
    - destruct (same_value n K w u V U S DV DU c Hc) as [d' [Hd' E]]. rewrite <- Ec, <- E. auto.
    - destruct (same_value n K u w U V S DU DV d Hd) as [c' [Hc' E]]. rewrite <- Ed, <- E. auto. }
  rewrite EA, EB by auto. rewrite <- !rsumn_sumR.
  pose proof (calculus n K w u V U S DV DU (fun x => if Rlt_dec (t * top) x then x else 0) i j Hi Hj) as E.
  transitivity (rsumn n (fun c => (if Rlt_dec (t * top) (w c) then w c else 0) * V i c * V j c)).
  - apply rs_ext. intros k Hk. destruct (Rlt_dec (t * top) (w k)); ring.
  - rewrite E. apply rs_ext. intros k Hk. destruct (Rlt_dec (t * top) (u k)); ring.
Qed.
Lemma dominant_ext : forall n t K L A B, agree n n K L -> agree n n A B -> dominant_part n t K A -> dominant_part n t L B.
Proof.
  intros n t K L A B HK HA (w & V & top & [D1 D23] & C & Mx & E). exists w, V, top. split; [|split; [|split]]; auto.
  - split; auto. intros i j Hi Hj. rewrite <- HK by auto. auto.
  - intros i j Hi Hj. rewrite <- HA by auto. auto.
Qed.

(* ---------- the eigenvectors that are kept ---------- *)
Lemma rmaxn_ge : forall n w c, (c < n)%nat -> w c <= rmaxn n w.
Proof.
  intros n w c Hc. unfold rmaxn. assert (In (w c) (map w (seq 0 n))) as I by (apply in_map, in_seq; lia).
  induction (map w (seq 0 n)) as [|a l IH]; [destruct I|]. simpl. destruct I as [->|I]; [apply Rmax_l|]. eapply Rle_trans; [apply IH; auto|apply Rmax_r].
Qed.
Lemma rmaxn_in : forall n w, (0 < n)%nat -> exists c, (c < n)%nat /\ w c = rmaxn n w.
Proof.
  intros n w Hn. unfold rmaxn.
  assert (forall l, (forall x, In x l -> exists c, (c < n)%nat /\ w c = x) -> exists c, (c < n)%nat /\ w c = fold_right Rmax (w 0%nat) l) as K.
  { induction l as [|a l IH]; intro H; simpl; [exists 0%nat; auto|]. unfold Rmax at 1. destruct (Rle_dec a (fold_right Rmax (w 0%nat) l)).
    - apply IH. intros; apply H; right; auto.
    - apply H. left. auto. }
  apply K. intros x Hx. apply in_map_iff in Hx. destruct Hx as [c [<- Hc]]. apply in_seq in Hc. exists c. split; auto. lia.
Qed.

Lemma rsum_nth : forall (l : list nat) f, rsumn (length l) (fun c => f (nth c l 0%nat)) = fold_right Rplus 0 (map f l).
Proof.
  induction l as [|a l IH]; intro f; [reflexivity|]. cbn [length map fold_right]. rewrite rs_head. cbn [nth]. rewrite IH. auto.
Qed.
Lemma rsum_filter : forall n (p : nat -> bool) f, fold_right Rplus 0 (map f (filter p (seq 0 n))) = rsumn n (fun c => if p c then f c else 0).
Proof.
  intros n p f. unfold rsumn, rsum. induction (seq 0 n) as [|a l IH]; simpl; auto. destruct (p a); simpl; rewrite IH; auto. ring.
Qed.

Lemma scaled_spec : forall eigs n t K m v, (0 < n)%nat -> 0 <= t -> eigensolver eigs -> sym n K -> psd n K -> scaled_vectors eigs n t K = (m, v) ->
  dominant_part n t K (fun a b => rsumn m (fun c => v a c * v b c)).
Proof.
  intros eigs n t K m v Hn Ht He S P E. unfold scaled_vectors in E. set (H := rscale (/ 2) (radd K (rtranspose K))) in *.
  assert (HK : agree n n H K). { intros i j Hi Hj. unfold H, rscale, radd, rtranspose. rewrite (S j i) by auto. field. }
  destruct (He n H) as [De _]. { intros i j Hi Hj. rewrite !HK by auto. auto. }
  destruct (eigs n H) as [w V]. cbn [fst snd] in De. injection E as <- <-.
  assert (W : forall c, (c < n)%nat -> 0 <= w c).
  { apply (eig_nonneg n H w V De). apply (psd_ext n K); auto. intros i j Hi Hj. symmetry. auto. }
  assert (0 <= rmaxn n w) as T by (eapply Rle_trans; [apply (W 0%nat Hn)|apply rmaxn_ge; auto]).
  exists w, V, (rmaxn n w). split; [|split; [|split]].
  - destruct De as [D1 D23]. split; auto. intros i j Hi Hj. rewrite <- HK by auto. auto.
  - apply rmaxn_in; auto.
  - intros c Hc. apply rmaxn_ge; auto.
  - intros i j Hi Hj. rewrite <- rsumn_sumR.
    rewrite (rsum_nth (kept n t w) (fun k => V i k * sqrt (w k) * (V j k * sqrt (w k)))). unfold kept. rewrite rsum_filter.
    apply rs_ext. intros c Hc. rewrite (Rmult_comm t). destruct (Rlt_dec (rmaxn n w * t) (w c)); auto.
    replace (V i c * sqrt (w c) * (V j c * sqrt (w c))) with (V i c * V j c * (sqrt (w c) * sqrt (w c))) by ring. rewrite sqrt_sqrt by auto. ring.
Qed.

Lemma rs_block : forall m k f, (0 < k)%nat -> rsumn (m * k) (fun c => f (c / k)%nat (c mod k)%nat) = rsumn m (fun i => rsumn k (fun j => f i j)).
Proof.
  induction m as [|m IH]; intros k f Hk; [reflexivity|].
  replace (S m * k)%nat with (m * k + k)%nat by lia. rewrite rs_split, IH by auto. rewrite rs_S. f_equal. apply rs_ext. intros j Hj.
  replace ((m * k + j) / k)%nat with m; [replace ((m * k + j) mod k)%nat with j; auto|].
  - rewrite Nat.add_comm, Nat.mod_add by lia. symmetry. apply Nat.mod_small. auto.
  - rewrite Nat.add_comm, Nat.div_add by lia. rewrite Nat.div_small by auto. auto.
Qed.

(** The two ways to multiply give the same traces. *)
Lemma trace_gram : forall n m (U : rmat),
  rtrace m (fun c c' => rsumn n (fun a => U a c * U a c')) = rtrace n (fun a b => rsumn m (fun c => U a c * U b c)) /\
  rtrace m (rdot m (fun c c' => rsumn n (fun a => U a c * U a c')) (fun c c' => rsumn n (fun a => U a c * U a c')))
  = rtrace n (rdot n (fun a b => rsumn m (fun c => U a c * U b c)) (fun a b => rsumn m (fun c => U a c * U b c))).
Proof.
  intros n m U. split; [unfold rtrace; apply rs_swap|]. unfold rtrace, rdot.
  transitivity (rsumn m (fun c => rsumn m (fun c' => rsumn n (fun a => rsumn n (fun b => U a c * U a c' * (U b c' * U b c)))))).
  { apply rs_ext2. intros c c' Hc Hc'. rewrite <- rs_scalr. apply rs_ext. intros a Ha. rewrite <- rs_scal. auto. }
  transitivity (rsumn n (fun a => rsumn n (fun b => rsumn m (fun c => rsumn m (fun c' => U a c * U a c' * (U b c' * U b c)))))).
  - rewrite (rs_ext m _ (fun c => rsumn n (fun a => rsumn m (fun c' => rsumn n (fun b => U a c * U a c' * (U b c' * U b c)))))) by (intros; apply rs_swap).
    rewrite rs_swap. apply rs_ext. intros a Ha.
    rewrite (rs_ext m _ (fun c => rsumn n (fun b => rsumn m (fun c' => U a c * U a c' * (U b c' * U b c))))) by (intros; apply rs_swap).
    apply rs_swap.
  - apply rs_ext2. intros a b Ha Hb. rewrite <- rs_scalr. apply rs_ext. intros c Hc. rewrite <- rs_scal. apply rs_ext. intros c' Hc'. ring.
Qed.

Lemma uuprod_moments : forall eigs n t A B M size, (0 < n)%nat -> 0 <= t -> eigensolver eigs -> sym n A -> psd n A -> sym n B -> psd n B ->
  get_uuprod eigs n t A B = (M, size) -> exists A' B', dominant_part n t A A' /\ dominant_part n t B B' /\
    rtrace size M = cond_mean n A' B' /\ 2 * rtrace size (rdot size M M) = cond_variance n A' B'.
Proof.
  intros eigs n t A B M size Hn Ht He SA PA SB PB E. unfold get_uuprod in E.
  destruct (scaled_vectors eigs n t A) as [mx vx] eqn:Ex. destruct (scaled_vectors eigs n t B) as [my vy] eqn:Ey.
  exists (fun a b => rsumn mx (fun c => vx a c * vx b c)), (fun a b => rsumn my (fun c => vy a c * vy b c)).
  split; [eapply scaled_spec; eauto|]. split; [eapply scaled_spec; eauto|].
  set (U := fun r c => vx r (c / my)%nat * vy r (c mod my)%nat) in *.
  assert (P : forall a b, rsumn (mx * my) (fun c => U a c * U b c) = rsumn mx (fun c => vx a c * vx b c) * rsumn my (fun c => vy a c * vy b c)).
  { intros a b. destruct (Nat.eq_dec my 0) as [->|Nz].
    - rewrite Nat.mul_0_r. unfold rsumn at 1 3. simpl. unfold rsum. simpl. ring.
    - unfold U. rewrite (rs_block mx my (fun i j => vx a i * vy a j * (vx b i * vy b j))) by lia.
      rewrite <- rs_scalr. apply rs_ext. intros i Hi. rewrite <- rs_scal. apply rs_ext. intros. ring. }
  assert (T : rtrace size M = rtrace n (fun a b => rsumn (mx * my) (fun c => U a c * U b c)) /\
     rtrace size (rdot size M M) = rtrace n (rdot n (fun a b => rsumn (mx * my) (fun c => U a c * U b c)) (fun a b => rsumn (mx * my) (fun c => U a c * U b c)))).
  { destruct (Nat.ltb n (mx * my)); injection E as <- <-; [auto|]. apply (trace_gram n (mx * my) U). }
  destruct T as [-> ->]. unfold cond_mean, cond_variance. split.
  - rewrite <- rsumn_sumR. unfold rtrace. apply rs_ext. intros i Hi. rewrite P. auto.
  - f_equal. rewrite <- rsumn_sumR. unfold rtrace, rdot. apply rs_ext. intros i Hi. rewrite <- rsumn_sumR. apply rs_ext. intros j Hj. rewrite !P. unfold Rsqr.
    rewrite (rs_ext mx (fun c => vx j c * vx i c) (fun c => vx i c * vx j c)) by (intros; ring).
    rewrite (rs_ext my (fun c => vy j c * vy i c) (fun c => vy i c * vy j c)) by (intros; ring). auto.
Qed.
