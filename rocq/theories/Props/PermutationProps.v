(** C89: the HSIC estimates and the simulated p-values. *)

From Coq Require Import List Arith Lia Bool Permutation Reals Lra.
From Verif Require Import Model.Py Model.Graph Model.LocalScore Model.KCI Model.HSIC Spec.Scores Spec.KCISpec Spec.KernelSpec Proofs.BicFacts Proofs.PopulationFacts
  Proofs.KCIFacts Proofs.GaussianFacts Proofs.HSICFacts Props.HSICProps.
Import ListNotations.
Open Scope nat_scope.

(* ---------- the unbiased estimate ---------- *)
Section Unbiased.
  Variable m : nat.
  Hypothesis Hm : 4 <= m.
  Variables k l : rmat.
  Hypothesis Sk : sym m k.
  Hypothesis Sl : sym m l.
  Hypothesis Dk : forall i, k i i = 0%R.
  Hypothesis Dl : forall i, l i i = 0%R.
  Let N := INR m.
  Let rk i := rsumn m (fun j => k i j).
  Let rl i := rsumn m (fun j => l i j).
  Let A := rsumn m (fun i => rsumn m (fun j => k i j * l i j)%R).
  Let B := rsumn m (fun i => rk i * rl i)%R.
  Let KK := rsumn m rk.
  Let LL := rsumn m rl.

  Lemma inner_r : forall i j q, i < m -> j < m -> q < m -> rsumn m (fun r => if different4 i j q r then (k i j * (l i j + l q r - 2 * l i q))%R else 0%R)
    = if negb (Nat.eqb i j || Nat.eqb i q || Nat.eqb j q) then ((N - 3) * (k i j * (l i j - 2 * l i q)) + k i j * (rl q - l q i - l q j))%R else 0%R.
  Proof using Dl.
    intros i j q Hi Hj Hq. destruct (Nat.eqb_spec i j) as [->|D1]; [apply rs_zero; intros; unfold different4; rewrite Nat.eqb_refl; auto|].
    destruct (Nat.eqb_spec i q) as [->|D2]; [apply rs_zero; intros; unfold different4; rewrite Nat.eqb_refl, orb_true_r; auto|].
    destruct (Nat.eqb_spec j q) as [->|D3]; [apply rs_zero; intros; unfold different4; rewrite Nat.eqb_refl, !orb_true_r; auto|].
    cbn [negb orb]. set (f := fun r => (k i j * (l i j + l q r - 2 * l i q))%R).
    rewrite (rs_ext m _ (fun r => f r - (if Nat.eqb i r then 1 else 0) * f r - (if Nat.eqb j r then 1 else 0) * f r - (if Nat.eqb q r then 1 else 0) * f r)%R).
    - rewrite !rs_minus, !rs_delta by auto. unfold f.
      rewrite (rs_ext m _ (fun r => k i j * (l i j - 2 * l i q) + k i j * l q r)%R) by (intros; ring). rewrite rs_plus, rs_const, rs_scal. change (rsumn m (fun r => l q r)) with (rl q). change (rsumn m (l q)) with (rl q). fold N. rewrite Dl. ring.
    - intros r Hr. unfold different4. fold (f r). destruct (Nat.eqb_spec i j); [contradiction|]. destruct (Nat.eqb_spec i q); [contradiction|]. destruct (Nat.eqb_spec j q); [contradiction|].
      destruct (Nat.eqb_spec i r), (Nat.eqb_spec j r), (Nat.eqb_spec q r); simpl; try (exfalso; congruence); ring.
  Qed.
  Lemma inner_q : forall i j, i < m -> j < m ->
    rsumn m (fun q => if negb (Nat.eqb i j || Nat.eqb i q || Nat.eqb j q) then ((N - 3) * (k i j * (l i j - 2 * l i q)) + k i j * (rl q - l q i - l q j))%R else 0%R)
    = (k i j * l i j * ((N - 3) * (N - 2) + 2 * (N - 3) + 2) - (2 * (N - 3) + 2) * (k i j * rl i) - 2 * (k i j * rl j) + k i j * LL)%R.
  Proof using Sl Dk Dl.
    intros i j Hi Hj. destruct (Nat.eqb_spec i j) as [->|D1]; [rewrite rs_zero by auto; rewrite Dk; ring|]. cbn [orb].
    set (f := fun q => ((N - 3) * (k i j * (l i j - 2 * l i q)) + k i j * (rl q - l q i - l q j))%R).
    rewrite (rs_ext m _ (fun q => f q - (if Nat.eqb i q then 1 else 0) * f q - (if Nat.eqb j q then 1 else 0) * f q)%R).
    - rewrite !rs_minus, !rs_delta by auto. unfold f. rewrite !Dl.
      rewrite (rs_ext m _ (fun q => (N - 3) * (k i j * l i j) + (- 2 * (N - 3) * k i j) * l i q + k i j * rl q + (- k i j) * l i q + (- k i j) * l j q)%R).
      2:{ intros q Hq. rewrite (Sl q i), (Sl q j) by auto. ring. }
      rewrite !rs_plus, !rs_scal, rs_const. change (rsumn m (fun q => l i q)) with (rl i). change (rsumn m (fun q => l j q)) with (rl j).
      change (rsumn m (l i)) with (rl i). change (rsumn m (l j)) with (rl j). change (rsumn m (fun q => rl q)) with LL. fold LL N. rewrite (Sl j i) by auto. ring.
    - intros q Hq. fold (f q). destruct (Nat.eqb_spec i q), (Nat.eqb_spec j q); simpl; try (exfalso; congruence); ring.
  Qed.
  Lemma total : rsumn m (fun i => rsumn m (fun j => rsumn m (fun q => rsumn m (fun r => if different4 i j q r then (k i j * (l i j + l q r - 2 * l i q))%R else 0%R))))
    = ((N - 1) * (N - 2) * A - 2 * (N - 1) * B + KK * LL)%R.
  Proof using Sk Sl Dk Dl.
    rewrite (rs_ext2 m m _ (fun i j => (((N - 3) * (N - 2) + 2 * (N - 3) + 2) * (k i j * l i j) + (- (2 * (N - 3) + 2)) * (k i j * rl i) + (- 2) * (k i j * rl j) + LL * k i j))%R).
    2:{ intros i j Hi Hj. rewrite (rs_ext m _ _ (fun q Hq => inner_r i j q Hi Hj Hq)). rewrite inner_q by auto. ring. }
    rewrite (rs_ext m _ (fun i => ((N - 3) * (N - 2) + 2 * (N - 3) + 2) * rsumn m (fun j => k i j * l i j) + (- (2 * (N - 3) + 2)) * (rk i * rl i) + (- 2) * rsumn m (fun j => k i j * rl j) + LL * rk i)%R).
    2:{ intros i Hi. rewrite !rs_plus, !rs_scal, rs_scalr. auto. }
    rewrite !rs_plus, !rs_scal. fold A B. change (rsumn m (fun i => rk i)) with KK. fold KK.
    assert (rsumn m (fun i => rsumn m (fun j => k i j * rl j))%R = B) as ->.
    { rewrite rs_swap. unfold B. apply rs_ext. intros j Hj. rewrite rs_scalr. f_equal. unfold rk. apply rs_ext. auto. }
    ring.
  Qed.
  Lemma u_terms : (rtrace m (rdot m k l) = A /\ sum_all m (rdot m k l) = B /\ sum_all m k = KK /\ sum_all m l = LL)%R.
  Proof using Sk Sl.
    repeat split.
    - unfold rtrace, rdot, A. apply rs_ext2. intros i j Hi Hj. rewrite (Sl j i) by auto. auto.
    - unfold sum_all, rdot, B.
      rewrite (rs_ext m _ (fun i => rsumn m (fun a => k i a * rl a)%R)).
      + rewrite rs_swap. apply rs_ext. intros a Ha. rewrite rs_scalr. f_equal. unfold rk. apply rs_ext. auto.
      + intros i Hi. rewrite rs_swap. apply rs_ext. intros a Ha. rewrite rs_scal. auto.
  Qed.
End Unbiased.

Lemma sum4_model : forall n f, sumRn n (fun i => sumRn n (fun j => sumRn n (fun q => sumRn n (fun r => f i j q r)))) = rsumn n (fun i => rsumn n (fun j => rsumn n (fun q => rsumn n (fun r => f i j q r)))).
Proof.
  intros n f. rewrite sum2_model. apply rs_ext2. intros i j _ _. apply sum2_model.
Qed.

(** For symmetric matrices HSIC_U_statistic is the unbiased estimate: the mean over all
    quadruples of different samples. *)
Theorem C89_unbiased : forall m Kx Ky, 4 <= m -> symmetric_matrix m Kx -> symmetric_matrix m Ky -> hsic_u m Kx Ky = Some (hsic_unbiased m Kx Ky).
Proof.
  intros m Kx Ky Hm Sx Sy. unfold hsic_u. destruct (Nat.leb_spec m 3); [lia|]. f_equal. cbv zeta.
  set (k := zero_diag Kx). set (l := zero_diag Ky).
  assert (forall K, symmetric_matrix m K -> sym m (zero_diag K)) as Z by (intros K S i j Hi Hj; unfold zero_diag; rewrite (Nat.eqb_sym j i); destruct (Nat.eqb i j); auto).
  assert (forall K i, zero_diag K i i = 0%R) as D by (intros; unfold zero_diag; rewrite Nat.eqb_refl; auto).
  pose proof (total m k l (Z _ Sx) (Z _ Sy) (D Kx) (D Ky)) as T. destruct (u_terms m k l (Z _ Sx) (Z _ Sy)) as [-> [-> [-> ->]]].
  unfold hsic_unbiased. rewrite sum4_model.
  assert (4 <= INR m)%R as G4 by (replace 4%R with (INR 4) by (simpl; ring); apply le_INR; auto).
  assert (forall i j q r, (if different4 i j q r then (Kx i j * (Ky i j + Ky q r - 2 * Ky i q))%R else 0%R) = if different4 i j q r then (k i j * (l i j + l q r - 2 * l i q))%R else 0%R) as E4.
  { intros i j q r. destruct (different4 i j q r) eqn:E; auto. unfold different4 in E. unfold k, l, zero_diag.
    apply negb_true_iff in E. rewrite !orb_false_iff in E. destruct E as [[[[[E1 E2] _] _] _] E6]. rewrite E1, E2, E6. auto. }
  rewrite (rs_ext2 m m (fun i j => rsumn m (fun q => rsumn m (fun r => if different4 i j q r then (Kx i j * (Ky i j + Ky q r - 2 * Ky i q))%R else 0%R))) _
    (fun i j _ _ => rs_ext2 m m _ _ (fun q r _ _ => E4 i j q r))).
  rewrite T. cbv beta. field. lra.
Qed.
Print Assumptions C89_unbiased.

(* ---------- the biased estimate ---------- *)
Lemma center_real_centered : forall n K, 0 < n -> sym n K -> agree n n (center_real n K) (centered n K).
Proof.
  intros n K Hn S i j Hi Hj. rewrite centered_formula by auto. unfold center_real. cbv zeta.
  rewrite (rs_ext n (fun k => K i k) (fun k => K k i)) by auto. rewrite (rs_swap n n (fun j k => K k j)). pose proof (N_nz n Hn). field. auto.
Qed.
(** HSIC_V_statistic is m^2 times the biased estimate, hence m times the statistic of
    HSIC.py; it is not negative for Gaussian kernels. *)
Theorem C89_biased : forall m Kx Ky, 0 < m -> symmetric_matrix m Kx -> symmetric_matrix m Ky ->
  hsic_v m Kx Ky = Some (INR m * INR m * hsic_biased m Kx Ky)%R /\ hsic_v m Kx Ky = Some (INR m * hsic_stat m Kx Ky)%R.
Proof.
  intros m Kx Ky Hm Sx Sy. pose proof (N_nz m Hm).
  assert (hsic_v m Kx Ky = Some (INR m * hsic_stat m Kx Ky)%R) as E.
  { unfold hsic_v. destruct (Nat.eqb_spec m 0); [lia|]. f_equal. unfold hsic_stat.
    rewrite (sum_prod_ext m _ (fun i j => centered m Kx j i) _ (centered m Ky)).
    - field. auto.
    - intros i j Hi Hj. rewrite center_real_centered by auto. apply sym_centered; auto.
    - apply center_real_centered; auto. }
  split; auto. rewrite E. f_equal. rewrite stat_biased by auto. ring.
Qed.
Print Assumptions C89_biased.

(** The statistic of random features is the biased estimate for their inner products. *)
Definition gram (d : nat) (phi : rmat) : rmat := fun i j => sumRn d (fun a => phi i a * phi j a)%R.
Lemma centered_gram : forall m d phi i j, 0 < m -> i < m -> j < m ->
  centered m (gram d phi) i j = rsumn d (fun a => (phi i a - rsumn m (fun k => phi k a) / INR m) * (phi j a - rsumn m (fun k => phi k a) / INR m))%R.
Proof.
  intros m d phi i j Hm Hi Hj. pose proof (N_nz m Hm) as NZ. rewrite centered_formula by auto. set (s := fun a => rsumn m (fun k => phi k a)).
  assert (forall a b, gram d phi a b = rsumn d (fun c => phi a c * phi b c)%R) as G by (intros; unfold gram; symmetry; apply rsumn_sumR).
  rewrite G. rewrite (rs_ext m (fun k => gram d phi k j) (fun k => rsumn d (fun c => phi k c * phi j c)%R)) by (intros; apply G).
  rewrite (rs_ext m (fun k => gram d phi i k) (fun k => rsumn d (fun c => phi i c * phi k c)%R)) by (intros; apply G).
  rewrite (rs_ext2 m m (fun k l => gram d phi k l) (fun k l => rsumn d (fun c => phi k c * phi l c)%R)) by (intros; apply G).
  rewrite (rs_swap m d (fun k c => phi k c * phi j c)%R), (rs_swap m d (fun k c => phi i c * phi k c)%R).
  rewrite (rs_ext m _ (fun k => rsumn d (fun c => phi k c * s c)%R)) by (intros; rewrite rs_swap; apply rs_ext; intros; rewrite rs_scal; auto).
  rewrite (rs_swap m d (fun k c => phi k c * s c)%R).
  rewrite (rs_ext d (fun b => rsumn m (fun a => phi a b * phi j b))%R (fun b => s b * phi j b)%R) by (intros; rewrite rs_scalr; auto).
  rewrite (rs_ext d (fun b => rsumn m (fun a => phi i b * phi a b))%R (fun b => phi i b * s b)%R) by (intros; rewrite rs_scal; auto).
  rewrite (rs_ext d (fun b => rsumn m (fun a => phi a b * s b))%R (fun b => s b * s b)%R) by (intros; rewrite rs_scalr; auto).
  unfold Rdiv. rewrite <- !rs_scalr, <- !rs_minus, <- rs_plus. apply rs_ext. intros c Hc. fold (s c). field. auto.
Qed.
Theorem C89_features : forall m dx phix dy phiy, 0 < m -> hsic_v_rff m dx phix dy phiy = Some (hsic_biased m (gram dx phix) (gram dy phiy)).
Proof.
  intros m dx phix dy phiy Hm. pose proof (N_nz m Hm) as NZ. unfold hsic_v_rff. destruct (Nat.eqb_spec m 0); [lia|]. f_equal. cbv zeta.
  assert (forall d phi, sym m (gram d phi)) as S by (intros d phi i j _ _; unfold gram; apply sum_ext; intros; ring).
  assert (hsic_biased m (gram dx phix) (gram dy phiy) = (sum_prod m (fun i j => centered m (gram dx phix) j i) (centered m (gram dy phiy)) / (INR m * INR m))%R) as ->.
  { pose proof (stat_biased m _ _ Hm (S dx phix) (S dy phiy)) as E. unfold hsic_stat in E. apply (Rmult_eq_reg_l (INR m)); auto. rewrite <- E. field. auto. }
  set (cx := fun i a => (phix i a - rsumn m (fun k => phix k a) / INR m)%R). set (cy := fun i b => (phiy i b - rsumn m (fun k => phiy k b) / INR m)%R).
  unfold sum_prod. rewrite (rs_ext2 m m _ (fun i j => rsumn dx (fun a => rsumn dy (fun b => (cx i a * cy i b) * (cx j a * cy j b))))%R).
  2:{ intros i j Hi Hj. rewrite !centered_gram by auto. fold (cx j) (cx i). rewrite <- rs_scalr. apply rs_ext. intros a Ha. rewrite <- rs_scal. apply rs_ext. intros b Hb. unfold cx, cy. ring. }
  rewrite (rs_ext m _ (fun i => rsumn dx (fun a => rsumn dy (fun b => (cx i a * cy i b) * rsumn m (fun j => cx j a * cy j b))))%R).
  2:{ intros i Hi. rewrite rs_swap. apply rs_ext. intros a Ha. rewrite rs_swap. apply rs_ext. intros b Hb. rewrite rs_scal. auto. }
  rewrite (rs_swap m dx (fun i a => rsumn dy (fun b => (cx i a * cy i b) * rsumn m (fun j => cx j a * cy j b)))%R). 
  match goal with |- _ = (?u / ?v)%R => change (u / v)%R with (u * / v)%R end. rewrite <- rs_scalr. apply rs_ext. intros a Ha.
  rewrite (rs_swap m dy (fun i b => (cx i a * cy i b) * rsumn m (fun j => cx j a * cy j b))%R), <- rs_scalr. apply rs_ext. intros b Hb. rewrite rs_scalr.
  change (rsumn m (fun i => (phix i a - rsumn m (fun k => phix k a) / INR m) * (phiy i b - rsumn m (fun l => phiy l b) / INR m))%R) with (rsumn m (fun i => cx i a * cy i b)%R).
  field. auto.
Qed.
Print Assumptions C89_features.

(* ---------- p-values ---------- *)
(** Between 1 / (B + 1) and 1. *)
Theorem C89_pvalue_range : forall s null, (/ INR (1 + length null) <= mc_pvalue s null <= 1)%R.
Proof.
  intros s null. unfold mc_pvalue. set (c := length (filter (exceeds s) null)). set (B := length null).
  assert (c <= B) as L. { unfold c, B. clear. induction null as [|x l IH]; simpl; auto. destruct (exceeds s x); simpl; lia. }
  assert (0 < INR (1 + B))%R as P by (apply lt_0_INR; lia). assert (0 < / INR (1 + B))%R as PI by (apply Rinv_0_lt_compat; auto).
  assert (1 <= INR (1 + c))%R as C1 by (apply (le_INR 1); lia). assert (INR (1 + c) <= INR (1 + B))%R as C2 by (apply le_INR; lia).
  unfold Rdiv. split.
  - rewrite <- (Rmult_1_l (/ _)) at 1. apply Rmult_le_compat_r; lra.
  - rewrite <- (Rinv_r (INR (1 + B))) by lra. apply Rmult_le_compat_r; lra.
Qed.
Print Assumptions C89_pvalue_range.

(** Exactness: of any different values, each of which is equally likely to be the
    observed one, at most the fraction t gets a p-value of at most t. *)
Definition others (v : list R) (k : nat) : list R := firstn k v ++ skipn (S k) v.
Definition pvalue_of (v : list R) (k : nat) : R := mc_pvalue (Some (nth k v 0%R)) (map Some (others v k)).
Definition rejections (v : list R) (t : R) : nat := length (filter (fun k => if Rle_dec (pvalue_of v k) t then true else false) (seq 0 (length v))).
Definition rank (v : list R) (x : R) : nat := length (filter (fun y => if Rlt_dec x y then true else false) v).

Lemma split_at : forall (v : list R) k, k < length v -> v = firstn k v ++ nth k v 0%R :: skipn (S k) v.
Proof.
  induction v as [|x v IH]; intros [|k] H; simpl in *; try lia; auto. f_equal. apply (IH k). lia.
Qed.
Lemma pvalue_rank : forall v k, k < length v -> pvalue_of v k = (INR (1 + rank v (nth k v 0)) / INR (length v))%R.
Proof.
  intros v k Hk. unfold pvalue_of, mc_pvalue, rank.
  assert (length (others v k) = length v - 1) as L by (unfold others; rewrite app_length, firstn_length, skipn_length; lia).
  rewrite map_length, L. replace (1 + (length v - 1)) with (length v) by lia. do 2 f_equal. set (x := nth k v 0%R).
  rewrite (split_at v k Hk) at 2. fold x. rewrite filter_app, app_length. cbn [filter]. destruct (Rlt_dec x x); [exfalso; lra|].
  unfold others. rewrite map_app, filter_app, app_length.
  assert (forall l, length (filter (exceeds (Some x)) (map Some l)) = length (filter (fun y => if Rlt_dec x y then true else false) l)) as E.
  { induction l as [|y l IH]; auto. cbn [map filter exceeds]. destruct (Rlt_dec x y); cbn [length]; auto. }
  rewrite !E. auto.
Qed.
Lemma rank_lt : forall v x y, (x < y)%R -> In y v -> rank v y < rank v x.
Proof.
  intros v x y L I. unfold rank. induction v as [|z v IH]; [destruct I|].
  assert (forall v, length (filter (fun w => if Rlt_dec y w then true else false) v) <= length (filter (fun w => if Rlt_dec x w then true else false) v)) as W.
  { clear - L. induction v as [|w v IH]; auto. cbn [filter]. destruct (Rlt_dec y w), (Rlt_dec x w); cbn [length]; try lia. exfalso. lra. }
  cbn [filter]. destruct I as [->|I].
  - destruct (Rlt_dec y y); [exfalso; lra|]. destruct (Rlt_dec x y); [|contradiction]. cbn [length]. specialize (W v). lia.
  - specialize (IH I). destruct (Rlt_dec y z), (Rlt_dec x z); cbn [length]; try lia; exfalso; lra.
Qed.
Lemma nodup_bound : forall l : list nat, NoDup l -> l <> [] -> exists x, In x l /\ length l <= S x.
Proof.
  intros l N NE. destruct (existsb (fun x => Nat.leb (length l) (S x)) l) eqn:E.
  - apply existsb_exists in E. destruct E as [x [I L]]. apply Nat.leb_le in L. exists x. auto.
  - exfalso. assert (incl l (seq 0 (length l - 1))) as I.
    { intros x Hx. apply in_seq. destruct (Nat.le_gt_cases (length l) (S x)) as [L|L]; [|lia]. exfalso.
      assert (existsb (fun x => Nat.leb (length l) (S x)) l = true) as T; [|congruence]. apply existsb_exists. exists x. split; auto. apply Nat.leb_le. auto. }
    pose proof (NoDup_incl_length N I) as B. rewrite seq_length in B. destruct l; [contradiction|]. simpl in B. lia.
Qed.
Theorem C89_exact : forall v t, NoDup v -> (0 <= t)%R -> (INR (rejections v t) <= t * INR (length v))%R.
Proof.
  intros v t ND Ht. unfold rejections. set (ks := filter _ _).
  destruct ks as [|k0 ks'] eqn:E; [simpl; apply Rmult_le_pos; auto; apply pos_INR|]. rewrite <- E. set (L := ks) in *.
  assert (forall k, In k L -> k < length v /\ (INR (1 + rank v (nth k v 0)) <= t * INR (length v))%R) as P.
  { intros k Hk. unfold L, ks in Hk. apply filter_In in Hk. destruct Hk as [Hk Hp]. apply in_seq in Hk. split; [lia|].
    rewrite pvalue_rank in Hp by lia. destruct (Rle_dec _ t) as [Q|]; [|discriminate].
    assert (0 < INR (length v))%R as PN by (apply lt_0_INR; lia).
    apply (Rmult_le_compat_r (INR (length v))) in Q; [|lra]. unfold Rdiv in Q. rewrite Rmult_assoc, Rinv_l, Rmult_1_r in Q by lra. auto. }
  assert (NoDup (map (fun k => rank v (nth k v 0%R)) L)) as NM.
  { assert (NoDup L) as NL by (apply NoDup_filter, seq_NoDup). clear - ND NL P. induction L as [|k L IH]; simpl; [constructor|]. inversion NL; subst.
    constructor; [|apply IH; auto; intros; apply P; right; auto]. intro I. apply in_map_iff in I. destruct I as [k' [Ek Hk']].
    destruct (P k (or_introl eq_refl)) as [B1 _]. destruct (P k' (or_intror Hk')) as [B2 _].
    assert (nth k v 0%R = nth k' v 0%R) as EV.
    { destruct (Rtotal_order (nth k v 0%R) (nth k' v 0%R)) as [C|[C|C]]; auto; exfalso.
      - pose proof (rank_lt v _ _ C (nth_In v 0%R B2)). lia.
      - pose proof (rank_lt v _ _ C (nth_In v 0%R B1)). lia. }
    apply (proj1 (NoDup_nth v 0%R) ND) in EV; auto. subst. auto. }
  destruct (nodup_bound _ NM) as [x [Hx Lx]]; [rewrite E; discriminate|]. rewrite map_length in Lx.
  apply in_map_iff in Hx. destruct Hx as [k [<- Hk]]. destruct (P k Hk) as [_ Q]. apply le_INR in Lx. simpl in Q. simpl in Lx. lra.
Qed.
Print Assumptions C89_exact.

(** With ties it fails: a null value equal to the observed one is not counted. *)
Theorem C89_exact_refuted : exists v t, (0 <= t)%R /\ (t * INR (length v) < INR (rejections v t))%R.
Proof.
  exists [0; 0]%R, (/ 2)%R. split; [lra|].
  assert (forall k, k < 2 -> pvalue_of [0; 0]%R k = (/ 2)%R) as E.
  { intros k Hk. rewrite pvalue_rank by auto. unfold rank.
    assert (nth k [0; 0]%R 0%R = 0%R) as -> by (destruct k as [|[|k]]; auto; lia). cbn [filter]. destruct (Rlt_dec 0 0); [exfalso; lra|]. simpl. lra. }
  unfold rejections. simpl seq. cbn [filter]. rewrite !E by lia. destruct (Rle_dec (/ 2) (/ 2)); [|exfalso; lra]. simpl. lra.
Qed.
Print Assumptions C89_exact_refuted.

(** So a constant variable, which is independent of everything, always gets the
    smallest p-value that is possible. *)
Lemma mc_ties : forall s null, (forall v, In v null -> v = s) -> mc_pvalue s null = (/ INR (1 + length null))%R.
Proof.
  intros s null H. unfold mc_pvalue. assert (filter (exceeds s) null = []) as ->; [|simpl length; unfold Rdiv; change (INR (1 + 0)) with 1%R; ring].
  induction null as [|v null IH]; auto. cbn [filter]. rewrite (H v (or_introl eq_refl)).
  assert (exceeds s s = false) as -> by (destruct s as [x|]; auto; simpl; destruct (Rlt_dec x x); auto; exfalso; lra). apply IH. intros w Hw. apply H. right. auto.
Qed.
Lemma mapE_const : forall {A B} (f : A -> res B) l b, (forall a, In a l -> f a = Ok b) -> mapE f l = Ok (repeat b (length l)).
Proof.
  intros A B f l b. induction l as [|a l IH]; intro H; auto. simpl. rewrite (H a (or_introl eq_refl)). simpl. rewrite IH by (intros; apply H; right; auto). auto.
Qed.
Theorem C89_constant : forall m unbiased Kx c perms,
  permutation_pvalue m unbiased (Kernels Kx (fun _ _ => c)) perms = Ok (/ INR (1 + length perms))%R.
Proof.
  intros m unbiased Kx c perms. unfold permutation_pvalue. cbn [statistic rbind]. set (s := if unbiased then _ else _).
  rewrite (mapE_const _ perms s) by (intros; reflexivity). cbn [rbind]. rewrite mc_ties; [rewrite repeat_length; auto|].
  intros v Hv. apply repeat_spec in Hv. auto.
Qed.
Print Assumptions C89_constant.

(** Its estimates are 0, as they should be. *)
Theorem C89_constant_statistic : forall m unbiased Kx c, 4 <= m -> symmetric_matrix m Kx -> statistic m unbiased (Kernels Kx (fun _ _ => c)) = Ok (Some 0%R).
Proof.
  intros m unbiased Kx c Hm Sx. assert (0 < m) as H0 by lia. pose proof (N_nz m H0) as NZ.
  assert (4 <= INR m)%R as G4 by (replace 4%R with (INR 4) by (simpl; ring); apply le_INR; auto).
  unfold statistic. f_equal. destruct unbiased.
  - unfold hsic_u. destruct (Nat.leb_spec m 3); [lia|]. f_equal. cbv zeta. set (k := zero_diag Kx). set (l := zero_diag (fun _ _ => c)).
    assert (forall K, symmetric_matrix m K -> sym m (zero_diag K)) as Z by (intros K S i j Hi Hj; unfold zero_diag; rewrite (Nat.eqb_sym j i); destruct (Nat.eqb i j); auto).
    destruct (u_terms m k l (Z _ Sx) (Z (fun _ _ => c) ltac:(intros i j _ _; auto))) as [-> [-> [-> ->]]].
    assert (forall i, i < m -> rsumn m (fun j => l i j) = ((INR m - 1) * c)%R) as RL.
    { intros i Hi. unfold l, zero_diag. rewrite (rs_ext m _ (fun j => c - (if Nat.eqb i j then 1 else 0) * c)%R) by (intros j Hj; destruct (Nat.eqb i j); ring).
      rewrite rs_minus, rs_const, (rs_delta m i (fun _ => c)) by auto. ring. }
    assert (forall i, i < m -> rsumn m (fun j => k i j * l i j)%R = (c * rsumn m (fun j => k i j))%R) as RA.
    { intros i Hi. rewrite <- rs_scal. apply rs_ext. intros j Hj. unfold k, l, zero_diag. destruct (Nat.eqb i j); ring. }
    rewrite (rs_ext m _ _ RA), rs_scal. rewrite (rs_ext m (fun i => rsumn m (fun j => k i j) * rsumn m (fun j => l i j))%R (fun i => rsumn m (fun j => k i j) * ((INR m - 1) * c))%R) by (intros; rewrite RL; auto).
    rewrite rs_scalr. rewrite (rs_ext m (fun i => rsumn m (fun j => l i j)) (fun _ => (INR m - 1) * c)%R) by (intros; apply RL; auto). rewrite rs_const. field. lra.
  - destruct (C89_biased m Kx (fun _ _ => c) H0 Sx ltac:(intros i j _ _; auto)) as [_ ->]. f_equal. unfold hsic_stat.
    assert (sum_prod m (fun i j => centered m Kx j i) (centered m (fun _ _ => c)) = 0%R) as ->; [|unfold Rdiv; ring].
    unfold sum_prod. apply rs_zero. intros i Hi. apply rs_zero. intros j Hj. rewrite (centered_formula m H0 (fun _ _ => c)) by auto. rewrite !rs_const. rewrite (Rmult_comm _ (_ - _ - _ + _)%R).
    replace (c - INR m * c / INR m - INR m * c / INR m + INR m * (INR m * c) / (INR m * INR m))%R with 0%R by (field; auto). ring.
Qed.
Print Assumptions C89_constant_statistic.

(** The spectral test does the same, whatever the draws, once the eigenvalues of the
    centred constant kernel are 0. *)
Theorem C89_constant_spectral : forall eig ns m Kx c zs unbiased, 4 <= m -> symmetric_matrix m Kx -> (forall e, In e (snd (eig (Kernels Kx (fun _ _ => c)))) -> e = 0%R) ->
  spectral_pvalue eig ns m unbiased (Kernels Kx (fun _ _ => c)) zs = Ok (/ INR (1 + length zs))%R.
Proof.
  intros eig ns m Kx c zs unbiased Hm Sx HE. unfold spectral_pvalue. rewrite C89_constant_statistic by auto. cbn [rbind].
  destruct (eig (Kernels Kx (fun _ _ => c))) as [lx ly] eqn:E. cbn [snd] in HE. f_equal. rewrite mc_ties; [rewrite map_length; auto|].
  intros v Hv. apply in_map_iff in Hv. destruct Hv as [z [<- _]]. f_equal. rewrite Rmult_0_r. unfold spectral_null. apply rs_zero. intros a Ha.
  rewrite rs_zero; [ring|]. intros b Hb. rewrite (HE (nth b ly 0%R)) by (apply nth_In; auto). ring.
Qed.
Print Assumptions C89_constant_spectral.

(** What both tests compute, in terms of the samples [x] and [y] and a symmetric kernel
    for each variable: the share of permutations, counting the data themselves, whose
    estimate is larger. *)
Definition kernel_of {A : Type} (k : A -> A -> R) (x : nat -> A) : rmat := fun i j => k (x i) (x j).
Definition larger (a : R) {A : Type} (f : A -> R) (l : list A) : nat := length (filter (fun p => if Rlt_dec a (f p) then true else false) l).
Lemma mapE_ok : forall {A B} (f : A -> res B) (g : A -> B) l, (forall a, f a = Ok (g a)) -> mapE f l = Ok (map g l).
Proof.
  intros A B f g l H. induction l as [|a l IH]; auto. simpl. rewrite H. simpl. rewrite IH. auto.
Qed.
Lemma mc_count : forall {A} (c a : R) (f : A -> R) (l : list A), (0 < c)%R -> mc_pvalue (Some (c * a)%R) (map (fun p => Some (c * f p)%R) l) = (INR (1 + larger a f l) / INR (1 + length l))%R.
Proof.
  intros A c a f l Hc. unfold mc_pvalue, larger. rewrite map_length. do 3 f_equal. induction l as [|p l IH]; auto. cbn [map filter exceeds].
  destruct (Rlt_dec (c * a) (c * f p)) as [P|P], (Rlt_dec a (f p)) as [Q|Q]; cbn [length]; auto; exfalso.
  - apply Q. apply (Rmult_lt_reg_l c); auto.
  - apply P. apply Rmult_lt_compat_l; auto.
Qed.
Lemma kernel_of_sym : forall {A} m (k : A -> A -> R) x, (forall a b, k a b = k b a) -> symmetric_matrix m (kernel_of k x).
Proof. intros A m k x H i j _ _. apply H. Qed.
Theorem C89_permutation : forall (A B : Type) (kx : A -> A -> R) (ky : B -> B -> R) m x y perms, (forall a b, kx a b = kx b a) -> (forall a b, ky a b = ky b a) ->
  (0 < m -> let value p := hsic_biased m (kernel_of kx x) (kernel_of ky (fun i => y (p i))) in
     permutation_pvalue m false (Kernels (kernel_of kx x) (kernel_of ky y)) perms = Ok (INR (1 + larger (value (fun i => i)) value perms) / INR (1 + length perms))%R) /\
  (4 <= m -> let value p := hsic_unbiased m (kernel_of kx x) (kernel_of ky (fun i => y (p i))) in
     permutation_pvalue m true (Kernels (kernel_of kx x) (kernel_of ky y)) perms = Ok (INR (1 + larger (value (fun i => i)) value perms) / INR (1 + length perms))%R).
Proof.
  intros A B kx ky m x y perms Hx Hy. split; intros Hm value; unfold permutation_pvalue.
  - set (c := (INR m * INR m)%R). assert (0 < c)%R as Hc by (apply Rmult_lt_0_compat; apply lt_0_INR; auto).
    assert (forall p, statistic m false (shuffled p (Kernels (kernel_of kx x) (kernel_of ky y))) = Ok (Some (c * value p)%R)) as E.
    { intro p. unfold statistic, shuffled. f_equal.
      change (fun i j => kernel_of ky y (p i) (p j)) with (kernel_of ky (fun i => y (p i))). apply C89_biased; auto; apply kernel_of_sym; auto. }
    rewrite (mapE_ok _ (fun p => Some (c * value p)%R)) by exact E.
    change (Kernels (kernel_of kx x) (kernel_of ky y)) with (shuffled (fun i => i) (Kernels (kernel_of kx x) (kernel_of ky y))). rewrite E. cbn [rbind]. rewrite mc_count by auto. auto.
  - assert (forall p, statistic m true (shuffled p (Kernels (kernel_of kx x) (kernel_of ky y))) = Ok (Some (1 * value p)%R)) as E.
    { intro p. unfold statistic, shuffled. f_equal.
      change (fun i j => kernel_of ky y (p i) (p j)) with (kernel_of ky (fun i => y (p i))). rewrite Rmult_1_l. apply C89_unbiased; auto; apply kernel_of_sym; auto. }
    rewrite (mapE_ok _ (fun p => Some (1 * value p)%R)) by exact E.
    change (Kernels (kernel_of kx x) (kernel_of ky y)) with (shuffled (fun i => i) (Kernels (kernel_of kx x) (kernel_of ky y))). rewrite E. cbn [rbind]. rewrite mc_count by lra. auto.
Qed.
Print Assumptions C89_permutation.

(** The spectral test compares n times the statistic with weighted sums of the draws:
    n m^2 times the biased, but only n times the unbiased estimate, for the same
    eigenvalues of the unscaled matrices. *)
Definition weighted (lx ly : list R) (w : nat -> nat -> R) : R :=
  sumRn (length lx) (fun a => sumRn (length ly) (fun b => nth a lx 0 * nth b ly 0 * w a b))%R.
Theorem C89_spectral : forall eig ns m Kx Ky zs lx ly, symmetric_matrix m Kx -> symmetric_matrix m Ky -> eig (Kernels Kx Ky) = (lx, ly) ->
  (0 < m -> spectral_pvalue eig ns m false (Kernels Kx Ky) zs =
     Ok (INR (1 + larger (INR ns * (INR m * INR m * hsic_biased m Kx Ky)) (weighted lx ly) zs) / INR (1 + length zs))%R) /\
  (4 <= m -> spectral_pvalue eig ns m true (Kernels Kx Ky) zs =
     Ok (INR (1 + larger (INR ns * hsic_unbiased m Kx Ky) (fun z => weighted lx ly (fun a b => z a b - 1)) zs) / INR (1 + length zs))%R).
Proof.
  intros eig ns m Kx Ky zs lx ly Sx Sy He.
  assert (forall u z, spectral_null u lx ly z = weighted lx ly (fun a b => z a b - (if u then 1 else 0))%R) as W.
  { intros u z. unfold spectral_null, weighted. rewrite rsumn_sumR. apply sum_ext. intros a Ha. rewrite rsumn_sumR, <- sum_scal. apply sum_ext. intros b Hb. ring. }
  assert (forall s u, mc_pvalue (Some (INR ns * s)%R) (map (fun z => Some (spectral_null u lx ly z)) zs)
    = (INR (1 + larger (INR ns * s) (fun z => weighted lx ly (fun a b => z a b - (if u then 1 else 0))%R) zs) / INR (1 + length zs))%R) as M.
  { intros s u. rewrite <- (Rmult_1_l (INR ns * s)%R) at 1. rewrite <- (mc_count 1%R) by lra. f_equal. apply map_ext. intro z. rewrite W. f_equal. ring. }
  split; intro Hm; unfold spectral_pvalue, statistic; cbn [rbind]; rewrite He.
  - destruct (C89_biased m Kx Ky Hm Sx Sy) as [-> _]. cbv iota. rewrite M. unfold larger. erewrite filter_ext; [reflexivity|]. intro z. cbv beta.
    assert (weighted lx ly (fun a b => z a b - 0)%R = weighted lx ly z) as ->; auto. unfold weighted. apply sum_ext. intros a Ha. apply sum_ext. intros b Hb. ring.
  - rewrite (C89_unbiased m Kx Ky Hm Sx Sy). cbv iota. rewrite M. auto.
Qed.
Print Assumptions C89_spectral.

(** Random features with the unbiased estimate, the default of the permutation test:
    the function does not exist. *)
Theorem C89_features_unbiased : forall m dx phix dy phiy perms, permutation_pvalue m true (Features dx phix dy phiy) perms = Err AttributeError.
Proof. reflexivity. Qed.
Print Assumptions C89_features_unbiased.

(** The estimates do not depend on the order of the samples. *)
Definition reordered_representation (p : nat -> nat) (r : representation) : representation :=
  match r with Kernels Kx Ky => Kernels (fun i j => Kx (p i) (p j)) (fun i j => Ky (p i) (p j))
  | Features dx phix dy phiy => Features dx (fun i c => phix (p i) c) dy (fun i c => phiy (p i) c) end.
Theorem C89_sample_order : forall m p unbiased r, Permutation (map p (seq 0 m)) (seq 0 m) -> statistic m unbiased (reordered_representation p r) = statistic m unbiased r.
Proof.
  intros m p unbiased r Hp. destruct r as [Kx Ky|dx phix dy phiy]; simpl.
  - f_equal. destruct unbiased.
    + unfold hsic_u. destruct (Nat.leb m 3); auto. cbv zeta.
      assert (forall K, agree m m (zero_diag (fun i j => K (p i) (p j))) (fun i j => zero_diag K (p i) (p j))) as Z.
      { intros K i j Hi Hj. unfold zero_diag. destruct (Nat.eqb_spec i j) as [->|D]; [rewrite Nat.eqb_refl; auto|].
        destruct (Nat.eqb_spec (p i) (p j)) as [E|]; auto. exfalso. apply D. apply (p_inj m p Hp); auto. }
      assert (forall K, sum_all m (zero_diag (fun i j => K (p i) (p j))) = sum_all m (zero_diag K)) as SA.
      { intro K. unfold sum_all. rewrite <- (sum2_both m p Hp (fun i j => zero_diag K i j)). apply rs_ext2. intros. apply Z; auto. }
      assert (agree m m (rdot m (zero_diag (fun i j => Kx (p i) (p j))) (zero_diag (fun i j => Ky (p i) (p j)))) (fun i j => rdot m (zero_diag Kx) (zero_diag Ky) (p i) (p j))) as RD.
      { intros i j Hi Hj. rewrite (rdot_ext m _ _ _ _ (Z Kx) (Z Ky)) by auto. unfold rdot. apply (rsumn_perm m p Hp (fun k => zero_diag Kx (p i) k * zero_diag Ky k (p j))%R). }
      rewrite !SA. rewrite (rtrace_ext m _ _ RD). unfold rtrace. rewrite (rsumn_perm m p Hp (fun i => rdot m (zero_diag Kx) (zero_diag Ky) i i)).
      assert (sum_all m (rdot m (zero_diag (fun i j => Kx (p i) (p j))) (zero_diag (fun i j => Ky (p i) (p j)))) = sum_all m (rdot m (zero_diag Kx) (zero_diag Ky))) as ->; auto.
      unfold sum_all. rewrite <- (sum2_both m p Hp (fun i j => rdot m (zero_diag Kx) (zero_diag Ky) i j)). apply rs_ext2. intros. apply RD; auto.
    + unfold hsic_v. destruct (Nat.eqb m 0); auto. f_equal.
      assert (forall K i j, center_real m (fun i j => K (p i) (p j)) i j = center_real m K (p i) (p j)) as C.
      { intros K i j. unfold center_real. cbv zeta. rewrite (rsumn_perm m p Hp (fun k => K k (p j))), (rsumn_perm m p Hp (fun k => K k (p i))).
        do 2 f_equal. rewrite <- (rsumn_perm m p Hp (fun j => rsumn m (fun k => K k j))). apply rs_ext. intros b Hb. apply (rsumn_perm m p Hp (fun k => K k (p b))). }
      unfold sum_prod. rewrite <- (sum2_both m p Hp (fun i j => center_real m Kx i j * center_real m Ky i j)%R). apply rs_ext2. intros. rewrite !C. auto.
  - destruct unbiased; auto. f_equal. unfold hsic_v_rff. destruct (Nat.eqb m 0); auto. f_equal. apply rs_ext2. intros a b Ha Hb. cbv zeta.
    rewrite (rsumn_perm m p Hp (fun k => phix k a)), (rsumn_perm m p Hp (fun k => phiy k b)).
    rewrite (rsumn_perm m p Hp (fun i => (phix i a - rsumn m (fun k => phix k a) / INR m) * (phiy i b - rsumn m (fun k => phiy k b) / INR m))%R). auto.
Qed.
Print Assumptions C89_sample_order.

(** Four samples in two pairs, compared with themselves: the unbiased estimate. *)
Definition two_pairs : rmat := fun i j => if Nat.eqb (i / 2) (j / 2) then 1%R else 0%R.
Example C89_example : symmetric_matrix 4 two_pairs /\ hsic_u 4 two_pairs two_pairs = Some (2 / 3)%R /\ statistic 4 false (Kernels two_pairs two_pairs) = Ok (Some 4%R).
Proof.
  assert (symmetric_matrix 4 two_pairs) as S by (intros i j _ _; unfold two_pairs; rewrite Nat.eqb_sym; auto). split; auto. split.
  - unfold hsic_u. simpl Nat.leb. cbv iota zeta. f_equal. unfold rtrace, rdot, sum_all, rsumn, zero_diag, two_pairs. cbn. field.
  - unfold statistic. f_equal. unfold hsic_v. simpl Nat.eqb. cbv iota. f_equal. unfold sum_prod, center_real, rsumn, two_pairs. cbn. field.
Qed.
(** The same kernel with two samples exchanged has estimate 0; exchanging them back
    gives a larger one, so both p-values of this single permutation occur. *)
Definition middle (i : nat) : nat := match i with 1 => 2 | 2 => 1 | _ => i end.
Definition crossed : rmat := fun i j => two_pairs (middle i) (middle j).
Example C89_example_permutation : two_pairs = kernel_of (fun a b => if Nat.eqb a b then 1%R else 0%R) (fun i => i / 2) /\
  permutation_pvalue 4 false (Kernels two_pairs two_pairs) [middle] = Ok (1 / 2)%R /\
  permutation_pvalue 4 false (Kernels two_pairs crossed) [middle] = Ok (2 / 2)%R.
Proof.
  assert (hsic_v 4 two_pairs crossed = Some 0%R) as E0.
  { unfold hsic_v. simpl Nat.eqb. cbv iota. f_equal. unfold sum_prod, center_real, rsumn, crossed, two_pairs. cbn. field. }
  assert (hsic_v 4 two_pairs two_pairs = Some 4%R) as E4.
  { unfold hsic_v. simpl Nat.eqb. cbv iota. f_equal. unfold sum_prod, center_real, rsumn, two_pairs. cbn. field. }
  assert (hsic_v 4 two_pairs (fun i j => crossed (middle i) (middle j)) = Some 4%R) as E4'.
  { unfold hsic_v. simpl Nat.eqb. cbv iota. f_equal. unfold sum_prod, center_real, rsumn, crossed, two_pairs. cbn. field. }
  split; [reflexivity|]. split; unfold permutation_pvalue, statistic, shuffled; cbn [rbind mapE].
  - change (fun i j => two_pairs (middle i) (middle j)) with crossed. rewrite E0, E4. cbn [rbind]. f_equal. unfold mc_pvalue. cbn [filter exceeds].
    destruct (Rlt_dec 4 0); [exfalso; lra|]. simpl. lra.
  - rewrite E4', E0. cbn [rbind]. f_equal. unfold mc_pvalue. cbn [filter exceeds]. destruct (Rlt_dec 0 4); [|exfalso; lra]. simpl. lra.
Qed.
