(** The additive-noise score. *)

From Coq Require Import List Arith Lia Bool Permutation Reals Lra.
From Verif Require Import Model.Py Model.LocalScore Model.KCI Model.HSIC Spec.Scores Spec.KCISpec Spec.KernelSpec Proofs.BicFacts Proofs.PopulationFacts
  Proofs.KCIFacts Proofs.GaussianFacts Proofs.HSICFacts.
Import ListNotations.
Open Scope nat_scope.

(* ---------- the selected rows ---------- *)
Lemma subsample_len : forall m q, 2 <= q -> q < m -> length (subsample m q) = q.
Proof.
  intros m q Hq Hm. unfold subsample. rewrite map_length, seq_length.
  replace (m * (q - 1) + (m - 1) - 1) with (m - 1 + (q - 1) - 1 + (q - 1) * (m - 1)) by nia.
  rewrite Nat.div_add by lia. assert ((m - 1 + (q - 1) - 1) / (m - 1) = 1) as ->; [|lia].
  symmetry. apply (Nat.div_unique _ _ 1 (q - 1 - 1)); lia.
Qed.
Lemma subsample_nth : forall m q k, 2 <= q -> q < m -> k < q -> nth k (subsample m q) 0 = k * (m - 1) / (q - 1).
Proof.
  intros m q k Hq Hm Hk. pose proof (subsample_len m q Hq Hm) as L. unfold subsample in *. rewrite map_length, seq_length in L. rewrite L.
  rewrite (nth_indep _ 0 ((fun k => k * (m - 1) / (q - 1)) 0)) by (rewrite map_length, seq_length; auto).
  rewrite (map_nth (fun k => k * (m - 1) / (q - 1))), seq_nth by auto. auto.
Qed.

(** The rows on which the statistic is computed. *)
Definition chosen (m maxpnt : nat) : list nat := if Nat.ltb maxpnt m then subsample m maxpnt else seq 0 m.
Lemma fast_chosen : forall m dx X dy Y q, fast_hsic m dx X dy Y q =
  match median_kernel (length (chosen m q)) dx (fun i c => X (nth i (chosen m q) 0) c), median_kernel (length (chosen m q)) dy (fun i c => Y (nth i (chosen m q) 0) c) with
  | Some K, Some L => hsic_stat (length (chosen m q)) K L | _, _ => 0%R end.
Proof. reflexivity. Qed.
Lemma chosen_lt : forall m q i, 2 <= q -> i < length (chosen m q) -> nth i (chosen m q) 0 < m.
Proof.
  intros m q i Hq. unfold chosen. destruct (Nat.ltb_spec q m) as [L|L]; intro Hi.
  - rewrite subsample_len in Hi by auto. rewrite subsample_nth by auto. apply Nat.div_lt_upper_bound; [lia|]. nia.
  - rewrite seq_length in Hi. rewrite seq_nth by auto. lia.
Qed.

Lemma fast_kernels : forall m dx dx' X X' dy dy' Y Y' q,
  same_kernel (length (chosen m q)) (median_kernel (length (chosen m q)) dx' (fun i c => X' (nth i (chosen m q) 0) c)) (median_kernel (length (chosen m q)) dx (fun i c => X (nth i (chosen m q) 0) c)) ->
  same_kernel (length (chosen m q)) (median_kernel (length (chosen m q)) dy' (fun i c => Y' (nth i (chosen m q) 0) c)) (median_kernel (length (chosen m q)) dy (fun i c => Y (nth i (chosen m q) 0) c)) ->
  fast_hsic m dx' X' dy' Y' q = fast_hsic m dx X dy Y q.
Proof.
  intros m dx dx' X X' dy dy' Y Y' q HX HY. rewrite !fast_chosen.
  destruct (median_kernel _ dx' _) as [K'|], (median_kernel _ dx _) as [K|]; simpl in HX; try contradiction; auto.
  destruct (median_kernel _ dy' _) as [L'|], (median_kernel _ dy _) as [L|]; simpl in HY; try contradiction; auto. apply stat_ext; auto.
Qed.
Lemma fast_dists : forall m dx dx' X X' dy dy' Y Y' q a b, 2 <= q -> (0 < a)%R -> (0 < b)%R ->
  (forall i j, i < m -> j < m -> dist2 dx' X' i j = (a * dist2 dx X i j)%R) -> (forall i j, i < m -> j < m -> dist2 dy' Y' i j = (b * dist2 dy Y i j)%R) ->
  fast_hsic m dx' X' dy' Y' q = fast_hsic m dx X dy Y q.
Proof.
  intros m dx dx' X X' dy dy' Y Y' q a b Hq Ha Hb HX HY. apply fast_kernels.
  - apply (kernel_dists _ _ _ _ _ a Ha). intros i j Hi Hj. apply (HX (nth i (chosen m q) 0) (nth j (chosen m q) 0)); apply chosen_lt; auto.
  - apply (kernel_dists _ _ _ _ _ b Hb). intros i j Hi Hj. apply (HY (nth i (chosen m q) 0) (nth j (chosen m q) 0)); apply chosen_lt; auto.
Qed.
Lemma fast_comm : forall m dx X dy Y q, fast_hsic m dx X dy Y q = fast_hsic m dy Y dx X q.
Proof.
  intros. rewrite !fast_chosen. destruct (median_kernel _ dx _) as [K|]; destruct (median_kernel _ dy _) as [L|]; auto. apply stat_comm.
Qed.
Lemma fast_const : forall m dx X dy Y q, 2 <= q -> constant_data m dx X -> fast_hsic m dx X dy Y q = 0%R.
Proof.
  intros m dx X dy Y q Hq H. rewrite fast_chosen.
  assert (median_kernel (length (chosen m q)) dx (fun i c => X (nth i (chosen m q) 0) c) = None) as ->; auto.
  apply median_kernel_none. intros i j c Hi Hj Hc. apply H; auto; apply chosen_lt; auto.
Qed.
Lemma fast_nonneg : forall m dx X dy Y q, (0 <= fast_hsic m dx X dy Y q)%R.
Proof.
  intros. rewrite fast_chosen. destruct (median_kernel _ dx _) as [K|] eqn:HK; [|lra]. destruct (median_kernel _ dy _) as [L|] eqn:HL; [|lra].
  apply median_kernel_inv in HK, HL. destruct HK as [w [Hw [-> _]]], HL as [u [Hu [-> _]]]. apply hsic_stat_nonneg; auto.
Qed.
Lemma fast_small : forall m dx X dy Y q, m <= q ->
  fast_hsic m dx X dy Y q = match median_kernel m dx X, median_kernel m dy Y with Some K, Some L => hsic_stat m K L | _, _ => 0%R end.
Proof.
  intros m dx X dy Y q Hm. rewrite fast_chosen. assert (chosen m q = seq 0 m) as -> by (unfold chosen; destruct (Nat.ltb_spec q m); auto; lia).
  rewrite seq_length.
  assert (forall d Z, same_kernel m (median_kernel m d (fun i c => Z (nth i (seq 0 m) 0) c)) (median_kernel m d Z)) as S.
  { intros d Z. apply (kernel_dists _ _ _ _ _ 1%R); [lra|]. intros i j Hi Hj. unfold dist2. rewrite !seq_nth by auto. simpl. ring. }
  pose proof (S dx X) as SX. pose proof (S dy Y) as SY.
  destruct (median_kernel m dx (fun i c => X (nth i (seq 0 m) 0) c)) as [K'|], (median_kernel m dx X) as [K|]; simpl in SX; try contradiction; auto.
  destruct (median_kernel m dy (fun i c => Y (nth i (seq 0 m) 0) c)) as [L'|], (median_kernel m dy Y) as [L|]; simpl in SY; try contradiction; auto. apply stat_ext; auto.
Qed.
Lemma fast_rows : forall m p dx X dy Y q, m <= q -> Permutation (map p (seq 0 m)) (seq 0 m) ->
  fast_hsic m dx (rows p X) dy (rows p Y) q = fast_hsic m dx X dy Y q.
Proof.
  intros m p dx X dy Y q Hm Hp. rewrite !fast_small by auto. rewrite !(median_kernel_rows m p Hp).
  destruct (median_kernel m dx X) as [K|]; auto. destruct (median_kernel m dy Y) as [L|]; auto. apply (stat_both m p Hp).
Qed.

(* ---------- normalisation ---------- *)
Lemma std_zero : forall n d X, 0 < n -> 0 < d -> std_all n d X = 0%R -> forall i c, i < n -> c < d -> X i c = mean_all n d X.
Proof.
  intros n d X Hn Hd E i c Hi Hc. unfold std_all in E. cbv zeta in E.
  assert (0 < INR n)%R as PN by (apply lt_0_INR; auto). assert (0 < INR d)%R as PD by (apply lt_0_INR; auto).
  assert (0 < / (INR n * INR d))%R as PI by (apply Rinv_0_lt_compat, Rmult_lt_0_compat; auto).
  set (m := mean_all n d X) in *. set (S := rsumn n _) in E.
  assert (0 <= S)%R as PS by (unfold S; apply rs_nonneg; intros; apply rs_nonneg; intros; apply Rle_0_sqr).
  apply sqrt_eq_0 in E; [|unfold Rdiv; apply Rmult_le_pos; lra]. unfold Rdiv in E. apply Rmult_integral in E. destruct E as [E|E]; [|exfalso; lra].
  pose proof (rs_nonneg_zero n _ (fun a _ => rs_nonneg d _ (fun b _ => Rle_0_sqr (X a b - m)%R)) E i Hi) as Z. cbv beta in Z.
  pose proof (rs_nonneg_zero d _ (fun b _ => Rle_0_sqr (X i b - m)%R) Z c Hc) as Z2. cbv beta in Z2. apply Rsqr_0_uniq in Z2. lra.
Qed.
Lemma std_nonneg : forall n d X, (0 <= std_all n d X)%R.
Proof. intros. unfold std_all. apply sqrt_pos. Qed.
Lemma normalise_dist : forall d X m s i j, s <> 0%R -> dist2 d (fun i c => (X i c - m) / s)%R i j = (/ (s * s) * dist2 d X i j)%R.
Proof. intros d X m s i j Hs. rewrite !dist2_sq, <- rs_scal. apply rs_ext. intros. field. auto. Qed.

(** The normalisation plays no role. *)
Lemma normalized_fast : forall n dx X dy Y, 0 < n -> 0 < dx -> 0 < dy -> normalized_hsic n dx X dy Y = fast_hsic n dx X dy Y 2000.
Proof.
  intros n dx X dy Y Hn Hx Hy. unfold normalized_hsic.
  assert (2 <= 2000) as H2 by (apply Nat.leb_le; reflexivity).
  assert (forall d Z, 0 < d -> std_all n d Z = 0%R -> constant_data n d Z) as C.
  { intros d Z Hd E i j c Hi Hj Hc. rewrite (std_zero n d Z Hn Hd E i c), (std_zero n d Z Hn Hd E j c) by auto. auto. }
  destruct (Req_EM_T (std_all n dx X) 0) as [E|NX]; [rewrite fast_const; auto|].
  destruct (Req_EM_T (std_all n dy Y) 0) as [E|NY]; [rewrite fast_comm, fast_const; auto|].
  assert (forall s, s <> 0%R -> (0 < / (s * s))%R) as P by (intros s Hs; apply Rinv_0_lt_compat; apply Rsqr_pos_lt in Hs; exact Hs).
  apply (fast_dists n dx dx _ _ dy dy _ _ 2000 (/ (std_all n dx X * std_all n dx X))%R (/ (std_all n dy Y * std_all n dy Y))%R); auto;
    intros; apply normalise_dist; auto.
Qed.

(** Broadcasting: every row of differences has the entries p - y i. *)
Lemma broadcast_dist : forall n (p y : nat -> R) i j, dist2 n (fun i j => p j - y i)%R i j = (INR n * dist2 1 (fun i _ => y i) i j)%R.
Proof. intros n p y i j. rewrite !dist2_sq, rs_one, <- rs_const. apply rs_ext. intros. ring. Qed.

Lemma anm_flat : forall gp n x y, 0 < n -> anm_score true gp n x y = fast_hsic n 1 (fun i _ => y i) 1 (fun i _ => x i) 2000.
Proof.
  intros gp n x y Hn. unfold anm_score. cbv zeta iota. rewrite normalized_fast by auto.
  apply (fast_dists n 1 n (fun i _ => y i) (fun i j => gp n x y j - y i)%R 1 1 (fun i _ => x i) (fun i _ => x i) 2000 (INR n) 1%R);
    [apply Nat.leb_le; reflexivity|apply lt_0_INR; auto|lra|intros; apply broadcast_dist|intros; ring].
Qed.
Lemma anm_column : forall gp n x y, 0 < n -> anm_score false gp n x y = fast_hsic n 1 (fun i _ => gp n x y i - y i)%R 1 (fun i _ => x i) 2000.
Proof. intros gp n x y Hn. unfold anm_score. cbv zeta iota. apply normalized_fast; auto. Qed.

(* ---------- scale ---------- *)
Lemma mean_affine1 : forall n x a b, 0 < n -> mean_all n 1 (fun i _ => a * x i + b)%R = (a * mean_all n 1 (fun i _ => x i) + b)%R.
Proof.
  intros n x a b Hn. unfold mean_all. rewrite (rs_ext n _ (fun i => a * x i + b)%R) by (intros; apply rs_one).
  rewrite (rs_ext n (fun i => rsumn 1 (fun _ => x i)) x) by (intros; apply rs_one). rewrite rs_plus, rs_scal, rs_const. simpl INR.
  field. apply not_0_INR. lia.
Qed.
Lemma std_affine1 : forall n x a b, 0 < n -> std_all n 1 (fun i _ => a * x i + b)%R = (Rabs a * std_all n 1 (fun i _ => x i))%R.
Proof.
  intros n x a b Hn. unfold std_all. rewrite mean_affine1 by auto. cbv zeta. set (m := mean_all n 1 (fun i _ => x i)).
  rewrite (rs_ext n _ (fun i => (a * a) * ((x i - m) * (x i - m)))%R) by (intros; rewrite rs_one; ring).
  rewrite (rs_ext n (fun i => rsumn 1 (fun _ => (x i - m) * (x i - m)))%R (fun i => (x i - m) * (x i - m))%R) by (intros; apply rs_one).
  rewrite rs_scal. unfold Rdiv. rewrite Rmult_assoc. rewrite sqrt_mult_alt by apply Rle_0_sqr. f_equal. apply sqrt_Rsqr_abs.
Qed.
Lemma scale_affine : forall n x a b, 0 < n -> (0 < a)%R -> forall i, i < n -> sk_scale n (fun i => a * x i + b)%R i = sk_scale n x i.
Proof.
  intros n x a b Hn Ha i Hi. unfold sk_scale. cbv zeta. rewrite mean_affine1, std_affine1 by auto. rewrite (Rabs_pos_eq a) by lra.
  set (m := mean_all n 1 (fun i _ => x i)). set (s := std_all n 1 (fun i _ => x i)).
  destruct (Req_EM_T s 0) as [E|NE].
  - assert (x i = m) as Em by (apply (std_zero n 1 (fun i _ => x i) Hn ltac:(lia) E i 0); auto).
    rewrite E, Rmult_0_r. destruct (Req_EM_T 0 0); [|contradiction]. rewrite Em. field.
  - destruct (Req_EM_T (a * s) 0) as [Z|_]; [exfalso; apply Rmult_integral in Z; lra|]. field. lra.
Qed.
Lemma scale_neg : forall n x a b, 0 < n -> (a < 0)%R -> forall i, i < n -> sk_scale n (fun i => a * x i + b)%R i = (- sk_scale n x i)%R.
Proof.
  intros n x a b Hn Ha i Hi. unfold sk_scale. cbv zeta. rewrite mean_affine1, std_affine1 by auto. rewrite (Rabs_left a) by auto.
  set (m := mean_all n 1 (fun i _ => x i)). set (s := std_all n 1 (fun i _ => x i)).
  destruct (Req_EM_T s 0) as [E|NE].
  - assert (x i = m) as Em by (apply (std_zero n 1 (fun i _ => x i) Hn ltac:(lia) E i 0); auto).
    rewrite E, Rmult_0_r. destruct (Req_EM_T 0 0); [|contradiction]. rewrite Em. field.
  - destruct (Req_EM_T (- a * s) 0) as [Z|_]; [exfalso; apply Rmult_integral in Z; lra|]. field. lra.
Qed.
(** Scaling is a change of units. *)
Lemma scale_dist : forall n x, exists c, (0 < c)%R /\ forall i j, dist2 1 (fun i _ => sk_scale n x i) i j = (c * dist2 1 (fun i _ => x i) i j)%R.
Proof.
  intros n x. set (s := if Req_EM_T (std_all n 1 (fun i _ => x i)) 0 then 1%R else std_all n 1 (fun i _ => x i)).
  assert (s <> 0%R) as NZ by (unfold s; destruct (Req_EM_T _ 0); auto; lra).
  exists (/ (s * s))%R. split; [apply Rinv_0_lt_compat; apply Rsqr_pos_lt in NZ; exact NZ|].
  intros i j. unfold sk_scale. fold s. apply (normalise_dist 1 (fun i _ => x i)); auto.
Qed.
