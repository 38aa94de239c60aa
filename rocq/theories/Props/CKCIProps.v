(** C95: the kernel-based conditional independence test. *)

From Coq Require Import List Arith Lia Bool Permutation Reals Lra FunctionalExtensionality ClassicalEpsilon.
From Verif Require Import Model.Py Model.LocalScore Model.KCI Model.HSIC Model.Expm Model.CVScore Model.CKCI
  Spec.Scores Spec.KernelSpec Spec.KCISpec Spec.CVSpec Spec.CKCISpec
  Proofs.BicFacts Proofs.KCIFacts Proofs.GaussianFacts Proofs.FrechetFacts Proofs.HSICFacts Proofs.MedianFacts Proofs.ExpmFacts Proofs.CholeskyFacts Proofs.CVFacts
  Proofs.CKCIFacts Proofs.CKCICore Proofs.CKCIEdge Proofs.Spectral.
Import ListNotations.
Open Scope R_scope.

(* ---------- what is computed ---------- *)
(** With a kernel for z: the statistic and the p-value of the paper, for the standardised data,
    the kernel of (x, z / 2), and the residuals of kernel ridge regressions on z. *)
Theorem C95_value : forall gcdf pinv eigs perm gp s n data x y z kz p st,
  (0 < n)%nat -> inverts pinv -> eigensolver eigs -> 0 <= threshold s -> positive_kernel (kernel_x s) -> positive_kernel (kernel_y s) ->
  kernel_z s = Some kz -> positive_kernel kz -> 0 < epsilon_x s -> 0 < epsilon_y s ->
  conditional gcdf pinv eigs perm gp s n data x y z = Ok (Some (p, st)) ->
  exists X Y Z XZ Kx Ky Kz,
    standardised n (length x) (columns data x) X /\ standardised n (length y) (columns data y) Y /\ standardised n (length z) (columns data z) Z /\
    joined n (length x) (length z) X Z XZ /\
    is_kernel (kernel_x s) n (length x + length z) XZ Kx /\ is_kernel (kernel_y s) n (length y) Y Ky /\ is_kernel kz n (length z) Z Kz /\
    kci_answer gcdf n (threshold s) (doubly_centered n Kx) (doubly_centered n Ky) (doubly_centered n Kz) (doubly_centered n Kz)
      (epsilon_x s) (epsilon_y s) p st.
Proof.
  intros gcdf pinv eigs perm gp s n data x y z kz p st Hn Hp He Ht PX PY Ez PZ Hex Hey E.
  destruct (given_answer gcdf pinv eigs perm gp s n data x y z Hn Hp He Ht PX PY kz p st Ez PZ Hex Hey E) as (Kx & Ky & Kz & EX & EY & EZ & A & _).
  exists (zscore n (select data x)), (zscore n (select data y)), (zscore n (select data z)). eexists. exists Kx, Ky, Kz.
  split; [apply zscore_spec; auto|]. split; [apply zscore_spec; auto|]. split; [apply zscore_spec; auto|]. split; [apply concat_spec|].
  split; [eapply kernel_spec; eauto|]. split; [eapply kernel_spec; eauto|]. split; [eapply kernel_spec; eauto|].
  eapply answer_ext; [| | | |exact A]; apply center_real_doubly; eapply kernel_sym; eauto.
Qed.
Print Assumptions C95_value.

(** Without one: the same with the two kernels and the noises of Gaussian processes fitted to the
    scaled eigenvectors of the two kernel matrices. *)
Theorem C95_value_process : forall gcdf pinv eigs perm gp s n data x y z p st,
  (0 < n)%nat -> inverts pinv -> eigensolver eigs -> regressor gp n -> 0 <= threshold s -> positive_kernel (kernel_x s) -> positive_kernel (kernel_y s) ->
  kernel_z s = None -> conditional gcdf pinv eigs perm gp s n data x y z = Ok (Some (p, st)) ->
  exists X Y Z XZ Kx Ky wz mx vx my vy,
    standardised n (length x) (columns data x) X /\ standardised n (length y) (columns data y) Y /\ standardised n (length z) (columns data z) Z /\
    joined n (length x) (length z) X Z XZ /\
    is_kernel (kernel_x s) n (length x + length z) XZ Kx /\ is_kernel (kernel_y s) n (length y) Y Ky /\
    process_targets n (threshold s) (doubly_centered n Kx) mx vx /\ process_targets n (threshold s) (doubly_centered n Ky) my vy /\
    kci_answer gcdf n (threshold s) (doubly_centered n Kx) (doubly_centered n Ky) (fst (gp wz mx vx Z)) (fst (gp wz my vy Z))
      (snd (gp wz mx vx Z)) (snd (gp wz my vy Z)) p st /\
    (forall v, kernel_x s = Gaussian (Manual v) -> wz = sqrt (1 / (v * INR (length x + length z)))).
Proof.
  intros gcdf pinv eigs perm gp s n data x y z p st Hn Hp He Hg Ht PX PY Ez E.
  destruct (process_answer gcdf pinv eigs perm gp s n data x y z Hn Hp He Ht PX PY p st Ez Hg E) as (Kx & Ky & wz & mx & vx & my & vy & EX & EY & T1 & T2 & A & _ & W).
  exists (zscore n (select data x)), (zscore n (select data y)), (zscore n (select data z)). eexists. exists Kx, Ky, wz, mx, vx, my, vy.
  assert (CX := center_real_doubly n Kx (kernel_sym _ _ _ _ _ _ EX)). assert (CY := center_real_doubly n Ky (kernel_sym _ _ _ _ _ _ EY)).
  assert (TT : forall K K' m v, agree n n K K' -> process_targets n (threshold s) K m v -> process_targets n (threshold s) K' m v).
  { intros K K' m v HK (w & V & [D1 D23] & Q). exists w, V. split; auto. split; auto. intros i j Hi Hj. rewrite <- HK by auto. auto. }
  split; [apply zscore_spec; auto|]. split; [apply zscore_spec; auto|]. split; [apply zscore_spec; auto|]. split; [apply concat_spec|].
  split; [eapply kernel_spec; eauto|]. split; [eapply kernel_spec; eauto|]. split; [eapply TT; [exact CX|auto]|]. split; [eapply TT; [exact CY|auto]|]. split; [|exact W].
  eapply answer_ext; [exact CX|exact CY| | |exact A]; intros i j _ _; auto.
Qed.
Print Assumptions C95_value_process.

(** The statistic is never negative. *)
Theorem C95_nonneg : forall gcdf pinv eigs perm gp s n data x y z p st,
  (0 < n)%nat -> inverts pinv -> eigensolver eigs -> 0 <= threshold s -> positive_kernel (kernel_x s) -> positive_kernel (kernel_y s) ->
  (forall kz, kernel_z s = Some kz -> positive_kernel kz /\ 0 < epsilon_x s /\ 0 < epsilon_y s) -> (kernel_z s = None -> regressor gp n) ->
  conditional gcdf pinv eigs perm gp s n data x y z = Ok (Some (p, st)) -> 0 <= st.
Proof.
  intros gcdf pinv eigs perm gp s n data x y z p st Hn Hp He Ht PX PY Hz Hg E. destruct (kernel_z s) as [kz|] eqn:Ez.
  - destruct (Hz kz eq_refl) as [PZ [Hex Hey]].
    destruct (given_answer gcdf pinv eigs perm gp s n data x y z Hn Hp He Ht PX PY kz p st Ez PZ Hex Hey E) as (Kx & Ky & Kz & _ & _ & _ & _ & N). auto.
  - destruct (process_answer gcdf pinv eigs perm gp s n data x y z Hn Hp He Ht PX PY p st Ez (Hg eq_refl) E) as (Kx & Ky & wz & mx & vx & my & vy & _ & _ & _ & _ & _ & N & _). auto.
Qed.
Print Assumptions C95_nonneg.

(* ---------- what it depends on ---------- *)
Definition uses_median (s : settings) : Prop := kernel_x s = Gaussian MedianRule \/ kernel_y s = Gaussian MedianRule \/ kernel_z s = Some (Gaussian MedianRule).

Lemma same_inner : forall gcdf pinv eigs perm gp s n data data' x y z kz q,
  (0 < n)%nat -> inverts pinv -> eigensolver eigs -> 0 <= threshold s -> positive_kernel (kernel_x s) -> positive_kernel (kernel_y s) ->
  kernel_z s = Some kz -> positive_kernel kz -> 0 < epsilon_x s -> 0 < epsilon_y s -> Permutation (map q (seq 0 n)) (seq 0 n) ->
  (uses_median s -> (1000 < n)%nat -> (forall i, (i < n)%nat -> q i = i) /\ forall k i, (i < n)%nat -> (perm k i < n)%nat) ->
  (forall l, l = x \/ l = y \/ l = z -> forall i j, (i < n)%nat -> (j < n)%nat ->
     gram (length l) (zscore n (select data' l)) i j = gram (length l) (zscore n (select data l)) (q i) (q j)) ->
  conditional gcdf pinv eigs perm gp s n data' x y z = conditional gcdf pinv eigs perm gp s n data x y z.
Proof.
  intros gcdf pinv eigs perm gp s n data data' x y z kz q Hn Hp He Ht PX PY Ez PZ Hex Hey Hq Hm G.
  assert (KX := kernel_order (perm 0%nat) (kernel_x s) n (length x + length z) (length x + length z)
    (concat_half (length x) (zscore n (select data x)) (zscore n (select data z))) (concat_half (length x) (zscore n (select data' x)) (zscore n (select data' z))) q Hq).
  assert (KY := kernel_order (perm 1%nat) (kernel_y s) n (length y) (length y) (zscore n (select data y)) (zscore n (select data' y)) q Hq).
  assert (KZ := kernel_order (perm 2%nat) kz n (length z) (length z) (zscore n (select data z)) (zscore n (select data' z)) q Hq).
  specialize (KX ltac:(intros U L; destruct (Hm (or_introl U) L); split; auto) ltac:(auto) ltac:(intros; rewrite !gram_concat, !G by auto; auto)).
  specialize (KY ltac:(intros U L; destruct (Hm (or_intror (or_introl U)) L); split; auto) ltac:(auto) ltac:(intros; rewrite !G by auto; auto)).
  specialize (KZ ltac:(intros U L; rewrite U in Ez; destruct (Hm (or_intror (or_intror Ez)) L); split; auto) ltac:(auto) ltac:(intros; rewrite !G by auto; auto)).
  set (XZ := concat_half (length x) (zscore n (select data x)) (zscore n (select data z))) in *. set (XZ' := concat_half (length x) (zscore n (select data' x)) (zscore n (select data' z))) in *.
  destruct (kernel_matrix (perm 0%nat) (kernel_x s) n (length x + length z) XZ) as [Kx|] eqn:EX.
  2:{ destruct (kernel_matrix (perm 0%nat) (kernel_x s) n (length x + length z) XZ') eqn:EX'; [contradiction|]. rewrite !(given_none _ _ _ _ _ s n _ x y z kz Ez) by auto. auto. }
  destruct (kernel_matrix (perm 0%nat) (kernel_x s) n (length x + length z) XZ') as [Kx'|] eqn:EX'; [|contradiction].
  destruct (kernel_matrix (perm 1%nat) (kernel_y s) n (length y) (zscore n (select data y))) as [Ky|] eqn:EY.
  2:{ destruct (kernel_matrix (perm 1%nat) (kernel_y s) n (length y) (zscore n (select data' y))) eqn:EY'; [contradiction|]. rewrite !(given_none _ _ _ _ _ s n _ x y z kz Ez) by auto. auto. }
  destruct (kernel_matrix (perm 1%nat) (kernel_y s) n (length y) (zscore n (select data' y))) as [Ky'|] eqn:EY'; [|contradiction].
  destruct (kernel_matrix (perm 2%nat) kz n (length z) (zscore n (select data z))) as [Kz|] eqn:EZ.
  2:{ destruct (kernel_matrix (perm 2%nat) kz n (length z) (zscore n (select data' z))) eqn:EZ'; [contradiction|]. rewrite !(given_none _ _ _ _ _ s n _ x y z kz Ez) by auto. auto. }
  destruct (kernel_matrix (perm 2%nat) kz n (length z) (zscore n (select data' z))) as [Kz'|] eqn:EZ'; [|contradiction].
  destruct (given_total gcdf pinv eigs perm gp s n data x y z kz Ez) as [q1 [s1 R1]]; [fold XZ; congruence|congruence|congruence|].
  destruct (given_total gcdf pinv eigs perm gp s n data' x y z kz Ez) as [q2 [s2 R2]]; [fold XZ'; congruence|congruence|congruence|].
  rewrite R1, R2.
  destruct (given_answer gcdf pinv eigs perm gp s n data x y z Hn Hp He Ht PX PY kz q1 s1 Ez PZ Hex Hey R1) as (Kx1 & Ky1 & Kz1 & E1 & E2 & E3 & A1 & _).
  destruct (given_answer gcdf pinv eigs perm gp s n data' x y z Hn Hp He Ht PX PY kz q2 s2 Ez PZ Hex Hey R2) as (Kx2 & Ky2 & Kz2 & F1 & F2 & F3 & A2 & _).
  fold XZ in E1. fold XZ' in F1. rewrite EX in E1. rewrite EY in E2. rewrite EZ in E3. rewrite EX' in F1. rewrite EY' in F2. rewrite EZ' in F3.
  injection E1 as <-. injection E2 as <-. injection E3 as <-. injection F1 as <-. injection F2 as <-. injection F3 as <-.
  destruct (centred_kernel n Hn _ _ _ _ _ PZ EZ') as [SZ QZ].
  destruct (answer_unique n q Hq gcdf (threshold s) (center_real n Kx) (center_real n Ky) (center_real n Kz) (center_real n Kz)
    (center_real n Kx') (center_real n Ky') (center_real n Kz') (center_real n Kz') (epsilon_x s) (epsilon_y s) q1 s1 q2 s2) as [-> ->]; auto; apply center_real_order; auto.
Qed.

(** Units of measurement play no role. *)
Theorem C95_units : forall gcdf pinv eigs perm gp s n d data data' x y z kz,
  (0 < n)%nat -> inverts pinv -> eigensolver eigs -> 0 <= threshold s -> positive_kernel (kernel_x s) -> positive_kernel (kernel_y s) ->
  kernel_z s = Some kz -> positive_kernel kz -> 0 < epsilon_x s -> 0 < epsilon_y s -> (forall k i, (i < n)%nat -> (perm k i < n)%nat) ->
  other_units n d data data' -> (forall c, In c (x ++ y ++ z) -> (c < d)%nat) ->
  conditional gcdf pinv eigs perm gp s n data' x y z = conditional gcdf pinv eigs perm gp s n data x y z.
Proof.
  intros gcdf pinv eigs perm gp s n d data data' x y z kz Hn Hp He Ht PX PY Ez PZ Hex Hey Hperm (a & b & Ha & HD) Hd.
  apply (same_inner gcdf pinv eigs perm gp s n data data' x y z kz (fun i => i)); auto; [apply id_perm; auto|].
  intros l Hl i j Hi Hj. unfold gram. apply rs_ext. intros c Hc.
  assert (nth c l 0%nat < d)%nat as B.
  { apply Hd. rewrite !in_app_iff. pose proof (nth_In l 0%nat Hc) as I. destruct Hl as [->|[->| ->]]; auto. }
  destruct (zscore_affine n Hn (select data l) (select data' l) (a (nth c l 0%nat)) (b (nth c l 0%nat)) c (Ha _ B)) as [sg [Hs Q]].
  { intros k Hk. unfold select. apply HD; auto. }
  rewrite !Q by auto. destruct Hs as [-> | ->]; ring.
Qed.
Print Assumptions C95_units.

(** Nor does the order of the samples, unless a width comes from a random choice of them. *)
Theorem C95_order : forall gcdf pinv eigs perm gp s n q data data' x y z kz,
  (0 < n)%nat -> inverts pinv -> eigensolver eigs -> 0 <= threshold s -> positive_kernel (kernel_x s) -> positive_kernel (kernel_y s) ->
  kernel_z s = Some kz -> positive_kernel kz -> 0 < epsilon_x s -> 0 < epsilon_y s -> (uses_median s -> (n <= 1000)%nat) ->
  reordered n q data data' ->
  conditional gcdf pinv eigs perm gp s n data' x y z = conditional gcdf pinv eigs perm gp s n data x y z.
Proof.
  intros gcdf pinv eigs perm gp s n q data data' x y z kz Hn Hp He Ht PX PY Ez PZ Hex Hey Hm [Hq HD].
  apply (same_inner gcdf pinv eigs perm gp s n data data' x y z kz q); auto; [intros U L; specialize (Hm U); lia|].
  intros l Hl i j Hi Hj. unfold gram. apply rs_ext. intros c Hc.
  assert (select data' l = rows q (select data l)) as -> by (apply functional_extensionality; intro; apply functional_extensionality; intro; unfold select, rows; apply HD).
  rewrite !(zscore_rows n q Hq). auto.
Qed.
Print Assumptions C95_order.

(* ---------- edge cases ---------- *)
(** A constant y: the statistic is 0 and the p-value NaN. *)
Theorem C95_constant_y : forall gcdf pinv eigs perm gp s n data x y z kz p st,
  (0 < n)%nat -> inverts pinv -> eigensolver eigs -> 0 <= threshold s -> positive_kernel (kernel_x s) -> positive_kernel (kernel_y s) ->
  kernel_z s = Some kz -> positive_kernel kz -> 0 < epsilon_x s -> 0 < epsilon_y s ->
  constant_data n (length y) (columns data y) ->
  conditional gcdf pinv eigs perm gp s n data x y z = Ok (Some (p, st)) -> p = None /\ st = 0.
Proof.
  intros gcdf pinv eigs perm gp s n data x y z kz p st Hn Hp He Ht PX PY Ez PZ Hex Hey HC E.
  destruct (given_answer gcdf pinv eigs perm gp s n data x y z Hn Hp He Ht PX PY kz p st Ez PZ Hex Hey E) as (Kx & Ky & Kz & EX & EY & EZ & A & _).
  apply (answer_zero _ _ _ _ _ _ _ _ _ _ _ (flat_centered _ _ _ _ _ _ Hn EY (constant_gram n data y Hn HC)) A).
Qed.
Print Assumptions C95_constant_y.

(** The default, a Gaussian process, raises IndexError then ([wx[0]] of no eigenvalue), .. *)
Theorem C95_constant_y_process : forall gcdf pinv eigs perm gp s n data x y z,
  (4 <= n)%nat -> eigensolver eigs -> kernel_x s <> Gaussian MedianRule -> kernel_y s <> Gaussian MedianRule -> kernel_z s = None ->
  constant_data n (length y) (columns data y) ->
  conditional gcdf pinv eigs perm gp s n data x y z = Err IndexError.
Proof.
  intros gcdf pinv eigs perm gp s n data x y z Hn He NX NY Ez HC. unfold conditional, kernel_matrices. cbv zeta. rewrite Ez.
  destruct (kernel_defined (perm 0%nat) (kernel_x s) n (length x + length z) (concat_half (length x) (zscore n (select data x)) (zscore n (select data z))) NX) as [Kx ->].
  destruct (kernel_defined (perm 1%nat) (kernel_y s) n (length y) (zscore n (select data y)) NY) as [Ky EY]. rewrite EY.
  assert (Z := flat_centered _ _ _ _ _ _ (ltac:(lia) : (0 < n)%nat) EY (constant_gram n data y ltac:(lia) HC)).
  rewrite (process_flat eigs gp (threshold s) _ n (center_real n Ky) _ Hn He Z).
  destruct (process_cases eigs gp (threshold s) (width_z (perm 0%nat) (kernel_x s) n (length x + length z) (concat_half (length x) (zscore n (select data x)) (zscore n (select data z)))) n (center_real n Kx) (zscore n (select data z)) Hn) as [[r ->]| ->]; reflexivity.
Qed.
Print Assumptions C95_constant_y_process.

(** .. and ValueError for fewer than four samples ([np.max] of an empty array). *)
Theorem C95_few_samples : forall gcdf pinv eigs perm gp s n data x y z,
  (n < 4)%nat -> kernel_x s <> Gaussian MedianRule -> kernel_y s <> Gaussian MedianRule -> kernel_z s = None ->
  conditional gcdf pinv eigs perm gp s n data x y z = Err ValueError.
Proof.
  intros gcdf pinv eigs perm gp s n data x y z Hn NX NY Ez. unfold conditional, kernel_matrices. cbv zeta. rewrite Ez.
  destruct (kernel_defined (perm 0%nat) (kernel_x s) n (length x + length z) (concat_half (length x) (zscore n (select data x)) (zscore n (select data z))) NX) as [Kx ->].
  destruct (kernel_defined (perm 1%nat) (kernel_y s) n (length y) (zscore n (select data y)) NY) as [Ky ->].
  unfold kernel_matrix_for_z at 1. destruct (eigs n _) as [w v]. replace (Nat.min 400 (n / 4)) with 0%nat; [reflexivity|].
  rewrite Nat.div_small by lia. reflexivity.
Qed.
Print Assumptions C95_few_samples.

(** Otherwise it returns: with the linear kernel, or a Gaussian one of positive width, it is enough
    that y is not constant and that x or z is not. *)
Definition plain (k : kern) : Prop := match k with Linear => True | Gaussian (Manual w) => 0 < w | _ => False end.
Theorem C95_process_returns : forall gcdf pinv eigs perm gp s n data x y z,
  (4 <= n)%nat -> eigensolver eigs -> 0 <= threshold s < 1 -> plain (kernel_x s) -> plain (kernel_y s) -> kernel_z s = None ->
  ~ constant_data n (length y) (columns data y) -> ~ (constant_data n (length x) (columns data x) /\ constant_data n (length z) (columns data z)) ->
  exists p st, conditional gcdf pinv eigs perm gp s n data x y z = Ok (Some (p, st)).
Proof.
  intros gcdf pinv eigs perm gp s n data x y z Hn He Ht PX PY Ez VY VX. unfold conditional, kernel_matrices. cbv zeta. rewrite Ez.
  assert (N0 : (0 < n)%nat) by lia.
  set (XZ := concat_half (length x) (zscore n (select data x)) (zscore n (select data z))).
  assert (DX : kernel_x s <> Gaussian MedianRule) by (intro Q; rewrite Q in PX; exact PX).
  assert (DY : kernel_y s <> Gaussian MedianRule) by (intro Q; rewrite Q in PY; exact PY).
  assert (P' : forall k, plain k -> positive_kernel k) by (intros [|g c|[w| | |]]; simpl; try tauto; lra).
  destruct (kernel_defined (perm 0%nat) (kernel_x s) n (length x + length z) XZ DX) as [Kx EX]. rewrite EX.
  destruct (kernel_defined (perm 1%nat) (kernel_y s) n (length y) (zscore n (select data y)) DY) as [Ky EY]. rewrite EY.
  destruct (centred_kernel n N0 _ _ _ _ _ (P' _ PX) EX) as [SX QX]. destruct (centred_kernel n N0 _ _ _ _ _ (P' _ PY) EY) as [SY QY].
  assert (PP : forall k, plain k -> k = Linear \/ exists w, 0 < w /\ k = Gaussian (Manual w)) by (intros [|g c|[w| | |]]; simpl; intros; try contradiction; eauto).
  assert (AB : forall d D K pm k, plain k -> kernel_matrix pm k n d D = Some K -> (forall i j, (i < n)%nat -> (j < n)%nat -> center_real n K i j = 0) ->
    forall i j, (i < n)%nat -> (j < n)%nat -> sq_dists d D i j = 0).
  { intros d D K pm k Pk Ek. apply (centred_apart pm k n d D K (PP k Pk) Ek). }
  destruct (process_returns eigs gp (threshold s) (width_z (perm 0%nat) (kernel_x s) n (length x + length z) XZ) n (center_real n Kx) (zscore n (select data z)) Hn He Ht SX QX) as [rx ->].
  { intro Z. apply VX. pose proof (AB _ _ _ _ _ PX EX Z) as D.
    assert (DD : forall i j, (i < n)%nat -> (j < n)%nat -> sq_dists (length x) (zscore n (select data x)) i j = 0 /\ sq_dists (length z) (zscore n (select data z)) i j = 0).
    { intros i j Hi Hj. specialize (D i j Hi Hj). rewrite sq_dists_gram in D. unfold XZ in D. rewrite !gram_concat in D.
      pose proof (dists_nonneg (length x) (zscore n (select data x)) i j) as D1. pose proof (dists_nonneg (length z) (zscore n (select data z)) i j) as D2.
      rewrite sq_dists_gram in *. rewrite sq_dists_gram. lra. }
    split; apply dists_constant; auto; intros i j Hi Hj; apply DD; auto. }
  destruct (process_returns eigs gp (threshold s) (width_z (perm 0%nat) (kernel_x s) n (length x + length z) XZ) n (center_real n Ky) (zscore n (select data z)) Hn He Ht SY QY) as [ry ->].
  { intro Z. apply VY. apply dists_constant; auto. eapply AB; eauto. }
  cbn [rbind]. destruct (kci_v_statistic pinv true n (center_real n Kx) (center_real n Ky) (fst rx) (fst ry) (snd rx) (snd ry)) as [[ts A] B].
  destruct (get_uuprod eigs n (threshold s) A B) as [M size]. eexists. eexists. reflexivity.
Qed.
Print Assumptions C95_process_returns.

(** A constant z: the statistic is that of the unconditional test (unless a width depends on the
    number of columns). *)
Theorem C95_constant_z : forall gcdf pinv eigs perm gp s n data x y z kz p st,
  (0 < n)%nat -> inverts pinv -> eigensolver eigs -> 0 <= threshold s -> positive_kernel (kernel_x s) -> positive_kernel (kernel_y s) ->
  kernel_z s = Some kz -> positive_kernel kz -> 0 < epsilon_x s -> 0 < epsilon_y s ->
  kernel_x s <> Gaussian EmpiricalKCI -> kernel_x s <> Gaussian EmpiricalHSIC -> (forall k i, (i < n)%nat -> (perm k i < n)%nat) ->
  constant_data n (length z) (columns data z) ->
  conditional gcdf pinv eigs perm gp s n data x y z = Ok (Some (p, st)) ->
  exists p', unconditional gcdf perm n data (kernel_x s) (kernel_y s) x y = Some (p', st).
Proof.
  intros gcdf pinv eigs perm gp s n data x y z kz p st Hn Hp He Ht PX PY Ez PZ Hex Hey N1 N2 Hperm HC E.
  destruct (given_answer gcdf pinv eigs perm gp s n data x y z Hn Hp He Ht PX PY kz p st Ez PZ Hex Hey E) as (Kx & Ky & Kz & EX & EY & EZ & A & _).
  assert (G := constant_gram n data z Hn HC).
  pose proof (answer_no_regression _ _ _ _ _ _ _ _ _ _ (flat_centered _ _ _ _ _ _ Hn EZ G) A) as ->.
  pose proof (kernel_order (perm 0%nat) (kernel_x s) n (length x) (length x + length z) (zscore n (select data x))
    (concat_half (length x) (zscore n (select data x)) (zscore n (select data z))) (fun i => i)) as KO.
  specialize (KO ltac:(apply id_perm; auto) ltac:(split; auto) ltac:(tauto)). rewrite EX in KO.
  assert (forall i j, (i < n)%nat -> (j < n)%nat -> gram (length x + length z) (concat_half (length x) (zscore n (select data x)) (zscore n (select data z))) i j = gram (length x) (zscore n (select data x)) i j) as GX.
  { intros i j Hi Hj. rewrite gram_concat, G by auto. ring. }
  specialize (KO GX). unfold unconditional. cbv zeta.
  destruct (kernel_matrix (perm 0%nat) (kernel_x s) n (length x) (zscore n (select data x))) as [Kx0|]; [|contradiction]. rewrite EY.
  eexists. f_equal. f_equal. rewrite <- sum_prod_sum. apply sum_prod_ext; [|intros i j _ _; auto].
  intros i j Hi Hj. rewrite (center_real_order n (fun i => i) Kx0 Kx (id_perm n (fun i => i) (fun i _ => eq_refl)) KO i j Hi Hj). reflexivity.
Qed.
Print Assumptions C95_constant_z.

(** The unconditional test with two Gaussian kernels of width 1 is the test of kci.py. *)
Theorem C95_unconditional : forall gcdf perm n data x y, (0 < n)%nat ->
  unconditional gcdf perm n data (Gaussian (Manual 1)) (Gaussian (Manual 1)) x y =
  Some (kci_test gcdf n (length x) (columns data x) (length y) (columns data y)).
Proof.
  intros gcdf perm n data x y Hn. unfold unconditional, kci_test. cbn [kernel_matrix kernel_width]. cbv zeta.
  assert (A : forall l, agree n n (center_real n (fun i j => exp (- / 2 * sq_dists (length l) (zscore n (select data l)) i j * 1))) (centered n (gaussian_kernel (length l) (zscore n (columns data l))))).
  { intros l i j Hi Hj. rewrite center_real_centered by (auto; intros; f_equal; f_equal; f_equal; rewrite !sq_dists_gram; unfold gram; ring_simplify; f_equal; f_equal; apply rs_ext; intros; ring).
    apply centered_ext; auto. intros a b Ha Hb. unfold gaussian_kernel. f_equal. change (columns data l) with (select data l). ring. }
  rewrite (sum_prod_ext n _ _ _ _ (A x) (A y)). rewrite (gamma_pvalue_ext gcdf n _ _ _ _ _ (A x) (A y)). reflexivity.
Qed.
Print Assumptions C95_unconditional.

(** The test is not symmetric in x and y: z is appended to x only. *)
Theorem C95_swap_refuted : exists s n data x y z, forall gcdf pinv eigs perm gp, inverts pinv -> eigensolver eigs ->
  exists p st p' st', conditional gcdf pinv eigs perm gp s n data x y z = Ok (Some (p, st)) /\
    conditional gcdf pinv eigs perm gp s n data y x z = Ok (Some (p', st')) /\ st <> st'.
Proof.
  exists (mkSettings Linear Linear (Some Linear) 1 1 (/ 100000)), 3%nat, triple, [0%nat], [1%nat], [2%nat]. intros gcdf pinv eigs perm gp Hp He.
  destruct (given_total gcdf pinv eigs perm gp (mkSettings Linear Linear (Some Linear) 1 1 (/ 100000)) 3 triple [0%nat] [1%nat] [2%nat] Linear eq_refl) as [p [st E]]; try discriminate.
  destruct (given_total gcdf pinv eigs perm gp (mkSettings Linear Linear (Some Linear) 1 1 (/ 100000)) 3 triple [1%nat] [0%nat] [2%nat] Linear eq_refl) as [p' [st' E']]; try discriminate.
  exists p, st, p', st'. split; [exact E|]. split; [exact E'|].
  destruct (given_answer gcdf pinv eigs perm gp (mkSettings Linear Linear (Some Linear) 1 1 (/ 100000)) 3 triple [0%nat] [1%nat] [2%nat] ltac:(lia) Hp He ltac:(cbn; lra) I I Linear p st eq_refl I ltac:(cbn; lra) ltac:(cbn; lra) E) as (Kx & Ky & Kz & EX & EY & EZ & A & _).
  destruct (given_answer gcdf pinv eigs perm gp (mkSettings Linear Linear (Some Linear) 1 1 (/ 100000)) 3 triple [1%nat] [0%nat] [2%nat] ltac:(lia) Hp He ltac:(cbn; lra) I I Linear p' st' eq_refl I ltac:(cbn; lra) ltac:(cbn; lra) E') as (Kx' & Ky' & Kz' & EX' & EY' & EZ' & A' & _).
  injection EX as <-. injection EY as <-. injection EZ as <-. injection EX' as <-. injection EY' as <-. injection EZ' as <-.
  rewrite (triple_answer 0 1 _ _ _ _ ltac:(lia) ltac:(lia) A), (triple_answer 1 0 _ _ _ _ ltac:(lia) ltac:(lia) A'). apply triple_apart.
Qed.
Print Assumptions C95_swap_refuted.

(* ---------- the hypotheses can be met ---------- *)
(** There are an inverse and an eigensolver (by the spectral theorem). *)
Lemma inverts_exists : exists pinv, inverts pinv.
Proof.
  exists (fun n A => epsilon (inhabits A) (fun B => inverse_of n A B)). intros n A B H i j Hi Hj.
  assert (E := epsilon_spec (inhabits A) (fun B => inverse_of n A B) (ex_intro _ B H)). cbv beta in E.
  apply inverse_meq in H. apply inverse_meq in E. destruct H as [H _], E as [_ E].
  set (C := epsilon (inhabits A) (fun B => inverse_of n A B)) in *.
  assert (Q : meq n C B) by (rewrite <- (dot_id_r n C), <- H, <- dot_assoc, E; apply dot_id_l). apply Q; auto.
Qed.
Lemma eigensolver_exists : exists eigs, eigensolver eigs.
Proof.
  exists (fun n A => epsilon (inhabits (fun _ => 0, A)) (fun r : (nat -> R) * rmat => eigendecomposition n A (fst r) (snd r) /\ forall c c', (c <= c')%nat -> (c' < n)%nat -> fst r c' <= fst r c)).
  intros n A S. destruct (spectral n A S) as (w & V & D & Ds).
  apply (epsilon_spec (inhabits (fun _ => 0, A)) (fun r : (nat -> R) * rmat => eigendecomposition n A (fst r) (snd r) /\ forall c c', (c <= c')%nat -> (c' < n)%nat -> fst r c' <= fst r c)).
  exists (w, V). split; auto.
Qed.
Definition sample : rmat := fun i c => match c with 0%nat => INR i | 1%nat => INR (i * i) | 2%nat => INR (i mod 3) | _ => 7 end.
Definition flat_process : R -> nat -> rmat -> rmat -> rmat * R := fun _ _ _ _ => (fun _ _ => 0, 1).
Lemma sample_varies : forall c, (c < 3)%nat -> ~ constant_data 5 1 (columns sample [c]).
Proof.
  intros c Hc H. specialize (H 0%nat 1%nat 0%nat ltac:(lia) ltac:(lia) ltac:(lia)). unfold columns in H. cbn in H.
  destruct c as [|[|[|c]]]; [| | |lia]; cbn in H; lra.
Qed.
(** Both modes answer for five samples. *)
Example C95_example : exists pinv eigs, inverts pinv /\ eigensolver eigs /\ regressor flat_process 5 /\
  (forall gcdf perm, exists p st, conditional gcdf pinv eigs perm flat_process (mkSettings (Gaussian EmpiricalKCI) (Gaussian EmpiricalHSIC) (Some (Gaussian (Manual 2))) (/ 1000) (/ 1000) (/ 100000)) 5 sample [0%nat] [1%nat] [2%nat] = Ok (Some (p, st))) /\
  (forall gcdf perm, exists p st, conditional gcdf pinv eigs perm flat_process (mkSettings (Gaussian (Manual 1)) Linear None (/ 1000) (/ 1000) (/ 100000)) 5 sample [0%nat] [1%nat] [2%nat] = Ok (Some (p, st))) /\
  (forall gcdf perm, exists p, conditional gcdf pinv eigs perm flat_process (mkSettings Linear Linear (Some Linear) (/ 1000) (/ 1000) (/ 100000)) 5 sample [0%nat] [3%nat] [2%nat] = Ok (Some (p, 0))).
Proof.
  destruct inverts_exists as [pinv Hp]. destruct eigensolver_exists as [eigs He]. exists pinv, eigs. split; auto. split; auto. split; [|split; [|split]].
  - intros wz m vx Z. cbn. split; [intros i j _ _; auto|]. split; [|lra]. apply psd_quad. intro v. unfold quad. rewrite rs_zero; [lra|]. intros. apply rs_zero. intros. ring.
  - intros gcdf perm. apply (given_total gcdf pinv eigs perm flat_process (mkSettings (Gaussian EmpiricalKCI) (Gaussian EmpiricalHSIC) (Some (Gaussian (Manual 2))) (/ 1000) (/ 1000) (/ 100000)) 5 sample [0%nat] [1%nat] [2%nat] (Gaussian (Manual 2)) eq_refl); discriminate.
  - intros gcdf perm. apply C95_process_returns; cbn [kernel_x kernel_y kernel_z threshold plain]; auto; try lra; try lia; [apply sample_varies; lia|].
    intros [H _]. apply (sample_varies 0 ltac:(lia) H).
  - intros gcdf perm. destruct (given_total gcdf pinv eigs perm flat_process (mkSettings Linear Linear (Some Linear) (/ 1000) (/ 1000) (/ 100000)) 5 sample [0%nat] [3%nat] [2%nat] Linear eq_refl) as (p & st & E); try discriminate.
    destruct (C95_constant_y gcdf pinv eigs perm flat_process (mkSettings Linear Linear (Some Linear) (/ 1000) (/ 1000) (/ 100000)) 5 sample [0%nat] [3%nat] [2%nat] Linear p st) as [_ ->]; cbn; auto; try lra; try lia; [|eauto].
    intros i j c _ _ Hc. destruct c as [|c]; [reflexivity|cbn in Hc; lia].
Qed.
Print Assumptions C95_example.
