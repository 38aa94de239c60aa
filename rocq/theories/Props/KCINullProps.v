(** C96: the spectral null distributions of the kernel tests. *)

From Coq Require Import List Arith Lia Bool Permutation Reals Lra FunctionalExtensionality.
From Verif Require Import Model.Py Model.LocalScore Model.KCI Model.HSIC Model.Expm Model.CVScore Model.CKCI Model.KCINull
  Spec.Scores Spec.KernelSpec Spec.KCISpec Spec.CVSpec Spec.CKCISpec Spec.KCINullSpec
  Proofs.BicFacts Proofs.KCIFacts Proofs.GaussianFacts Proofs.FrechetFacts Proofs.ExpmFacts Proofs.CholeskyFacts Proofs.CVFacts
  Proofs.CKCIFacts Proofs.CKCICore Proofs.CKCIEdge Proofs.KCINullFacts Proofs.KCINullCore Props.CKCIProps.
Import ListNotations.
Open Scope R_scope.

Lemma spectral_cases : forall eigs np_int perm draws N t n data kx ky x y r,
  unconditional_spectral eigs np_int perm draws N t n data kx ky x y = Ok (Some r) ->
  exists Kx Ky ws, kernel_matrix (perm 0%nat) kx n (length x) (zscore n (select data x)) = Some Kx /\ kernel_matrix (perm 1%nat) ky n (length y) (zscore n (select data y)) = Some Ky /\
    product_weights eigs np_int t n (center_real n Kx) (center_real n Ky) = Ok ws /\ (2 <= N)%nat /\
    r = (share N (fun j => weighted ws (draws j) / INR n) (sum_prod n (center_real n Kx) (center_real n Ky)), sum_prod n (center_real n Kx) (center_real n Ky)).
Proof.
  intros eigs np_int perm draws N t n data kx ky x y r E. unfold unconditional_spectral in E. cbv zeta in E.
  destruct (kernel_matrix (perm 0%nat) kx n (length x) (zscore n (select data x))) as [Kx|]; [|discriminate].
  destruct (kernel_matrix (perm 1%nat) ky n (length y) (zscore n (select data y))) as [Ky|]; [|discriminate].
  destruct (product_weights eigs np_int t n (center_real n Kx) (center_real n Ky)) as [ws|] eqn:W; cbn [rbind] in E; [|discriminate].
  destruct (Nat.eqb_spec N 0); [discriminate|]. destruct (Nat.eqb_spec N 1); [discriminate|]. injection E as <-.
  exists Kx, Ky, ws. repeat (split; auto). lia.
Qed.
Lemma centred_sym : forall pm k n d D K, kernel_matrix pm k n d D = Some K -> sym n (center_real n K).
Proof. intros pm k n d D K E i j _ _. apply centered_symm. eapply kernel_sym; eauto. Qed.

(* ---------- the unconditional test ---------- *)
(** The p-value is the proportion of the N simulated values above the statistic, each simulated value
    a sum of chi-squares weighted by the products of the eigenvalues of the two centred kernel
    matrices (of the larger half of them beyond 1000 samples), divided by n. *)
Theorem C96_value : forall eigs np_int perm draws N t n data kx ky x y p st, (0 < n)%nat -> eigensolver eigs ->
  unconditional_spectral eigs np_int perm draws N t n data kx ky x y = Ok (Some (p, st)) ->
  exists X Y Kx Ky ws, standardised n (length x) (columns data x) X /\ standardised n (length y) (columns data y) Y /\
    is_kernel kx n (length x) X Kx /\ is_kernel ky n (length y) Y Ky /\
    st = sumRn n (fun i => sumRn n (fun j => doubly_centered n Kx i j * doubly_centered n Ky i j)) /\
    eigenvalue_products n (if Nat.ltb 1000 n then n / 2 else n) t (doubly_centered n Kx) (doubly_centered n Ky) ws /\
    proportion N (fun j => st < mixture ws (draws j) / INR n) p.
Proof.
  intros eigs np_int perm draws N t n data kx ky x y p st Hn He E.
  destruct (spectral_cases _ _ _ _ _ _ _ _ _ _ _ _ _ E) as (Kx & Ky & ws & EX & EY & W & _ & R). injection R as -> ->.
  assert (CX := center_real_doubly n Kx (kernel_sym _ _ _ _ _ _ EX)). assert (CY := center_real_doubly n Ky (kernel_sym _ _ _ _ _ _ EY)).
  exists (zscore n (select data x)), (zscore n (select data y)), Kx, Ky, ws. split; [apply zscore_spec; auto|]. split; [apply zscore_spec; auto|].
  split; [eapply kernel_spec; eauto|]. split; [eapply kernel_spec; eauto|]. split; [rewrite <- sum_prod_sum; apply sum_prod_ext; auto|].
  split; [|rewrite mixture_weighted; apply share_spec].
  destruct (products_spec _ _ _ _ _ _ _ He (centred_sym _ _ _ _ _ _ EX) (centred_sym _ _ _ _ _ _ EY) W) as [(wx & Vx & wy & Vy & DX & DY & Q) _].
  exists wx, Vx, wy, Vy. split; [eapply eig_ext; [exact CX|exact DX]|]. split; [eapply eig_ext; [exact CY|exact DY]|]. exact Q.
Qed.
Print Assumptions C96_value.

(** The simulated distribution and the gamma distribution of the other mode agree in mean and
    variance, up to what the threshold cuts off: the mean is at most, and the variance at most, that
    of the gamma distribution; the relative loss is at most t n^2 and t^2 n^2; none for t = 0. *)
Theorem C96_moments : forall n t Kx Ky ws E, (0 < n)%nat -> 0 <= t -> psd n Kx -> psd n Ky -> eigenvalue_products n n t Kx Ky ws ->
  expectation E -> chi_squares E (length ws) ->
  let null := fun f => mixture ws f / INR n in
  (1 - t * INR (n * n)) * gamma_mean n Kx Ky <= mean E null <= gamma_mean n Kx Ky /\
  (1 - t * t * INR (n * n)) * gamma_variance n Kx Ky <= variance E null <= gamma_variance n Kx Ky /\
  (t = 0 -> mean E null = gamma_mean n Kx Ky /\ variance E null = gamma_variance n Kx Ky).
Proof.
  intros n t Kx Ky ws E Hn Ht PX PY HP HE HC null.
  destruct (products_moments n t Kx Ky ws Ht PX PY HP) as ([M1 M2] & [V1 V2] & Z).
  assert (Pn : 0 < / INR n) by (apply Rinv_0_lt_compat, lt_0_INR; auto).
  assert (EN : null = fun f => / INR n * weighted ws f).
  { unfold null. rewrite mixture_weighted. apply functional_extensionality. intro f. unfold Rdiv. ring. }
  assert (EM : mean E null = / INR n * rsum ws). { unfold mean. rewrite EN. rewrite (expect_scal E HE), (mean_weighted E HE) by auto. auto. }
  assert (EV : variance E null = / INR n * / INR n * (2 * rsum (map Rsqr ws))). { rewrite EN. apply (variance_scaled E HE). auto. }
  rewrite EM, EV. unfold gamma_mean, gamma_variance, Rdiv.
  set (T := sumRn n (fun i => Kx i i) * sumRn n (fun i => Ky i i)) in *.
  set (Qx := sumRn n (fun i => sumRn n (fun j => Rsqr (Kx i j)))) in *. set (Qy := sumRn n (fun i => sumRn n (fun j => Rsqr (Ky i j)))) in *.
  assert (P2 : 0 < / INR n * / INR n) by (apply Rmult_lt_0_compat; auto).
  split; [|split].
  - split.
    + apply Rle_trans with (/ INR n * (T * (1 - t * INR (n * n)))); [right; ring|]. apply Rmult_le_compat_l; lra.
    + apply Rle_trans with (/ INR n * T); [|right; ring]. apply Rmult_le_compat_l; lra.
  - split.
    + apply Rle_trans with (/ INR n * / INR n * (2 * (Qx * Qy * (1 - t * t * INR (n * n))))); [right; ring|]. apply Rmult_le_compat_l; lra.
    + apply Rle_trans with (/ INR n * / INR n * (2 * (Qx * Qy))); [|right; ring]. apply Rmult_le_compat_l; lra.
  - intro T0. destruct (Z T0) as [-> ->]. split; ring.
Qed.
Print Assumptions C96_moments.

(** Units of measurement play no role, .. *)
Lemma same_spectral : forall eigs np_int perm draws N t n data data' kx ky x y q, (0 < n)%nat -> eigensolver eigs -> Permutation (map q (seq 0 n)) (seq 0 n) ->
  (kx = Gaussian MedianRule \/ ky = Gaussian MedianRule -> (1000 < n)%nat -> (forall i, (i < n)%nat -> q i = i) /\ forall k i, (i < n)%nat -> (perm k i < n)%nat) ->
  (forall l, l = x \/ l = y -> forall i j, (i < n)%nat -> (j < n)%nat ->
     gram (length l) (zscore n (select data' l)) i j = gram (length l) (zscore n (select data l)) (q i) (q j)) ->
  unconditional_spectral eigs np_int perm draws N t n data' kx ky x y = unconditional_spectral eigs np_int perm draws N t n data kx ky x y.
Proof.
  intros eigs np_int perm draws N t n data data' kx ky x y q Hn He Hq Hm G.
  assert (KX := kernel_order (perm 0%nat) kx n (length x) (length x) (zscore n (select data x)) (zscore n (select data' x)) q Hq).
  assert (KY := kernel_order (perm 1%nat) ky n (length y) (length y) (zscore n (select data y)) (zscore n (select data' y)) q Hq).
  specialize (KX ltac:(intros U L; destruct (Hm (or_introl U) L); split; auto) ltac:(auto) ltac:(intros; rewrite !G by auto; auto)).
  specialize (KY ltac:(intros U L; destruct (Hm (or_intror U) L); split; auto) ltac:(auto) ltac:(intros; rewrite !G by auto; auto)).
  unfold unconditional_spectral. cbv zeta.
  destruct (kernel_matrix (perm 0%nat) kx n (length x) (zscore n (select data x))) as [Kx|] eqn:EX;
    destruct (kernel_matrix (perm 0%nat) kx n (length x) (zscore n (select data' x))) as [Kx'|] eqn:EX'; try contradiction; [|reflexivity].
  destruct (kernel_matrix (perm 1%nat) ky n (length y) (zscore n (select data y))) as [Ky|] eqn:EY;
    destruct (kernel_matrix (perm 1%nat) ky n (length y) (zscore n (select data' y))) as [Ky'|] eqn:EY'; try contradiction; [|reflexivity].
  assert (AX := center_real_order n q Kx Kx' Hq KX). assert (AY := center_real_order n q Ky Ky' Hq KY).
  assert (ES : sum_prod n (center_real n Kx') (center_real n Ky') = sum_prod n (center_real n Kx) (center_real n Ky)).
  { rewrite (sum_prod_ext n _ _ _ _ AX AY). apply (sum_prod_rows n q Hq). }
  assert (EW : product_weights eigs np_int t n (center_real n Kx') (center_real n Ky') = product_weights eigs np_int t n (center_real n Kx) (center_real n Ky)).
  { assert (L2 : (n / 2 <= n)%nat) by (apply Nat.div_le_upper_bound; lia).
    destruct (product_weights eigs np_int t n (center_real n Kx') (center_real n Ky')) as [ws'|e'] eqn:W';
    destruct (product_weights eigs np_int t n (center_real n Kx) (center_real n Ky)) as [ws|e] eqn:W.
    - f_equal. destruct (products_spec _ _ _ _ _ _ _ He (centred_sym _ _ _ _ _ _ EX) (centred_sym _ _ _ _ _ _ EY) W) as [P _].
      destruct (products_spec _ _ _ _ _ _ _ He (centred_sym _ _ _ _ _ _ EX') (centred_sym _ _ _ _ _ _ EY') W') as [P' _].
      apply (products_unique n _ q t (center_real n Kx) (center_real n Ky) (center_real n Kx') (center_real n Ky') ws ws') in P'; auto.
      + destruct (Nat.ltb 1000 n); lia.
      + eapply centred_sym; eauto.
      + eapply centred_sym; eauto.
    - exfalso. unfold product_weights in W, W'. destruct (if Nat.ltb 1000 n then if np_int then Ok (n / 2)%nat else Err AttributeError else Ok n) as [m|]; cbn [rbind] in *; [|congruence].
      rewrite products_list in W, W'. destruct m as [|m]; [cbn in *; congruence|]. cbn in W. discriminate.
    - exfalso. unfold product_weights in W, W'. destruct (if Nat.ltb 1000 n then if np_int then Ok (n / 2)%nat else Err AttributeError else Ok n) as [m|]; cbn [rbind] in *; [|congruence].
      rewrite products_list in W, W'. destruct m as [|m]; [cbn in *; congruence|]. cbn in W'. discriminate.
    - unfold product_weights in W, W'. destruct (if Nat.ltb 1000 n then if np_int then Ok (n / 2)%nat else Err AttributeError else Ok n) as [m|]; cbn [rbind] in *; [|congruence].
      rewrite products_list in W, W'. destruct m as [|m]; [cbn in *; congruence|]. cbn in W. discriminate. }
  rewrite ES, EW. reflexivity.
Qed.
Theorem C96_units : forall eigs np_int perm draws N t n d data data' kx ky x y, (0 < n)%nat -> eigensolver eigs -> (forall k i, (i < n)%nat -> (perm k i < n)%nat) ->
  other_units n d data data' -> (forall c, In c (x ++ y) -> (c < d)%nat) ->
  unconditional_spectral eigs np_int perm draws N t n data' kx ky x y = unconditional_spectral eigs np_int perm draws N t n data kx ky x y.
Proof.
  intros eigs np_int perm draws N t n d data data' kx ky x y Hn He Hperm (a & b & Ha & HD) Hd.
  apply (same_spectral eigs np_int perm draws N t n data data' kx ky x y (fun i => i)); auto; [apply id_perm; auto|].
  intros l Hl i j Hi Hj. unfold gram. apply rs_ext. intros c Hc.
  assert (nth c l 0%nat < d)%nat as B.
  { apply Hd. rewrite !in_app_iff. pose proof (nth_In l 0%nat Hc) as I. destruct Hl as [->| ->]; auto. }
  destruct (zscore_affine n Hn (select data l) (select data' l) (a (nth c l 0%nat)) (b (nth c l 0%nat)) c (Ha _ B)) as [sg [Hs Q]].
  { intros k Hk. unfold select. apply HD; auto. }
  rewrite !Q by auto. destruct Hs as [-> | ->]; ring.
Qed.
Print Assumptions C96_units.

(** .. nor does the order of the samples. *)
Theorem C96_order : forall eigs np_int perm draws N t n q data data' kx ky x y, (0 < n)%nat -> eigensolver eigs ->
  (kx = Gaussian MedianRule \/ ky = Gaussian MedianRule -> (n <= 1000)%nat) -> reordered n q data data' ->
  unconditional_spectral eigs np_int perm draws N t n data' kx ky x y = unconditional_spectral eigs np_int perm draws N t n data kx ky x y.
Proof.
  intros eigs np_int perm draws N t n q data data' kx ky x y Hn He Hm [Hq HD].
  apply (same_spectral eigs np_int perm draws N t n data data' kx ky x y q); auto; [intros U L; specialize (Hm U); lia|].
  intros l Hl i j Hi Hj. unfold gram. apply rs_ext. intros c Hc.
  assert (select data' l = rows q (select data l)) as -> by (apply functional_extensionality; intro; apply functional_extensionality; intro; unfold select, rows; apply HD).
  rewrite !(zscore_rows n q Hq). auto.
Qed.
Print Assumptions C96_order.

(** A constant variable is declared dependent on everything: the p-value is 0.  (The gamma mode
    answers NaN.) *)
Theorem C96_constant : forall eigs np_int perm draws N t n data kx ky x y p st, (0 < n)%nat -> eigensolver eigs -> 0 <= t ->
  constant_data n (length x) (columns data x) \/ constant_data n (length y) (columns data y) ->
  unconditional_spectral eigs np_int perm draws N t n data kx ky x y = Ok (Some (p, st)) -> p = 0 /\ st = 0.
Proof.
  intros eigs np_int perm draws N t n data kx ky x y p st Hn He Ht HC E.
  destruct (spectral_cases _ _ _ _ _ _ _ _ _ _ _ _ _ E) as (Kx & Ky & ws & EX & EY & W & _ & R). injection R as Ep Es.
  assert (Z : (forall i j, (i < n)%nat -> (j < n)%nat -> center_real n Kx i j = 0) \/ forall i j, (i < n)%nat -> (j < n)%nat -> center_real n Ky i j = 0).
  { destruct HC as [HC|HC]; [left|right]; [apply (flat_centered _ _ _ _ _ _ Hn EX (constant_gram n data x Hn HC))|apply (flat_centered _ _ _ _ _ _ Hn EY (constant_gram n data y Hn HC))]. }
  assert (S0 : st = 0).
  { rewrite Es. unfold sum_prod. apply rs_zero. intros i Hi. apply rs_zero. intros j Hj. destruct Z as [Z|Z]; rewrite Z by auto; ring. }
  split; auto. rewrite <- Es, S0 in Ep. clear Es. eapply proportion_none; [|rewrite Ep; apply share_spec].
  destruct (products_spec _ _ _ _ _ _ _ He (centred_sym _ _ _ _ _ _ EX) (centred_sym _ _ _ _ _ _ EY) W) as [(wx & Vx & wy & Vy & DX & DY & _ & _ & (top & I & _ & ->)) _].
  assert (P0 : forall a b, (a < n)%nat -> (b < n)%nat -> wx a * wy b = 0).
  { intros a b Ha Hb. destruct Z as [Z|Z]; [rewrite (zero_values n _ wx Vx DX Z a Ha)|rewrite (zero_values n _ wy Vy DY Z b Hb)]; ring. }
  assert (L2 : (n / 2 <= n)%nat) by (apply Nat.div_le_upper_bound; lia).
  set (m := if Nat.ltb 1000 n then (n / 2)%nat else n) in *. assert (Lm : (m <= n)%nat) by (unfold m; destruct (Nat.ltb 1000 n); lia).
  assert (A0 : forall v, In v (map (fun q => wx (fst q) * wy (snd q)) (list_prod (seq 0 m) (seq 0 m))) -> v = 0).
  { intros v Hv. apply in_map_iff in Hv. destruct Hv as ([a b] & <- & Iv). apply in_prod_iff in Iv. destruct Iv as [I1 I2]. apply in_seq in I1. apply in_seq in I2. apply P0; cbn; lia. }
  intros j Hj. replace (filter _ _) with (@nil R); [unfold weighted, rsumn, rsum; cbn; unfold Rdiv; lra|].
  symmetry. destruct I as [I|I]; [|rewrite I; reflexivity]. rewrite (A0 _ I). clear I. revert A0. generalize (map (fun q => wx (fst q) * wy (snd q)) (list_prod (seq 0 m) (seq 0 m))). intro l. induction l as [|v l IH]; intro A0; [reflexivity|].
  cbn [filter]. rewrite (A0 v (or_introl eq_refl)), Rmult_0_r in *. destruct (Rlt_dec 0 0); [lra|]. apply IH. intros; apply A0; right; auto.
Qed.
Print Assumptions C96_constant.

(** Above 1000 samples the mode needs a numpy before 1.24; one simulated value raises TypeError, none
    ZeroDivisionError; otherwise it returns. *)
Theorem C96_returns : forall eigs np_int perm draws N t n data kx ky x y, (0 < n)%nat -> kx <> Gaussian MedianRule -> ky <> Gaussian MedianRule ->
  ((1000 < n)%nat -> np_int = false -> unconditional_spectral eigs np_int perm draws N t n data kx ky x y = Err AttributeError) /\
  (((1000 < n)%nat -> np_int = true) ->
   (N = 0%nat -> unconditional_spectral eigs np_int perm draws N t n data kx ky x y = Err ZeroDivisionError) /\
   (N = 1%nat -> unconditional_spectral eigs np_int perm draws N t n data kx ky x y = Err TypeError) /\
   ((2 <= N)%nat -> exists p st, unconditional_spectral eigs np_int perm draws N t n data kx ky x y = Ok (Some (p, st)) /\ 0 <= p <= 1)).
Proof.
  intros eigs np_int perm draws N t n data kx ky x y Hn NX NY. unfold unconditional_spectral. cbv zeta.
  destruct (kernel_defined (perm 0%nat) kx n (length x) (zscore n (select data x)) NX) as [Kx ->].
  destruct (kernel_defined (perm 1%nat) ky n (length y) (zscore n (select data y)) NY) as [Ky ->].
  split.
  - intros L ->. unfold product_weights. destruct (Nat.ltb_spec 1000 n); [reflexivity|lia].
  - intros H. assert (W : exists ws, product_weights eigs np_int t n (center_real n Kx) (center_real n Ky) = Ok ws).
    { unfold product_weights. assert (exists m, (if Nat.ltb 1000 n then if np_int then Ok (n / 2)%nat else Err AttributeError else Ok n) = Ok (S m)) as [m ->].
      { destruct (Nat.ltb_spec 1000 n) as [L|L].
        - rewrite (H L). exists (n / 2 - 1)%nat. f_equal. assert (1 <= n / 2)%nat; [|lia]. apply Nat.div_le_lower_bound; lia.
        - exists (n - 1)%nat. f_equal. lia. }
      cbn [rbind]. rewrite products_list. cbn. eexists. reflexivity. }
    destruct W as [ws ->]. cbn [rbind]. split; [intros ->; reflexivity|]. split; [intros ->; reflexivity|]. intro L.
    destruct (Nat.eqb_spec N 0); [lia|]. destruct (Nat.eqb_spec N 1); [lia|]. eexists. eexists. split; [reflexivity|].
    eapply proportion_bounds; [|apply share_spec]. lia.
Qed.
Print Assumptions C96_returns.

(* ---------- the conditional test ---------- *)
Lemma conditional_cases : forall pinv eigs perm gp draws N s n data x y z r,
  conditional_spectral pinv eigs perm gp draws N s n data x y z = Ok (Some r) ->
  exists Kx Ky Kzx Kzy ex ey st A B M size ws, kernel_matrices perm eigs gp s n data x y z = Ok (Some (Kx, Ky, Kzx, Kzy, ex, ey)) /\
    kci_v_statistic pinv (match kernel_z s with None => true | Some _ => false end) n Kx Ky Kzx Kzy ex ey = (st, A, B) /\
    get_uuprod eigs n (threshold s) A B = (M, size) /\ product_eigenvalues eigs (threshold s) M size = Ok ws /\ (0 < N)%nat /\
    r = (share N (fun j => weighted ws (draws j)) st, st).
Proof.
  intros pinv eigs perm gp draws N s n data x y z r E. unfold conditional_spectral in E.
  destruct (kernel_matrices perm eigs gp s n data x y z) as [[[[[[[Kx Ky] Kzx] Kzy] ex] ey]|]|]; cbn [rbind] in E; try discriminate.
  destruct (kci_v_statistic pinv (match kernel_z s with None => true | Some _ => false end) n Kx Ky Kzx Kzy ex ey) as [[st A] B] eqn:K1.
  destruct (get_uuprod eigs n (threshold s) A B) as [M size] eqn:K2.
  destruct (product_eigenvalues eigs (threshold s) M size) as [ws|] eqn:K3; cbn [rbind] in E; [|discriminate].
  destruct (Nat.eqb_spec N 0); [discriminate|]. injection E as <-. exists Kx, Ky, Kzx, Kzy, ex, ey, st, A, B, M, size, ws. repeat (split; auto). lia.
Qed.
Lemma given_weights : forall pinv eigs perm gp draws N s n data x y z kz p st,
  (0 < n)%nat -> inverts pinv -> eigensolver eigs -> 0 <= threshold s -> positive_kernel (kernel_x s) -> positive_kernel (kernel_y s) ->
  kernel_z s = Some kz -> positive_kernel kz -> 0 < epsilon_x s -> 0 < epsilon_y s ->
  conditional_spectral pinv eigs perm gp draws N s n data x y z = Ok (Some (p, st)) ->
  exists Kx Ky Kz ws, kernel_matrix (perm 0%nat) (kernel_x s) n (length x + length z) (concat_half (length x) (zscore n (select data x)) (zscore n (select data z))) = Some Kx /\
    kernel_matrix (perm 1%nat) (kernel_y s) n (length y) (zscore n (select data y)) = Some Ky /\ kernel_matrix (perm 2%nat) kz n (length z) (zscore n (select data z)) = Some Kz /\
    conditional_weights n (threshold s) (center_real n Kx) (center_real n Ky) (center_real n Kz) (center_real n Kz) (epsilon_x s) (epsilon_y s) st ws /\
    p = share N (fun j => weighted ws (draws j)) st.
Proof.
  intros pinv eigs perm gp draws N s n data x y z kz p st Hn Hp He Ht PX PY Ez PZ Hex Hey E.
  destruct (conditional_cases _ _ _ _ _ _ _ _ _ _ _ _ _ E) as (Kx & Ky & Kzx & Kzy & ex & ey & st' & A & B & M & size & ws & K0 & K1 & K2 & K3 & _ & R). injection R as -> <-.
  unfold kernel_matrices in K0. cbv zeta in K0. rewrite Ez in K0.
  destruct (kernel_matrix (perm 0%nat) (kernel_x s) n (length x + length z) _) as [Kx0|] eqn:EX; [|discriminate].
  destruct (kernel_matrix (perm 1%nat) (kernel_y s) n (length y) _) as [Ky0|] eqn:EY; [|discriminate].
  destruct (kernel_matrix (perm 2%nat) kz n (length z) _) as [Kz0|] eqn:EZ; [|discriminate]. injection K0 as <- <- <- <- <- <-.
  exists Kx0, Ky0, Kz0, ws. split; auto. split; auto. split; auto. split; auto.
  destruct (centred_kernel n Hn _ _ _ _ _ PX EX) as [SX QX]. destruct (centred_kernel n Hn _ _ _ _ _ PY EY) as [SY QY]. destruct (centred_kernel n Hn _ _ _ _ _ PZ EZ) as [SZ QZ].
  eapply kernel_weights; eauto.
Qed.

Lemma weights_ext : forall n t Kx Ky Kzx Kzy Kx' Ky' Kzx' Kzy' ex ey s ws, agree n n Kx Kx' -> agree n n Ky Ky' -> agree n n Kzx Kzx' -> agree n n Kzy Kzy' ->
  conditional_weights n t Kx Ky Kzx Kzy ex ey s ws -> conditional_weights n t Kx' Ky' Kzx' Kzy' ex ey s ws.
Proof.
  intros n t Kx Ky Kzx Kzy Kx' Ky' Kzx' Kzy' ex ey s ws AX AY AZX AZY (Rx & Ry & A & B & w0 & RX & RY & E & DA & DB & W).
  assert (SX : agree n n (sandwich n Rx Kx) (sandwich n Rx Kx')) by (apply sandwich_ext; [intros i j _ _; auto|auto]).
  assert (SY : agree n n (sandwich n Ry Ky) (sandwich n Ry Ky')) by (apply sandwich_ext; [intros i j _ _; auto|auto]).
  exists Rx, Ry, A, B, w0. split; [eapply residual_ext; eauto|]. split; [eapply residual_ext; eauto|]. split; [rewrite E, <- !sum_prod_sum; apply sum_prod_ext; auto|].
  split; [eapply dominant_ext; [exact SX| |exact DA]; intros i j _ _; auto|]. split; [eapply dominant_ext; [exact SY| |exact DB]; intros i j _ _; auto|]. auto.
Qed.

(** The same for the conditional test: the weights are the eigenvalues of the entrywise product of the
    dominant parts of the residual kernels. *)
Theorem C96_value_conditional : forall pinv eigs perm gp draws N s n data x y z kz p st,
  (0 < n)%nat -> inverts pinv -> eigensolver eigs -> 0 <= threshold s -> positive_kernel (kernel_x s) -> positive_kernel (kernel_y s) ->
  kernel_z s = Some kz -> positive_kernel kz -> 0 < epsilon_x s -> 0 < epsilon_y s ->
  conditional_spectral pinv eigs perm gp draws N s n data x y z = Ok (Some (p, st)) ->
  exists X Y Z XZ Kx Ky Kz ws,
    standardised n (length x) (columns data x) X /\ standardised n (length y) (columns data y) Y /\ standardised n (length z) (columns data z) Z /\
    joined n (length x) (length z) X Z XZ /\
    is_kernel (kernel_x s) n (length x + length z) XZ Kx /\ is_kernel (kernel_y s) n (length y) Y Ky /\ is_kernel kz n (length z) Z Kz /\
    conditional_weights n (threshold s) (doubly_centered n Kx) (doubly_centered n Ky) (doubly_centered n Kz) (doubly_centered n Kz)
      (epsilon_x s) (epsilon_y s) st ws /\
    proportion N (fun j => st < mixture ws (draws j)) p.
Proof.
  intros pinv eigs perm gp draws N s n data x y z kz p st Hn Hp He Ht PX PY Ez PZ Hex Hey E.
  destruct (given_weights pinv eigs perm gp draws N s n data x y z kz p st Hn Hp He Ht PX PY Ez PZ Hex Hey E) as (Kx & Ky & Kz & ws & EX & EY & EZ & W & ->).
  exists (zscore n (select data x)), (zscore n (select data y)), (zscore n (select data z)). eexists. exists Kx, Ky, Kz, ws.
  split; [apply zscore_spec; auto|]. split; [apply zscore_spec; auto|]. split; [apply zscore_spec; auto|]. split; [apply concat_spec|].
  split; [eapply kernel_spec; eauto|]. split; [eapply kernel_spec; eauto|]. split; [eapply kernel_spec; eauto|]. split; [|rewrite mixture_weighted; apply share_spec].
  eapply weights_ext; [| | | |exact W]; apply center_real_doubly; eapply kernel_sym; eauto.
Qed.
Print Assumptions C96_value_conditional.

Theorem C96_value_process : forall pinv eigs perm gp draws N s n data x y z p st,
  (0 < n)%nat -> inverts pinv -> eigensolver eigs -> regressor gp n -> 0 <= threshold s -> positive_kernel (kernel_x s) -> positive_kernel (kernel_y s) ->
  kernel_z s = None -> conditional_spectral pinv eigs perm gp draws N s n data x y z = Ok (Some (p, st)) ->
  exists X Y Z XZ Kx Ky wz mx vx my vy ws,
    standardised n (length x) (columns data x) X /\ standardised n (length y) (columns data y) Y /\ standardised n (length z) (columns data z) Z /\
    joined n (length x) (length z) X Z XZ /\
    is_kernel (kernel_x s) n (length x + length z) XZ Kx /\ is_kernel (kernel_y s) n (length y) Y Ky /\
    process_targets n (threshold s) (doubly_centered n Kx) mx vx /\ process_targets n (threshold s) (doubly_centered n Ky) my vy /\
    conditional_weights n (threshold s) (doubly_centered n Kx) (doubly_centered n Ky) (fst (gp wz mx vx Z)) (fst (gp wz my vy Z))
      (snd (gp wz mx vx Z)) (snd (gp wz my vy Z)) st ws /\
    proportion N (fun j => st < mixture ws (draws j)) p.
Proof.
  intros pinv eigs perm gp draws N s n data x y z p st Hn Hp He Hg Ht PX PY Ez E.
  destruct (conditional_cases _ _ _ _ _ _ _ _ _ _ _ _ _ E) as (Kx & Ky & Kzx & Kzy & ex & ey & st' & A & B & M & size & ws & K0 & K1 & K2 & K3 & _ & R). injection R as -> <-.
  unfold kernel_matrices in K0. cbv zeta in K0. rewrite Ez in K0.
  destruct (kernel_matrix (perm 0%nat) (kernel_x s) n (length x + length z) _) as [Kx0|] eqn:EX; [|discriminate].
  destruct (kernel_matrix (perm 1%nat) (kernel_y s) n (length y) _) as [Ky0|] eqn:EY; [|discriminate].
  destruct (centred_kernel n Hn _ _ _ _ _ PX EX) as [SX QX]. destruct (centred_kernel n Hn _ _ _ _ _ PY EY) as [SY QY].
  set (wz := width_z _ _ _ _ _) in *.
  destruct (kernel_matrix_for_z eigs gp (threshold s) wz n (center_real n Kx0) _) as [zx|] eqn:G1; [|discriminate].
  destruct (kernel_matrix_for_z eigs gp (threshold s) wz n (center_real n Ky0) _) as [zy|] eqn:G2; [|discriminate].
  cbn [rbind] in K0. injection K0 as <- <- <- <- <- <-.
  destruct (process_spec eigs gp s n Hn He Ht _ _ _ _ SX QX G1) as [mx [vx [T1 ->]]]. destruct (process_spec eigs gp s n Hn He Ht _ _ _ _ SY QY G2) as [my [vy [T2 ->]]].
  destruct (Hg wz mx vx (zscore n (select data z))) as [S1 [P1 E1]]. destruct (Hg wz my vy (zscore n (select data z))) as [S2 [P2 E2]].
  exists (zscore n (select data x)), (zscore n (select data y)), (zscore n (select data z)). eexists. exists Kx0, Ky0, wz, mx, vx, my, vy, ws.
  assert (CX := center_real_doubly n Kx0 (kernel_sym _ _ _ _ _ _ EX)). assert (CY := center_real_doubly n Ky0 (kernel_sym _ _ _ _ _ _ EY)).
  assert (TT : forall K K' m v, agree n n K K' -> process_targets n (threshold s) K m v -> process_targets n (threshold s) K' m v).
  { intros K K' m v HK (w & V & [D1 D23] & Q). exists w, V. split; auto. split; auto. intros i j Hi Hj. rewrite <- HK by auto. auto. }
  split; [apply zscore_spec; auto|]. split; [apply zscore_spec; auto|]. split; [apply zscore_spec; auto|]. split; [apply concat_spec|].
  split; [eapply kernel_spec; eauto|]. split; [eapply kernel_spec; eauto|]. split; [eapply TT; [exact CX|auto]|]. split; [eapply TT; [exact CY|auto]|].
  split; [|rewrite mixture_weighted; apply share_spec].
  apply (weights_ext n (threshold s) (center_real n Kx0) (center_real n Ky0) (fst (gp wz mx vx (zscore n (select data z)))) (fst (gp wz my vy (zscore n (select data z)))));
    [exact CX|exact CY|intros i j _ _; auto|intros i j _ _; auto|].
  eapply kernel_weights; try exact K1; try exact K2; eauto. rewrite Ez. discriminate.
Qed.
Print Assumptions C96_value_process.

(** Its mean and variance, against those of the gamma distribution of the other mode. *)
Theorem C96_moments_conditional : forall n t Kx Ky Kzx Kzy ex ey st ws E, 0 <= t -> conditional_weights n t Kx Ky Kzx Kzy ex ey st ws ->
  expectation E -> chi_squares E (length ws) ->
  exists Rx Ry A B, residual_maker n Kzx ex Rx /\ residual_maker n Kzy ey Ry /\ dominant_part n t (sandwich n Rx Kx) A /\ dominant_part n t (sandwich n Ry Ky) B /\
    (1 - t * INR n) * cond_mean n A B <= mean E (mixture ws) <= cond_mean n A B /\
    (1 - t * t * INR n) * cond_variance n A B <= variance E (mixture ws) <= cond_variance n A B /\
    (t = 0 -> mean E (mixture ws) = cond_mean n A B /\ variance E (mixture ws) = cond_variance n A B).
Proof.
  intros n t Kx Ky Kzx Kzy ex ey st ws E Ht (Rx & Ry & A & B & w0 & MX & MY & _ & DA & DB & W & C) HE HC.
  exists Rx, Ry, A, B. split; auto. split; auto. split; auto. split; auto.
  destruct (positive_moments n _ w0 W) as (L & P & M & Q).
  destruct (cut_moments t w0 ws n Ht P L C) as ([M1 M2] & [V1 V2] & Z).
  assert (EM : mean E (mixture ws) = rsum ws). { unfold mean. rewrite mixture_weighted. apply (mean_weighted E HE). auto. }
  assert (EV : variance E (mixture ws) = 2 * rsum (map Rsqr ws)).
  { rewrite mixture_weighted. pose proof (variance_scaled E HE 1 ws HC) as V. replace (fun f => 1 * weighted ws f) with (weighted ws) in V by (apply functional_extensionality; intro; ring). rewrite V. ring. }
  assert (CM : cond_mean n A B = rsum w0). { unfold cond_mean. rewrite <- rsumn_sumR. auto. }
  assert (CV : cond_variance n A B = 2 * rsum (map Rsqr w0)). { unfold cond_variance. rewrite Q, <- rsumn_sumR. f_equal. apply rs_ext. intros. rewrite <- rsumn_sumR. reflexivity. }
  rewrite EM, EV, CM, CV. split; [lra|]. split; [split; lra|]. intro T0. destruct (Z T0) as [-> ->]. auto.
Qed.
Print Assumptions C96_moments_conditional.

(** A constant y raises ValueError: no eigenvalue is left. *)
Theorem C96_constant_y : forall pinv eigs perm gp draws N s n data x y z kz,
  (0 < n)%nat -> inverts pinv -> eigensolver eigs -> 0 <= threshold s -> positive_kernel (kernel_x s) -> positive_kernel (kernel_y s) ->
  kernel_z s = Some kz -> positive_kernel kz -> 0 < epsilon_x s -> 0 < epsilon_y s ->
  kernel_x s <> Gaussian MedianRule -> kernel_y s <> Gaussian MedianRule -> kz <> Gaussian MedianRule ->
  constant_data n (length y) (columns data y) ->
  conditional_spectral pinv eigs perm gp draws N s n data x y z = Err ValueError.
Proof.
  intros pinv eigs perm gp draws N s n data x y z kz Hn Hp He Ht PX PY Ez PZ Hex Hey NX NY NZ HC. unfold conditional_spectral, kernel_matrices. cbv zeta. rewrite Ez.
  destruct (kernel_defined (perm 0%nat) (kernel_x s) n (length x + length z) (concat_half (length x) (zscore n (select data x)) (zscore n (select data z))) NX) as [Kx EX]. rewrite EX.
  destruct (kernel_defined (perm 1%nat) (kernel_y s) n (length y) (zscore n (select data y)) NY) as [Ky EY]. rewrite EY.
  destruct (kernel_defined (perm 2%nat) kz n (length z) (zscore n (select data z)) NZ) as [Kz EZ]. rewrite EZ. cbn [rbind].
  assert (Z := flat_centered _ _ _ _ _ _ Hn EY (constant_gram n data y Hn HC)).
  destruct (centred_kernel n Hn _ _ _ _ _ PX EX) as [SX QX]. destruct (centred_kernel n Hn _ _ _ _ _ PY EY) as [SY QY]. destruct (centred_kernel n Hn _ _ _ _ _ PZ EZ) as [SZ QZ].
  destruct (kci_v_statistic pinv false n (center_real n Kx) (center_real n Ky) (center_real n Kz) (center_real n Kz) (epsilon_x s) (epsilon_y s)) as [[st A] B] eqn:K1.
  destruct (statistic_matrices pinv false n _ _ _ _ _ _ st A B Hp SX QX SY QY SZ QZ SZ QZ Hex Hey ltac:(auto) K1) as (Rx & Ry & _ & _ & _ & GB & _ & _ & _ & SB & _).
  assert (ZB : forall i j, (i < n)%nat -> (j < n)%nat -> B i j = 0). { intros i j Hi Hj. rewrite GB by auto. apply sandwich_zero; auto. }
  assert (ZV : fst (scaled_vectors eigs n (threshold s) B) = 0%nat).
  { unfold scaled_vectors. set (H := rscale (/ 2) (radd B (rtranspose B))).
    assert (HZ : forall i j, (i < n)%nat -> (j < n)%nat -> H i j = 0). { intros i j Hi Hj. unfold H, rscale, radd, rtranspose. rewrite !ZB by auto. ring. }
    destruct (He n H) as [De _]; [intros i j Hi Hj; rewrite !HZ by auto; auto|]. destruct (eigs n H) as [w V]. cbn [fst snd] in *.
    pose proof (zero_values n H w V De HZ) as W0. unfold kept. destruct (rmaxn_in n w Hn) as (c & Hc & Ec). rewrite <- Ec, (W0 c Hc).
    assert (F : forall l, (forall c, In c l -> (c < n)%nat) -> filter (fun c => if Rlt_dec (0 * threshold s) (w c) then true else false) l = []).
    { induction l as [|a l IH]; intro Hl; [reflexivity|]. cbn [filter]. rewrite (W0 a) by (apply Hl; left; auto). destruct (Rlt_dec (0 * threshold s) 0); [lra|]. apply IH. intros; apply Hl; right; auto. }
    rewrite F; [reflexivity|]. intros a Ha. apply in_seq in Ha. lia. }
  unfold get_uuprod. destruct (scaled_vectors eigs n (threshold s) A) as [mx vx]. destruct (scaled_vectors eigs n (threshold s) B) as [my vy]. cbn [fst] in ZV. subst my.
  rewrite Nat.mul_0_r. cbn. reflexivity.
Qed.
Print Assumptions C96_constant_y.

(** Units and the order of the samples play no role. *)
Lemma same_conditional : forall pinv eigs perm gp draws N s n data data' x y z kz q p st p' st',
  (0 < n)%nat -> inverts pinv -> eigensolver eigs -> 0 <= threshold s -> positive_kernel (kernel_x s) -> positive_kernel (kernel_y s) ->
  kernel_z s = Some kz -> positive_kernel kz -> 0 < epsilon_x s -> 0 < epsilon_y s -> Permutation (map q (seq 0 n)) (seq 0 n) ->
  (uses_median s -> (1000 < n)%nat -> (forall i, (i < n)%nat -> q i = i) /\ forall k i, (i < n)%nat -> (perm k i < n)%nat) ->
  (forall l, l = x \/ l = y \/ l = z -> forall i j, (i < n)%nat -> (j < n)%nat ->
     gram (length l) (zscore n (select data' l)) i j = gram (length l) (zscore n (select data l)) (q i) (q j)) ->
  conditional_spectral pinv eigs perm gp draws N s n data x y z = Ok (Some (p, st)) ->
  conditional_spectral pinv eigs perm gp draws N s n data' x y z = Ok (Some (p', st')) -> p' = p /\ st' = st.
Proof.
  intros pinv eigs perm gp draws N s n data data' x y z kz q p st p' st' Hn Hp He Ht PX PY Ez PZ Hex Hey Hq Hm G E E'.
  destruct (given_weights pinv eigs perm gp draws N s n data x y z kz p st Hn Hp He Ht PX PY Ez PZ Hex Hey E) as (Kx & Ky & Kz & ws & EX & EY & EZ & W & ->).
  destruct (given_weights pinv eigs perm gp draws N s n data' x y z kz p' st' Hn Hp He Ht PX PY Ez PZ Hex Hey E') as (Kx' & Ky' & Kz' & ws' & EX' & EY' & EZ' & W' & ->).
  assert (KX := kernel_order (perm 0%nat) (kernel_x s) n (length x + length z) (length x + length z)
    (concat_half (length x) (zscore n (select data x)) (zscore n (select data z))) (concat_half (length x) (zscore n (select data' x)) (zscore n (select data' z))) q Hq).
  assert (KY := kernel_order (perm 1%nat) (kernel_y s) n (length y) (length y) (zscore n (select data y)) (zscore n (select data' y)) q Hq).
  assert (KZ := kernel_order (perm 2%nat) kz n (length z) (length z) (zscore n (select data z)) (zscore n (select data' z)) q Hq).
  specialize (KX ltac:(intros U L; destruct (Hm (or_introl U) L); split; auto) ltac:(auto) ltac:(intros; rewrite !gram_concat, !G by auto; auto)).
  specialize (KY ltac:(intros U L; destruct (Hm (or_intror (or_introl U)) L); split; auto) ltac:(auto) ltac:(intros; rewrite !G by auto; auto)).
  specialize (KZ ltac:(intros U L; rewrite U in Ez; destruct (Hm (or_intror (or_intror Ez)) L); split; auto) ltac:(auto) ltac:(intros; rewrite !G by auto; auto)).
  rewrite EX, EX' in KX. rewrite EY, EY' in KY. rewrite EZ, EZ' in KZ.
  destruct (centred_kernel n Hn _ _ _ _ _ PZ EZ') as [SZ QZ].
  destruct (weights_unique n q (threshold s) (center_real n Kx) (center_real n Ky) (center_real n Kz) (center_real n Kz)
    (center_real n Kx') (center_real n Ky') (center_real n Kz') (center_real n Kz') (epsilon_x s) (epsilon_y s) st ws st' ws') as [-> ->]; auto; apply center_real_order; auto.
Qed.
Theorem C96_units_conditional : forall pinv eigs perm gp draws N s n d data data' x y z kz p st p' st',
  (0 < n)%nat -> inverts pinv -> eigensolver eigs -> 0 <= threshold s -> positive_kernel (kernel_x s) -> positive_kernel (kernel_y s) ->
  kernel_z s = Some kz -> positive_kernel kz -> 0 < epsilon_x s -> 0 < epsilon_y s -> (forall k i, (i < n)%nat -> (perm k i < n)%nat) ->
  other_units n d data data' -> (forall c, In c (x ++ y ++ z) -> (c < d)%nat) ->
  conditional_spectral pinv eigs perm gp draws N s n data x y z = Ok (Some (p, st)) ->
  conditional_spectral pinv eigs perm gp draws N s n data' x y z = Ok (Some (p', st')) -> p' = p /\ st' = st.
Proof.
  intros pinv eigs perm gp draws N s n d data data' x y z kz p st p' st' Hn Hp He Ht PX PY Ez PZ Hex Hey Hperm (a & b & Ha & HD) Hd.
  apply (same_conditional pinv eigs perm gp draws N s n data data' x y z kz (fun i => i)); auto; [apply id_perm; auto|].
  intros l Hl i j Hi Hj. unfold gram. apply rs_ext. intros c Hc.
  assert (nth c l 0%nat < d)%nat as B.
  { apply Hd. rewrite !in_app_iff. pose proof (nth_In l 0%nat Hc) as I. destruct Hl as [->|[->| ->]]; auto. }
  destruct (zscore_affine n Hn (select data l) (select data' l) (a (nth c l 0%nat)) (b (nth c l 0%nat)) c (Ha _ B)) as [sg [Hs Q]].
  { intros k Hk. unfold select. apply HD; auto. }
  rewrite !Q by auto. destruct Hs as [-> | ->]; ring.
Qed.
Print Assumptions C96_units_conditional.
Theorem C96_order_conditional : forall pinv eigs perm gp draws N s n q data data' x y z kz p st p' st',
  (0 < n)%nat -> inverts pinv -> eigensolver eigs -> 0 <= threshold s -> positive_kernel (kernel_x s) -> positive_kernel (kernel_y s) ->
  kernel_z s = Some kz -> positive_kernel kz -> 0 < epsilon_x s -> 0 < epsilon_y s -> (uses_median s -> (n <= 1000)%nat) ->
  reordered n q data data' ->
  conditional_spectral pinv eigs perm gp draws N s n data x y z = Ok (Some (p, st)) ->
  conditional_spectral pinv eigs perm gp draws N s n data' x y z = Ok (Some (p', st')) -> p' = p /\ st' = st.
Proof.
  intros pinv eigs perm gp draws N s n q data data' x y z kz p st p' st' Hn Hp He Ht PX PY Ez PZ Hex Hey Hm [Hq HD].
  apply (same_conditional pinv eigs perm gp draws N s n data data' x y z kz q); auto; [intros U L; specialize (Hm U); lia|].
  intros l Hl i j Hi Hj. unfold gram. apply rs_ext. intros c Hc.
  assert (select data' l = rows q (select data l)) as -> by (apply functional_extensionality; intro; apply functional_extensionality; intro; unfold select, rows; apply HD).
  rewrite !(zscore_rows n q Hq). auto.
Qed.
Print Assumptions C96_order_conditional.

(* ---------- the hypotheses can be met ---------- *)
(** Independent numbers that are 1 + sqrt 2 or 1 - sqrt 2 with equal probability have these moments. *)
Fixpoint coins (m : nat) (F : (nat -> R) -> R) : R :=
  match m with
  | 0%nat => F (fun _ => 0)
  | S m => (coins m (fun f => F (fun k => if Nat.eqb k m then 1 + sqrt 2 else f k)) + coins m (fun f => F (fun k => if Nat.eqb k m then 1 - sqrt 2 else f k))) / 2
  end.
Lemma coins_ok : forall m, expectation (coins m) /\ chi_squares (coins m) m.
Proof.
  assert (L : forall m, expectation (coins m)).
  { induction m as [|m [IH IH1]]; split; cbn [coins]; intros; auto; [|rewrite !IH1; field].
    rewrite (IH a b (fun f => F (fun k => if Nat.eqb k m then 1 + sqrt 2 else f k))), (IH a b (fun f => F (fun k => if Nat.eqb k m then 1 - sqrt 2 else f k))). field. }
  intro m. split; auto. induction m as [|m [I1 I2]]; split; intros; try lia; cbn [coins].
  - destruct (Nat.eqb_spec k m) as [->|N].
    + pose proof (expect_scal (coins m) (L m) (1 + sqrt 2) (fun _ => 1)) as A. pose proof (expect_scal (coins m) (L m) (1 - sqrt 2) (fun _ => 1)) as B.
      destruct (L m) as [_ O]. rewrite O in A, B. rewrite !Rmult_1_r in A, B. rewrite A, B. field.
    + rewrite I1 by lia. field.
  - assert (S2 : sqrt 2 * sqrt 2 = 2) by (apply sqrt_sqrt; lra).
    destruct (Nat.eqb_spec k m) as [->|N]; destruct (Nat.eqb_spec l m) as [->|N'].
    + rewrite Nat.eqb_refl. pose proof (expect_scal (coins m) (L m) ((1 + sqrt 2) * (1 + sqrt 2)) (fun _ => 1)) as A. pose proof (expect_scal (coins m) (L m) ((1 - sqrt 2) * (1 - sqrt 2)) (fun _ => 1)) as B.
      destruct (L m) as [_ O]. rewrite O in A, B. rewrite !Rmult_1_r in A, B. rewrite A, B. lra.
    + destruct (Nat.eqb_spec m l); [lia|]. rewrite (expect_scal (coins m) (L m) (1 + sqrt 2) (fun f => f l)), (expect_scal (coins m) (L m) (1 - sqrt 2) (fun f => f l)), I1 by lia. field.
    + destruct (Nat.eqb_spec k m); [lia|].
      replace (fun f : nat -> R => f k * (1 + sqrt 2)) with (fun f : nat -> R => (1 + sqrt 2) * f k) by (apply functional_extensionality; intro; ring).
      replace (fun f : nat -> R => f k * (1 - sqrt 2)) with (fun f : nat -> R => (1 - sqrt 2) * f k) by (apply functional_extensionality; intro; ring).
      rewrite (expect_scal (coins m) (L m) (1 + sqrt 2) (fun f => f k)), (expect_scal (coins m) (L m) (1 - sqrt 2) (fun f => f k)), I1 by lia. field.
    + rewrite I2 by lia. field.
Qed.
(** Five samples: both tests answer, constants give 0, and there is an expectation for any number of weights. *)
Example C96_example : exists pinv eigs, inverts pinv /\ eigensolver eigs /\
  (forall perm draws, exists p st ws, unconditional_spectral eigs false perm draws 100 0 5 sample (Gaussian EmpiricalHSIC) Linear [0%nat] [1%nat] = Ok (Some (p, st)) /\
     (exists Kx Ky, psd 5 Kx /\ psd 5 Ky /\ eigenvalue_products 5 5 0 Kx Ky ws) /\ expectation (coins (length ws)) /\ chi_squares (coins (length ws)) (length ws)) /\
  (forall perm draws, exists st, unconditional_spectral eigs false perm draws 100 0 5 sample Linear Linear [0%nat] [3%nat] = Ok (Some (0, st))) /\
  (forall perm draws, conditional_spectral pinv eigs perm flat_process draws 100 (mkSettings Linear Linear (Some Linear) (/ 1000) (/ 1000) (/ 100000)) 5 sample [0%nat] [3%nat] [2%nat] = Err ValueError).
Proof.
  destruct inverts_exists as [pinv Hp]. destruct eigensolver_exists as [eigs He]. exists pinv, eigs. split; auto. split; auto. split; [|split].
  - intros perm draws. destruct (C96_returns eigs false perm draws 100 0 5 sample (Gaussian EmpiricalHSIC) Linear [0%nat] [1%nat]) as [_ R]; [lia|discriminate|discriminate|].
    destruct R as (_ & _ & R); [lia|]. destruct R as (p & st & E & _); [lia|]. exists p, st.
    destruct (spectral_cases _ _ _ _ _ _ _ _ _ _ _ _ _ E) as (Kx & Ky & ws & EX & EY & W & _ & _). exists ws. split; auto. split; [|apply coins_ok].
    exists (center_real 5 Kx), (center_real 5 Ky). split; [eapply (proj2 (centred_kernel 5 ltac:(lia) _ _ _ _ _ (I : positive_kernel (Gaussian EmpiricalHSIC)) EX))|].
    split; [eapply (proj2 (centred_kernel 5 ltac:(lia) _ _ _ _ _ (I : positive_kernel Linear) EY))|].
    apply (products_spec eigs false 0 5 _ _ ws He (centred_sym _ _ _ _ _ _ EX) (centred_sym _ _ _ _ _ _ EY) W).
  - intros perm draws. destruct (C96_returns eigs false perm draws 100 0 5 sample Linear Linear [0%nat] [3%nat]) as [_ R]; [lia|discriminate|discriminate|].
    destruct R as (_ & _ & R); [lia|]. destruct R as (p & st & E & _); [lia|]. exists st. rewrite E.
    destruct (C96_constant eigs false perm draws 100 0 5 sample Linear Linear [0%nat] [3%nat] p st) as [-> _]; auto; [lia|lra|].
    right. intros i j c _ _ Hc. destruct c as [|c]; [reflexivity|cbn in Hc; lia].
  - intros perm draws. apply (C96_constant_y pinv eigs perm flat_process draws 100 (mkSettings Linear Linear (Some Linear) (/ 1000) (/ 1000) (/ 100000)) 5 sample [0%nat] [3%nat] [2%nat] Linear); cbn; auto; try lra; try lia; try discriminate.
    intros i j c _ _ Hc. destruct c as [|c]; [reflexivity|cbn in Hc; lia].
Qed.
Print Assumptions C96_example.
