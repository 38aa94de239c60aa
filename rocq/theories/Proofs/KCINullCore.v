(** The spectral null distributions: the programs. *)

From Coq Require Import List Arith Lia Bool Permutation Reals Lra FunctionalExtensionality.
From Verif Require Import Model.Py Model.LocalScore Model.KCI Model.HSIC Model.Expm Model.CVScore Model.CKCI Model.KCINull
  Spec.Scores Spec.KernelSpec Spec.KCISpec Spec.CVSpec Spec.CKCISpec Spec.KCINullSpec
  Proofs.BicFacts Proofs.KCIFacts Proofs.GaussianFacts Proofs.FrechetFacts Proofs.ExpmFacts Proofs.CholeskyFacts Proofs.CVFacts Proofs.CKCIFacts Proofs.CKCICore Proofs.CKCIEdge
  Proofs.KCINullFacts.
Import ListNotations.
Open Scope R_scope.

Lemma mixture_weighted : forall ws, mixture ws = weighted ws.
Proof. intros ws. apply functional_extensionality. intro f. unfold mixture, weighted. rewrite rsumn_sumR. auto. Qed.

(* ---------- moments of what is kept ---------- *)
Lemma cut_squares_low : forall T l, 0 <= T -> (forall x, In x l -> 0 <= x) -> rsum (map Rsqr l) <= rsum (map Rsqr (filter (keeps T) l)) + T * T * INR (length l).
Proof.
  intros T l HT. induction l as [|a l IH]; intro H; [cbn; lra|]. assert (0 <= a) by (apply H; left; auto).
  specialize (IH ltac:(intros; apply H; right; auto)). change (rsum (map Rsqr (a :: l))) with (Rsqr a + rsum (map Rsqr l)). cbn [length filter]. rewrite S_INR.
  destruct (keeps T a) eqn:K; unfold keeps in K; destruct (Rlt_dec T a); try discriminate.
  - change (rsum (map Rsqr (a :: filter (keeps T) l))) with (Rsqr a + rsum (map Rsqr (filter (keeps T) l))). nra.
  - unfold Rsqr at 1. nra.
Qed.
Lemma rsum_sqr_ge : forall l x, In x l -> Rsqr x <= rsum (map Rsqr l).
Proof. intros l x I. apply rsum_ge; [|apply in_map; auto]. intros y Hy. apply in_map_iff in Hy. destruct Hy as (u & <- & _). apply Rle_0_sqr. Qed.
Lemma cut_moments : forall t l ws N, 0 <= t -> (forall x, In x l -> 0 <= x) -> (length l <= N)%nat -> above_part t l ws ->
  rsum l * (1 - t * INR N) <= rsum ws <= rsum l /\ rsum (map Rsqr l) * (1 - t * t * INR N) <= rsum (map Rsqr ws) <= rsum (map Rsqr l) /\
  (t = 0 -> rsum ws = rsum l /\ rsum (map Rsqr ws) = rsum (map Rsqr l)).
Proof.
  intros t l ws N Ht H L (top & I & Mx & ->). change (fun x => if Rlt_dec (t * top) x then true else false) with (keeps (t * top)).
  destruct I as [I| ->]; [|cbn; split; [|split; [|intro; split; auto]]; split; lra].
  assert (T0 := H top I). assert (TT : 0 <= t * top) by (apply Rmult_le_pos; auto).
  pose proof (cut_sum (t * top) l TT H) as [S1 S2]. pose proof (cut_squares (t * top) l) as Q1. pose proof (cut_squares_low (t * top) l TT H) as Q2.
  pose proof (rsum_ge l top H I) as G1. pose proof (rsum_sqr_ge l top I) as G2. apply le_INR in L. pose proof (pos_INR (length l)) as P. unfold Rsqr at 1 in G2.
  assert (B1 : top * INR (length l) <= rsum l * INR N) by (apply Rmult_le_compat; lra).
  assert (B2 : top * top * INR (length l) <= rsum (map Rsqr l) * INR N) by (apply Rmult_le_compat; try lra; nra).
  split; [|split].
  - split; [|lra]. assert (t * (top * INR (length l)) <= t * (rsum l * INR N)) by (apply Rmult_le_compat_l; auto). lra.
  - split; [|lra]. assert (t * t * (top * top * INR (length l)) <= t * t * (rsum (map Rsqr l) * INR N)) by (apply Rmult_le_compat_l; auto; nra). lra.
  - intros ->. rewrite Rmult_0_l. apply cut_nothing. auto.
Qed.

(** All products of two lists of eigenvalues. *)
Lemma rsum_app' : forall l l', rsum (l ++ l') = rsum l + rsum l'.
Proof. induction l as [|a l IH]; intro l'; [unfold rsum; simpl; ring|]. cbn [app]. change (rsum (a :: l ++ l')) with (a + rsum (l ++ l')). change (rsum (a :: l)) with (a + rsum l). rewrite IH. ring. Qed.
Lemma rsum_map_scal : forall (A : Type) c (f : A -> R) l, rsum (map (fun b => c * f b) l) = c * rsum (map f l).
Proof. intros A c f l. induction l as [|a l IH]; [unfold rsum; simpl; ring|]. cbn [map]. change (rsum (c * f a :: map (fun b => c * f b) l)) with (c * f a + rsum (map (fun b => c * f b) l)). change (rsum (f a :: map f l)) with (f a + rsum (map f l)). rewrite IH. ring. Qed.
Lemma rsum_prod : forall (f g : nat -> R) l l', rsum (map (fun p => f (fst p) * g (snd p)) (list_prod l l')) = rsum (map f l) * rsum (map g l').
Proof.
  intros f g l l'. induction l as [|a l IH]; [unfold rsum; simpl; ring|]. cbn [list_prod]. rewrite map_app, rsum_app', IH, map_map. cbn [fst snd map].
  rewrite rsum_map_scal. change (rsum (f a :: map f l)) with (f a + rsum (map f l)). ring.
Qed.
Lemma eig_moments : forall n K w V, eigendecomposition n K w V ->
  rsumn n w = sumRn n (fun i => K i i) /\ rsumn n (fun c => Rsqr (w c)) = sumRn n (fun i => sumRn n (fun j => Rsqr (K i j))).
Proof.
  intros n K w V (D1 & D2 & _).
  assert (O : forall c c', (c < n)%nat -> (c' < n)%nat -> rsumn n (fun i => V i c * V i c') = if Nat.eqb c c' then 1 else 0) by (intros; rewrite rsumn_sumR; auto).
  assert (D : forall i j, (i < n)%nat -> (j < n)%nat -> K i j = rsumn n (fun c => w c * V i c * V j c)) by (intros; rewrite rsumn_sumR; auto).
  split.
  - rewrite <- rsumn_sumR. symmetry. apply (thin_trace n n K w V O D).
  - transitivity (rsumn n (fun i => rsumn n (fun j => K i j * K i j))); [symmetry; apply (thin_squares n n K w V O D)|].
    rewrite <- rsumn_sumR. apply rs_ext. intros. rewrite <- rsumn_sumR. reflexivity.
Qed.
Lemma products_moments : forall n t Kx Ky ws, 0 <= t -> psd n Kx -> psd n Ky -> eigenvalue_products n n t Kx Ky ws ->
  let T := sumRn n (fun i => Kx i i) * sumRn n (fun i => Ky i i) in
  let Q := sumRn n (fun i => sumRn n (fun j => Rsqr (Kx i j))) * sumRn n (fun i => sumRn n (fun j => Rsqr (Ky i j))) in
  T * (1 - t * INR (n * n)) <= rsum ws <= T /\ Q * (1 - t * t * INR (n * n)) <= rsum (map Rsqr ws) <= Q /\ (t = 0 -> rsum ws = T /\ rsum (map Rsqr ws) = Q).
Proof.
  intros n t Kx Ky ws Ht PX PY (wx & Vx & wy & Vy & DX & DY & _ & _ & A) T Q.
  destruct (eig_moments n Kx wx Vx DX) as [X1 X2]. destruct (eig_moments n Ky wy Vy DY) as [Y1 Y2].
  pose proof (eig_nonneg n Kx wx Vx DX PX) as NX. pose proof (eig_nonneg n Ky wy Vy DY PY) as NY.
  set (l := map (fun p => wx (fst p) * wy (snd p)) (list_prod (seq 0 n) (seq 0 n))) in *.
  assert (E1 : rsum l = T). { unfold l, T. rewrite rsum_prod. rewrite <- X1, <- Y1. reflexivity. }
  assert (E2 : rsum (map Rsqr l) = Q).
  { unfold l, Q. rewrite map_map. rewrite (map_ext _ (fun p => Rsqr (wx (fst p)) * Rsqr (wy (snd p)))) by (intro; apply Rsqr_mult).
    rewrite (rsum_prod (fun a => Rsqr (wx a)) (fun a => Rsqr (wy a))). rewrite <- X2, <- Y2. reflexivity. }
  rewrite <- E1, <- E2. apply cut_moments; auto.
  - intros x Hx. unfold l in Hx. apply in_map_iff in Hx. destruct Hx as ([a b] & <- & I). apply in_prod_iff in I. destruct I as [I1 I2]. apply in_seq in I1. apply in_seq in I2.
    apply Rmult_le_pos; [apply NX|apply NY]; cbn; lia.
  - unfold l. rewrite map_length, prod_length, seq_length. lia.
Qed.

(** At most n orthonormal vectors, so at most n positive eigenvalues. *)
Lemma orthonormal_le : forall n m (V : rmat), (forall c c', (c < m)%nat -> (c' < m)%nat -> rsumn n (fun i => V i c * V i c') = if Nat.eqb c c' then 1 else 0) -> (m <= n)%nat.
Proof.
  intros n m V O. set (P := fun i j => rsumn m (fun c => V i c * V j c)).
  assert (PP : forall i j, rsumn n (fun k => P i k * P k j) = P i j).
  { intros i j. unfold P. rewrite (rs_ext n _ (fun k => rsumn m (fun c => rsumn m (fun d => V i c * V j d * (V k c * V k d))))).
    - rewrite rs_swap. apply rs_ext. intros c Hc. rewrite rs_swap. rewrite (rs_ext m _ (fun d => (if Nat.eqb c d then 1 else 0) * (V i c * V j d))); [apply (rs_delta m c (fun d => V i c * V j d)); auto|].
      intros d Hd. rewrite rs_scal, O by auto. ring.
    - intros k Hk. rewrite <- rs_scalr. apply rs_ext. intros c Hc. rewrite <- rs_scal. apply rs_ext. intros. ring. }
  assert (B : forall i, (i < n)%nat -> P i i <= 1).
  { intros i Hi. assert (Sq : 0 <= rsumn n (fun k => Rsqr ((if Nat.eqb i k then 1 else 0) - P i k))) by (apply rs_nonneg; intros; apply Rle_0_sqr).
    rewrite (rs_ext n _ (fun k => (if Nat.eqb i k then 1 else 0) * (1 - 2 * P i k) + P i k * P k i)) in Sq.
    - rewrite rs_plus, PP in Sq. rewrite (rs_delta n i (fun k => 1 - 2 * P i k)) in Sq by auto. lra.
    - intros k Hk. replace (P k i) with (P i k) by (apply rs_ext; intros; ring). unfold Rsqr. destruct (Nat.eqb i k); ring. }
  apply INR_le. apply (Rle_trans _ (rsumn n (fun i => P i i))).
  - right. unfold P. rewrite rs_swap. rewrite (rs_ext m _ (fun _ => 1)); [rewrite rs_const; ring|]. intros c Hc. rewrite O, Nat.eqb_refl by auto. auto.
  - apply (Rle_trans _ (rsumn n (fun _ => 1))); [apply rs_le; auto|]. rewrite rs_const. lra.
Qed.
Lemma positive_moments : forall n K ws, positive_eigenvalues n K ws -> (length ws <= n)%nat /\ (forall x, In x ws -> 0 <= x) /\
  rsum ws = rsumn n (fun i => K i i) /\ rsum (map Rsqr ws) = rsumn n (fun i => rsumn n (fun j => K i j * K i j)).
Proof.
  intros n K ws (V & PW & _ & O & D).
  assert (O' : forall c c', (c < length ws)%nat -> (c' < length ws)%nat -> rsumn n (fun i => V i c * V i c') = if Nat.eqb c c' then 1 else 0) by (intros; rewrite rsumn_sumR; auto).
  assert (D' : forall i j, (i < n)%nat -> (j < n)%nat -> K i j = rsumn (length ws) (fun c => nth c ws 0 * V i c * V j c)) by (intros; rewrite rsumn_sumR; auto).
  split; [apply (orthonormal_le n _ V O')|]. split; [|split].
  - intros x I. destruct (In_nth ws x 0 I) as (c & Hc & <-). left. auto.
  - rewrite (thin_trace n _ K _ V O' D'). rewrite (rsum_nthR ws (fun x => x)), map_id. auto.
  - rewrite (thin_squares n _ K _ V O' D'). symmetry. apply (rsum_nthR ws Rsqr).
Qed.

(* ---------- the conditional weights ---------- *)
(** A full decomposition of a positive semidefinite matrix contains its positive eigenvalues. *)
Lemma full_positive : forall n K w V, eigendecomposition n K w V -> (forall c, (c < n)%nat -> 0 <= w c) -> (forall c c', (c <= c')%nat -> (c' < n)%nat -> w c' <= w c) ->
  positive_eigenvalues n K (filter (keeps 0) (map w (seq 0 n))).
Proof.
  intros n K w V (D1 & D2 & _) N Ds. rewrite filter_map_keeps. set (idx := filter (fun c => keeps 0 (w c)) (seq 0 n)).
  assert (IN : forall c, (c < length idx)%nat -> (nth c idx 0%nat < n)%nat /\ 0 < w (nth c idx 0%nat)).
  { intros c Hc. pose proof (nth_In idx 0%nat Hc) as I. unfold idx in I at 2. apply filter_In in I. destruct I as [I1 I2]. apply in_seq in I1.
    unfold keeps in I2. destruct (Rlt_dec 0 (w (nth c idx 0%nat))); [|discriminate]. split; auto. lia. }
  assert (NW : forall c, (c < length idx)%nat -> nth c (map w idx) 0 = w (nth c idx 0%nat)).
  { intros c Hc. rewrite (nth_indep (map w idx) 0 (w 0%nat)) by (rewrite map_length; auto). apply map_nth. }
  exists (fun a c => V a (nth c idx 0%nat)). split; [|split; [|split]].
  - rewrite map_length. intros c Hc. rewrite NW by auto. apply IN; auto.
  - rewrite map_length. intros c c' L Hc'. rewrite !NW by lia. apply Ds; [|apply IN; auto]. apply (filter_seq_mono (fun c => keeps 0 (w c)) 0 n c c' L Hc').
  - rewrite map_length. intros c c' Hc Hc'. rewrite D2 by (apply IN; auto). destruct (Nat.eqb_spec c c') as [<-|NE]; [rewrite Nat.eqb_refl; auto|].
    destruct (Nat.eqb_spec (nth c idx 0%nat) (nth c' idx 0%nat)) as [E|_]; [|auto]. exfalso. apply NE.
    assert (ND : NoDup idx) by (apply NoDup_filter, seq_NoDup). apply (proj1 (NoDup_nth idx 0%nat) ND c c' Hc Hc' E).
  - intros a b Ha Hb. rewrite D1 by auto. rewrite <- !rsumn_sumR. rewrite (rsum_nth_map w idx (fun x k => x * V a k * V b k)). unfold idx. rewrite rsum_filter.
    apply rs_ext. intros c Hc. unfold keeps. destruct (Rlt_dec 0 (w c)); auto. replace (w c) with 0 by (pose proof (N c Hc); lra). ring.
Qed.
Lemma positive_ext : forall n K L ws, agree n n K L -> positive_eigenvalues n K ws -> positive_eigenvalues n L ws.
Proof. intros n K L ws H (V & P & D & O & E). exists V. split; auto. split; auto. split; auto. intros i j Hi Hj. rewrite <- H by auto. auto. Qed.

Lemma uuprod_weights : forall eigs n t A B M size ws, (0 < n)%nat -> 0 <= t -> eigensolver eigs -> sym n A -> psd n A -> sym n B -> psd n B ->
  get_uuprod eigs n t A B = (M, size) -> product_eigenvalues eigs t M size = Ok ws ->
  exists A' B' ws0, dominant_part n t A A' /\ dominant_part n t B B' /\ positive_eigenvalues n (fun i j => A' i j * B' i j) ws0 /\ above_part t ws0 ws.
Proof.
  intros eigs n t A B M size ws Hn Ht He SA PA SB PB E W. unfold get_uuprod in E.
  destruct (scaled_vectors eigs n t A) as [mx vx] eqn:Ex. destruct (scaled_vectors eigs n t B) as [my vy] eqn:Ey.
  exists (fun a b => rsumn mx (fun c => vx a c * vx b c)), (fun a b => rsumn my (fun c => vy a c * vy b c)).
  set (U := fun r c => vx r (c / my)%nat * vy r (c mod my)%nat) in *.
  assert (P : forall a b, rsumn (mx * my) (fun c => U a c * U b c) = rsumn mx (fun c => vx a c * vx b c) * rsumn my (fun c => vy a c * vy b c)).
  { intros a b. destruct (Nat.eq_dec my 0) as [->|Nz].
    - rewrite Nat.mul_0_r. unfold rsumn at 1 3. simpl. unfold rsum. simpl. ring.
    - unfold U. rewrite (rs_block mx my (fun i j => vx a i * vy a j * (vx b i * vy b j))) by lia.
      rewrite <- rs_scalr. apply rs_ext. intros i Hi. rewrite <- rs_scal. apply rs_ext. intros. ring. }
  set (m := (mx * my)%nat) in *. unfold product_eigenvalues in W.
  assert (SQ : forall k r (u : rmat), eigendecomposition r (fun c c' => rsumn k (fun a => u a c * u a c')) (fst (eigs r (fun c c' => rsumn k (fun a => u a c * u a c')))) (snd (eigs r (fun c c' => rsumn k (fun a => u a c * u a c')))) /\
    (forall c c', (c <= c')%nat -> (c' < r)%nat -> fst (eigs r (fun c c' => rsumn k (fun a => u a c * u a c'))) c' <= fst (eigs r (fun c c' => rsumn k (fun a => u a c * u a c'))) c) /\
    forall c, (c < r)%nat -> 0 <= fst (eigs r (fun c c' => rsumn k (fun a => u a c * u a c'))) c).
  { intros k r u. destruct (He r (fun c c' => rsumn k (fun a => u a c * u a c'))) as [De Ds]; [intros i j _ _; apply rs_ext; intros; ring|]. split; auto. split; auto.
    apply (eig_nonneg r _ _ _ De). apply psd_quad. intro v. unfold quad.
    rewrite (rs_ext r _ (fun c => rsumn k (fun a => rsumn r (fun c' => v c * u a c * (v c' * u a c'))))).
    - rewrite rs_swap. apply rs_nonneg. intros a Ha. rewrite (rs_ext r _ (fun c => v c * u a c * rsumn r (fun c' => v c' * u a c'))) by (intros; apply rs_scal). rewrite rs_scalr. apply Rle_0_sqr.
    - intros c Hc. rewrite rs_swap. rewrite ?rs_scal. apply rs_ext. intros c' Hc'. rewrite <- ?rs_scal, <- ?rs_scalr. rewrite ?(rs_ext k _ (fun a => v c * u a c * (v c' * u a c'))) by (intros; ring). try (apply rs_ext; intros; ring). }
  destruct (Nat.ltb n m); injection E as <- <-.
  - destruct (SQ m n (fun c a => U a c)) as (De & Ds & N). exists (filter (keeps 0) (map (fst (eigs n (fun a b => rsumn m (fun c => U a c * U b c)))) (seq 0 n))).
    split; [eapply scaled_spec; eauto|]. split; [eapply scaled_spec; eauto|]. split.
    + eapply positive_ext; [|apply (full_positive n _ _ _ De); auto]. intros i j _ _. apply P.
    + apply above_positive; auto. intros x Hx. apply in_map_iff in Hx. destruct Hx as (c & <- & I). apply in_seq in I. apply N. lia.
  - destruct (SQ n m U) as (De & Ds & N). exists (filter (keeps 0) (map (fst (eigs m (fun c c' => rsumn n (fun a => U a c * U a c')))) (seq 0 m))).
    split; [eapply scaled_spec; eauto|]. split; [eapply scaled_spec; eauto|]. split.
    + eapply positive_ext; [|apply (gram_positive n m U _ _ De); auto]. intros i j _ _. apply P.
    + apply above_positive; auto. intros x Hx. apply in_map_iff in Hx. destruct Hx as (c & <- & I). apply in_seq in I. apply N. lia.
Qed.

Lemma statistic_matrices : forall pinv b n Kx Ky Kzx Kzy ex ey st A B, inverts pinv ->
  sym n Kx -> psd n Kx -> sym n Ky -> psd n Ky -> sym n Kzx -> psd n Kzx -> sym n Kzy -> psd n Kzy -> 0 < ex -> 0 < ey -> (b = false -> Kzx = Kzy) ->
  kci_v_statistic pinv b n Kx Ky Kzx Kzy ex ey = (st, A, B) ->
  exists Rx Ry, residual_maker n Kzx ex Rx /\ residual_maker n Kzy ey Ry /\ agree n n A (sandwich n Rx Kx) /\ agree n n B (sandwich n Ry Ky) /\ st = sum_prod n A B /\
    sym n A /\ psd n A /\ sym n B /\ psd n B.
Proof.
  intros pinv b n Kx Ky Kzx Kzy ex ey st A B Hp SX PX SY PY SZX PZX SZY PZY Hex Hey Hb E.
  set (Rx := rscale ex (pinv n (radd Kzx (rscale ex rident)))) in *. set (Ry := rscale ey (pinv n (radd Kzy (rscale ey rident)))) in *.
  destruct (residual_spec pinv n Hp Kzx ex Hex SZX PZX) as [Mx Sx]. fold Rx in Mx, Sx.
  destruct (residual_spec pinv n Hp Kzy ey Hey SZY PZY) as [My Sy]. fold Ry in My, Sy.
  assert (EA : A = rdot n Rx (rdot n Kx Rx) /\ B = rdot n Ry (rdot n Ky Ry) /\ st = sum_prod n A B).
  { unfold kci_v_statistic, center_regression in E. fold Rx Ry in E. cbv zeta in E. cbn [fst] in E.
    assert (T : forall c, (if c || b then rdot n Ry (rdot n Ky Ry) else rdot n Rx (rdot n Ky Rx)) = B ->
      (c || b = false -> ex = ey) -> B = rdot n Ry (rdot n Ky Ry)).
    { intros c Ec I. destruct (c || b) eqn:O; [auto|]. specialize (I eq_refl). apply orb_false_iff in O. destruct O as [_ O].
      rewrite <- Ec. unfold Rx, Ry. rewrite (Hb O), I. auto. }
    injection E as E1 E2 E3. split; auto. split; [|rewrite <- E1, E3, <- E2; auto].
    apply (T _ E3). destruct (Req_EM_T ex ey); auto. simpl. discriminate. }
  clear E. destruct EA as [EA [EB ->]].
  assert (GA : agree n n A (sandwich n Rx Kx)) by (rewrite EA; apply rdot_sandwich).
  assert (GB : agree n n B (sandwich n Ry Ky)) by (rewrite EB; apply rdot_sandwich).
  exists Rx, Ry. split; auto. split; auto. split; auto. split; auto. split; auto.
  split; [intros i j Hi Hj; rewrite !GA by auto; apply sandwich_sym; auto|].
  split; [apply (psd_ext n (sandwich n Rx Kx)); [apply agree_sym'; auto|apply sandwich_psd; auto]|].
  split; [intros i j Hi Hj; rewrite !GB by auto; apply sandwich_sym; auto|].
  apply (psd_ext n (sandwich n Ry Ky)); [apply agree_sym'; auto|apply sandwich_psd; auto].
Qed.

Lemma kernel_weights : forall pinv eigs b n t Kx Ky Kzx Kzy ex ey st A B M size ws, (0 < n)%nat -> 0 <= t -> inverts pinv -> eigensolver eigs ->
  sym n Kx -> psd n Kx -> sym n Ky -> psd n Ky -> sym n Kzx -> psd n Kzx -> sym n Kzy -> psd n Kzy -> 0 < ex -> 0 < ey -> (b = false -> Kzx = Kzy) ->
  kci_v_statistic pinv b n Kx Ky Kzx Kzy ex ey = (st, A, B) -> get_uuprod eigs n t A B = (M, size) -> product_eigenvalues eigs t M size = Ok ws ->
  conditional_weights n t Kx Ky Kzx Kzy ex ey st ws.
Proof.
  intros pinv eigs b n t Kx Ky Kzx Kzy ex ey st A B M size ws Hn Ht Hp He SX PX SY PY SZX PZX SZY PZY Hex Hey Hb E U W.
  destruct (statistic_matrices pinv b n Kx Ky Kzx Kzy ex ey st A B Hp SX PX SY PY SZX PZX SZY PZY Hex Hey Hb E) as (Rx & Ry & MX & MY & GA & GB & -> & SA & PA & SB & PB).
  destruct (uuprod_weights eigs n t A B M size ws Hn Ht He SA PA SB PB U W) as (A' & B' & ws0 & DA & DB & P & Ab).
  exists Rx, Ry, A', B', ws0. split; auto. split; auto. split; [rewrite <- sum_prod_sum; apply sum_prod_ext; auto|].
  split; [eapply dominant_ext; [exact GA| |exact DA]; intros i j _ _; auto|]. split; [eapply dominant_ext; [exact GB| |exact DB]; intros i j _ _; auto|]. auto.
Qed.

(** They are determined, and do not change when all matrices are reordered. *)
Lemma dominant_sym : forall n t K A, dominant_part n t K A -> sym n A.
Proof.
  intros n t K A (w & V & top & _ & _ & _ & E) i j Hi Hj. rewrite !E by auto. rewrite <- !rsumn_sumR. apply rs_ext. intros c Hc. destruct (Rlt_dec (t * top) (w c)); ring.
Qed.
Lemma positive_both : forall n p K ws, Permutation (map p (seq 0 n)) (seq 0 n) -> positive_eigenvalues n K ws -> positive_eigenvalues n (both p K) ws.
Proof.
  intros n p K ws Hp (V & P & D & O & E). exists (fun i c => V (p i) c). split; auto. split; auto. split.
  - intros c c' Hc Hc'. rewrite <- rsumn_sumR. rewrite (rsumn_perm n p Hp (fun i => V i c * V i c')). rewrite rsumn_sumR. auto.
  - intros i j Hi Hj. unfold both. rewrite E by (apply (p_lt n p Hp); auto). auto.
Qed.
Lemma weights_unique : forall n p t Kx Ky Kzx Kzy Kx' Ky' Kzx' Kzy' ex ey s ws s' ws', Permutation (map p (seq 0 n)) (seq 0 n) -> 0 < ex -> 0 < ey ->
  sym n Kzx' -> psd n Kzx' -> sym n Kzy' -> psd n Kzy' ->
  agree n n Kx' (both p Kx) -> agree n n Ky' (both p Ky) -> agree n n Kzx' (both p Kzx) -> agree n n Kzy' (both p Kzy) ->
  conditional_weights n t Kx Ky Kzx Kzy ex ey s ws -> conditional_weights n t Kx' Ky' Kzx' Kzy' ex ey s' ws' -> s' = s /\ ws' = ws.
Proof.
  intros n p t Kx Ky Kzx Kzy Kx' Ky' Kzx' Kzy' ex ey s ws s' ws' Hp Hex Hey S1 P1 S2 P2 AX AY AZX AZY
    (Rx & Ry & A & B & w0 & RX & RY & -> & DA & DB & W & C) (Rx' & Ry' & A' & B' & w0' & RX' & RY' & -> & DA' & DB' & W' & C').
  assert (RR : forall K K' e R1 R2, 0 < e -> sym n K' -> psd n K' -> agree n n K' (both p K) -> residual_maker n K e R1 -> residual_maker n K' e R2 -> meq n R2 (both p R1)).
  { intros K K' e R1 R2 He S P HA H1 H2. apply (residual_unique n K' e); auto. apply (residual_ext n (both p K)); [apply agree_sym'; auto|]. apply residual_both; auto. }
  pose proof (RR _ _ _ _ _ Hex S1 P1 AZX RX RX') as EX. pose proof (RR _ _ _ _ _ Hey S2 P2 AZY RY RY') as EY.
  assert (SS : forall R1 R2 K K', meq n R2 (both p R1) -> agree n n K' (both p K) -> agree n n (sandwich n R2 K') (both p (sandwich n R1 K))).
  { intros R1 R2 K K' HR HK i j Hi Hj. rewrite (sandwich_ext n R2 (both p R1) K' (both p K) HR HK i j Hi Hj). apply sandwich_both; auto. }
  pose proof (SS _ _ _ _ EX AX) as SX. pose proof (SS _ _ _ _ EY AY) as SY.
  split. { rewrite <- !sum_prod_sum. rewrite (sum_prod_ext n _ _ _ _ SX SY). apply (sum_prod_rows n p Hp). }
  assert (GA : agree n n A' (both p A)).
  { apply (dominant_unique n t (sandwich n Rx' Kx')); auto. eapply dominant_ext; [apply agree_sym'; exact SX| |apply (dominant_both n p Hp); exact DA]. intros i j _ _; auto. }
  assert (GB : agree n n B' (both p B)).
  { apply (dominant_unique n t (sandwich n Ry' Ky')); auto. eapply dominant_ext; [apply agree_sym'; exact SY| |apply (dominant_both n p Hp); exact DB]. intros i j _ _; auto. }
  assert (w0' = w0) as ->.
  { apply (positive_unique n (fun i j => A' i j * B' i j)); auto.
    - intros i j Hi Hj. rewrite (dominant_sym _ _ _ _ DA' i j), (dominant_sym _ _ _ _ DB' i j) by auto. auto.
    - apply (positive_ext n (both p (fun i j => A i j * B i j))); [|apply positive_both; auto]. intros i j Hi Hj. rewrite GA, GB by auto. reflexivity. }
  eapply above_part_unique; eauto.
Qed.

(* ---------- the unconditional weights ---------- *)
Lemma products_list : forall (f g : nat -> R) l' l, flat_map (fun a => map (fun b => f a * g b) l') l = map (fun p => f (fst p) * g (snd p)) (list_prod l l').
Proof.
  intros f g l' l. induction l as [|a l IH]; [reflexivity|]. cbn [flat_map list_prod]. rewrite IH, map_app, map_map. reflexivity.
Qed.
Lemma products_spec : forall eigs np_int t n Kx Ky ws, eigensolver eigs -> sym n Kx -> sym n Ky -> product_weights eigs np_int t n Kx Ky = Ok ws ->
  eigenvalue_products n (if Nat.ltb 1000 n then n / 2 else n) t Kx Ky ws /\ ((1000 < n)%nat -> np_int = true).
Proof.
  intros eigs np_int t n Kx Ky ws He SX SY E. unfold product_weights in E.
  destruct (He n Kx SX) as [DX OX]. destruct (He n Ky SY) as [DY OY].
  destruct (Nat.ltb_spec 1000 n) as [L|L]; [destruct np_int; [|discriminate]|]; cbn [rbind] in E; rewrite products_list in E; apply above_spec in E.
  - split; [|auto]. exists (fst (eigs n Kx)), (snd (eigs n Kx)), (fst (eigs n Ky)), (snd (eigs n Ky)). auto.
  - split; [|lia]. exists (fst (eigs n Kx)), (snd (eigs n Kx)), (fst (eigs n Ky)), (snd (eigs n Ky)). auto.
Qed.
Lemma eig_both : forall n p K w V, Permutation (map p (seq 0 n)) (seq 0 n) -> eigendecomposition n K w V -> eigendecomposition n (both p K) w (fun i c => V (p i) c).
Proof.
  intros n p K w V Hp [D1 [D2 D3]]. split; [|split].
  - intros i j Hi Hj. unfold both. rewrite D1 by (apply (p_lt n p Hp); auto). auto.
  - intros c c' Hc Hc'. rewrite <- rsumn_sumR. rewrite (rsumn_perm n p Hp (fun i => V i c * V i c')). rewrite rsumn_sumR. auto.
  - intros i j Hi Hj. rewrite D3 by (apply (p_lt n p Hp); auto).
    destruct (Nat.eqb_spec i j) as [->|N]; [rewrite Nat.eqb_refl; auto|]. destruct (Nat.eqb_spec (p i) (p j)) as [Q|]; auto.
    exfalso. apply N. apply (p_inj n p Hp); auto.
Qed.
Lemma eig_ext : forall n K L w V, agree n n K L -> eigendecomposition n K w V -> eigendecomposition n L w V.
Proof. intros n K L w V H [D1 D]. split; auto. intros i j Hi Hj. rewrite <- H by auto. auto. Qed.
Lemma products_unique : forall n m p t Kx Ky Kx' Ky' ws ws', (m <= n)%nat -> Permutation (map p (seq 0 n)) (seq 0 n) -> sym n Kx' -> sym n Ky' ->
  agree n n Kx' (both p Kx) -> agree n n Ky' (both p Ky) -> eigenvalue_products n m t Kx Ky ws -> eigenvalue_products n m t Kx' Ky' ws' -> ws' = ws.
Proof.
  intros n m p t Kx Ky Kx' Ky' ws ws' Lm Hp SX SY AX AY (wx & Vx & wy & Vy & DX & DY & OX & OY & A) (wx' & Vx' & wy' & Vy' & DX' & DY' & OX' & OY' & A').
  assert (EX : forall c, (c < n)%nat -> wx' c = wx c).
  { apply (sorted_unique n Kx' wx' Vx' wx (fun i c => Vx (p i) c) SX DX'); auto. apply (eig_ext n (both p Kx)); [apply agree_sym'; auto|]. apply eig_both; auto. }
  assert (EY : forall c, (c < n)%nat -> wy' c = wy c).
  { apply (sorted_unique n Ky' wy' Vy' wy (fun i c => Vy (p i) c) SY DY'); auto. apply (eig_ext n (both p Ky)); [apply agree_sym'; auto|]. apply eig_both; auto. }
  rewrite (map_ext_in _ (fun q => wx (fst q) * wy (snd q))) in A'; [eapply above_part_unique; eauto|].
  intros [a b] I. apply in_prod_iff in I. destruct I as [I1 I2]. apply in_seq in I1. apply in_seq in I2. cbn. rewrite EX, EY by lia. auto.
Qed.

(** The proportion. *)
Lemma share_spec : forall N f s, proportion N (fun j => s < f j) (share N f s).
Proof.
  intros N f s. exists (filter (fun j => if Rlt_dec s (f j) then true else false) (seq 0 N)). split; [apply NoDup_filter, seq_NoDup|]. split; [|reflexivity].
  intro j. rewrite filter_In, in_seq. destruct (Rlt_dec s (f j)); split; intros [H1 H2]; try discriminate; split; auto; try lia; contradiction.
Qed.
Lemma proportion_bounds : forall N P p, (0 < N)%nat -> proportion N P p -> 0 <= p <= 1.
Proof.
  intros N P p HN (l & ND & I & ->). assert (0 < INR N) by (apply lt_0_INR; auto).
  assert (length l <= N)%nat as L. { rewrite <- (seq_length N 0). apply NoDup_incl_length; auto. intros j Hj. apply in_seq. apply I in Hj. lia. }
  apply le_INR in L. split; [apply Rmult_le_pos; [apply pos_INR|left; apply Rinv_0_lt_compat; auto]|].
  apply (Rmult_le_reg_r (INR N)); auto. unfold Rdiv. rewrite Rmult_assoc, Rinv_l by lra. lra.
Qed.
Lemma proportion_none : forall N P p, (forall j, (j < N)%nat -> ~ P j) -> proportion N P p -> p = 0.
Proof.
  intros N P p H (l & _ & I & ->). destruct l as [|a l]; [cbn; unfold Rdiv; ring|]. exfalso. destruct (proj1 (I a) (or_introl eq_refl)) as [H1 H2]. apply (H a H1 H2).
Qed.
