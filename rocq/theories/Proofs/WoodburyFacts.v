(** One round of the cross-validation: the matrix A of the code against the residuals. *)

From Coq Require Import List Arith Lia Bool Permutation Reals Lra FunctionalExtensionality.
From Verif Require Import Model.Py Model.LocalScore Model.KCI Model.Expm Model.CVScore Spec.Scores Spec.KernelSpec Spec.CVSpec
  Proofs.ScoreFacts Proofs.BicFacts Proofs.PopulationFacts Proofs.KCIFacts Proofs.GaussianFacts Proofs.ExpmFacts Proofs.CholeskyFacts.
Import ListNotations.
Open Scope R_scope.

(* ---------- products of matrices, vectors ---------- *)
Lemma rdot_assoc : forall m n A B C, rdot m (rdot n A B) C = rdot n A (rdot m B C).
Proof.
  intros m n A B C. extensionality i. extensionality j. unfold rdot.
  rewrite (rs_ext m _ (fun k => rsumn n (fun l => A i l * B l k * C k j))) by (intros; rewrite rs_scalr; auto).
  rewrite rs_swap. apply rs_ext. intros l Hl. rewrite <- rs_scal. apply rs_ext. intros k Hk. ring.
Qed.
Lemma rdot_scale : forall n c A B, rdot n (rscale c A) B = rscale c (rdot n A B).
Proof. intros. extensionality i. extensionality j. unfold rdot, rscale. rewrite <- rs_scal. apply rs_ext. intros. ring. Qed.

Definition dotv (n : nat) (x y : nat -> R) : R := rsumn n (fun a => x a * y a).
Definition mv (n : nat) (A : rmat) (x : nat -> R) : nat -> R := fun i => rsumn n (fun k => A i k * x k).
Definition vsub (x y : nat -> R) : nat -> R := fun a => x a - y a.

Lemma dotv_comm : forall n x y, dotv n x y = dotv n y x.
Proof. intros. apply rs_ext. intros. ring. Qed.
Lemma dotv_sub_l : forall n x y z, dotv n (vsub x y) z = dotv n x z - dotv n y z.
Proof. intros. unfold dotv, vsub. rewrite <- rs_minus. apply rs_ext. intros. ring. Qed.
Lemma dotv_sub_r : forall n x y z, dotv n z (vsub x y) = dotv n z x - dotv n z y.
Proof. intros. unfold dotv, vsub. rewrite <- rs_minus. apply rs_ext. intros. ring. Qed.
Lemma dotv_scal_r : forall n c x y, dotv n x (fun a => c * y a) = c * dotv n x y.
Proof. intros. unfold dotv. rewrite <- rs_scal. apply rs_ext. intros. ring. Qed.
Lemma dotv_scal_l : forall n c x y, dotv n (fun a => c * x a) y = c * dotv n x y.
Proof. intros. unfold dotv. rewrite <- rs_scal. apply rs_ext. intros. ring. Qed.
Lemma dotv_ext : forall n x x' y y', (forall a, (a < n)%nat -> x a = x' a) -> (forall a, (a < n)%nat -> y a = y' a) -> dotv n x y = dotv n x' y'.
Proof. intros. apply rs_ext. intros. f_equal; auto. Qed.
Lemma mv_ext : forall n A x x' i, (forall a, (a < n)%nat -> x a = x' a) -> mv n A x i = mv n A x' i.
Proof. intros. apply rs_ext. intros. f_equal; auto. Qed.
Lemma mv_sub : forall n A x y, mv n A (vsub x y) = vsub (mv n A x) (mv n A y).
Proof. intros. extensionality i. unfold mv, vsub. rewrite <- rs_minus. apply rs_ext. intros. ring. Qed.
Lemma mv_scal : forall n A c x, mv n A (fun a => c * x a) = (fun a => c * mv n A x a).
Proof. intros. extensionality i. unfold mv. rewrite <- rs_scal. apply rs_ext. intros. ring. Qed.
(** [x . (A y) = (A' x) . y] when [A'] is the transpose. *)
Lemma dotv_mv : forall n m A A' x y, (forall a b, (a < n)%nat -> (b < m)%nat -> A a b = A' b a) -> dotv n x (mv m A y) = dotv m (mv n A' x) y.
Proof.
  intros n m A A' x y H. unfold dotv, mv. rewrite (rs_ext n _ (fun a => rsumn m (fun b => x a * (A a b * y b)))) by (intros; rewrite <- rs_scal; auto).
  rewrite rs_swap. apply rs_ext. intros b Hb. rewrite <- rs_scalr. apply rs_ext. intros a Ha. rewrite H by auto. ring.
Qed.
Lemma mv_mv : forall n m A B x i, mv n A (mv m B x) i = mv m (rdot n A B) x i.
Proof.
  intros. unfold mv, rdot. rewrite (rs_ext n _ (fun k => rsumn m (fun l => A i k * (B k l * x l)))) by (intros; rewrite <- rs_scal; auto).
  rewrite rs_swap. apply rs_ext. intros l Hl. rewrite <- rs_scalr. apply rs_ext. intros. ring.
Qed.
Lemma mv_id : forall n A x i, meq n A rident -> (i < n)%nat -> mv n A x i = x i.
Proof.
  intros n A x i H Hi. unfold mv. rewrite (rs_ext n _ (fun k => (if Nat.eqb i k then 1 else 0) * x k)).
  - apply rs_delta. auto.
  - intros k Hk. rewrite H by auto. auto.
Qed.

(* ---------- positive definite matrices ---------- *)
Lemma gram_below : forall n d h g e M, 0 <= g -> (forall a b, (a < n)%nat -> (b < n)%nat -> M a b = g * rsumn d (fun c => h c a * h c b) + e * rident a b) ->
  sym n M /\ bounded_below n e M.
Proof.
  intros n d h g e M Hg H. split.
  - intros a b Ha Hb. rewrite !H by auto. unfold rident. rewrite (Nat.eqb_sym b a). f_equal. f_equal. apply rs_ext. intros. ring.
  - intro v. assert (quad n v M = g * rsumn d (fun c => rsumn n (fun a => v a * h c a) * rsumn n (fun a => v a * h c a)) + e * rsumn n (fun i => v i * v i)) as ->.
    2:{ assert (0 <= rsumn d (fun c => rsumn n (fun a => v a * h c a) * rsumn n (fun a => v a * h c a))) by (apply rs_nonneg; intros; apply Rle_0_sqr).
        pose proof (Rmult_le_pos _ _ Hg H0). lra. }
    unfold quad. rewrite (rs_ext n _ (fun a => g * rsumn d (fun c => v a * h c a * rsumn n (fun b => v b * h c b)) + e * (v a * v a))).
    + rewrite rs_plus, !rs_scal. f_equal. f_equal. rewrite rs_swap. apply rs_ext. intros c Hc. rewrite rs_scalr. auto.
    + intros a Ha. rewrite (rs_ext n _ (fun b => g * rsumn d (fun c => v a * h c a * (v b * h c b)) + e * ((if Nat.eqb a b then 1 else 0) * (v a * v b)))).
      * rewrite rs_plus, !rs_scal. rewrite (rs_delta n a (fun b => v a * v b)) by auto. f_equal. f_equal. rewrite rs_swap. apply rs_ext. intros c Hc. apply rs_scal.
      * intros b Hb. rewrite H by auto. unfold rident. rewrite (rs_ext d (fun c => v a * h c a * (v b * h c b)) (fun c => v a * v b * (h c a * h c b))) by (intros; ring).
        rewrite rs_scal. ring.
Qed.

(* ---------- the inverse of the covariance ---------- *)
Lemma woodbury : forall d n (Rm : nat -> nat -> R) gm g x v N B, 0 < gm ->
  (forall a b, (a < n)%nat -> (b < n)%nat -> B a b = rident a b + g * rsumn d (fun c => Rm c a * Rm c b)) ->
  meq n (rdot n N B) rident ->
  (forall c, (c < d)%nat -> gm * (v c + g * mv n Rm (mv d (rtranspose Rm) v) c) = x c) ->
  dotv d x v = / gm * (dotv d x x - g * dotv n (mv d (rtranspose Rm) x) (mv n N (mv d (rtranspose Rm) x))).
Proof.
  intros d n Rm gm g x v N B Hg HB HN Hv. set (z := mv d (rtranspose Rm) v). set (y := mv d (rtranspose Rm) x).
  assert (Y : forall a, (a < n)%nat -> y a = gm * mv n B z a).
  { intros a Ha. unfold y. rewrite (mv_ext d (rtranspose Rm) x (fun c => gm * (v c + g * mv n Rm z c))) by (intros; symmetry; apply Hv; auto).
    rewrite (mv_scal d (rtranspose Rm) gm (fun c => v c + g * mv n Rm z c)). f_equal.
    unfold mv at 1. rewrite (rs_ext d _ (fun c => rtranspose Rm a c * v c + g * (rtranspose Rm a c * mv n Rm z c))) by (intros; ring).
    rewrite rs_plus, rs_scal. change (rsumn d (fun i => rtranspose Rm a i * v i)) with (z a). change (rsumn d (fun i => rtranspose Rm a i * mv n Rm z i)) with (mv d (rtranspose Rm) (mv n Rm z) a).
    rewrite mv_mv. unfold mv. rewrite <- rs_scal. rewrite <- (rs_delta n a z Ha) at 1. rewrite <- rs_plus. apply rs_ext. intros k Hk.
    rewrite HB by auto. unfold rident, rdot, rtranspose. ring. }
  assert (Ny : forall a, (a < n)%nat -> mv n N y a = gm * z a).
  { intros a Ha. rewrite (mv_ext n N y (fun a => gm * mv n B z a)) by auto. rewrite mv_scal. f_equal. rewrite mv_mv. apply mv_id; auto. }
  rewrite (dotv_ext n y y (mv n N y) (fun a => gm * z a)) by auto. rewrite dotv_scal_r.
  assert (XX : dotv d x x = gm * (dotv d x v + g * dotv n y z)).
  { rewrite (dotv_ext d x x x (fun c => gm * (v c + g * mv n Rm z c))) at 1 by (intros; auto; symmetry; auto).
    rewrite (dotv_scal_r d gm x (fun c => v c + g * mv n Rm z c)). f_equal.
    unfold dotv at 1. rewrite (rs_ext d _ (fun c => x c * v c + g * (x c * mv n Rm z c))) by (intros; ring). rewrite rs_plus, rs_scal. f_equal. f_equal.
    apply (dotv_mv d n Rm (rtranspose Rm) x z). auto. }
  rewrite XX. field. lra.
Qed.
(** There is a solution. *)
Lemma woodbury_solution : forall d n (Rm : nat -> nat -> R) gm g x N B, 0 < gm ->
  (forall a b, (a < n)%nat -> (b < n)%nat -> B a b = rident a b + g * rsumn d (fun c => Rm c a * Rm c b)) ->
  meq n (rdot n B N) rident ->
  let v := fun c => / gm * (x c - g * mv n Rm (mv n N (mv d (rtranspose Rm) x)) c) in
  forall c, (c < d)%nat -> gm * (v c + g * mv n Rm (mv d (rtranspose Rm) v) c) = x c.
Proof.
  intros d n Rm gm g x N B Hg HB HN v c Hc. set (y := mv d (rtranspose Rm) x) in *.
  assert (Z : forall a, (a < n)%nat -> mv d (rtranspose Rm) v a = / gm * mv n N y a).
  { intros a Ha. unfold v. rewrite (mv_scal d (rtranspose Rm) (/ gm) (fun c => x c - g * mv n Rm (mv n N y) c)). f_equal.
    change (fun a0 => x a0 - g * mv n Rm (mv n N y) a0) with (vsub x (fun a0 => g * mv n Rm (mv n N y) a0)). rewrite mv_sub. unfold vsub.
    rewrite (mv_scal d (rtranspose Rm) g (mv n Rm (mv n N y))). rewrite mv_mv. fold y.
    assert (E : mv n B (mv n N y) a = y a) by (rewrite mv_mv; apply mv_id; auto).
    rewrite <- E. set (u := mv n N y). unfold mv. rewrite <- rs_scal, <- rs_minus. rewrite <- (rs_delta n a u Ha). apply rs_ext. intros k Hk.
    rewrite HB by auto. unfold rident, rdot, rtranspose. ring. }
  rewrite (mv_ext n Rm (mv d (rtranspose Rm) v) (fun a => / gm * mv n N y a)) by auto. rewrite mv_scal. unfold v. field. lra.
Qed.

(* ---------- one round ---------- *)
Lemma gamma_pos : 0 < gamma.
Proof. unfold gamma. lra. Qed.

Section Round.
  Variables (d : nat) (phi : nat -> nat -> R) (te tr : list nat) (Kx : rmat).
  Let n := length tr.
  Hypothesis HK : forall a b, In a te \/ In a tr -> In b te \/ In b tr -> Kx a b = rsumn d (fun c => phi a c * phi b c).
  Hypothesis Hn : (0 < n)%nat.

  Let F : nat -> nat -> R := fun c a => phi (nth a tr 0%nat) c.

  Lemma tr_in : forall a, (a < n)%nat -> In (nth a tr 0%nat) tr.
  Proof using. intros. apply nth_In. auto. Qed.
  Lemma te_in : forall a, (a < length te)%nat -> In (nth a te 0%nat) te.
  Proof using. intros. apply nth_In. auto. Qed.
  Lemma n_pos : 0 < INR n.
  Proof using Hn. apply lt_0_INR. auto. Qed.
  Lemma sum_tr : forall f, sumR tr f = rsumn n (fun a => f (nth a tr 0%nat)).
  Proof using. intro f. rewrite rsumn_sumR. symmetry. apply sum_positions. Qed.
  Lemma sum_te : forall f, sumR te f = rsumn (length te) (fun a => f (nth a te 0%nat)).
  Proof using. intro f. rewrite rsumn_sumR. symmetry. apply sum_positions. Qed.
  Lemma KxF : forall a b, (a < n)%nat -> (b < n)%nat -> submatrix tr tr Kx a b = rsumn d (fun c => F c a * F c b).
  Proof using HK. intros a b Ha Hb. unfold submatrix, F. apply HK; right; apply tr_in; auto. Qed.

  (** The quadratic form of the spec is the one of Woodbury. *)
  Lemma solution_form : forall r (v : nat -> R) x c, (forall c, (c < d)%nat -> sumRn d (fun c' => residual_covariance gamma tr r c c' * v c') = x c) -> (c < d)%nat ->
    gamma * (v c + / (gamma * INR n) * mv n (fun c a => r (nth a tr 0%nat) c) (mv d (rtranspose (fun c a => r (nth a tr 0%nat) c)) v) c) = x c.
  Proof using Hn.
    intros r v x c H Hc. rewrite <- H by auto. pose proof n_pos as NP. pose proof gamma_pos as GP. rewrite <- rsumn_sumR.
    set (Rm := fun c a => r (nth a tr 0%nat) c).
    rewrite (rs_ext d _ (fun c' => gamma * ((if Nat.eqb c c' then 1 else 0) * v c') + / INR n * (rdot n Rm (rtranspose Rm) c c' * v c'))).
    - rewrite rs_plus, !rs_scal, (rs_delta d c v) by auto. rewrite mv_mv. unfold mv. field. lra.
    - intros c' Hc'. unfold residual_covariance. rewrite sum_tr. unfold rdot, rtranspose, Rm. fold n. destruct (Nat.eqb c c'); field; lra.
  Qed.
  Lemma form_solution : forall r (v : nat -> R) x, (forall c, (c < d)%nat ->
    gamma * (v c + / (gamma * INR n) * mv n (fun c a => r (nth a tr 0%nat) c) (mv d (rtranspose (fun c a => r (nth a tr 0%nat) c)) v) c) = x c) ->
    forall c, (c < d)%nat -> sumRn d (fun c' => residual_covariance gamma tr r c c' * v c') = x c.
  Proof using Hn.
    intros r v x H c Hc. rewrite <- H by auto. pose proof n_pos as NP. pose proof gamma_pos as GP. rewrite <- rsumn_sumR.
    set (Rm := fun c a => r (nth a tr 0%nat) c).
    rewrite (rs_ext d _ (fun c' => gamma * ((if Nat.eqb c c' then 1 else 0) * v c') + / INR n * (rdot n Rm (rtranspose Rm) c c' * v c'))).
    - rewrite rs_plus, !rs_scal, (rs_delta d c v) by auto. rewrite mv_mv. unfold mv. field. lra.
    - intros c' Hc'. unfold residual_covariance. rewrite sum_tr. unfold rdot, rtranspose, Rm. fold n. destruct (Nat.eqb c c'); field; lra.
  Qed.
  Lemma products_form : forall r a b, residual_products gamma d tr r a b = rident a b + / (gamma * INR n) * rsumn d (fun c => r (nth a tr 0%nat) c * r (nth b tr 0%nat) c).
  Proof using. intros. unfold residual_products, rident. rewrite <- rsumn_sumR. fold n. unfold Rdiv. ring. Qed.
  Lemma products_pd : forall r, sym n (residual_products gamma d tr r) /\ bounded_below n 1 (residual_products gamma d tr r).
  Proof using Hn.
    intro r. pose proof n_pos as NP. pose proof gamma_pos as GP. apply (gram_below n d (fun c a => r (nth a tr 0%nat) c) (/ (gamma * INR n)) 1).
    - left. apply Rinv_0_lt_compat, Rmult_lt_0_compat; auto.
    - intros a b Ha Hb. rewrite products_form. ring.
  Qed.

  (** The logarithms of the diagonal. *)
  Lemma round_term_value : forall r L A B q, triangular_factor n (residual_products gamma d tr r) L -> meq n B (residual_products gamma d tr r) ->
    rtrace (length te) A = q ->
    round_term (length te) n A B = Ok ((INR (length te) * INR (length te) * ln (2 * PI) + INR (length te) * sumRn n (fun a => ln (L a a)) + q) / 2).
  Proof using.
    intros r L A B q HL HB <-. unfold round_term. destruct (cholesky_unique n B L) as [L' [E G]].
    - destruct HL as [L1 [L2 L3]]. split; [|split]; auto. intros i j Hi Hj. rewrite L3, HB; auto.
    - rewrite E. rewrite rsumn_sumR. rewrite (sum_ext n (fun a => ln (L' a a)) (fun a => ln (L a a))) by (intros; rewrite G; auto). auto.
  Qed.

  (** Without parents. *)
  Lemma round_alone_value : forall inv svdinv D, inverts_triangular inv ->
    (forall t a, In t te \/ In t tr -> In a tr -> round_weights D t a = 0) ->
    (forall t c, In t te -> (c < d)%nat -> sumRn d (fun c' => residual_covariance gamma tr (residual phi tr (round_weights D)) c c' * round_solution D t c') = residual phi tr (round_weights D) t c) ->
    triangular_factor n (residual_products gamma d tr (residual phi tr (round_weights D))) (round_factor D) ->
    round_alone inv svdinv te tr Kx = Ok (round_value d phi te tr D).
  Proof using HK Hn.
    intros inv svdinv D Hinv Hw Hv HL. pose proof n_pos as NP. pose proof gamma_pos as GP. unfold round_alone. fold n.
    destruct (Nat.eqb_spec n 0) as [|_]; [lia|]. set (r := residual phi tr (round_weights D)) in *.
    assert (Rr : forall t c, In t te \/ In t tr -> r t c = phi t c).
    { intros t c Ht. unfold r, residual. rewrite sumR_zero; [ring|]. intros a Ha. rewrite Hw by auto. ring. }
    set (c0 := 1 / (gamma * INR n)). assert (C0 : c0 = / (gamma * INR n)) by (unfold c0, Rdiv; ring).
    set (B := radd rident (rscale c0 (submatrix tr tr Kx))).
    assert (HB : meq n B (residual_products gamma d tr r)).
    { intros a b Ha Hb. rewrite products_form. unfold B, radd, rscale. rewrite KxF by auto. rewrite <- C0. f_equal. f_equal. apply rs_ext.
      intros c Hc. unfold F. rewrite !Rr by (right; apply tr_in; auto). auto. }
    destruct (products_pd r) as [S1 B1].
    assert (sym n B) as S2 by (intros a b Ha Hb; rewrite !HB by auto; auto).
    assert (bounded_below n 1 B) as B2 by (intro v; rewrite (quad_ext n v B (residual_products gamma d tr r) HB); auto).
    destruct (pdinv_inverse inv svdinv n 1 B Hinv Rlt_0_1 S2 B2) as [N [E [SN IN]]]. fold B. rewrite E. cbn [rbind].
    apply inverse_meq in IN. destruct IN as [IN1 IN2].
    unfold round_value. fold n. fold r. apply (round_term_value r); auto.
    - intros a b Ha Hb. rewrite <- HB by auto. unfold B, radd. ring.
    - rewrite sum_te. unfold rtrace. apply rs_ext. intros t Ht. set (tt := nth t te 0%nat). assert (In tt te) as It by (apply te_in; auto).
      set (Rm := fun c a => r (nth a tr 0%nat) c).
      assert (WB := woodbury d n Rm gamma c0 (r tt) (round_solution D tt) N B GP).
      rewrite <- rsumn_sumR. change (rsumn d (fun c => r tt c * round_solution D tt c)) with (dotv d (r tt) (round_solution D tt)).
      rewrite WB; auto.
      + unfold rscale, rsub. rewrite rdot_assoc. f_equal. f_equal.
        * unfold submatrix, dotv. fold tt. rewrite HK by auto. apply rs_ext. intros c Hc. rewrite Rr by auto. auto.
        * change (rdot n (fun i j => c0 * rtranspose (submatrix tr te Kx) i j) (rdot n N (submatrix tr te Kx)) t t)
            with (dotv n (fun a => c0 * submatrix tr te Kx a t) (mv n N (fun a => submatrix tr te Kx a t))).
          rewrite dotv_scal_l. f_equal.
          assert (U : forall a, (a < n)%nat -> submatrix tr te Kx a t = mv d (rtranspose Rm) (r tt) a).
          { intros a Ha. unfold submatrix, mv, rtranspose, Rm. fold tt. pose proof (tr_in a Ha). rewrite HK by auto. apply rs_ext. intros c Hc. rewrite !Rr by auto. auto. }
          apply dotv_ext; auto. intros a Ha. apply mv_ext. auto.
      + intros a b Ha Hb. rewrite HB by auto. rewrite products_form, <- C0. auto.
      + intros c Hc. rewrite C0. apply (solution_form r); auto.
  Qed.

  (** With parents. *)
  Variables (Kpa : rmat) (dp : nat) (psi : nat -> nat -> R) (lambda : R).
  Hypothesis HP : forall a b, In a tr -> In b tr -> Kpa a b = rsumn dp (fun c => psi a c * psi b c).
  Hypothesis Hl : 0 < lambda.

  Let M1 : rmat := radd (submatrix tr tr Kpa) (rscale (INR n * lambda) rident).
  Lemma nl_pos : 0 < INR n * lambda.
  Proof using Hn Hl. apply Rmult_lt_0_compat; auto. apply n_pos. Qed.
  Lemma M1_pd : sym n M1 /\ bounded_below n (INR n * lambda) M1.
  Proof using HP Hn.
    apply (gram_below n dp (fun c a => psi (nth a tr 0%nat) c) 1); [lra|]. intros a b Ha Hb. unfold M1, radd, rscale, submatrix.
    rewrite HP by (apply tr_in; auto). ring.
  Qed.

  (** The weights are [P] times the column of the kernel. *)
  Lemma weights_unique : forall P (w : nat -> R) t, meq n (rdot n P M1) rident ->
    (forall b, In b tr -> sumR tr (fun a => Kpa b a * w a) + INR (length tr) * lambda * w b = Kpa b t) ->
    forall a, (a < n)%nat -> w (nth a tr 0%nat) = mv n P (fun b => Kpa (nth b tr 0%nat) t) a.
  Proof using.
    intros P w t HI H a Ha. rewrite (mv_ext n P (fun b => Kpa (nth b tr 0%nat) t) (mv n M1 (fun b => w (nth b tr 0%nat)))).
    - rewrite mv_mv, mv_id; auto.
    - intros b Hb. rewrite <- H by (apply tr_in; auto). rewrite sum_tr. unfold mv, M1, radd, rscale, submatrix. fold n.
      rewrite (rs_ext n (fun k => (Kpa (nth b tr 0%nat) (nth k tr 0%nat) + INR n * lambda * rident b k) * w (nth k tr 0%nat))
        (fun k => Kpa (nth b tr 0%nat) (nth k tr 0%nat) * w (nth k tr 0%nat) + INR n * lambda * ((if Nat.eqb b k then 1 else 0) * w (nth k tr 0%nat)))).
      + rewrite rs_plus, rs_scal. rewrite (rs_delta n b (fun k => w (nth k tr 0%nat))) by auto. auto.
      + intros k Hk. unfold rident. ring.
  Qed.

  (** The residuals of the training samples. *)
  Lemma training_residual : forall P (w : nat -> nat -> R), (forall i j, P i j = P j i) -> meq n (rdot n P M1) rident ->
    (forall t b, In t tr -> In b tr -> sumR tr (fun a => Kpa b a * w t a) + INR (length tr) * lambda * w t b = Kpa b t) ->
    forall a c, (a < n)%nat -> residual phi tr w (nth a tr 0%nat) c = INR n * lambda * rsumn n (fun k => P a k * F c k).
  Proof using.
    intros P w SP HI H a c Ha. unfold residual. rewrite sum_tr.
    rewrite (rs_ext n _ (fun b => (rident a b - INR n * lambda * P a b) * F c b)).
    - rewrite (rs_ext n _ (fun b => (if Nat.eqb a b then 1 else 0) * F c b - INR n * lambda * (P a b * F c b))) by (intros; unfold rident; ring).
      rewrite rs_minus, rs_scal, (rs_delta n a (F c)) by auto. unfold F at 1. ring.
    - intros b Hb. unfold F. f_equal. rewrite (weights_unique P (w (nth a tr 0%nat)) (nth a tr 0%nat) HI) by (auto; intros; apply H; auto; apply tr_in; auto).
      pose proof (HI b a Hb Ha) as X. unfold rident in *. rewrite (Nat.eqb_sym a b). rewrite <- X. unfold rdot, mv, M1, radd, rscale, submatrix.
      rewrite (SP a b).
      rewrite (rs_ext n (fun k => P b k * (Kpa (nth k tr 0%nat) (nth a tr 0%nat) + INR n * lambda * (if Nat.eqb k a then 1 else 0)))
        (fun k => P b k * Kpa (nth k tr 0%nat) (nth a tr 0%nat) + INR n * lambda * ((if Nat.eqb a k then 1 else 0) * P b k))).
      + rewrite rs_plus, rs_scal, (rs_delta n a (P b)) by auto. ring.
      + intros k Hk. rewrite (Nat.eqb_sym k a). ring.
  Qed.

  Lemma round_parents_value : forall inv svdinv D, inverts_triangular inv ->
    (forall t b, In t te \/ In t tr -> In b tr -> sumR tr (fun a => Kpa b a * round_weights D t a) + INR (length tr) * lambda * round_weights D t b = Kpa b t) ->
    (forall t c, In t te -> (c < d)%nat -> sumRn d (fun c' => residual_covariance gamma tr (residual phi tr (round_weights D)) c c' * round_solution D t c') = residual phi tr (round_weights D) t c) ->
    triangular_factor n (residual_products gamma d tr (residual phi tr (round_weights D))) (round_factor D) ->
    round_parents inv svdinv lambda te tr Kx Kpa = Ok (round_value d phi te tr D).
  Proof using HK Hn HP Hl.
    intros inv svdinv D Hinv Hw Hv HL. pose proof n_pos as NP. pose proof gamma_pos as GP. pose proof nl_pos as LP. unfold round_parents. fold n. fold M1.
    destruct M1_pd as [S1 B1]. destruct (pdinv_inverse inv svdinv n _ M1 Hinv LP S1 B1) as [P [E [SP IP]]]. rewrite E. cbn [rbind].
    apply inverse_meq in IP. destruct IP as [IP1 IP2].
    set (r := residual phi tr (round_weights D)) in *.
    assert (TR : forall a c, (a < n)%nat -> r (nth a tr 0%nat) c = INR n * lambda * rsumn n (fun k => P a k * F c k)).
    { intros a c Ha. apply training_residual; auto. }
    set (K := submatrix tr tr Kx). set (c0 := INR n * lambda ^ 2 / gamma). set (tmp2 := rdot n (rdot n P K) P).
    set (Rm := fun c a => r (nth a tr 0%nat) c). set (h := fun c a => rsumn n (fun k => P a k * F c k)).
    assert (T2 : forall a b, (a < n)%nat -> (b < n)%nat -> tmp2 a b = rsumn d (fun c => h c a * h c b)).
    { intros a b Ha Hb. unfold tmp2, h. rewrite rdot_assoc. unfold rdot.
      rewrite (rs_ext n _ (fun k => rsumn d (fun c => P a k * F c k * rsumn n (fun l => P b l * F c l)))).
      - rewrite rs_swap. apply rs_ext. intros c Hc. rewrite rs_scalr. auto.
      - intros k Hk. rewrite (rs_ext n _ (fun l => rsumn d (fun c => F c k * F c l * P l b))).
        + rewrite rs_swap. rewrite <- rs_scal. apply rs_ext. intros c Hc. rewrite <- !rs_scal. apply rs_ext. intros l Hl'. rewrite (SP l b). ring.
        + intros l Hl'. unfold K. rewrite KxF by auto. rewrite <- rs_scalr. auto. }
    set (B := radd rident (rscale c0 tmp2)).
    assert (HB : meq n B (residual_products gamma d tr r)).
    { intros a b Ha Hb. rewrite products_form. unfold B, radd, rscale. rewrite T2 by auto. f_equal.
      rewrite (rs_ext d (fun c => r (nth a tr 0%nat) c * r (nth b tr 0%nat) c) (fun c => INR n * lambda * (INR n * lambda) * (h c a * h c b))).
      - rewrite rs_scal. unfold c0. field. lra.
      - intros c Hc. rewrite !TR by auto. unfold h. ring. }
    destruct (products_pd r) as [S2 B2].
    assert (sym n B) as S3 by (intros a b Ha Hb; rewrite !HB by auto; auto).
    assert (bounded_below n 1 B) as B3 by (intro v; rewrite (quad_ext n v B (residual_products gamma d tr r) HB); auto).
    destruct (pdinv_inverse inv svdinv n 1 B Hinv Rlt_0_1 S3 B3) as [N [E2 [SN IN]]]. rewrite E2. cbn [rbind].
    apply inverse_meq in IN. destruct IN as [IN1 IN2].
    unfold round_value. fold n. fold r. apply (round_term_value r); auto.
    - intros a b Ha Hb. rewrite <- HB by auto. unfold B, radd. ring.
    - rewrite sum_te. unfold rtrace. apply rs_ext. intros t Ht. set (tt := nth t te 0%nat). assert (In tt te) as It by (apply te_in; auto).
      assert (WB := woodbury d n Rm gamma (/ (gamma * INR n)) (r tt) (round_solution D tt) N B GP).
      rewrite <- rsumn_sumR. change (rsumn d (fun c => r tt c * round_solution D tt c)) with (dotv d (r tt) (round_solution D tt)).
      rewrite WB; auto; clear WB.
      2:{ intros a b Ha Hb. rewrite HB by auto. apply products_form. }
      2:{ intros c Hc. apply (solution_form r); auto. }
      unfold rscale at 1. f_equal. unfold radd, rsub. unfold tmp2. rewrite !rdot_scale, !rdot_assoc.
      set (G := submatrix tr te Kpa). set (kx := fun a => submatrix tr te Kx a t). set (g := fun a => G a t). set (w := mv n P g). set (Kw := mv n K w).
      set (T3 := fun x => mv n P (mv n N (mv n P x))).
      change (rdot n (rtranspose G) (rdot n P (rdot n K (rdot n P G))) t t) with (dotv n g (mv n P Kw)).
      unfold rscale.
      change (rdot n (rtranspose (submatrix tr te Kx)) (rdot n P G) t t) with (dotv n kx w).
      change (rdot n (rtranspose (submatrix tr te Kx)) (rdot n P (rdot n N (rdot n P (submatrix tr te Kx)))) t t) with (dotv n kx (T3 kx)).
      change (rdot n (rtranspose G) (rdot n P (rdot n K (rdot n P (rdot n N (rdot n P (rdot n K (rdot n P G))))))) t t) with (dotv n g (mv n P (mv n K (T3 Kw)))).
      change (rdot n (rtranspose (submatrix tr te Kx)) (rdot n P (rdot n N (rdot n P (rdot n K (rdot n P G))))) t t) with (dotv n kx (T3 Kw)).
      assert (SK : forall a b, (a < n)%nat -> (b < n)%nat -> K a b = K b a).
      { intros a b Ha Hb. unfold K. rewrite !KxF by auto. apply rs_ext. intros. ring. }
      rewrite !(dotv_mv n n P P g) by (intros; apply SP). fold w. rewrite (dotv_mv n n K K w) by auto. fold Kw.
      assert (T3s : forall x y, dotv n x (T3 y) = dotv n (T3 x) y).
      { intros x y. unfold T3. rewrite (dotv_mv n n P P x) by (intros; apply SP). rewrite (dotv_mv n n N N) by (intros; apply SN). apply dotv_mv. intros; apply SP. }
      assert (W : forall a, (a < n)%nat -> round_weights D tt (nth a tr 0%nat) = w a).
      { intros a Ha. rewrite (weights_unique P (round_weights D tt) tt IP2) by (auto; intros; apply Hw; auto). unfold w, g, G, submatrix. fold tt. auto. }
      assert (X : forall c, r tt c = phi tt c - mv n F w c).
      { intro c. unfold r, residual. rewrite sum_tr. f_equal. unfold mv. apply rs_ext. intros a Ha. rewrite W by auto. unfold F. ring. }
      (* F^T r = kx - K w *)
      assert (U : forall a, (a < n)%nat -> mv d (rtranspose F) (r tt) a = vsub kx Kw a).
      { intros a Ha. unfold mv at 1, vsub. rewrite (rs_ext d _ (fun c => F c a * phi tt c - rtranspose F a c * mv n F w c)) by (intros; rewrite X; unfold rtranspose; ring).
        rewrite rs_minus. f_equal.
        - unfold kx, submatrix. fold tt. pose proof (tr_in a Ha). rewrite HK by auto. auto.
        - change (rsumn d (fun i => rtranspose F a i * mv n F w i)) with (mv d (rtranspose F) (mv n F w) a). rewrite mv_mv. unfold Kw, mv. apply rs_ext. intros b Hb.
          f_equal. unfold K. rewrite KxF by auto. auto. }
      assert (Y : forall a, (a < n)%nat -> mv d (rtranspose Rm) (r tt) a = INR n * lambda * mv n P (vsub kx Kw) a).
      { intros a Ha. rewrite <- (mv_ext n P _ _ a U). rewrite mv_mv. unfold mv. rewrite <- rs_scal. apply rs_ext. intros c Hc.
        unfold rtranspose at 1, Rm. rewrite TR by auto. unfold rdot, rtranspose. ring. }
      rewrite (dotv_ext n (mv d (rtranspose Rm) (r tt)) (fun a => INR n * lambda * mv n P (vsub kx Kw) a) (mv n N (mv d (rtranspose Rm) (r tt))) (fun a => INR n * lambda * mv n N (mv n P (vsub kx Kw)) a)).
      2:{ auto. }
      2:{ intros a Ha. rewrite (mv_ext n N _ _ a Y). rewrite mv_scal. auto. }
      rewrite dotv_scal_l, dotv_scal_r.
      assert (Q : dotv n (mv n P (vsub kx Kw)) (mv n N (mv n P (vsub kx Kw))) = dotv n kx (T3 kx) - 2 * dotv n kx (T3 Kw) + dotv n Kw (T3 Kw)).
      { rewrite <- (dotv_mv n n P P) by (intros; apply SP). fold (T3 (vsub kx Kw)). rewrite dotv_sub_l.
        assert (T3 (vsub kx Kw) = vsub (T3 kx) (T3 Kw)) as -> by (unfold T3; rewrite !mv_sub; auto).
        rewrite !dotv_sub_r. rewrite (T3s Kw kx). rewrite (dotv_comm n (T3 Kw) kx). ring. }
      rewrite Q.
      assert (RR : dotv d (r tt) (r tt) = submatrix te te Kx t t + dotv n w Kw - 2 * dotv n kx w).
      { assert (dotv d (r tt) (r tt) = dotv d (vsub (phi tt) (mv n F w)) (vsub (phi tt) (mv n F w))) as -> by (apply dotv_ext; intros; apply X).
        rewrite dotv_sub_l, !dotv_sub_r.
        assert (dotv d (phi tt) (mv n F w) = dotv n kx w) as E3.
        { rewrite (dotv_mv d n F (rtranspose F)) by auto. apply dotv_ext; auto. intros a Ha. unfold mv, rtranspose, kx, submatrix. fold tt. pose proof (tr_in a Ha). rewrite HK by auto. auto. }
        rewrite (dotv_comm d (mv n F w) (phi tt)), E3.
        assert (dotv d (mv n F w) (mv n F w) = dotv n w Kw) as ->.
        { rewrite (dotv_mv d n F (rtranspose F)) by auto. rewrite dotv_comm. apply dotv_ext; auto. intros a Ha. rewrite mv_mv. unfold Kw, mv. apply rs_ext. intros b Hb.
          f_equal. unfold K. rewrite KxF by auto. auto. }
        assert (dotv d (phi tt) (phi tt) = submatrix te te Kx t t) as ->.
        { unfold submatrix. fold tt. rewrite HK by auto. auto. }
        ring. }
      rewrite RR. unfold c0. field. lra.
  Qed.

  (** There are weights, solutions and a factor. *)
  Lemma solution_exists : forall (w : nat -> nat -> R), exists v L,
    (forall t c, (c < d)%nat -> sumRn d (fun c' => residual_covariance gamma tr (residual phi tr w) c c' * v t c') = residual phi tr w t c) /\
    triangular_factor n (residual_products gamma d tr (residual phi tr w)) L /\ (forall a, (a < n)%nat -> 1 <= L a a).
  Proof using Hn.
    intro w. pose proof gamma_pos as GP. set (r := residual phi tr w). set (Rm := fun c a => r (nth a tr 0%nat) c).
    destruct (products_pd r) as [S2 B2]. destruct (cholesky_total n 1 _ Rlt_0_1 S2 B2) as [L [_ [TL G]]].
    destruct (pdinv_inverse tri_inv (fun _ _ => None) n 1 _ tri_inv_inverts Rlt_0_1 S2 B2) as [N [_ [_ IN]]]. apply inverse_meq in IN. destruct IN as [IN1 _].
    exists (fun t c => / gamma * (r t c - / (gamma * INR n) * mv n Rm (mv n N (mv d (rtranspose Rm) (r t))) c)), L. split; [|split; auto].
    - intros t c Hc. apply form_solution; auto. clear c Hc. intros c Hc.
      apply (woodbury_solution d n Rm gamma (/ (gamma * INR n)) (r t) N (residual_products gamma d tr r)); auto. intros a b Ha Hb. apply products_form.
    - intros a Ha. rewrite <- sqrt_1. auto.
  Qed.
  Lemma weights_exist : exists w : nat -> nat -> R, forall t b, In b tr -> NoDup tr -> sumR tr (fun a => Kpa b a * w t a) + INR (length tr) * lambda * w t b = Kpa b t.
  Proof using HP Hn Hl.
    destruct M1_pd as [S1 B1]. destruct (pdinv_inverse tri_inv (fun _ _ => None) n _ M1 tri_inv_inverts nl_pos S1 B1) as [P [_ [_ IP]]]. apply inverse_meq in IP. destruct IP as [IP1 _].
    set (pos := fun b => let fix go l k := match l with [] => k | x :: r => if Nat.eqb x b then k else go r (S k) end in go tr 0%nat).
    assert (HI : forall l b k, In b l -> NoDup l -> exists j, (j < length l)%nat /\ nth j l 0%nat = b /\
      (fix go l k := match l with [] => k | x :: r => if Nat.eqb x b then k else go r (S k) end) l k = (k + j)%nat).
    { induction l as [|x l IH]; intros b k [] ND.
      - subst. exists 0%nat. rewrite Nat.eqb_refl. simpl. split; [lia|]. split; auto; lia.
      - inversion ND; subst. destruct (Nat.eqb_spec x b) as [->|NE].
        + exists 0%nat. simpl. split; [lia|]. split; auto; lia.
        + destruct (IH b (S k)) as [j [J1 [J2 J3]]]; auto. exists (S j). simpl. split; [lia|]. split; auto. rewrite J3. lia. }
    assert (HNP : forall a, (a < n)%nat -> NoDup tr -> pos (nth a tr 0%nat) = a).
    { intros a Ha ND. destruct (HI tr (nth a tr 0%nat) 0%nat (tr_in a Ha) ND) as [j [J1 [J2 J3]]]. unfold pos. rewrite J3. simpl.
      apply (proj1 (NoDup_nth tr 0%nat) ND); auto. }
    exists (fun t b => mv n P (fun k => Kpa (nth k tr 0%nat) t) (pos b)). intros t b Hb ND.
    destruct (In_nth tr b 0%nat Hb) as [j [Hj Ej]]. rewrite <- Ej, HNP by auto. rewrite sum_tr.
    set (g := fun k => Kpa (nth k tr 0%nat) t).
    rewrite (rs_ext n _ (fun k => Kpa (nth j tr 0%nat) (nth k tr 0%nat) * mv n P g k)) by (intros; rewrite HNP by auto; auto).
    assert (E : mv n M1 (mv n P g) j = g j) by (rewrite mv_mv; apply mv_id; auto).
    fold (g j). rewrite <- E. unfold mv at 3. unfold M1, radd, rscale, submatrix.
    rewrite (rs_ext n (fun k => (Kpa (nth j tr 0%nat) (nth k tr 0%nat) + INR n * lambda * rident j k) * mv n P g k)
        (fun k => Kpa (nth j tr 0%nat) (nth k tr 0%nat) * mv n P g k + INR n * lambda * ((if Nat.eqb j k then 1 else 0) * mv n P g k))) by (intros; unfold rident; ring).
    rewrite rs_plus, rs_scal, (rs_delta n j (mv n P g)) by auto. auto.
  Qed.
End Round.
