(** The spectral theorem for real symmetric matrices, so that there is an eigensolver. *)

From Coq Require Import List Arith Lia Bool Reals Lra Setoid Morphisms.
From Verif Require Import Model.LocalScore Model.KCI Model.Expm Model.CVScore Spec.Scores Spec.KernelSpec Spec.CKCISpec
  Proofs.BicFacts Proofs.KCIFacts Proofs.GaussianFacts Proofs.ExpmFacts Proofs.ExpFacts Proofs.CholeskyFacts Proofs.CKCIFacts.
Import ListNotations.
Open Scope R_scope.

Definition norm2 (n : nat) (v : nat -> R) : R := rsumn n (fun i => v i * v i).
Lemma norm2_nonneg : forall n v, 0 <= norm2 n v.
Proof. intros. apply rs_nonneg. intros. apply Rle_0_sqr. Qed.
Lemma norm2_zero : forall n v, norm2 n v = 0 -> forall i, (i < n)%nat -> v i = 0.
Proof. intros n v H i Hi. apply Rsqr_0_uniq. apply (rs_nonneg_zero n (fun i => v i * v i) (fun i _ => Rle_0_sqr (v i)) H i Hi). Qed.

(** Completing the square. *)
Lemma quad_square : forall n A v, sym (S n) A -> A 0%nat 0%nat <> 0 ->
  quad (S n) v A = A 0%nat 0%nat * Rsqr (v 0%nat + rsumn n (fun i => v (S i) * A (S i) 0%nat) / A 0%nat 0%nat) + quad n (fun i => v (S i)) (schur A).
Proof.
  intros n A v S0 NZ. rewrite quad_head. set (s := rsumn n (fun i => v (S i) * A (S i) 0%nat)).
  assert (E : quad n (fun i => v (S i)) (schur A) = quad n (fun i => v (S i)) (fun i j => A (S i) (S j)) - s * s / A 0%nat 0%nat).
  { unfold quad, schur. rewrite (rs_ext n _ (fun i => rsumn n (fun j => v (S i) * v (S j) * A (S i) (S j)) - v (S i) * A (S i) 0%nat * (s / A 0%nat 0%nat))).
    - rewrite rs_minus, (rs_scalr n (s / A 0%nat 0%nat) (fun i => v (S i) * A (S i) 0%nat)). fold s. unfold Rdiv. ring.
    - intros i Hi. rewrite (rs_ext n _ (fun j => v (S i) * v (S j) * A (S i) (S j) - v (S i) * A (S i) 0%nat * / A 0%nat 0%nat * (v (S j) * A (S j) 0%nat))) by (intros; unfold Rdiv; ring).
      rewrite rs_minus, rs_scal. fold s. unfold Rdiv. ring. }
  rewrite E.
  rewrite (rs_ext n (fun j => v 0%nat * v (S j) * A 0%nat (S j)) (fun j => v 0%nat * (v (S j) * A (S j) 0%nat))) by (intros j Hj; rewrite (S0 0%nat (S j)) by lia; ring).
  rewrite (rs_ext n (fun i => v (S i) * v 0%nat * A (S i) 0%nat) (fun j => v 0%nat * (v (S j) * A (S j) 0%nat))) by (intros; ring).
  rewrite !rs_scal. fold s. unfold Rsqr. field. auto.
Qed.

Lemma psd_dichotomy : forall n M, sym n M -> psd n M -> (exists e, 0 < e /\ bounded_below n e M) \/
  (exists v, norm2 n v <> 0 /\ forall i, (i < n)%nat -> rsumn n (fun j => M i j * v j) = 0).
Proof.
  induction n as [|n IH]; intros M S P.
  - left. exists 1. split; [lra|]. intro v. unfold quad, rsumn, rsum. simpl. lra.
  - pose proof (psd_corner n M P) as C. destruct C as [C|C].
    + assert (SS := schur_sym n M S).
      assert (PS : psd n (schur M)). { apply psd_quad. intro v. rewrite schur_quad by (auto; lra). apply psd_quad. auto. }
      set (a := M 0%nat 0%nat) in *. destruct (IH _ SS PS) as [[e [He B]]|[u [Nu Ku]]].
      * left. set (Cn := rsumn n (fun i => M (Datatypes.S i) 0%nat * M (Datatypes.S i) 0%nat)).
        assert (0 <= Cn) as HC by (apply rs_nonneg; intros; apply Rle_0_sqr).
        set (L := 2 * Cn / (a * a) + 1). assert (1 <= L) as HL. { unfold L. assert (0 <= 2 * Cn / (a * a)); [|lra]. unfold Rdiv. apply Rmult_le_pos; [lra|]. left. apply Rinv_0_lt_compat. nra. }
        exists (Rmin (a / 2) (e / L)). assert (0 < e / L) as Q1 by (apply Rdiv_lt_0_compat; lra). split; [apply Rmin_glb_lt; lra|].
        intro v. rewrite quad_square by (auto; fold a; lra). fold a. set (s := rsumn n (fun i => v (Datatypes.S i) * M (Datatypes.S i) 0%nat)).
        pose proof (B (fun i => v (Datatypes.S i))) as Bv. set (N := rsumn n (fun i => v (Datatypes.S i) * v (Datatypes.S i))) in *. cbv beta in Bv. fold N in Bv.
        assert (s * s <= N * Cn) as CS by apply cauchy_schwarz.
        assert (0 <= N) as HN by (apply rs_nonneg; intros; apply Rle_0_sqr).
        rewrite rs_head. fold N. set (m := Rmin (a / 2) (e / L)). assert (0 < m) by (apply Rmin_glb_lt; lra).
        assert (m <= a / 2) as M1 by apply Rmin_l. assert (m <= e / L) as M2 by apply Rmin_r.
        assert (m * L <= e) as M3. { apply (Rmult_le_compat_r L) in M2; [|lra]. replace (e / L * L) with e in M2 by (field; lra). auto. }
        set (w := v 0%nat + s / a) in *.
        assert (v 0%nat * v 0%nat <= 2 * (w * w) + 2 * (s / a * (s / a))) as V0. { unfold w. pose proof (Rle_0_sqr (v 0%nat + 2 * (s / a))) as Q. unfold Rsqr in Q. lra. }
        assert (s / a * (s / a) <= Cn / (a * a) * N) as V1.
        { replace (s / a * (s / a)) with (s * s * / (a * a)) by (field; lra). replace (Cn / (a * a) * N) with (N * Cn * / (a * a)) by (field; lra).
          apply Rmult_le_compat_r; auto. left. apply Rinv_0_lt_compat. nra. }
        assert (v 0%nat * v 0%nat + N <= 2 * (w * w) + L * N) as V2 by (unfold L; lra).
        apply Rle_trans with (m * (2 * (w * w) + L * N)); [apply Rmult_le_compat_l; lra|].
        assert (m * (2 * (w * w)) <= a * (w * w)) by (pose proof (Rle_0_sqr w) as Q; unfold Rsqr in Q; nra).
        assert (m * (L * N) <= e * N) by nra. unfold Rsqr. lra.
      * right. exists (fun i => match i with 0%nat => - rsumn n (fun i => u i * M (Datatypes.S i) 0%nat) / a | Datatypes.S j => u j end). split.
        -- intro Z. apply Nu. unfold norm2. apply rs_zero. intros i Hi. pose proof (norm2_zero _ _ Z (Datatypes.S i) ltac:(lia)) as Q. cbv beta iota in Q. rewrite Q. ring.
        -- intros i Hi. rewrite rs_head. set (s := rsumn n (fun i => u i * M (Datatypes.S i) 0%nat)). destruct i as [|i].
           ++ fold a. rewrite (rs_ext n _ (fun j => u j * M (Datatypes.S j) 0%nat)) by (intros j Hj; rewrite (S 0%nat (Datatypes.S j)) by lia; ring). fold s. field. lra.
           ++ specialize (Ku i ltac:(lia)). unfold schur in Ku. fold a in Ku.
              rewrite (rs_ext n _ (fun j => M (Datatypes.S i) (Datatypes.S j) * u j - M (Datatypes.S i) 0%nat / a * (u j * M (Datatypes.S j) 0%nat))) in Ku by (intros; unfold Rdiv; ring).
              rewrite rs_minus, rs_scal in Ku. fold s in Ku. rewrite <- Ku. unfold Rdiv. ring.
    + right. exists (fun i => if Nat.eqb i 0 then 1 else 0). split.
      * unfold norm2. rewrite rs_head. rewrite (rs_zero n) by (intros; simpl; ring). simpl. lra.
      * intros i Hi. rewrite rs_head. simpl. rewrite rs_zero by (intros; ring). destruct i as [|i]; [rewrite <- C; ring|].
        rewrite (psd_zero_row n M S P (eq_sym C)) by lia. ring.
Qed.

(** [t I - A]. *)
Definition shifted (t : R) (A : rmat) : rmat := fun i j => t * rident i j - A i j.
Lemma quad_shifted : forall n t A v, quad n v (shifted t A) = t * norm2 n v - quad n v A.
Proof.
  intros n t A v. unfold quad, shifted, norm2. rewrite <- rs_scal, <- rs_minus. apply rs_ext. intros i Hi.
  rewrite (rs_ext n _ (fun j => (if Nat.eqb i j then 1 else 0) * (t * (v i * v j)) - v i * v j * A i j)) by (intros; unfold rident; ring).
  rewrite rs_minus, rs_delta by auto. auto.
Qed.
Lemma sym_shifted : forall n t A, sym n A -> sym n (shifted t A).
Proof. intros n t A S i j Hi Hj. unfold shifted, rident. rewrite S by auto. rewrite Nat.eqb_sym. auto. Qed.

Lemma top_eigen : forall n A, (0 < n)%nat -> sym n A -> exists lam v, norm2 n v = 1 /\ (forall i, (i < n)%nat -> rsumn n (fun j => A i j * v j) = lam * v i) /\ psd n (shifted lam A).
Proof.
  intros n A Hn S. set (E := fun m => psd n (shifted (- m) A)).
  assert (E1 : exists m, E m).
  { exists (- rsumn n (fun i => rsumn n (fun j => Rabs (A i j)))). unfold E. rewrite Ropp_involutive. apply psd_quad. intro v. rewrite quad_shifted.
    assert (quad n v A <= rsumn n (fun i => rsumn n (fun j => Rabs (A i j) * norm2 n v))) as Q.
    { unfold quad. apply rs_le. intros i Hi. apply rs_le. intros j Hj.
      assert (forall k, (k < n)%nat -> v k * v k <= norm2 n v) as B.
      { intros k Hk. unfold norm2. rewrite <- (rs_delta n k (fun i => v i * v i) Hk). apply rs_le. intros i' Hi'. pose proof (Rle_0_sqr (v i')) as Q. unfold Rsqr in Q. destruct (Nat.eqb k i'); lra. }
      pose proof (B i Hi). pose proof (B j Hj). assert (Rabs (v i * v j) <= norm2 n v) as K.
      { apply Rabs_le. pose proof (Rle_0_sqr (v i + v j)) as Q1. pose proof (Rle_0_sqr (v i - v j)) as Q2. unfold Rsqr in Q1, Q2. split; lra. }
      apply Rle_trans with (Rabs (v i * v j * A i j)); [apply Rle_abs|]. rewrite Rabs_mult, Rmult_comm. apply Rmult_le_compat_l; auto. apply Rabs_pos. }
    rewrite (rs_ext n _ (fun i => rsumn n (fun j => Rabs (A i j)) * norm2 n v)) in Q by (intros; apply rs_scalr). rewrite rs_scalr in Q. lra. }
  assert (E2 : bound E).
  { exists (- A 0%nat 0%nat). intros m Hm. destruct n as [|n]; [lia|]. apply psd_corner in Hm. unfold shifted, rident in Hm. simpl in Hm. lra. }
  destruct (completeness E E2 E1) as [m0 [U L]]. exists (- m0).
  assert (P : psd n (shifted (- m0) A)).
  { apply psd_quad. intro v. rewrite quad_shifted. destruct (norm2_nonneg n v) as [N|N].
    - assert (m0 <= - quad n v A / norm2 n v) as B.
      { apply L. intros m Hm. unfold E in Hm. rewrite psd_quad in Hm. specialize (Hm v). rewrite quad_shifted in Hm.
        apply (Rmult_le_reg_r (norm2 n v)); auto. replace (- quad n v A / norm2 n v * norm2 n v) with (- quad n v A) by (field; lra). lra. }
      apply (Rmult_le_compat_r (norm2 n v)) in B; [|lra]. replace (- quad n v A / norm2 n v * norm2 n v) with (- quad n v A) in B by (field; lra). lra.
    - rewrite <- N. assert (quad n v A = 0) as ->; [|lra]. unfold quad. apply rs_zero. intros i Hi. apply rs_zero. intros j Hj. rewrite (norm2_zero n v (eq_sym N) i Hi). ring. }
  destruct (psd_dichotomy n _ (sym_shifted n (- m0) A S) P) as [[e [He B]]|[v [Nv Kv]]].
  - exfalso. assert (E (m0 + e)) as Q.
    { unfold E. apply psd_quad. intro v. rewrite quad_shifted. specialize (B v). rewrite quad_shifted in B. unfold norm2 in *. lra. }
    apply U in Q. lra.
  - assert (0 < norm2 n v) as N by (destruct (norm2_nonneg n v); auto; congruence). assert (0 < sqrt (norm2 n v)) as SN by (apply sqrt_lt_R0; auto).
    exists (fun i => v i / sqrt (norm2 n v)). split; [|split; auto].
    + unfold norm2 at 1. rewrite (rs_ext n _ (fun i => v i * v i * / norm2 n v)).
      * rewrite rs_scalr. fold (norm2 n v). field. lra.
      * intros i Hi. rewrite <- (sqrt_sqrt (norm2 n v)) at 3 by lra. field. lra.
    + intros i Hi. specialize (Kv i Hi). unfold shifted in Kv.
      rewrite (rs_ext n _ (fun j => (if Nat.eqb i j then 1 else 0) * (- m0 * v j) - A i j * v j)) in Kv by (intros; unfold rident; ring).
      rewrite rs_minus, rs_delta in Kv by auto.
      rewrite (rs_ext n _ (fun j => A i j * v j * / sqrt (norm2 n v))) by (intros; unfold Rdiv; ring). rewrite rs_scalr.
      replace (rsumn n (fun j => A i j * v j)) with (- m0 * v i) by lra. unfold Rdiv. ring.
Qed.

(** A symmetric orthogonal matrix with a given first column. *)
Lemma householder : forall n v, norm2 (S n) v = 1 -> exists Q : rmat, (forall i j, Q i j = Q j i) /\ meq (S n) (rdot (S n) Q Q) rident /\ forall i, (i < S n)%nat -> Q i 0%nat = v i.
Proof.
  intros n v Hv. destruct (Req_dec (v 0%nat) 1) as [E|NE].
  - exists rident. split; [intros; unfold rident; rewrite Nat.eqb_sym; auto|]. split; [apply dot_id_l|].
    assert (Z : norm2 n (fun i => v (S i)) = 0) by (unfold norm2 in *; rewrite rs_head, E in Hv; lra).
    intros [|i] Hi; unfold rident; simpl; [auto|]. rewrite (norm2_zero _ _ Z i ltac:(lia)). auto.
  - set (u := fun i => v i - (if Nat.eqb 0 i then 1 else 0)). set (k := norm2 (S n) u).
    assert (K : k = 2 - 2 * v 0%nat).
    { unfold k, norm2, u. rewrite (rs_ext (S n) _ (fun i => v i * v i - 2 * ((if Nat.eqb 0 i then 1 else 0) * v i) + (if Nat.eqb 0 i then 1 else 0) * 1)) by (intros i Hi; destruct (Nat.eqb 0 i); ring).
      rewrite rs_plus, rs_minus, rs_scal, !rs_delta by lia. fold (norm2 (S n) v). lra. }
    assert (k <> 0) as NK by lra.
    exists (fun i j => rident i j - 2 / k * (u i * u j)). split; [intros; unfold rident; rewrite Nat.eqb_sym; ring|]. split.
    + intros i j Hi Hj. unfold rdot.
      rewrite (rs_ext (S n) _ (fun l => (if Nat.eqb i l then 1 else 0) * (rident l j - 2 / k * (u l * u j)) - (if Nat.eqb j l then 1 else 0) * (2 / k * (u i * u l)) + 4 / (k * k) * u i * u j * (u l * u l))).
      * rewrite rs_plus, rs_minus, rs_scal, (rs_delta (S n) i (fun l => rident l j - 2 / k * (u l * u j))), (rs_delta (S n) j (fun l => 2 / k * (u i * u l))) by auto.
        fold (norm2 (S n) u). fold k. field. auto.
      * intros l Hl. unfold rident. rewrite (Nat.eqb_sym l j). destruct (Nat.eqb i l), (Nat.eqb j l); field; auto.
    + intros i Hi. replace (u i * u 0%nat) with (u i * (v 0%nat - 1)) by (unfold u; simpl; ring). unfold rident, u. rewrite (Nat.eqb_sym i 0). rewrite K.
      destruct (Nat.eqb 0 i); field; lra.
Qed.

Lemma decomposition_matrix : forall n K w V, eigendecomposition n K w V <->
  meq n K (rdot n V (rdot n (fun i j => w i * rident i j) (rtranspose V))) /\ meq n (rdot n (rtranspose V) V) rident /\ meq n (rdot n V (rtranspose V)) rident.
Proof.
  intros n K w V.
  assert (X : forall i j, (i < n)%nat -> (j < n)%nat -> rdot n V (rdot n (fun i j => w i * rident i j) (rtranspose V)) i j = sumRn n (fun c => w c * V i c * V j c)).
  { intros i j Hi Hj. unfold rdot, rtranspose. rewrite <- rsumn_sumR. apply rs_ext. intros c Hc.
    rewrite (rs_ext n _ (fun k => (if Nat.eqb c k then 1 else 0) * (w c * V j k))) by (intros; unfold rident; ring). rewrite rs_delta by auto. ring. }
  unfold eigendecomposition, meq. split; intros [A [B C]]; (split; [|split]); intros i j Hi Hj.
  - rewrite X by auto. auto.
  - unfold rdot, rtranspose. rewrite rsumn_sumR. apply B; auto.
  - unfold rdot, rtranspose. rewrite rsumn_sumR. apply C; auto.
  - rewrite <- X by auto. auto.
  - specialize (B i j Hi Hj). unfold rdot, rtranspose in B. rewrite rsumn_sumR in B. auto.
  - specialize (C i j Hi Hj). unfold rdot, rtranspose in C. rewrite rsumn_sumR in C. auto.
Qed.

Theorem spectral : forall n A, sym n A -> exists w V, eigendecomposition n A w V /\ forall c c', (c <= c')%nat -> (c' < n)%nat -> w c' <= w c.
Proof.
  induction n as [|n IH]; intros A S.
  - exists (fun _ => 0), rident. split; [|intros; lia]. split; [|split]; intros; lia.
  - destruct (top_eigen (Datatypes.S n) A ltac:(lia) S) as [lam [v [Hv [Ev P]]]].
    destruct (householder n v Hv) as [Q [SQ [QQ Q0]]]. set (N := Datatypes.S n) in *.
    set (B := rdot N Q (rdot N A Q)).
    assert (TQ : rtranspose Q = Q) by (unfold rtranspose; apply FunctionalExtensionality.functional_extensionality; intro; apply FunctionalExtensionality.functional_extensionality; intro; apply SQ).
    assert (B0 : forall i, (i < N)%nat -> B i 0%nat = lam * rident i 0%nat).
    { intros i Hi. unfold B, rdot at 1.
      rewrite (rs_ext N _ (fun a => lam * (Q i a * Q a 0%nat))).
      - rewrite rs_scal. f_equal. apply (QQ i 0%nat Hi). unfold N. lia.
      - intros a Ha. unfold rdot. rewrite (rs_ext N _ (fun j => A a j * v j)) by (intros; rewrite Q0 by auto; auto). rewrite Ev, Q0 by auto. ring. }
    assert (SB : sym N B).
    { intros i j Hi Hj. change (B i j) with (rtranspose B j i). unfold B. rewrite transpose_dot.
      rewrite <- (dot_assoc N Q A Q j i Hj Hi). unfold rdot at 1 3. apply rs_ext. intros k Hk. rewrite TQ. f_equal.
      rewrite transpose_dot, TQ. unfold rdot. apply rs_ext. intros l Hl. unfold rtranspose. rewrite (S k l) by auto. auto. }
    set (B' := fun i j => B (Datatypes.S i) (Datatypes.S j)).
    destruct (IH B') as [w [V [D Ds]]]. { intros i j Hi Hj. apply SB; unfold N; lia. }
    set (w' := fun c => match c with 0%nat => lam | Datatypes.S c => w c end).
    set (W := fun i c => match i, c with 0%nat, 0%nat => 1 | Datatypes.S i, Datatypes.S c => V i c | _, _ => 0 end).
    assert (DW : eigendecomposition N B w' W).
    { destruct D as [D1 [D2 D3]]. split; [|split]; unfold N.
      - intros i j Hi Hj. rewrite <- rsumn_sumR, rs_head. destruct i as [|i], j as [|j]; cbn [W w'].
        + rewrite B0 by (unfold N; lia). rewrite rs_zero by (intros; cbn; ring). unfold rident. simpl. ring.
        + rewrite SB by (unfold N; lia). rewrite B0 by (unfold N; lia). rewrite rs_zero by (intros; cbn; ring). unfold rident. simpl. ring.
        + rewrite B0 by (unfold N; lia). rewrite rs_zero by (intros; cbn; ring). unfold rident. simpl. ring.
        + change (B (Datatypes.S i) (Datatypes.S j)) with (B' i j). rewrite D1 by lia. rewrite <- rsumn_sumR. ring.
      - intros c c' Hc Hc'. rewrite <- rsumn_sumR, rs_head. destruct c as [|c], c' as [|c']; cbn [W Nat.eqb].
        + rewrite rs_zero by (intros; cbn; ring). ring.
        + rewrite rs_zero by (intros; cbn; ring). ring.
        + rewrite rs_zero by (intros; cbn; ring). ring.
        + rewrite <- D2 by lia. rewrite <- rsumn_sumR. ring.
      - intros i j Hi Hj. rewrite <- rsumn_sumR, rs_head. destruct i as [|i], j as [|j]; cbn [W Nat.eqb].
        + rewrite rs_zero by (intros; cbn; ring). ring.
        + rewrite rs_zero by (intros; cbn; ring). ring.
        + rewrite rs_zero by (intros; cbn; ring). ring.
        + rewrite <- D3 by lia. rewrite <- rsumn_sumR. ring. }
    assert (DA : eigendecomposition N A w' (rdot N Q W)).
    { apply decomposition_matrix in DW. destruct DW as [W1 [W2 W3]]. apply decomposition_matrix.
      set (Dg := fun i j => w' i * rident i j) in *.
      assert (TW : rtranspose (rdot N Q W) = rdot N (rtranspose W) Q).
      { apply FunctionalExtensionality.functional_extensionality; intro; apply FunctionalExtensionality.functional_extensionality; intro. rewrite transpose_dot, TQ. auto. }
      rewrite TW. split; [|split].
      - rewrite <- (dot_assoc N Dg (rtranspose W) Q). rewrite (dot_assoc N Q W). rewrite <- (dot_assoc N W (rdot N Dg (rtranspose W)) Q). rewrite <- W1.
        unfold B. rewrite (dot_assoc N Q (rdot N A Q) Q). rewrite (dot_assoc N A Q Q). rewrite QQ, dot_id_r. rewrite <- dot_assoc, QQ, dot_id_l. reflexivity.
      - rewrite dot_assoc, <- (dot_assoc N Q Q W), QQ, dot_id_l. exact W2.
      - rewrite dot_assoc, <- (dot_assoc N W (rtranspose W) Q), W3, dot_id_l. exact QQ. }
    exists w', (rdot N Q W). split; [exact DA|].
    assert (TOP : forall c, (c < N)%nat -> w' c <= lam).
    { intros c Hc. rewrite psd_quad in P. specialize (P (fun i => rdot N Q W i c)). rewrite quad_shifted in P.
      assert (norm2 N (fun i => rdot N Q W i c) = 1) as N1. { destruct DA as [_ [D2 _]]. unfold norm2. rewrite rsumn_sumR, D2, Nat.eqb_refl by auto. auto. }
      rewrite N1 in P. unfold quad in P. rewrite (rs_ext N _ (fun i => w' c * (rdot N Q W i c * rdot N Q W i c))) in P.
      - rewrite rs_scal in P. fold (norm2 N (fun i => rdot N Q W i c)) in P. rewrite N1 in P. lra.
      - intros i Hi. rewrite (rs_ext N _ (fun j => rdot N Q W i c * (A i j * rdot N Q W j c))) by (intros; ring). rewrite rs_scal, (eig_vec N A w' _ DA) by auto. ring. }
    intros [|c] c' L Hc'; [change (w' 0%nat) with lam; auto|]. destruct c' as [|c']; [lia|]. cbn [w']. apply Ds; unfold N in Hc'; lia.
Qed.
