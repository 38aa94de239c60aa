(** The Cholesky factor and the inverse of a positive definite matrix. *)

From Coq Require Import List Arith Lia Bool Permutation Reals Lra.
From Verif Require Import Model.Py Model.LocalScore Model.KCI Model.Expm Model.CVScore Spec.Scores Spec.KernelSpec Spec.CVSpec
  Proofs.BicFacts Proofs.PopulationFacts Proofs.KCIFacts Proofs.GaussianFacts Proofs.ExpmFacts.
Import ListNotations.
Open Scope R_scope.

Lemma rs_head : forall n f, rsumn (S n) f = f 0%nat + rsumn n (fun i => f (S i)).
Proof. intros n f. unfold rsumn, rsum. simpl. f_equal. rewrite <- seq_shift, map_map. auto. Qed.

(** The quadratic form is at least [e] times the squared length. *)
Definition bounded_below (n : nat) (e : R) (A : rmat) : Prop := forall v, e * rsumn n (fun i => v i * v i) <= quad n v A.
Definition lower_part (n : nat) (A B : rmat) : Prop := forall i j, (i < n)%nat -> (j <= i)%nat -> A i j = B i j.

Definition schur (A : rmat) : rmat := fun i j => A (S i) (S j) - A (S i) 0%nat * A (S j) 0%nat / A 0%nat 0%nat.

Lemma quad_head : forall n v A, quad (S n) v A = v 0%nat * v 0%nat * A 0%nat 0%nat
  + rsumn n (fun j => v 0%nat * v (S j) * A 0%nat (S j)) + rsumn n (fun i => v (S i) * v 0%nat * A (S i) 0%nat)
  + quad n (fun i => v (S i)) (fun i j => A (S i) (S j)).
Proof.
  intros n v A. unfold quad. rewrite !rs_head. rewrite (rs_ext n (fun i => rsumn (S n) (fun j => v (S i) * v j * A (S i) j)) (fun i => v (S i) * v 0%nat * A (S i) 0%nat + rsumn n (fun j => v (S i) * v (S j) * A (S i) (S j)))) by (intros; rewrite rs_head; auto).
  rewrite rs_plus. ring.
Qed.
Lemma below_corner : forall n e A, bounded_below (S n) e A -> e <= A 0%nat 0%nat.
Proof.
  intros n e A H. specialize (H (fun i => if Nat.eqb i 0 then 1 else 0)). rewrite quad_head, rs_head in H. simpl in H.
  rewrite (rs_zero n (fun _ => 0 * 0)) in H by (intros; ring). rewrite (rs_zero n (fun j => 1 * 0 * A 0%nat (S j))) in H by (intros; ring).
  rewrite (rs_zero n (fun i => 0 * 1 * A (S i) 0%nat)) in H by (intros; ring).
  unfold quad in H. rewrite (rs_zero n (fun i => rsumn n _)) in H by (intros; apply rs_zero; intros; ring). lra.
Qed.
Lemma schur_quad : forall n A v, sym (S n) A -> A 0%nat 0%nat <> 0 ->
  quad n v (schur A) = quad (S n) (fun i => match i with 0%nat => - rsumn n (fun i => v i * A (S i) 0%nat) / A 0%nat 0%nat | S j => v j end) A.
Proof.
  intros n A v S0 NZ. rewrite quad_head. set (s := rsumn n (fun i => v i * A (S i) 0%nat)).
  assert (E : quad n v (schur A) = quad n v (fun i j => A (S i) (S j)) - s * s / A 0%nat 0%nat).
  { unfold quad, schur. rewrite (rs_ext n _ (fun i => rsumn n (fun j => v i * v j * A (S i) (S j)) - v i * A (S i) 0%nat * (s / A 0%nat 0%nat))).
    - rewrite rs_minus, (rs_scalr n (s / A 0%nat 0%nat) (fun i => v i * A (S i) 0%nat)). fold s. unfold Rdiv. ring.
    - intros i Hi. rewrite (rs_ext n _ (fun j => v i * v j * A (S i) (S j) - v i * A (S i) 0%nat * / A 0%nat 0%nat * (v j * A (S j) 0%nat))) by (intros; unfold Rdiv; ring).
      rewrite rs_minus, rs_scal. fold s. unfold Rdiv. ring. }
  rewrite E. cbv beta iota.
  rewrite (rs_ext n (fun j => - s / A 0%nat 0%nat * v j * A 0%nat (S j)) (fun j => - s / A 0%nat 0%nat * (v j * A (S j) 0%nat))).
  2:{ intros j Hj. rewrite (S0 0%nat (S j)) by lia. ring. }
  rewrite (rs_ext n (fun i => v i * (- s / A 0%nat 0%nat) * A (S i) 0%nat) (fun j => - s / A 0%nat 0%nat * (v j * A (S j) 0%nat))) by (intros; ring).
  rewrite !rs_scal. fold s. generalize (quad n v (fun i j => A (S i) (S j))) (quad n (fun i => v i) (fun i j => A (S i) (S j))) (eq_refl : quad n v (fun i j => A (S i) (S j)) = quad n (fun i => v i) (fun i j => A (S i) (S j))).
  intros q q' <-. field. auto.
Qed.
Lemma schur_sym : forall n A, sym (S n) A -> sym n (schur A).
Proof. intros n A H i j Hi Hj. unfold schur. rewrite (H (S i) (S j)) by lia. unfold Rdiv. ring. Qed.
Lemma schur_below : forall n e A, 0 < e -> sym (S n) A -> bounded_below (S n) e A -> bounded_below n e (schur A).
Proof.
  intros n e A He S0 H v. pose proof (below_corner n e A H). rewrite schur_quad by (auto; lra).
  eapply Rle_trans; [|apply H]. rewrite rs_head. apply Rmult_le_compat_l; [lra|].
  match goal with |- _ <= ?a * ?a + _ => pose proof (Rle_0_sqr a) as Q; unfold Rsqr in Q; lra end.
Qed.

(** A positive definite matrix has a factor, with large pivots. *)
Lemma cholesky_total : forall n e A, 0 < e -> sym n A -> bounded_below n e A ->
  exists L, cholesky n A = Some L /\ triangular_factor n A L /\ forall i, (i < n)%nat -> sqrt e <= L i i.
Proof.
  induction n as [|n IH]; intros e A He S0 H; simpl.
  - eexists. split; [reflexivity|]. split; [|intros; lia]. repeat split; intros; lia.
  - pose proof (below_corner n e A H) as Hc. destruct (Rle_dec (A 0%nat 0%nat) 0) as [|P]; [lra|]. clear P.
    destruct (IH e (schur A) He (schur_sym _ _ S0) (schur_below _ _ _ He S0 H)) as [L [E [[F1 [F2 F3]] G]]].
    unfold schur in E. rewrite E. eexists. split; [reflexivity|].
    assert (0 < sqrt (A 0%nat 0%nat)) as Hs by (apply sqrt_lt_R0; lra).
    assert (sqrt (A 0%nat 0%nat) * sqrt (A 0%nat 0%nat) = A 0%nat 0%nat) as Hq by (apply sqrt_sqrt; lra).
    split; [repeat split|].
    + intros [|i] [|j] Hi Hj Hij; try lia; auto. apply F1; lia.
    + intros [|i] Hi; auto. apply F2; lia.
    + intros i j Hi Hj. rewrite <- rsumn_sumR, rs_head. destruct i as [|i], j as [|j].
      * rewrite rs_zero by (intros; ring). lra.
      * rewrite rs_zero by (intros; ring). rewrite (S0 0%nat (S j)) by lia. field. lra.
      * rewrite rs_zero by (intros; ring). field. lra.
      * rewrite rsumn_sumR. rewrite F3 by lia. unfold schur.
        assert (forall a b, a / sqrt (A 0%nat 0%nat) * (b / sqrt (A 0%nat 0%nat)) = a * b / A 0%nat 0%nat) as X.
        { intros. rewrite <- Hq at 3. field. lra. } rewrite X. ring.
    + intros [|i] Hi; [apply sqrt_le_1; lra|apply G; lia].
Qed.

(** The factor is unique: any factor is the one that is computed. *)
Lemma cholesky_unique : forall n A L, triangular_factor n A L -> exists L', cholesky n A = Some L' /\ forall i j, (i < n)%nat -> (j < n)%nat -> L' i j = L i j.
Proof.
  induction n as [|n IH]; intros A L [F1 [F2 F3]]; simpl.
  - eexists. split; [reflexivity|]. intros; lia.
  - assert (P : forall i j, (i < S n)%nat -> (j < S n)%nat -> L i 0%nat * L j 0%nat + rsumn n (fun k => L i (S k) * L j (S k)) = A i j).
    { intros i j Hi Hj. rewrite <- F3, <- rsumn_sumR, rs_head by auto. auto. }
    assert (Z : forall k, (k < n)%nat -> L 0%nat (S k) = 0) by (intros; apply F1; lia).
    assert (E0 : forall i, (i < S n)%nat -> A i 0%nat = L i 0%nat * L 0%nat 0%nat).
    { intros i Hi. rewrite <- P by lia. rewrite rs_zero; [ring|]. intros k Hk. rewrite Z by auto. ring. }
    assert (0 < L 0%nat 0%nat) as Hl by (apply F2; lia).
    assert (A 0%nat 0%nat = L 0%nat 0%nat * L 0%nat 0%nat) as A0 by (apply E0; lia).
    assert (0 < A 0%nat 0%nat) as Ha by (rewrite A0; apply Rmult_lt_0_compat; auto).
    destruct (Rle_dec (A 0%nat 0%nat) 0) as [|_]; [lra|].
    assert (sqrt (A 0%nat 0%nat) = L 0%nat 0%nat) as Hs by (rewrite A0; apply sqrt_square; lra).
    destruct (IH (schur A) (fun i j => L (S i) (S j))) as [L' [E G]].
    { repeat split.
      - intros i j Hi Hj Hij. apply F1; lia.
      - intros i Hi. apply F2; lia.
      - intros i j Hi Hj. rewrite <- rsumn_sumR. unfold schur. rewrite <- (P (S i) (S j)) by lia. rewrite (E0 (S i)), (E0 (S j)), A0 by lia. field. lra. }
    unfold schur in E. rewrite E. eexists. split; [reflexivity|].
    intros [|i] [|j] Hi Hj; auto.
    + symmetry. apply F1; lia.
    + rewrite Hs, (E0 (S i)) by lia. field. lra.
    + apply G; lia.
Qed.

(* ---------- the inverse ---------- *)
Lemma inverse_meq : forall n A B, inverse_of n A B <-> meq n (rdot n A B) rident /\ meq n (rdot n B A) rident.
Proof.
  intros n A B. unfold inverse_of, meq, rdot, rident. split.
  - intro H. split; intros i j Hi Hj; destruct (H i j Hi Hj) as [X Y]; rewrite rsumn_sumR; auto.
  - intros [X Y] i j Hi Hj. rewrite <- (rsumn_sumR n (fun k => A i k * B k j)), <- (rsumn_sumR n (fun k => B i k * A k j)). auto.
Qed.
Lemma transpose_dot : forall n A B i j, rtranspose (rdot n A B) i j = rdot n (rtranspose B) (rtranspose A) i j.
Proof. intros. unfold rtranspose, rdot. apply rs_ext. intros. ring. Qed.

Lemma gram_sym : forall n V i j, rdot n V (rtranspose V) i j = rdot n V (rtranspose V) j i.
Proof. intros. unfold rdot, rtranspose. apply rs_ext. intros. ring. Qed.

Lemma pdinv_inverse : forall inv svdinv n e A, inverts_triangular inv -> 0 < e -> sym n A -> bounded_below n e A ->
  exists B, pdinv inv svdinv n A = Ok B /\ (forall i j, B i j = B j i) /\ inverse_of n A B.
Proof.
  intros inv svdinv n e A Hinv He S0 H. destruct (cholesky_total n e A He S0 H) as [L [E [[F1 [F2 F3]] _]]].
  unfold pdinv. rewrite E. set (U := rtranspose L). set (V := rdot n rident (inv n U)). eexists. split; [reflexivity|]. split.
  - intros i j. apply gram_sym.
  - destruct (proj1 (inverse_meq n U (inv n U))) as [I1 I2].
    { apply Hinv. intros i j Hi Hj Hij. apply F1; auto. intros i Hi. unfold U, rtranspose. pose proof (F2 i Hi). lra. }
    assert (V0 : meq n V (inv n U)) by apply dot_id_l.
    assert (UV : meq n (rdot n U V) rident) by (rewrite V0; auto).
    assert (VU : meq n (rdot n V U) rident) by (rewrite V0; auto).
    assert (TUV : meq n (rdot n (rtranspose V) (rtranspose U)) rident).
    { intros i j Hi Hj. rewrite <- transpose_dot. unfold rtranspose. rewrite UV by auto. unfold rident. rewrite Nat.eqb_sym. auto. }
    assert (TVU : meq n (rdot n (rtranspose U) (rtranspose V)) rident).
    { intros i j Hi Hj. rewrite <- transpose_dot. unfold rtranspose. rewrite VU by auto. unfold rident. rewrite Nat.eqb_sym. auto. }
    assert (AL : meq n A (rdot n (rtranspose U) U)).
    { intros i j Hi Hj. unfold rdot, U, rtranspose. rewrite rsumn_sumR. rewrite F3 by auto. auto. }
    apply inverse_meq. split.
    + rewrite AL. rewrite dot_assoc. rewrite <- (dot_assoc n U V). rewrite UV, dot_id_l. auto.
    + rewrite AL. rewrite dot_assoc. rewrite <- (dot_assoc n (rtranspose V)). rewrite TUV, dot_id_l. auto.
Qed.

(** There is a function that inverts triangular matrices. *)
Fixpoint tri_inv (n : nat) (U : rmat) : rmat :=
  match n with
  | 0%nat => fun _ _ => 0
  | S m =>
      let V := tri_inv m (fun i j => U (S i) (S j)) in
      fun i j => match i, j with
                 | 0%nat, 0%nat => / U 0%nat 0%nat
                 | 0%nat, S j' => - (rsumn m (fun k => U 0%nat (S k) * V k j')) / U 0%nat 0%nat
                 | S _, 0%nat => 0
                 | S i', S j' => V i' j'
                 end
  end.
Lemma tri_inv_inverts : inverts_triangular tri_inv.
Proof.
  intros n. induction n as [|n IH]; intros U T D.
  - intros i j Hi. lia.
  - apply inverse_meq. specialize (IH (fun i j => U (S i) (S j))). rewrite inverse_meq in IH.
    destruct IH as [I1 I2]; [intros; apply T; lia|intros; apply D; lia|]. simpl. set (V := tri_inv n (fun i j => U (S i) (S j))) in *.
    assert (U 0%nat 0%nat <> 0) as NZ by (apply D; lia).
    assert (Z : forall k, (k < n)%nat -> U (S k) 0%nat = 0) by (intros; apply T; lia).
    split; intros i j Hi Hj; unfold rdot; rewrite rs_head; destruct i as [|i], j as [|j].
    + rewrite rs_zero by (intros; ring). unfold rident. simpl. field. auto.
    + unfold rident. simpl. field. auto.
    + rewrite rs_zero by (intros; ring). rewrite Z by lia. unfold rident. simpl. ring.
    + rewrite Z by lia. specialize (I1 i j). unfold rdot in I1. rewrite I1 by lia. unfold rident. simpl. ring.
    + rewrite rs_zero by (intros k Hk; rewrite Z by auto; ring). unfold rident. simpl. field. auto.
    + unfold rident. simpl.
      rewrite (rs_ext n _ (fun k => rsumn n (fun l => - / U 0%nat 0%nat * U 0%nat (S l) * (V l k * U (S k) (S j))))).
      2:{ intros k Hk. unfold Rdiv. rewrite Rmult_assoc, <- Ropp_mult_distr_l, <- (rs_scalr n). rewrite Ropp_mult_distr_l_reverse || idtac.
          rewrite <- (Rmult_1_l (rsumn n (fun i => U 0%nat (S i) * V i k * _))). rewrite Ropp_mult_distr_l. rewrite <- rs_scal. apply rs_ext. intros. ring. }
      rewrite rs_swap. rewrite (rs_ext n _ (fun l => - / U 0%nat 0%nat * ((if Nat.eqb j l then 1 else 0) * U 0%nat (S l)))).
      * rewrite rs_scal, (rs_delta n j (fun l => U 0%nat (S l))) by lia. field. auto.
      * intros l Hl. rewrite rs_scal. specialize (I2 l j). unfold rdot in I2. rewrite I2 by lia. unfold rident. rewrite (Nat.eqb_sym j l). ring.
    + rewrite rs_zero by (intros k Hk; rewrite Z by auto; ring). unfold rident. simpl. ring.
    + specialize (I2 i j). unfold rdot in I2. rewrite I2 by lia. unfold rident. simpl. ring.
Qed.

(* ---------- positive semidefinite matrices are Gram matrices ---------- *)
Lemma psd_corner : forall n A, psd (S n) A -> 0 <= A 0%nat 0%nat.
Proof.
  intros n A H. rewrite psd_quad in H. specialize (H (fun i => if Nat.eqb i 0 then 1 else 0)). rewrite quad_head in H. simpl in H.
  rewrite (rs_zero n (fun j => 1 * 0 * A 0%nat (S j))) in H by (intros; ring).
  rewrite (rs_zero n (fun i => 0 * 1 * A (S i) 0%nat)) in H by (intros; ring).
  unfold quad in H. rewrite (rs_zero n (fun i => rsumn n _)) in H by (intros; apply rs_zero; intros; ring). lra.
Qed.
Lemma psd_zero_row : forall n A, sym (S n) A -> psd (S n) A -> A 0%nat 0%nat = 0 -> forall i, (i < n)%nat -> A (S i) 0%nat = 0.
Proof.
  intros n A S0 H Z i Hi. rewrite psd_quad in H.
  set (b := A (S i) 0%nat). set (c := A (S i) (S i)).
  assert (forall y, 0 <= 2 * y * b + c) as Q.
  { intro y. specialize (H (fun k => match k with 0%nat => y | S k' => if Nat.eqb i k' then 1 else 0 end)). rewrite quad_head in H. rewrite Z in H.
    rewrite (rs_ext n _ (fun j => y * ((if Nat.eqb i j then 1 else 0) * A (S j) 0%nat))) in H.
    2:{ intros j Hj. rewrite (S0 0%nat (S j)) by lia. ring. }
    rewrite (rs_ext n (fun i0 => (if Nat.eqb i i0 then 1 else 0) * y * A (S i0) 0%nat) (fun j => y * ((if Nat.eqb i j then 1 else 0) * A (S j) 0%nat))) in H by (intros; ring).
    rewrite !rs_scal, (rs_delta n i (fun j => A (S j) 0%nat)) in H by auto.
    unfold quad in H. rewrite (rs_ext n _ (fun k => (if Nat.eqb i k then 1 else 0) * A (S k) (S i))) in H.
    - rewrite (rs_delta n i (fun k => A (S k) (S i))) in H by auto. fold b c in H. lra.
    - intros k Hk. rewrite (rs_ext n _ (fun l => (if Nat.eqb i k then 1 else 0) * ((if Nat.eqb i l then 1 else 0) * A (S k) (S l)))) by (intros; ring).
      rewrite rs_scal, (rs_delta n i (fun l => A (S k) (S l))) by auto. ring. }
  destruct (Req_dec b 0) as [|NZ]; auto. exfalso. specialize (Q (- (c + 1) / (2 * b))).
  replace (2 * (- (c + 1) / (2 * b)) * b) with (- (c + 1)) in Q by (field; auto). lra.
Qed.
Lemma psd_gram : forall n A, sym n A -> psd n A -> exists phi : nat -> nat -> R, forall i j, (i < n)%nat -> (j < n)%nat -> A i j = rsumn n (fun c => phi i c * phi j c).
Proof.
  induction n as [|n IH]; intros A S0 H; [exists (fun _ _ => 0); intros; lia|].
  pose proof (psd_corner n A H) as Hc. destruct (Req_dec (A 0%nat 0%nat) 0) as [Z|NZ].
  - pose proof (psd_zero_row n A S0 H Z) as ZR.
    destruct (IH (fun i j => A (S i) (S j))) as [phi E].
    + intros i j Hi Hj. apply S0; lia.
    + rewrite psd_quad in *. intro v. specialize (H (fun i => match i with 0%nat => 0 | S k => v k end)). rewrite quad_head in H.
      rewrite (rs_zero n (fun j => 0 * v j * A 0%nat (S j))) in H by (intros; ring). rewrite (rs_zero n (fun i => v i * 0 * A (S i) 0%nat)) in H by (intros; ring).
      match type of H with 0 <= _ + ?q => match goal with |- 0 <= ?g => change q with g in H end end. lra.
    + exists (fun i c => match i, c with S i', S c' => phi i' c' | _, _ => 0 end). intros i j Hi Hj. rewrite rs_head. destruct i as [|i], j as [|j].
      * rewrite rs_zero by (intros; ring). lra.
      * rewrite rs_zero by (intros; ring). rewrite S0, ZR by lia. ring.
      * rewrite rs_zero by (intros; ring). rewrite ZR by lia. ring.
      * rewrite E by lia. ring.
  - destruct (IH (schur A)) as [phi E].
    + apply schur_sym; auto.
    + rewrite psd_quad in *. intro v. rewrite schur_quad; auto.
    + assert (0 < sqrt (A 0%nat 0%nat)) as Hs by (apply sqrt_lt_R0; lra).
      assert (sqrt (A 0%nat 0%nat) * sqrt (A 0%nat 0%nat) = A 0%nat 0%nat) as Hq by (apply sqrt_sqrt; lra).
      exists (fun i c => match c with 0%nat => A i 0%nat / sqrt (A 0%nat 0%nat) | S c' => match i with 0%nat => 0 | S i' => phi i' c' end end).
      assert (forall a b, a / sqrt (A 0%nat 0%nat) * (b / sqrt (A 0%nat 0%nat)) = a * b / A 0%nat 0%nat) as X.
      { intros. rewrite <- Hq at 3. field. lra. }
      intros i j Hi Hj. rewrite rs_head, X. destruct i as [|i], j as [|j].
      * rewrite rs_zero by (intros; ring). field. auto.
      * rewrite rs_zero by (intros; ring). rewrite (S0 0%nat (S j)) by lia. field. auto.
      * rewrite rs_zero by (intros; ring). field. auto.
      * rewrite <- E by lia. unfold schur. field. auto.
Qed.
