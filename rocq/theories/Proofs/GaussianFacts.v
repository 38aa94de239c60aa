(** Sums, and kernels of Gaussian shape. *)

From Coq Require Import List Arith Lia Bool Permutation Reals Lra.
From Verif Require Import Model.LocalScore Model.KCI Spec.Scores Spec.KernelSpec Proofs.ScoreFacts Proofs.BicFacts Proofs.PopulationFacts Proofs.KCIFacts.
Import ListNotations.
Open Scope R_scope.

(* ---------- sums ---------- *)
Lemma rs_ext : forall n f g, (forall i, (i < n)%nat -> f i = g i) -> rsumn n f = rsumn n g.
Proof. exact rsumn_ext. Qed.
Lemma rs_ext2 : forall n m f g, (forall i j, (i < n)%nat -> (j < m)%nat -> f i j = g i j) ->
  rsumn n (fun i => rsumn m (fun j => f i j)) = rsumn n (fun i => rsumn m (fun j => g i j)).
Proof. intros. apply rs_ext. intros. apply rs_ext. auto. Qed.
Lemma rs_swap : forall n m f, rsumn n (fun a => rsumn m (fun b => f a b)) = rsumn m (fun b => rsumn n (fun a => f a b)).
Proof.
  intros. rewrite !rsumn_sumR. rewrite (sum_ext n _ (fun a => sumRn m (fun b => f a b))) by (intros; apply rsumn_sumR).
  rewrite sum_swap. apply sum_ext. intros. symmetry. apply rsumn_sumR.
Qed.
Lemma rs_scal : forall n c f, rsumn n (fun i => c * f i) = c * rsumn n f.
Proof. exact rsumn_scal. Qed.
Lemma rs_scalr : forall n c f, rsumn n (fun i => f i * c) = rsumn n f * c.
Proof. intros. rewrite (rs_ext n _ (fun i => c * f i)) by (intros; ring). rewrite rs_scal. ring. Qed.
Lemma rs_plus : forall n f g, rsumn n (fun i => f i + g i) = rsumn n f + rsumn n g.
Proof. exact rsumn_plus. Qed.
Lemma rs_minus : forall n f g, rsumn n (fun i => f i - g i) = rsumn n f - rsumn n g.
Proof. intros. rewrite (rs_ext n _ (fun i => f i + (-1) * g i)) by (intros; ring). rewrite rs_plus, rs_scal. ring. Qed.
Lemma rs_const : forall n c, rsumn n (fun _ => c) = INR n * c.
Proof. exact rsumn_const. Qed.
Lemma rs_zero : forall n f, (forall i, (i < n)%nat -> f i = 0) -> rsumn n f = 0.
Proof. intros. rewrite (rs_ext n f (fun _ => 0)) by auto. rewrite rs_const. ring. Qed.
Lemma rs_nonneg : forall n f, (forall i, (i < n)%nat -> 0 <= f i) -> 0 <= rsumn n f.
Proof. exact rsumn_nonneg. Qed.
Lemma rs_nonneg_zero : forall n f, (forall i, (i < n)%nat -> 0 <= f i) -> rsumn n f = 0 -> forall i, (i < n)%nat -> f i = 0.
Proof. intros n f H. rewrite rsumn_sumR. apply sum_nonneg_zero. auto. Qed.
Lemma rs_S : forall n f, rsumn (S n) f = rsumn n f + f n.
Proof. intros. rewrite !rsumn_sumR. apply sum_S. Qed.
Lemma rs_delta : forall n j f, (j < n)%nat -> rsumn n (fun i => (if Nat.eqb j i then 1 else 0) * f i) = f j.
Proof. intros. rewrite rsumn_sumR. apply PopulationFacts.sum_delta. auto. Qed.
Lemma rs_le : forall n f g, (forall i, (i < n)%nat -> f i <= g i) -> rsumn n f <= rsumn n g.
Proof. intros n f g H. assert (0 <= rsumn n (fun i => g i - f i)) as K by (apply rs_nonneg; intros i Hi; specialize (H i Hi); lra). rewrite rs_minus in K. lra. Qed.
Lemma rs_one : forall f, rsumn 1 f = f 0%nat.
Proof. intro f. unfold rsumn, rsum. simpl. ring. Qed.

Definition quad (n : nat) (v : nat -> R) (K : rmat) : R := rsumn n (fun i => rsumn n (fun j => v i * v j * K i j)).
Lemma psd_quad : forall n K, psd n K <-> forall v, 0 <= quad n v K.
Proof.
  intros n K. unfold psd, quad. split; intros H v; specialize (H v).
  - rewrite rsumn_sumR. rewrite (sum_ext n _ (fun i => sumRn n (fun j => v i * v j * K i j))) by (intros; apply rsumn_sumR). auto.
  - rewrite rsumn_sumR in H. rewrite (sum_ext n _ (fun i => sumRn n (fun j => v i * v j * K i j))) in H by (intros; apply rsumn_sumR). auto.
Qed.

(* ---------- matrices that keep others positive under the entrywise product ---------- *)
Definition hadamard (K L : rmat) : rmat := fun i j => K i j * L i j.
Definition multiplier (n : nat) (K : rmat) : Prop := forall M, psd n M -> psd n (hadamard K M).

Lemma quad_ext : forall n v K L, agree n n K L -> quad n v K = quad n v L.
Proof. intros n v K L H. unfold quad. apply rs_ext2. intros. rewrite H; auto. Qed.
Lemma psd_ext : forall n K L, agree n n K L -> psd n K -> psd n L.
Proof. intros n K L H P. apply psd_quad. intro v. rewrite <- (quad_ext n v K L H). apply psd_quad. auto. Qed.
Lemma multiplier_ext : forall n K L, agree n n K L -> multiplier n K -> multiplier n L.
Proof. intros n K L H P M HM. apply (psd_ext n (hadamard K M)); auto. intros i j Hi Hj. unfold hadamard. rewrite H; auto. Qed.

Lemma multiplier_rank1 : forall n u, multiplier n (fun i j => u i * u j).
Proof.
  intros n u M HM. apply psd_quad. intro v. assert (quad n v (hadamard (fun i j => u i * u j) M) = quad n (fun i => v i * u i) M) as ->.
  { unfold quad, hadamard. apply rs_ext2. intros. ring. } apply psd_quad. auto.
Qed.
Lemma multiplier_mult : forall n K L, multiplier n K -> multiplier n L -> multiplier n (hadamard K L).
Proof.
  intros n K L HK HL M HM. apply (psd_ext n (hadamard K (hadamard L M))); [intros i j _ _; unfold hadamard; ring|]. auto.
Qed.
Lemma multiplier_plus : forall n K L, multiplier n K -> multiplier n L -> multiplier n (fun i j => K i j + L i j).
Proof.
  intros n K L HK HL M HM. apply psd_quad. intro v.
  assert (quad n v (hadamard (fun i j => K i j + L i j) M) = quad n v (hadamard K M) + quad n v (hadamard L M)) as ->.
  { unfold quad, hadamard. rewrite <- rs_plus. apply rs_ext. intros i Hi. rewrite <- rs_plus. apply rs_ext. intros. ring. }
  pose proof (proj1 (psd_quad _ _) (HK M HM) v). pose proof (proj1 (psd_quad _ _) (HL M HM) v). lra.
Qed.
Lemma multiplier_scal : forall n c K, 0 <= c -> multiplier n K -> multiplier n (fun i j => c * K i j).
Proof.
  intros n c K Hc HK M HM. apply psd_quad. intro v.
  assert (quad n v (hadamard (fun i j => c * K i j) M) = c * quad n v (hadamard K M)) as ->.
  { unfold quad, hadamard. rewrite <- rs_scal. apply rs_ext. intros i Hi. rewrite <- rs_scal. apply rs_ext. intros. ring. }
  apply Rmult_le_pos; auto. apply psd_quad. auto.
Qed.
Lemma multiplier_zero : forall n, multiplier n (fun _ _ => 0).
Proof. intros n. apply (multiplier_ext n (fun i j => (fun _ => 0) i * (fun _ => 0) j)); [intros i j _ _; ring|]. apply (multiplier_rank1 n (fun _ => 0)). Qed.
Lemma multiplier_one : forall n, multiplier n (fun _ _ => 1).
Proof. intros n. apply (multiplier_ext n (fun i j => (fun _ => 1) i * (fun _ => 1) j)); [intros i j _ _; ring|]. apply (multiplier_rank1 n (fun _ => 1)). Qed.
Lemma multiplier_gram : forall n d X, multiplier n (fun i j => rsumn d (fun c => X i c * X j c)).
Proof.
  intros n d X. induction d as [|d IH]; [apply multiplier_zero|].
  apply (multiplier_ext n (fun i j => rsumn d (fun c => X i c * X j c) + X i d * X j d)); [intros i j _ _; rewrite rs_S; auto|].
  apply multiplier_plus; auto. apply (multiplier_rank1 n (fun i => X i d)).
Qed.
Lemma multiplier_pow : forall n K k, multiplier n K -> multiplier n (fun i j => K i j ^ k).
Proof.
  intros n K k HK. induction k as [|k IH]; [apply multiplier_one|]. apply (multiplier_mult n K _ HK IH).
Qed.
Lemma psd_ones : forall n, psd n (fun _ _ => 1).
Proof.
  intro n. apply psd_quad. intro v. unfold quad. rewrite (rs_ext n _ (fun i => rsumn n v * v i)).
  - rewrite rs_scal. apply Rle_0_sqr.
  - intros i Hi. rewrite <- rs_scalr. apply rs_ext. intros. ring.
Qed.
Lemma multiplier_psd : forall n K, multiplier n K -> psd n K.
Proof. intros n K H. apply (psd_ext n (hadamard K (fun _ _ => 1))); [intros i j _ _; unfold hadamard; ring|]. apply H, psd_ones. Qed.

(* ---------- limits ---------- *)
Lemma cv_const : forall c, Un_cv (fun _ => c) c.
Proof. intros c e He. exists O. intros. unfold R_dist. replace (c - c) with 0 by ring. rewrite Rabs_R0. auto. Qed.
Lemma cv_rsumn : forall n (f : nat -> nat -> R) g, (forall i, (i < n)%nat -> Un_cv (fun k => f k i) (g i)) -> Un_cv (fun k => rsumn n (f k)) (rsumn n g).
Proof.
  induction n as [|n IH]; intros f g H; [exact (cv_const 0)|].
  assert (Un_cv (fun k => rsumn n (f k) + f k n) (rsumn n g + g n)) as C by (apply CV_plus; auto).
  rewrite rs_S. intros e He. destruct (C e He) as [N HN]. exists N. intros k Hk. rewrite rs_S. auto.
Qed.
Lemma cv_nonneg : forall u l, Un_cv u l -> (forall k, 0 <= u k) -> 0 <= l.
Proof.
  intros u l C H. destruct (Rle_dec 0 l) as [|B]; auto. exfalso. destruct (C (- l) ltac:(lra)) as [N HN].
  specialize (HN N ltac:(lia)). unfold R_dist in HN. specialize (H N). rewrite Rabs_pos_eq in HN; lra.
Qed.
Lemma psd_limit : forall n (K : nat -> rmat) L, (forall i j, (i < n)%nat -> (j < n)%nat -> Un_cv (fun k => K k i j) (L i j)) -> (forall k, psd n (K k)) -> psd n L.
Proof.
  intros n K L H P. apply psd_quad. intro v. apply (cv_nonneg (fun k => quad n v (K k))).
  - unfold quad. apply cv_rsumn. intros i Hi. apply (cv_rsumn n (fun k j => v i * v j * K k i j)). intros j Hj. apply CV_mult; [apply cv_const|auto].
  - intro k. apply psd_quad. auto.
Qed.
Lemma multiplier_limit : forall n (K : nat -> rmat) L, (forall i j, (i < n)%nat -> (j < n)%nat -> Un_cv (fun k => K k i j) (L i j)) -> (forall k, multiplier n (K k)) -> multiplier n L.
Proof.
  intros n K L H P M HM. apply (psd_limit n (fun k => hadamard (K k) M)).
  - intros i j Hi Hj. unfold hadamard. apply CV_mult; auto. apply cv_const.
  - intro k. apply P. auto.
Qed.

Lemma multiplier_exp : forall n K, multiplier n K -> multiplier n (fun i j => exp (K i j)).
Proof.
  intros n K HK. apply (multiplier_limit n (fun N i j => sum_f_R0 (fun k => / INR (fact k) * K i j ^ k) N)).
  - intros i j _ _. unfold exp. destruct (exist_exp (K i j)) as [e He]. exact He.
  - induction k as [|k IH].
    + apply (multiplier_scal n (/ INR (fact 0)) (fun i j => K i j ^ 0)); [simpl; lra|apply multiplier_pow; auto].
    + cbn [sum_f_R0]. apply (multiplier_plus n (fun i j => sum_f_R0 (fun k => / INR (fact k) * K i j ^ k) k)); auto.
      apply (multiplier_scal n (/ INR (fact (S k))) (fun i j => K i j ^ S k)); [left; apply Rinv_0_lt_compat, INR_fact_lt_0|apply multiplier_pow; auto].
Qed.

(** Squared distances with a nonnegative factor. *)
Lemma gaussian_multiplier : forall n d X c, 0 <= c -> multiplier n (fun i j => exp (- c * rsumn d (fun a => (X i a - X j a) * (X i a - X j a)))).
Proof.
  intros n d X c Hc. set (s := fun i => rsumn d (fun a => X i a * X i a)). set (G := fun i j => rsumn d (fun a => X i a * X j a)).
  apply (multiplier_ext n (hadamard (fun i j => exp (- c * s i) * exp (- c * s j)) (fun i j => exp (2 * c * G i j)))).
  - intros i j _ _. unfold hadamard. rewrite <- !exp_plus. f_equal. unfold s, G.
    rewrite (rs_ext d (fun a => (X i a - X j a) * (X i a - X j a)) (fun a => (X i a * X i a + X j a * X j a) - 2 * (X i a * X j a))) by (intros; ring).
    rewrite rs_minus, rs_plus, rs_scal. ring.
  - apply multiplier_mult; [apply (multiplier_rank1 n (fun i => exp (- c * s i)))|].
    apply (multiplier_exp n (fun i j => 2 * c * G i j)). apply multiplier_scal; [lra|]. apply multiplier_gram.
Qed.

(* ---------- centring ---------- *)
Definition sym (n : nat) (K : rmat) : Prop := forall i j, (i < n)%nat -> (j < n)%nat -> K i j = K j i.

Section Centring.
  Variable n : nat.
  Hypothesis Hn : (0 < n)%nat.
  Let N := INR n.
  Lemma N_nz : N <> 0.
  Proof using Hn. unfold N. apply not_0_INR. lia. Qed.

  Lemma centering_apply : forall i f, (i < n)%nat -> rsumn n (fun k => centering n i k * f k) = f i - rsumn n f / N.
  Proof using Hn.
    intros i f Hi. unfold centering. rewrite (rs_ext n _ (fun k => (if Nat.eqb i k then 1 else 0) * f k - / N * f k)) by (intros; unfold N; unfold Rdiv; ring).
    rewrite rs_minus, rs_delta, rs_scal by auto. unfold Rdiv. ring.
  Qed.
  Lemma centering_sym : forall i j, centering n i j = centering n j i.
  Proof using. intros. unfold centering. rewrite Nat.eqb_sym. auto. Qed.

  Lemma centered_formula : forall K i j, (i < n)%nat -> (j < n)%nat ->
    centered n K i j = K i j - rsumn n (fun k => K k j) / N - rsumn n (fun k => K i k) / N + rsumn n (fun k => rsumn n (fun l => K k l)) / (N * N).
  Proof using Hn.
    intros K i j Hi Hj. unfold centered, rdot.
    rewrite (rs_ext n _ (fun k => centering n j k * (K i k - rsumn n (fun l => K l k) / N))).
    2:{ intros k Hk. rewrite (centering_apply i (fun l => K l k)) by auto. rewrite (centering_sym k j). ring. }
    rewrite (centering_apply j (fun k => K i k - rsumn n (fun l => K l k) / N)) by auto.
    rewrite rs_minus. rewrite (rs_ext n (fun k => rsumn n (fun l => K l k) / N) (fun k => / N * rsumn n (fun l => K l k))) by (intros; unfold Rdiv; ring).
    rewrite rs_scal. rewrite (rs_swap n n (fun k l => K l k)). change (rsumn n (fun k : nat => K i k)) with (rsumn n (K i)). pose proof N_nz. field. auto.
  Qed.

  (** The double sum of the entries of a centred matrix times f, and the centred f. *)
  Lemma centered_move : forall A B, rsumn n (fun i => rsumn n (fun j => centered n A j i * B i j)) = rsumn n (fun i => rsumn n (fun j => A j i * centered n B i j)).
  Proof using.
    intros A B. unfold centered, rdot.
    assert (forall i j, rsumn n (fun k => rsumn n (fun l => centering n j l * A l k) * centering n k i) * B i j
      = rsumn n (fun k => rsumn n (fun l => centering n j l * A l k * centering n k i * B i j))) as E1.
    { intros. rewrite <- rs_scalr. apply rs_ext. intros k Hk. rewrite <- (rs_scalr n (centering n k i)). rewrite <- rs_scalr. auto. }
    assert (forall i j, A j i * rsumn n (fun k => rsumn n (fun l => centering n i l * B l k) * centering n k j)
      = rsumn n (fun k => rsumn n (fun l => A j i * (centering n i l * B l k * centering n k j)))) as E2.
    { intros. rewrite <- rs_scal. apply rs_ext. intros k Hk. rewrite <- (rs_scalr n (centering n k j)). rewrite <- rs_scal. auto. }
    rewrite (rs_ext2 n n _ _ (fun i j _ _ => E1 i j)), (rs_ext2 n n _ _ (fun i j _ _ => E2 i j)).
    (* left: i j k l with A l k, B i j; right: names k:=i.. *)
    rewrite (rs_ext n _ (fun i => rsumn n (fun k => rsumn n (fun j => rsumn n (fun l => centering n j l * A l k * centering n k i * B i j))))) by (intros; apply rs_swap).
    rewrite rs_swap. apply rs_ext. intros k Hk.
    rewrite (rs_ext n _ (fun i => rsumn n (fun l => rsumn n (fun j => centering n j l * A l k * centering n k i * B i j)))) by (intros; apply rs_swap).
    rewrite rs_swap. apply rs_ext. intros l Hl.
    rewrite rs_swap. apply rs_ext. intros j Hj. apply rs_ext. intros i Hi. ring.
  Qed.

  Lemma quad_centered : forall v K, quad n v (centered n K) = quad n (fun i => rsumn n (fun k => centering n i k * v k)) K.
  Proof using.
    intros v K. unfold quad.
    rewrite (rs_ext2 n n _ (fun i j => centered n (fun a b => K b a) j i * (v i * v j))).
    2:{ intros i j Hi Hj. rewrite Rmult_comm. f_equal. unfold centered, rdot.
        rewrite (rs_ext n _ (fun k => rsumn n (fun l => centering n i l * K l k * centering n k j))) by (intros; rewrite <- rs_scalr; auto).
        rewrite rs_swap. apply rs_ext. intros l Hl. rewrite <- rs_scalr. apply rs_ext. intros k Hk. rewrite (centering_sym l i), (centering_sym k j). ring. }
    rewrite (centered_move (fun a b => K b a) (fun i j => v i * v j)).
    apply rs_ext2. intros i j Hi Hj. rewrite Rmult_comm. f_equal. unfold centered, rdot.
    rewrite (rs_ext n _ (fun k => rsumn n (fun l => centering n i l * v l) * (centering n j k * v k))).
    - rewrite rs_scal. auto.
    - intros k Hk. rewrite (centering_sym k j). rewrite (rs_ext n _ (fun l => centering n i l * v l * v k)) by (intros; ring). rewrite rs_scalr. ring.
  Qed.
  Lemma psd_centered : forall K, psd n K -> psd n (centered n K).
  Proof using. intros K HK. apply psd_quad. intro v. rewrite quad_centered. apply psd_quad. auto. Qed.

  Lemma sym_centered : forall K, sym n K -> sym n (centered n K).
  Proof using Hn.
    intros K HK i j Hi Hj. rewrite !centered_formula by auto. rewrite (HK i j) by auto.
    rewrite (rs_ext n (fun k => K k j) (fun k => K j k)) by (intros; auto). rewrite (rs_ext n (fun k => K i k) (fun k => K k i)) by (intros; auto). ring.
  Qed.

  (** The statistic of two positive kernels is not negative. *)
  Lemma stat_nonneg : forall K L, sym n K -> multiplier n K -> psd n L -> 0 <= sum_prod n (fun i j => centered n K j i) (centered n L).
  Proof using.
    intros K L SK MK PL. unfold sum_prod. rewrite (centered_move K (centered n L)).
    assert (psd n (hadamard K (centered n (centered n L)))) as P by (apply MK, psd_centered, psd_centered, PL).
    rewrite psd_quad in P. specialize (P (fun _ => 1)). unfold quad, hadamard in P.
    rewrite (rs_ext2 n n _ (fun i j => K j i * centered n (centered n L) i j)) in P; auto.
    intros i j Hi Hj. rewrite (SK i j) by auto. ring.
  Qed.

  (** Three sums. *)
  Lemma stat_sums : forall K L, sym n K -> sym n L -> rsumn n (fun i => rsumn n (fun j => centered n K j i * centered n L i j))
    = rsumn n (fun i => rsumn n (fun j => K i j * L i j)) + rsumn n (fun i => rsumn n (fun j => K i j)) * rsumn n (fun i => rsumn n (fun j => L i j)) / (N * N)
      - 2 / N * rsumn n (fun i => rsumn n (fun j => K i j) * rsumn n (fun j => L i j)).
  Proof using Hn.
    intros K L SK SL. pose proof N_nz as NZ.
    set (k := fun i => rsumn n (fun j => K i j)). set (l := fun i => rsumn n (fun j => L i j)). set (KK := rsumn n k). set (LL := rsumn n l).
    assert (forall i j, (i < n)%nat -> (j < n)%nat -> centered n K j i = K i j - k i / N - k j / N + KK / (N * N)) as FK.
    { intros i j Hi Hj. rewrite centered_formula by auto. rewrite (SK j i) by auto. unfold KK, k. rewrite (rs_ext n (fun a => K a i) (fun a => K i a)) by auto. auto. }
    assert (forall i j, (i < n)%nat -> (j < n)%nat -> centered n L i j = L i j - l j / N - l i / N + LL / (N * N)) as FL.
    { intros i j Hi Hj. rewrite centered_formula by auto. unfold LL, l. rewrite (rs_ext n (fun a => L a j) (fun a => L j a)) by auto. auto. }
    rewrite (rs_ext2 n n _ (fun i j => K i j * L i j - / N * (K i j * l j) - / N * l i * K i j + LL / (N * N) * K i j
       + (- / N * k i) * L i j + / N * / N * k i * l j + / N * / N * k i * l i - / N * / N * / N * k i * LL
       + (- / N) * (k j * L i j) + / N * / N * (k j * l j) + / N * / N * l i * k j - / N * / N * / N * LL * k j
       + KK / (N * N) * L i j - KK / (N * N) / N * l j - KK / (N * N) * / N * l i + KK / (N * N) * (LL / (N * N)))).
    2:{ intros i j Hi Hj. rewrite FK, FL by auto. field. auto. }
    set (B := rsumn n (fun i => k i * l i)).
    rewrite (rs_ext n _ (fun i => rsumn n (fun j => K i j * L i j) - / N * rsumn n (fun j => K i j * l j) - / N * (k i * l i) + LL / (N * N) * k i
       + (- / N) * (k i * l i) + / N * / N * LL * k i + / N * (k i * l i) - / N * / N * LL * k i
       + (- / N) * rsumn n (fun j => k j * L i j) + / N * / N * B + / N * / N * KK * l i - / N * / N * / N * LL * KK
       + KK / (N * N) * l i - KK / (N * N) / N * LL - KK / (N * N) * l i + KK / (N * N) * (LL / N))).
    2:{ intros i Hi. repeat (rewrite rs_plus || rewrite rs_minus). rewrite ?rs_scal. rewrite ?rs_const.
        fold (k i) (l i). fold LL KK B N. change (rsumn n (fun j => k j)) with KK. change (rsumn n (fun j => l j)) with LL.
        change (rsumn n (fun j => L i j)) with (l i). change (rsumn n (fun j => K i j)) with (k i). change (rsumn n (K i)) with (k i). change (rsumn n (L i)) with (l i). field. auto. }
    repeat (rewrite rs_plus || rewrite rs_minus). rewrite ?rs_scal. rewrite ?rs_const.
    assert (rsumn n (fun i => rsumn n (fun j => K i j * l j)) = B) as E1.
    { rewrite rs_swap. unfold B. apply rs_ext. intros j Hj. rewrite rs_scalr. f_equal. unfold k. apply rs_ext. auto. }
    assert (rsumn n (fun i => rsumn n (fun j => k j * L i j)) = B) as E2.
    { rewrite rs_swap. unfold B. apply rs_ext. intros j Hj. rewrite rs_scal. f_equal. unfold l. apply rs_ext. auto. }
    rewrite E1, E2. fold B. change (rsumn n (fun i => k i)) with KK. change (rsumn n (fun i => l i)) with LL.
    change (rsumn n (fun i => rsumn n (fun j => K i j))) with KK. change (rsumn n (fun i => rsumn n (fun j => L i j))) with LL. fold N. change (rsumn n k) with KK. change (rsumn n l) with LL. change (rsumn n (fun i => rsumn n (fun a => K i a) * rsumn n (fun b => L i b))) with B. field. auto.
  Qed.
End Centring.
