(** Correlations of a sample, and residuals of regressions. *)

From Coq Require Import List Arith Lia Bool Permutation Reals Lra FunctionalExtensionality.
From Verif Require Import Model.Py Model.LocalScore Model.FisherZ Model.FisherData Spec.Scores Spec.Partial Spec.SampleSpec
  Proofs.ScoreFacts Proofs.BicFacts Proofs.PopulationFacts Proofs.FisherZFacts.
Import ListNotations.
Open Scope R_scope.

Lemma comoment_sym : forall N u v, comoment N u v = comoment N v u.
Proof. intros. unfold comoment. apply sum_ext. intros. ring. Qed.
Lemma comoment_nonneg : forall N u, 0 <= comoment N u u.
Proof. intros. unfold comoment. apply sum_nonneg. intros. apply Rle_0_sqr. Qed.

(** A variable without variance is constant. *)
Lemma comoment_zero : forall N u, comoment N u u = 0 <-> flat N u.
Proof.
  intros N u. split.
  - intros H i j Hi Hj. unfold comoment in H.
    assert (forall k, (k < N)%nat -> u k = average N u) as K.
    { intros k Hk. pose proof (sum_nonneg_zero N _ (fun i _ => Rle_0_sqr (u i - average N u)) H k Hk) as Q.
      cbv beta in Q. apply Rsqr_0_uniq in Q. lra. }
    rewrite (K i Hi), (K j Hj). auto.
  - intro H. unfold comoment. apply sum_zero. intros i Hi.
    assert (average N u = u i) as ->.
    { unfold average. rewrite (sum_ext N u (fun _ => u i * 1)) by (intros k Hk; rewrite (H k i Hk Hi); ring).
      rewrite sum_scal. assert (sumRn N (fun _ => 1) = INR N) as ->.
      { clear. induction N as [|N IH]; [unfold sumRn; simpl; auto|]. rewrite sum_S, IH, S_INR. auto. }
      field. apply not_0_INR. lia. }
    ring.
Qed.

Lemma sum_ones : forall N c, sumRn N (fun _ => c) = INR N * c.
Proof. induction N as [|N IH]; intro c; [unfold sumRn; simpl; ring|]. rewrite sum_S, IH, S_INR. ring. Qed.

Lemma deviations_sum : forall N u, sumRn N (fun i => u i - average N u) = 0.
Proof.
  intros N u. rewrite sum_minus. rewrite sum_ones. unfold average. destruct N as [|N]; [unfold sumRn; simpl; ring|].
  field. apply not_0_INR. lia.
Qed.

Lemma average_zero : forall N r, sumRn N r = 0 -> average N r = 0.
Proof. intros N r H. unfold average. rewrite H. unfold Rdiv. ring. Qed.

(** Residuals are determined. *)
Lemma residual_unique : forall N Z v r r', residual N Z v r -> residual N Z v r' -> forall i, (i < N)%nat -> r i = r' i.
Proof.
  intros N Z v r r' [[b0 [b E]] [S0 O]] [[b0' [b' E']] [S0' O']].
  assert (forall i, (i < N)%nat -> r i - r' i = (b0' - b0) + combination (fun a => b' a - b a) Z i) as D.
  { intros i Hi. specialize (E i Hi). specialize (E' i Hi). unfold combination in *.
    rewrite (sum_ext _ (fun a => (b' a - b a) * _) (fun a => b' a * nth a Z (fun _ => 0) i - b a * nth a Z (fun _ => 0) i)) by (intros; ring).
    rewrite sum_minus. lra. }
  assert (sumRn N (fun i => (r i - r' i) * (r i - r' i)) = 0) as Q.
  { rewrite (sum_ext N _ (fun i => (b0' - b0) * r i - (b0' - b0) * r' i
      + sumRn (length Z) (fun a => (b' a - b a) * (r i * nth a Z (fun _ => 0) i) - (b' a - b a) * (r' i * nth a Z (fun _ => 0) i)))).
    - rewrite sum_plus, sum_minus, !sum_scal, S0, S0'. rewrite sum_swap. rewrite (sum_zero (length Z)); [ring|].
      intros a Ha. rewrite sum_minus, !sum_scal. rewrite (O (nth a Z (fun _ => 0))), (O' (nth a Z (fun _ => 0))) by (apply nth_In; auto). ring.
    - intros i Hi. rewrite (D i Hi) at 2. unfold combination. rewrite Rmult_plus_distr_l. rewrite <- sum_scal. f_equal; [ring|].
      apply sum_ext. intros. ring. }
  intros i Hi. pose proof (sum_nonneg_zero N _ (fun i _ => Rle_0_sqr (r i - r' i)) Q i Hi) as K. cbv beta in K. apply Rsqr_0_uniq in K. lra.
Qed.

Lemma sum_range : forall k (f : nat -> R), sumR (seq 2 k) f = sumRn k (fun a => f (2 + a)%nat).
Proof.
  intros k f. unfold sumRn. induction k as [|k IH]; [reflexivity|]. rewrite !seq_S, !sumR_app, IH. reflexivity.
Qed.

Lemma nth_skip : forall (l : list (nat -> R)) a, nth a (skipn 2 l) (fun _ => 0) = nth (2 + a) l (fun _ => 0).
Proof. intros l a. destruct l as [|x [|y l]]; cbn [skipn]; destruct a; reflexivity. Qed.

Section Columns.
  Variable N : nat.
  Variable vs : list (nat -> R).
  Hypothesis ND : nondegenerate N vs.
  Let k := length vs.
  Let v (a : nat) : nat -> R := nth a vs (fun _ => 0).
  Let s (a : nat) : R := sqrt (comoment N (v a) (v a)).
  Definition pearsons : nat -> nat -> R := fun a b => comoment N (v a) (v b) / s a / s b.
  Let U (a i : nat) : R := (v a i - average N (v a)) / s a.

  Lemma comoment_pos : forall a, (a < k)%nat -> 0 < comoment N (v a) (v a).
  Proof using ND.
    intros a Ha. destruct (comoment_nonneg N (v a)) as [|E]; auto. exfalso. symmetry in E. apply comoment_zero in E.
    pose proof (ND (- (v a O)) (fun c => if Nat.eqb a c then 1 else 0)) as K.
    assert (forall i, (i < N)%nat -> - v a O + combination (fun c => if Nat.eqb a c then 1 else 0) vs i = 0) as H.
    { intros i Hi. unfold combination. rewrite sum_delta by auto. fold (v a). rewrite (E i O) by lia. ring. }
    specialize (K H a Ha). cbv beta in K. rewrite Nat.eqb_refl in K. lra.
  Qed.
  Lemma s_pos : forall a, (a < k)%nat -> 0 < s a.
  Proof using ND. intros. apply sqrt_lt_R0, comoment_pos. auto. Qed.
  Lemma s_sqr : forall a, s a * s a = comoment N (v a) (v a).
  Proof using. intros. apply sqrt_sqrt, comoment_nonneg. Qed.
  Lemma U_sum : forall a, sumRn N (U a) = 0.
  Proof using.
    intro a. unfold U. rewrite (sum_ext N _ (fun i => / s a * (v a i - average N (v a)))) by (intros; unfold Rdiv; ring).
    rewrite sum_scal, deviations_sum. ring.
  Qed.
  Lemma U_gram : forall a b, pearsons a b = sumRn N (fun i => U a i * U b i).
  Proof using.
    intros a b. unfold pearsons, U, comoment, Rdiv. rewrite <- !sum_scalr. apply sum_ext. intros. ring.
  Qed.
  Lemma v_U : forall a i, (a < k)%nat -> v a i = average N (v a) + s a * U a i.
  Proof using ND. intros a i Ha. unfold U. field. pose proof (s_pos a Ha). lra. Qed.

  Lemma pearsons_ok : correlations k pearsons.
  Proof using ND.
    split; [|split].
    - intros i j _ _. rewrite !U_gram. apply sum_ext. intros. ring.
    - intros i Hi. unfold pearsons. rewrite <- s_sqr. field. pose proof (s_pos i Hi). lra.
    - intros w [i0 [Hi0 Hw]].
      assert (sumRn k (fun i => sumRn k (fun j => w i * pearsons i j * w j)) = sumRn N (fun t => sumRn k (fun a => w a * U a t) * sumRn k (fun a => w a * U a t))) as ->.
      { rewrite (sum_ext N _ (fun t => sumRn k (fun i => sumRn k (fun j => w i * w j * (U i t * U j t))))).
        2: { intros t _. rewrite <- sum_scalr. apply sum_ext. intros i _. rewrite <- sum_scal. apply sum_ext. intros. ring. }
        rewrite (sum_swap N k). apply sum_ext. intros i _. rewrite (sum_swap N k). apply sum_ext. intros j _.
        rewrite sum_scal, U_gram. ring. }
      destruct (sum_nonneg N (fun t => sumRn k (fun a => w a * U a t) * sumRn k (fun a => w a * U a t)) (fun t _ => Rle_0_sqr _)) as [|E]; auto.
      exfalso. apply Hw. symmetry in E.
      pose proof (ND (- sumRn k (fun a => w a / s a * average N (v a))) (fun a => w a / s a)) as K.
      assert (w i0 / s i0 = 0) as Z.
      { apply K; auto. intros t Ht.
        pose proof (sum_nonneg_zero N _ (fun t _ => Rle_0_sqr (sumRn k (fun a => w a * U a t))) E t Ht) as Q.
        cbv beta in Q. apply Rsqr_0_uniq in Q. unfold combination. fold k.
        rewrite (sum_ext k (fun a => w a / s a * nth a vs (fun _ => 0) t) (fun a => w a / s a * average N (v a) + w a * U a t)).
        - rewrite sum_plus, Q. ring.
        - intros a Ha. fold (v a). rewrite (v_U a t Ha) at 1. pose proof (s_pos a Ha). field. lra. }
      pose proof (s_pos i0 Hi0). replace (w i0) with (w i0 / s i0 * s i0) by (field; lra). rewrite Z. ring.
  Qed.

  (** The regressions with the correlations are the regressions of the variables. *)
  Variable m : nat.
  Hypothesis Hm : k = (2 + m)%nat.
  Let Z := skipn 2 vs.

  Lemma Z_length : length Z = m.
  Proof using Hm. unfold Z. rewrite skipn_length. fold k. lia. Qed.
  Lemma Z_nth : forall a, nth a Z (fun _ => 0) = v (2 + a).
  Proof using. intro a. unfold Z, v. apply nth_skip. Qed.

  Let e (b : nat -> R) (x i : nat) : R := U x i - sumR (seq 2 m) (fun p => b p * U p i).

  Lemma e_sum : forall b x, sumRn N (e b x) = 0.
  Proof using.
    intros b x. unfold e. rewrite sum_minus, U_sum. unfold sumRn. rewrite sumR_swap. rewrite sumR_zero; [ring|].
    intros p _. rewrite sumR_scal. pose proof (U_sum p) as Q. unfold sumRn in Q. rewrite Q. ring.
  Qed.
  Lemma e_orth : forall b x q, regression pearsons (seq 2 m) x b -> In q (seq 2 m) -> sumRn N (fun i => e b x i * U q i) = 0.
  Proof using.
    intros b x q Hb Hq. unfold e.
    rewrite (sum_ext N _ (fun i => U x i * U q i - sumR (seq 2 m) (fun p => b p * (U p i * U q i)))).
    2: { intros i _. rewrite (sumR_ext _ (fun p => b p * (U p i * U q i)) (fun p => b p * U p i * U q i)) by (intros; ring). rewrite sumR_scalr. ring. }
    rewrite sum_minus, <- U_gram. unfold sumRn at 1. rewrite sumR_swap.
    rewrite (sumR_ext _ _ (fun p => b p * pearsons p q)).
    - rewrite (Hb q Hq). ring.
    - intros p _. rewrite sumR_scal. rewrite U_gram. reflexivity.
  Qed.
  Lemma e_cov : forall b c x y, residual_cov pearsons (seq 2 m) x b y c = sumRn N (fun i => e b x i * e c y i).
  Proof using.
    intros b c x y. unfold residual_cov, e.
    rewrite (sum_ext N _ (fun i => U x i * U y i - sumR (seq 2 m) (fun p => b p * (U p i * U y i)) - sumR (seq 2 m) (fun q => c q * (U x i * U q i))
      + sumR (seq 2 m) (fun p => sumR (seq 2 m) (fun q => b p * c q * (U p i * U q i))))).
    - rewrite sum_plus, !sum_minus. rewrite <- U_gram. f_equal; [f_equal; [f_equal|]|].
      + unfold sumRn. rewrite sumR_swap. apply sumR_ext. intros p _. rewrite sumR_scal, U_gram. reflexivity.
      + unfold sumRn. rewrite sumR_swap. apply sumR_ext. intros p _. rewrite sumR_scal, U_gram. reflexivity.
      + symmetry. unfold sumRn. rewrite sumR_swap. apply sumR_ext. intros p _. rewrite sumR_swap. apply sumR_ext. intros q _. rewrite sumR_scal, U_gram. reflexivity.
    - intros i _.
      rewrite (sumR_ext _ (fun p => b p * (U p i * U y i)) (fun p => b p * U p i * U y i)) by (intros; ring). rewrite sumR_scalr.
      rewrite (sumR_ext _ (fun q => c q * (U x i * U q i)) (fun q => U x i * (c q * U q i))) by (intros; ring). rewrite sumR_scal.
      rewrite (sumR_ext _ (fun p => sumR (seq 2 m) (fun q => b p * c q * (U p i * U q i))) (fun p => b p * U p i * sumR (seq 2 m) (fun q => c q * U q i))).
      2: { intros p _. rewrite <- sumR_scal. apply sumR_ext. intros; ring. }
      rewrite sumR_scalr. ring.
  Qed.

  Lemma e_residual : forall b x, (x < k)%nat -> regression pearsons (seq 2 m) x b -> residual N Z (v x) (fun i => s x * e b x i).
  Proof using ND Hm.
    intros b x Hx Hb. split; [|split].
    - exists (average N (v x) - sumRn m (fun a => s x * b (2 + a)%nat / s (2 + a)%nat * average N (v (2 + a)%nat))), (fun a => s x * b (2 + a)%nat / s (2 + a)%nat).
      intros i Hi. unfold combination. rewrite Z_length.
      rewrite (sum_ext m (fun a => _ * nth a Z _ i) (fun a => s x * b (2 + a)%nat / s (2 + a)%nat * average N (v (2 + a)%nat) + s x * (b (2 + a)%nat * U (2 + a)%nat i))).
      + rewrite sum_plus, sum_scal. unfold e. rewrite sum_range. rewrite (v_U x i Hx). ring.
      + intros a Ha. rewrite Z_nth. rewrite (v_U (2 + a) i) at 1 by (rewrite Hm; lia).
        assert (0 < s (2 + a)) by (apply s_pos; lia). field. lra.
    - rewrite sum_scal, e_sum. ring.
    - intros z Hz. apply (In_nth _ _ (fun _ => 0)) in Hz. destruct Hz as [a [Ha <-]]. rewrite Z_length in Ha. rewrite Z_nth.
      rewrite (sum_ext N _ (fun i => s x * average N (v (2 + a)) * e b x i + s x * s (2 + a)%nat * (e b x i * U (2 + a)%nat i))).
      + rewrite sum_plus, !sum_scal, e_sum, e_orth; [ring|auto|]. apply in_seq. lia.
      + intros i Hi. rewrite (v_U (2 + a) i) by lia. ring.
  Qed.

  Lemma partial_pearson : forall r, partial_correlation pearsons (seq 2 m) 0 1 r ->
    (exists rx ry, residual N Z (v 0) rx /\ residual N Z (v 1) ry) /\
    forall rx ry, residual N Z (v 0) rx -> residual N Z (v 1) ry -> r = pearson N rx ry.
  Proof using ND Hm.
    intros r [b [c [Rb [Rc [P0 [P1 ->]]]]]].
    assert ((0 < k)%nat) as K0 by lia. assert ((1 < k)%nat) as K1 by lia.
    pose proof (e_residual b 0 K0 Rb) as Ex. pose proof (e_residual c 1 K1 Rc) as Ey.
    split; [eauto|]. intros rx ry Hx Hy.
    assert (forall f g f' g', sumRn N f = 0 -> sumRn N g = 0 -> (forall i, (i < N)%nat -> f i = f' i) -> (forall i, (i < N)%nat -> g i = g' i) ->
      comoment N f g = sumRn N (fun i => f' i * g' i)) as CM.
    { intros f g f' g' Sf Sg Ef Eg. unfold comoment. rewrite (average_zero N f Sf), (average_zero N g Sg). apply sum_ext.
      intros i Hi. rewrite (Ef i Hi), (Eg i Hi). ring. }
    pose proof (residual_unique _ _ _ _ _ Hx Ex) as Ux. pose proof (residual_unique _ _ _ _ _ Hy Ey) as Uy.
    pose proof (proj1 (proj2 Hx)) as Sx. pose proof (proj1 (proj2 Hy)) as Sy.
    unfold pearson. rewrite (CM rx ry _ _ Sx Sy Ux Uy), (CM rx rx _ _ Sx Sx Ux Ux), (CM ry ry _ _ Sy Sy Uy Uy).
    rewrite (sum_ext N (fun i => s 0%nat * e b 0 i * (s 1%nat * e c 1 i)) (fun i => s 0%nat * s 1%nat * (e b 0 i * e c 1 i))) by (intros; ring).
    rewrite (sum_ext N (fun i => s 0%nat * e b 0 i * (s 0%nat * e b 0 i)) (fun i => s 0%nat * s 0%nat * (e b 0 i * e b 0 i))) by (intros; ring).
    rewrite (sum_ext N (fun i => s 1%nat * e c 1 i * (s 1%nat * e c 1 i)) (fun i => s 1%nat * s 1%nat * (e c 1 i * e c 1 i))) by (intros; ring).
    rewrite !sum_scal, <- !e_cov.
    pose proof (s_pos 0 K0) as S0. pose proof (s_pos 1 K1) as S1.
    set (A := residual_cov pearsons (seq 2 m) 0 b 0 b) in *. set (B := residual_cov pearsons (seq 2 m) 1 c 1 c) in *. set (X := residual_cov pearsons (seq 2 m) 0 b 1 c).
    replace (s 0%nat * s 0%nat * A * (s 1%nat * s 1%nat * B)) with (Rsqr (s 0%nat * s 1%nat) * (A * B)) by (unfold Rsqr; ring).
    rewrite (sqrt_mult (Rsqr (s 0%nat * s 1%nat)) (A * B) (Rle_0_sqr _) (Rlt_le _ _ (Rmult_lt_0_compat _ _ P0 P1))).
    rewrite sqrt_Rsqr by (apply Rlt_le, Rmult_lt_0_compat; auto).
    assert (0 < sqrt (A * B)) by (apply sqrt_lt_R0, Rmult_lt_0_compat; auto). field. repeat split; lra.
  Qed.
End Columns.

(* ---------- the code ---------- *)
Section Code.
  Variable N d : nat.
  Variable D : rmat.
  Notation column := (SampleSpec.column D).

  Lemma np_cov_eq : forall a b, np_cov N D a b = comoment N (column a) (column b) * (1 / (INR N - 1)).
  Proof. intros a b. unfold np_cov, deviation, comoment, average, column. rewrite !rsumn_sumR. reflexivity. Qed.

  Lemma two_records : forall c, ~ flat N (column c) -> (2 <= N)%nat.
  Proof. intros c H. destruct (le_lt_dec 2 N); auto. exfalso. apply H. intros i j Hi Hj. f_equal. lia. Qed.

  Lemma no_variance_spec : forall c, no_variance N D c = true <-> flat N (column c).
  Proof.
    intro c. unfold no_variance. rewrite np_cov_eq. destruct (Req_EM_T _ 0) as [E|E]; split; try congruence.
    - intros _. destruct (le_lt_dec 2 N) as [L|L]; [|intros i j Hi Hj; f_equal; lia].
      apply comoment_zero. assert (0 < 1 / (INR N - 1)) as P.
      { apply Rdiv_lt_0_compat; [lra|]. apply le_INR in L. simpl in L. lra. }
      destruct (Rmult_integral _ _ E); lra.
    - intro F. exfalso. apply E. rewrite (proj2 (comoment_zero N (column c)) F). ring.
  Qed.

  (** Cauchy and Schwarz: the clipping of corrcoef changes nothing. *)
  Lemma cauchy : forall u v, Rsqr (comoment N u v) <= comoment N u u * comoment N v v.
  Proof.
    intros u v. set (A := comoment N u u). set (B := comoment N v v). set (X := comoment N u v).
    assert (forall t, 0 <= A - 2 * t * X + t * t * B) as P.
    { intro t. assert (A - 2 * t * X + t * t * B = sumRn N (fun i => Rsqr ((u i - average N u) - t * (v i - average N v)))) as ->.
      { unfold A, B, X, comoment. rewrite (sum_ext N (fun i => Rsqr _) (fun i => (u i - average N u) * (u i - average N u) - 2 * t * ((u i - average N u) * (v i - average N v)) + t * t * ((v i - average N v) * (v i - average N v)))) by (intros; unfold Rsqr; ring).
        rewrite sum_plus, sum_minus, !sum_scal. ring. }
      apply sum_nonneg. intros. apply Rle_0_sqr. }
    pose proof (comoment_nonneg N v) as HB. fold B in HB. destruct HB as [HB|HB].
    - specialize (P (X / B)). replace (A - 2 * (X / B) * X + X / B * (X / B) * B) with (A - Rsqr X / B) in P by (unfold Rsqr; field; lra).
      apply Rmult_le_reg_r with (/ B); [apply Rinv_0_lt_compat; auto|]. replace (A * B * / B) with A by (field; lra). unfold Rdiv in P. lra.
    - rewrite <- HB in P |- *. destruct (Req_dec X 0) as [->|NX]; [unfold Rsqr; lra|]. exfalso.
      specialize (P ((A + 1) / (2 * X))). replace (A - 2 * ((A + 1) / (2 * X)) * X + (A + 1) / (2 * X) * ((A + 1) / (2 * X)) * 0) with (-1) in P by (field; auto). lra.
  Qed.

  Lemma np_corrcoef_eq : forall a b, ~ flat N (column a) -> ~ flat N (column b) ->
    np_corrcoef N D a b = comoment N (column a) (column b) / sqrt (comoment N (column a) (column a)) / sqrt (comoment N (column b) (column b)).
  Proof.
    intros a b Fa Fb. unfold np_corrcoef. rewrite !np_cov_eq.
    pose proof (two_records a Fa) as L. apply le_INR in L. simpl in L.
    assert (forall c, ~ flat N (column c) -> 0 < comoment N (column c) (column c)) as Ps.
    { intros c F. destruct (comoment_nonneg N (column c)) as [|E]; auto. exfalso. apply F, comoment_zero. auto. }
    pose proof (Ps a Fa) as Pa. pose proof (Ps b Fb) as Pb.
    pose proof (cauchy (column a) (column b)) as CS.
    set (A := comoment N (column a) (column a)) in *. set (B := comoment N (column b) (column b)) in *. set (X := comoment N (column a) (column b)) in *.
    assert (0 < 1 / (INR N - 1)) as Pn by (apply Rdiv_lt_0_compat; lra). set (f := 1 / (INR N - 1)) in *.
    rewrite !sqrt_mult by lra. pose proof (sqrt_lt_R0 _ Pa) as Sa. pose proof (sqrt_lt_R0 _ Pb) as Sb. pose proof (sqrt_lt_R0 _ Pn) as Sf.
    assert (X * f / (sqrt A * sqrt f) / (sqrt B * sqrt f) = X / sqrt A / sqrt B) as ->.
    { rewrite <- (sqrt_sqrt f) at 1 by lra. field. lra. }
    assert (- 1 <= X / sqrt A / sqrt B <= 1) as [Lo Hi].
    { assert (Rsqr X <= Rsqr (sqrt A * sqrt B)) as Q.
      { rewrite Rsqr_mult, !Rsqr_sqrt by lra. auto. }
      assert (0 < sqrt A * sqrt B) as SS by (apply Rmult_lt_0_compat; auto).
      apply Rsqr_le_abs_0 in Q. rewrite (Rabs_pos_eq (sqrt A * sqrt B)) in Q by lra. pose proof (Rle_abs X) as Q1. pose proof (Rle_abs (- X)) as Q2. rewrite Rabs_Ropp in Q2.
      replace (X / sqrt A / sqrt B) with (X * / (sqrt A * sqrt B)) by (field; lra).
      assert (0 < / (sqrt A * sqrt B)) as IS by (apply Rinv_0_lt_compat; auto).
      split.
      - replace (-1) with (- (sqrt A * sqrt B) * / (sqrt A * sqrt B)) by (field; lra). apply Rmult_le_compat_r; lra.
      - apply Rle_trans with (sqrt A * sqrt B * / (sqrt A * sqrt B)); [apply Rmult_le_compat_r; lra|]. right. field. lra. }
    rewrite Rmin_right by lra. rewrite Rmax_right by lra. auto.
  Qed.

  Variable inv : nat -> rmat -> res rmat.
  Hypothesis inv_ok : forall k A, correlations k A -> exists B, inv k A = Ok B /\ inverse_of k A B.

  Lemma correlations_ext : forall k A B, (forall i j, (i < k)%nat -> (j < k)%nat -> A i j = B i j) -> correlations k A -> correlations k B.
  Proof.
    intros k A B E [Sy [Dg Ps]]. split; [|split].
    - intros i j Hi Hj. rewrite <- !E by auto. auto.
    - intros i Hi. rewrite <- E by auto. auto.
    - intros w Hw. specialize (Ps w Hw). rewrite (sum_ext k _ (fun i => sumRn k (fun j => w i * A i j * w j))); auto.
      intros i Hi. apply sum_ext. intros j Hj. rewrite E by auto. auto.
  Qed.
  Lemma inverse_ext : forall k A A' B, (forall i j, (i < k)%nat -> (j < k)%nat -> A i j = A' i j) -> inverse_of k A B -> inverse_of k A' B.
  Proof.
    intros k A A' B E I i j Hi Hj. destruct (I i j Hi Hj) as [I1 I2]. split.
    - rewrite <- I1. apply sum_ext. intros t Ht. rewrite E by auto. auto.
    - rewrite <- I2. apply sum_ext. intros t Ht. rewrite E by auto. auto.
  Qed.

  Lemma from_corr_value : forall cdf x y z, let Z := match z with None => [] | Some l => l end in let vs := map column (x :: y :: Z) in
    (forall i, In i (x :: y :: Z) -> (i < d)%nat) -> nondegenerate N vs ->
    exists r, fisherz_from_corr inv cdf d (np_corrcoef N D) N x y z = Ok (z_pvalue cdf N (length Z) r, r) /\ Rabs r < 1 /\
      (exists rx ry, residual N (map column Z) (column x) rx /\ residual N (map column Z) (column y) ry) /\
      forall rx ry, residual N (map column Z) (column x) rx -> residual N (map column Z) (column y) ry -> r = pearson N rx ry.
  Proof using inv_ok.
    intros cdf x y z Z vs L ND. set (var := x :: y :: Z) in *. set (k := length var). set (m := length Z).
    assert (length vs = k) as Lvs by (unfold vs; apply map_length). assert (k = (2 + m)%nat) as Hk by reflexivity.
    assert (forall a, (a < k)%nat -> nth a vs (fun _ => 0) = column (nth a var O)) as Nv.
    { intros a Ha. unfold vs. rewrite (nth_indep _ (fun _ => 0) (column O)) by (rewrite map_length; auto). apply map_nth. }
    assert (forall a, (a < k)%nat -> ~ flat N (column (nth a var O))) as NF.
    { intros a Ha F. apply comoment_zero in F. rewrite <- (Nv a Ha) in F. rewrite <- Lvs in Ha. pose proof (comoment_pos N vs ND a Ha). lra. }
    set (P := pearsons N vs). set (A := fun a b => np_corrcoef N D (nth a var O) (nth b var O)).
    assert (forall i j, (i < k)%nat -> (j < k)%nat -> P i j = A i j) as EA.
    { intros i j Hi Hj. unfold A. rewrite np_corrcoef_eq by auto. unfold P, pearsons. rewrite (Nv i Hi), (Nv j Hj). auto. }
    assert (correlations k P) as CP by (rewrite <- Lvs; apply pearsons_ok; auto).
    assert (seq 0 k = (0 :: 1 :: seq 2 m)%nat) as Sk by reflexivity.
    assert (ScoreFacts.good k (0 :: 1 :: seq 2 m)%nat) as G.
    { rewrite <- Sk. split; [apply seq_NoDup|]. intros i Hi. apply in_seq in Hi. lia. }
    destruct (partial_exists P k CP 0 1 (seq 2 m) G) as [r [Hr Br]].
    destruct (partial_pearson N vs ND m (eq_trans Lvs Hk) r Hr) as [Ex Un].
    rewrite (Nv 0%nat), (Nv 1%nat) in Ex, Un by (rewrite Hk; lia). change (skipn 2 vs) with (map column Z) in Ex, Un.
    change (nth 0 var O) with x in *. change (nth 1 var O) with y in *.
    exists r. split; [|auto].
    unfold fisherz_from_corr. fold Z. fold var. fold k. fold A.
    assert (forallb (fun i => Nat.ltb i d) var = true) as ->.
    { apply forallb_forall. intros i Hi. apply Nat.ltb_lt. auto. }
    cbn [negb]. destruct (inv_ok k A (correlations_ext k P A EA CP)) as [B [EB I]]. rewrite EB. unfold rbind.
    assert (inverse_of (length (0 :: 1 :: seq 2 m)%nat) (sub P (0 :: 1 :: seq 2 m)%nat) B) as I'.
    { rewrite <- Sk, seq_length. apply (inverse_ext k A); auto. intros i j Hi Hj. unfold sub. rewrite !seq_nth by auto. rewrite EA by auto. auto. }
    destruct Hr as [b [c [Sb [Sc [P1 [P2 ->]]]]]]. 
    assert (ScoreFacts.good k (seq 2 m)) as GZ. { split; [apply seq_NoDup|]. intros i Hi. apply in_seq in Hi. lia. }
    rewrite !(residual_rest P k CP) by (auto; lia).
    destruct (stat_value P k CP 0 1 (seq 2 m) b c B G Sb Sc I') as [-> _]. auto.
  Qed.
End Code.
