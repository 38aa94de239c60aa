(** Lemmas for the estimation of SHP. *)

From Coq Require Import List Arith Bool ZArith QArith Qcanon Reals Qreals Lra Lia.
From Verif Require Import Model.Py Model.Graph Model.LocalScore Model.SHPTable Model.SHPEM Spec.Scores Spec.HawkesSpec
  Proofs.PyFacts Proofs.BicFacts Proofs.PopulationFacts Proofs.EqualScales.
Import ListNotations.
Open Scope R_scope.

Lemma sum_le : forall n f g, (forall i, (i < n)%nat -> f i <= g i) -> sumRn n f <= sumRn n g.
Proof.
  intros n f g H. assert (0 <= sumRn n (fun i => g i - f i)) as K by (apply sum_nonneg; intros i Hi; specialize (H i Hi); lra). rewrite sum_minus in K. lra.
Qed.
Lemma sum_term : forall n f j, (forall i, (i < n)%nat -> 0 <= f i) -> (j < n)%nat -> f j <= sumRn n f.
Proof.
  intros n f j H Hj. rewrite <- (sum_delta n j f Hj). apply sum_le. intros i Hi. specialize (H i Hi). destruct (Nat.eqb j i); lra.
Qed.

(** a ln (a / b) >= a - b. *)
Lemma gibbs : forall a b, 0 <= a -> 0 < b -> a - b <= a * ln (a / b).
Proof.
  intros a b Ha Hb. destruct Ha as [Ha|<-]; [|lra]. assert (0 < b / a) as Q by (apply Rdiv_lt_0_compat; auto). destruct (ln_le (b / a) Q) as [L _].
  assert (ln (a / b) = - ln (b / a)) as -> by (unfold Rdiv; rewrite !ln_mult, !ln_Rinv; auto using Rinv_0_lt_compat; ring).
  assert (a * (b / a - 1) = b - a) as E by (field; lra). assert (a * ln (b / a) <= a * (b / a - 1)) by (apply Rmult_le_compat_l; lra). lra.
Qed.
(** Jensen's inequality for the logarithm. *)
Lemma jensen : forall n p0 y0 (p y : nat -> R), 0 < p0 -> 0 < y0 -> (forall j, (j < n)%nat -> 0 <= p j /\ 0 <= y j /\ (0 < p j -> 0 < y j)) ->
  p0 + sumRn n p = 1 -> p0 * ln y0 + sumRn n (fun j => p j * ln (y j)) <= ln (p0 * y0 + sumRn n (fun j => p j * y j)).
Proof.
  intros n p0 y0 p y P0 Y0 H E. set (m := p0 * y0 + sumRn n (fun j => p j * y j)).
  assert (0 < m) as M.
  { unfold m. assert (0 <= sumRn n (fun j => p j * y j)) by (apply sum_nonneg; intros j Hj; destruct (H j Hj) as [A [B _]]; apply Rmult_le_pos; auto). assert (0 < p0 * y0) by (apply Rmult_lt_0_compat; auto). lra. }
  assert (forall z, 0 < z -> ln z <= ln m + (z / m - 1)) as K.
  { intros z Z. assert (0 < z / m) as Q by (apply Rdiv_lt_0_compat; auto). destruct (ln_le (z / m) Q) as [L _]. unfold Rdiv in L at 1. rewrite ln_mult, ln_Rinv in L; auto using Rinv_0_lt_compat. lra. }
  assert (p0 * ln y0 <= p0 * (ln m - 1) + p0 * y0 * / m) as A0.
  { pose proof (Rmult_le_compat_l p0 _ _ (Rlt_le _ _ P0) (K y0 Y0)). unfold Rdiv in *. lra. }
  assert (sumRn n (fun j => p j * ln (y j)) <= sumRn n (fun j => p j * (ln m - 1) + p j * y j * / m)) as A1.
  { apply sum_le. intros j Hj. destruct (H j Hj) as [A [B C]]. destruct A as [A|<-]; [|lra]. pose proof (Rmult_le_compat_l (p j) _ _ (Rlt_le _ _ A) (K (y j) (C A))). unfold Rdiv in *. lra. }
  rewrite sum_plus, !sum_scalr in A1.
  assert (p0 * y0 * / m + sumRn n (fun j => p j * y j) * / m = 1) as A2 by (rewrite <- Rmult_plus_distr_r; fold m; apply Rinv_r; lra).
  assert (p0 * (ln m - 1) + sumRn n p * (ln m - 1) = ln m - 1) as A3 by (rewrite <- Rmult_plus_distr_r, E; ring). lra.
Qed.

Section EM.
  Variables (rows n : nat) (x : nat -> R) (S : nat -> nat -> R) (mass : nat -> R) (T : R).
  Hypothesis x0 : forall r, (r < rows)%nat -> 0 <= x r.
  Hypothesis S0 : forall r j, (r < rows)%nat -> (j < n)%nat -> 0 <= S r j.
  Hypothesis T0 : 0 < T.
  Hypothesis N0 : 0 < sumRn rows x.
  Variables (alpha : nat -> R) (mu : R).
  Hypothesis a0 : forall j, (j < n)%nat -> 0 <= alpha j.
  Hypothesis m0 : 0 < mu.
  Let lam := intensity n S alpha mu.
  Variables (alpha' : nat -> R) (mu' : R).
  Hypothesis Hm : mu' * T = sumRn rows (fun r => mu / lam r * x r).
  Hypothesis Ha : forall j, (j < n)%nat -> alpha' j * mass j = sumRn rows (fun r => alpha j * S r j / lam r * x r).
  Hypothesis Hz : forall j, (j < n)%nat -> alpha j = 0 -> alpha' j = 0.
  Hypothesis Hp : forall j, (j < n)%nat -> 0 < alpha j -> 0 < mass j.

  Lemma lam_ge : forall r, (r < rows)%nat -> mu <= lam r.
  Proof using a0 S0.
    intros r Hr. unfold lam, intensity. assert (0 <= sumRn n (fun j => alpha j * S r j)) by (apply sum_nonneg; intros j Hj; apply Rmult_le_pos; auto). lra.
  Qed.
  Lemma lam_pos : forall r, (r < rows)%nat -> 0 < lam r.
  Proof using a0 m0 S0. intros r Hr. pose proof (lam_ge r Hr). lra. Qed.
  Lemma shares : forall r, (r < rows)%nat -> mu / lam r + sumRn n (fun j => alpha j * S r j / lam r) = 1.
  Proof using a0 m0 S0.
    intros r Hr. pose proof (lam_pos r Hr) as L. unfold Rdiv. rewrite sum_scalr, <- Rmult_plus_distr_r. change (lam r * / lam r = 1). apply Rinv_r. lra.
  Qed.
  Lemma expected_is : expected n mass T alpha' mu' = sumRn rows x.
  Proof using a0 m0 S0 Hm Ha.
    unfold expected. rewrite Hm. rewrite (sum_ext n (fun j => alpha' j * mass j) (fun j => sumRn rows (fun r => alpha j * S r j / lam r * x r))) by auto.
    rewrite sum_swap, <- sum_plus. apply sum_ext. intros r Hr. rewrite sum_scalr, <- Rmult_plus_distr_r, shares by auto. ring.
  Qed.
  Lemma share_nonneg : forall r j, (r < rows)%nat -> (j < n)%nat -> 0 <= alpha j * S r j / lam r.
  Proof using a0 m0 S0. intros r j Hr Hj. apply Rmult_le_pos; [apply Rmult_le_pos; auto|left; apply Rinv_0_lt_compat, lam_pos; auto]. Qed.
  Lemma mu_next : 0 < mu'.
  Proof using a0 m0 S0 x0 T0 N0 Hm.
    assert (0 < mu' * T) as K.
    { rewrite Hm. destruct (Rle_lt_or_eq_dec 0 (sumRn rows (fun r => mu / lam r * x r))) as [|E]; auto.
      - apply sum_nonneg. intros r Hr. apply Rmult_le_pos; auto. left. apply Rdiv_lt_0_compat; auto. apply lam_pos. auto.
      - exfalso. symmetry in E. assert (sumRn rows x = 0) as Z; [|lra]. apply sum_zero. intros r Hr.
        pose proof (sum_nonneg_zero rows (fun r => mu / lam r * x r)) as Q. cbn beta in Q. specialize (Q (fun r Hr => Rmult_le_pos _ _ (Rlt_le _ _ (Rdiv_lt_0_compat _ _ m0 (lam_pos r Hr))) (x0 r Hr)) E r Hr).
        apply Rmult_integral in Q. destruct Q as [Q|]; auto. pose proof (Rdiv_lt_0_compat _ _ m0 (lam_pos r Hr)). lra. }
    destruct (Rlt_or_le 0 mu') as [|Q]; auto. exfalso. assert (mu' * T <= 0); [|lra]. assert (0 <= - mu' * T) by (apply Rmult_le_pos; lra). lra.
  Qed.
  Lemma alpha_next : forall j, (j < n)%nat -> 0 <= alpha' j.
  Proof using a0 m0 S0 x0 Ha Hz Hp.
    intros j Hj. destruct (a0 j Hj) as [P|Z]; [|rewrite (Hz j Hj (eq_sym Z)); lra]. pose proof (Hp j Hj P) as M.
    assert (0 <= alpha' j * mass j) as K by (rewrite Ha by auto; apply sum_nonneg; intros r Hr; apply Rmult_le_pos; auto; apply share_nonneg; auto).
    destruct (Rle_or_lt 0 (alpha' j)) as [|Q]; auto. exfalso. assert (0 < - alpha' j * mass j) by (apply Rmult_lt_0_compat; lra). lra.
  Qed.
  (** One round of the estimation does not lower the likelihood with these masses. *)
  Lemma ascent : loglik rows n x S mass T alpha mu <= loglik rows n x S mass T alpha' mu'.
  Proof using a0 m0 S0 x0 T0 N0 Hm Ha Hz Hp.
    pose proof mu_next as M'. pose proof alpha_next as A'. set (lam' := intensity n S alpha' mu').
    set (y := fun j => alpha' j / alpha j). set (y0 := mu' / mu).
    assert (forall j, (j < n)%nat -> alpha j * y j = alpha' j) as Y.
    { intros j Hj. unfold y. destruct (a0 j Hj) as [P|Z]; [field; lra|]. rewrite (Hz j Hj (eq_sym Z)), <- Z. ring. }
    assert (forall r, (r < rows)%nat -> 0 < lam' r) as L'.
    { intros r Hr. unfold lam', intensity. assert (0 <= sumRn n (fun j => alpha' j * S r j)) by (apply sum_nonneg; intros j Hj; apply Rmult_le_pos; auto). lra. }
    assert (forall r, (r < rows)%nat -> lam' r = lam r * (mu / lam r * y0 + sumRn n (fun j => alpha j * S r j / lam r * y j))) as R1.
    { intros r Hr. pose proof (lam_pos r Hr) as L. rewrite Rmult_plus_distr_l, <- sum_scal. unfold lam', intensity. f_equal; [unfold y0; field; lra|].
      apply sum_ext. intros j Hj. rewrite <- (Y j Hj). field. lra. }
    set (A := fun j => sumRn rows (fun r => alpha j * S r j / lam r * x r)).
    set (B := sumRn rows (fun r => mu / lam r * x r)).
    assert (B * ln y0 + sumRn n (fun j => A j * ln (y j)) <= sumRn rows (fun r => x r * ln (lam' r)) - sumRn rows (fun r => x r * ln (lam r))) as J.
    { rewrite <- sum_minus. unfold B. rewrite <- sum_scalr.
      assert (sumRn n (fun j => A j * ln (y j)) = sumRn rows (fun r => sumRn n (fun j => alpha j * S r j / lam r * x r * ln (y j)))) as ->.
      { rewrite sum_swap. apply sum_ext. intros j Hj. unfold A. rewrite <- sum_scalr. auto. }
      rewrite <- sum_plus. apply sum_le. intros r Hr. destruct (x0 r Hr) as [P|Z].
      - pose proof (lam_pos r Hr) as L.
        assert (mu / lam r * ln y0 + sumRn n (fun j => alpha j * S r j / lam r * ln (y j)) <= ln (lam' r) - ln (lam r)) as K.
        { assert (ln (lam' r) - ln (lam r) = ln (mu / lam r * y0 + sumRn n (fun j => alpha j * S r j / lam r * y j))) as ->.
          { pose proof (L' r Hr) as Lp. rewrite (R1 r Hr) in Lp |- *. rewrite ln_mult; auto; [ring|]. destruct (Rlt_or_le 0 (mu / lam r * y0 + sumRn n (fun j => alpha j * S r j / lam r * y j))) as [|Q]; auto.
            exfalso. assert (0 <= lam r * - (mu / lam r * y0 + sumRn n (fun j => alpha j * S r j / lam r * y j))) by (apply Rmult_le_pos; lra). lra. }
          apply (jensen n (mu / lam r) y0 (fun j => alpha j * S r j / lam r) y).
          - apply Rdiv_lt_0_compat; auto.
          - apply Rdiv_lt_0_compat; auto.
          - intros j Hj. split; [apply share_nonneg; auto|].
            assert (0 <= y j) as Yn.
            { unfold y. destruct (a0 j Hj) as [Pa|Za]; [apply Rmult_le_pos; auto; left; apply Rinv_0_lt_compat; auto|]. rewrite (Hz j Hj (eq_sym Za)). unfold Rdiv. lra. }
            split; auto. intro Q. assert (0 < alpha j) as Pa.
            { destruct (a0 j Hj) as [|Za]; auto. rewrite <- Za in Q. unfold Rdiv in Q. lra. }
            assert (0 < alpha' j * mass j) as K.
            { rewrite Ha by auto. eapply Rlt_le_trans; [|apply (sum_term rows (fun r => alpha j * S r j / lam r * x r) r); auto].
              - apply Rmult_lt_0_compat; auto.
              - intros i Hi. apply Rmult_le_pos; auto. apply share_nonneg; auto. }
            unfold y. apply Rdiv_lt_0_compat; auto. destruct (A' j Hj) as [|Z']; auto. rewrite <- Z' in K. lra.
          - apply shares. auto. }
        assert (mu / lam r * x r * ln y0 + sumRn n (fun j => alpha j * S r j / lam r * x r * ln (y j)) = x r * (mu / lam r * ln y0 + sumRn n (fun j => alpha j * S r j / lam r * ln (y j)))) as ->.
        { rewrite Rmult_plus_distr_l, <- sum_scal. f_equal; [ring|]. apply sum_ext. intros j Hj. ring. }
        rewrite <- Rmult_minus_distr_l. apply Rmult_le_compat_l; lra.
      - rewrite <- Z. rewrite sum_zero; [lra|]. intros j Hj. ring. }
    unfold loglik. fold lam lam'.
    assert (expected n mass T alpha' mu' - expected n mass T alpha mu <= B * ln y0 + sumRn n (fun j => A j * ln (y j))) as G; [|lra].
    unfold expected.
    assert (T * (mu' - mu) <= B * ln y0) as G0.
    { unfold B. rewrite <- Hm. pose proof (gibbs mu' mu (Rlt_le _ _ M') m0) as Q. unfold y0. assert (T * (mu' - mu) <= T * (mu' * ln (mu' / mu))) by (apply Rmult_le_compat_l; lra). lra. }
    assert (sumRn n (fun j => alpha' j * mass j) - sumRn n (fun j => alpha j * mass j) <= sumRn n (fun j => A j * ln (y j))) as G1; [|lra].
    rewrite <- sum_minus. apply sum_le. intros j Hj. unfold A. rewrite <- (Ha j Hj). unfold y. destruct (a0 j Hj) as [P|Z].
    - pose proof (gibbs (alpha' j) (alpha j) (A' j Hj) P) as Q. pose proof (Hp j Hj P) as M. assert (mass j * (alpha' j - alpha j) <= mass j * (alpha' j * ln (alpha' j / alpha j))) by (apply Rmult_le_compat_l; lra). lra.
    - rewrite (Hz j Hj (eq_sym Z)), <- Z. lra.
  Qed.
End EM.

(** Where a round changes nothing and all causes have an effect, the likelihood is at its maximum. *)
Lemma fixed_best : forall rows n x S mass T Pa alpha mu,
  (forall r, (r < rows)%nat -> 0 <= x r) -> (forall r j, (r < rows)%nat -> (j < n)%nat -> 0 <= S r j) ->
  (forall j, (j < n)%nat -> 0 <= alpha j) -> 0 < mu ->
  (forall j, In j Pa -> 0 < alpha j /\ mass j = sumRn rows (fun r => S r j / intensity n S alpha mu r * x r)) ->
  T = sumRn rows (fun r => x r / intensity n S alpha mu r) ->
  (forall j, (j < n)%nat -> ~ In j Pa -> alpha j = 0) ->
  forall beta nu, (forall j, (j < n)%nat -> 0 <= beta j) -> 0 < nu -> (forall j, (j < n)%nat -> ~ In j Pa -> beta j = 0) ->
  loglik rows n x S mass T beta nu <= loglik rows n x S mass T alpha mu.
Proof.
  intros rows n x S mass T Pa alpha mu X0 S0 A0 M0 F FT Z beta nu B0 V0 ZB. unfold loglik. set (lam := intensity n S alpha mu) in *. set (lb := intensity n S beta nu).
  assert (forall r, (r < rows)%nat -> 0 < lam r) as L.
  { intros r Hr. unfold lam, intensity. assert (0 <= sumRn n (fun j => alpha j * S r j)) by (apply sum_nonneg; intros j Hj; apply Rmult_le_pos; auto). lra. }
  assert (forall r, (r < rows)%nat -> 0 < lb r) as Lb.
  { intros r Hr. unfold lb, intensity. assert (0 <= sumRn n (fun j => beta j * S r j)) by (apply sum_nonneg; intros j Hj; apply Rmult_le_pos; auto). lra. }
  assert (sumRn rows (fun r => x r * ln (lb r)) - sumRn rows (fun r => x r * ln (lam r)) <= sumRn rows (fun r => x r / lam r * (lb r - lam r))) as K.
  { rewrite <- sum_minus. apply sum_le. intros r Hr. specialize (L r Hr). specialize (Lb r Hr). assert (0 < lb r / lam r) as Q by (apply Rdiv_lt_0_compat; auto). destruct (ln_le _ Q) as [W _].
    unfold Rdiv in W at 1. rewrite ln_mult, ln_Rinv in W; auto using Rinv_0_lt_compat. assert (x r * (ln (lb r) - ln (lam r)) <= x r * (lb r / lam r - 1)) by (apply Rmult_le_compat_l; auto; lra).
    replace (x r / lam r * (lb r - lam r)) with (x r * (lb r / lam r - 1)) by (field; lra). lra. }
  assert (sumRn rows (fun r => x r / lam r * (lb r - lam r)) = expected n mass T beta nu - expected n mass T alpha mu) as E; [|lra].
  unfold expected. replace (nu * T + sumRn n (fun j => beta j * mass j) - (mu * T + sumRn n (fun j => alpha j * mass j)))
    with ((nu - mu) * T + (sumRn n (fun j => beta j * mass j) - sumRn n (fun j => alpha j * mass j))) by ring.
  rewrite <- sum_minus, FT, <- sum_scal.
  assert (sumRn n (fun j => beta j * mass j - alpha j * mass j) = sumRn rows (fun r => sumRn n (fun j => (beta j - alpha j) * (S r j / lam r * x r)))) as ->.
  { rewrite sum_swap. apply sum_ext. intros j Hj. rewrite sum_scal. destruct (in_dec Nat.eq_dec j Pa) as [H|H]; [destruct (F j H) as [_ <-]; ring|]. rewrite (Z j Hj H), (ZB j Hj H). ring. }
  rewrite <- sum_plus. apply sum_ext. intros r Hr.
  assert (lb r - lam r = (nu - mu) + sumRn n (fun j => (beta j - alpha j) * S r j)) as ->.
  { unfold lb, lam, intensity. rewrite (sum_ext n (fun j => (beta j - alpha j) * S r j) (fun j => beta j * S r j - alpha j * S r j)) by (intros; ring). rewrite sum_minus. ring. }
  rewrite Rmult_plus_distr_l, <- sum_scal. f_equal; [field; specialize (L r Hr); lra|]. apply sum_ext. intros j Hj. field. specialize (L r Hr). lra.
Qed.

(* ---------- the model ---------- *)
Definition seen (d : em_data) (i r : nat) : R := e_X d r i.
(** What the code divides by in the update of a strength, and what the reported likelihood uses in its place. *)
Definition mass_used (d : em_data) (dt : R) (j : nat) : R := sumRn (e_rows d) (fun r => e_D d r j) * dt.
Definition mass_reported (d : em_data) (j : nat) : R := sumRn (e_rows d) (fun r => e_X d r j) / e_decay d.

Lemma lambda_is : forall d alpha mu r, lambda_for d alpha mu r = intensity (e_n d) (e_S d) alpha mu r.
Proof. intros. unfold lambda_for, intensity. rewrite rsumn_sumR, Rplus_comm. f_equal. apply sum_ext. intros. ring. Qed.
Lemma new_Li_is : forall d i alpha mu,
  new_Li d i alpha mu = loglik (e_rows d) (e_n d) (seen d i) (e_S d) (mass_reported d) (e_T d) alpha mu.
Proof.
  intros. unfold new_Li, loglik, expected. rewrite !rsumn_sumR. rewrite (sum_ext (e_rows d) (fun r => e_X d r i * ln (lambda_for d alpha mu r)) (fun r => seen d i r * ln (intensity (e_n d) (e_S d) alpha mu r)))
    by (intros; rewrite lambda_is; auto).
  rewrite (sum_ext (e_n d) _ (fun j => alpha j * mass_reported d j)); [ring|]. intros j Hj. rewrite rsumn_sumR, sum_scal. unfold mass_reported, Rdiv. ring.
Qed.
Lemma update_mu_is : forall d i alpha mu, e_T d <> 0 ->
  update_mu d i (lambda_for d alpha mu) mu * e_T d = sumRn (e_rows d) (fun r => mu / intensity (e_n d) (e_S d) alpha mu r * seen d i r).
Proof.
  intros d i alpha mu H. unfold update_mu. rewrite rsumn_sumR. unfold Rdiv at 1. rewrite Rmult_assoc, Rinv_l, Rmult_1_r by auto. apply sum_ext. intros r _. rewrite lambda_is. auto.
Qed.
Lemma update_alpha_is : forall d i dt lam Pa alpha, e_interval d = Some dt -> NoDup Pa ->
  exists alpha', update_alpha d i Pa lam alpha = Ok alpha'
    /\ (forall k, ~ In k Pa -> alpha' k = alpha k)
    /\ (forall j, In j Pa -> alpha' j = if Req_EM_T (mass_used d dt j) 0 then 0 else sumRn (e_rows d) (fun r => alpha j * e_S d r j / lam r * e_X d r i) / mass_used d dt j).
Proof.
  intros d i dt lam Pa alpha I. unfold update_alpha. rewrite I. revert alpha. induction Pa as [|j Pa IH]; intros alpha N; [exists alpha; repeat split; auto; intros j []|].
  inversion_clear N as [|? ? NI N']. cbn [fold_left rbind].
  destruct (IH (fun k => if Nat.eqb k j then (if Req_EM_T (rsumn (e_rows d) (fun r => e_D d r j) * dt) 0 then 0
      else rsumn (e_rows d) (fun r => alpha j * e_S d r j / lam r * e_X d r i) / (rsumn (e_rows d) (fun r => e_D d r j) * dt)) else alpha k) N') as [alpha' [E [K1 K2]]].
  exists alpha'. split; [exact E|]. split.
  - intros k Hk. rewrite K1 by (intro; apply Hk; simpl; auto). destruct (Nat.eqb_spec k j) as [->|]; auto. exfalso. apply Hk. simpl. auto.
  - intros k [<-|Hk].
    + rewrite (K1 j NI), Nat.eqb_refl. unfold mass_used. rewrite !rsumn_sumR. reflexivity.
    + rewrite (K2 k Hk). destruct (Nat.eqb_spec k j) as [->|]; [contradiction|]. reflexivity.
Qed.

Section Run.
  Variables (d : em_data) (i : nat) (Pa : list nat) (dt : R).
  Let rows := e_rows d.
  Let n := e_n d.
  Let used := mass_used d dt.
  Hypothesis X0 : forall r, (r < rows)%nat -> 0 <= e_X d r i.
  Hypothesis S0 : forall r j, (r < rows)%nat -> (j < n)%nat -> 0 <= e_S d r j.
  Hypothesis T0 : 0 < e_T d.
  Hypothesis N0 : 0 < sumRn rows (seen d i).
  Hypothesis I : e_interval d = Some dt.
  Hypothesis ND : NoDup Pa.
  Hypothesis PN : forall j, In j Pa -> (j < n)%nat /\ 0 < used j.

  Definition fit_state (alpha : nat -> R) (mu : R) : Prop :=
    (forall j, (j < n)%nat -> 0 <= alpha j) /\ (forall j, ~ In j Pa -> alpha j = 0) /\ 0 < mu.

  Lemma round : forall alpha mu, fit_state alpha mu ->
    exists alpha', update_alpha d i Pa (lambda_for d alpha mu) alpha = Ok alpha'
      /\ let mu' := update_mu d i (lambda_for d alpha mu) mu in
         fit_state alpha' mu' /\ expected n used (e_T d) alpha' mu' = sumRn rows (seen d i)
         /\ loglik rows n (seen d i) (e_S d) used (e_T d) alpha mu <= loglik rows n (seen d i) (e_S d) used (e_T d) alpha' mu'
         /\ (forall j, In j Pa -> alpha' j = sumRn rows (fun r => alpha j * e_S d r j / intensity n (e_S d) alpha mu r * e_X d r i) / used j).
  Proof using X0 S0 T0 N0 I ND PN.
    intros alpha mu [A0 [AZ M0]]. destruct (update_alpha_is d i dt (lambda_for d alpha mu) Pa alpha I ND) as [alpha' [E [K1 K2]]]. exists alpha'. split; auto. cbn zeta.
    assert (e_T d <> 0) as TN by lra. pose proof (update_mu_is d i alpha mu TN) as EM. set (mu' := update_mu d i (lambda_for d alpha mu) mu) in *.
    assert (forall j, In j Pa -> alpha' j = sumRn rows (fun r => alpha j * e_S d r j / intensity n (e_S d) alpha mu r * e_X d r i) / used j) as KA.
    { intros j Hj. rewrite (K2 j Hj). destruct (PN j Hj) as [Hn Hu]. unfold used in Hu. destruct (Req_EM_T (mass_used d dt j) 0); [lra|]. fold rows used. f_equal.
      apply sum_ext. intros r _. rewrite lambda_is. auto. }
    assert (forall j, (j < n)%nat -> alpha' j * used j = sumRn rows (fun r => alpha j * e_S d r j / intensity n (e_S d) alpha mu r * seen d i r)) as HA.
    { intros j Hj. destruct (in_dec Nat.eq_dec j Pa) as [H|H].
      - rewrite (KA j H). destruct (PN j H) as [_ Hu]. unfold seen. field. lra.
      - rewrite (K1 j H), (AZ j H). rewrite sum_zero; [ring|]. intros r _. unfold Rdiv. ring. }
    assert (forall j, (j < n)%nat -> alpha j = 0 -> alpha' j = 0) as HZ.
    { intros j Hj Z. destruct (in_dec Nat.eq_dec j Pa) as [H|H]; [|rewrite (K1 j H); auto]. rewrite (KA j H). rewrite sum_zero; [unfold Rdiv; ring|]. intros r _. rewrite Z. unfold Rdiv. ring. }
    assert (forall j, (j < n)%nat -> 0 < alpha j -> 0 < used j) as HP.
    { intros j Hj P. destruct (in_dec Nat.eq_dec j Pa) as [H|H]; [apply PN; auto|]. rewrite (AZ j H) in P. lra. }
    split; [split; [|split]|split; [|split; auto]].
    - apply (alpha_next rows n (seen d i) (e_S d) used X0 S0 alpha mu A0 M0 alpha' HA HZ HP).
    - intros j H. rewrite (K1 j H). auto.
    - apply (mu_next rows n (seen d i) (e_S d) (e_T d) X0 S0 T0 N0 alpha mu A0 M0 mu' EM).
    - apply (expected_is rows n (seen d i) (e_S d) used (e_T d) S0 alpha mu A0 M0 alpha' mu' EM HA).
    - apply (ascent rows n (seen d i) (e_S d) used (e_T d) X0 S0 T0 N0 alpha mu A0 M0 alpha' mu' EM HA HZ HP).
  Qed.

  Lemma loop_run : forall fuel Li alpha mu L alpha' mu', fit_state alpha mu -> em_loop fuel d i Pa Li alpha mu = Ok (L, alpha', mu') ->
    fit_state alpha' mu' /\ L = loglik rows n (seen d i) (e_S d) (mass_reported d) (e_T d) alpha' mu'
    /\ loglik rows n (seen d i) (e_S d) used (e_T d) alpha mu <= loglik rows n (seen d i) (e_S d) used (e_T d) alpha' mu'
    /\ (Li = None \/ expected n used (e_T d) alpha mu = sumRn rows (seen d i) -> expected n used (e_T d) alpha' mu' = sumRn rows (seen d i)).
  Proof using X0 S0 T0 N0 I ND PN.
    induction fuel as [|fuel IH]; intros Li alpha mu L alpha' mu' St H; [discriminate|]. cbn [em_loop] in H.
    destruct (match Li with None => false | Some l => if Rlt_dec (new_Li d i alpha mu - l) (85 / 10000) then true else false end) eqn:B.
    - inversion H; subst. split; auto. split; [apply new_Li_is|]. split; [lra|]. intros [->|]; auto. discriminate.
    - destruct (round alpha mu St) as [a1 [E [St1 [Ex [As _]]]]]. rewrite E in H. cbn [rbind] in H. destruct (IH _ _ _ _ _ _ St1 H) as [R1 [R2 [R3 R4]]].
      split; auto. split; auto. split; [lra|]. intros _. apply R4. auto.
  Qed.
End Run.

(** The type without causes. *)
Lemma loop_root : forall d i alpha fuel, (forall j, (j < e_n d)%nat -> alpha j = 0) -> 0 < e_T d -> (3 <= fuel)%nat ->
  0 < sumRn (e_rows d) (seen d i) ->
  em_loop fuel d i [] None alpha 1
  = Ok (sumRn (e_rows d) (seen d i) * ln (sumRn (e_rows d) (seen d i) / e_T d) - sumRn (e_rows d) (seen d i), alpha, sumRn (e_rows d) (seen d i) / e_T d).
Proof.
  intros d i alpha fuel Z T0 Hf N0. set (N := sumRn (e_rows d) (seen d i)) in *.
  assert (forall mu r, lambda_for d alpha mu r = mu) as LM.
  { intros mu r. rewrite lambda_is. unfold intensity. rewrite sum_zero; [ring|]. intros j Hj. rewrite Z; auto. ring. }
  assert (forall mu, 0 < mu -> new_Li d i alpha mu = N * ln mu - mu * e_T d) as LI.
  { intros mu M. rewrite new_Li_is. unfold loglik, expected. rewrite (sum_zero (e_n d)) by (intros j Hj; rewrite Z; auto; ring).
    rewrite (sum_ext _ _ (fun r => seen d i r * ln mu)) by (intros r _; rewrite <- lambda_is, LM; auto). rewrite sum_scalr. fold N. ring. }
  assert (forall mu, 0 < mu -> update_mu d i (lambda_for d alpha mu) mu = N / e_T d) as UM.
  { intros mu M. unfold update_mu. rewrite rsumn_sumR. f_equal. apply sum_ext. intros r _. rewrite LM. unfold seen. field. lra. }
  assert (0 < N / e_T d) as P by (apply Rdiv_lt_0_compat; auto).
  assert (N / e_T d * e_T d = N) as E by (field; lra).
  destruct fuel as [|[|[|fuel]]]; try lia.
  remember (S fuel) as f1. cbn [em_loop update_alpha fold_left rbind]. rewrite (UM 1) by lra. subst f1.
  rewrite (LI (N / e_T d) P), E. destruct (Rlt_dec (N * ln (N / e_T d) - N - new_Li d i alpha 1) (85 / 10000)); [reflexivity|].
  cbn [em_loop]. rewrite (UM (N / e_T d) P), (LI (N / e_T d) P), E. destruct (Rlt_dec (N * ln (N / e_T d) - N - (N * ln (N / e_T d) - N)) (85 / 10000)) as [|Q]; [reflexivity|exfalso; apply Q; lra].
Qed.

(** The likelihood is bounded. *)
Lemma loglik_bounded : forall rows n x S mass T, (forall r, (r < rows)%nat -> 0 <= x r) -> 0 < sumRn rows x ->
  (forall r j, (r < rows)%nat -> (j < n)%nat -> 0 <= S r j) -> (forall j, (j < n)%nat -> 0 < mass j) -> 0 < T ->
  exists B, forall alpha mu, (forall j, (j < n)%nat -> 0 <= alpha j) -> 0 < mu -> loglik rows n x S mass T alpha mu <= B.
Proof.
  intros rows n x S mass T X0 N0 S0 M0 T0. set (C := / T + sumRn rows (fun r => sumRn n (fun j => S r j / mass j))). set (N := sumRn rows x) in *.
  assert (0 < / T) as TI by (apply Rinv_0_lt_compat; auto).
  assert (forall r j, (r < rows)%nat -> (j < n)%nat -> 0 <= S r j / mass j) as Q0.
  { intros r j Hr Hj. apply Rmult_le_pos; auto. left. apply Rinv_0_lt_compat. auto. }
  assert (0 <= sumRn rows (fun r => sumRn n (fun j => S r j / mass j))) as Q1 by (apply sum_nonneg; intros; apply sum_nonneg; intros; auto).
  assert (0 < C) as CP by (unfold C; lra).
  assert (forall r j, (r < rows)%nat -> (j < n)%nat -> S r j <= C * mass j) as CS.
  { intros r j Hr Hj. specialize (M0 j Hj). assert (S r j / mass j <= C) as L.
    { pose proof (sum_term n (fun j => S r j / mass j) j (fun j' H => Q0 r j' Hr H) Hj) as L1. cbn beta in L1.
      pose proof (sum_term rows (fun r => sumRn n (fun j => S r j / mass j)) r) as L2. cbn beta in L2. assert (sumRn n (fun j => S r j / mass j) <= sumRn rows (fun r => sumRn n (fun j => S r j / mass j))) as L3.
      { apply L2; auto. intros; apply sum_nonneg; intros; auto. } unfold C. lra. }
    replace (S r j) with (S r j / mass j * mass j) by (field; lra). apply Rmult_le_compat_r; lra. }
  assert (1 <= C * T) as CT by (unfold C; rewrite Rmult_plus_distr_r, Rinv_l by lra; assert (0 <= sumRn rows (fun r => sumRn n (fun j => S r j / mass j)) * T) by (apply Rmult_le_pos; lra); lra).
  exists (N * ln (C * N) - N). intros alpha mu A0 M1. unfold loglik. set (E := expected n mass T alpha mu).
  assert (0 <= sumRn n (fun j => alpha j * mass j)) as E1 by (apply sum_nonneg; intros j Hj; apply Rmult_le_pos; auto; left; auto).
  assert (0 < mu * T) as E2 by (apply Rmult_lt_0_compat; auto). assert (0 < E) as EP by (unfold E, expected; lra).
  assert (forall r, (r < rows)%nat -> 0 < intensity n S alpha mu r <= C * E) as LAM.
  { intros r Hr. unfold intensity. assert (0 <= sumRn n (fun j => alpha j * S r j)) by (apply sum_nonneg; intros j Hj; apply Rmult_le_pos; auto). split; [lra|].
    unfold E, expected. rewrite Rmult_plus_distr_l, <- sum_scal. apply Rplus_le_compat.
    - replace (C * (mu * T)) with (mu * (C * T)) by ring. rewrite <- (Rmult_1_r mu) at 1. apply Rmult_le_compat_l; lra.
    - apply sum_le. intros j Hj. replace (C * (alpha j * mass j)) with (alpha j * (C * mass j)) by ring. apply Rmult_le_compat_l; auto. }
  assert (sumRn rows (fun r => x r * ln (intensity n S alpha mu r)) <= N * ln (C * E)) as L1.
  { unfold N. rewrite <- sum_scalr. apply sum_le. intros r Hr. apply Rmult_le_compat_l; auto. destruct (LAM r Hr) as [P [Q|Q]]; [left; apply ln_increasing; auto|rewrite Q; right; auto]. }
  pose proof (gibbs N E (Rlt_le _ _ N0) EP) as G. unfold Rdiv in G. rewrite ln_mult, ln_Rinv in G; auto using Rinv_0_lt_compat.
  rewrite !ln_mult in *; auto. lra.
Qed.

Section Ends.
  Variables (d : em_data) (i : nat) (Pa : list nat) (dt : R).
  Hypothesis X0 : forall r, (r < e_rows d)%nat -> 0 <= e_X d r i.
  Hypothesis S0 : forall r j, (r < e_rows d)%nat -> (j < e_n d)%nat -> 0 <= e_S d r j.
  Hypothesis T0 : 0 < e_T d.
  Hypothesis N0 : 0 < sumRn (e_rows d) (seen d i).
  Hypothesis I : e_interval d = Some dt.
  Hypothesis ND : NoDup Pa.
  Hypothesis PN : forall j, In j Pa -> (j < e_n d)%nat /\ 0 < mass_used d dt j.
  Hypothesis MR : forall j, (j < e_n d)%nat -> 0 < mass_reported d j.

  Lemma loop_ends : forall alpha mu, fit_state d Pa alpha mu -> exists fuel0, forall fuel, (fuel0 <= fuel)%nat -> exists r, em_loop fuel d i Pa None alpha mu = Ok r.
  Proof using X0 S0 T0 N0 I ND PN MR.
    intros alpha mu St. destruct (loglik_bounded (e_rows d) (e_n d) (seen d i) (e_S d) (mass_reported d) (e_T d) X0 N0 S0 MR T0) as [B HB].
    assert (forall a m, fit_state d Pa a m -> new_Li d i a m <= B) as LB by (intros a m [A0 [_ M0]]; rewrite new_Li_is; apply HB; auto).
    assert (forall k fuel a m l, fit_state d Pa a m -> (k < fuel)%nat -> B - l <= INR k * (85 / 10000) -> exists r, em_loop fuel d i Pa (Some l) a m = Ok r) as LP.
    { induction k as [|k IH]; intros fuel a m l F Hf H; (destruct fuel as [|fuel]; [lia|]); cbn [em_loop]; destruct (Rlt_dec (new_Li d i a m - l) (85 / 10000)) as [|Q]; eauto.
      - exfalso. apply Q. specialize (LB a m F). cbn [INR] in H. lra.
      - destruct (round d i Pa dt X0 S0 T0 N0 I ND PN a m F) as [a' [E [F' _]]]. rewrite E. cbn [rbind]. apply IH; auto; [lia|]. rewrite S_INR in H. lra. }
    destruct (round d i Pa dt X0 S0 T0 N0 I ND PN alpha mu St) as [a' [E [F' _]]].
    destruct (archimed ((B - new_Li d i alpha mu) / (85 / 10000))) as [AR _]. set (k := Z.to_nat (up ((B - new_Li d i alpha mu) / (85 / 10000)))).
    assert ((B - new_Li d i alpha mu) / (85 / 10000) <= INR k) as K.
    { destruct (Z_lt_le_dec (up ((B - new_Li d i alpha mu) / (85 / 10000))) 0) as [L|L].
      - apply IZR_lt in L. pose proof (pos_INR k). lra.
      - unfold k. rewrite INR_IZR_INZ, Z2Nat.id by auto. lra. }
    exists (S (S k)). intros fuel Hf. destruct fuel as [|fuel]; [lia|]. cbn [em_loop]. rewrite E. cbn [rbind]. apply (LP k); auto; [lia|].
    apply (Rmult_le_compat_r (85 / 10000)) in K; [|lra]. unfold Rdiv at 1 in K. rewrite Rmult_assoc, Rinv_l in K by lra. lra.
  Qed.
End Ends.
