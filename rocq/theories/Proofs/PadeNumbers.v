(** The numbers of the Pade approximants, computed with integers. *)

From Coq Require Import List Arith Lia Bool ZArith QArith Qreals Reals Lra Setoid Morphisms.
From Verif Require Import Model.Py Model.LocalScore Model.KCI Model.Expm Spec.Scores Spec.ExpmSpec Proofs.BicFacts Proofs.PopulationFacts Proofs.KCIFacts Proofs.GaussianFacts Proofs.ExpmFacts Proofs.TaylorFacts Proofs.MajorFacts Proofs.ExpFacts Proofs.ExpAccuracyFacts Proofs.SeriesFacts Proofs.PadeFacts.
Import ListNotations.
Open Scope R_scope.

Fixpoint Fz (b : list Z) (k : Z) : Z := match b with [] => 0 | c :: r => c - 2 * k * Fz r (k - 1) end%Z.
Lemma Fz_sum : forall b k, sum_f_R0 (fun i => (-1) ^ i * bz b i * half (k - i)) k * (INR (fact k) * 2 ^ k) = IZR (Fz b (Z.of_nat k)).
Proof.
  induction b as [|c b IH]; intro k.
  - cbn [Fz]. rewrite <- rsumn_sum_f, rs_zero; [ring|]. intros i _. unfold bz. destruct i; simpl; ring.
  - cbn [Fz]. rewrite minus_IZR, !mult_IZR. destruct k as [|k].
    + simpl. unfold half, bz. simpl. field.
    + rewrite decomp_sum by lia. cbn [Nat.pred]. rewrite Rmult_plus_distr_r. replace (Z.of_nat (S k) - 1)%Z with (Z.of_nat k) by lia. rewrite <- IH. unfold Rminus. f_equal.
      * unfold bz, half. cbn [nth]. rewrite Nat.sub_0_r. pose proof (INR_fact_neq_0 (S k)). rewrite pow_O, pow_inv. field. split; auto. apply pow_nonzero. lra.
      * rewrite fact_simpl, mult_INR, <- INR_IZR_INZ.
        match goal with |- sum_f_R0 ?f k * ?c = _ => rewrite (Rmult_comm (sum_f_R0 f k) c) end. rewrite scal_sum.
        replace (- (2 * INR (S k) * (sum_f_R0 (fun i => (-1) ^ i * bz b i * half (k - i)) k * (INR (fact k) * 2 ^ k)))) with ((- (2 * INR (S k) * (INR (fact k) * 2 ^ k))) * sum_f_R0 (fun i => (-1) ^ i * bz b i * half (k - i)) k) by ring.
        rewrite scal_sum. apply sum_eq. intros i Hi. cbn [Nat.sub pow]. unfold bz. cbn [nth]. ring.
Qed.
Lemma Fz_phi : forall b k, small_coefs b -> phi b k * (INR (fact k) * 2 ^ k * b0 b) = IZR (Fz b (Z.of_nat k)).
Proof.
  intros b k [H _]. rewrite <- Fz_sum. unfold phi, conv. assert (b0 b <> 0) as N by (unfold b0, bz; apply not_0_IZR; lia).
  rewrite (sum_eq _ (fun i => ((-1) ^ i * bz b i * half (k - i)) * / b0 b) k) by (intros i Hi; unfold qcoef, pcoef; field; auto). rewrite <- scal_sum. field. auto.
Qed.

(** The sums up to K, over the common denominator K! (2 d)^K b_0, for t = a / d. *)
Fixpoint horner (b : list Z) (a d : Z) (K : nat) : Z * Z * Z :=
  match K with
  | O => (Z.abs (Fz b 0), 0, 1)
  | S K' => let '(N, N', p) := horner b a d K' in
      let k := Z.of_nat K in let p' := p * a in let f := Z.abs (Fz b k) * p' in
      (N * (k * 2 * d) + f, N' * (k * 2 * d) + (if Z.odd k then 2 * f else 0), p')
  end%Z.
Definition denom (b : list Z) (d : Z) (K : nat) : Z := (zfact K * (2 * d) ^ Z.of_nat K * nth 0 b 0)%Z.
Lemma sign_parity : forall k, (-1) ^ k = if Z.odd (Z.of_nat k) then -1 else 1.
Proof.
  induction k as [|k IH]; [auto|]. rewrite <- tech_pow_Rmult, IH. rewrite Nat2Z.inj_succ, Z.odd_succ, <- Z.negb_odd. destruct (Z.odd (Z.of_nat k)); simpl; ring.
Qed.
Lemma omega_phi : forall b k, omega b k = if Z.odd (Z.of_nat k) then - 2 * phi b k else 0.
Proof. intros b k. unfold omega. rewrite psi_phi, sign_parity. destruct (Z.odd (Z.of_nat k)); ring. Qed.
Lemma denom_R : forall b d K, IZR (denom b d K) = INR (fact K) * (2 * IZR d) ^ K * b0 b.
Proof. intros. unfold denom. rewrite !mult_IZR, zfact_fact, <- INR_IZR_INZ, <- pow_IZR, mult_IZR. auto. Qed.
Lemma wsum_S : forall t a K, wsum t a (S K) = wsum t a K + Rabs (a (S K)) * t ^ S K.
Proof. intros. rewrite !wsum_sum, tech5. auto. Qed.
Lemma horner_ok : forall b a d K N N' p, small_coefs b -> (0 <= a)%Z -> (0 < d)%Z -> horner b a d K = (N, N', p) ->
  IZR N = wsum (IZR a / IZR d) (phi b) K * IZR (denom b d K) /\ IZR N' = wsum (IZR a / IZR d) (omega b) K * IZR (denom b d K) /\ IZR p = IZR a ^ K.
Proof.
  intros b a d K. induction K as [|K IH]; intros N N' p SC Ha Hd H.
  - injection H as <- <- <-. rewrite denom_R, !wsum_sum. simpl sum_f_R0. rewrite abs_IZR. rewrite (omega_phi b 0). change (Z.odd (Z.of_nat 0)) with false. cbv iota. rewrite Rabs_R0.
    pose proof (Fz_phi b 0 SC) as F. simpl in F. rewrite <- F. assert (0 < b0 b) as P by (destruct SC as [Q _]; unfold b0, bz; apply (IZR_lt 0); auto). rewrite Rabs_mult. rewrite (Rabs_pos_eq (1 * 1 * b0 b)) by lra. simpl. split; [ring|]. split; ring.
  - cbn [horner] in H. destruct (horner b a d K) as [[N0 N0'] p0]. destruct (IH N0 N0' p0 SC Ha Hd eq_refl) as (E1 & E2 & E3). remember (Z.of_nat (S K)) as k eqn:Ek.
    pose proof (f_equal (fun x => fst (fst x)) H) as Q1. pose proof (f_equal (fun x => snd (fst x)) H) as Q2. pose proof (f_equal snd H) as Q3. cbn [fst snd] in Q1, Q2, Q3. clear H. subst N N' p.
    assert (0 < b0 b) as P by (destruct SC as [Q _]; unfold b0, bz; apply (IZR_lt 0); auto). assert (0 < IZR d) as Pd by (apply (IZR_lt 0); auto). assert (0 <= IZR a) as Pa by (apply (IZR_le 0); auto).
    assert (IZR (denom b d (S K)) = IZR (denom b d K) * (IZR k * 2 * IZR d)) as ED by (rewrite !denom_R, fact_simpl, mult_INR, INR_IZR_INZ, <- Ek; simpl; ring).
    assert (IZR (Z.abs (Fz b k) * (p0 * a)) = Rabs (phi b (S K)) * (IZR a / IZR d) ^ S K * IZR (denom b d (S K))) as EF.
    { rewrite !mult_IZR, E3, abs_IZR. rewrite Ek. rewrite <- (Fz_phi b (S K) SC). rewrite Rabs_mult. rewrite (Rabs_pos_eq (INR (fact (S K)) * 2 ^ S K * b0 b)).
      2:{ apply Rmult_le_pos; [|lra]. apply Rmult_le_pos; [left; apply INR_fact_lt_0|apply pow_le; lra]. }
      rewrite denom_R. unfold Rdiv. rewrite !Rpow_mult_distr, pow_inv. replace (IZR a ^ K * IZR a) with (IZR a ^ S K) by (simpl; ring). field. apply pow_nonzero. lra. }
    split; [|split].
    + rewrite plus_IZR, EF, !mult_IZR, E1. rewrite wsum_S. rewrite ED. ring.
    + rewrite plus_IZR. rewrite wsum_S. rewrite (omega_phi b (S K)). rewrite <- Ek. rewrite (mult_IZR N0'), !(mult_IZR (k * 2)), (mult_IZR k), E2. destruct (Z.odd k).
      * rewrite (mult_IZR 2 (Z.abs (Fz b k) * (p0 * a))), EF, ED. rewrite Rabs_mult, (Rabs_left (-2)) by lra. ring.
      * rewrite Rabs_R0, ED. ring.
    + rewrite mult_IZR, E3. simpl. ring.
Qed.

Definition check (b : list Z) (m : nat) (a d : Z) (K : nat) (j Dn Dd un ud : Z) : bool :=
  (let '(N, N', p) := horner b a d K in
  let X := denom b d K in
  let w := 10 ^ 30 in
  (0 <? nth 0 b 0) && forallb (fun k => (0 <=? nth k b 0) && (nth k b 0 * 2 ^ Z.of_nat k * zfact k <=? nth 0 b 0)) (seq 0 (length b)) &&
  forallb (fun k => Fz b (2 * Z.of_nat k + 1) =? 0) (seq 0 m) &&
  (0 <? a) && (0 <? d) && (0 <=? j) && (a <=? j * d) && (0 <=? Dn) && (Dn <? Dd) && (0 <? ud) &&
  (a ^ Z.of_nat (S K) * 3 ^ j * w <=? zfact (S K) * d ^ Z.of_nat (S K)) &&
  (N * w * Dd + X * Dd <=? X * w * (Dd + Dn)) &&
  ((N' * w + 2 * X) * ud * d * Dd <=? X * w * un * a * (Dd - Dn)))%Z%bool.

Lemma exp_three : forall j : nat, exp (INR j) <= 3 ^ j.
Proof. induction j as [|j IH]; [simpl; rewrite exp_0; lra|]. rewrite S_INR, exp_plus. simpl. pose proof exp_le_3. pose proof (exp_pos (INR j)). pose proof (exp_pos 1). rewrite Rmult_comm. apply Rmult_le_compat; lra. Qed.
Lemma exp_mono : forall x y, x <= y -> exp x <= exp y.
Proof. intros x y H. destruct (Rle_lt_or_eq_dec _ _ H) as [L|L]; [left; apply exp_increasing; auto|rewrite L; lra]. Qed.
Lemma wsum_tail : forall t (f : nat -> R) c K0 K, 0 <= t -> 0 <= c -> (forall k, Rabs (f k) <= c * / INR (fact k)) -> wsum t f K <= wsum t f K0 + c * (t ^ S K0 / INR (fact (S K0)) * exp t).
Proof.
  intros t f c K0 K Ht Hc H. assert (0 <= t ^ S K0 / INR (fact (S K0))) as P by (apply Rmult_le_pos; [apply pow_le; auto|left; apply inv_fact_pos]). pose proof (exp_pos t) as Pe.
  destruct (Nat.le_ge_cases K K0) as [L|L].
  - pose proof (wsum_mono t f K K0 Ht L). assert (0 <= c * (t ^ S K0 / INR (fact (S K0)) * exp t)) by (apply Rmult_le_pos; auto; apply Rmult_le_pos; lra). lra.
  - destruct (Nat.le_exists_sub K0 K L) as (j & -> & _). rewrite (Nat.add_comm j K0).
    assert (wsum t f (K0 + j) - wsum t f K0 <= c * (T (K0 + j) t - T K0 t)) as G.
    { clear -Ht H. induction j as [|j IH]; [rewrite Nat.add_0_r; lra|]. rewrite Nat.add_succ_r. rewrite wsum_S. unfold T at 1. rewrite tech5. fold (T (K0 + j) t).
      assert (Rabs (f (S (K0 + j))) * t ^ S (K0 + j) <= c * (/ INR (fact (S (K0 + j))) * t ^ S (K0 + j))) by (rewrite <- Rmult_assoc; apply Rmult_le_compat_r; [apply pow_le; auto|apply H]). lra. }
    pose proof (T_tail t K0 j Ht) as TT. assert (T (K0 + j) t - T K0 t <= t ^ S K0 / INR (fact (S K0)) * exp t) by (eapply Rle_trans; [exact TT|]; apply Rmult_le_compat_l; auto; apply T_exp; auto).
    assert (c * (T (K0 + j) t - T K0 t) <= c * (t ^ S K0 / INR (fact (S K0)) * exp t)) by (apply Rmult_le_compat_l; auto). lra.
Qed.
Lemma check_numbers : forall b m a d K j Dn Dd un ud, check b m a d K j Dn Dd un ud = true -> numbers b m (IZR a / IZR d) (IZR Dn / IZR Dd) (IZR un / IZR ud).
Proof.
  intros b m a d K j Dn Dd un ud H. unfold check in H. destruct (horner b a d K) as [[N N'] p] eqn:EH. cbv zeta in H. rewrite !andb_true_iff in H.
  destruct H as ((((((((((((H0 & H1) & H2) & Ha) & Hd) & Hj) & Haj) & HDn) & HDd) & Hud) & Ht) & HN) & HN').
  apply Z.ltb_lt in H0, Ha, Hd, HDd, Hud. apply Z.leb_le in Hj, Haj, HDn, Ht, HN, HN'. rewrite forallb_forall in H1, H2.
  assert (small_coefs b) as SC.
  { split; auto. intro k. destruct (lt_dec k (length b)) as [L|L].
    - specialize (H1 k ltac:(apply in_seq; lia)). apply andb_prop in H1. destruct H1 as [Q1 Q2]. apply Z.leb_le in Q1, Q2. auto.
    - rewrite (nth_overflow b 0%Z) by lia. simpl. lia. }
  destruct (horner_ok b a d K N N' p SC ltac:(lia) Hd EH) as (E1 & E2 & _). set (t := IZR a / IZR d) in *.
  assert (0 < IZR a) as Pa by (apply (IZR_lt 0); auto). assert (0 < IZR d) as Pd by (apply (IZR_lt 0); auto). assert (0 < t) as Pt by (apply Rdiv_lt_0_compat; auto).
  assert (0 < IZR Dd) as PD by (apply (IZR_lt 0); lia). assert (0 <= IZR Dn) as PN by (apply (IZR_le 0); lia). assert (IZR Dn < IZR Dd) as PND by (apply IZR_lt; auto). assert (0 < IZR ud) as Pu by (apply (IZR_lt 0); auto).
  assert (0 < b0 b) as Pb by (unfold b0, bz; apply (IZR_lt 0); auto).
  assert (0 < IZR (denom b d K)) as PX by (rewrite denom_R; apply Rmult_lt_0_compat; auto; apply Rmult_lt_0_compat; [apply INR_fact_lt_0|apply pow_lt; lra]).
  assert (0 <= IZR Dn / IZR Dd < 1) as HD.
  { split; [apply Rmult_le_pos; auto; left; apply Rinv_0_lt_compat; auto|]. apply (Rmult_lt_reg_r (IZR Dd)); auto. unfold Rdiv. rewrite Rmult_assoc, Rinv_l by lra. lra. }
  assert (t ^ S K / INR (fact (S K)) * exp t <= / 10 ^ 30) as TL.
  { assert (exp t <= 3 ^ Z.to_nat j) as Q.
    { eapply Rle_trans; [|apply exp_three]. apply exp_mono. rewrite INR_IZR_INZ, Z2Nat.id by auto. apply IZR_le in Haj. rewrite mult_IZR in Haj. unfold t. apply (Rmult_le_reg_r (IZR d)); auto. unfold Rdiv. rewrite Rmult_assoc, Rinv_l by lra. lra. }
    apply IZR_le in Ht. rewrite !mult_IZR, zfact_fact, <- INR_IZR_INZ, <- !pow_IZR in Ht. replace (IZR (3 ^ j)) with (3 ^ Z.to_nat j) in Ht by (rewrite <- (Z2Nat.id j Hj) at 2; rewrite <- pow_IZR; auto).
    change (IZR (10 ^ 30)) with (IZR (10 ^ Z.of_nat 30)) in Ht. rewrite <- pow_IZR in Ht. pose proof (INR_fact_lt_0 (S K)) as PF. assert (0 < 10 ^ 30) as P10 by (apply pow_lt; lra). assert (0 < IZR d ^ S K) as PdK by (apply pow_lt; auto).
    apply Rle_trans with (t ^ S K / INR (fact (S K)) * 3 ^ Z.to_nat j); [apply Rmult_le_compat_l; auto; apply Rmult_le_pos; [apply pow_le; lra|left; apply Rinv_0_lt_compat; auto]|].
    unfold t, Rdiv. rewrite Rpow_mult_distr, pow_inv. apply (Rmult_le_reg_r (10 ^ 30)); auto. rewrite Rinv_l by lra. apply (Rmult_le_reg_r (INR (fact (S K)) * IZR d ^ S K)); [apply Rmult_lt_0_compat; auto|].
    replace (IZR a ^ S K * / IZR d ^ S K * / INR (fact (S K)) * 3 ^ Z.to_nat j * 10 ^ 30 * (INR (fact (S K)) * IZR d ^ S K)) with (IZR a ^ S K * 3 ^ Z.to_nat j * 10 ^ 30) by (field; split; apply Rgt_not_eq; auto). lra. }
  assert (IZR (10 ^ 30) = 10 ^ 30) as E10 by (change (10 ^ 30)%Z with (10 ^ Z.of_nat 30)%Z; rewrite <- pow_IZR; auto). assert (0 < 10 ^ 30) as P10 by (apply pow_lt; lra).
  split; auto.
  - intro K'. eapply Rle_trans; [apply (wsum_tail t (phi b) 1 K K'); try lra; intro k; rewrite Rmult_1_l; apply phi_abs; auto|]. rewrite Rmult_1_l.
    apply Rle_trans with (wsum t (phi b) K + / 10 ^ 30); [lra|]. apply IZR_le in HN. rewrite plus_IZR, !mult_IZR, plus_IZR, E1, E10 in HN. set (W := wsum t (phi b) K) in *. set (X := IZR (denom b d K)) in *.
    apply (Rmult_le_reg_r (X * 10 ^ 30 * IZR Dd)); [apply Rmult_lt_0_compat; [apply Rmult_lt_0_compat|]; auto|].
    replace ((W + / 10 ^ 30) * (X * 10 ^ 30 * IZR Dd)) with (W * X * 10 ^ 30 * IZR Dd + X * IZR Dd) by (field; lra). replace ((1 + IZR Dn / IZR Dd) * (X * 10 ^ 30 * IZR Dd)) with (X * 10 ^ 30 * (IZR Dd + IZR Dn)) by (field; lra). exact HN.
  - intro K'. assert (forall k, Rabs (omega b k) <= 2 * / INR (fact k)) as OA.
    { intro k. rewrite omega_phi. pose proof (inv_fact_pos k). destruct (Z.odd (Z.of_nat k)); [|rewrite Rabs_R0; lra]. rewrite Rabs_mult, (Rabs_left (-2)) by lra. pose proof (phi_abs b k SC). lra. }
    eapply Rle_trans; [apply (wsum_tail t (omega b) 2 K K'); auto; lra|]. apply Rle_trans with (wsum t (omega b) K + 2 * / 10 ^ 30); [lra|].
    apply IZR_le in HN'. rewrite !mult_IZR, plus_IZR, !mult_IZR, minus_IZR, E2, E10 in HN'. set (W := wsum t (omega b) K) in *. set (X := IZR (denom b d K)) in *.
    apply (Rmult_le_reg_r (X * 10 ^ 30 * (IZR ud * IZR d * IZR Dd))); [apply Rmult_lt_0_compat; [apply Rmult_lt_0_compat; auto|apply Rmult_lt_0_compat; [apply Rmult_lt_0_compat|]; auto]|]. unfold t.
    replace ((W + 2 * / 10 ^ 30) * (X * 10 ^ 30 * (IZR ud * IZR d * IZR Dd))) with ((W * X * 10 ^ 30 + 2 * X) * IZR ud * IZR d * IZR Dd) by (field; lra).
    replace (IZR un / IZR ud * (IZR a / IZR d) * (1 - IZR Dn / IZR Dd) * (X * 10 ^ 30 * (IZR ud * IZR d * IZR Dd))) with (X * 10 ^ 30 * IZR un * IZR a * (IZR Dd - IZR Dn)) by (field; lra). exact HN'.
  - intros k Hk. rewrite omega_phi. destruct (Z.odd (Z.of_nat k)) eqn:EO; auto. assert (phi b k = 0) as Z0; [|rewrite Z0; ring].
    apply Zodd_bool_iff in EO. destruct (Zodd_ex _ EO) as [q Hq]. specialize (H2 (Z.to_nat q) ltac:(apply in_seq; lia)). rewrite Z2Nat.id in H2 by lia. apply Z.eqb_eq in H2. rewrite <- Hq in H2.
    pose proof (Fz_phi b k SC) as F. rewrite H2 in F. apply Rmult_integral in F. destruct F as [F|F]; auto. exfalso. revert F. apply Rgt_not_eq. apply Rmult_lt_0_compat; auto. apply Rmult_lt_0_compat; [apply INR_fact_lt_0|apply pow_lt; lra].
Qed.

Definition c3 : list Z := [120; 60; 12; 1]%Z.
Definition c5 : list Z := [30240; 15120; 3360; 420; 30; 1]%Z.
Definition c7 : list Z := [17297280; 8648640; 1995840; 277200; 25200; 1512; 56; 1]%Z.
Definition c9 : list Z := [17643225600; 8821612800; 2075673600; 302702400; 30270240; 2162160; 110880; 3960; 90; 1]%Z.
Definition c13 : list Z := [64764752532480000; 32382376266240000; 7771770303897600; 1187353796428800; 129060195264000; 10559470521600; 670442572800; 33522128640; 1323241920; 40840800; 960960; 16380; 182; 1]%Z.
(** u is 1.12e-16 in double and 6.2e-8 in single precision. *)
Lemma num3 : numbers c3 3 (IZR 14956 / IZR 1000000) (IZR 1 / IZR 1000) (IZR 112 / IZR (10 ^ 18)).
Proof. apply (check_numbers _ _ _ _ 15 1). vm_compute. reflexivity. Qed.
Lemma num5 : numbers c5 5 (IZR 25395 / IZR 100000) (IZR 1 / IZR 1000) (IZR 112 / IZR (10 ^ 18)).
Proof. apply (check_numbers _ _ _ _ 20 1). vm_compute. reflexivity. Qed.
Lemma num7 : numbers c7 7 (IZR 95043 / IZR 100000) (IZR 9 / IZR 1000) (IZR 112 / IZR (10 ^ 18)).
Proof. apply (check_numbers _ _ _ _ 30 1). vm_compute. reflexivity. Qed.
Lemma num9 : numbers c9 9 (IZR 20979 / IZR 10000) (IZR 33 / IZR 1000) (IZR 112 / IZR (10 ^ 18)).
Proof. apply (check_numbers _ _ _ _ 40 3). vm_compute. reflexivity. Qed.
Lemma num13 : numbers c13 13 (IZR 17 / IZR 4) (IZR 1 / IZR 10) (IZR 112 / IZR (10 ^ 18)).
Proof. apply (check_numbers _ _ _ _ 50 5). vm_compute. reflexivity. Qed.
Lemma num3s : numbers c3 3 (IZR 4259 / IZR 10000) (IZR 5 / IZR 1000) (IZR 62 / IZR (10 ^ 9)).
Proof. apply (check_numbers _ _ _ _ 25 1). vm_compute. reflexivity. Qed.
Lemma num5s : numbers c5 5 (IZR 18802 / IZR 10000) (IZR 51 / IZR 1000) (IZR 62 / IZR (10 ^ 9)).
Proof. apply (check_numbers _ _ _ _ 40 2). vm_compute. reflexivity. Qed.
Lemma num7s : numbers c7 7 (IZR 39258 / IZR 10000) (IZR 163 / IZR 1000) (IZR 62 / IZR (10 ^ 9)).
Proof. apply (check_numbers _ _ _ _ 50 4). vm_compute. reflexivity. Qed.
