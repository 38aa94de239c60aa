(** Accuracy of the Taylor approximants with scaling and squaring. *)

From Coq Require Import List Arith Lia Bool ZArith QArith Qreals Reals Lra Setoid Morphisms.
From Verif Require Import Model.Py Model.LocalScore Model.KCI Model.Expm Spec.Scores Spec.ExpmSpec Proofs.BicFacts Proofs.PopulationFacts Proofs.KCIFacts Proofs.GaussianFacts Proofs.ExpmFacts Proofs.TaylorFacts Proofs.MajorFacts Proofs.ExpFacts.
Import ListNotations.
Open Scope R_scope.

Lemma power_accuracy : forall n N iota B a p d eps u X E m, normlike n N iota -> 0 <= eps -> 0 <= u -> 0 <= a -> N B a -> close_to_exp eps d p -> rep n B X p ->
  a ^ S d / INR (fact (S d)) <= u -> is_exp n B E ->
  N (difference (rpow n X m) (rpow n E m)) (iota * (((1 + (eps + u)) ^ m - 1) * exp (INR m * a))).
Proof.
  intros n N iota B a p d eps u X E m HN He Hu Ha HB [HC0 HC1] HX HT HE. apply is_exp_mcv in HE.
  apply (limit_norm n N iota (fun k => rpow n (peval n B (tcoef (k + d))) m)); auto.
  { apply (mcv_pow n (fun k => peval n B (tcoef (k + d)))). apply (mcv_shift n (fun k => peval n B (tcoef k))). auto. }
  intro k. set (t := tcoef (k + d)). set (dl := padd (pscale eps (tcoef d)) (pminus t (tcoef d))).
  assert (maj (pminus p t) dl) as M.
  { intro l. unfold dl. rewrite nth_padd, nth_pscale, !nth_pminus. unfold t. rewrite !nth_tcoef. pose proof (inv_fact_pos l) as I.
    destruct (Nat.ltb_spec l (S d)) as [L|L], (Nat.ltb_spec l (S (k + d))) as [L'|L']; try lia.
    - specialize (HC0 l ltac:(lia)). unfold Rdiv in HC0. lra.
    - rewrite HC1 by lia. rewrite Rminus_0_l, Rabs_Ropp, Rabs_pos_eq; lra.
    - rewrite HC1 by lia. rewrite Rminus_0_r, Rabs_R0. lra. }
  assert (maj t t) as Mt by (apply maj_self; intro; apply tcoef_nonneg).
  pose proof (peval_norm n N iota B a _ _ HN Ha HB (pdiff_maj p t dl m M Mt)) as P.
  apply (nl_ext _ _ _ HN) with (B := difference (rpow n X m) (rpow n (peval n B t) m)) in P.
  2:{ rewrite pdiff_eval. apply difference_proper; symmetry; apply rep_pow; auto. unfold rep. reflexivity. }
  eapply (nl_mono _ _ _ HN); [exact P|]. apply Rmult_le_compat_l; [apply (nl_iota _ _ _ HN)|]. rewrite pdiff_seval.
  unfold dl, t. rewrite seval_add, seval_scale, seval_pminus, !seval_tcoef.
  set (tn := T (k + d) a). assert (1 <= tn) as T1 by (apply T_pos; auto). assert (T d a <= tn) as Td by (apply T_mono; auto; lia).
  assert (tn - T d a <= u * tn) as Tt.
  { unfold tn. rewrite (Nat.add_comm k d). eapply Rle_trans; [apply T_tail; auto|]. apply Rmult_le_compat; auto.
    - apply Rmult_le_pos; [apply pow_le; auto|left; apply inv_fact_pos].
    - pose proof (T_pos a k Ha). lra.
    - apply T_mono; auto. lia. }
  assert (eps * T d a <= eps * tn) as Te by (apply Rmult_le_compat_l; auto).
  apply Rle_trans with (((1 + (eps + u)) * tn) ^ m - tn ^ m).
  - apply Rplus_le_compat_r. apply pow_incr. split; [|lra]. pose proof (T_pos a d Ha). assert (0 <= eps * T d a) by (apply Rmult_le_pos; lra). lra.
  - rewrite Rpow_mult_distr. replace ((1 + (eps + u)) ^ m * tn ^ m - tn ^ m) with (((1 + (eps + u)) ^ m - 1) * tn ^ m) by ring. apply Rmult_le_compat_l.
    + pose proof (pow_R1_Rle (1 + (eps + u)) m ltac:(lra)). lra.
    + assert (exp (INR m * a) = exp a ^ m) as Em.
      { clear. induction m as [|m IH]; [simpl; rewrite Rmult_0_l; apply exp_0|]. rewrite S_INR, Rmult_plus_distr_r, Rmult_1_l, exp_plus, IH. simpl. ring. }
      rewrite Em. apply pow_incr. split; [lra|apply T_exp; auto].
Qed.

Lemma rpow_add : forall n A k l, meq n (rpow n A (k + l)) (rdot n (rpow n A k) (rpow n A l)).
Proof.
  intros n A k l. induction k as [|k IH]; cbn [rpow Nat.add]; [rewrite dot_id_l; reflexivity|]. rewrite IH, dot_assoc. reflexivity.
Qed.
Lemma exp_pow2 : forall n B E s, is_exp n B E -> is_exp n (rscale (2 ^ s) B) (rpow n E (2 ^ s)).
Proof.
  intros n B E s HE. induction s as [|s IH].
  - apply (is_exp_ext n B); [intros i j _ _; unfold rscale; simpl; ring|]. apply (is_exp_meq n B E); auto. simpl. rewrite dot_id_r. reflexivity.
  - apply (is_exp_ext n (rscale 2 (rscale (2 ^ s) B))); [intros i j _ _; unfold rscale; simpl; ring|].
    apply (is_exp_meq n _ (rdot n (rpow n E (2 ^ s)) (rpow n E (2 ^ s)))); [|apply exp_double; auto].
    replace (2 ^ S s)%nat with (2 ^ s + 2 ^ s)%nat by (simpl; lia). rewrite rpow_add. reflexivity.
Qed.
Lemma is_exp_one : forall A E, is_exp 1 A E -> E 0%nat 0%nat = exp (A 0%nat 0%nat).
Proof.
  intros A E H. specialize (H 0%nat 0%nat ltac:(lia) ltac:(lia)). eapply UL_sequence; [exact H|]. apply (cv_ext (fun N => T N (A 0%nat 0%nat))); [|apply T_cv].
  intro N. unfold truncated. rewrite <- rsumn_sumR, rsumn_sum_f. unfold T. apply sum_eq. intros k _.
  assert (power 1 A k 0%nat 0%nat = A 0%nat 0%nat ^ k) as P.
  { induction k as [|k IH]; [reflexivity|]. cbn [power pow]. rewrite <- rsumn_sumR, rs_one, IH. auto. }
  rewrite P. unfold Rdiv. ring.
Qed.

(* ---------- the degrees and their bounds ---------- *)
Lemma close_weaker : forall e e' d p, e <= e' -> close_to_exp e d p -> close_to_exp e' d p.
Proof. intros e e' d p H [H0 H1]. split; auto. intros k Hk. eapply Rle_trans; [apply H0; auto|]. apply Rmult_le_compat_r; auto. left. apply inv_fact_pos. Qed.
Lemma close_tcoef : forall d, close_to_exp 0 d (tcoef d).
Proof.
  intro d. split; intros k Hk; rewrite nth_tcoef; destruct (Nat.ltb_spec k (S d)); try lia; auto. rewrite Rminus_eq_0, Rabs_R0. unfold Rdiv. lra.
Qed.
Lemma taylor_close : forall n A d, In d degs -> exists p, close_to_exp (/ 10 ^ 15) d p /\ rep n A (taylor n A d) p.
Proof.
  intros n A d H. assert (0 <= / 10 ^ 15) as E by (left; apply Rinv_0_lt_compat; lra).
  assert (forall c, close_to_exp (/ 10 ^ 15) c (tcoef c)) as K by (intro c; apply (close_weaker 0); auto; apply close_tcoef).
  destruct H as [<-|[<-|[<-|[<-|[<-|[<-|[]]]]]]]; eexists; split; try apply rep_taylor1; try apply rep_taylor2; try apply rep_taylor4; try apply rep_taylor8; try apply rep_taylor12; try apply rep_taylor18; auto using close12, close18.
Qed.
Fixpoint qpow (q : Q) (k : nat) : Q := match k with O => 1%Q | S k' => Qmult q (qpow q k') end.
Lemma Q2R_pow : forall q k, Q2R (qpow q k) = Q2R q ^ k.
Proof. intros q k. induction k as [|k IH]; [unfold Q2R; simpl; field|]. cbn [qpow pow]. rewrite Q2R_mult, IH. auto. Qed.
Definition unitQ (double : bool) : Q := if double then (12 # 100000000000000000)%Q else (61 # 1000000000)%Q.
(** 1.2e-16 and 6.1e-8. *)
Definition unitR (double : bool) : R := if double then 12 / 10 ^ 17 else 61 / 10 ^ 9.
Lemma unit_Q : forall b, Q2R (unitQ b) = unitR b.
Proof. intros []; unfold unitQ, unitR, Q2R; simpl; lra. Qed.
Lemma unit_pos : forall b, 0 < unitR b.
Proof. intros []; unfold unitR; simpl; lra. Qed.
Definition theta_ok (double : bool) : bool :=
  forallb (fun x => Qle_bool 0 (snd x) && Qle_bool (qpow (snd x) (fst x)) (unitQ double * (zfact (S (fst x)) # 1))) (combine degs (if double then thetas_double else thetas_single)).
Lemma theta_checked : forall b, theta_ok b = true.
Proof. intros []; vm_compute; reflexivity. Qed.
Lemma combine_map : forall {A B C} (f : B -> C) (l : list A) (m : list B), combine l (map f m) = map (fun x => (fst x, f (snd x))) (combine l m).
Proof. induction l as [|a l IH]; intros [|b m]; simpl; auto. f_equal. auto. Qed.
Lemma theta_bound : forall b d t a, In (d, t) (combine degs (thetas b)) -> 0 <= a <= t -> a ^ S d / INR (fact (S d)) <= unitR b * a.
Proof.
  intros b d t a H Ha. unfold thetas in H. rewrite combine_map in H. apply in_map_iff in H. destruct H as ([d' q] & E & H). simpl in E. injection E as -> <-.
  pose proof (theta_checked b) as C. unfold theta_ok in C. rewrite forallb_forall in C. specialize (C _ H). cbn [fst snd] in C. apply andb_prop in C. destruct C as [_ C].
  apply Qle_bool_iff in C. apply Qle_Rle in C. rewrite Q2R_pow, Q2R_mult, unit_Q in C.
  assert (Q2R (zfact (S d) # 1) = INR (fact (S d))) as F by (unfold Q2R; cbn [Qnum Qden]; rewrite zfact_fact, <- INR_IZR_INZ; field). rewrite F in C.
  pose proof (INR_fact_lt_0 (S d)) as P. cbn [pow]. apply (Rmult_le_reg_r (INR (fact (S d)))); auto. unfold Rdiv. rewrite Rmult_assoc, Rinv_l by lra. rewrite Rmult_1_r.
  assert (a ^ d <= Q2R q ^ d) by (apply pow_incr; auto). replace (unitR b * a * INR (fact (S d))) with (a * (unitR b * INR (fact (S d)))) by ring. apply Rmult_le_compat_l; lra.
Qed.
Lemma first_degree_some : forall x dt d, first_degree x dt = Some d -> exists t, In (d, t) dt /\ x <= t.
Proof.
  intros x dt d. induction dt as [|[e t] dt IH]; intro H; [discriminate|]. cbn [first_degree] in H. destruct (Rle_dec x t) as [L|L].
  - injection H as ->. exists t. split; [left|]; auto.
  - destruct (IH H) as (t' & I & L'). exists t'. split; [right|]; auto.
Qed.
Lemma first_degree_none : forall x dt, first_degree x dt = None -> forall d t, In (d, t) dt -> t < x.
Proof.
  intros x dt. induction dt as [|[e t] dt IH]; intros H d t' I; [contradiction|]. cbn [first_degree] in H. destruct (Rle_dec x t) as [L|L]; [discriminate|].
  destruct I as [E|I]; [injection E as -> ->; lra|eauto].
Qed.
Lemma theta_last : forall b, In (18%nat, theta_max b) (combine degs (thetas b)).
Proof. intros []; unfold theta_max, thetas, degs; simpl; do 5 right; left; auto. Qed.
Lemma degs_in : forall b d t, In (d, t) (combine degs (thetas b)) -> In d degs.
Proof. intros b d t H. apply (in_combine_l _ _ _ _ H). Qed.
Lemma theta_pos : forall b, 1 <= theta_max b.
Proof. intros []; unfold theta_max, thetas; simpl; unfold Q2R; simpl; lra. Qed.

(* ---------- the number of halvings ---------- *)
Lemma rceil_spec : forall x, x <= IZR (rceil x) < x + 1.
Proof. intro x. unfold rceil. rewrite opp_IZR. pose proof (base_Int_part (- x)). lra. Qed.
Lemma halvings_spec : forall x t, 0 < t -> t < x -> x / 2 ^ halvings x t <= t /\ 2 ^ halvings x t < 2 * (x / t) /\ (0 < halvings x t)%nat.
Proof.
  intros x t Ht Hx. assert (0 < x) as Px by lra. pose proof ln_lt_2 as L2. assert (0 < ln 2) as P2 by lra.
  set (y := log2 x - log2 t). assert (y * ln 2 = ln x - ln t) as Ey by (unfold y, log2; field; lra).
  assert (ln t < ln x) as Lx by (apply ln_increasing; auto).
  assert (0 < y) as Py by (apply (Rmult_lt_reg_r (ln 2)); lra).
  destruct (rceil_spec y) as [C1 C2]. assert (0 < rceil y)%Z as PZ by (apply lt_IZR; lra).
  assert (IZR (rceil y) = INR (halvings x t)) as ES by (unfold halvings; fold y; rewrite INR_IZR_INZ, Z2Nat.id; auto; lia).
  rewrite ES in C1, C2. set (s := halvings x t) in *.
  assert (2 ^ s = exp (INR s * ln 2)) as Ep by (rewrite <- Rpower_pow by lra; auto).
  assert (x / t = exp (y * ln 2)) as Ex by (rewrite Ey; unfold Rminus; rewrite exp_plus, exp_ln, exp_Ropp, exp_ln by auto; auto).
  assert (exp (y * ln 2) <= exp (INR s * ln 2)) as G1.
  { assert (y * ln 2 <= INR s * ln 2) as G by (apply Rmult_le_compat_r; lra). destruct (Rle_lt_or_eq_dec _ _ G) as [G'|G']; [left; apply exp_increasing; auto|rewrite G'; lra]. }
  split; [|split].
  - rewrite <- Ex, <- Ep in G1. assert (0 < 2 ^ s) as Ps by (apply pow_lt; lra). apply (Rmult_le_reg_r (2 ^ s)); auto. unfold Rdiv. rewrite Rmult_assoc, Rinv_l by lra.
    apply (Rmult_le_compat_r t) in G1; [|lra]. unfold Rdiv in G1. rewrite Rmult_assoc, Rinv_l in G1 by lra. lra.
  - rewrite Ex, Ep. apply Rlt_le_trans with (exp ((y + 1) * ln 2)); [apply exp_increasing; apply Rmult_lt_compat_r; auto|]. rewrite Rmult_plus_distr_r, exp_plus, Rmult_1_l, exp_ln by lra. lra.
  - apply INR_lt. simpl. lra.
Qed.

(* ---------- scaling and squaring ---------- *)
Definition etaR (double : bool) : R := / 10 ^ 15 + unitR double * theta_max double.
Lemma eps_pos : 0 <= / 10 ^ 15.
Proof. left. apply Rinv_0_lt_compat. lra. Qed.
Lemma eta_pos : forall b, 0 < etaR b.
Proof. intro b. unfold etaR. pose proof eps_pos. pose proof (theta_pos b). pose proof (unit_pos b). assert (0 < unitR b * theta_max b) by (apply Rmult_lt_0_compat; lra). lra. Qed.
Lemma scaled_accuracy : forall n N iota b A a E s, normlike n N iota -> 0 <= a -> N A a -> a / 2 ^ s <= theta_max b -> is_exp n A E ->
  N (difference (rpow n (taylor n (rscale (/ 2 ^ s) A) 18) (2 ^ s)) E) (iota * (((1 + etaR b) ^ (2 ^ s) - 1) * exp a)).
Proof.
  intros n N iota b A a E s HN Ha HA Hs HE. assert (0 < 2 ^ s) as Ps by (apply pow_lt; lra). assert (0 < / 2 ^ s) as Pi by (apply Rinv_0_lt_compat; auto).
  set (B := rscale (/ 2 ^ s) A). destruct (exp_exists n B) as [E0 HE0].
  assert (0 <= a / 2 ^ s) as Hb by (apply Rmult_le_pos; lra).
  destruct (taylor_close n B 18) as (p & Cp & Rp); [unfold degs; simpl; tauto|].
  assert (N B (a / 2 ^ s)) as HB.
  { apply (nl_mono _ _ _ HN) with (Rabs (/ 2 ^ s) * a); [apply (nl_scale _ _ _ HN); auto|]. rewrite Rabs_pos_eq by lra. unfold Rdiv. lra. }
  assert ((a / 2 ^ s) ^ 19 / INR (fact 19) <= unitR b * theta_max b) as HT.
  { eapply Rle_trans; [apply (theta_bound b 18 (theta_max b)); [apply theta_last|auto]|]. apply Rmult_le_compat_l; [left; apply unit_pos|auto]. }
  assert (0 <= unitR b * theta_max b) as HU by (pose proof (theta_pos b); pose proof (unit_pos b); apply Rmult_le_pos; lra).
  pose proof (power_accuracy n N iota B (a / 2 ^ s) p 18 _ _ _ E0 (2 ^ s) HN eps_pos HU Hb HB Cp Rp HT HE0) as P.
  change (/ 10 ^ 15 + unitR b * theta_max b) with (etaR b) in P.
  replace (INR (2 ^ s) * (a / 2 ^ s)) with a in P.
  2:{ rewrite pow_INR. change (INR 2) with 2. field. lra. }
  eapply (nl_ext _ _ _ HN); [|exact P]. apply difference_proper; [reflexivity|].
  apply (exp_unique n (rscale (2 ^ s) B)); [apply exp_pow2; auto|]. apply (is_exp_ext n A); auto. intros i j _ _. unfold B, rscale. field. lra.
Qed.
Lemma pow_exp : forall x m, 0 <= x -> (1 + x) ^ m <= exp (x * INR m).
Proof.
  intros x m Hx. induction m as [|m IH]; [simpl; rewrite Rmult_0_r, exp_0; lra|]. rewrite S_INR, Rmult_plus_distr_l, Rmult_1_r, exp_plus, Rmult_comm. cbn [pow].
  rewrite (Rmult_comm (exp x)). rewrite Rmult_comm. apply Rmult_le_compat; auto; try lra. { apply pow_le. lra. } 
  destruct (Req_dec x 0) as [->|N]; [rewrite exp_0; lra|]. pose proof (exp_ineq1 x N). lra.
Qed.
