(** Fisher's combination of p-values that are all below a level of at most 1/20. *)

From Coq Require Import List Arith Lia Bool ZArith Reals Lra.
From Verif Require Import Model.LocalScore Model.OLC Spec.Scores Proofs.ScoreFacts Proofs.BicFacts Proofs.KCIFacts.
Import ListNotations.
Open Scope R_scope.

Lemma exp_ge : forall t, 1 + t <= exp t.
Proof. intro t. destruct (Req_dec t 0) as [->|N]; [rewrite exp_0; lra|]. left. apply exp_ineq1. auto. Qed.

Lemma exp_pow : forall t k, exp (INR k * t) = exp t ^ k.
Proof.
  intros t k. induction k as [|k IH]; [simpl; rewrite Rmult_0_l; apply exp_0|].
  rewrite S_INR. replace ((INR k + 1) * t) with (t + INR k * t) by ring. rewrite exp_plus, IH. auto.
Qed.

(** The polynomial fact behind the bound. *)
Lemma exp_bound : forall t, 19 / 10 <= t -> (t + 1) * (t + 1) <= t * exp t.
Proof.
  intros t Ht.
  assert ((1 + t / 4) ^ 4 <= exp t) as E.
  { replace (exp t) with (exp (t / 4) ^ 4) by (rewrite <- exp_pow; f_equal; simpl; field).
    apply pow_incr. pose proof (exp_ge (t / 4)). lra. }
  apply Rle_trans with (t * (1 + t / 4) ^ 4); [|apply Rmult_le_compat_l; lra].
  set (v := t - 19 / 10). assert (0 <= v) as Hv by (unfold v; lra). replace t with (v + 19 / 10) by (unfold v; ring).
  assert (0 <= v * v) by (apply Rmult_le_pos; auto).
  assert (0 <= v * v * v) by (apply Rmult_le_pos; auto).
  assert (0 <= v * v * v * v) by (apply Rmult_le_pos; auto).
  assert (0 <= v * v * v * v * v) by (apply Rmult_le_pos; auto).
  simpl. lra.
Qed.

Lemma level_bound : forall a, 0 < a -> a <= / 20 -> 29 / 10 <= - ln a.
Proof.
  intros a Pa Ha. assert (ln a <= - (29 / 10)); [|lra]. apply Rnot_lt_le. intro C. apply exp_increasing in C. rewrite exp_ln in C by auto.
  assert (/ 20 <= exp (- (29 / 10))); [|lra]. clear C.
  replace (- (29 / 10)) with (INR 58 * - (/ 20)) by (simpl; lra). rewrite exp_pow.
  apply Rle_trans with ((19 / 20) ^ 58).
  - unfold Rdiv. rewrite Rpow_mult_distr. rewrite pow_inv.
    rewrite !pow_IZR. apply Rmult_le_reg_r with (IZR (20 ^ Z.of_nat 58)); [apply IZR_lt; reflexivity|].
    rewrite Rmult_assoc, Rinv_l by (apply not_0_IZR; discriminate).
    rewrite Rmult_1_r. apply Rmult_le_reg_l with 20; [lra|]. rewrite <- Rmult_assoc, Rinv_r, Rmult_1_l by lra.
    rewrite <- mult_IZR. apply IZR_le. vm_compute. discriminate.
  - apply pow_incr. pose proof (exp_ge (- / 20)). lra.
Qed.

(** Terms of the exponential series below the index k at k * M. *)
Definition term (x : R) (j : nat) : R := x ^ j / INR (fact j).
Lemma fact_pos : forall j, 0 < INR (fact j).
Proof. intro j. apply lt_0_INR. apply lt_O_fact. Qed.
Lemma term_pos : forall x j, 0 < x -> 0 < term x j.
Proof. intros. unfold term, Rdiv. apply Rmult_lt_0_compat; [apply pow_lt; auto|apply Rinv_0_lt_compat, fact_pos]. Qed.
Lemma term_S : forall x j, term x (S j) * INR (S j) = term x j * x.
Proof.
  intros x j. unfold term. cbn [pow]. replace (fact (S j)) with (S j * fact j)%nat by auto. rewrite mult_INR.
  field. split; [apply Rgt_not_eq, fact_pos|apply not_0_INR; lia].
Qed.

Lemma rsumn_S : forall k f, rsumn (S k) f = rsumn k f + f k.
Proof.
  intros k f. rewrite !rsumn_sumR. unfold sumRn. rewrite seq_S. cbn [plus].
  assert (forall l, sumR (l ++ [k]) f = sumR l f + f k) as A; [|apply A].
  induction l as [|a l IH]; simpl; [lra|]. rewrite IH. lra.
Qed.

(** The series up to index k is dominated by its last term. *)
Lemma series_last : forall M k x, 1 < M -> INR k * M <= x -> 0 < x -> (0 < k)%nat -> rsumn k (term x) * (M - 1) <= term x (pred k) * M.
Proof.
  intros M k x HM. induction k as [|k IH]; intros Hx Px Pk; [lia|]. cbn [pred]. rewrite rsumn_S. rewrite S_INR in Hx.
  destruct k as [|k]; [unfold rsumn; simpl; assert (0 < term x 0) by (apply term_pos; auto); lra|].
  assert (INR (S k) * M <= x) as Hx' by nra. specialize (IH Hx' Px ltac:(lia)). cbn [pred] in IH.
  assert (term x k * M <= term x (S k)); [|lra].
  pose proof (term_S x k) as T. assert (0 < INR (S k)) as PS by (apply lt_0_INR; lia). pose proof (term_pos x k Px) as P0.
  apply Rmult_le_reg_r with (INR (S k)); auto. rewrite T.
  replace (term x k * M * INR (S k)) with (term x k * (INR (S k) * M)) by ring. apply Rmult_le_compat_l; lra.
Qed.

(** The last term at k * M against the exponential. *)
Lemma last_small : forall M k, 1 <= M -> (0 < k)%nat -> term (INR k * M) (pred k) <= (M * exp 1) ^ (pred k).
Proof.
  intros M k HM. induction k as [|k IH]; intro Pk; [lia|]. destruct k as [|k]; [unfold term; simpl; lra|]. cbn [pred] in *.
  specialize (IH ltac:(lia)).
  assert (0 < INR (S k)) as PS by (apply lt_0_INR; lia).
  assert (term (INR (S (S k)) * M) (S k) = term (INR (S k) * M) k * ((1 + / INR (S k)) ^ S k * M)) as E.
  { assert (INR (S (S k)) = INR (S k) * (1 + / INR (S k))) as E1 by (rewrite (S_INR (S k)); field; lra).
    pose proof (term_S (INR (S (S k)) * M) k) as T.
    apply Rmult_eq_reg_r with (INR (S k)); [|lra]. rewrite T. unfold term. rewrite E1.
    replace (INR (S k) * (1 + / INR (S k)) * M) with ((INR (S k) * M) * (1 + / INR (S k))) by ring.
    rewrite Rpow_mult_distr. cbn [pow]. pose proof (fact_pos k). field. repeat split; lra. }
  rewrite E. replace ((M * exp 1) ^ S k) with ((M * exp 1) ^ k * (exp 1 * M)) by (simpl; ring).
  assert ((1 + / INR (S k)) ^ S k <= exp 1) as Eu.
  { replace 1 with (INR (S k) * / INR (S k)) at 2 by (apply Rinv_r; lra). rewrite exp_pow.
    apply pow_incr. pose proof (exp_ge (/ INR (S k))). assert (0 < / INR (S k)) by (apply Rinv_0_lt_compat; auto). lra. }
  assert (0 <= (1 + / INR (S k)) ^ S k) by (apply pow_le; assert (0 < / INR (S k)) by (apply Rinv_0_lt_compat; auto); lra).
  apply Rmult_le_compat; auto.
  - left. apply term_pos. nra.
  - apply Rmult_le_pos; lra.
  - apply Rmult_le_compat_r; lra.
Qed.

Lemma chi2_bound : forall M k, 29 / 10 <= M -> (0 < k)%nat -> exp (- (INR k * M)) * rsumn k (term (INR k * M)) <= exp (- M).
Proof.
  intros M k HM Pk. assert (0 < INR k) as PI by (apply lt_0_INR; auto).
  destruct (Nat.eq_dec k 1) as [->|N1].
  { unfold rsumn, term. simpl. rewrite Rmult_1_l. pose proof (exp_pos (- M)). lra. }
  pose proof (series_last M k (INR k * M) ltac:(lra) ltac:(lra) ltac:(nra) Pk) as S1.
  pose proof (last_small M k ltac:(lra) Pk) as S2.
  destruct k as [|[|j]]; try lia. cbn [pred] in *.
  set (k := S (S j)) in *. set (w := M * exp 1) in *.
  pose proof (exp_pos M) as PM. pose proof (exp_pos 1) as P1.
  assert (exp (INR k * M) = exp M * exp M * exp M ^ j) as EK by (rewrite exp_pow; unfold k; simpl; ring).
  assert (M * M * exp 1 <= (M - 1) * exp M) as B.
  { pose proof (exp_bound (M - 1) ltac:(lra)) as B. replace (M - 1 + 1) with M in B by ring.
    replace (exp M) with (exp (M - 1) * exp 1) by (rewrite <- exp_plus; f_equal; ring). nra. }
  assert (w <= exp M) as W by (unfold w; apply Rmult_le_reg_l with M; [lra|]; nra).
  assert (w ^ j <= exp M ^ j) as WJ by (apply pow_incr; unfold w; nra).
  assert (0 < exp M ^ j) as PJ by (apply pow_lt; auto).
  assert (0 <= w) as W0 by (unfold w; nra).
  assert (0 <= w ^ j) as WJ0 by (apply pow_le; auto).
  (* the sum times M - 1 is at most w^(j+1) * M *)
  assert (rsumn k (term (INR k * M)) * (M - 1) <= exp M * exp M ^ j * (M - 1)) as G.
  { apply Rle_trans with (w ^ S j * M); [apply Rle_trans with (1 := S1); apply Rmult_le_compat_r; lra|].
    cbn [pow]. replace (w * w ^ j * M) with (w ^ j * (M * M * exp 1)) by (unfold w; ring).
    apply Rle_trans with (w ^ j * ((M - 1) * exp M)); [apply Rmult_le_compat_l; auto|].
    replace (exp M * exp M ^ j * (M - 1)) with (exp M ^ j * ((M - 1) * exp M)) by ring. apply Rmult_le_compat_r; auto. nra. }
  assert (rsumn k (term (INR k * M)) <= exp M * exp M ^ j) as G' by (apply Rmult_le_reg_r with (M - 1); [lra|exact G]).
  assert (0 < exp M * exp M * exp M ^ j) as PP by (repeat apply Rmult_lt_0_compat; auto).
  rewrite !exp_Ropp, EK. apply Rmult_le_reg_l with (exp M * exp M * exp M ^ j); auto.
  rewrite <- Rmult_assoc, Rinv_r by lra. rewrite Rmult_1_l.
  replace (exp M * exp M * exp M ^ j * / exp M) with (exp M * exp M ^ j) by (field; lra). auto.
Qed.

Lemma sum_logs : forall alpha ps, (forall p, In p ps -> clip p < alpha) -> 0 < alpha -> ps <> [] ->
  rsum (map (fun p => ln (clip p)) ps) < INR (length ps) * ln alpha.
Proof.
  intros alpha ps H Pa. induction ps as [|p ps IH]; [congruence|]. intros _.
  assert (ln (clip p) < ln alpha) as L1.
  { apply ln_increasing; [|apply H; left; auto]. unfold clip. destruct p as [v|]; [destruct (Rle_dec (1 / 100000) v)|]; lra. }
  destruct ps as [|q ps]; [simpl; lra|]. specialize (IH (fun r Hr => H r (or_intror Hr)) ltac:(discriminate)).
  cbn [length]. cbn [length] in IH. rewrite S_INR. cbn [map rsum fold_right] in *. unfold rsum in *. cbn [map fold_right] in *. lra.
Qed.

Lemma fisher_below : forall alpha ps, 1 / 100000 < alpha -> alpha <= / 20 -> ps <> [] -> (forall p, In p ps -> rge alpha p = false) ->
  rge alpha (fisher_test ps) = false.
Proof.
  intros alpha ps A1 A2 NE H.
  assert (forall p, In p ps -> clip p < alpha) as HC.
  { intros p Hp. specialize (H p Hp). unfold rge in H. unfold clip. destruct p as [v|]; [|lra].
    destruct (Rle_dec alpha v); [discriminate|]. destruct (Rle_dec (1 / 100000) v); lra. }
  pose proof (sum_logs alpha ps HC ltac:(lra) NE) as SL.
  set (k := length ps) in *. assert (0 < k)%nat as Pk by (destruct ps; [congruence|simpl in k; unfold k; lia]).
  assert (0 < INR k) as PI by (apply lt_0_INR; auto).
  set (s := rsum (map (fun p => ln (clip p)) ps)) in *.
  set (M := - s / INR k).
  assert (INR k * M = - s) as EM by (unfold M; field; lra).
  assert (- ln alpha < M) as LM by (apply Rmult_lt_reg_l with (INR k); auto; rewrite EM; lra).
  pose proof (level_bound alpha ltac:(lra) A2) as LB.
  pose proof (chi2_bound M k ltac:(lra) Pk) as CB. rewrite EM in CB.
  unfold fisher_test, rge. fold s k. destruct (Rle_dec alpha (chi2_sf (-2 * s) k)) as [C|]; auto. exfalso.
  unfold chi2_sf in C. replace (-2 * s / 2) with (- s) in C by field. unfold term in CB.
  assert (exp (- M) < alpha) as F; [|lra].
  replace alpha with (exp (ln alpha)) by (apply exp_ln; lra). apply exp_increasing. lra.
Qed.
