(** C91: the Pade version of the matrix exponential. *)

From Coq Require Import List Arith Lia Bool ZArith QArith Qreals Reals Lra Setoid Morphisms.
From Verif Require Import Model.Py Model.LocalScore Model.KCI Model.Expm Model.Pade Spec.Scores Spec.ExpmSpec Spec.PadeSpec Proofs.BicFacts Proofs.PopulationFacts Proofs.KCIFacts Proofs.GaussianFacts Proofs.ExpmFacts Proofs.TaylorFacts Proofs.MajorFacts Proofs.ExpFacts Proofs.ExpAccuracyFacts Proofs.FrechetFacts Proofs.SeriesFacts Proofs.PadeFacts Proofs.PadeNumbers Proofs.PadeChoiceFacts Props.ExpmProps.
Import ListNotations.
Open Scope R_scope.

(* ---------- the approximants ---------- *)
Definition pade_table (m : nat) (b : list Z) : bool :=
  (Nat.eqb (length b) (S m) && (0 <? nth 0 b 0)%Z &&
   forallb (fun k => nth k b 0 * (zfact (2 * m) * zfact k * zfact (m - k)) =? nth 0 b 0 * (zfact (2 * m - k) * zfact m))%Z (seq 0 (S m)))%bool.
Lemma table_coef : forall m b k, pade_table m b = true -> bz b k = b0 b * (if Nat.ltb k (S m) then pade_coef m k else 0).
Proof.
  intros m b k H. unfold pade_table in H. rewrite !andb_true_iff in H. destruct H as ((L & P) & F). apply Nat.eqb_eq in L. rewrite forallb_forall in F.
  destruct (Nat.ltb_spec k (S m)) as [K|K]; [|unfold bz; rewrite nth_overflow by lia; ring].
  specialize (F k ltac:(apply in_seq; lia)). apply Z.eqb_eq in F. apply (f_equal IZR) in F. rewrite !mult_IZR, !zfact_fact, <- !INR_IZR_INZ in F.
  unfold b0, bz. unfold pade_coef. pose proof (INR_fact_neq_0 (2 * m)) as N1. pose proof (INR_fact_neq_0 k) as N2. pose proof (INR_fact_neq_0 (m - k)) as N3.
  apply (Rmult_eq_reg_r (INR (fact (2 * m)) * INR (fact k) * INR (fact (m - k)))); [|repeat apply Rmult_integral_contrapositive_currified; auto]. rewrite F. field. auto.
Qed.
Lemma rep_pair : forall n m A U V b, pade_table m b = true -> represents n A (U, V) b -> pade_pair n m A U V.
Proof.
  intros n m A U V b HT [RP RQ]. assert (0 < b0 b) as Pb. { unfold pade_table in HT. rewrite !andb_true_iff in HT. destruct HT as ((_ & P) & _). apply Z.ltb_lt in P. unfold b0, bz. apply (IZR_lt 0). auto. }
  exists (b0 b). split; auto. split; intros i j Hi Hj.
  - change (U i j + V i j) with (p_of (U, V) i j). rewrite (RP i j Hi Hj). rewrite (polynomial_peval n A (numerator m) i j Hi Hj). change (b0 b * peval n A (numerator m) i j) with (rscale (b0 b) (peval n A (numerator m)) i j).
    rewrite <- (peval_scale n A (b0 b) (numerator m) i j Hi Hj). apply peval_pad; auto. intro k. rewrite nth_plist, nth_pscale, (table_coef m b k HT). unfold numerator. rewrite nth_map_seq. destruct (Nat.ltb k (S m)); auto.
  - replace (V i j - U i j) with (q_of (U, V) i j) by (unfold q_of, radd, rscale; simpl; ring). rewrite (RQ i j Hi Hj). rewrite (polynomial_peval n A (denominator m) i j Hi Hj).
    change (b0 b * peval n A (denominator m) i j) with (rscale (b0 b) (peval n A (denominator m)) i j). rewrite <- (peval_scale n A (b0 b) (denominator m) i j Hi Hj). apply peval_pad; auto.
    intro k. rewrite nth_qlist, nth_pscale, (table_coef m b k HT). unfold denominator. rewrite nth_map_seq. destruct (Nat.ltb k (S m)); ring.
Qed.
(** U + V and V - U are numerator and denominator of the Pade approximants of the
    orders 3, 5, 7, 9 and 13, for the matrix divided by 2^s where it is scaled. *)
Theorem C91_pade : forall n A,
  (let (U, V) := pade3 n A in pade_pair n 3 A U V) /\ (let (U, V) := pade5 n A in pade_pair n 5 A U V) /\
  (let (U, V) := pade7 n A in pade_pair n 7 A U V) /\ (let (U, V) := pade9 n A in pade_pair n 9 A U V) /\
  (forall s, let (U, V) := pade7_scaled n A s in pade_pair n 7 (fun i j => A i j / 2 ^ s) U V) /\
  (forall s, let (U, V) := pade13_scaled n A s in pade_pair n 13 (fun i j => A i j / 2 ^ s) U V).
Proof.
  intros n A.
  assert (forall m b UV, pade_table m b = true -> represents n A UV b -> let (U, V) := UV in pade_pair n m A U V) as H by (intros m b [U V]; apply rep_pair).
  assert (forall m b UV s, pade_table m b = true -> represents n (down s 1 A) UV b -> let (U, V) := UV in pade_pair n m (fun i j => A i j / 2 ^ s) U V) as H'.
  { intros m b [U V] s HT HR. destruct (rep_pair n m (down s 1 A) U V b HT HR) as (c & Pc & H1 & H2).
    assert (meq n (down s 1 A) (fun i j => A i j / 2 ^ s)) as ED by (intros i j _ _; unfold down, rscale; rewrite Nat.mul_1_l; unfold Rdiv; ring).
    assert (forall p, meq n (polynomial n p (down s 1 A)) (polynomial n p (fun i j => A i j / 2 ^ s))) as EP.
    { intro p. rewrite !polynomial_peval. intros i j Hi Hj. rewrite (peval_sum n (down s 1 A) p i j Hi Hj), (peval_sum n (fun i j => A i j / 2 ^ s) p i j Hi Hj). apply rs_ext. intros k _. f_equal. apply (rpow_proper n _ _ k ED); auto. }
    exists c. split; auto. split; intros i j Hi Hj; [rewrite (H1 i j Hi Hj)|rewrite (H2 i j Hi Hj)]; f_equal; apply EP; auto. }
  split; [apply (H 3%nat c3); [vm_compute; reflexivity|apply rep_pade3]|]. split; [apply (H 5%nat c5); [vm_compute; reflexivity|apply rep_pade5]|].
  split; [apply (H 7%nat c7); [vm_compute; reflexivity|apply rep_pade7]|]. split; [apply (H 9%nat c9); [vm_compute; reflexivity|apply rep_pade9]|].
  split; intro s; [apply (H' 7%nat c7); [vm_compute; reflexivity|apply rep_pade7_scaled]|apply (H' 13%nat c13); [vm_compute; reflexivity|apply rep_pade13_scaled]].
Qed.
Print Assumptions C91_pade.
(** The approximant of order 3 of the number 1: (193 / 71), close to e. *)
Example C91_example_pade : let (U, V) := pade3 1 (fun _ _ => 1) in U 0%nat 0%nat + V 0%nat 0%nat = 193 /\ V 0%nat 0%nat - U 0%nat 0%nat = 71 /\ pade_coef 3 2 = / 10.
Proof. unfold pade3, hA2, rdot, radd, rscale, rident, rsumn, rsum, pade_coef. cbn. lra. Qed.

(* ---------- accuracy ---------- *)
(** Half a unit of rounding in double precision is 2^-53 = 1.11e-16, in single precision
    2^-24 = 5.96e-8; the bounds are slightly larger. *)
Definition pade_unit (double : bool) : R := if double then 112 / 10 ^ 18 else 62 / 10 ^ 9.

Lemma product_model : forall n A B, meq n (product n A B) (rdot n A B).
Proof. intros n A B i j _ _. unfold product, rdot. rewrite rsumn_sumR. auto. Qed.
Lemma solves_solver : forall n solve, solves_systems n solve -> solver n solve.
Proof.
  intros n solve H Q Y P [H1 H2]. rewrite <- product_model. apply H. exists Y. split; [intros i j Hi Hj; rewrite product_model by auto; apply H1; auto|intros i j Hi Hj; rewrite product_model by auto; apply H2; auto].
Qed.
Lemma inverse_invertible : forall n Q Y, inverse_of n Q Y -> invertible n Q.
Proof. intros n Q Y [H1 H2]. exists Y. split; intros i j Hi Hj; rewrite product_model by auto; [apply H1|apply H2]; auto. Qed.
Lemma pade_route : forall double n A, n <> 1%nat ->
  (exists B s UV, route n A (pade_unit double) B s UV /\ forall solve, exists X, expm_pade solve double n A = Some X /\ meq n X (rpow n (solve_P_Q solve n UV) (2 ^ s))) \/
  ((forall solve, expm_pade solve double n A = None) /\ meq n (rpow n A 8) mzero).
Proof.
  intros [] n A Hn; [apply route64; auto|]. destruct (route32 n A Hn) as [H|[H1 H2]]; [left; exact H|right]. split; auto. rewrite (rpow_add n A 6 2), H2. apply dot_zero_l.
Qed.
Lemma unit_nonneg : forall b, 0 <= pade_unit b.
Proof. intros []; unfold pade_unit; lra. Qed.

(** Whenever a matrix is returned, its error in the sum of absolute values is at most
    (e^(u |A|) - 1) |exp A|, where u is half a unit of rounding; for all sizes, with and
    without scaling.  The arithmetic is exact; [solve] may be any solver. *)
Theorem C91_accuracy : forall solve double n A E X, solves_systems n solve -> is_exp n A E -> expm_pade solve double n A = Some X ->
  entry_sum n (difference X E) <= (exp (pade_unit double * entry_sum n A) - 1) * entry_sum n E.
Proof.
  intros solve b n A E X HS HE HX. rewrite !entry_sum_model. destruct (Nat.eq_dec n 1) as [->|Hn].
  - assert (X = fun i j => exp (A i j)) as -> by (destruct b; cbn in HX; injection HX as <-; auto).
    rewrite (norm1_ext 1 _ mzero) by (intros i j Hi Hj; unfold difference; rewrite (one_exact A E HE i j Hi Hj); unfold mzero; ring). rewrite norm1_zero. apply Rmult_le_pos; [|apply norm1_nonneg].
    assert (exp 0 <= exp (pade_unit b * norm1 1 A)) as Q by (apply exp_mono; apply Rmult_le_pos; [apply unit_nonneg|apply norm1_nonneg]). rewrite exp_0 in Q. lra.
  - destruct (pade_route b n A Hn) as [(B & s & UV & HR & HV)|[HN _]]; [|rewrite HN in HX; discriminate].
    destruct (route_accuracy n A E _ B s UV (unit_nonneg b) HE HR) as [_ HA]. destruct (HV solve) as (X' & EX & EV). rewrite EX in HX. injection HX as <-. apply (HA solve); auto. apply solves_solver. auto.
Qed.
Print Assumptions C91_accuracy.

(** The systems that are solved have an inverse: two solvers that agree on such systems
    give the same result, or both raise. *)
Theorem C91_invertible : forall solve solve' double n A, (forall Q P, invertible n Q -> same_matrix n (solve n Q P) (solve' n Q P)) ->
  match expm_pade solve double n A, expm_pade solve' double n A with
  | Some X, Some X' => same_matrix n X X'
  | None, None => True
  | _, _ => False
  end.
Proof.
  intros solve solve' b n A H. destruct (Nat.eq_dec n 1) as [->|Hn]; [destruct b; cbn; intros i j _ _; auto|].
  destruct (pade_route b n A Hn) as [(B & s & UV & HR & HV)|[HN _]]; [|rewrite !HN; auto]. destruct (exp_exists n A) as [E HE].
  destruct (route_accuracy n A E _ B s UV (unit_nonneg b) HE HR) as [[Y IY] _]. destruct (HV solve) as (X & -> & E1). destruct (HV solve') as (X' & -> & E2).
  assert (meq n X X') as G; [|exact G]. rewrite E1, E2. apply rpow_proper. unfold solve_P_Q. apply H. apply (inverse_invertible n _ Y IY).
Qed.
Print Assumptions C91_invertible.

(** A matrix is returned unless the eighth power is zero. *)
Theorem C91_returns : forall solve double n A, (exists i j, (i < n)%nat /\ (j < n)%nat /\ power n A 8 i j <> 0) -> exists X, expm_pade solve double n A = Some X.
Proof.
  intros solve b n A (i & j & Hi & Hj & H). destruct (Nat.eq_dec n 1) as [->|Hn]; [destruct b; cbn; eauto|].
  destruct (pade_route b n A Hn) as [(B & s & UV & HR & HV)|[_ Z]]; [destruct (HV solve) as (X & EX & _); eauto|]. exfalso. apply H. rewrite (power_model n A 8 i j Hi Hj). apply Z; auto.
Qed.
Print Assumptions C91_returns.

(** Cramer's rule solves all systems of two equations, and the rotation by 4, which is
    scaled, has a power that does not vanish. *)
Definition det2 (Q : rmat) : R := Q 0%nat 0%nat * Q 1%nat 1%nat - Q 0%nat 1%nat * Q 1%nat 0%nat.
Definition cramer (n : nat) (Q P : rmat) : rmat := fun i j => match i with
  | O => (Q 1%nat 1%nat * P 0%nat j - Q 0%nat 1%nat * P 1%nat j) / det2 Q
  | _ => (Q 0%nat 0%nat * P 1%nat j - Q 1%nat 0%nat * P 0%nat j) / det2 Q
  end.
Lemma det2_invertible : forall Q, invertible 2 Q -> det2 Q <> 0.
Proof.
  intros Q (Y & H & _). assert (det2 Y * det2 Q = 1) as D.
  { pose proof (H 0%nat 0%nat ltac:(lia) ltac:(lia)) as E00. pose proof (H 0%nat 1%nat ltac:(lia) ltac:(lia)) as E01. pose proof (H 1%nat 0%nat ltac:(lia) ltac:(lia)) as E10. pose proof (H 1%nat 1%nat ltac:(lia) ltac:(lia)) as E11.
    unfold product, sumRn, sumR, unit_matrix in E00, E01, E10, E11. cbn [seq map fold_right Nat.eqb] in E00, E01, E10, E11. unfold det2.
    replace ((Y 0%nat 0%nat * Y 1%nat 1%nat - Y 0%nat 1%nat * Y 1%nat 0%nat) * (Q 0%nat 0%nat * Q 1%nat 1%nat - Q 0%nat 1%nat * Q 1%nat 0%nat))
      with ((Y 0%nat 0%nat * Q 0%nat 0%nat + (Y 0%nat 1%nat * Q 1%nat 0%nat + 0)) * (Y 1%nat 0%nat * Q 0%nat 1%nat + (Y 1%nat 1%nat * Q 1%nat 1%nat + 0)) - (Y 0%nat 0%nat * Q 0%nat 1%nat + (Y 0%nat 1%nat * Q 1%nat 1%nat + 0)) * (Y 1%nat 0%nat * Q 0%nat 0%nat + (Y 1%nat 1%nat * Q 1%nat 0%nat + 0))) by ring.
    rewrite E00, E01, E10, E11. ring. }
  intro Z. rewrite Z in D. lra.
Qed.
Lemma cramer_solves : solves_systems 2 cramer.
Proof.
  intros Q P HQ. pose proof (det2_invertible Q HQ) as N.
  intros i j Hi Hj. unfold product, sumRn, sumR. cbn [seq map fold_right cramer]. remember (det2 Q) as d eqn:Ed. unfold det2 in Ed. destruct i as [|[|i]]; [| |lia].
  - transitivity (P 0%nat j * (Q 0%nat 0%nat * Q 1%nat 1%nat - Q 0%nat 1%nat * Q 1%nat 0%nat) / d); [field; auto|rewrite <- Ed; field; auto].
  - transitivity (P 1%nat j * (Q 0%nat 0%nat * Q 1%nat 1%nat - Q 0%nat 1%nat * Q 1%nat 0%nat) / d); [field; auto|rewrite <- Ed; field; auto].
Qed.
(** A solver that differs from Cramer's rule, but only where the determinant is 0. *)
Definition cautious (n : nat) (Q P : rmat) : rmat := if Req_EM_T (det2 Q) 0 then fun _ _ => 7 else cramer n Q P.
Example C91_example_invertible : (forall Q P, invertible 2 Q -> same_matrix 2 (cramer 2 Q P) (cautious 2 Q P)) /\ cautious 2 (fun _ _ => 1) (fun _ _ => 1) 0%nat 0%nat = 7 /\ cramer 2 (fun _ _ => 1) (fun _ _ => 1) 0%nat 0%nat = 0.
Proof.
  split; [|split].
  - intros Q P HQ i j _ _. unfold cautious. destruct (Req_EM_T (det2 Q) 0) as [Z|_]; auto. destruct (det2_invertible Q HQ Z).
  - unfold cautious, det2. destruct (Req_EM_T (1 * 1 - 1 * 1) 0); [auto|lra].
  - unfold cramer. unfold Rdiv. rewrite Rminus_eq_0. ring.
Qed.
Example C91_example_accuracy : exists E X, solves_systems 2 cramer /\ is_exp 2 (rotation 4) E /\ power 2 (rotation 4) 8 0%nat 0%nat = 65536 /\ expm_pade cramer true 2 (rotation 4) = Some X /\
  entry_sum 2 (difference X E) <= (exp (pade_unit true * 8) - 1) * entry_sum 2 E.
Proof.
  destruct (exp_exists 2 (rotation 4)) as [E HE].
  assert (power 2 (rotation 4) 8 0%nat 0%nat = 65536) as P8 by (unfold power, sumRn, sumR; cbn [seq map fold_right rotation Nat.eqb]; lra).
  destruct (C91_returns cramer true 2 (rotation 4)) as [X HX]; [exists 0%nat, 0%nat; rewrite P8; split; [lia|]; split; [lia|lra]|].
  exists E, X. split; [apply cramer_solves|]. split; auto. split; auto. split; auto.
  replace 8 with (entry_sum 2 (rotation 4)); [apply (C91_accuracy cramer); auto using cramer_solves|].
  unfold entry_sum, sumRn, sumR. cbn [seq map fold_right rotation]. rewrite Rabs_R0, Rabs_Ropp, (Rabs_pos_eq 4) by lra. ring.
Qed.

(* ---------- nilpotent matrices ---------- *)
(** The weights of a chain 0 -> 1 -> ... -> n - 1. *)
Definition chain (w : R) : rmat := fun i j => if Nat.eqb j (i + 1) then w else 0.
Definition shifted (c : R) (k : nat) : rmat := fun i j => if Nat.eqb j (i + k) then c else 0.
Lemma shifted_dot : forall n a b j k, meq n (rdot n (shifted a j) (shifted b k)) (shifted (a * b) (j + k)).
Proof.
  intros n a b j k i l Hi Hl. unfold rdot. destruct (lt_dec (i + j) n) as [L|L].
  - rewrite (rs_ext n _ (fun m => (if Nat.eqb (i + j) m then 1 else 0) * (a * shifted b k m l))); [rewrite (rs_delta n (i + j) (fun m => a * shifted b k m l)) by auto|].
    + unfold shifted. rewrite Nat.add_assoc. destruct (Nat.eqb_spec l (i + j + k)); ring.
    + intros m _. unfold shifted. rewrite (Nat.eqb_sym m (i + j)). destruct (Nat.eqb_spec (i + j) m); ring.
  - rewrite rs_zero; [unfold shifted; destruct (Nat.eqb_spec l (i + (j + k))); [lia|auto]|]. intros m Hm. unfold shifted at 1. destruct (Nat.eqb_spec m (i + j)); [lia|ring].
Qed.
Lemma shifted_norm : forall n c k, (n <= k)%nat -> norm1 n (shifted c k) = 0.
Proof. intros n c k H. rewrite (norm1_ext n _ mzero); [apply norm1_zero|]. intros i j Hi Hj. unfold shifted, mzero. destruct (Nat.eqb_spec j (i + k)); [lia|auto]. Qed.
Lemma chain_powers : forall n w, meq n (hA4 n (chain w)) (shifted (w ^ 4) 4) /\ meq n (hA6 n (chain w)) (shifted (w ^ 6) 6) /\ meq n (hA8 n (chain w)) (shifted (w ^ 8) 8) /\ meq n (hA10 n (chain w)) (shifted (w ^ 10) 10).
Proof.
  intros n w. assert (forall c d k, c = d -> meq n (shifted c k) (shifted d k)) as SE by (intros c d k ->; reflexivity).
  assert (meq n (hA2 n (chain w)) (shifted (w ^ 2) 2)) as H2 by (unfold hA2; change (chain w) with (shifted w 1); rewrite shifted_dot; apply SE; ring).
  assert (meq n (hA4 n (chain w)) (shifted (w ^ 4) 4)) as H4 by (unfold hA4; rewrite H2, shifted_dot; apply SE; ring).
  assert (meq n (hA6 n (chain w)) (shifted (w ^ 6) 6)) as H6 by (unfold hA6; rewrite H2, H4, shifted_dot; apply SE; ring).
  split; auto. split; auto. split; [unfold hA8; rewrite H2, H6, shifted_dot; apply SE; ring|unfold hA10; rewrite H4, H6, shifted_dot; apply SE; ring].
Qed.
Lemma root_of_zero : forall k, root k 0 = 0.
Proof. intro k. unfold root. destruct (Req_EM_T 0 0); auto. contradiction. Qed.
Lemma rejects : forall u eta theta n A m, theta <= eta -> accepts u eta theta n A m = false.
Proof. intros. unfold accepts. destruct (Rlt_dec eta theta); [lra|auto]. Qed.
Lemma scaling_zero : forall theta, scaling 0 theta = None.
Proof. intro. unfold scaling. destruct (Req_EM_T 0 0); auto. contradiction. Qed.
Lemma root_ge : forall k x t, (0 < k)%nat -> 0 <= x -> t ^ k <= x -> 0 <= t -> t <= root k x.
Proof.
  intros k x t Hk Hx H Ht. destruct (Rle_lt_dec t (root k x)) as [|L]; auto. exfalso. pose proof (root_nonneg k x). rewrite <- (root_pow k x Hk Hx) in H.
  assert (root k x ^ k < t ^ k); [|lra]. clear H. revert H0 L. generalize (root k x). intros r H0 L. induction k as [|k IH]; [lia|]. destruct k as [|k]; [simpl; lra|]. cbn [pow].
  apply Rle_lt_trans with (r * (t * t ^ k)).
  - apply Rmult_le_compat_l; auto. change (r ^ S k <= t ^ S k). apply pow_incr. lra.
  - apply Rmult_lt_compat_r; auto. change (0 < t ^ S k). apply pow_lt. lra.
Qed.
(** The full statement fails: for the weights 3 of a chain of seven variables the double
    version raises OverflowError, since the power A^6 is too large for the unscaled
    approximants while A^8 and A^10 are zero, and so does the single version for a chain
    of five.  Their exponentials exist, as for all matrices. *)
Theorem C91_returns_refuted : exists A,
  (forall i j, 0 <= A i j) /\ (forall i j, (j <= i)%nat -> A i j = 0) /\
  (forall solve, expm_pade solve true 7 A = None) /\ (forall solve, expm_pade solve false 5 A = None).
Proof.
  exists (chain 3). split; [intros i j; unfold chain; destruct (Nat.eqb j (i + 1)); lra|]. split; [intros i j H; unfold chain; destruct (Nat.eqb_spec j (i + 1)); [lia|auto]|]. split; intro solve.
  - destruct (chain_powers 7 3) as (_ & H6 & H8 & H10). unfold expm_pade, expm64. cbn [Nat.eqb].
    assert (3 <= d6 7 (chain 3)) as D6.
    { unfold d6. rewrite (norm1_ext 7 _ _ H6). apply root_ge; [lia|apply norm1_nonneg| |lra]. eapply Rle_trans; [|apply (entry_norm1 7 _ 0 6); lia]. unfold shifted. cbn [Nat.eqb Nat.add]. rewrite Rabs_pos_eq; lra. }
    assert (d8 7 (chain 3) = 0) as D8 by (unfold d8; rewrite (norm1_ext 7 _ _ H8), shifted_norm by lia; apply root_of_zero).
    assert (d10 7 (chain 3) = 0) as D10 by (unfold d10; rewrite (norm1_ext 7 _ _ H10), shifted_norm by lia; apply root_of_zero).
    assert (theta64 0 <= 3 /\ theta64 1 <= 3 /\ theta64 2 <= 3 /\ theta64 3 <= 3) as (T0 & T1 & T2 & T3) by (unfold theta64, thetas64; cbn [nth]; unfold Q2R; cbn [Qnum Qden]; lra).
    pose proof (Rmax_r (d4 7 (chain 3)) (d6 7 (chain 3))) as M1. pose proof (Rmax_l (d6 7 (chain 3)) (d8 7 (chain 3))) as M2.
    rewrite !rejects by lra. rewrite D8, D10. rewrite (Rmax_left 0 0) by lra. rewrite Rmin_right; [rewrite scaling_zero; auto|]. eapply Rle_trans; [|apply Rmax_l]. lra.
  - destruct (chain_powers 5 3) as (H4 & H6 & H8 & _). unfold expm_pade, expm32. cbn [Nat.eqb].
    assert (3 <= d4 5 (chain 3)) as D4.
    { unfold d4. rewrite (norm1_ext 5 _ _ H4). apply root_ge; [lia|apply norm1_nonneg| |lra]. eapply Rle_trans; [|apply (entry_norm1 5 _ 0 4); lia]. unfold shifted. cbn [Nat.eqb Nat.add]. rewrite Rabs_pos_eq; lra. }
    assert (d6 5 (chain 3) = 0) as D6 by (unfold d6; rewrite (norm1_ext 5 _ _ H6), shifted_norm by lia; apply root_of_zero).
    assert (d8 5 (chain 3) = 0) as D8 by (unfold d8; rewrite (norm1_ext 5 _ _ H8), shifted_norm by lia; apply root_of_zero).
    assert (theta32 0 <= 3 /\ theta32 1 <= 3) as (T0 & T1) by (unfold theta32, thetas32; cbn [nth]; unfold Q2R; cbn [Qnum Qden]; lra).
    pose proof (Rmax_l (d4 5 (chain 3)) (d6 5 (chain 3))) as M1. rewrite !rejects by lra. rewrite D6, D8. rewrite (Rmax_left 0 0) by lra. rewrite scaling_zero. auto.
Qed.
Print Assumptions C91_returns_refuted.

(* ---------- the backward pass ---------- *)
Lemma exp_row : forall n A a E, 0 <= a -> norm_at_most n A a -> is_exp n A E -> norm_at_most n E (exp a).
Proof.
  intros n A a E Ha HA HE. apply is_exp_mcv in HE. apply (nl_ext _ _ _ (normlike_row n)) with (rscale (-1) (difference mzero E)); [intros i j _ _; unfold rscale, difference, mzero; ring|].
  apply (nl_mono _ _ _ (normlike_row n)) with (Rabs (-1) * exp a); [|rewrite Rabs_left by lra; lra]. apply (nl_scale _ _ _ (normlike_row n)); [left; apply exp_pos|].
  apply (limit_norm n (norm_at_most n) 1 (fun N => peval n A (tcoef N)) E mzero (exp a) (normlike_row n) HE). intro k.
  apply (nl_ext _ _ _ (normlike_row n)) with (rscale (-1) (peval n A (tcoef k))); [intros i j _ _; unfold rscale, difference, mzero; ring|].
  apply (nl_mono _ _ _ (normlike_row n)) with (Rabs (-1) * exp a); [|rewrite Rabs_left by lra; lra]. apply (nl_scale _ _ _ (normlike_row n)); [left; apply exp_pos|].
  apply (nl_mono _ _ _ (normlike_row n)) with (1 * seval a (tcoef k)); [apply (peval_norm n (norm_at_most n)); auto; [apply normlike_row|apply maj_self; intro; apply tcoef_nonneg]|].
  rewrite Rmult_1_l, seval_tcoef. apply T_exp. auto.
Qed.
Lemma row_total : forall n X b, norm_at_most n X b -> norm1 n X <= INR n * b.
Proof.
  intros n X b H. unfold norm1. apply Rle_trans with (rsumn n (fun _ => b)); [apply rs_le; intros i Hi; rewrite rsumn_sumR; apply H; auto|]. rewrite rs_const. lra.
Qed.
Lemma corner_inner : forall n A G E H F, is_exp (2 * n) (block n (rtranspose A) G) H -> is_exp (2 * n) (block n A E) F ->
  rinner n (fun i j => H i (n + j)%nat) E = rinner n G (fun i j => F i (n + j)%nat).
Proof.
  intros n A G E H F HH HF.
  assert (forall X Y L, mcv n X L -> Un_cv (fun k => rinner n (X k) Y) (rinner n L Y)) as CL.
  { intros X Y L HX. unfold rinner. apply (cv_rsumn n (fun k i => rsumn n (fun j => X k i j * Y i j))). intros i Hi. apply (cv_rsumn n (fun k j => X k i j * Y i j)). intros j Hj. apply (CV_mult (fun k => X k i j) (fun _ => Y i j)); [apply HX; auto|apply cv_const]. }
  apply (UL_sequence (fun N => rinner n (dpoly n (rtranspose A) G (tcoef N)) E)); [apply CL; apply corner_limit; auto|].
  apply (cv_ext (fun N => rinner n (dpoly n A E (tcoef N)) G)).
  - intro N. rewrite adjoint. unfold rinner. apply rs_ext2. intros. ring.
  - replace (rinner n G (fun i j => F i (n + j)%nat)) with (rinner n (fun i j => F i (n + j)%nat) G); [apply CL; apply corner_limit; auto|]. unfold rinner. apply rs_ext2. intros. ring.
Qed.
(** The backward pass is the gradient of the exponential, up to the error of the forward
    pass for the double matrix. *)
Theorem C91_gradient : forall solve double n A G E D X f, solves_systems (2 * n) solve -> (forall Y, is_exp n Y (f Y)) -> directional n f A E D -> backward_pade solve double n A G = Some X ->
  Rabs (inner n X E - inner n G D) <=
    (exp (pade_unit double * (2 * entry_sum n A + entry_sum n G)) - 1) * (INR (2 * n) * exp (entry_sum n A + entry_sum n G)) * entry_sum n E.
Proof.
  intros solve b n A G E D X f HS Hf HD HX. rewrite !entry_sum_model, !inner_model. set (x := norm1 n A). set (g := norm1 n G). assert (0 <= x) as Px by apply norm1_nonneg. assert (0 <= g) as Pg by apply norm1_nonneg.
  destruct (exp_exists (2 * n) (block n A E)) as [F HF]. pose proof (exp_directional n A E F f HF Hf) as HD'.
  pose proof (directional_unique n f A E _ _ HD HD') as ED. rewrite (rinner_ext n G G D _ ltac:(reflexivity) ED).
  unfold backward_pade in HX. set (M := block n (rtranspose A) G) in *. destruct (expm_pade solve b (2 * n) M) as [Z|] eqn:EZ; [|discriminate]. injection HX as <-.
  destruct (exp_exists (2 * n) M) as [H HH]. rewrite <- (corner_inner n A G E H F HH HF).
  pose proof (C91_accuracy solve b (2 * n) M H Z HS HH EZ) as AC. rewrite !entry_sum_model in AC. unfold M in AC at 1. rewrite block_norm1, norm1_transpose in AC. fold x g in AC.
  assert (norm_at_most (2 * n) M (x + g)) as HM by (unfold x; rewrite <- (norm1_transpose n A); apply block_row).
  pose proof (row_total _ _ _ (exp_row (2 * n) M (x + g) H ltac:(lra) HM HH)) as HT.
  replace (rinner n (fun i j => Z i (n + j)%nat) E - rinner n (fun i j => H i (n + j)%nat) E) with (rinner n (fun i j => difference Z H i (n + j)%nat) E).
  2:{ unfold rinner. rewrite <- rs_minus. apply rs_ext. intros i Hi. rewrite <- rs_minus. apply rs_ext. intros j Hj. unfold difference. ring. }
  assert (0 <= exp (pade_unit b * (2 * x + g)) - 1) as PE.
  { assert (exp 0 <= exp (pade_unit b * (2 * x + g))) as Q by (apply exp_mono; apply Rmult_le_pos; [apply unit_nonneg|lra]). rewrite exp_0 in Q. lra. }
  apply rinner_bound. intros i Hi. rewrite <- rsumn_sumR. eapply Rle_trans; [|eapply Rle_trans; [exact AC|apply Rmult_le_compat_l; [exact PE|exact HT]]].
  pose proof (row_sum_le (2 * n) (difference Z H) i ltac:(lia)) as RS. rewrite <- rsumn_sumR in RS. eapply Rle_trans; [|exact RS].
  assert (forall h : nat -> R, (forall k, 0 <= h k) -> rsumn n (fun k => h (n + k)%nat) <= rsumn (2 * n) h) as TL.
  { intros h Hh. replace (2 * n)%nat with (n + n)%nat by lia. rewrite rs_split. assert (0 <= rsumn n h) by (apply rs_nonneg; auto). lra. }
  apply (TL (fun k => Rabs (difference Z H i k))). intro. apply Rabs_pos.
Qed.
Print Assumptions C91_gradient.
(** For the number 4 and the direction 1. *)
Example C91_example_gradient : exists f D X, solves_systems (2 * 1) cramer /\ (forall Y, is_exp 1 Y (f Y)) /\ directional 1 f (fun _ _ => 4) (fun _ _ => 1) D /\ backward_pade cramer true 1 (fun _ _ => 4) (fun _ _ => 1) = Some X.
Proof.
  destruct (exp_exists (2 * 1) (block 1 (fun _ _ => 4) (fun _ _ => 1))) as [F HF].
  assert (exists f : rmat -> rmat, forall X, is_exp 1 X (f X)) as [f Hf] by (exists (fun X => fun i j => exp_limit 1 X i j); intro X; apply exp_limit_ok).
  destruct (C91_returns cramer true (2 * 1) (block 1 (rtranspose (fun _ _ => 4)) (fun _ _ => 1))) as [Z HZ].
  { exists 0%nat, 0%nat. split; [lia|]. split; [lia|]. unfold power, sumRn, sumR, block, rtranspose. cbn [seq map fold_right Nat.eqb Nat.ltb Nat.leb Nat.mul Nat.add Nat.sub]. lra. }
  exists f, (fun i j => F i (1 + j)%nat), (fun i j => Z i (1 + j)%nat). split; [apply cramer_solves|]. split; auto. split; [apply exp_directional; auto|]. unfold backward_pade. rewrite HZ. auto.
Qed.

(* ---------- the guard against cancellation ---------- *)
Lemma rmax_le : forall l b, fold_right Rmax 0 l <= b <-> 0 <= b /\ forall x, In x l -> x <= b.
Proof.
  induction l as [|a l IH]; intros b; cbn [fold_right].
  - split; [intro Hb; split; [exact Hb|intros x []]|intros [Hb _]; exact Hb].
  - split.
    + intro H. pose proof (Rmax_l a (fold_right Rmax 0 l)). pose proof (Rmax_r a (fold_right Rmax 0 l)). assert (fold_right Rmax 0 l <= b) as Hl by lra. apply IH in Hl. destruct Hl as [B Hl]. split; auto. intros x [<-|I]; [lra|auto].
    + intros [B H]. apply Rmax_lub; [apply H; left; reflexivity|]. apply IH. split; auto. intros x I. apply H. right. exact I.
Qed.
Lemma column_sums : forall n A p j, (j < n)%nat -> Nat.iter p (fun v => fun i => rsumn n (fun a => A a i * v a)) (fun _ => 1) j = sumRn n (fun i => power n A p i j).
Proof.
  intros n A p. induction p as [|p IH]; intros j Hj.
  - cbn [Nat.iter nat_rect power]. rewrite <- rsumn_sumR. symmetry. etransitivity; [|apply (rs_delta n j (fun _ => 1) Hj)]. apply rs_ext. intros i Hi. rewrite (Nat.eqb_sym j i). destruct (Nat.eqb i j); ring.
  - change (Nat.iter (S p) (fun v i => rsumn n (fun a => A a i * v a)) (fun _ => 1) j) with (rsumn n (fun a => A a j * Nat.iter p (fun v i => rsumn n (fun a => A a i * v a)) (fun _ => 1) a)).
    rewrite (rs_ext n _ (fun a => rsumn n (fun i => rpow n A p i a * A a j))).
    2:{ intros a Ha. rewrite (IH a Ha), rs_scalr, <- rsumn_sumR, Rmult_comm. f_equal. apply rs_ext. intros i Hi. apply power_model; auto. }
    rewrite rs_swap, <- rsumn_sumR. apply rs_ext. intros i Hi. rewrite (power_model n A (S p) i j Hi Hj). symmetry.
    change (rsumn n (fun a => rpow n A p i a * A a j)) with (rdot n (rpow n A p) A i j).
    assert (meq n (rpow n A (S p)) (rdot n (rpow n A p) A)) as E. { replace (S p) with (p + 1)%nat by lia. rewrite rpow_add. cbn [rpow]. rewrite (dot_id_r n A). reflexivity. }
    apply E; auto.
Qed.
Lemma ceil_zero : forall x, Z.to_nat (rceil x) = 0%nat <-> x <= 0.
Proof.
  intro x. destruct (rceil_spec x) as [L U]. split; intro H.
  - assert (rceil x <= 0)%Z as Z0 by lia. apply IZR_le in Z0. lra.
  - assert (IZR (rceil x) < 1) as Z0 by lra. apply (lt_IZR _ 1) in Z0. lia.
Qed.

(** An approximant of degree m is accepted without scaling exactly if its bound holds and the
    column sums of |A|^p, p = 2m + 1, are at most u (comb (2p, p) (2p + 1)!) times the sum of
    the absolute values of A. *)
Theorem C91_guard : forall u eta theta n A m, 0 < u -> (0 < m)%nat ->
  accepts u eta theta n A m = true <->
  eta < theta /\ forall j, (j < n)%nat ->
    sumRn n (fun i => power n (fun a b => Rabs (A a b)) (2 * m + 1) i j) <=
    u * (INR (fact (2 * (2 * m + 1))) / (INR (fact (2 * m + 1)) * INR (fact (2 * m + 1))) * INR (fact (2 * (2 * m + 1) + 1))) * sumRn n (fun a => sumRn n (fun b => Rabs (A a b))).
Proof.
  intros u eta theta n A m Hu Hm. set (B := fun a b => Rabs (A a b)). set (p := (2 * m + 1)%nat). set (S1 := sumRn n (fun a => sumRn n (fun b => B a b))).
  set (c := INR (fact (2 * p)) / (INR (fact p) * INR (fact p)) * INR (fact (2 * p + 1))).
  assert (abs_c_recip p = c) as Ec. { unfold abs_c_recip, C, c. replace (2 * p - p)%nat with p by lia. reflexivity. }
  assert (0 < c) as Pc. { unfold c. pose proof (INR_fact_lt_0 (2 * p)). pose proof (INR_fact_lt_0 p). pose proof (INR_fact_lt_0 (2 * p + 1)). apply Rmult_lt_0_compat; auto. apply Rdiv_lt_0_compat; auto. apply Rmult_lt_0_compat; auto. }
  assert (norm1 n A = S1) as E1. { unfold norm1, S1. rewrite <- rsumn_sumR. apply rs_ext. intros i Hi. apply rsumn_sumR. }
  assert (forall b, onenorm_power n B p <= b <-> 0 <= b /\ forall j, (j < n)%nat -> sumRn n (fun i => power n B p i j) <= b) as HN.
  { intro b. unfold onenorm_power. rewrite rmax_le. split; intros [H0 H]; split; auto.
    - intros j Hj. rewrite <- column_sums by auto. apply H. apply in_map_iff. exists j. split; auto. apply in_seq. lia.
    - intros x I. apply in_map_iff in I. destruct I as [j [<- I]]. apply in_seq in I. rewrite column_sums by lia. apply H. lia. }
  assert (0 <= onenorm_power n B p) as N0. { destruct (HN (onenorm_power n B p)) as [H _]. exact (proj1 (H (Rle_refl _))). }
  assert (0 <= S1) as S0 by (rewrite <- E1; apply norm1_nonneg).
  assert (S1 = 0 -> onenorm_power n B p <= 0) as Z0.
  { intro Z. apply HN. split; [lra|]. intros j Hj. rewrite <- column_sums by auto. unfold p. replace (2 * m + 1)%nat with (S (2 * m)) by lia. right.
    change (Nat.iter (S (2 * m)) (fun v i => rsumn n (fun a => B a i * v a)) (fun _ => 1) j) with (rsumn n (fun a => B a j * Nat.iter (2 * m) (fun v i => rsumn n (fun a => B a i * v a)) (fun _ => 1) a)).
    apply rs_zero. intros a Ha. assert (B a j = 0) as ->; [|ring]. rewrite <- E1 in Z. unfold norm1 in Z.
    assert (rsumn n (fun b => Rabs (A a b)) = 0) as Z1. { apply (rs_nonneg_zero n (fun a => rsumn n (fun b => Rabs (A a b)))); auto. intros i Hi. apply rs_nonneg. intros. apply Rabs_pos. }
    apply (rs_nonneg_zero n (fun b => Rabs (A a b))); auto. intros. apply Rabs_pos. }
  assert (ell u n A m = 0%nat <-> onenorm_power n B p <= u * c * S1) as HE.
  { unfold ell. fold p. fold B. rewrite E1, Ec. destruct (Req_EM_T (onenorm_power n B p) 0) as [Z|Z].
    - split; auto. intros _. rewrite Z. apply Rmult_le_pos; auto. apply Rmult_le_pos; lra.
    - assert (0 < S1) as P1. { destruct S0 as [P|P]; auto. symmetry in P. specialize (Z0 P). lra. }
      assert (0 < onenorm_power n B p) as PN by lra. rewrite ceil_zero.
      set (al := onenorm_power n B p / (S1 * c) / u). assert (0 < al) as Pa by (unfold al; apply Rdiv_lt_0_compat; [apply Rdiv_lt_0_compat; [|apply Rmult_lt_0_compat]|]; assumption).
      assert (al * (u * c * S1) = onenorm_power n B p) as Ea by (unfold al; field; lra). assert (0 < u * c * S1) as Pu by (apply Rmult_lt_0_compat; [apply Rmult_lt_0_compat|]; assumption).
      pose proof ln_lt_2 as L2. assert (0 < ln 2) as P2 by lra. assert (0 < 2 * INR m) as P3 by (apply lt_0_INR in Hm; lra).
      assert (log2 al / (2 * INR m) <= 0 <-> ln al <= 0) as E3.
      { unfold log2. assert (ln al = ln al / ln 2 / (2 * INR m) * (ln 2 * (2 * INR m))) as Eq by (field; lra). assert (0 < ln 2 * (2 * INR m)) as P4 by (apply Rmult_lt_0_compat; auto). split; intro Hl.
        - rewrite Eq. nra.
        - destruct (Rle_lt_dec (ln al / ln 2 / (2 * INR m)) 0) as [G|G]; auto. exfalso. assert (0 < ln al) by (rewrite Eq; nra). lra. }
      rewrite E3. rewrite <- Ea. split; intro H.
      + assert (al <= 1). { destruct (Rle_lt_dec al 1) as [G|G]; auto. exfalso. pose proof (ln_increasing 1 al). rewrite ln_1 in *. lra. } nra.
      + destruct (Rle_lt_dec al 1) as [G|G]; [|exfalso; nra]. destruct G as [G|G]; [left; rewrite <- ln_1; apply ln_increasing; auto|rewrite G, ln_1; lra]. }
  assert (0 <= u * c * S1) as PB by (apply Rmult_le_pos; auto; apply Rmult_le_pos; lra).
  unfold accepts. rewrite andb_true_iff, Nat.eqb_eq, HE, HN. destruct (Rlt_dec eta theta) as [L|L]; split; intros [H1 H2]; split; auto; try discriminate; try tauto; contradiction.
Qed.
Print Assumptions C91_guard.
Example C91_example_guard : accepts u32 0 1 2 (fun i j => if Nat.eqb i j then 1 else 0) 3 = true /\ accepts (/ 10 ^ 30) 0 1 2 (fun i j => if Nat.eqb i j then 1 else 0) 3 = false.
Proof.
  assert (forall k i j, (i < 2)%nat -> (j < 2)%nat -> power 2 (fun a b => Rabs (if Nat.eqb a b then 1 else 0)) k i j = if Nat.eqb i j then 1 else 0) as HP.
  { induction k as [|k IH]; intros i j Hi Hj; cbn [power]; [reflexivity|]. unfold sumRn. cbn [seq sumR]. rewrite !IH by lia. destruct i as [|[|i]], j as [|[|j]]; try lia; cbn [Nat.eqb]; rewrite ?Rabs_R0, ?Rabs_R1; ring. }
  assert (forall j, (j < 2)%nat -> sumRn 2 (fun i => power 2 (fun a b => Rabs (if Nat.eqb a b then 1 else 0)) (2 * 3 + 1) i j) = 1) as HC.
  { intros j Hj. unfold sumRn. cbn [seq sumR]. rewrite !HP by lia. destruct j as [|[|j]]; try lia; cbn [Nat.eqb]; ring. }
  assert (sumRn 2 (fun a => sumRn 2 (fun b => Rabs (if Nat.eqb a b then 1 else 0))) = 2) as HS. { unfold sumRn. cbn [seq sumR Nat.eqb]. rewrite ?Rabs_R0, ?Rabs_R1. ring. }
  assert (forall k, INR (fact k) = IZR (zfact k)) as HF. { intro k. rewrite zfact_fact. apply INR_IZR_INZ. }
  split.
  - apply C91_guard; [unfold u32; apply Rinv_0_lt_compat, pow_lt; lra|lia|]. split; [lra|]. intros j Hj. rewrite HC, HS by auto. rewrite !HF. unfold u32. cbn [zfact Nat.mul Nat.add]. simpl Z.mul. lra.
  - destruct (accepts (/ 10 ^ 30) 0 1 2 (fun i j => if Nat.eqb i j then 1 else 0) 3) eqn:E; auto. exfalso. apply C91_guard in E; [|apply Rinv_0_lt_compat, pow_lt; lra|lia]. destruct E as [_ E]. specialize (E 0%nat ltac:(lia)). rewrite HC, HS in E by lia. rewrite !HF in E. cbn [zfact Nat.mul Nat.add] in E. simpl Z.mul in E. lra.
Qed.
