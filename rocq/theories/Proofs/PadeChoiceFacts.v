(** The bounds on powers that the tests of expm64.py and expm32.py give, scaling and
    squaring, and the approximants as polynomials. *)

From Coq Require Import List Arith Lia Bool ZArith QArith Qreals Reals Lra Setoid Morphisms.
From Verif Require Import Model.Py Model.LocalScore Model.KCI Model.Expm Model.Pade Spec.Scores Spec.ExpmSpec Proofs.BicFacts Proofs.PopulationFacts Proofs.KCIFacts Proofs.GaussianFacts Proofs.ExpmFacts Proofs.TaylorFacts Proofs.MajorFacts Proofs.ExpFacts Proofs.ExpAccuracyFacts Proofs.SeriesFacts Proofs.PadeFacts Proofs.PadeNumbers.
Import ListNotations.
Open Scope R_scope.

(* ---------- roots ---------- *)
Lemma root_nonneg : forall k x, 0 <= root k x.
Proof. intros k x. unfold root. destruct (Req_EM_T x 0); [lra|]. left. apply exp_pos. Qed.
Lemma root_pow : forall k x, (0 < k)%nat -> 0 <= x -> root k x ^ k = x.
Proof.
  intros k x Hk Hx. unfold root. destruct (Req_EM_T x 0) as [->|N]; [apply pow_i; auto|].
  rewrite <- Rpower_pow by apply exp_pos. rewrite Rpower_mult, Rinv_l by (apply not_0_INR; lia). apply Rpower_1. lra.
Qed.
Lemma root_zero : forall k x, (0 < k)%nat -> 0 <= x -> root k x = 0 -> x = 0.
Proof. intros k x Hk Hx H. rewrite <- (root_pow k x Hk Hx), H. apply pow_i. auto. Qed.
Lemma root_scaled : forall k x c eta t, (0 < k)%nat -> 0 <= x -> 0 <= c -> root k x <= eta -> c * eta <= t -> c ^ k * x <= t ^ k.
Proof.
  intros k x c eta t Hk Hx Hc H1 H2. rewrite <- (root_pow k x Hk Hx) at 1. rewrite <- Rpow_mult_distr. apply pow_incr. pose proof (root_nonneg k x). split; [apply Rmult_le_pos; auto|].
  apply Rle_trans with (c * eta); auto. apply Rmult_le_compat_l; auto.
Qed.

(* ---------- powers ---------- *)
Lemma pow_two : forall n A, meq n (hA2 n A) (rpow n A 2).
Proof. intros. unfold hA2. cbn [rpow]. rewrite dot_id_r. reflexivity. Qed.
Lemma pow_four : forall n A, meq n (hA4 n A) (rpow n A 4).
Proof. intros. unfold hA4. rewrite !pow_two. symmetry. apply (rpow_add n A 2 2). Qed.
Lemma pow_six : forall n A, meq n (hA6 n A) (rpow n A 6).
Proof. intros. unfold hA6. rewrite pow_two, pow_four. symmetry. apply (rpow_add n A 4 2). Qed.
Lemma pow_eight : forall n A, meq n (hA8 n A) (rpow n A 8).
Proof. intros. unfold hA8. rewrite pow_two, pow_six. symmetry. apply (rpow_add n A 6 2). Qed.
Lemma pow_ten : forall n A, meq n (hA10 n A) (rpow n A 10).
Proof. intros. unfold hA10. rewrite pow_four, pow_six. symmetry. apply (rpow_add n A 4 6). Qed.
Lemma rpow_proper : forall n A B k, meq n A B -> meq n (rpow n A k) (rpow n B k).
Proof. intros n A B k H. induction k as [|k IH]; [reflexivity|]. cbn [rpow]. apply rdot_proper; auto. Qed.
Lemma rscale_scale : forall n a b A, meq n (rscale a (rscale b A)) (rscale (a * b) A).
Proof. intros n a b A i j _ _. unfold rscale. ring. Qed.
Lemma rpow_scale : forall n c A k, meq n (rpow n (rscale c A) k) (rscale (c ^ k) (rpow n A k)).
Proof.
  intros n c A k. induction k as [|k IH]; [intros i j _ _; unfold rscale; simpl; ring|]. cbn [rpow pow]. rewrite IH, dot_scale_l, dot_scale_r, rscale_scale. reflexivity.
Qed.

Definition good (n : nat) (A : rmat) (t : R) (k : nat) : Prop := norm1 n (rpow n A k) <= t ^ k.
Lemma good_add : forall n A t j k, good n A t j -> good n A t k -> good n A t (j + k).
Proof.
  intros n A t j k Hj Hk. unfold good in *. rewrite (norm1_ext n _ _ (rpow_add n A j k)). eapply Rle_trans; [apply norm1_dot|]. rewrite pow_add. apply Rmult_le_compat; auto using norm1_nonneg.
Qed.
Lemma good_mul : forall n A t k x, good n A t k -> good n A t (k * S x).
Proof. intros n A t k x H. induction x as [|x IH]; [rewrite Nat.mul_1_r; auto|]. rewrite (Nat.mul_succ_r k (S x)). apply good_add; auto. Qed.
(** From two consecutive even powers to all large even powers. *)
Lemma good_even : forall n A t p k, (1 <= p)%nat -> (1 <= k)%nat -> (p * (p - 1) <= k)%nat -> good n A t (2 * p) -> good n A t (2 * p + 2) -> good n A t (2 * k).
Proof.
  intros n A t p k Hp Hk1 Hk G1 G2. pose proof (Nat.div_mod k p ltac:(lia)) as DM. pose proof (Nat.mod_upper_bound k p ltac:(lia)) as MB. set (r := (k mod p)%nat) in *. set (q := (k / p)%nat) in *.
  assert (r <= q)%nat as RQ by (assert (p - 1 <= q)%nat by (apply Nat.div_le_lower_bound; lia); lia).
  destruct (Nat.eq_dec r 0) as [R0|R0].
  - assert (exists x, q = S x) as [x Ex] by (exists (q - 1)%nat; nia). replace (2 * k)%nat with (2 * p * S x)%nat by nia. apply good_mul. auto.
  - destruct r as [|r']; [lia|]. destruct (Nat.eq_dec q (S r')) as [Q|Q].
    + replace (2 * k)%nat with ((2 * p + 2) * S r')%nat by nia. apply good_mul. auto.
    + assert (exists x, q = S r' + S x)%nat as [x Ex] by (exists (q - S r' - 1)%nat; lia). replace (2 * k)%nat with ((2 * p + 2) * S r' + 2 * p * S x)%nat by nia. apply good_add; apply good_mul; auto.
Qed.
Lemma norm1_pow : forall n A k, norm1 n (rpow n A (S k)) <= norm1 n A ^ S k.
Proof.
  intros n A k. induction k as [|k IH].
  - rewrite (norm1_ext n (rpow n A 1) A); [simpl; lra|]. cbn [rpow]. apply dot_id_r.
  - change (rpow n A (S (S k))) with (rdot n A (rpow n A (S k))). eapply Rle_trans; [apply norm1_dot|]. change (norm1 n A ^ S (S k)) with (norm1 n A * norm1 n A ^ S k). apply Rmult_le_compat_l; auto using norm1_nonneg.
Qed.
Lemma good_tail : forall n A t p m, 0 < t -> (1 <= p)%nat -> (1 <= m)%nat -> (p * (p - 1) <= m)%nat -> good n A t (2 * p) -> good n A t (2 * p + 2) ->
  forall k, (2 * m < k)%nat -> norm1 n (rpow n A k) * t <= norm1 n A * t ^ k.
Proof.
  intros n A t p m Pt Hp Hm Hpm G1 G2 k Hk. assert (forall j, (m <= j)%nat -> good n A t (2 * j)) as G by (intros j Hj; apply (good_even n A t p); auto; lia).
  destruct (Nat.Even_or_Odd k) as [[j ->]|[j ->]].
  - destruct (Rle_lt_dec t (norm1 n A)) as [L|L].
    + specialize (G j ltac:(lia)). unfold good in G. rewrite (Rmult_comm (norm1 n A)). apply Rmult_le_compat; auto using norm1_nonneg. lra.
    + assert (exists i, 2 * j = S i)%nat as [i Ei] by (exists (2 * j - 1)%nat; lia). rewrite Ei. apply Rle_trans with (norm1 n A ^ S i * t); [apply Rmult_le_compat_r; [lra|apply norm1_pow]|].
      cbn [pow]. rewrite Rmult_assoc. apply Rmult_le_compat_l; [apply norm1_nonneg|]. rewrite Rmult_comm. apply Rmult_le_compat_l; [lra|]. apply pow_incr. split; [apply norm1_nonneg|lra].
  - specialize (G j ltac:(lia)). unfold good in G. replace (2 * j + 1)%nat with (S (2 * j)) by lia. cbn [rpow].
    apply Rle_trans with (norm1 n A * norm1 n (rpow n A (2 * j)) * t); [apply Rmult_le_compat_r; [lra|apply norm1_dot]|]. rewrite Rmult_assoc. apply Rmult_le_compat_l; [apply norm1_nonneg|].
    cbn [pow]. rewrite Rmult_comm. apply Rmult_le_compat_l; lra.
Qed.
Lemma tail_within : forall n A t m, 0 < t -> (forall k, (2 * m < k)%nat -> norm1 n (rpow n A k) * t <= norm1 n A * t ^ k) -> exists M, 0 <= M /\ powers_within n A M t.
Proof.
  intros n A t m Pt H. set (f := fun k => norm1 n (rpow n A k) / t ^ k). assert (forall k, 0 <= f k) as Hf by (intro k; unfold f; apply Rmult_le_pos; [apply norm1_nonneg|left; apply Rinv_0_lt_compat; apply pow_lt; auto]).
  assert (0 <= norm1 n A / t) as H1 by (apply Rmult_le_pos; [apply norm1_nonneg|left; apply Rinv_0_lt_compat; auto]).
  assert (0 <= rsumn (S (2 * m)) f) as H2 by (apply rs_nonneg; auto). exists (rsumn (S (2 * m)) f + norm1 n A / t). split; [lra|]. intro k. assert (0 < t ^ k) as Pk by (apply pow_lt; auto).
  destruct (le_lt_dec k (2 * m)) as [L|L].
  - apply Rle_trans with (f k * t ^ k); [right; unfold f; field; lra|]. apply Rmult_le_compat_r; [lra|]. pose proof (rs_bound_one (S (2 * m)) f k ltac:(auto) ltac:(lia)). lra.
  - specialize (H k L). apply Rle_trans with (norm1 n A / t * t ^ k); [|apply Rmult_le_compat_r; lra]. apply (Rmult_le_reg_r t); auto. replace (norm1 n A / t * t ^ k * t) with (norm1 n A * t ^ k) by (field; lra). auto.
Qed.

(* ---------- the approximants as polynomials ---------- *)
Definition plist (b : list Z) : list R := map IZR b.
Definition qlist (b : list Z) : list R := map (fun k => (-1) ^ k * bz b k) (seq 0 (length b)).
Lemma nth_plist : forall b k, nth k (plist b) 0 = bz b k.
Proof. intros b k. unfold plist, bz. change 0 with (IZR 0) at 1. apply map_nth. Qed.
Lemma nth_qlist : forall b k, nth k (qlist b) 0 = (-1) ^ k * bz b k.
Proof. intros b k. unfold qlist. rewrite nth_map_seq. destruct (Nat.ltb_spec k (length b)) as [L|L]; auto. unfold bz. rewrite nth_overflow by auto. simpl. ring. Qed.
Definition represents (n : nat) (A : rmat) (UV : rmat * rmat) (b : list Z) : Prop := rep n A (p_of UV) (plist b) /\ rep n A (q_of UV) (qlist b).

Lemma rep_h2 : forall n A, rep n A (hA2 n A) [0; 0; 1].
Proof. exact rep_sq. Qed.
Lemma rep_h4 : forall n A, rep n A (hA4 n A) [0; 0; 0; 0; 1].
Proof. intros n A. unfold hA4. eapply rep_ext; [apply rep_dot; apply rep_h2|]. intro k. do 10 (try destruct k as [|k]); simpl; try lra; auto. Qed.
Lemma rep_h6 : forall n A, rep n A (hA6 n A) [0; 0; 0; 0; 0; 0; 1].
Proof. intros n A. unfold hA6. eapply rep_ext; [apply rep_dot; [apply rep_h4|apply rep_h2]|]. intro k. do 12 (try destruct k as [|k]); simpl; try lra; auto. Qed.
Lemma rep_h8 : forall n A, rep n A (hA8 n A) [0; 0; 0; 0; 0; 0; 0; 0; 1].
Proof. intros n A. unfold hA8. eapply rep_ext; [apply rep_dot; [apply rep_h6|apply rep_h2]|]. intro k. do 14 (try destruct k as [|k]); simpl; try lra; auto. Qed.
Ltac pad := first [apply rep_add; pad | apply rep_scale; pad | apply rep_dot; pad | eassumption | apply rep_id].
Ltac coefs := let k := fresh "k" in intro k; rewrite ?nth_plist, ?nth_qlist; unfold bz; do 16 (try destruct k as [|k]); cbn -[IZR Rmult Rplus]; try lra; auto.
Lemma rep_pade3 : forall n A, represents n A (pade3 n A) c3.
Proof.
  intros n A. pose proof (rep_self n A) as R1. pose proof (rep_h2 n A) as R2. unfold represents, p_of, q_of, pade3. cbn [fst snd].
  generalize dependent (hA2 n A). intros X2 R2. split; (eapply rep_ext; [pad|coefs]).
Qed.
Lemma rep_pade5 : forall n A, represents n A (pade5 n A) c5.
Proof.
  intros n A. pose proof (rep_self n A) as R1. pose proof (rep_h2 n A) as R2. pose proof (rep_h4 n A) as R4. unfold represents, p_of, q_of, pade5. cbn [fst snd].
  generalize dependent (hA4 n A). generalize dependent (hA2 n A). intros X2 R2 X4 R4. split; (eapply rep_ext; [pad|coefs]).
Qed.
Lemma rep_pade7 : forall n A, represents n A (pade7 n A) c7.
Proof.
  intros n A. pose proof (rep_self n A) as R1. pose proof (rep_h2 n A) as R2. pose proof (rep_h4 n A) as R4. pose proof (rep_h6 n A) as R6. unfold represents, p_of, q_of, pade7. cbn [fst snd].
  generalize dependent (hA6 n A). generalize dependent (hA4 n A). generalize dependent (hA2 n A). intros X2 R2 X4 R4 X6 R6. split; (eapply rep_ext; [pad|coefs]).
Qed.
Lemma rep_pade9 : forall n A, represents n A (pade9 n A) c9.
Proof.
  intros n A. pose proof (rep_self n A) as R1. pose proof (rep_h2 n A) as R2. pose proof (rep_h4 n A) as R4. pose proof (rep_h6 n A) as R6. pose proof (rep_h8 n A) as R8. unfold represents, p_of, q_of, pade9. cbn [fst snd].
  generalize dependent (hA8 n A). generalize dependent (hA6 n A). generalize dependent (hA4 n A). generalize dependent (hA2 n A). intros X2 R2 X4 R4 X6 R6 X8 R8. split; (eapply rep_ext; [pad|coefs]).
Qed.
Lemma down_pow : forall n A s k, meq n (down s k (rpow n A k)) (rpow n (down s 1 A) k).
Proof.
  intros n A s k. unfold down. rewrite rpow_scale, Nat.mul_1_l. intros i j _ _. unfold rscale. f_equal. rewrite pow_inv, <- pow_mult. do 2 f_equal. lia.
Qed.
Lemma down_proper : forall n s k A B, meq n A B -> meq n (down s k A) (down s k B).
Proof. intros. unfold down. apply rscale_proper; auto. Qed.
Lemma down_two : forall n A s, meq n (down s 2 (hA2 n A)) (hA2 n (down s 1 A)).
Proof. intros. rewrite (down_proper n s 2 _ _ (pow_two n A)), down_pow, pow_two. reflexivity. Qed.
Lemma down_four : forall n A s, meq n (down s 4 (hA4 n A)) (hA4 n (down s 1 A)).
Proof. intros. rewrite (down_proper n s 4 _ _ (pow_four n A)), down_pow, pow_four. reflexivity. Qed.
Lemma down_six : forall n A s, meq n (down s 6 (hA6 n A)) (hA6 n (down s 1 A)).
Proof. intros. rewrite (down_proper n s 6 _ _ (pow_six n A)), down_pow, pow_six. reflexivity. Qed.
Lemma rep_pade7_scaled : forall n A s, represents n (down s 1 A) (pade7_scaled n A s) c7.
Proof.
  intros n A s. pose proof (rep_self n (down s 1 A)) as R1. pose proof (rep_h2 n (down s 1 A)) as R2. pose proof (rep_h4 n (down s 1 A)) as R4. pose proof (rep_h6 n (down s 1 A)) as R6.
  unfold rep in R2, R4, R6. rewrite <- down_two in R2. rewrite <- down_four in R4. rewrite <- down_six in R6. unfold represents, p_of, q_of, pade7_scaled. cbn [fst snd].
  generalize dependent (down s 6 (hA6 n A)). generalize dependent (down s 4 (hA4 n A)). generalize dependent (down s 2 (hA2 n A)). intros X2 R2 X4 R4 X6 R6. fold (rep n (down s 1 A) X2 [0; 0; 1]) in R2.
  fold (rep n (down s 1 A) X4 [0; 0; 0; 0; 1]) in R4. fold (rep n (down s 1 A) X6 [0; 0; 0; 0; 0; 0; 1]) in R6. split; (eapply rep_ext; [pad|coefs]).
Qed.
Lemma rep_pade13_scaled : forall n A s, represents n (down s 1 A) (pade13_scaled n A s) c13.
Proof.
  intros n A s. pose proof (rep_self n (down s 1 A)) as R1. pose proof (rep_h2 n (down s 1 A)) as R2. pose proof (rep_h4 n (down s 1 A)) as R4. pose proof (rep_h6 n (down s 1 A)) as R6.
  unfold rep in R2, R4, R6. rewrite <- down_two in R2. rewrite <- down_four in R4. rewrite <- down_six in R6. unfold represents, p_of, q_of, pade13_scaled. cbn [fst snd].
  generalize dependent (down s 6 (hA6 n A)). generalize dependent (down s 4 (hA4 n A)). generalize dependent (down s 2 (hA2 n A)). intros X2 R2 X4 R4 X6 R6. fold (rep n (down s 1 A) X2 [0; 0; 1]) in R2.
  fold (rep n (down s 1 A) X4 [0; 0; 0; 0; 1]) in R4. fold (rep n (down s 1 A) X6 [0; 0; 0; 0; 0; 0; 1]) in R6. split; (eapply rep_ext; [pad|coefs]).
Qed.

(* ---------- solving ---------- *)
(** Both inverses, and a solver that solves every system with an inverse. *)
Definition inverse_of (n : nat) (Q Y : rmat) : Prop := meq n (rdot n Y Q) rident /\ meq n (rdot n Q Y) rident.
Definition solver (n : nat) (solve : nat -> rmat -> rmat -> rmat) : Prop := forall Q Y P, inverse_of n Q Y -> meq n (rdot n Q (solve n Q P)) P.
Lemma ser_of_list : forall n A L p a c, rep n A L p -> (forall k, c * nth k p 0 = a k) -> ser n A a (rscale c L).
Proof.
  intros n A L p a c R H. apply (ser_ext n A (fun k => nth k (pscale c p) 0)); [intro k; rewrite nth_pscale; auto|]. apply (ser_meq n A _ (peval n A (pscale c p))); [|apply ser_list].
  symmetry. apply rep_scale. auto.
Qed.
Lemma approximant : forall b m t D u n A E UV p, numbers b m t D u -> (1 <= p)%nat -> (1 <= m)%nat -> (p * (p - 1) <= m)%nat -> good n A t (2 * p) -> good n A t (2 * p + 2) ->
  is_exp n A E -> represents n A UV b ->
  (exists Y, inverse_of n (q_of UV) Y) /\
  exists G, norm1 n G <= u * norm1 n A /\ commute n E G /\ forall solve, solver n solve -> meq n (solve_P_Q solve n UV) (rdot n E (radd rident G)).
Proof.
  intros b m t D u n A E UV p NB Hp Hm Hpm G1 G2 HE [RP RQ]. pose proof (good_tail n A t p m (nb_t _ _ _ _ _ NB) Hp Hm Hpm G1 G2) as TL. destruct (tail_within n A t m (nb_t _ _ _ _ _ NB) TL) as (M & HM & PW).
  assert (0 < b0 b) as Pb by (destruct (nb_small _ _ _ _ _ NB) as [Q _]; unfold b0, bz; apply (IZR_lt 0); auto).
  assert (ser n A (pcoef b) (rscale (/ b0 b) (p_of UV))) as SP by (apply (ser_of_list n A _ (plist b)); auto; intro k; rewrite nth_plist; unfold pcoef; field; lra).
  assert (ser n A (qcoef b) (rscale (/ b0 b) (q_of UV))) as SQ by (apply (ser_of_list n A _ (qlist b)); auto; intro k; rewrite nth_qlist; unfold qcoef, pcoef; field; lra).
  destruct (pade_relative b m t D u n A M E _ _ NB HM PW TL HE SP SQ) as (Y & G & I1 & I2 & NG & CG & HX).
  assert (inverse_of n (q_of UV) (rscale (/ b0 b) Y)) as IV.
  { split; [rewrite dot_scale_l, <- dot_scale_r; exact I1|rewrite dot_scale_r, <- dot_scale_l; exact I2]. }
  split; [eauto|]. exists G. split; auto. split; auto. intros solve HS. apply HX. rewrite dot_scale_l. apply rscale_proper; auto. exact (HS _ _ _ IV).
Qed.

(* ---------- scaling ---------- *)
Lemma scaling_spec : forall eta theta s, 0 <= eta -> 0 < theta -> scaling eta theta = Some s -> / 2 ^ s * eta <= theta /\ 0 < eta.
Proof.
  intros eta theta s He Ht H. unfold scaling in H. destruct (Req_EM_T eta 0) as [|N]; [discriminate|]. injection H as H. assert (0 < eta) as Pe by lra. split; auto.
  pose proof ln_lt_2 as L2. assert (0 < ln 2) as P2 by lra. set (y := log2 (eta / theta)) in *. assert (0 < eta / theta) as Pq by (apply Rdiv_lt_0_compat; auto).
  assert (exp (y * ln 2) = eta / theta) as Ey by (unfold y, log2; replace (ln (eta / theta) / ln 2 * ln 2) with (ln (eta / theta)) by (field; lra); apply exp_ln; auto).
  assert (y <= INR s) as Hy.
  { destruct (rceil_spec y) as [C1 _]. destruct (Z_le_gt_dec 0 (rceil y)) as [L|L].
    - rewrite <- H, INR_IZR_INZ, Z2Nat.id by auto. auto.
    - apply Rle_trans with 0; [|apply pos_INR]. apply Rle_trans with (IZR (rceil y)); auto. apply (IZR_le _ 0). lia. }
  assert (eta / theta <= 2 ^ s) as G.
  { rewrite <- Ey. rewrite <- (Rpower_pow s 2) by lra. unfold Rpower. apply exp_mono. apply Rmult_le_compat_r; lra. }
  assert (0 < 2 ^ s) as Ps by (apply pow_lt; lra). apply (Rmult_le_reg_l (2 ^ s)); auto. rewrite <- Rmult_assoc, Rinv_r, Rmult_1_l by lra.
  apply (Rmult_le_compat_r theta) in G; [|lra]. unfold Rdiv in G. rewrite Rmult_assoc, Rinv_l in G by lra. lra.
Qed.
Lemma more_halvings : forall s k eta theta, 0 <= eta -> / 2 ^ s * eta <= theta -> / 2 ^ (s + k) * eta <= theta.
Proof.
  intros s k eta theta He H. eapply Rle_trans; [|exact H]. apply Rmult_le_compat_r; auto. apply Rinv_le_contravar; [apply pow_lt; lra|]. apply Rle_pow; [lra|lia].
Qed.

(* ---------- squaring ---------- *)
Lemma commute_pow : forall n X Y k, commute n X Y -> commute n (rpow n X k) Y.
Proof.
  intros n X Y k H. unfold commute in *. induction k as [|k IH]; cbn [rpow]; [rewrite dot_id_l, dot_id_r; reflexivity|]. rewrite dot_assoc, IH, <- dot_assoc, H, dot_assoc. reflexivity.
Qed.
Lemma commute_sym : forall n X Y, commute n X Y -> commute n Y X.
Proof. intros n X Y H. unfold commute in *. symmetry. auto. Qed.
Lemma product_pow : forall n X Y k, commute n X Y -> meq n (rpow n (rdot n X Y) k) (rdot n (rpow n X k) (rpow n Y k)).
Proof.
  intros n X Y k H. induction k as [|k IH]; cbn [rpow]; [rewrite dot_id_l; reflexivity|]. rewrite IH. rewrite !dot_assoc. apply rdot_proper; [reflexivity|]. rewrite <- !dot_assoc. apply rdot_proper; [|reflexivity].
  symmetry. apply (commute_pow n X Y k H).
Qed.
Lemma one_plus_pow : forall n G k, norm1 n (difference (rpow n (radd rident G) k) rident) <= (1 + norm1 n G) ^ k - 1.
Proof.
  intros n G k. induction k as [|k IH].
  - rewrite (norm1_ext n _ mzero) by (intros i j _ _; unfold difference, mzero; simpl; ring). rewrite norm1_zero. simpl. lra.
  - set (W := rpow n (radd rident G) k) in *. set (H := difference W rident) in *. pose proof (norm1_nonneg n G) as PG. pose proof (norm1_nonneg n H) as PH.
    assert (meq n (difference (rpow n (radd rident G) (S k)) rident) (radd H (radd G (rdot n G H)))) as E.
    { cbn [rpow]. fold W. assert (meq n W (radd rident H)) as EW by (intros i j _ _; unfold H, radd, difference; ring).
      assert (meq n (rdot n (radd rident G) W) (radd W (radd G (rdot n G H)))) as E1 by (rewrite dot_add_l, dot_id_l; apply radd_proper; [reflexivity|]; rewrite EW at 1; rewrite dot_add_r, dot_id_r; reflexivity).
      intros i j Hi Hj. unfold difference at 1. rewrite (E1 i j Hi Hj). unfold radd, H, difference. ring. }
    rewrite (norm1_ext n _ _ E). eapply Rle_trans; [apply norm1_add|]. pose proof (norm1_add n G (rdot n G H)). pose proof (norm1_dot n G H) as D. cbn [pow]. set (P := (1 + norm1 n G) ^ k) in *.
    assert (norm1 n G * norm1 n H <= norm1 n G * (P - 1)) by (apply Rmult_le_compat_l; auto). lra.
Qed.
Lemma squared : forall n E G X s u w, meq n X (rdot n E (radd rident G)) -> commute n E G -> 0 <= u -> 0 <= w -> norm1 n G <= u * (/ 2 ^ s * w) ->
  norm1 n (difference (rpow n X (2 ^ s)) (rpow n E (2 ^ s))) <= (exp (u * w) - 1) * norm1 n (rpow n E (2 ^ s)).
Proof.
  intros n E G X s u w HX HC Hu Hw HG. assert (commute n E (radd rident G)) as C1 by (unfold commute in *; rewrite dot_add_l, dot_add_r, dot_id_l, dot_id_r, HC; reflexivity).
  set (W := rpow n E (2 ^ s)). set (H := difference (rpow n (radd rident G) (2 ^ s)) rident).
  assert (meq n (difference (rpow n X (2 ^ s)) W) (rdot n W H)) as E1.
  { rewrite (rpow_proper n _ _ (2 ^ s) HX), (product_pow n _ _ _ C1). fold W. assert (meq n (rpow n (radd rident G) (2 ^ s)) (radd rident H)) as EW by (intros i j _ _; unfold H, radd, difference; ring).
    rewrite EW, dot_add_r, dot_id_r. intros i j _ _. unfold difference, radd. ring. }
  rewrite (norm1_ext n _ _ E1). eapply Rle_trans; [apply norm1_dot|]. rewrite Rmult_comm. apply Rmult_le_compat_r; [apply norm1_nonneg|].
  eapply Rle_trans; [apply one_plus_pow|]. apply Rplus_le_compat_r. eapply Rle_trans; [apply pow_exp; apply norm1_nonneg|]. apply exp_mono.
  rewrite pow_INR. change (INR 2) with 2. assert (0 < 2 ^ s) as Ps by (apply pow_lt; lra). apply Rle_trans with (u * (/ 2 ^ s * w) * 2 ^ s); [apply Rmult_le_compat_r; lra|]. right. field. lra.
Qed.

(* ---------- the two programs ---------- *)
Lemma good_plain : forall n A M k eta t, (0 < k)%nat -> meq n M (rpow n A k) -> root k (norm1 n M) <= eta -> eta <= t -> good n A t k.
Proof.
  intros n A M k eta t Hk HM HR Ht. unfold good. rewrite <- (norm1_ext n _ _ HM). rewrite <- (Rmult_1_l (norm1 n M)), <- (pow1 k). apply (root_scaled k _ 1 eta); auto using norm1_nonneg; lra.
Qed.
Lemma good_scaled : forall n A M s k eta t, (0 < k)%nat -> meq n M (rpow n A k) -> root k (norm1 n M) <= eta -> / 2 ^ s * eta <= t -> good n (down s 1 A) t k.
Proof.
  intros n A M s k eta t Hk HM HR Ht. unfold good, down. rewrite Nat.mul_1_l. assert (0 < / 2 ^ s) as Pc by (apply Rinv_0_lt_compat, pow_lt; lra).
  rewrite (norm1_ext n _ _ (rpow_scale n (/ 2 ^ s) A k)). eapply Rle_trans; [apply norm1_scale|]. rewrite Rabs_pos_eq by (apply pow_le; lra). rewrite <- (norm1_ext n _ _ HM). apply (root_scaled k _ _ eta); auto using norm1_nonneg; lra.
Qed.
Definition route (n : nat) (A : rmat) (u : R) (B : rmat) (s : nat) (UV : rmat * rmat) : Prop := exists b m t D p,
  numbers b m t D u /\ (1 <= p)%nat /\ (1 <= m)%nat /\ (p * (p - 1) <= m)%nat /\ good n B t (2 * p) /\ good n B t (2 * p + 2) /\ represents n B UV b /\ meq n B (rscale (/ 2 ^ s) A).
Lemma accepts_lt : forall u eta theta n A m, accepts u eta theta n A m = true -> eta < theta.
Proof. intros u eta theta n A m H. unfold accepts in H. destruct (Rlt_dec eta theta); auto. discriminate. Qed.
Lemma scale_one : forall n A, meq n A (rscale (/ 2 ^ 0) A).
Proof. intros n A i j _ _. unfold rscale. simpl. field. Qed.
Lemma norm1_null : forall n M, norm1 n M = 0 -> meq n M mzero.
Proof.
  intros n M H i j Hi Hj. pose proof (entry_norm1 n M i j Hi Hj) as L. rewrite H in L. pose proof (Rabs_pos (M i j)). unfold mzero. destruct (Req_dec (M i j) 0) as [|N]; auto. apply Rabs_pos_lt in N. lra.
Qed.
Lemma root_null : forall n A M k, (0 < k)%nat -> meq n M (rpow n A k) -> root k (norm1 n M) = 0 -> meq n (rpow n A k) mzero.
Proof. intros n A M k Hk HM HR. rewrite <- HM. apply norm1_null. apply (root_zero k); auto. apply norm1_nonneg. Qed.
Lemma rpow_self : forall n X, meq n X (rpow n X (2 ^ 0)).
Proof. intros n X. cbn [Nat.pow rpow]. symmetry. apply dot_id_r. Qed.
Lemma down_scale : forall n A s, meq n (down s 1 A) (rscale (/ 2 ^ s) A).
Proof. intros. unfold down. rewrite Nat.mul_1_l. reflexivity. Qed.
Ltac plain e := eapply (good_plain _ _ _ _ e); [lia|first [apply pow_four|apply pow_six|apply pow_eight|apply pow_ten]|first [apply Rmax_l|apply Rmax_r]|].

Lemma route64 : forall n A, n <> 1%nat ->
  (exists B s UV, route n A (112 / 10 ^ 18) B s UV /\ forall solve, exists X, expm64 solve n A = Some X /\ meq n X (rpow n (solve_P_Q solve n UV) (2 ^ s))) \/
  ((forall solve, expm64 solve n A = None) /\ meq n (rpow n A 8) mzero).
Proof.
  intros n A Hn. assert (IZR 112 / IZR (10 ^ 18) = 112 / 10 ^ 18) as EU by (f_equal; simpl; f_equal; ring). unfold expm64. destruct (Nat.eqb_spec n 1) as [|_]; [contradiction|].
  assert (theta64 0 <= 14956 / 1000000 /\ theta64 1 <= 25395 / 100000 /\ theta64 2 <= 95043 / 100000 /\ theta64 3 <= 20979 / 10000 /\ theta64 4 = 17 / 4) as (T0 & T1 & T2 & T3 & T4).
  { unfold theta64, thetas64. cbn [nth]. unfold Q2R. cbn [Qnum Qden]. lra. }
  destruct (accepts u64 (Rmax (d4 n A) (d6 n A)) (theta64 0) n A 3) eqn:A3.
  { left. exists A, 0%nat, (pade3 n A). apply accepts_lt in A3. split; [|intro solve; eexists; split; [reflexivity|apply rpow_self]].
    exists c3, 3%nat, (14956 / 1000000), (1 / 1000), 2%nat. rewrite <- EU. split; [apply num3|]. do 3 (split; [lia|]). split; [change (2 * 2)%nat with 4%nat; plain (Rmax (d4 n A) (d6 n A)); lra|]. split; [change (2 * 2 + 2)%nat with 6%nat; plain (Rmax (d4 n A) (d6 n A)); lra|]. split; [apply rep_pade3|apply scale_one]. }
  destruct (accepts u64 (Rmax (d4 n A) (d6 n A)) (theta64 1) n A 5) eqn:A5.
  { left. exists A, 0%nat, (pade5 n A). apply accepts_lt in A5. split; [|intro solve; eexists; split; [reflexivity|apply rpow_self]].
    exists c5, 5%nat, (25395 / 100000), (1 / 1000), 2%nat. rewrite <- EU. split; [apply num5|]. do 3 (split; [lia|]). split; [change (2 * 2)%nat with 4%nat; plain (Rmax (d4 n A) (d6 n A)); lra|]. split; [change (2 * 2 + 2)%nat with 6%nat; plain (Rmax (d4 n A) (d6 n A)); lra|]. split; [apply rep_pade5|apply scale_one]. }
  destruct (accepts u64 (Rmax (d6 n A) (d8 n A)) (theta64 2) n A 7) eqn:A7.
  { left. exists A, 0%nat, (pade7 n A). apply accepts_lt in A7. split; [|intro solve; eexists; split; [reflexivity|apply rpow_self]].
    exists c7, 7%nat, (95043 / 100000), (9 / 1000), 3%nat. rewrite <- EU. split; [apply num7|]. do 3 (split; [lia|]). split; [change (2 * 3)%nat with 6%nat; plain (Rmax (d6 n A) (d8 n A)); lra|]. split; [change (2 * 3 + 2)%nat with 8%nat; plain (Rmax (d6 n A) (d8 n A)); lra|]. split; [apply rep_pade7|apply scale_one]. }
  destruct (accepts u64 (Rmax (d6 n A) (d8 n A)) (theta64 3) n A 9) eqn:A9.
  { left. exists A, 0%nat, (pade9 n A). apply accepts_lt in A9. split; [|intro solve; eexists; split; [reflexivity|apply rpow_self]].
    exists c9, 9%nat, (20979 / 10000), (33 / 1000), 3%nat. rewrite <- EU. split; [apply num9|]. do 3 (split; [lia|]). split; [change (2 * 3)%nat with 6%nat; plain (Rmax (d6 n A) (d8 n A)); lra|]. split; [change (2 * 3 + 2)%nat with 8%nat; plain (Rmax (d6 n A) (d8 n A)); lra|]. split; [apply rep_pade9|apply scale_one]. }
  set (eta3 := Rmax (d6 n A) (d8 n A)) in *. set (eta4 := Rmax (d8 n A) (d10 n A)) in *.
  assert (0 <= d6 n A /\ 0 <= d8 n A /\ 0 <= d10 n A) as (P6 & P8 & P10) by (repeat split; apply root_nonneg).
  assert (d6 n A <= eta3 /\ d8 n A <= eta3 /\ d8 n A <= eta4 /\ d10 n A <= eta4) as (L1 & L2 & L3 & L4) by (unfold eta3, eta4; repeat split; first [apply Rmax_l|apply Rmax_r]).
  destruct (scaling (Rmin eta3 eta4) (theta64 4)) as [s0|] eqn:ES.
  - left. assert (0 <= Rmin eta3 eta4) as PM by (apply Rmin_glb; lra). assert (0 < theta64 4) as PT by lra. destruct (scaling_spec _ _ _ PM PT ES) as [S1 _]. set (s := (s0 + ell u64 n (rscale (/ 2 ^ s0) A) 13)%nat).
    pose proof (more_halvings s0 (ell u64 n (rscale (/ 2 ^ s0) A) 13) _ _ PM S1) as S2. fold s in S2. rewrite T4 in S2.
    exists (down s 1 A), s, (pade13_scaled n A s). split; [|intro solve; eexists; split; [reflexivity|reflexivity]].
    unfold Rmin in S2. destruct (Rle_dec eta3 eta4) as [LE|GT].
    + exists c13, 13%nat, (17 / 4), (1 / 10), 3%nat. rewrite <- EU. split; [apply num13|]. do 3 (split; [lia|]).
      split; [apply (good_scaled n A _ s 6 eta3 _ ltac:(lia) (pow_six n A)); auto|]. split; [apply (good_scaled n A _ s 8 eta3 _ ltac:(lia) (pow_eight n A)); auto|]. split; [apply rep_pade13_scaled|apply down_scale].
    + exists c13, 13%nat, (17 / 4), (1 / 10), 4%nat. rewrite <- EU. split; [apply num13|]. do 3 (split; [lia|]).
      split; [apply (good_scaled n A _ s 8 eta4 _ ltac:(lia) (pow_eight n A)); auto|]. split; [apply (good_scaled n A _ s 10 eta4 _ ltac:(lia) (pow_ten n A)); auto|]. split; [apply rep_pade13_scaled|apply down_scale].
  - right. split; auto. unfold scaling in ES. destruct (Req_EM_T (Rmin eta3 eta4) 0) as [Z|]; [|discriminate]. apply (root_null n A _ 8 ltac:(lia) (pow_eight n A)). fold (d8 n A).
    unfold Rmin in Z. destruct (Rle_dec eta3 eta4); lra.
Qed.
Lemma route32 : forall n A, n <> 1%nat ->
  (exists B s UV, route n A (62 / 10 ^ 9) B s UV /\ forall solve, exists X, expm32 solve n A = Some X /\ meq n X (rpow n (solve_P_Q solve n UV) (2 ^ s))) \/
  ((forall solve, expm32 solve n A = None) /\ meq n (rpow n A 6) mzero).
Proof.
  intros n A Hn. assert (IZR 62 / IZR (10 ^ 9) = 62 / 10 ^ 9) as EU by (f_equal; simpl; f_equal; ring). unfold expm32. destruct (Nat.eqb_spec n 1) as [|_]; [contradiction|].
  assert (theta32 0 <= 4259 / 10000 /\ theta32 1 <= 18802 / 10000 /\ 0 < theta32 2 <= 39258 / 10000) as (T0 & T1 & T2).
  { unfold theta32, thetas32. cbn [nth]. unfold Q2R. cbn [Qnum Qden]. lra. }
  destruct (accepts u32 (Rmax (d4 n A) (d6 n A)) (theta32 0) n A 3) eqn:A3.
  { left. exists A, 0%nat, (pade3 n A). apply accepts_lt in A3. split; [|intro solve; eexists; split; [reflexivity|apply rpow_self]].
    exists c3, 3%nat, (4259 / 10000), (5 / 1000), 2%nat. rewrite <- EU. split; [apply num3s|]. do 3 (split; [lia|]). split; [change (2 * 2)%nat with 4%nat; plain (Rmax (d4 n A) (d6 n A)); lra|]. split; [change (2 * 2 + 2)%nat with 6%nat; plain (Rmax (d4 n A) (d6 n A)); lra|]. split; [apply rep_pade3|apply scale_one]. }
  destruct (accepts u32 (Rmax (d4 n A) (d6 n A)) (theta32 1) n A 5) eqn:A5.
  { left. exists A, 0%nat, (pade5 n A). apply accepts_lt in A5. split; [|intro solve; eexists; split; [reflexivity|apply rpow_self]].
    exists c5, 5%nat, (18802 / 10000), (51 / 1000), 2%nat. rewrite <- EU. split; [apply num5s|]. do 3 (split; [lia|]). split; [change (2 * 2)%nat with 4%nat; plain (Rmax (d4 n A) (d6 n A)); lra|]. split; [change (2 * 2 + 2)%nat with 6%nat; plain (Rmax (d4 n A) (d6 n A)); lra|]. split; [apply rep_pade5|apply scale_one]. }
  set (eta3 := Rmax (d6 n A) (d8 n A)) in *. assert (0 <= d6 n A /\ 0 <= d8 n A) as (P6 & P8) by (split; apply root_nonneg).
  assert (d6 n A <= eta3 /\ d8 n A <= eta3) as (L1 & L2) by (unfold eta3; split; [apply Rmax_l|apply Rmax_r]).
  destruct (scaling eta3 (theta32 2)) as [s0|] eqn:ES.
  - left. assert (0 <= eta3) as PM by lra. destruct (scaling_spec _ _ _ PM (proj1 T2) ES) as [S1 _]. set (s := (s0 + ell u32 n (rscale (/ 2 ^ s0) A) 7)%nat).
    pose proof (more_halvings s0 (ell u32 n (rscale (/ 2 ^ s0) A) 7) _ _ PM S1) as S2. fold s in S2.
    exists (down s 1 A), s, (pade7_scaled n A s). split; [|intro solve; eexists; split; [reflexivity|reflexivity]].
    exists c7, 7%nat, (39258 / 10000), (163 / 1000), 3%nat. rewrite <- EU. split; [apply num7s|]. do 3 (split; [lia|]).
    split; [apply (good_scaled n A _ s 6 eta3 _ ltac:(lia) (pow_six n A)); auto; lra|]. split; [apply (good_scaled n A _ s 8 eta3 _ ltac:(lia) (pow_eight n A)); auto; lra|]. split; [apply rep_pade7_scaled|apply down_scale].
  - right. split; auto. unfold scaling in ES. destruct (Req_EM_T eta3 0) as [Z|]; [|discriminate]. apply (root_null n A _ 6 ltac:(lia) (pow_six n A)). fold (d6 n A). lra.
Qed.
Lemma route_accuracy : forall n A E u B s UV, 0 <= u -> is_exp n A E -> route n A u B s UV ->
  (exists Y, inverse_of n (q_of UV) Y) /\
  forall solve X, solver n solve -> meq n X (rpow n (solve_P_Q solve n UV) (2 ^ s)) -> norm1 n (difference X E) <= (exp (u * norm1 n A) - 1) * norm1 n E.
Proof.
  intros n A E u B s UV Hu HE (b & m & t & D & p & NB & Hp & Hm & Hpm & G1 & G2 & HR & HB). destruct (exp_exists n B) as [F HF].
  destruct (approximant b m t D u n B F UV p NB Hp Hm Hpm G1 G2 HF HR) as (IV & G & NG & CG & HX). split; auto. intros solve X HS EX. assert (0 < 2 ^ s) as Ps by (apply pow_lt; lra).
  assert (meq n E (rpow n F (2 ^ s))) as EE.
  { apply (exp_unique n A); auto. apply (is_exp_ext n (rscale (2 ^ s) B)); [|apply exp_pow2; auto]. rewrite HB, rscale_scale. intros i j _ _. unfold rscale. field. lra. }
  rewrite (norm1_ext n _ (difference (rpow n (solve_P_Q solve n UV) (2 ^ s)) (rpow n F (2 ^ s)))) by (rewrite EX, EE; reflexivity). rewrite (norm1_ext n E _ EE).
  apply (squared n F G _ s u); auto using norm1_nonneg. eapply Rle_trans; [exact NG|]. apply Rmult_le_compat_l; auto. rewrite (norm1_ext n _ _ HB). eapply Rle_trans; [apply norm1_scale|]. rewrite Rabs_pos_eq; [lra|]. left. apply Rinv_0_lt_compat. auto.
Qed.
