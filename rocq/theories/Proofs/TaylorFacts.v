(** The Taylor approximants as polynomials, and their coefficients. *)

From Coq Require Import List Arith Lia Bool ZArith QArith Qreals Reals Lra Setoid Morphisms.
From Verif Require Import Model.Py Model.LocalScore Model.KCI Model.Expm Spec.Scores Spec.ExpmSpec Proofs.BicFacts Proofs.PopulationFacts Proofs.KCIFacts Proofs.GaussianFacts Proofs.ExpmFacts.
Import ListNotations.
Open Scope R_scope.

Definition tcoef (d : nat) : list R := map (fun k => / INR (fact k)) (seq 0 (S d)).
Lemma nth_map_seq : forall (f : nat -> R) d k, nth k (map f (seq 0 d)) 0 = if Nat.ltb k d then f k else 0.
Proof.
  intros f d k. destruct (Nat.ltb_spec k d) as [L|L].
  - rewrite nth_indep with (d' := f 0%nat) by (rewrite map_length, seq_length; auto). rewrite map_nth, seq_nth by auto. auto.
  - apply nth_overflow. rewrite map_length, seq_length. auto.
Qed.
Lemma truncated_peval : forall n d A, meq n (truncated n d A) (peval n A (tcoef d)).
Proof.
  intros n d A. rewrite peval_sum. unfold tcoef. rewrite map_length, seq_length. intros i j Hi Hj. unfold truncated. rewrite rsumn_sumR. apply sum_ext. intros k Hk.
  rewrite nth_map_seq. destruct (Nat.ltb_spec k (S d)); [|lia]. rewrite power_model by auto. unfold Rdiv. ring.
Qed.

Ltac reps := repeat first [apply rep_add | apply rep_scale | apply rep_dot | apply rep_id | apply rep_self].
Ltac kcases k := do 10 (try destruct k as [|k]).

Lemma rep_taylor1 : forall n A, rep n A (taylor n A 1) (tcoef 1).
Proof.
  intros n A. unfold taylor, taylor_approx. eapply rep_ext; [reps|]. intro k. unfold tcoef. do 3 (try destruct k as [|k]); simpl; try lra; destruct k; auto.
Qed.
Lemma rep_taylor2 : forall n A, rep n A (taylor n A 2) (tcoef 2).
Proof.
  intros n A. unfold taylor, taylor_approx. eapply rep_ext; [reps|]. intro k. unfold tcoef. do 4 (try destruct k as [|k]); simpl; try lra; destruct k; auto.
Qed.
Lemma rep_taylor4 : forall n A, rep n A (taylor n A 4) (tcoef 4).
Proof.
  intros n A. unfold taylor, taylor_approx. eapply rep_ext; [reps|]. intro k. unfold tcoef. do 6 (try destruct k as [|k]); simpl; try lra; destruct k; auto.
Qed.
Lemma tcoef_Z : forall d, tcoef d = map (fun k => / IZR (Z.of_nat (fact k))) (seq 0 (S d)).
Proof. intro d. unfold tcoef. apply map_ext. intro k. rewrite INR_IZR_INZ. auto. Qed.
Lemma tcoef8 : tcoef 8 = [/ 1; / 1; / 2; / 6; / 24; / 120; / 720; / 5040; / 40320].
Proof. rewrite tcoef_Z. cbn [map seq]. repeat (f_equal; [f_equal; f_equal; vm_compute; reflexivity|]). reflexivity. Qed.
Lemma rep_taylor8 : forall n A, rep n A (taylor n A 8) (tcoef 8).
Proof.
  intros n A. unfold taylor, taylor_approx. set (s := sqrt 177). assert (s * s = 177) as S2 by (apply sqrt_sqrt; lra).
  assert (s * s * s = 177 * s) as S3 by (rewrite S2; auto).
  replace ((1 + s) * (2 / 3) / 88) with ((1 + s) * / 132) by field.
  replace ((1 + s) * (2 / 3) / 352) with ((1 + s) * / 528) by field.
  replace ((-271 + 29 * s) / (315 * (2 / 3))) with ((-271 + 29 * s) * / 210) by field.
  replace (11 * (-1 + s) / (1260 * (2 / 3))) with ((-1 + s) * (11 * / 840)) by field.
  replace (11 * (-9 + s) / (5040 * (2 / 3))) with ((-9 + s) * (11 * / 3360)) by field.
  replace ((89 - s) / (5040 * (2 / 3) * (2 / 3))) with ((89 - s) * / 2240) by field.
  eapply rep_ext; [reps|]. intro k. rewrite tcoef8. do 10 (try destruct k as [|k]); simpl; try lra; destruct k; auto.
Qed.

(* ---------- degrees 12 and 18 ---------- *)
(** Polynomials with integer coefficients over a common denominator. *)
Fixpoint zadd (p q : list Z) : list Z := match p, q with [], _ => q | _, [] => p | a :: p', b :: q' => (a + b)%Z :: zadd p' q' end.
Definition zscale (c : Z) (p : list Z) : list Z := map (Z.mul c) p.
Fixpoint zmul (p q : list Z) : list Z := match p with [] => [] | a :: p' => zadd (zscale a q) (0%Z :: zmul p' q) end.
Definition over (D : Z) (p : list Z) : list R := map (fun z => IZR z / IZR D) p.
Lemma over_add : forall D p q, padd (over D p) (over D q) = over D (zadd p q).
Proof.
  intros D. induction p as [|a p IH]; intros [|b q]; simpl; auto. f_equal; auto. rewrite plus_IZR. unfold Rdiv. ring.
Qed.
Lemma over_scale : forall D E c p, (E <> 0)%Z -> pscale (IZR c / IZR E) (over D p) = over (E * D) (zscale c p).
Proof.
  intros D E c p HE. unfold pscale, over, zscale. rewrite !map_map. apply map_ext. intro z. rewrite !mult_IZR. unfold Rdiv. rewrite Rinv_mult. ring.
Qed.
Lemma over_zero : forall D, 0 = IZR 0 / IZR D.
Proof. intro D. unfold Rdiv. ring. Qed.
Lemma over_mul : forall D E p q, (E <> 0)%Z -> pmul (over E p) (over D q) = over (E * D) (zmul p q).
Proof.
  intros D E p q HE. induction p as [|a p IH]; auto. change (over E (a :: p)) with (IZR a / IZR E :: over E p). cbn [pmul zmul]. rewrite IH, over_scale by auto.
  rewrite (over_zero (E * D)) at 1. change (IZR 0 / IZR (E * D) :: over (E * D) (zmul p q)) with (over (E * D) (0%Z :: zmul p q)). apply over_add.
Qed.
Lemma over_up : forall D E p, (E <> 0)%Z -> over D p = over (E * D) (zscale E p).
Proof.
  intros D E p HE. unfold over, zscale. rewrite map_map. apply map_ext. intro z. rewrite !mult_IZR. unfold Rdiv. rewrite Rinv_mult.
  assert (IZR E <> 0) by (apply not_0_IZR; auto).
  replace (IZR E * IZR z * (/ IZR E * / IZR D)) with ((IZR E * / IZR E) * (IZR z * / IZR D)) by ring. rewrite Rinv_r by auto. ring.
Qed.

Definition D12 : Z := 100000000000000000000000.
Definition z12 : list (list Z) :=
  [ [-1860232051462055308240; -500702322573317714499; -57342012296052224940000; -13339969394389206147600];
    [460000000000000000000000; 99287510353848684729900; -13244556105279964297600; 172990000000000000000];
    [21169311829980944073000; 15822438471572672358300; 16563516943672740300300; 1078627793157924293080];
    [0; -13181061013830183692400; -2027855540589259056290; -675951846863086323186] ]%Z.
Definition D18 : Z := 10000000000000000000000000.
Definition z18 : list (list Z) :=
  [ [0; -1003655810301446182910000; -80292464824115693244900; -8921384980457299851770; 0];
    [0; 3978497494996450778440000; 13678377846041172016800000; 4982896225253826694160000; -6378981945947232801500];
    [-109676396052962061844000000; 16801581387890620611400000; 571779846478865511061000; -69821012248805205610600; 334975017086070470649];
    [-904316832390810593223000; -676404519071381882256000; 675961301770459654925000; 295552570429315521194000; -139180257516060693404];
    [0; 0; -923364619367118555360000; -169364939002081722752000; -140086798182036094347] ]%Z.

Fixpoint same_row (D : Z) (q : list Q) (z : list Z) : bool :=
  match q, z with [], [] => true | a :: q', b :: z' => Z.eqb (Qnum a * D) (b * Zpos (Qden a)) && same_row D q' z' | _, _ => false end.
Lemma row_over : forall D q z, (D <> 0)%Z -> same_row D q z = true -> map Q2R q = over D z.
Proof.
  intros D q z HD. revert z. induction q as [|a q IH]; intros [|b z] H; simpl in *; auto; try discriminate. apply andb_prop in H. destruct H as [H1 H2].
  f_equal; auto. apply Z.eqb_eq in H1. unfold Q2R, Rdiv. apply (f_equal IZR) in H1. rewrite !mult_IZR in H1.
  assert (IZR D <> 0) by (apply not_0_IZR; auto). assert (IZR (Zpos (Qden a)) <> 0) by (apply not_0_IZR; discriminate). field_simplify_eq; auto; lra.
Qed.
Lemma rows12 : forall r, (r < 4)%nat -> row b12 r = over D12 (nth r z12 []).
Proof. intros r Hr. apply row_over; [discriminate|]. do 4 (destruct r as [|r]; [vm_compute; reflexivity|]). lia. Qed.
Lemma rows18 : forall r, (r < 5)%nat -> row b18 r = over D18 (nth r z18 []).
Proof. intros r Hr. apply row_over; [discriminate|]. do 5 (destruct r as [|r]; [vm_compute; reflexivity|]). lia. Qed.

Lemma rep_sq : forall n A, rep n A (rdot n A A) [0; 0; 1].
Proof. intros n A. eapply rep_ext; [reps|]. intro k. do 4 (try destruct k as [|k]); simpl; try ring; destruct k; auto. Qed.
Lemma rep_cube : forall n A, rep n A (rdot n A (rdot n A A)) [0; 0; 0; 1].
Proof. intros n A. eapply rep_ext; [apply rep_dot; [apply rep_self|apply rep_sq]|]. intro k. do 5 (try destruct k as [|k]); simpl; try ring; destruct k; auto. Qed.
Lemma rep_sixth : forall n A, rep n A (rdot n (rdot n A (rdot n A A)) (rdot n A (rdot n A A))) [0; 0; 0; 0; 0; 0; 1].
Proof. intros n A. eapply rep_ext; [apply rep_dot; apply rep_cube|]. intro k. do 8 (try destruct k as [|k]); simpl; try ring; destruct k; auto. Qed.
Lemma rep_four : forall n A a b c d, rep n A (combo [a; b; c; d] [rident; A; rdot n A A; rdot n A (rdot n A A)]) [a; b; c; d].
Proof.
  intros n A a b c d. eapply rep_ext; [apply rep_combo; repeat constructor; [apply rep_id|apply rep_self|apply rep_sq|apply rep_cube]|].
  intro k. do 5 (try destruct k as [|k]); simpl; try ring; destruct k; auto.
Qed.
Lemma rep_five : forall n A a b c d e, rep n A (combo [a; b; c; d; e] [rident; A; rdot n A A; rdot n A (rdot n A A); rdot n (rdot n A (rdot n A A)) (rdot n A (rdot n A A))]) [a; b; c; d; 0; 0; e].
Proof.
  intros n A a b c d e. eapply rep_ext; [apply rep_combo; repeat constructor; [apply rep_id|apply rep_self|apply rep_sq|apply rep_cube|apply rep_sixth]|].
  intro k. do 8 (try destruct k as [|k]); simpl; try ring; destruct k; auto.
Qed.

Definition zrow12 (r : nat) : list Z := nth r z12 [].
Definition zaux12 : list Z := zadd (zscale D12 (zrow12 2)) (zmul (zrow12 3) (zrow12 3)).
Definition zpoly12 : list Z := zadd (zscale (D12 * D12 * D12) (zrow12 0)) (zmul (zadd (zscale D12 (zrow12 1)) zaux12) zaux12).
Definition six (z : list Z) : list Z := match z with [a; b; c; d; e] => [a; b; c; d; 0; 0; e]%Z | _ => [] end.
Definition zrow18 (r : nat) : list Z := six (nth r z18 []).
Definition zaux18 : list Z := zadd (zmul (zrow18 0) (zrow18 4)) (zscale D18 (zrow18 3)).
Definition zpoly18 : list Z := zadd (zscale (D18 * D18 * D18) (zrow18 1)) (zmul (zadd (zscale D18 (zrow18 2)) zaux18) zaux18).

Lemma rep_row12 : forall n A r, (r < 4)%nat -> rep n A (combo (row b12 r) [rident; A; rdot n A A; rdot n A (rdot n A A)]) (over D12 (zrow12 r)).
Proof.
  intros n A r Hr. rewrite rows12 by auto. unfold zrow12. do 4 (destruct r as [|r]; [apply rep_four|]). lia.
Qed.
Lemma rep_row18 : forall n A r, (r < 5)%nat -> rep n A (combo (row b18 r) [rident; A; rdot n A A; rdot n A (rdot n A A); rdot n (rdot n A (rdot n A A)) (rdot n A (rdot n A A))]) (over D18 (zrow18 r)).
Proof.
  intros n A r Hr. rewrite rows18 by auto. unfold zrow18.
  assert (forall a b c d e, over D18 [a; b; c; d; 0; 0; e]%Z = [IZR a / IZR D18; IZR b / IZR D18; IZR c / IZR D18; IZR d / IZR D18; 0; 0; IZR e / IZR D18]) as E.
  { intros. unfold over. cbn [map]. do 4 f_equal. f_equal; [symmetry; apply over_zero|]. f_equal; symmetry; apply over_zero. }
  do 5 (destruct r as [|r]; [cbn [nth z18 six]; rewrite E; apply rep_five|]). lia.
Qed.
Lemma rep_taylor12 : forall n A, rep n A (taylor n A 12) (over (D12 * D12 * (D12 * D12)) zpoly12).
Proof.
  intros n A. unfold taylor, taylor_approx.
  assert (D12 <> 0)%Z as H1 by discriminate. assert (D12 * D12 <> 0)%Z as H2 by discriminate. assert (D12 * D12 * D12 <> 0)%Z as H3 by discriminate.
  assert (rep n A (radd (combo (row b12 2) [rident; A; rdot n A A; rdot n A (rdot n A A)]) (rdot n (combo (row b12 3) [rident; A; rdot n A A; rdot n A (rdot n A A)]) (combo (row b12 3) [rident; A; rdot n A A; rdot n A (rdot n A A)])))
     (over (D12 * D12) zaux12)) as Q.
  { unfold zaux12. rewrite <- over_add. apply rep_add; [rewrite <- over_up by auto; apply rep_row12; lia|]. rewrite <- over_mul by auto. apply rep_dot; apply rep_row12; lia. }
  unfold zpoly12. rewrite <- over_add. apply rep_add.
  - replace (D12 * D12 * (D12 * D12))%Z with (D12 * D12 * D12 * D12)%Z by ring. rewrite <- over_up by auto. apply rep_row12. lia.
  - rewrite <- over_mul by auto. apply rep_dot; [|exact Q]. rewrite <- over_add. apply rep_add; [|exact Q]. rewrite <- over_up by auto. apply rep_row12. lia.
Qed.
Lemma rep_taylor18 : forall n A, rep n A (taylor n A 18) (over (D18 * D18 * (D18 * D18)) zpoly18).
Proof.
  intros n A. unfold taylor, taylor_approx.
  assert (D18 <> 0)%Z as H1 by discriminate. assert (D18 * D18 <> 0)%Z as H2 by discriminate. assert (D18 * D18 * D18 <> 0)%Z as H3 by discriminate.
  set (st := [rident; A; rdot n A A; rdot n A (rdot n A A); rdot n (rdot n A (rdot n A A)) (rdot n A (rdot n A A))]).
  assert (rep n A (radd (rdot n (combo (row b18 0) st) (combo (row b18 4) st)) (combo (row b18 3) st)) (over (D18 * D18) zaux18)) as Q.
  { unfold zaux18. rewrite <- over_add. apply rep_add; [|rewrite <- over_up by auto; apply rep_row18; lia]. rewrite <- over_mul by auto. apply rep_dot; apply rep_row18; lia. }
  unfold zpoly18. rewrite <- over_add. apply rep_add.
  - replace (D18 * D18 * (D18 * D18))%Z with (D18 * D18 * D18 * D18)%Z by ring. rewrite <- over_up by auto. apply rep_row18. lia.
  - rewrite <- over_mul by auto. apply rep_dot; [|exact Q]. rewrite <- over_add. apply rep_add; [|exact Q]. rewrite <- over_up by auto. apply rep_row18. lia.
Qed.

(** All coefficients agree with 1 / k! up to the factor 1 +- 10^-15. *)
Fixpoint zfact (k : nat) : Z := match k with O => 1%Z | S k' => (Z.of_nat (S k') * zfact k')%Z end.
Lemma zfact_fact : forall k, zfact k = Z.of_nat (fact k).
Proof. induction k as [|k IH]; auto. change (zfact (S k)) with (Z.of_nat (S k) * zfact k)%Z. rewrite IH, <- Nat2Z.inj_mul. auto. Qed.
Definition zclose (D : Z) (d : nat) (p : list Z) : bool :=
  forallb (fun k => Z.leb (Z.abs (nth k p 0%Z * zfact k - D) * 1000000000000000) D) (seq 0 (S d)) && forallb (Z.eqb 0) (skipn (S d) p).
Definition close_to_exp (eps : R) (d : nat) (p : list R) : Prop :=
  (forall k, (k <= d)%nat -> Rabs (nth k p 0 - / INR (fact k)) <= eps / INR (fact k)) /\ (forall k, (d < k)%nat -> nth k p 0 = 0).

Lemma zclose_close : forall D d p, (0 < D)%Z -> zclose D d p = true -> close_to_exp (/ 10 ^ 15) d (over D p).
Proof.
  intros D d p HD H. apply andb_prop in H. destruct H as [H1 H2].
  assert (forall k, nth k (over D p) 0 = IZR (nth k p 0%Z) / IZR D) as N.
  { intro k. rewrite (over_zero D) at 1. unfold over. rewrite (map_nth (fun z => IZR z / IZR D)). auto. }
  assert (0 < IZR D) as HD' by (apply IZR_lt; auto).
  split.
  - intros k Hk. rewrite forallb_forall in H1. specialize (H1 k). rewrite in_seq in H1. specialize (H1 ltac:(lia)). apply Z.leb_le in H1.
    apply IZR_le in H1. rewrite mult_IZR, abs_IZR, minus_IZR, mult_IZR, zfact_fact, <- INR_IZR_INZ in H1. rewrite N.
    assert (0 < INR (fact k)) as F by apply INR_fact_lt_0.
    replace (IZR (nth k p 0%Z) / IZR D - / INR (fact k)) with ((IZR (nth k p 0%Z) * INR (fact k) - IZR D) * / (IZR D * INR (fact k))) by (field; split; lra).
    rewrite Rabs_mult. rewrite (Rabs_pos_eq (/ (IZR D * INR (fact k)))) by (left; apply Rinv_0_lt_compat; apply Rmult_lt_0_compat; auto).
    apply (Rmult_le_reg_r (IZR D * INR (fact k))); [apply Rmult_lt_0_compat; auto|].
    rewrite Rmult_assoc, Rinv_l by (apply Rgt_not_eq; apply Rmult_lt_0_compat; auto).
    replace (/ 10 ^ 15 / INR (fact k) * (IZR D * INR (fact k))) with (IZR D * / 10 ^ 15 * (/ INR (fact k) * INR (fact k))) by (unfold Rdiv; ring).
    rewrite Rinv_l by lra. lra.
  - intros k Hk. rewrite N. rewrite forallb_forall in H2.
    assert (nth k p 0%Z = 0%Z) as E; [|rewrite E; unfold Rdiv; ring].
    destruct (Nat.lt_ge_cases k (length p)) as [L|L]; [|apply nth_overflow; auto].
    symmetry. apply Z.eqb_eq. apply H2. rewrite <- (firstn_skipn (S d) p) at 1. rewrite app_nth2; rewrite firstn_length, Nat.min_l by lia; [|lia].
    apply nth_In. rewrite skipn_length. lia.
Qed.
Lemma close12 : close_to_exp (/ 10 ^ 15) 12 (over (D12 * D12 * (D12 * D12)) zpoly12).
Proof. apply zclose_close; [reflexivity|]. vm_compute. reflexivity. Qed.
Lemma close18 : close_to_exp (/ 10 ^ 15) 18 (over (D18 * D18 * (D18 * D18)) zpoly18).
Proof. apply zclose_close; [reflexivity|]. vm_compute. reflexivity. Qed.
