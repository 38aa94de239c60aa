(** The gradient of the acyclicity penalty and the loop of notears_linear. *)

From Coq Require Import List Arith Bool Lia QArith Qabs Qround Lqa.
From Verif Require Import Model.Py Model.SHP Model.Matrix Model.Notears Spec.Sums.
From Verif Require Import Proofs.SimFacts Proofs.MatrixFacts Proofs.NotearsFacts.
Import ListNotations.
Open Scope nat_scope.

(** First-order expansion at 0 with a quadratic remainder. *)
Definition expands (f : Q -> Q) (f0 f1 : Q) : Prop :=
  exists (r : Q -> Q) (c : Q), forall t, (Qabs t <= 1)%Q -> (f t == f0 + t * f1 + t * t * r t)%Q /\ (Qabs (r t) <= c)%Q.

Lemma Qabs_nn : forall x, (0 <= Qabs x)%Q.
Proof. apply Qabs_nonneg. Qed.

Lemma expands_ext : forall f g a a' b b', (forall t, (f t == g t)%Q) -> (a == a')%Q -> (b == b')%Q -> expands f a b -> expands g a' b'.
Proof.
  intros f g a a' b b' H Ha Hb [r [c E]]. exists r, c. intros t Ht. destruct (E t Ht) as [E1 E2]. split; auto.
  rewrite <- H, <- Ha, <- Hb. auto.
Qed.

Lemma expands_const : forall c, expands (fun _ => c) c 0.
Proof. intro c. exists (fun _ => 0%Q), 0%Q. intros t _. split; [ring|]. simpl. apply Qle_refl. Qed.

Lemma expands_add : forall f g a b a' b', expands f a b -> expands g a' b' -> expands (fun t => (f t + g t)%Q) (a + a') (b + b').
Proof.
  intros f g a b a' b' [r [c E]] [s [e F]]. exists (fun t => (r t + s t)%Q), (c + e)%Q. intros t Ht.
  destruct (E t Ht) as [E1 E2], (F t Ht) as [F1 F2]. split; [rewrite E1, F1; ring|].
  eapply Qle_trans; [apply Qabs_triangle|]. lra.
Qed.

Lemma expands_mul : forall f g a b a' b', expands f a b -> expands g a' b' ->
  expands (fun t => (f t * g t)%Q) (a * a') (b * a' + a * b').
Proof.
  intros f g a b a' b' [r [c E]] [s [e F]].
  exists (fun t => (b * b' + r t * (a' + t * b') + s t * (a + t * b) + t * t * (r t * s t))%Q),
    (Qabs b * Qabs b' + c * (Qabs a' + Qabs b') + e * (Qabs a + Qabs b) + c * e)%Q.
  intros t Ht. destruct (E t Ht) as [E1 E2], (F t Ht) as [F1 F2]. split; [rewrite E1, F1; ring|].
  assert (Lin : forall u v, (Qabs (u + t * v) <= Qabs u + Qabs v)%Q).
  { intros u v. eapply Qle_trans; [apply Qabs_triangle|]. rewrite Qabs_Qmult.
    pose proof (Qabs_nn v). pose proof (Qabs_nn t). nra. }
  assert (Mul : forall x y cx cy, (Qabs x <= cx)%Q -> (Qabs y <= cy)%Q -> (Qabs (x * y) <= cx * cy)%Q).
  { intros x y cx cy Hx Hy. rewrite Qabs_Qmult. pose proof (Qabs_nn x). pose proof (Qabs_nn y). nra. }
  pose proof (Mul _ _ _ _ E2 (Lin a' b')) as B1. pose proof (Mul _ _ _ _ F2 (Lin a b)) as B2.
  pose proof (Mul _ _ _ _ E2 F2) as B3.
  assert (B4 : (Qabs (t * t * (r t * s t)) <= c * e)%Q).
  { rewrite Qabs_Qmult, Qabs_Qmult. pose proof (Qabs_nn t). pose proof (Qabs_nn (r t * s t)).
    assert (Qabs t * Qabs t <= 1)%Q by nra. nra. }
  assert (B0 : (Qabs (b * b') <= Qabs b * Qabs b')%Q) by (rewrite Qabs_Qmult; apply Qle_refl).
  eapply Qle_trans; [apply Qabs_triangle|]. apply Qplus_le_compat; [|exact B4].
  eapply Qle_trans; [apply Qabs_triangle|]. apply Qplus_le_compat; [|exact B2].
  eapply Qle_trans; [apply Qabs_triangle|]. apply Qplus_le_compat; [exact B0|exact B1].
Qed.

Lemma expands_sum : forall n (f : nat -> Q -> Q) a b, (forall i, i < n -> expands (f i) (a i) (b i)) ->
  expands (fun t => sumQ n (fun i => f i t)) (sumQ n a) (sumQ n b).
Proof.
  induction n as [|n IH]; intros f a b H; simpl; [apply expands_const|].
  apply expands_add; [apply IH; auto|apply H; lia].
Qed.

(** The derivative of a power along [D]. *)
Fixpoint dpow (n : nat) (M D : qmat) (k : nat) : qmat :=
  match k with
  | O => fun _ _ => 0%Q
  | S k' => fun i j => (mdot n D (mpow n M k') i j + mdot n M (dpow n M D k') i j)%Q
  end.

Lemma mpow_expands : forall n (Mt : Q -> qmat) M D, (forall i j, i < n -> j < n -> expands (fun t => Mt t i j) (M i j) (D i j)) ->
  forall k i j, i < n -> j < n -> expands (fun t => mpow n (Mt t) k i j) (mpow n M k i j) (dpow n M D k i j).
Proof.
  intros n Mt M D H. induction k as [|k IH]; intros i j Hi Hj; cbn [mpow dpow]; [apply expands_const|].
  eapply (expands_ext (fun t => sumQ n (fun l => Mt t i l * mpow n (Mt t) k l j)%Q) _
    (sumQ n (fun l => M i l * mpow n M k l j))%Q _ (sumQ n (fun l => D i l * mpow n M k l j + M i l * dpow n M D k l j))%Q).
  - intro t. symmetry. apply mdot_sumQ.
  - symmetry. apply mdot_sumQ.
  - rewrite sumQ_add, !mdot_sumQ. reflexivity.
  - apply (expands_sum n (fun l t => Mt t i l * mpow n (Mt t) k l j)%Q). intros l Hl. apply expands_mul; auto.
Qed.

Lemma mtrace_cyclic : forall n A B, (mtrace n (mdot n A B) == mtrace n (mdot n B A))%Q.
Proof.
  intros n A B. rewrite !mtrace_sumQ.
  rewrite (sumQ_ext n _ (fun i => sumQ n (fun l => A i l * B l i)%Q)) by (intros; apply mdot_sumQ).
  rewrite (sumQ_ext n (fun i => mdot n B A i i) (fun i => sumQ n (fun l => B i l * A l i)%Q)) by (intros; apply mdot_sumQ).
  rewrite sumQ_swap. apply sumQ_ext. intros i Hi. apply sumQ_ext. intros l Hl. ring.
Qed.

Lemma mdot_madd_l : forall n A B C, meq n (mdot n (fun i j => A i j + B i j)%Q C) (fun i j => mdot n A C i j + mdot n B C i j)%Q.
Proof.
  intros n A B C i j Hi Hj. rewrite !mdot_sumQ, <- sumQ_add. apply sumQ_ext. intros k Hk. ring.
Qed.

Lemma mtrace_add : forall n A B, (mtrace n (fun i j => A i j + B i j)%Q == mtrace n A + mtrace n B)%Q.
Proof. intros. rewrite !mtrace_sumQ. apply sumQ_add. Qed.

Lemma dpow_trace : forall n M D k j, (mtrace n (mdot n (dpow n M D k) (mpow n M j)) == qnat k * mtrace n (mdot n D (mpow n M (k + j - 1))))%Q.
Proof.
  intros n M D. induction k as [|k IH]; intro j; cbn [dpow].
  - rewrite mtrace_sumQ, (sumQ_ext n _ (fun _ => 0%Q)).
    + rewrite sumQ_zero. unfold qnat. simpl. ring.
    + intros i Hi. rewrite mdot_sumQ, (sumQ_ext n _ (fun _ => 0%Q)); [apply sumQ_zero|]. intros. ring.
  - rewrite (mtrace_meq n _ _ (mdot_madd_l n _ _ _)), mtrace_add.
    assert (E1 : (mtrace n (mdot n (mdot n D (mpow n M k)) (mpow n M j)) == mtrace n (mdot n D (mpow n M (k + j))))%Q).
    { apply mtrace_meq. eapply meq_trans; [apply mdot_assoc|]. apply mdot_meq; [apply meq_refl|]. apply meq_sym, mpow_add. }
    assert (E2 : (mtrace n (mdot n (mdot n M (dpow n M D k)) (mpow n M j)) == mtrace n (mdot n (dpow n M D k) (mpow n M (j + 1))))%Q).
    { rewrite (mtrace_meq n _ _ (mdot_assoc n M (dpow n M D k) (mpow n M j))). rewrite mtrace_cyclic.
      apply mtrace_meq. eapply meq_trans; [apply mdot_assoc|]. apply mdot_meq; [apply meq_refl|].
      eapply meq_trans; [|apply meq_sym, mpow_add]. apply mdot_meq; [apply meq_refl|].
      cbn [mpow]. apply meq_sym, meye_r. }
    rewrite E1, E2, IH. replace (S k + j - 1) with (k + j) by lia. replace (k + (j + 1) - 1) with (k + j) by lia.
    unfold qnat. rewrite Nat2Z.inj_succ. unfold Z.succ. rewrite inject_Z_plus. ring.
Qed.

Lemma h_linear_expands : forall d W V, 0 < d ->
  expands (fun t => h_linear d (fun i j => W i j + t * V i j)%Q) (h_linear d W)
    (sumQ d (fun i => sumQ d (fun j => grad_h_linear d W i j * V i j)%Q)).
Proof.
  intros d W V Hd.
  set (Wt := fun (t : Q) i j => (W i j + t * V i j)%Q).
  set (Mt := fun t => penalty_matrix d (mmul (Wt t) (Wt t))).
  set (M := penalty_matrix d (mmul W W)).
  set (D := fun i j : nat => (2 * (W i j * V i j) / qnat d)%Q).
  assert (X : forall i j, i < d -> j < d -> expands (fun t => Mt t i j) (M i j) (D i j)).
  { intros i j Hi Hj. exists (fun _ => V i j * V i j / qnat d)%Q, (Qabs (V i j * V i j / qnat d)). intros t Ht.
    split; [|apply Qle_refl]. unfold Mt, M, D, penalty_matrix, mmul, Wt, Qdiv. ring. }
  apply (expands_ext (fun t => sumQ d (fun i => mpow d (Mt t) d i i) + - qnat d)%Q _
    (sumQ d (fun i => mpow d M d i i) + - qnat d)%Q _ (sumQ d (fun i => dpow d M D d i i) + 0)%Q).
  - intro t. unfold h_linear. rewrite penalty_trace by auto. rewrite mtrace_sumQ. unfold Mt, Wt. ring.
  - unfold h_linear. rewrite penalty_trace by auto. rewrite mtrace_sumQ. unfold M. ring.
  - rewrite <- mtrace_sumQ. pose proof (dpow_trace d M D d 0) as T. cbn [mpow] in T.
    rewrite (mtrace_meq d _ _ (meye_r d (dpow d M D d))) in T.
    rewrite T. replace (d + 0 - 1) with (d - 1) by lia. rewrite mtrace_sumQ.
    rewrite (sumQ_ext d (fun i => mdot d D (mpow d M (d - 1)) i i) (fun i => sumQ d (fun j => D i j * mpow d M (d - 1) j i)%Q)) by (intros; apply mdot_sumQ).
    rewrite <- sumQ_scale_l, Qplus_0_r. apply sumQ_ext. intros i Hi. rewrite <- sumQ_scale_l. apply sumQ_ext. intros j Hj.
    unfold D, grad_h_linear, mmul, mT. fold (mmul W W). fold M. field.
    pose proof (qnat_pos d Hd). lra.
  - apply expands_add; [|apply expands_const]. apply (expands_sum d (fun i t => mpow d (Mt t) d i i)).
    intros i Hi. apply mpow_expands; auto.
Qed.

(* ---------- the loop ---------- *)
Section Loop.
  Variables (d : nat) (solve : Q -> Q -> (nat -> Q) -> (nat -> Q)) (h_tol rho_max : Q).

  (** What one run of the inner loop gives. *)
  Lemma inner_spec : forall fuel alpha w h rho last,
    (rho_max <= rho * inject_Z (2 ^ Z.of_nat fuel))%Q -> (0 < rho)%Q ->
    exists rho' o, inner_loop fuel d solve rho_max alpha w h rho last = Ok (rho', o) /\ (rho <= rho')%Q /\
      ((rho_max <= rho)%Q -> o = last) /\
      (~ (rho_max <= rho)%Q -> exists r, o = Some (solve r alpha w, h_linear d (adj_of d (solve r alpha w))) /\
         (rho <= r)%Q /\ ((rho_max <= rho')%Q \/ insufficient (h_linear d (adj_of d (solve r alpha w))) h = false)).
  Proof.
    induction fuel as [|f IH]; intros alpha w h rho last F P.
    - assert (L : (rho_max <= rho)%Q) by (change (2 ^ Z.of_nat 0)%Z with 1%Z in F; change (inject_Z 1) with 1%Q in F; lra).
      exists rho, last. cbn [inner_loop]. pose proof L as B. apply Qle_bool_iff in B. rewrite B. simpl.
      split; auto. split; [apply Qle_refl|]. split; auto. intro C. contradiction.
    - cbn [inner_loop]. destruct (Qle_bool rho_max rho) eqn:B.
      + simpl. apply Qle_bool_iff in B. exists rho, last. split; auto. split; [apply Qle_refl|]. split; auto. intro C. contradiction.
      + assert (NB : ~ (rho_max <= rho)%Q) by (intro C; apply Qle_bool_iff in C; congruence). simpl negb. cbn iota.
        destruct (insufficient (h_linear d (adj_of d (solve rho alpha w))) h) eqn:I.
        * destruct (IH alpha w h (rho * 10)%Q (Some (solve rho alpha w, h_linear d (adj_of d (solve rho alpha w))))) as [rho' [o [E [L [H1 H2]]]]].
          { rewrite Nat2Z.inj_succ, Z.pow_succ_r in F by lia. rewrite inject_Z_mult in F.
            assert (0 < inject_Z (2 ^ Z.of_nat f))%Q.
            { change 0%Q with (inject_Z 0). rewrite <- Zlt_Qlt. apply Z.pow_pos_nonneg; lia. }
            change (inject_Z 2) with 2%Q in F. nra. }
          { lra. }
          rewrite E. exists rho', o. split; auto. split; [lra|]. split; [intro C; contradiction|]. intros _.
          destruct (Qlt_le_dec (rho * 10) rho_max) as [Lt|Ge].
          -- destruct H2 as [r [Hr [Lr Hx]]]; [lra|]. exists r. split; auto. split; auto. lra.
          -- rewrite (H1 Ge). exists rho. split; auto. split; [apply Qle_refl|]. left. lra.
        * exists rho, (Some (solve rho alpha w, h_linear d (adj_of d (solve rho alpha w)))). split; auto. split; [apply Qle_refl|].
          split; [intro C; contradiction|]. intros _. exists rho. split; auto. split; [apply Qle_refl|]. auto.
  Qed.

  Lemma inner_fuel_ok : forall rho, (1 <= rho)%Q -> (rho_max <= rho * inject_Z (2 ^ Z.of_nat (inner_fuel rho_max)))%Q.
  Proof.
    intros rho Hr. unfold inner_fuel. rewrite Z2Nat.id by apply Z.log2_up_nonneg.
    pose proof (Qle_ceiling rho_max) as C.
    assert (L : (Qceiling rho_max <= 2 ^ Z.log2_up (Qceiling rho_max))%Z).
    { destruct (Z_le_gt_dec (Qceiling rho_max) 1) as [H|H].
      - rewrite Z.log2_up_eqn0 by lia. simpl. lia.
      - apply Z.log2_up_spec. lia. }
    rewrite Zle_Qle in L. assert (0 < inject_Z (2 ^ Z.log2_up (Qceiling rho_max)))%Q.
    { change 0%Q with (inject_Z 0). rewrite <- Zlt_Qlt. apply Z.pow_pos_nonneg; [lia|apply Z.log2_up_nonneg]. }
    nra.
  Qed.

  (** The outer loop returns a vector that the solver produced (or the start),
      and says why it stopped. *)
  Lemma outer_spec : forall iters w rho alpha h, (1 <= rho)%Q -> ~ (rho_max <= rho)%Q ->
    exists w', outer_loop iters d solve h_tol rho_max w rho alpha h = Ok w' /\
      (iters = 0 -> w' = w) /\
      (0 < iters -> exists r a w0, w' = solve r a w0 /\ (1 <= r)%Q).
  Proof.
    induction iters as [|k IH]; intros w rho alpha h Hr NB.
    - exists w. split; auto. split; auto. lia.
    - cbn [outer_loop]. destruct (inner_spec (inner_fuel rho_max) alpha w h rho None) as [rho' [o [E [L [_ H]]]]].
      { apply inner_fuel_ok; auto. } { lra. }
      rewrite E. cbn [rbind]. destruct (H NB) as [r [-> [Lr _]]]. cbn [snd fst].
      destruct (Qle_bool (h_linear d (adj_of d (solve r alpha w))) h_tol || Qle_bool rho_max rho') eqn:B.
      + exists (solve r alpha w). split; auto. split; [lia|]. intros _. exists r, alpha, w. split; auto. lra.
      + apply orb_false_iff in B. destruct B as [_ B2].
        destruct (IH (solve r alpha w) rho' (alpha + rho' * h_linear d (adj_of d (solve r alpha w)))%Q (Some (h_linear d (adj_of d (solve r alpha w))))) as [w' [E' [Z P]]].
        { lra. } { intro C. apply Qle_bool_iff in C. congruence. }
        exists w'. split; auto. split; [lia|]. intros _. destruct k as [|k].
        * rewrite (Z eq_refl). exists r, alpha, w. split; auto. lra.
        * apply P. lia.
  Qed.
End Loop.
