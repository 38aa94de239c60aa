(** Facts about the linear learner with the entropy loss (linear_ent.py). *)

From Coq Require Import List Arith Bool Lia QArith Qabs Lqa.
From Verif Require Import Model.Py Model.SHP Model.Matrix Model.Notears Model.NotearsNet Model.LinearEnt Spec.Sums Spec.Packing.
From Verif Require Import Proofs.SimFacts Proofs.MatrixFacts Proofs.NotearsFacts Proofs.NotearsGrad Proofs.PackFacts Proofs.NetFacts.
Import ListNotations.
Open Scope nat_scope.

Lemma lin_bounds_mlp : forall d, lin_bounds d = mlp_bounds d 1.
Proof. intro d. unfold lin_bounds, mlp_bounds. apply flat_map_ext. intro j. simpl. rewrite app_nil_r. auto. Qed.

Lemma lin_wf : forall bias init d, wf (lin_init bias init d).
Proof.
  intros bias init d p H.
  assert (K : forall q, q = Param (repeat 0%Q (d * d)) (Some (lin_bounds d)) -> length (bounds_of q) = numel q).
  { intros q ->. unfold bounds_of, numel. simpl. rewrite repeat_length, lin_bounds_mlp, mlp_bounds_len. lia. }
  unfold lin_init in H. destruct bias; simpl in H; repeat (destruct H as [<-|H]; [first [apply K; reflexivity|apply free_wf; reflexivity]|]); destruct H.
Qed.

Lemma lin_feas : forall bias init d, feas (lin_init bias init d).
Proof.
  intros bias init d. apply feas_In. intros p b H.
  assert (K : forall q, q = Param (repeat 0%Q (d * d)) (Some (lin_bounds d)) -> In b (bounds_of q) -> feasible b).
  { intros q -> Hb. unfold bounds_of in Hb. simpl in Hb. rewrite lin_bounds_mlp in Hb. eapply mlp_bounds_feas; eauto. }
  unfold lin_init in H. destruct bias; simpl in H; repeat (destruct H as [<-|H]; [first [apply K; reflexivity|apply free_feas; reflexivity]|]); destruct H.
Qed.

Lemma lin_layout : forall bias init d k, k = 0 \/ k = neg_at bias ->
  k < length (lin_init bias init d) /\ par (lin_init bias init d) k = Param (repeat 0%Q (d * d)) (Some (lin_bounds d)).
Proof. intros bias init d k [->| ->]; destruct bias; simpl; split; auto; lia. Qed.

Lemma lin_bound : forall bias init d ps, layout (lin_init bias init d) ps -> in_bounds ps -> forall k j i, k = 0 \/ k = neg_at bias -> j < d -> i < d ->
  (0 <= entry (par ps k) (j * d + i))%Q /\ (i = j -> (entry (par ps k) (j * d + i) == 0)%Q).
Proof.
  intros bias init d ps LY IB k j i Hk Hj Hi. destruct (lin_layout bias init d k Hk) as [HL HP]. pose proof (IB k (j * d + i)) as I.
  rewrite par_numel, (proj1 LY), <- par_numel, (layout_bounds _ ps k LY), HP in I. unfold numel, bounds_of in I. simpl in I.
  rewrite repeat_length, lin_bounds_mlp in I. replace (j * d + i) with ((j * 1 + 0) * d + i) in I by lia. rewrite mlp_bounds_nth in I by lia.
  replace ((j * 1 + 0) * d + i) with (j * d + i) in I by lia.
  specialize (I ltac:(rewrite (layout_len _ _ LY); auto) ltac:(nia)). destruct (Nat.eqb_spec i j) as [->|NE].
  - apply between_zero in I. split; auto. rewrite I. apply Qle_refl.
  - destruct I as [I _]. simpl in I. split; auto. intro; contradiction.
Qed.

Section Train.
  Variables (m : Q -> Q -> Q -> list bound -> list Q -> list Q) (hf : list param -> Q) (h_tol rho_max : Q) (anneal : bool).
  Hypothesis Lm : forall b r a bs x0, length bs = length x0 -> length (m b r a bs x0) = length x0.
  Let good (ps : list param) : Prop := (forall b r a, within_bounds (m b r a)) -> feas ps -> in_bounds ps.

  (** The annealed values, from [beta] on. *)
  Fixpoint betas (n : nat) (beta : Q) : list Q :=
    match n with 0 => [] | S n' => let b := anneal_beta anneal beta in b :: betas n' b end.

  Lemma train_ok : forall iters beta rho alpha h ps, wf ps -> (1 <= rho)%Q -> ~ (rho_max <= rho)%Q ->
    exists ps' bs, train_loop iters m hf h_tol rho_max anneal beta rho alpha h ps = Ok (ps', bs) /\ layout ps ps' /\ (0 < iters -> good ps') /\
      (iters = 0 -> ps' = ps) /\ exists n, n <= iters /\ bs = betas n beta.
  Proof using Lm.
    induction iters as [|k IH]; intros beta rho alpha h ps W Hr NB.
    - exists ps, []. split; auto. split; [apply layout_refl|]. split; [lia|]. split; auto. exists 0. auto.
    - cbn [train_loop]. unfold dual_ascent_step. set (b := anneal_beta anneal beta).
      destruct (loop_ok (m b) hf rho_max (Lm b) (inner_fuel rho_max) alpha h rho ps None W) as [rho' [ps1 [o [E [L [LY [H1 [_ [H3 _]]]]]]]]];
        [apply inner_fuel_ok; auto|lra|tauto|].
      rewrite E. cbn [rbind]. specialize (H3 NB). destruct o as [v|]; [|tauto]. cbn [rbind].
      assert (W1 : wf ps1) by (destruct LY; eapply wf_same; eauto).
      assert (good ps1) as G1 by (intros K F; apply H1; auto; discriminate).
      destruct (Qle_bool v h_tol || Qle_bool rho_max rho') eqn:B.
      + exists ps1, [b]. split; auto. split; auto. split; auto. split; [lia|]. exists 1. split; [lia|auto].
      + apply orb_false_iff in B. destruct B as [_ B2].
        destruct (IH b rho' (alpha + rho' * v)%Q (Some v) ps1 W1) as [ps' [bs [E' [LY' [G' [Z [n [Hn ->]]]]]]]].
        { lra. } { intro C. apply Qle_bool_iff in C. congruence. }
        rewrite E'. cbn [rbind fst snd]. exists ps', (b :: betas n b). split; auto. split; [eapply layout_trans; eauto|].
        split; [|split; [lia|exists (S n); split; [lia|auto]]].
        intros _. destruct k as [|k]; [rewrite Z; auto|apply G'; lia].
  Qed.
End Train.

Lemma anneal_step : forall beta, (anneal_beta true beta == beta - (1 # 10))%Q /\ (1 # 10 < beta)%Q \/ anneal_beta true beta = beta /\ (beta <= 1 # 10)%Q.
Proof.
  intro beta. unfold anneal_beta. destruct (Qle_bool beta (1 # 10)) eqn:B; simpl.
  - right. apply Qle_bool_iff in B. auto.
  - left. split; [reflexivity|]. apply Qnot_le_lt. intro C. apply Qle_bool_iff in C. congruence.
Qed.

Lemma betas_len : forall a n b, length (betas a n b) = n.
Proof. induction n; intro b; simpl; auto. Qed.

Lemma betas_annealed : forall n beta, (0 < beta)%Q -> forall i, i < n ->
  (0 < nth i (betas true n beta) 0%Q <= beta)%Q /\
  ((beta <= inject_Z (Z.of_nat (S i)) * (1 # 10))%Q -> (nth i (betas true n beta) 0%Q <= 1 # 10)%Q) /\
  ((inject_Z (Z.of_nat (S i)) * (1 # 10) < beta)%Q -> (nth i (betas true n beta) 0%Q == beta - inject_Z (Z.of_nat (S i)) * (1 # 10))%Q).
Proof.
  induction n as [|n IH]; intros beta HB i Hi; [lia|]. cbn [betas]. cbv zeta. set (b := anneal_beta true beta).
  assert (SS : forall k, (inject_Z (Z.of_nat (S k)) == inject_Z (Z.of_nat k) + 1)%Q).
  { intro k. rewrite Nat2Z.inj_succ. unfold Z.succ. rewrite inject_Z_plus. reflexivity. }
  assert (P0 : forall k, (0 <= inject_Z (Z.of_nat k))%Q) by (intro k; change 0%Q with (inject_Z 0); rewrite <- Zle_Qle; lia).
  destruct (anneal_step beta) as [[E L]|[E L]]; fold b in E.
  - assert (0 < b)%Q as Hb by (rewrite E; lra). destruct i as [|i]; cbn [nth].
    + rewrite (SS 0). change (inject_Z (Z.of_nat 0)) with 0%Q. repeat split; try (rewrite E; lra); auto; intros; rewrite E; lra.
    + destruct (IH b Hb i ltac:(lia)) as [[I1 I2] [I3 I4]]. rewrite (SS (S i)). split; [split; auto; lra|]. split; intro K.
      * apply I3. lra.
      * rewrite I4; lra.
  - rewrite E in *. clear b E. destruct i as [|i]; cbn [nth].
    + rewrite (SS 0). change (inject_Z (Z.of_nat 0)) with 0%Q. repeat split; try lra; auto.
    + destruct (IH beta HB i ltac:(lia)) as [[I1 I2] [I3 I4]]. split; [split; auto|]. split; intro K; [lra|].
      exfalso. rewrite (SS (S i)), (SS i) in K. specialize (P0 i). lra.
Qed.

Lemma lin_forward_val : forall bias d ps x r j,
  (lin_forward bias d ps x r j == sumQ d (fun i => x r i * weight_test bias d ps i j) +
    (if bias then entry (par ps 1) j - entry (par ps 3) j else 0))%Q.
Proof.
  intros. unfold lin_forward, linear_out, weight_test, lin_weight. rewrite !msum_sumQ.
  assert (H : forall f g, (sumQ d (fun i => x r i * f i) - sumQ d (fun i => x r i * g i) == sumQ d (fun i => x r i * (f i - g i)))%Q).
  { intros f g. rewrite <- sumQ_sub. apply sumQ_ext. intros. ring. }
  destruct bias; rewrite <- (H (fun i => entry (par ps 0) (j * d + i))%nat); ring.
Qed.

(** train_dam never gets past its last lines. *)
Lemma dam_never : forall epochs bias d n fuel rho alpha h_tol rho_max thr ps W,
  train_dam epochs bias d n fuel rho alpha h_tol rho_max thr ps <> Ok W.
Proof. intros. unfold train_dam. destruct (dam_outer _ _ _ _ _ _ _ _ _ _); simpl; discriminate. Qed.

Lemma dam_loop_ok : forall epochs hf rho_max alpha h fuel rho ps last, (0 < rho)%Q -> (rho_max < rho * inject_Z (2 ^ Z.of_nat fuel))%Q ->
  exists rho' ps' o, dam_loop fuel epochs hf rho_max alpha h rho ps last = Ok (rho', ps', o) /\ (rho <= rho')%Q /\
    ((rho <= rho_max)%Q -> o <> None) /\ (~ (rho <= rho_max)%Q -> o = last).
Proof.
  intros epochs hf rho_max alpha h fuel. induction fuel as [|f IH]; intros rho ps last P F.
  - change (2 ^ Z.of_nat 0)%Z with 1%Z in F. change (inject_Z 1) with 1%Q in F. cbn [dam_loop].
    destruct (Qle_bool rho rho_max) eqn:B; [apply Qle_bool_iff in B; lra|]. exists rho, ps, last. split; auto. split; [apply Qle_refl|].
    split; [intro; lra|auto].
  - cbn [dam_loop]. destruct (Qle_bool rho rho_max) eqn:B.
    + apply Qle_bool_iff in B. destruct (insufficient _ _).
      * destruct (IH (rho * 10)%Q (epochs rho alpha ps) (Some (hf (epochs rho alpha ps)))) as [rho' [ps' [o [E [L [H1 H2]]]]]]; [lra| |].
        { rewrite Nat2Z.inj_succ, Z.pow_succ_r in F by lia. rewrite inject_Z_mult in F.
          assert (0 < inject_Z (2 ^ Z.of_nat f))%Q by (change 0%Q with (inject_Z 0); rewrite <- Zlt_Qlt; apply Z.pow_pos_nonneg; lia).
          change (inject_Z 2) with 2%Q in F. nra. }
        exists rho', ps', o. split; auto. split; [lra|]. split; [|intro; contradiction]. intros _.
        destruct (Qlt_le_dec rho_max (rho * 10)) as [Lt|Ge]; [rewrite H2 by lra; discriminate|auto].
      * exists rho, (epochs rho alpha ps), (Some (hf (epochs rho alpha ps))). split; auto. split; [apply Qle_refl|]. split; [discriminate|contradiction].
    + exists rho, ps, last. split; auto. split; [apply Qle_refl|]. split; auto. intro C. apply Qle_bool_iff in C. congruence.
Qed.

Lemma dam_outer_ok : forall epochs hf rho_max h_tol fuel, (forall r, (1 <= r)%Q -> (rho_max < r * inject_Z (2 ^ Z.of_nat fuel))%Q) ->
  forall n alpha h rho ps, (1 <= rho)%Q -> (n = 0 \/ (rho <= rho_max)%Q) ->
  exists ps', dam_outer n fuel epochs hf rho_max h_tol alpha h rho ps = Ok ps'.
Proof.
  intros epochs hf rho_max h_tol fuel F. induction n as [|n IH]; intros alpha h rho ps H1 H2; [simpl; eauto|].
  destruct H2 as [H2|H2]; [discriminate|]. cbn [dam_outer].
  destruct (dam_loop_ok epochs hf rho_max alpha h fuel rho ps None) as [rho' [ps' [o [E [L [K _]]]]]]; [lra|apply F; auto|].
  rewrite E. cbn [rbind]. specialize (K H2). destruct o as [v|]; [|tauto].
  destruct (Qle_bool v h_tol || Qle_bool rho_max rho') eqn:B; [eauto|]. apply IH; [lra|].
  right. apply orb_false_iff in B. destruct B as [_ B]. apply Qlt_le_weak, Qnot_le_lt. intro C. apply Qle_bool_iff in C. congruence.
Qed.
