(** C88: the additive-noise scores of two variables. *)

From Coq Require Import List Arith Lia Bool Permutation Reals Lra.
From Verif Require Import Model.Py Model.LocalScore Model.KCI Model.HSIC Spec.Scores Spec.KCISpec Spec.KernelSpec Proofs.BicFacts Proofs.PopulationFacts
  Proofs.KCIFacts Proofs.GaussianFacts Proofs.HSICFacts Proofs.ANMFacts Props.HSICProps.
Import ListNotations.
Open Scope nat_scope.

(** A regression uses the n values it is given, nothing else. *)
Definition uses_values (gp : nat -> (nat -> R) -> (nat -> R) -> nat -> R) : Prop := forall n x x' y y',
  (forall i, i < n -> x i = x' i) -> (forall i, i < n -> y i = y' i) -> forall i, i < n -> gp n x y i = gp n x' y' i.

Lemma fast_ext1 : forall n (u u' x x' : nat -> R) q, 2 <= q -> (forall i, i < n -> u' i = u i) -> (forall i, i < n -> x' i = x i) ->
  fast_hsic n 1 (fun i _ => u' i) 1 (fun i _ => x' i) q = fast_hsic n 1 (fun i _ => u i) 1 (fun i _ => x i) q.
Proof.
  intros n u u' x x' q Hq Hu Hx. apply (fast_dists n 1 1 _ _ 1 1 _ _ q 1%R 1%R); auto; try lra; intros i j Hi Hj; unfold dist2; rewrite !rs_one.
  - rewrite !Hu by auto. ring.
  - rewrite !Hx by auto. ring.
Qed.
Lemma two_2000 : 2 <= 2000.
Proof. apply Nat.leb_le. reflexivity. Qed.

(** Exchanging the variables exchanges the scores. *)
Theorem C88_swap : forall flat gp n x y, cause_or_effect flat gp n y x = (snd (cause_or_effect flat gp n x y), fst (cause_or_effect flat gp n x y)).
Proof. reflexivity. Qed.
Print Assumptions C88_swap.

(** Both scores are nonnegative. *)
Theorem C88_nonneg : forall flat gp n x y, 0 < n -> (0 <= fst (cause_or_effect flat gp n x y))%R /\ (0 <= snd (cause_or_effect flat gp n x y))%R.
Proof.
  intros flat gp n x y Hn. unfold cause_or_effect. cbn [fst snd].
  assert (forall u v, 0 <= anm_score flat gp n u v)%R as P; [|auto].
  intros u v. destruct flat; [rewrite anm_flat|rewrite anm_column]; auto; apply fast_nonneg.
Qed.
Print Assumptions C88_nonneg.

(** Units of measurement do not matter, for every regression. *)
Lemma anm_ext : forall flat gp n x x' y y', uses_values gp -> 0 < n -> (forall i, i < n -> x' i = x i) -> (forall i, i < n -> y' i = y i) ->
  anm_score flat gp n x' y' = anm_score flat gp n x y.
Proof.
  intros flat gp n x x' y y' U Hn Hx Hy. destruct flat; [rewrite !anm_flat by auto|rewrite !anm_column by auto].
  - apply (fast_ext1 n y y' x x' 2000 two_2000); auto.
  - apply (fast_ext1 n (fun i => gp n x y i - y i)%R (fun i => gp n x' y' i - y' i)%R x x' 2000 two_2000); auto.
    intros i Hi. rewrite (U n x' x y' y), Hy by auto. auto.
Qed.
Theorem C88_units : forall flat gp n x y a b c d, uses_values gp -> 0 < n -> (0 < a)%R -> (0 < c)%R ->
  cause_or_effect flat gp n (fun i => a * x i + b)%R (fun i => c * y i + d)%R = cause_or_effect flat gp n x y.
Proof.
  intros flat gp n x y a b c d U Hn Ha Hc. unfold cause_or_effect. f_equal; apply anm_ext; auto; intros; apply scale_affine; auto.
Qed.
Print Assumptions C88_units.

(** Reversing an axis does not matter either when the regression respects it. *)
Theorem C88_reversed : forall flat gp n x y a b c d, uses_values gp ->
  (forall n x y i, gp n (fun i => - x i)%R y i = gp n x y i) -> (forall n x y i, gp n x (fun i => - y i)%R i = - gp n x y i)%R ->
  0 < n -> (a <> 0)%R -> (c <> 0)%R ->
  cause_or_effect flat gp n (fun i => a * x i + b)%R (fun i => c * y i + d)%R = cause_or_effect flat gp n x y.
Proof.
  intros flat gp n x y a b c d U GX GY Hn Ha Hc.
  assert (forall u v, anm_score flat gp n (fun i => - u i)%R v = anm_score flat gp n u v) as NX.
  { intros u v. destruct flat; [rewrite !anm_flat by auto|rewrite !anm_column by auto];
      apply (fast_dists n 1 1 _ _ 1 1 _ _ 2000 1%R 1%R two_2000); try lra; intros i j Hi Hj; unfold dist2; rewrite !rs_one, ?GX; ring. }
  assert (forall u v, anm_score flat gp n u (fun i => - v i)%R = anm_score flat gp n u v) as NY.
  { intros u v. destruct flat; [rewrite !anm_flat by auto|rewrite !anm_column by auto];
      apply (fast_dists n 1 1 _ _ 1 1 _ _ 2000 1%R 1%R two_2000); try lra; intros i j Hi Hj; unfold dist2; rewrite !rs_one, ?GY; ring. }
  assert (forall z e f, (e <> 0)%R -> exists s, (s = 1 \/ s = -1)%R /\ forall i, i < n -> sk_scale n (fun i => e * z i + f)%R i = (s * sk_scale n z i)%R) as S.
  { intros z e f He. destruct (Rlt_dec 0 e) as [P|N].
    - exists 1%R. split; auto. intros i Hi. rewrite scale_affine by auto. ring.
    - exists (-1)%R. split; auto. intros i Hi. rewrite scale_neg by (auto; lra). ring. }
  destruct (S x a b Ha) as [s [Hs Ex]]. destruct (S y c d Hc) as [t [Ht Ey]]. unfold cause_or_effect.
  assert (forall u v s t, (s = 1 \/ s = -1)%R -> (t = 1 \/ t = -1)%R -> anm_score flat gp n (fun i => s * u i)%R (fun i => t * v i)%R = anm_score flat gp n u v) as SG.
  { clear - U NX NY Hn. intros u v s t Hs Ht.
    assert (forall w, anm_score flat gp n (fun i => s * u i)%R w = anm_score flat gp n u w) as A.
    { intro w. destruct Hs as [->| ->]; [|rewrite <- (NX u w)]; apply anm_ext; auto; intros; ring. }
    rewrite A. destruct Ht as [->| ->]; [|rewrite <- (NY u v)]; apply anm_ext; auto; intros; ring. }
  f_equal.
  - rewrite <- (SG (sk_scale n x) (sk_scale n y) s t Hs Ht). apply anm_ext; auto.
  - rewrite <- (SG (sk_scale n y) (sk_scale n x) t s Ht Hs). apply anm_ext; auto.
Qed.
Print Assumptions C88_reversed.

(** Predictions with one dimension: the regression plays no role, both directions get
    the same score, the dependence of the two variables themselves. *)
Theorem C88_flat : forall gp gp' n x y, 0 < n -> cause_or_effect true gp n x y = cause_or_effect true gp' n x y /\
  fst (cause_or_effect true gp n x y) = snd (cause_or_effect true gp n x y) /\
  fst (cause_or_effect true gp n x y) = fast_hsic n 1 (fun i _ => x i) 1 (fun i _ => y i) 2000.
Proof.
  intros gp gp' n x y Hn. unfold cause_or_effect. rewrite !anm_flat by auto. cbn [fst snd]. split; auto. rewrite fast_comm. split; auto.
  destruct (scale_dist n x) as [a [Ha HX]]. destruct (scale_dist n y) as [b [Hb HY]].
  apply (fast_dists n 1 1 _ _ 1 1 _ _ 2000 a b two_2000); auto.
Qed.
Print Assumptions C88_flat.

(** A regression through all points (columns of predictions): both scores are 0. *)
Theorem C88_interpolation : forall gp n x y, 0 < n -> (forall x y i, i < n -> gp n x y i = y i) -> cause_or_effect false gp n x y = (0, 0)%R.
Proof.
  intros gp n x y Hn H. unfold cause_or_effect.
  assert (forall u v, anm_score false gp n u v = 0%R) as Z; [|rewrite !Z; auto].
  intros u v. rewrite anm_column by auto. apply fast_const; [apply two_2000|]. intros i j c Hi Hj _. rewrite !H by auto. ring.
Qed.
Print Assumptions C88_interpolation.

(** The order of the samples does not matter up to 2000 samples. *)
Theorem C88_sample_order : forall flat gp n p x y, uses_values gp -> 0 < n -> n <= 2000 -> Permutation (map p (seq 0 n)) (seq 0 n) ->
  (forall x y i, i < n -> gp n (fun i => x (p i)) (fun i => y (p i)) i = gp n x y (p i)) ->
  cause_or_effect flat gp n (fun i => x (p i)) (fun i => y (p i)) = cause_or_effect flat gp n x y.
Proof.
  intros flat gp n p x y U Hn H2 Hp G.
  assert (forall z i, sk_scale n (fun i => z (p i)) i = sk_scale n z (p i)) as S.
  { intros z i. unfold sk_scale.
    assert (mean_all n 1 (fun i _ => z (p i)) = mean_all n 1 (fun i _ => z i)) as M.
    { unfold mean_all. f_equal. apply (rsumn_perm n p Hp (fun i => rsumn 1 (fun _ => z i))). }
    assert (std_all n 1 (fun i _ => z (p i)) = std_all n 1 (fun i _ => z i)) as D.
    { unfold std_all. rewrite M. cbv zeta. do 2 f_equal. apply (rsumn_perm n p Hp (fun i => rsumn 1 (fun _ => (z i - mean_all n 1 (fun i _ => z i)) * (z i - mean_all n 1 (fun i _ => z i)))%R)). }
    rewrite M, D. auto. }
  assert (forall u v, anm_score flat gp n (fun i => u (p i)) (fun i => v (p i)) = anm_score flat gp n u v) as A.
  { intros u v. destruct flat; [rewrite !anm_flat by auto|rewrite !anm_column by auto].
    - apply (fast_rows n p 1 (fun i _ => v i) 1 (fun i _ => u i) 2000 H2 Hp).
    - rewrite (fast_ext1 n (fun i => gp n u v (p i) - v (p i))%R (fun i => gp n (fun i => u (p i)) (fun i => v (p i)) i - v (p i))%R (fun i => u (p i)) (fun i => u (p i)) 2000 two_2000); auto.
      + apply (fast_rows n p 1 (fun i _ => gp n u v i - v i)%R 1 (fun i _ => u i) 2000 H2 Hp).
      + intros i Hi. rewrite G; auto. }
  unfold cause_or_effect. rewrite <- (A (sk_scale n x) (sk_scale n y)), <- (A (sk_scale n y) (sk_scale n x)).
  f_equal; apply anm_ext; auto.
Qed.
Print Assumptions C88_sample_order.

(** Above that, the statistic uses 2000 rows at fixed places: the first, the last, and
    rows between them in increasing order. *)
Theorem C88_subsample : forall m maxpnt, 2 <= maxpnt -> maxpnt < m ->
  length (subsample m maxpnt) = maxpnt /\ nth 0 (subsample m maxpnt) 0 = 0 /\ nth (maxpnt - 1) (subsample m maxpnt) 0 = m - 1 /\
  forall k, S k < maxpnt -> nth k (subsample m maxpnt) 0 < nth (S k) (subsample m maxpnt) 0.
Proof.
  intros m q Hq Hm. split; [apply subsample_len; auto|]. split; [rewrite subsample_nth by lia; apply Nat.div_0_l; lia|].
  split; [rewrite subsample_nth by lia; rewrite Nat.mul_comm; apply Nat.div_mul; lia|].
  intros k Hk. rewrite !subsample_nth by lia.
  assert (k * (m - 1) / (q - 1) + 1 <= S k * (m - 1) / (q - 1)) as L; [|lia].
  rewrite <- Nat.div_add by lia. apply Nat.div_le_mono; [lia|]. nia.
Qed.
Print Assumptions C88_subsample.

(** So with 2001 samples their order decides: exchanging the last two changes both
    scores from a positive number to 0. *)
Definition spike (k i : nat) : R := if Nat.eqb i k then 1%R else 0%R.
Lemma chosen_next : forall q k, 2 <= q -> k < q -> nth k (chosen (S q) q) 0 = if Nat.eqb k (q - 1) then q else k.
Proof.
  intros q k Hq Hk. unfold chosen. destruct (Nat.ltb_spec q (S q)); [|lia]. rewrite subsample_nth by lia. replace (S q - 1) with q by lia.
  destruct (Nat.eqb_spec k (q - 1)) as [->|D].
  - rewrite Nat.mul_comm. apply Nat.div_mul. lia.
  - symmetry. apply (Nat.div_unique _ _ k k); [lia|]. nia.
Qed.
Lemma chosen_len : forall q, 2 <= q -> length (chosen (S q) q) = q.
Proof. intros q Hq. unfold chosen. destruct (Nat.ltb_spec q (S q)); [|lia]. apply subsample_len; lia. Qed.
Lemma spike_last : forall q, 2 <= q -> (0 < fast_hsic (S q) 1 (fun i _ => spike q i) 1 (fun i _ => spike q i) q)%R.
Proof.
  intros q Hq. rewrite fast_chosen, chosen_len by auto. set (X := fun i (c : nat) => spike q (nth i (chosen (S q) q) 0)).
  assert (~ constant_data q 1 X) as NC.
  { intro C. specialize (C 0 (q - 1) 0 ltac:(lia) ltac:(lia) ltac:(lia)). unfold X in C. rewrite !chosen_next in C by lia. rewrite Nat.eqb_refl in C.
    destruct (Nat.eqb_spec 0 (q - 1)); [lia|]. unfold spike in C. rewrite Nat.eqb_refl in C. destruct (Nat.eqb_spec 0 q); [lia|]. lra. }
  change (fun a b => (fun i (_ : nat) => spike q i) (nth a (chosen (S q) q) 0) b) with X.
  destruct (median_kernel q 1 X) as [K|] eqn:E; [|apply median_kernel_none in E; contradiction].
  apply median_kernel_inv in E. destruct E as [w [Hw [-> _]]]. apply self_pos; auto.
Qed.
Lemma spike_before : forall q Y, 2 <= q -> fast_hsic (S q) 1 (fun i _ => spike (q - 1) i) 1 Y q = 0%R.
Proof.
  intros q Y Hq. rewrite fast_chosen, chosen_len by auto.
  assert (median_kernel q 1 (fun i _ => spike (q - 1) (nth i (chosen (S q) q) 0)) = None) as ->; auto.
  apply median_kernel_none. intros i j c Hi Hj _.
  assert (forall a, a < q -> spike (q - 1) (nth a (chosen (S q) q) 0) = 0%R) as Z; [|rewrite !Z; auto].
  intros a Ha. rewrite chosen_next by auto. unfold spike. destruct (Nat.eqb_spec a (q - 1)) as [|D]; [destruct (Nat.eqb_spec q (q - 1)); auto; lia|].
  destruct (Nat.eqb_spec a (q - 1)); auto; lia.
Qed.
Definition swap_last (q i : nat) : nat := if Nat.eqb i q then q - 1 else if Nat.eqb i (q - 1) then q else i.
Lemma swap_last_perm : forall q, 1 <= q -> Permutation (map (swap_last q) (seq 0 (S q))) (seq 0 (S q)).
Proof.
  intros q Hq. apply NoDup_Permutation_bis.
  - assert (forall l, NoDup l -> NoDup (map (swap_last q) l)) as K; [|apply K, seq_NoDup].
    induction l as [|a l IH]; intro N; simpl; [constructor|]. inversion N; subst. constructor; auto. intro I. apply in_map_iff in I.
    destruct I as [b [E Hb]]. assert (a = b); [|subst; auto]. unfold swap_last in E.
    destruct (Nat.eqb_spec b q), (Nat.eqb_spec a q), (Nat.eqb_spec b (q - 1)), (Nat.eqb_spec a (q - 1)); lia.
  - rewrite map_length. auto.
  - intros x Hx. apply in_map_iff in Hx. destruct Hx as [i [<- Hi]]. apply in_seq in Hi. apply in_seq. unfold swap_last.
    destruct (Nat.eqb_spec i q), (Nat.eqb_spec i (q - 1)); lia.
Qed.
Lemma order_matters : forall q, 2 <= q -> exists p x, Permutation (map p (seq 0 (S q))) (seq 0 (S q)) /\
  (0 < fast_hsic (S q) 1 (fun i _ => x i) 1 (fun i _ => x i) q)%R /\ fast_hsic (S q) 1 (fun i _ => x (p i)) 1 (fun i _ => x (p i)) q = 0%R.
Proof.
  intros q Hq. exists (swap_last q), (spike q). split; [apply swap_last_perm; lia|]. split; [apply spike_last; auto|].
  rewrite <- (spike_before q (fun i _ => spike (q - 1) i) Hq). apply fast_ext1; auto; intros i Hi; unfold spike, swap_last;
    destruct (Nat.eqb_spec i q), (Nat.eqb_spec i (q - 1)); try lia;
    repeat match goal with |- context [Nat.eqb ?a ?b] => destruct (Nat.eqb_spec a b) end; auto; lia.
Qed.
Theorem C88_sample_order_refuted : exists n p x, Permutation (map p (seq 0 n)) (seq 0 n) /\ forall gp,
  (0 < fst (cause_or_effect true gp n x x))%R /\ cause_or_effect true gp n (fun i => x (p i)) (fun i => x (p i)) = (0, 0)%R.
Proof.
  destruct (order_matters 2000 two_2000) as [p [x [Hp [P Z]]]]. exists 2001, p, x. split; [exact Hp|]. intro gp.
  assert (0 < 2001) as Hn by apply Nat.lt_0_succ.
  destruct (C88_flat gp gp 2001 x x Hn) as [_ [_ F]]. split; [rewrite F; exact P|].
  destruct (C88_flat gp gp 2001 (fun i => x (p i)) (fun i => x (p i)) Hn) as [_ [G F']]. rewrite Z in F'.
  rewrite (surjective_pairing (cause_or_effect true gp 2001 (fun i => x (p i)) (fun i => x (p i)))). rewrite <- G, F'. reflexivity.
Qed.
Print Assumptions C88_sample_order_refuted.

(** A regression to 0: with columns of predictions the score is the dependence of the
    variables; for two different samples it is positive in both directions. *)
Example C88_example : forall gp, (forall n x y i, gp n x y i = 0%R) -> uses_values gp /\
  cause_or_effect false gp 2 INR INR = ((1 - exp (-1)) * (1 - exp (-1)) / 2, (1 - exp (-1)) * (1 - exp (-1)) / 2)%R.
Proof.
  intros gp H. split; [intros n x x' y y' _ _ i _; rewrite !H; auto|].
  assert (anm_score false gp 2 (sk_scale 2 INR) (sk_scale 2 INR) = ((1 - exp (-1)) * (1 - exp (-1)) / 2)%R) as E; [|unfold cause_or_effect; rewrite E; auto].
  rewrite anm_column by auto. destruct (scale_dist 2 INR) as [a [Ha HX]].
  rewrite (fast_dists 2 1 1 step2 (fun i _ => gp 2%nat (sk_scale 2%nat INR) (sk_scale 2%nat INR) i - sk_scale 2%nat INR i)%R 1 1 step2 (fun i _ => sk_scale 2 INR i) 2000 a a two_2000 Ha Ha).
  - rewrite fast_small by apply two_2000. rewrite C87_example_kernel.
    pose proof (C87_example (fun _ _ _ => 0%R)) as X. unfold hsic_gam in X. rewrite C87_example_kernel in X. injection X as X. exact X.
  - intros i j _ _. change step2 with (fun i (_ : nat) => INR i). rewrite <- HX. unfold dist2. rewrite !rs_one, !H. ring.
  - intros i j _ _. apply HX.
Qed.
