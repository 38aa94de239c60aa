(** C92: the cross-validated kernel scores. *)

From Coq Require Import List Arith Lia Bool Permutation Reals Lra.
From Verif Require Import Model.Py Model.LocalScore Model.KCI Model.HSIC Model.Expm Model.CVScore Spec.Scores Spec.KCISpec Spec.KernelSpec Spec.CVSpec Proofs.ScoreFacts Proofs.BicFacts Proofs.KCIFacts Proofs.GaussianFacts Proofs.HSICFacts Proofs.MedianFacts Proofs.CholeskyFacts Proofs.WoodburyFacts Proofs.CVFacts.
Import ListNotations.
Open Scope R_scope.

(* ---------- the value ---------- *)
(** With at least two rounds and no more rounds than samples, the score is the
    cross-validated score of the kernel ridge regression, stated with features, weights,
    residuals and their covariance; [gamma] is 1/100 and [inv] any function that inverts
    triangular matrices. *)
Theorem C92_value : forall inv svdinv multi lambda k T data label i parents s,
  inverts_triangular inv -> 0 < lambda -> (2 <= k)%nat -> (k <= T)%nat ->
  (cv_score inv svdinv multi lambda k T data label i parents = Ok s <-> scored multi T k lambda (1 / 100) data label i parents s).
Proof.
  intros inv svdinv multi lambda k T data label i parents s Hinv Hl Hk HT. replace (1 / 100) with gamma by (unfold gamma; lra). apply scored_iff; auto.
Qed.
Print Assumptions C92_value.

(** There is a score whenever the variables are not constant. *)
Theorem C92_returns : forall inv svdinv multi lambda k T data label i parents,
  inverts_triangular inv -> 0 < lambda -> (2 <= k)%nat -> (k <= T)%nat ->
  (forall p, In p (i :: parents) -> varies T (length (label p)) (columns data (label p))) ->
  exists s, cv_score inv svdinv multi lambda k T data label i parents = Ok s.
Proof.
  intros inv svdinv multi lambda k T data label i parents Hinv Hl Hk HT V. apply score_exists; auto; [apply V; left; auto|intros p Hp; apply V; right; auto].
Qed.
Print Assumptions C92_returns.

(** Two samples, 0 and 1, of two variables, which are equal. *)
Definition data2 : rmat := fun r _ => INR r.
Definition single (p : nat) : list nat := [p].
Definition K2 : rmat := fun i j => exp (- ((INR i - INR j) * (INR i - INR j)) / 4).
Definition x2 : R := (1 - exp (- (1) / 4)) / 2.
Lemma x2_pos : 0 < x2 < 1.
Proof. unfold x2. assert (exp (- (1) / 4) < exp 0) by (apply exp_increasing; lra). rewrite exp_0 in H. pose proof (exp_pos (- (1) / 4)). lra. Qed.
Lemma dist_2 : forall c, distances 2 1 (columns data2 [c]) = [1].
Proof.
  intro c. unfold distances, pairs, squared_distance, columns, data2, sumRn, sumR. cbn [seq list_prod map app filter fst snd Nat.ltb Nat.leb fold_right nth INR].
  replace ((0 - 1) * (0 - 1) + 0) with 1 by ring. destruct (Rlt_dec 0 1); [auto|lra].
Qed.
Lemma kernel_2 : forall p, variable_kernel false 2 data2 (single p) K2.
Proof.
  intro p. exists 1. unfold single. cbn [length]. rewrite dist_2. split.
  - exists 1, 1. unfold lower_median, upper_median, below, above. cbn [In filter length]. destruct (Rlt_dec 1 1); [lra|]. cbn [length]. repeat split; auto; try lia; try lra.
  - intros i j _ _. unfold K2, squared_distance, columns, data2, sumRn, sumR. cbn [seq map fold_right nth]. f_equal. field.
Qed.
Lemma joint_2 : forall p, joint_kernel false 2 data2 single [p] K2.
Proof. intro p. exists (fun _ => K2). split; [intros; apply kernel_2|]. intros i j _ _. simpl. ring. Qed.
Lemma centered_2 : forall i j, (i < 2)%nat -> (j < 2)%nat -> doubly_centered 2 K2 i j = if Nat.eqb i j then x2 else - x2.
Proof.
  intros i j Hi Hj. unfold doubly_centered, K2, sumRn, sumR, x2.
  assert (exp (- ((0 - 0) * (0 - 0)) / 4) = 1) as E0 by (rewrite <- exp_0; f_equal; field).
  assert (exp (- ((1 - 1) * (1 - 1)) / 4) = 1) as E1 by (rewrite <- exp_0; f_equal; field).
  assert (exp (- ((0 - 1) * (0 - 1)) / 4) = exp (- (1) / 4)) as E2 by (f_equal; field).
  assert (exp (- ((1 - 0) * (1 - 0)) / 4) = exp (- (1) / 4)) as E3 by (f_equal; field).
  destruct i as [|[|i]], j as [|[|j]]; try lia; cbn [seq map fold_right INR Nat.eqb]; rewrite E0, E1, E2, E3; field.
Qed.
Definition phi2 (t c : nat) : R := if Nat.eqb t 0 then sqrt x2 else - sqrt x2.
Lemma features_2 : features 2 K2 1 phi2.
Proof.
  intros a b Ha Hb. rewrite centered_2 by auto. unfold sumRn, sumR, phi2. pose proof x2_pos. pose proof (sqrt_sqrt x2 ltac:(lra)) as S.
  destruct a as [|[|a]], b as [|[|b]]; try lia; cbn [seq map fold_right Nat.eqb]; lra.
Qed.
(** The pieces of a round in which the training residual is [q] times the features. *)
Definition D2 (q : R) : round_data :=
  mkRound (fun t a => if Nat.eqb t a then 1 - q else - (1 - q)) (fun t c => q * phi2 t c / (1 / 100 + q * q * x2)) (fun _ _ => sqrt (1 + 100 * (q * q * x2))).
Definition P2 (q : R) (P : option rmat) : Prop := (P = None /\ q = 1) \/ (P = Some K2 /\ q = (1 / 100) / (x2 + 1 / 100)).
Lemma round_2 : forall q P kk, P2 q P -> (kk < 2)%nat -> round_spec 2 P (1 / 100) (1 / 100) 1 phi2 (validated 2 2 kk) (training 2 2 kk) (D2 q).
Proof.
  intros q P kk HP Hk. pose proof x2_pos as X. pose proof (sqrt_sqrt x2 ltac:(lra)) as S.
  assert (Y : 0 <= q * q * x2) by (apply Rmult_le_pos; [apply Rle_0_sqr|lra]).
  assert (exists t u, validated 2 2 kk = [t] /\ training 2 2 kk = [u] /\ (t < 2)%nat /\ (u < 2)%nat /\ t <> u) as (t & u & -> & -> & Ht & Hu & N).
  { destruct kk as [|[|kk]]; [exists 0%nat, 1%nat|exists 1%nat, 0%nat|lia]; repeat split; auto; lia. }
  assert (N' : Nat.eqb t u = false) by (apply Nat.eqb_neq; auto). assert (N'' : Nat.eqb u t = false) by (apply Nat.eqb_neq; auto).
  assert (O : forall c, phi2 t c = - phi2 u c). { intro c. destruct t as [|[|t]], u as [|[|u]]; try lia; unfold phi2; cbn [Nat.eqb]; ring. }
  assert (Q : forall c, phi2 u c * phi2 u c = x2). { intro c. unfold phi2. destruct (Nat.eqb u 0); lra. }
  assert (R1 : forall c, residual phi2 [u] (round_weights (D2 q)) u c = q * phi2 u c). { intro c. unfold residual, sumR, D2. cbn [map fold_right round_weights]. rewrite Nat.eqb_refl. ring. }
  assert (R2 : forall c, residual phi2 [u] (round_weights (D2 q)) t c = q * phi2 t c). { intro c. unfold residual, sumR, D2. cbn [map fold_right round_weights]. rewrite N', O. ring. }
  split; [|split].
  - intros s Hs. destruct HP as [[-> ->]|[-> ->]].
    + intros a Ha. unfold D2. cbn [round_weights]. destruct (Nat.eqb s a); ring.
    + intros b [<-|[]]. assert (s = t \/ s = u) as [-> | ->] by (destruct Hs as [[->|[]]|[->|[]]]; auto); unfold sumR, D2; cbn [map fold_right round_weights length INR]; rewrite !centered_2 by auto; rewrite ?Nat.eqb_refl, ?N', ?N''; field; lra.
  - intros s c [<-|[]] Hc. rewrite R2. unfold sumRn. cbn [seq]. assert (c = 0)%nat as -> by lia. unfold sumR at 1. cbn [map fold_right]. unfold residual_covariance, sumR. cbn [map fold_right length INR Nat.eqb]. rewrite R1. unfold D2. cbn [round_solution].
    replace (1 / 100 + (q * phi2 u 0%nat * (q * phi2 u 0%nat) + 0) / 1) with (1 / 100 + q * q * (phi2 u 0%nat * phi2 u 0%nat)) by field. rewrite Q. field. lra.
  - unfold D2. cbn [round_factor length]. split; [intros; lia|]. split; [intros; apply sqrt_lt_R0; lra|]. intros a b Ha Hb. assert (a = 0)%nat as -> by lia. assert (b = 0)%nat as -> by lia.
    unfold residual_products, sumRn, sumR. cbn [seq map fold_right nth length INR Nat.eqb]. fold (sumR [u]). change (round_weights _) with (round_weights (D2 q)). rewrite !R1.
    rewrite sqrt_sqrt by lra. replace (q * phi2 u 0%nat * (q * phi2 u 0%nat) + 0) with (q * q * (phi2 u 0%nat * phi2 u 0%nat)) by ring. rewrite Q. field.
Qed.
Definition lengths2 (q : R) : R := q * q * x2 / (1 / 100 + q * q * x2).
Lemma round_value_2 : forall q kk, (kk < 2)%nat -> round_value 1 phi2 (validated 2 2 kk) (training 2 2 kk) (D2 q) = (ln (2 * PI) + ln (sqrt (1 + 100 * (q * q * x2))) + lengths2 q) / 2 /\
  likelihood_value 1 phi2 (validated 2 2 kk) (training 2 2 kk) (D2 q) = (ln (2 * PI) + 2 * ln (sqrt (1 + 100 * (q * q * x2))) + lengths2 q) / 2.
Proof.
  intros q kk Hk. pose proof x2_pos as X. pose proof (sqrt_sqrt x2 ltac:(lra)) as S. assert (Y : 0 <= q * q * x2) by (apply Rmult_le_pos; [apply Rle_0_sqr|lra]).
  assert (exists t u, validated 2 2 kk = [t] /\ training 2 2 kk = [u] /\ (t < 2)%nat /\ (u < 2)%nat /\ t <> u) as (t & u & -> & -> & Ht & Hu & N).
  { destruct kk as [|[|kk]]; [exists 0%nat, 1%nat|exists 1%nat, 0%nat|lia]; repeat split; auto; lia. }
  assert (O : forall c, phi2 t c = - phi2 u c). { intro c. destruct t as [|[|t]], u as [|[|u]]; try lia; unfold phi2; cbn [Nat.eqb]; ring. }
  assert (Q : phi2 u 0%nat * phi2 u 0%nat = x2) by (unfold phi2; destruct (Nat.eqb u 0); lra).
  assert (N' : Nat.eqb t u = false) by (apply Nat.eqb_neq; auto).
  assert (M : sumR [t] (fun t => sumRn 1 (fun c => residual phi2 [u] (round_weights (D2 q)) t c * round_solution (D2 q) t c)) = lengths2 q).
  { unfold lengths2, sumRn, sumR, residual. unfold sumR, D2. cbn [seq map fold_right round_weights round_solution]. rewrite N', O.
    replace ((- phi2 u 0%nat - (- (1 - q) * phi2 u 0%nat + 0)) * (q * - phi2 u 0%nat / (1 / 100 + q * q * x2)) + 0 + 0) with (q * q * (phi2 u 0%nat * phi2 u 0%nat) / (1 / 100 + q * q * x2)) by (field; lra).
    rewrite Q. auto. }
  unfold round_value, likelihood_value. rewrite M. unfold log_determinant, sumRn, sumR. cbn [seq map fold_right length INR D2 round_factor]. split; field.
Qed.
Lemma scored_2 : forall q parents P, P2 q P -> match parents with [] => P = None | [p] => P = Some K2 | _ => False end ->
  scored false 2 2 (1 / 100) (1 / 100) data2 single 0 parents (- ((ln (2 * PI) + ln (sqrt (1 + 100 * (q * q * x2))) + lengths2 q) / 2)) /\
  log_likelihood false 2 2 (1 / 100) (1 / 100) data2 single 0 parents (- ((ln (2 * PI) + 2 * ln (sqrt (1 + 100 * (q * q * x2))) + lengths2 q) / 2)).
Proof.
  intros q parents P HP Hp.
  assert (HM : match parents with [] => P = None | _ => exists KP, P = Some KP /\ joint_kernel false 2 data2 single parents KP end).
  { destruct parents as [|p [|p' l]]; auto; [|contradiction]. exists K2. split; auto. apply joint_2. }
  split.
  - exists K2, P. split; [apply kernel_2|]. split; auto. exists 1%nat, phi2, (fun _ => D2 q). split; [apply features_2|]. split; [intros kk Hk; apply round_2; auto|].
    unfold sumRn, sumR. cbn [seq map fold_right]. rewrite (proj1 (round_value_2 q 0 ltac:(lia))), (proj1 (round_value_2 q 1 ltac:(lia))). simpl. field.
  - exists K2, P, 1%nat, phi2, (fun _ => D2 q). split; [apply kernel_2|]. split; auto. split; [apply features_2|]. split; [intros kk Hk; apply round_2; auto|].
    unfold sumRn, sumR. cbn [seq map fold_right]. rewrite (proj2 (round_value_2 q 0 ltac:(lia))), (proj2 (round_value_2 q 1 ltac:(lia))). simpl. field.
Qed.
Lemma model_2 : forall q parents P, P2 q P -> match parents with [] => P = None | [p] => P = Some K2 | _ => False end ->
  cv_score tri_inv (fun _ _ => None) false (1 / 100) 2 2 data2 single 0 parents = Ok (- ((ln (2 * PI) + ln (sqrt (1 + 100 * (q * q * x2))) + lengths2 q) / 2)).
Proof. intros q parents P HP Hp. apply C92_value; auto; [apply tri_inv_inverts|lra|]. apply (scored_2 q parents P HP Hp). Qed.
Lemma varies_2 : forall p, varies 2 (length (single p)) (columns data2 (single p)).
Proof. intro p. exists 0%nat, 1%nat, 0%nat. unfold columns, data2. simpl. repeat split; try lia; lra. Qed.
Example C92_example_value : inverts_triangular tri_inv /\ (forall p, In p [0; 1]%nat -> varies 2 (length (single p)) (columns data2 (single p))) /\
  let q := (1 / 100) / (x2 + 1 / 100) in let y := 100 * (q * q * x2) in
  cv_score tri_inv (fun _ _ => None) false (1 / 100) 2 2 data2 single 0 [1]%nat = Ok (- ((ln (2 * PI) + ln (sqrt (1 + y)) + y / (1 + y)) / 2)).
Proof.
  split; [apply tri_inv_inverts|]. split; [intros; apply varies_2|]. cbv zeta. set (q := (1 / 100) / (x2 + 1 / 100)). rewrite (model_2 q [1]%nat (Some K2)); [|right; auto|auto]. f_equal. f_equal. f_equal. f_equal.
  unfold lengths2. pose proof x2_pos. assert (0 <= q * q * x2) by (apply Rmult_le_pos; [apply Rle_0_sqr|lra]). field. lra.
Qed.

(** Differences of scores are not logarithms of likelihood ratios: only half of the
    logarithm of the determinant is counted. *)
Theorem C92_likelihood_refuted : exists data label s0 s1 l0 l1,
  cv_score tri_inv (fun _ _ => None) false (1 / 100) 2 2 data label 0 [] = Ok s0 /\ cv_score tri_inv (fun _ _ => None) false (1 / 100) 2 2 data label 0 [1]%nat = Ok s1 /\
  log_likelihood false 2 2 (1 / 100) (1 / 100) data label 0 [] l0 /\ log_likelihood false 2 2 (1 / 100) (1 / 100) data label 0 [1]%nat l1 /\
  0 < s1 - s0 < l1 - l0.
Proof.
  set (q := (1 / 100) / (x2 + 1 / 100)). pose proof x2_pos as X. assert (Pq : 0 < q < 1).
  { unfold q. split; [apply Rdiv_lt_0_compat; lra|]. apply (Rmult_lt_reg_r (x2 + 1 / 100)); [lra|]. unfold Rdiv at 1. rewrite Rmult_assoc, Rinv_l by lra. lra. }
  assert (P2 1 None) as A0 by (left; auto). assert (P2 q (Some K2)) as A1 by (right; auto).
  exists data2, single. do 4 eexists. split; [apply (model_2 1 [] None A0 eq_refl)|]. split; [apply (model_2 q [1]%nat (Some K2) A1 eq_refl)|].
  split; [apply (scored_2 1 [] None A0 eq_refl)|]. split; [apply (scored_2 q [1]%nat (Some K2) A1 eq_refl)|].
  assert (Y : q * q * x2 < 1 * 1 * x2) by (apply Rmult_lt_compat_r; nra). assert (Y0 : 0 < q * q * x2) by (apply Rmult_lt_0_compat; nra).
  assert (ln (sqrt (1 + 100 * (q * q * x2))) < ln (sqrt (1 + 100 * (1 * 1 * x2)))) as L by (apply ln_increasing; [apply sqrt_lt_R0; lra|apply sqrt_lt_1; lra]).
  assert (lengths2 q < lengths2 1) as M.
  { unfold lengths2. set (y := q * q * x2) in *. set (z := 1 * 1 * x2) in *. replace (y / (1 / 100 + y)) with (1 - (1 / 100) / (1 / 100 + y)) by (field; lra). replace (z / (1 / 100 + z)) with (1 - (1 / 100) / (1 / 100 + z)) by (field; lra).
    assert (/ (1 / 100 + z) < / (1 / 100 + y)) by (apply Rinv_lt_contravar; [apply Rmult_lt_0_compat; lra|lra]). unfold Rdiv at 1 3. lra. }
  lra.
Qed.
Print Assumptions C92_likelihood_refuted.

(* ---------- the folds ---------- *)
(** The sets of validation are a partition of the samples, of the same size except for the
    last; a round trains on the samples that it does not validate. *)
Theorem C92_folds : forall T k, (2 <= k)%nat -> (k <= T)%nat ->
  (forall t, (t < T)%nat -> exists kk, (kk < k)%nat /\ In t (fst (cv_fold T k kk)) /\ forall kk', (kk' < k)%nat -> In t (fst (cv_fold T k kk')) -> kk' = kk) /\
  (forall kk, (kk < k)%nat -> let (te, tr) := cv_fold T k kk in
     NoDup te /\ NoDup tr /\ (forall t, In t te -> ~ In t tr) /\ (forall t, In t te \/ In t tr <-> (t < T)%nat) /\ (0 < length tr)%nat /\
     length te = (T / k + if Nat.eqb kk (k - 1) then T mod k else 0)%nat).
Proof.
  intros T k Hk HT. split.
  - intros t Ht. exists (round_of T k t). assert (round_of T k t < k)%nat as L by (apply round_lt; lia). split; auto. rewrite cv_fold_sets by auto. cbn [fst]. split; [apply in_validated; auto|].
    intros kk' Hk'. rewrite cv_fold_sets by auto. cbn [fst]. intro H. apply in_validated in H. symmetry. apply H.
  - intros kk Hkk. assert (E : length (fst (cv_fold T k kk)) = (T / k + if Nat.eqb kk (k - 1) then T mod k else 0)%nat).
    { pose proof (Nat.div_mod T k ltac:(lia)) as DM. unfold cv_fold. set (n0 := (T / k)%nat) in *. destruct (Nat.eqb_spec kk (k - 1)) as [->|N].
      - rewrite Nat.ltb_irrefl. cbn [andb fst]. unfold range. rewrite seq_length. nia.
      - replace (Nat.ltb kk (k - 1)) with true by (symmetry; apply Nat.ltb_lt; lia). destruct (Nat.eqb_spec kk 0) as [->|N0]; [|replace (Nat.ltb 0 kk) with true by (symmetry; apply Nat.ltb_lt; lia)]; cbn [andb Nat.ltb Nat.leb fst]; unfold range; rewrite seq_length; lia. }
    rewrite cv_fold_sets in * by auto. cbn [fst] in E. split; [apply NoDup_filter, seq_NoDup|]. split; [apply nodup_training|]. split; [intros t H1 H2; apply in_validated in H1; apply in_training in H2; tauto|].
    split; [|split; [apply training_pos; auto|exact E]]. intro t. rewrite in_validated, in_training. destruct (Nat.eq_dec (round_of T k t) kk); tauto.
Qed.
Print Assumptions C92_folds.
(** Eleven samples in three rounds. *)
Example C92_example_folds : cv_fold 11 3 2 = ([6; 7; 8; 9; 10], [0; 1; 2; 3; 4; 5])%nat /\ cv_fold 11 3 1 = ([3; 4; 5], [0; 1; 2; 6; 7; 8; 9; 10])%nat.
Proof. split; reflexivity. Qed.

(* ---------- invariances ---------- *)
Lemma product_perm : forall l l' f, Permutation l l' -> product l f = product l' f.
Proof. intros l l' f H. induction H; simpl; [auto|rewrite IHPermutation; auto|ring|congruence]. Qed.
Lemma joint_perm : forall multi T data label l l' K, Permutation l l' -> joint_kernel multi T data label l K -> joint_kernel multi T data label l' K.
Proof.
  intros multi T data label l l' K H (Ks & H1 & H2). exists Ks. split; [intros p Hp; apply H1; apply (Permutation_in p (Permutation_sym H) Hp)|]. intros i j Hi Hj. rewrite H2 by auto. apply product_perm. auto.
Qed.
(** The order in which the parents are listed does not matter. *)
Theorem C92_order : forall inv svdinv multi lambda k T data label i parents parents' s,
  inverts_triangular inv -> 0 < lambda -> (2 <= k)%nat -> (k <= T)%nat -> Permutation parents parents' ->
  cv_score inv svdinv multi lambda k T data label i parents = Ok s -> cv_score inv svdinv multi lambda k T data label i parents' = Ok s.
Proof.
  intros inv svdinv multi lambda k T data label i parents parents' s Hinv Hl Hk HT HP. rewrite !scored_iff by auto. intros (K & P & H1 & H2 & C). exists K, P. split; auto. split; auto.
  destruct parents as [|p l], parents' as [|p' l']; auto; [apply Permutation_nil in HP; discriminate|apply Permutation_sym, Permutation_nil in HP; discriminate|].
  destruct H2 as (KP & -> & H2). exists KP. split; auto. apply (joint_perm multi T data label (p :: l)); auto.
Qed.
Print Assumptions C92_order.
Example C92_example_order : Permutation [1; 2]%nat [2; 1]%nat /\ exists s, cv_score tri_inv (fun _ _ => None) true (1 / 100) 2 2 data2 single 0 [1; 2]%nat = Ok s.
Proof. split; [apply perm_swap|]. apply C92_returns; auto using tri_inv_inverts; try lra. intros. apply varies_2. Qed.

Lemma similar_dist : forall n d X X', similar_units n d X X' -> exists c, 0 < c /\ forall i j, (i < n)%nat -> (j < n)%nat -> dist2 d X' i j = c * dist2 d X i j.
Proof.
  intros n d X X' (a & b & Ha & H). exists (a * a). split; [apply Rsqr_pos_lt in Ha; exact Ha|]. intros i j Hi Hj. rewrite !dist2_sq, <- rs_scal. apply rs_ext. intros c Hc. rewrite !H by auto. ring.
Qed.
Lemma variable_kernel_units : forall multi T data data' cols K, similar_units T (length cols) (columns data cols) (columns data' cols) ->
  variable_kernel multi T data cols K -> variable_kernel multi T data' cols K.
Proof.
  intros multi T data data' cols K HU HV. destruct (variable_kernel_model _ _ _ _ _ HV) as (K0 & E & A). destruct (similar_dist _ _ _ _ HU) as (c & Hc & HD).
  pose proof (width_dists T (length cols) (length cols) (columns data cols) (columns data' cols) c Hc HD) as W.
  assert (exists K1, var_kernel multi T data' cols = Some K1 /\ agree T T K1 K0) as (K1 & E1 & A1).
  { unfold var_kernel in *. change (select data cols) with (columns data cols) in E. change (select data' cols) with (columns data' cols). rewrite W. destruct (median_width T (length cols) (columns data cols)) as [w|] eqn:EW; [|discriminate].
    pose proof (width_sq _ _ _ _ EW) as Pw. injection E as <-. eexists. split; [reflexivity|]. intros i j Hi Hj. unfold kernel. rewrite HD by auto. pose proof (dist2_nonneg (length cols) (columns data cols) i j) as ND. rewrite (Rmax_right 0 (c * _)) by (apply Rmult_le_pos; lra). rewrite (Rmax_right 0 _ ND). f_equal.
    set (D := dist2 (length cols) (columns data cols) i j). set (N := INR (length cols)). set (r := sqrt c).
    replace c with (r * r) by (apply sqrt_sqrt; lra). assert (r <> 0) by (apply Rgt_not_eq; apply sqrt_lt_R0; auto).
    destruct multi.
    - destruct (Req_dec N 0) as [Z|NZ]; [|field; lra]. exfalso. unfold N in Z. apply (INR_eq _ 0) in Z. destruct HV as (m & (lo & _ & (I & _) & _) & _). unfold distances in I. apply filter_In in I. destruct I as [I J].
      apply in_map_iff in I. destruct I as (p & <- & _). unfold squared_distance in J. rewrite Z in J. unfold sumRn, sumR in J. simpl in J. destruct (Rlt_dec 0 0); [lra|discriminate].
    - field. lra. }
  destruct (var_kernel_spec _ _ _ _ _ E1) as (m & M & F). exists m. split; auto. intros i j Hi Hj. rewrite <- F by auto. rewrite <- A, <- A1 by auto. auto.
Qed.
(** The units of the variables do not matter: every variable may be multiplied by a factor
    and shifted. *)
Theorem C92_units : forall inv svdinv multi lambda k T data data' label i parents s,
  inverts_triangular inv -> 0 < lambda -> (2 <= k)%nat -> (k <= T)%nat ->
  (forall p, In p (i :: parents) -> similar_units T (length (label p)) (columns data (label p)) (columns data' (label p))) ->
  cv_score inv svdinv multi lambda k T data label i parents = Ok s -> cv_score inv svdinv multi lambda k T data' label i parents = Ok s.
Proof.
  intros inv svdinv multi lambda k T data data' label i parents s Hinv Hl Hk HT HU. rewrite !scored_iff by auto. intros (K & P & H1 & H2 & C). exists K, P.
  split; [apply (variable_kernel_units multi T data); auto; apply HU; left; auto|]. split; auto.
  destruct parents as [|p l]; auto. destruct H2 as (KP & -> & Ks & H2 & H3). exists KP. split; auto. exists Ks. split; auto. intros q Hq. apply (variable_kernel_units multi T data); auto. apply HU. right. auto.
Qed.
Print Assumptions C92_units.
Example C92_example_units : (forall p, In p [0; 1]%nat -> similar_units 2 (length (single p)) (columns data2 (single p)) (columns (fun r c => if Nat.eqb c 0 then 3 * INR r + 7 else - INR r) (single p))) /\
  exists s, cv_score tri_inv (fun _ _ => None) false (1 / 100) 2 2 data2 single 0 [1]%nat = Ok s.
Proof.
  split; [|eexists; apply (model_2 ((1 / 100) / (x2 + 1 / 100)) [1]%nat (Some K2)); [right; auto|auto]].
  intros p [<-|[<-|[]]]; [exists 3, (fun _ => 7)|exists (- (1)), (fun _ => 0)]; (split; [lra|]); intros r c _ Hc; unfold single in Hc; simpl in Hc; assert (c = 0)%nat as -> by lia; unfold columns, data2, single; simpl; ring.
Qed.

(* ---------- a bound ---------- *)
(** A score is at most minus the mean over the rounds of n^2 log (2 pi) / 2, where n is the
    number of validated samples; the bound depends on the number of samples and rounds only. *)
Theorem C92_bound : forall inv svdinv multi lambda k T data label i parents s,
  inverts_triangular inv -> 0 < lambda -> (2 <= k)%nat -> (k <= T)%nat ->
  cv_score inv svdinv multi lambda k T data label i parents = Ok s ->
  s <= - (sumRn k (fun kk => INR (length (validated T k kk)) * INR (length (validated T k kk)) * ln (2 * PI) / 2) / INR k).
Proof.
  intros inv svdinv multi lambda k T data label i parents s Hinv Hl Hk HT E. apply scored_iff in E; auto. destruct E as (K & P & _ & _ & d & phi & D & _ & H & ->).
  apply Ropp_le_contravar. unfold Rdiv at 1 3. apply Rmult_le_compat_r; [left; apply Rinv_0_lt_compat, lt_0_INR; lia|]. rewrite <- !rsumn_sumR. apply rs_le. intros kk Hkk. apply (round_value_bound T P lambda); auto. apply training_pos; auto.
Qed.
Print Assumptions C92_bound.
Example C92_example_bound : cv_score tri_inv (fun _ _ => None) false (1 / 100) 2 2 data2 single 0 [] = Ok (- ((ln (2 * PI) + ln (sqrt (1 + 100 * (1 * 1 * x2))) + lengths2 1) / 2)) /\
  sumRn 2 (fun kk => INR (length (validated 2 2 kk)) * INR (length (validated 2 2 kk)) * ln (2 * PI) / 2) / INR 2 = ln (2 * PI) / 2.
Proof. split; [apply (model_2 1 [] None); [left; auto|auto]|]. unfold sumRn, sumR. cbn. field. Qed.

(* ---------- fewer samples than rounds ---------- *)
(** With one round, or fewer samples than rounds (ten by default), the score without parents
    raises ZeroDivisionError, and the score with parents is the same for all of them. *)
Theorem C92_few_samples : forall inv svdinv multi lambda k T data label i K,
  inverts_triangular inv -> 0 < lambda -> (0 < k)%nat -> (k = 1 \/ T < k)%nat -> variable_kernel multi T data (label i) K ->
  cv_score inv svdinv multi lambda k T data label i [] = Err ZeroDivisionError /\
  forall parents, parents <> [] -> (forall p, In p parents -> varies T (length (label p)) (columns data (label p))) ->
    cv_score inv svdinv multi lambda k T data label i parents =
      Ok (- ((INR T * INR T * ln (2 * PI) + 100 * sumRn T (fun t => doubly_centered T K t t)) / 2 / INR k)).
Proof.
  intros inv svdinv multi lambda k T data label i K Hinv Hl Hk Few HV. destruct (variable_kernel_model _ _ _ _ _ HV) as (K0 & E & A).
  assert (HT : (0 < T)%nat).
  { destruct T; [|lia]. exfalso. destruct HV as (m & (lo & _ & (I & _) & _) & _). contradiction. }
  destruct (var_kernel_multiplier _ _ _ _ _ E) as [M1 M2]. destruct (features_exist T K0 HT M1 M2) as [phi F]. split.
  - unfold cv_score. rewrite E. rewrite (few_alone inv svdinv 1 k T Hinv Rlt_0_1 Hk HT Few K0 phi F). reflexivity.
  - intros parents NE VP. unfold cv_score. rewrite E. destruct (parent_kernel_total multi T data label parents (fun _ _ => 1)) as [KP EP]; [intros p Hp; apply var_kernel_total; auto|].
    destruct (parent_kernel_spec _ _ _ _ _ _ _ EP) as (_ & _ & _ & M3 & M4). destruct (features_exist T KP HT) as [psi FP]; [apply M3, multiplier_one|apply M4; auto|].
    destruct parents as [|p l]; [congruence|]. rewrite EP. rewrite (few_parents inv svdinv lambda k T Hinv Hl Hk HT Few K0 phi F KP psi FP). cbn [rbind]. rewrite <- !rsumn_sumR.
    rewrite (rs_ext T (fun t => doubly_centered T K0 t t) (fun t => doubly_centered T K t t)) by (intros t Ht; apply doubly_ext; auto). auto.
Qed.
Print Assumptions C92_few_samples.
Example C92_example_few_samples : variable_kernel false 2 data2 (single 0) K2 /\ cv_score tri_inv (fun _ _ => None) false (1 / 100) 10 2 data2 single 0 [] = Err ZeroDivisionError /\
  cv_score tri_inv (fun _ _ => None) false (1 / 100) 10 2 data2 single 0 [1]%nat = cv_score tri_inv (fun _ _ => None) false (1 / 100) 10 2 data2 single 0 [2; 3]%nat.
Proof.
  destruct (C92_few_samples tri_inv (fun _ _ => None) false (1 / 100) 10 2 data2 single 0 K2) as [H1 H2]; auto using tri_inv_inverts, kernel_2; try lra; try lia.
  split; [apply kernel_2|]. split; auto. rewrite !H2 by (try discriminate; intros; apply varies_2). auto.
Qed.

(* ---------- the arguments ---------- *)
(** The parameters given by position, as the project's tests give them, are not used: two
    constructions that differ in them score with the defaults 1/100 and 10. *)
Theorem C92_arguments_refuted : exists (args args' : list R), args <> args' /\ cv_init args None None = cv_init args' None None /\ cv_init args None None = (1 / 100, 10%nat) /\
  (forall l k, cv_init args (Some l) (Some k) = (l, k)).
Proof. exists [1 / 10; 5], [1 / 100; 3]. split; [intro H; injection H; intros; lra|]. split; auto. split; auto. unfold cv_init. f_equal. lra. Qed.
Print Assumptions C92_arguments_refuted.
