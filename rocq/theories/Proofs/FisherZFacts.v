(** The statistic of the Fisher-z test is the partial correlation. *)

From Coq Require Import List Arith Lia Bool Permutation ZArith Reals Lra.
From Verif Require Import Model.Py Model.LocalScore Model.FisherZ Spec.Scores Spec.Partial Proofs.FinGraph Proofs.ScoreFacts Proofs.BicFacts.
Import ListNotations.
Open Scope nat_scope.

Section Partial.
  Variable C : nat -> nat -> R.
  Variable n : nat.
  Hypothesis HC : correlations n C.
  Notation good := (good n).

  Lemma regression_solves : forall Z i b, regression C Z i b <-> solves C Z (C i) b.
  Proof using. intros. unfold regression, solves. tauto. Qed.

  Lemma residual_rest : forall Z i b j c, good Z -> i < n -> j < n -> regression C Z i b -> regression C Z j c ->
    residual_cov C Z i b j c = rest C Z b i j.
  Proof using HC.
    intros Z i b j c [ND L] Li Lj Sb Sc. unfold residual_cov, rest.
    assert (sumR Z (fun p => sumR Z (fun q => b p * c q * C p q))%R = sumR Z (fun q => c q * C i q)%R) as E.
    { rewrite sumR_swap. apply sumR_ext. intros q Hq. rewrite <- (Sb q Hq). rewrite <- sumR_scal. apply sumR_ext. intros; ring. }
    rewrite E. ring.
  Qed.

  (** The 2 by 2 block of the inverse is the inverse of the residual covariances. *)
  Lemma block : forall x y Z bx by' B, good (x :: y :: Z) -> solves C Z (C x) bx -> solves C Z (C y) by' ->
    inverse_of (length (x :: y :: Z)) (sub C (x :: y :: Z)) B ->
    let sxx := rest C Z bx x x in let sxy := rest C Z bx x y in let syy := rest C Z by' y y in
    let det := (sxx * syy - sxy * sxy)%R in
    (0 < sxx /\ 0 < syy /\ 0 < det /\ B O O = syy / det /\ B O 1%nat%nat = - sxy / det /\ B 1%nat 1%nat = sxx / det)%R.
  Proof using HC.
    intros x y Z bx by' B G Sx Sy HB sxx sxy syy det.
    destruct G as [ND L]. assert (x < n /\ y < n) as [Lx Ly] by (split; apply L; simpl; auto).
    inversion ND as [|a l Nx ND1]; subst. inversion ND1 as [|a l Ny ND2]; subst.
    assert (x <> y) as Dxy by (intro; subst; apply Nx; left; auto).
    assert (~ In x Z) as NxZ by (intro; apply Nx; right; auto).
    assert (good Z) as GZ by (split; auto; intros; apply L; simpl; auto).
    assert (good (x :: Z)) as GxZ by (split; [constructor; auto|]; intros p [<-|Hp]; auto; apply L; simpl; auto).
    pose proof (rest_pos C n HC Z bx x GZ Lx NxZ Sx) as Px. pose proof (rest_pos C n HC Z by' y GZ Ly Ny Sy) as Py.
    pose proof (rest_sym C n HC Z bx by' x y GZ Lx Ly Sx Sy) as Rs. fold sxx in Px. fold syy in Py. fold sxy in Rs.
    destruct (solve_cons C n HC Z x bx (C y) by' GZ Lx NxZ Sx Sy) as [S2 V2].
    set (t := ((C y x - sumR Z (fun p => by' p * C p x)) / rest C Z bx x x)%R) in *.
    set (b2 := fun p => if p =? x then t else (by' p - t * bx p)%R) in *.
    assert (~ In y (x :: Z)) as Ny2 by (intros [Q|Q]; auto).
    pose proof (rest_pos C n HC (x :: Z) b2 y GxZ Ly Ny2 S2) as Pd. unfold rest in Pd. rewrite V2 in Pd. fold sxy in Pd.
    assert (t = sxy / sxx)%R as Et. { unfold t. fold sxx. rewrite Rs. reflexivity. }
    assert (0 < det)%R as Det.
    { replace det with (sxx * (C y y - (sumR Z (fun p => by' p * C p y) + t * sxy)))%R; [apply Rmult_lt_0_compat; auto|].
      rewrite Et. unfold det, syy, rest. field. lra. }
    assert (forall r, (r = 0 \/ r = 1) ->
      (B r 0%nat * sxx + B r 1%nat * sxy = (if Nat.eqb r O then 1 else 0))%R /\ (B r 0%nat * sxy + B r 1%nat * syy = (if Nat.eqb r 1%nat then 1 else 0))%R) as K.
    { intros r Hr. set (P := x :: y :: Z) in *.
      assert (r < length P) as Lr by (unfold P; simpl; lia).
      set (c := fun p => B r (S (S (index_of p Z)))).
      assert (forall (q : nat), sumRn (length P) (fun a => B r a * C (nth a P O) q)%R =
               (B r 0%nat * C x q + B r 1%nat * C y q + sumR Z (fun p => c p * C p q))%R) as SP.
      { intro q. unfold sumRn, P. cbn [length seq sumR nth]. rewrite Rplus_assoc. f_equal. f_equal.
        unfold c. rewrite <- (sum_positions Z). unfold sumRn.
        replace (seq 2 (length Z)) with (map (fun a => S (S a)) (seq 0 (length Z))) by (rewrite <- map_map with (f := S) (g := S); rewrite !seq_shift; auto).
        assert (forall l f, sumR (map (fun a => S (S a)) l) f = sumR l (fun a => f (S (S a)))) as SM.
        { induction l as [|a l IH]; intro f; simpl; auto. rewrite IH. auto. }
        rewrite SM. apply sumR_ext. intros a Ha. apply in_seq in Ha. cbn [nth].
        f_equal. f_equal. do 2 f_equal. apply (proj1 (NoDup_nth Z 0) ND2); [lia| |].
        - apply index_of_lt. apply nth_In. lia.
        - symmetry. apply nth_index. apply nth_In. lia. }
      assert (forall j, j < length P -> (B r 0%nat * C x (nth j P O) + B r 1%nat * C y (nth j P O) + sumR Z (fun p => c p * C p (nth j P O)) = (if Nat.eqb r j then 1 else 0))%R) as E.
      { intros j Hj. destruct (HB r j Lr Hj) as [_ H2]. rewrite <- H2, <- SP. auto. }
      assert (forall q, In q Z -> sumR Z (fun p => c p * C p q)%R = (- (B r 0%nat * C x q + B r 1%nat * C y q))%R) as EZ.
      { intros q Hq. destruct (In_nth Z q 0 Hq) as [j [Hj Ej]].
        specialize (E (S (S j))). cbn [nth P length] in E. unfold P in E. cbn [nth length] in E. rewrite Ej in E.
        specialize (E ltac:(lia)). assert (Nat.eqb r (S (S j)) = false) as F by (apply Nat.eqb_neq; lia). rewrite F in E. lra. }
      assert (forall i bi, i < n -> solves C Z (C i) bi ->
         sumR Z (fun p => c p * C p i)%R = (- (B r 0%nat * sumR Z (fun q => bi q * C q x) + B r 1%nat * sumR Z (fun q => bi q * C q y)))%R) as CR.
      { intros i bi Li Si.
        transitivity (sumR Z (fun p => sumR Z (fun q => bi q * (c p * C p q))%R)).
        - apply sumR_ext. intros p Hp. rewrite (C_sym C n HC p i) by (auto; apply L; simpl; auto).
          rewrite <- (Si p Hp). rewrite <- sumR_scal. apply sumR_ext. intros q Hq.
          rewrite (C_sym C n HC q p) by (apply L; simpl; auto). ring.
        - rewrite sumR_swap. rewrite (sumR_ext Z _ (fun q => (- B r 0%nat) * (bi q * C q x) - B r 1%nat * (bi q * C q y))%R).
          + rewrite sumR_minus, !sumR_scal. ring.
          + intros q Hq. rewrite sumR_scal, (EZ q Hq). rewrite (C_sym C n HC x q), (C_sym C n HC y q) by (auto; apply L; simpl; auto). ring. }
      pose proof (E 0 ltac:(unfold P; simpl; lia)) as E0. pose proof (E 1 ltac:(unfold P; simpl; lia)) as E1.
      unfold P in E0, E1. cbn [nth] in E0, E1.
      rewrite (CR x bx Lx Sx) in E0. rewrite (CR y by' Ly Sy) in E1.
      pose proof (cross C n HC Z bx by' x y GZ Lx Ly Sx Sy) as X.
      assert (C y x = C x y) as Cyx by (apply (C_sym C n HC); auto).
      unfold sxx, sxy, syy, rest. split.
      - rewrite <- E0, Cyx. ring.
      - rewrite <- E1, X. ring. }
    destruct (K 0) as [K1 K2]; auto. destruct (K 1) as [K3 K4]; auto. cbn [Nat.eqb] in *.
    assert (B 0%nat 1%nat = - sxy / det)%R as E01.
    { assert (B 0%nat 1%nat * det = sxx * (B 0%nat 0%nat * sxy + B 0%nat 1%nat * syy) - sxy * (B 0%nat 0%nat * sxx + B 0%nat 1%nat * sxy))%R as H by (unfold det; ring). rewrite K1, K2 in H.
      replace (- sxy)%R with (B 0%nat 1%nat * det)%R by lra. field. lra. }
    assert (B 0%nat 0%nat = syy / det)%R as E00.
    { assert (B 0%nat 0%nat * det = syy * (B 0%nat 0%nat * sxx + B 0%nat 1%nat * sxy) - sxy * (B 0%nat 0%nat * sxy + B 0%nat 1%nat * syy))%R as H by (unfold det; ring). rewrite K1, K2 in H.
      replace syy with (B 0%nat 0%nat * det)%R at 1 by lra. field. lra. }
    assert (B 1%nat 1%nat = sxx / det)%R as E11.
    { assert (B 1%nat 1%nat * det = sxx * (B 1%nat 0%nat * sxy + B 1%nat 1%nat * syy) - sxy * (B 1%nat 0%nat * sxx + B 1%nat 1%nat * sxy))%R as H by (unfold det; ring). rewrite K3, K4 in H.
      replace sxx with (B 1%nat 1%nat * det)%R at 1 by lra. field. lra. }
    repeat split; auto.
  Qed.

  Lemma stat_value : forall x y Z bx by' B, good (x :: y :: Z) -> solves C Z (C x) bx -> solves C Z (C y) by' ->
    inverse_of (length (x :: y :: Z)) (sub C (x :: y :: Z)) B ->
    (- B 0%nat 1%nat / sqrt (Rabs (B 0%nat 0%nat * B 1%nat 1%nat)) = rest C Z bx x y / sqrt (rest C Z bx x x * rest C Z by' y y))%R /\
    (Rabs (rest C Z bx x y / sqrt (rest C Z bx x x * rest C Z by' y y)) < 1)%R.
  Proof using HC.
    intros x y Z bx by' B G Sx Sy HB.
    destruct (block x y Z bx by' B G Sx Sy HB) as [Px [Py [Pd [E0 [E1 E2]]]]].
    set (sxx := rest C Z bx x x) in *. set (sxy := rest C Z bx x y) in *. set (syy := rest C Z by' y y) in *.
    set (det := (sxx * syy - sxy * sxy)%R) in *.
    assert (0 < sxx * syy)%R as Pp by (apply Rmult_lt_0_compat; auto).
    assert (0 < sqrt (sxx * syy))%R as Ps by (apply sqrt_lt_R0; auto).
    split.
    - rewrite E0, E1, E2.
      replace (syy / det * (sxx / det))%R with ((sxx * syy) / (det * det))%R by (field; lra).
      assert (0 < det * det)%R by (apply Rmult_lt_0_compat; auto).
      rewrite Rabs_right by (apply Rle_ge, Rlt_le, Rdiv_lt_0_compat; auto).
      rewrite sqrt_div_alt by auto. rewrite (sqrt_square det) by lra. field. split; lra.
    - assert (sxy * sxy < sxx * syy)%R as Q by (unfold det in Pd; lra).
      assert (Rabs sxy < sqrt (sxx * syy))%R as Q2.
      { rewrite <- sqrt_Rsqr_abs. apply sqrt_lt_1; [apply Rle_0_sqr|lra|exact Q]. }
      unfold Rdiv. rewrite Rabs_mult. rewrite (Rabs_right (/ _)) by (apply Rle_ge, Rlt_le, Rinv_0_lt_compat; auto).
      apply Rmult_lt_reg_r with (sqrt (sxx * syy)); auto. rewrite Rmult_assoc, Rinv_l by lra. lra.
  Qed.

  (** Two partial correlations of the same pair agree. *)
  Lemma partial_unique : forall x y Z r r', good (x :: y :: Z) -> partial_correlation C Z x y r -> partial_correlation C Z x y r' -> r = r'.
  Proof using HC.
    intros x y Z r r' G [b [c [Sb [Sc [P1 [P2 ->]]]]]] [b' [c' [Sb' [Sc' [P1' [P2' ->]]]]]].
    assert (good Z) as GZ. { destruct G as [ND L]. inversion ND; subst. inversion H2; subst. split; auto. intros; apply L; simpl; auto. }
    assert (x < n /\ y < n) as [Lx Ly] by (destruct G as [_ L]; split; apply L; simpl; auto).
    rewrite !residual_rest by auto.
    rewrite (rest_sym C n HC Z b c' x y GZ Lx Ly Sb Sc'), (rest_sym C n HC Z b' c' x y GZ Lx Ly Sb' Sc').
    rewrite (rest_sym C n HC Z b b' x x GZ Lx Lx Sb Sb'), (rest_sym C n HC Z c c' y y GZ Ly Ly Sc Sc'). auto.
  Qed.

  Lemma partial_exists : forall x y Z, good (x :: y :: Z) -> exists r, partial_correlation C Z x y r /\ (Rabs r < 1)%R.
  Proof using HC.
    intros x y Z G. pose proof G as G0. destruct G as [ND L]. assert (x < n /\ y < n) as [Lx Ly] by (split; apply L; simpl; auto).
    inversion ND as [|a l Nx ND1]; subst. inversion ND1 as [|a l Ny ND2]; subst.
    assert (good Z) as GZ by (split; auto; intros; apply L; simpl; auto).
    destruct (solvable C n HC Z GZ (C x)) as [bx Sx]. destruct (solvable C n HC Z GZ (C y)) as [by' Sy].
    pose proof (inverse_ok C n HC (x :: y :: Z) G0) as HB.
    destruct (stat_value x y Z bx by' _ G0 Sx Sy HB) as [_ Bd].
    exists (rest C Z bx x y / sqrt (rest C Z bx x x * rest C Z by' y y))%R. split; auto.
    exists bx, by'. rewrite !residual_rest by auto. repeat split; auto.
    - apply (rest_pos C n HC); auto. intro. apply Nx. right. auto.
    - apply (rest_pos C n HC); auto.
  Qed.

  Lemma partial_sym : forall x y Z r, good (x :: y :: Z) -> partial_correlation C Z x y r -> partial_correlation C Z y x r.
  Proof using HC.
    intros x y Z r G [b [c [Sb [Sc [P1 [P2 ->]]]]]].
    assert (good Z) as GZ. { destruct G as [ND L]. inversion ND; subst. inversion H2; subst. split; auto. intros; apply L; simpl; auto. }
    assert (x < n /\ y < n) as [Lx Ly] by (destruct G as [_ L]; split; apply L; simpl; auto).
    exists c, b. repeat (split; auto). rewrite !residual_rest by auto.
    rewrite (rest_sym C n HC Z b c x y GZ Lx Ly Sb Sc). rewrite Rmult_comm. auto.
  Qed.

  Lemma partial_perm : forall x y Z Z' r, Permutation Z Z' -> partial_correlation C Z x y r -> partial_correlation C Z' x y r.
  Proof using.
    intros x y Z Z' r Pm [b [c [Sb [Sc [P1 [P2 ->]]]]]].
    assert (forall i b j c, residual_cov C Z i b j c = residual_cov C Z' i b j c) as E.
    { intros. unfold residual_cov. rewrite !(sumR_perm _ _ _ Pm). f_equal. apply sumR_ext. intros. apply sumR_perm. auto. }
    exists b, c. rewrite <- !E. repeat (split; auto).
    - intros q Hq. rewrite <- (sumR_perm _ _ _ Pm). apply Sb. eapply Permutation_in; [apply Permutation_sym; exact Pm|auto].
    - intros q Hq. rewrite <- (sumR_perm _ _ _ Pm). apply Sc. eapply Permutation_in; [apply Permutation_sym; exact Pm|auto].
  Qed.

  Variable inv : nat -> rmat -> res rmat.
  Hypothesis inv_ok : forall k A, correlations k A -> exists B, inv k A = Ok B /\ inverse_of k A B.

  Lemma fisherz_value : forall cdf N x y z r, let Z := match z with None => [] | Some l => l end in
    good (x :: y :: Z) -> partial_correlation C Z x y r ->
    fisherz_from_corr inv cdf n C N x y z = Ok (z_pvalue cdf N (length Z) r, r).
  Proof using HC inv_ok.
    intros cdf N x y z r Z G Hr. unfold fisherz_from_corr. fold Z.
    assert (forallb (fun i => Nat.ltb i n) (x :: y :: Z) = true) as ->.
    { apply forallb_forall. intros i Hi. apply Nat.ltb_lt. apply G. auto. }
    cbn [negb]. destruct (inv_ok (length (x :: y :: Z)) (sub C (x :: y :: Z)) (sub_correlations C n HC _ G)) as [B [EB I]].
    change (inv (length (x :: y :: Z)) (fun a b => C (nth a (x :: y :: Z) O) (nth b (x :: y :: Z) O))) with (inv (length (x :: y :: Z)) (sub C (x :: y :: Z))).
    rewrite EB. unfold rbind.
    assert (good Z) as GZ. { destruct G as [ND L]. inversion ND; subst. inversion H2; subst. split; auto. intros; apply L; simpl; auto. }
    assert (x < n /\ y < n) as [Lx Ly] by (destruct G as [_ L]; split; apply L; simpl; auto).
    destruct Hr as [b [c [Sb [Sc [P1 [P2 ->]]]]]]. rewrite !residual_rest by auto.
    destruct (stat_value x y Z b c B G Sb Sc I) as [-> _]. auto.
  Qed.
End Partial.

(* ---------- the p-value ---------- *)
Lemma z_value_transform : forall a, (0 <= a < 1)%R -> z_value a = fisher_transform a.
Proof. intros a H. unfold z_value, fisher_transform. f_equal; [lra|]. f_equal. field. lra. Qed.

Lemma transform_mono : forall a b, (0 <= a -> a < b -> b < 1 -> fisher_transform a < fisher_transform b)%R.
Proof.
  intros a b H0 H1 H2. unfold fisher_transform. apply Rmult_lt_compat_l; [lra|]. apply ln_increasing.
  - apply Rdiv_lt_0_compat; lra.
  - assert (0 < (1 - a) * (1 - b))%R by (apply Rmult_lt_0_compat; lra).
    apply Rmult_lt_reg_r with ((1 - a) * (1 - b))%R; auto.
    replace ((1 + a) / (1 - a) * ((1 - a) * (1 - b)))%R with ((1 + a) * (1 - b))%R by (field; lra).
    replace ((1 + b) / (1 - b) * ((1 - a) * (1 - b)))%R with ((1 + b) * (1 - a))%R by (field; lra). nra.
Qed.
Lemma transform_0 : fisher_transform 0 = 0%R.
Proof. unfold fisher_transform. replace ((1 + 0) / (1 - 0))%R with 1%R by field. rewrite ln_1. ring. Qed.
Lemma transform_nonneg : forall a, (0 <= a < 1)%R -> (0 <= fisher_transform a)%R.
Proof. intros a [[H|<-] L]; [|rewrite transform_0; lra]. rewrite <- transform_0. apply Rlt_le, transform_mono; lra. Qed.

Lemma capped_range : forall r, (0 <= capped r < 1)%R.
Proof. intro r. unfold capped. pose proof (Rabs_pos r). split; [apply Rmin_glb; lra|]. eapply Rle_lt_trans; [apply Rmin_l|lra]. Qed.
Lemma capped_mono : forall r s, (Rabs r <= Rabs s -> capped r <= capped s)%R.
Proof. intros r s H. unfold capped. apply Rle_min_compat_l. auto. Qed.

Lemma z_pvalue_eq : forall cdf N k r, k + 3 <= N ->
  z_pvalue cdf N k r = Some (2 * (1 - cdf (sqrt (INR (N - k - 3)) * fisher_transform (capped r))))%R.
Proof.
  intros cdf N k r H. unfold z_pvalue. destruct (Nat.ltb_spec N (k + 3)); [lia|]. do 4 f_equal.
  rewrite z_value_transform by apply capped_range. pose proof (transform_nonneg _ (capped_range r)).
  rewrite (Rabs_right (fisher_transform _)) by (apply Rle_ge; auto).
  apply Rabs_right. apply Rle_ge, Rmult_le_pos; auto. apply sqrt_pos.
Qed.
