(** C94: the marginal likelihood scores with kernels. *)

From Coq Require Import List Arith Lia Bool Reals Lra FunctionalExtensionality.
From Verif Require Import Model.Py Model.LocalScore Model.KCI Model.HSIC Model.Expm Model.CVScore Model.Minimize Model.Marginal Spec.Scores Spec.KernelSpec Spec.KCISpec Spec.CVSpec Spec.MinimizeSpec Spec.MarginalSpec.
From Verif Require Import Proofs.BicFacts Proofs.HSICFacts Proofs.MedianFacts Proofs.GaussianFacts Proofs.CholeskyFacts Proofs.CVFacts Proofs.MinimizeFacts Proofs.MarginalFacts Props.MinimizeProps.
Import ListNotations.
Open Scope R_scope.

Lemma not_constant_varies : forall n d X, ~ constant_data n d X -> varies n d X.
Proof.
  intros n d X H. apply Classical_Prop.NNPP. intro N. apply H. intros i j c Hi Hj Hc. destruct (Req_EM_T (X i c) (X j c)); auto. exfalso. apply N. exists i, j, c. auto.
Qed.
Lemma first_nonneg : forall s, 0 <= first_entries s s.
Proof. intro s. unfold first_entries. apply Rle_0_sqr. Qed.
(** The matrix whose eigenpairs are taken. *)
Lemma regressed_decomposes : forall eigs T data cols Kx, decomposes eigs T (length cols) (columns data cols) -> regressed T data cols = Some Kx ->
  exists K, scaled_heuristic (25 / 4) T (length cols) (columns data cols) K /\
    leading_eigenpairs T (Nat.min 400 (T / 4)) (doubly_centered T K) (fst (eigs (Nat.min 400 (T / 4)) (fun a b => (Kx a b + Kx b a) / 2))) (snd (eigs (Nat.min 400 (T / 4)) (fun a b => (Kx a b + Kx b a) / 2))).
Proof.
  intros eigs T data cols Kx D H. destruct (regressed_value _ _ _ _ H) as (K & SH & -> & Sy & _). exists K. split; auto.
  assert (forall a b, (a < T)%nat -> (b < T)%nat -> (centered T K a b + centered T K b a) / 2 = doubly_centered T K a b) as A.
  { intros a b Ha Hb. rewrite (sym_centered T ltac:(lia) K ltac:(intros x y _ _; auto) b a) by auto. rewrite centered_doubly by auto. field. }
  eapply leading_ext; [exact A|]. apply (D K); auto.
Qed.
(** A run of the score. *)
Lemma score_run : forall inv eigs cg multi T data label i parents s theta pts, marginal_score inv eigs cg multi T data label i parents = Ok (s, theta, pts) ->
  exists Kx w, regressed T data (if multi then label i else flat_map label parents) = Some Kx /\ (4 <= T)%nat /\ parents <> [] /\ widths T data label parents = Some w /\
    let e := eigs (Nat.min 400 (T / 4)) (fun a b => (Kx a b + Kx b a) / 2) in
    let l := kept (Nat.min 400 (T / 4)) (fst e) in
    let objective := gpr inv T (length (flat_map label parents)) (length l) (select data (flat_map label parents)) (outputs T (fst e) (snd e) l) in
    (0 < length l)%nat /\ exists fX k g, minimize objective first_entries cg (theta0 w) false 300 = Ok (theta, fX, k, pts) /\ objective theta = Some (- s, g).
Proof.
  intros inv eigs cg multi T data label i parents s theta pts H. unfold marginal_score in H.
  destruct (regressed T data (if multi then label i else flat_map label parents)) as [Kx|]; [|discriminate]. destruct (Nat.ltb (Nat.min 400 (T / 4)) 1) eqn:L; [discriminate|].
  destruct (eigs (Nat.min 400 (T / 4)) (fun a b => (Kx a b + Kx b a) / 2)) as [eig eix] eqn:EE. destruct (Nat.eqb (length parents) 0) eqn:LP; [discriminate|]. destruct (widths T data label parents) as [w|]; [|discriminate].
  destruct (Nat.eqb (length (kept (Nat.min 400 (T / 4)) eig)) 0) eqn:LK; [discriminate|]. exists Kx, w. split; auto. split.
  { apply Nat.ltb_ge in L. destruct (Nat.le_gt_cases 4 T) as [G|G]; auto. exfalso. rewrite (Nat.div_small T 4) in L by auto. rewrite Nat.min_0_r in L. lia. }
  split; [intros ->; discriminate|]. split; auto. rewrite EE. cbn [fst snd]. split; [apply Nat.eqb_neq in LK; lia|].
  match type of H with rbind ?a _ = _ => destruct a as [[[[th fX] k] pt]|] eqn:M; [|discriminate] end. cbn [rbind] in H.
  match type of H with match ?a with _ => _ end = _ => destruct a as [[nl g]|] eqn:G; [|discriminate] end. injection H as <- <- <-.
  exists fX, k, g. split; auto. rewrite Ropp_involutive. auto.
Qed.

(** The score is the log marginal likelihood of a Gaussian process regression of the leading
    kernel features; the covariance is the product of the kernels of the parents, with
    widths from the medians of the distances, plus some noise; and the score is at least the
    one for the noise 1/10.  GeneralMarginalScore takes the features of the parents, not
    those of the variable. *)
Theorem C94_value : forall inv eigs cg multi T data label i parents s theta pts, let cols := if multi : bool then label i else flat_map label parents in
  inverts_factors inv -> decomposes eigs T (length cols) (columns data cols) ->
  marginal_score inv eigs cg multi T data label i parents = Ok (s, theta, pts) ->
  exists K m y noise C, scaled_heuristic (25 / 4) T (length cols) (columns data cols) K /\ targets T K m y /\ 0 < noise /\ covariance T data label parents noise C /\ log_marginal T C m y s /\
    forall C' s', covariance T data label parents (/ 10) C' -> log_marginal T C' m y s' -> s' <= s.
Proof.
  intros inv eigs cg multi T data label i parents s theta pts cols Hinv Hd H.
  destruct (score_run _ _ _ _ _ _ _ _ _ _ _ _ H) as (Kx & w & HR & HT & HP & HW & HL & fX & k & g & HM & HO).
  destruct (regressed_decomposes eigs T data cols Kx Hd HR) as (K & SH & LE). set (e := eigs (Nat.min 400 (T / 4)) (fun a b => (Kx a b + Kx b a) / 2)) in *. destruct e as [lam V]. cbn [fst snd] in *.
  destruct (kept_seq (Nat.min 400 (T / 4)) lam) as (m & E & Lm & HC); [apply LE|]. rewrite E, seq_length in *.
  assert (0 < lam 0%nat) as P0. { assert (lam 0%nat / 100000 < lam 0%nat) by (apply HC; lia). lra. }
  set (y := outputs T lam V (seq 0 m)) in *. set (D := length (flat_map label parents)) in *. set (x := select data (flat_map label parents)) in *.
  assert (forall P v g, gpr inv T D m x y P = Some (v, g) -> forall j, j <> (D + 1)%nat -> g j = 0) as Z.
  { intros P v g' EP j Hj. destruct (gpr_total inv T D m x y P) as (v' & g'' & E' & HZ). rewrite EP in E'. injection E' as <- <-. auto. }
  assert (forall j, (j <= D)%nat -> theta j = theta0 w j) as TH.
  { intros j Hj. apply (C93_stuck (gpr inv T D m x y) first_entries cg (fun j => j <> (D + 1)%nat) (theta0 w) false 300 theta fX k pts); auto; [apply first_nonneg|lia| |lia].
    intros s0 t Hs Ht. unfold first_entries. rewrite Hs by lia. ring. }
  exists K, m, y, (exp (2 * theta (D + 1)%nat)), (covSum D x theta). split; auto. split.
  { exists lam, V. split; auto. split; [split; auto|]. split; auto. intros a c Ha Hc. apply outputs_value; auto. assert (lam 0%nat / 100000 < lam c) by (apply HC; lia). lra. }
  split; [apply exp_pos|]. split; [apply (covSum_fixed T data label parents w theta); auto|]. split; [rewrite <- (Ropp_involutive s); eapply gpr_value; eauto|].
  intros C' s' (Ks & HKs & HC') LM. destruct (gpr_total inv T D m x y (theta0 w)) as (v0 & g0 & E0 & _).
  destruct (C93_decreases (gpr inv T D m x y) first_entries cg (theta0 w) v0 g0 false 300 theta fX k pts first_nonneg E0 ltac:(lia) HM) as [(v & (g' & Ev) & _ & Le & _) _]. rewrite HO in Ev. injection Ev as <- <-.
  assert (s' = - v0) as ->; [|lra]. apply (log_marginal_unique T (covSum D x (theta0 w)) m y); [|eapply gpr_value; eauto].
  eapply log_marginal_ext; [|reflexivity|intros; reflexivity|exact LM].
  destruct (covSum_fixed T data label parents w (theta0 w) HW ltac:(auto)) as (Ks2 & HKs2 & HC2). fold D x in HC2. intros a b Ha Hb. rewrite HC', HC2 by auto. f_equal.
  - apply product_ext. intros p Hp. destruct (HKs p Hp) as (m1 & M1 & ->); auto. destruct (HKs2 p Hp) as (m2 & M2 & ->); auto. rewrite (is_median_unique _ _ _ M1 M2). reflexivity.
  - destruct (Nat.eqb a b); auto. destruct (widths_spec _ _ _ _ _ HW) as (LW & _). fold D in LW. unfold theta0. rewrite (proj2 (Nat.ltb_ge (D + 1) (length w))) by lia. rewrite (proj2 (Nat.eqb_neq (D + 1) (length w))) by lia.
    replace (2 * ln (sqrt (/ 10))) with (ln (sqrt (/ 10)) + ln (sqrt (/ 10))) by ring. assert (0 < sqrt (/ 10)) by (apply sqrt_lt_R0; lra). rewrite exp_plus, exp_ln by auto. rewrite sqrt_sqrt by lra. reflexivity.
Qed.
Print Assumptions C94_value.

(** It returns exactly for four or more samples, at least one parent, and regressed columns
    and parents that are not constant. *)
Theorem C94_returns : forall inv eigs cg multi T data label i parents, let cols := if multi : bool then label i else flat_map label parents in
  decomposes eigs T (length cols) (columns data cols) ->
  (exists r, marginal_score inv eigs cg multi T data label i parents = Ok r) <->
  (4 <= T)%nat /\ parents <> [] /\ varies T (length cols) (columns data cols) /\ forall p, In p parents -> varies T (length (label p)) (columns data (label p)).
Proof.
  intros inv eigs cg multi T data label i parents cols Hd. split.
  - intros [[[s theta] pts] H]. destruct (score_run _ _ _ _ _ _ _ _ _ _ _ _ H) as (Kx & w & HR & HT & HP & HW & _). split; auto. split; auto.
    assert (forall cs v, median_width T (length cs) (select data cs) = Some v -> varies T (length cs) (columns data cs)) as A.
    { intros cs v E. apply not_constant_varies. intro N. change (select data cs) with (columns data cs) in E. apply width_none in N. rewrite N in E. discriminate. }
    split.
    + unfold regressed in HR. fold cols in HR. destruct (median_width T (length cols) (select data cols)) as [v|] eqn:E; [|discriminate]. apply (A _ v E).
    + clear - HW A. revert w HW. induction parents as [|q rest IH]; intros w HW p Hp; [destruct Hp|]. cbn [widths] in HW. destruct (median_width T (length (label q)) (select data (label q))) as [v|] eqn:E; [|discriminate]. destruct (widths T data label rest) as [l|] eqn:E2; [|discriminate]. destruct Hp as [->|Hp]; [apply (A _ v E)|eapply IH; eauto].
  - intros (HT & HP & Hv & HA). destruct (median_width_total T data cols Hv) as [v E].
    assert (exists Kx, regressed T data cols = Some Kx) as [Kx HR] by (unfold regressed; rewrite E; eauto).
    assert (exists w, widths T data label parents = Some w) as [w HW].
    { clear - HA. induction parents as [|q rest IH]; [eexists; reflexivity|]. destruct IH as [w Hw]; [intros p Hp; apply HA; right; auto|]. destruct (median_width_total T data (label q) (HA q (or_introl eq_refl))) as [v Ev]. cbn [widths]. rewrite Ev, Hw. eauto. }
    destruct (regressed_decomposes eigs T data cols Kx Hd HR) as (K & SH & LE). unfold marginal_score. fold cols. rewrite HR.
    assert (0 < Nat.min 400 (T / 4))%nat as HN. { assert (1 <= T / 4)%nat by (change 1%nat with (4 / 4)%nat; apply Nat.div_le_mono; lia). lia. }
    replace (Nat.ltb (Nat.min 400 (T / 4)) 1) with false by (symmetry; apply Nat.ltb_ge; lia). destruct (eigs (Nat.min 400 (T / 4)) (fun a b => (Kx a b + Kx b a) / 2)) as [lam V]. cbn [fst snd] in LE.
    destruct parents as [|p0 rest]; [contradiction|]. cbn [length Nat.eqb]. rewrite HW.
    destruct (kept_seq (Nat.min 400 (T / 4)) lam) as (m & EK & Lm & HC); [apply LE|]. rewrite EK, seq_length.
    pose proof (largest_positive T data cols K lam V _ Hv SH HN LE) as P0.
    assert (0 < m)%nat as Hm by (apply HC; auto; lra). replace (Nat.eqb m 0) with false by (symmetry; apply Nat.eqb_neq; lia).
    set (f := gpr inv T (length (flat_map label (p0 :: rest))) m (select data (flat_map label (p0 :: rest))) (outputs T lam V (seq 0 m))).
    assert (forall P, f P <> None) as F. { intros P. destruct (gpr_total inv T (length (flat_map label (p0 :: rest))) m (select data (flat_map label (p0 :: rest))) (outputs T lam V (seq 0 m)) P) as (a & b & Eq & _). unfold f. rewrite Eq. discriminate. }
    destruct (C93_returns f first_entries cg (theta0 w) false 300 first_nonneg ltac:(lia) F) as [[[[th fX] k] pt] M]. rewrite M. cbn [rbind]. destruct (f th) as [[nl g]|] eqn:G; [eauto|]. exfalso. apply (F th G).
Qed.
Print Assumptions C94_returns.

(** The length scales and the signal variance are never fitted, and 300 evaluations are
    never used: only the derivative for the noise is computed and the slopes are products of
    the first entries, so that no line search succeeds. *)
Theorem C94_unfitted : forall inv eigs cg multi T data label i parents s theta pts,
  marginal_score inv eigs cg multi T data label i parents = Ok (s, theta, pts) ->
  (length pts <= 41)%nat /\ In theta pts /\ forall P Q j, In P pts -> In Q pts -> j <> (length (flat_map label parents) + 1)%nat -> P j = Q j.
Proof.
  intros inv eigs cg multi T data label i parents s theta pts H. destruct (score_run _ _ _ _ _ _ _ _ _ _ _ _ H) as (Kx & w & HR & HT & HP & HW & HL & fX & k & g & HM & HO). cbv zeta in *.
  match type of HM with minimize ?f _ _ _ _ _ = _ => set (ob := f) in * end. set (D := length (flat_map label parents)) in *.
  assert (forall P v g, ob P = Some (v, g) -> forall j, j <> (D + 1)%nat -> g j = 0) as Z.
  { intros P v g' EP j Hj. unfold ob in EP. match type of EP with gpr ?a ?b ?c ?d ?e ?f ?g0 = _ => destruct (gpr_total a b c d e f g0) as (v' & g'' & E' & HZ) end. rewrite EP in E'. injection E' as <- <-. auto. }
  destruct (C93_stuck ob first_entries cg (fun j => j <> (D + 1)%nat) (theta0 w) false 300 theta fX k pts first_nonneg ltac:(lia) Z) as (_ & LP & A); auto.
  { intros s0 t Hs Ht. unfold first_entries. rewrite Hs by lia. ring. }
  split; auto. split.
  - destruct (ob (theta0 w)) as [[v0 g0]|] eqn:E0; [|unfold minimize in HM; rewrite E0 in HM; discriminate]. destruct (C93_decreases ob first_entries cg (theta0 w) v0 g0 false 300 theta fX k pts first_nonneg E0 ltac:(lia) HM) as [(v & _ & I & _) _]. auto.
  - intros P Q j HP' HQ Hj. rewrite (A P j), (A Q j) by auto. reflexivity.
Qed.
Print Assumptions C94_unfitted.

(** GeneralMarginalScore does not look at the variable: its score depends on the columns of
    the parents only. *)
Theorem C94_ignores : forall inv eigs cg T data data' i i' parents, (forall r p, In p parents -> data r p = data' r p) ->
  marginal_score inv eigs cg false T data (fun p => [p]) i parents = marginal_score inv eigs cg false T data' (fun p => [p]) i' parents.
Proof.
  intros inv eigs cg T data data' i i' parents H.
  assert (forall l, flat_map (fun p : nat => [p]) l = l) as FM by (induction l; cbn; congruence). unfold marginal_score. rewrite FM.
  assert (forall cs, (forall p, In p cs -> In p parents) -> forall r c, (c < length cs)%nat -> select data cs r c = select data' cs r c) as S.
  { intros cs Hcs r c Hc. unfold select. apply H, Hcs, nth_In. auto. }
  assert (forall cs, (forall p, In p cs -> In p parents) -> dist2 (length cs) (select data cs) = dist2 (length cs) (select data' cs)) as D2.
  { intros cs Hcs. apply functional_extensionality. intro a. apply functional_extensionality. intro b. unfold dist2. f_equal; [f_equal|f_equal]; apply rs_ext; intros c Hc; rewrite !(S cs Hcs) by auto; reflexivity. }
  assert (regressed T data parents = regressed T data' parents) as ->.
  { unfold regressed, median_width. rewrite (D2 parents) by auto. destruct (median _); auto. do 2 f_equal. apply functional_extensionality. intro a. apply functional_extensionality. intro b. unfold kernel. rewrite (D2 parents) by auto. reflexivity. }
  assert (forall l, (forall p, In p l -> In p parents) -> widths T data (fun p => [p]) l = widths T data' (fun p => [p]) l) as W.
  { induction l as [|q l IH]; intro Hl; auto. cbn [widths]. unfold median_width. rewrite (D2 [q]) by (intros p [->|[]]; apply Hl; left; auto). rewrite IH by (intros; apply Hl; right; auto). reflexivity. }
  rewrite (W parents) by auto. assert (forall m y, gpr inv T (length parents) m (select data parents) y = gpr inv T (length parents) m (select data' parents) y) as G.
  { intros m y. apply functional_extensionality. intro th. unfold gpr.
    assert (covSum (length parents) (select data parents) th = covSum (length parents) (select data' parents) th) as ->; auto.
    apply functional_extensionality. intro a. apply functional_extensionality. intro b. unfold covSum, radd, covSEard. do 5 f_equal. unfold sq_dist. apply rs_ext. intros c Hc. rewrite !(S parents) by auto. reflexivity. }
  destruct (regressed T data' parents) as [Kx|]; [|reflexivity]. destruct (Nat.ltb _ 1); [reflexivity|]. destruct (eigs _ _) as [eig eix]. destruct (Nat.eqb (length parents) 0); [reflexivity|]. destruct (widths T data' (fun p => [p]) parents) as [w|]; [|reflexivity].
  cbv zeta. rewrite G. reflexivity.
Qed.
Print Assumptions C94_ignores.

(* ---------- an instance ---------- *)
(** Triangular matrices of either kind. *)
Definition is_upper (n : nat) (U : rmat) : bool := forallb (fun i => forallb (fun j => if Nat.ltb j i then if Req_EM_T (U i j) 0 then true else false else true) (seq 0 n)) (seq 0 n).
Definition both_inv (n : nat) (A : rmat) : rmat := if is_upper n A then tri_inv n A else fun i j => tri_inv n (fun a b => A b a) j i.
Lemma is_upper_spec : forall n U, is_upper n U = true <-> forall i j, (i < n)%nat -> (j < n)%nat -> (j < i)%nat -> U i j = 0.
Proof.
  intros n U. unfold is_upper. rewrite forallb_forall. split.
  - intros H i j Hi Hj Hji. specialize (H i ltac:(apply in_seq; lia)). rewrite forallb_forall in H. specialize (H j ltac:(apply in_seq; lia)). rewrite (proj2 (Nat.ltb_lt j i) Hji) in H. destruct (Req_EM_T (U i j) 0); auto. discriminate.
  - intros H i Hi. apply forallb_forall. intros j Hj. apply in_seq in Hi, Hj. destruct (Nat.ltb j i) eqn:E; auto. apply Nat.ltb_lt in E. destruct (Req_EM_T (U i j) 0) as [|N]; auto. exfalso. apply N. apply H; lia.
Qed.
Lemma both_inverts : inverts_factors both_inv.
Proof.
  intros n A L (T1 & T2 & _). assert (forall i, (i < n)%nat -> L i i <> 0) as D by (intros i Hi; specialize (T2 i Hi); lra).
  assert (inverse_of n (fun i j => L j i) (tri_inv n (fun i j => L j i))) as I by (apply tri_inv_inverts; auto). split.
  - unfold both_inv. destruct (is_upper n L) eqn:E; [apply tri_inv_inverts; auto; apply is_upper_spec; auto|].
    intros i j Hi Hj. destruct (I j i Hj Hi) as [A1 A2]. rewrite (Nat.eqb_sym i j). split; [rewrite <- A2|rewrite <- A1]; rewrite <- !rsumn_sumR; apply rs_ext; intros; ring.
  - unfold both_inv. rewrite (proj2 (is_upper_spec n (fun i j => L j i))); auto.
Qed.
(** Two samples at 0, two at 1. *)
Definition halves : rmat := fun r _ => if Nat.ltb r 2 then 0 else 1.
Definition e4 : R := exp (- (4 / 25)).
Definition sgn (r : nat) : R := if Nat.ltb r 2 then 1 else - 1.
Definition half_eigs (N : nat) (K : rmat) : vec * rmat := (fun _ => 2 * (1 - e4), fun r _ => sgn r / 2).
Lemma sum4 : forall f, sumRn 4 f = f 0%nat + f 1%nat + f 2%nat + f 3%nat.
Proof. intro f. unfold sumRn. simpl. ring. Qed.
Lemma half_median : forall c m, is_median (distances 4 1 (columns halves [c])) m -> m = 1.
Proof.
  intros c m (lo & hi & (L & _) & (H & _) & ->). assert (forall x, In x (distances 4 1 (columns halves [c])) -> x = 1) as A.
  { intros x Hx. unfold distances in Hx. apply filter_In in Hx. destruct Hx as [Hx P]. destruct (Rlt_dec 0 x) as [G|]; [|discriminate]. apply in_map_iff in Hx. destruct Hx as ([i j] & E & _). cbn [fst snd] in E. unfold squared_distance in E. rewrite <- rsumn_sumR, rs_one in E.
    unfold columns, halves in E. destruct (Nat.ltb i 2), (Nat.ltb j 2); lra. }
  rewrite (A lo), (A hi) by auto. field.
Qed.
Lemma e4_range : 0 < e4 < 1.
Proof. unfold e4. split; [apply exp_pos|]. rewrite <- exp_0. apply exp_increasing. lra. Qed.
Lemma half_decomposes : forall c, decomposes half_eigs 4 1 (columns halves [c]).
Proof.
  intros c K H (m & M & EK) HH. apply half_median in M. subst m. change (Nat.min 400 (4 / 4)) with 1%nat.
  assert (forall a b, (a < 4)%nat -> (b < 4)%nat -> K a b = if Bool.eqb (Nat.ltb a 2) (Nat.ltb b 2) then 1 else e4) as KV.
  { intros a b Ha Hb. rewrite EK by auto. unfold squared_distance. rewrite <- rsumn_sumR, rs_one. unfold columns, halves. destruct (Nat.ltb a 2), (Nat.ltb b 2); cbn [Bool.eqb].
    - replace (- ((0 - 0) * (0 - 0)) / (25 / 4 * 1)) with 0 by field. apply exp_0.
    - unfold e4. f_equal. field.
    - unfold e4. f_equal. field.
    - replace (- ((1 - 1) * (1 - 1)) / (25 / 4 * 1)) with 0 by field. apply exp_0. }
  assert (forall a b, (a < 4)%nat -> (b < 4)%nat -> H a b = (1 - e4) / 2 * (sgn a * sgn b)) as HV.
  { intros a b Ha Hb. rewrite HH by auto. unfold doubly_centered. rewrite !sum4. rewrite !KV by lia. replace (INR 4) with 4 by (simpl; lra). unfold sgn.
    change (Nat.ltb 0 2) with true. change (Nat.ltb 1 2) with true. change (Nat.ltb 2 2) with false. change (Nat.ltb 3 2) with false. destruct (Nat.ltb a 2), (Nat.ltb b 2); cbn [Bool.eqb]; field. }
  pose proof e4_range as [E0 E1]. unfold half_eigs. cbn [fst snd]. split; [|split; [|split]].
  - intros a k Ha _. rewrite sum4. rewrite !HV by lia. assert (sgn 0 = 1 /\ sgn 1 = 1 /\ sgn 2 = - 1 /\ sgn 3 = - 1) as (-> & -> & -> & ->) by (repeat split). field.
  - intros k k' Hk Hk'. assert (k = 0%nat) as -> by lia. assert (k' = 0%nat) as -> by lia. rewrite sum4. unfold sgn. cbn. field.
  - intros. lra.
  - intros k v Hk _. rewrite !sum4. rewrite !HV by lia. unfold sgn. cbn [Nat.ltb Nat.leb]. set (a := v 0%nat). set (b := v 1%nat). set (p := v 2%nat). set (q := v 3%nat).
    assert (0 <= (1 - e4) / 2 * (4 * (a * a + b * b + p * p + q * q) - (a + b - p - q) * (a + b - p - q))) as G.
    { apply Rmult_le_pos; [lra|]. replace (4 * (a * a + b * b + p * p + q * q) - (a + b - p - q) * (a + b - p - q)) with ((a - b) * (a - b) + (a + p) * (a + p) + (a + q) * (a + q) + (b + p) * (b + p) + (b + q) * (b + q) + (p - q) * (p - q)) by ring.
      repeat apply Rplus_le_le_0_compat; apply Rle_0_sqr. }
    lra.
Qed.
Example C94_example : inverts_factors both_inv /\ decomposes half_eigs 4 1 (columns halves [0%nat]) /\
  (forall multi : bool, exists s theta pts, marginal_score both_inv half_eigs plain multi 4 halves (fun p => [p]) 0 [1%nat] = Ok (s, theta, pts) /\ (length pts <= 41)%nat) /\
  exists e, marginal_score both_inv half_eigs plain true 4 halves (fun p => [p]) 0 [] = Err e.
Proof.
  split; [exact both_inverts|]. split; [apply half_decomposes|].
  assert (forall c, varies 4 1 (columns halves [c])) as V. { intro c. exists 0%nat, 2%nat, 0%nat. split; [lia|]. split; [lia|]. split; [lia|]. unfold columns, halves. cbn. lra. }
  split.
  - intro multi. destruct (C94_returns both_inv half_eigs plain multi 4 halves (fun p => [p]) 0 [1%nat]) as [_ H].
    + destruct multi; apply half_decomposes.
    + destruct H as [[[s theta] pts] H].
      * split; [lia|]. split; [discriminate|]. split; [destruct multi; apply V|]. intros p _. apply V.
      * exists s, theta, pts. split; auto. apply (C94_unfitted _ _ _ _ _ _ _ _ _ _ _ _ H).
  - destruct (marginal_score both_inv half_eigs plain true 4 halves (fun p => [p]) 0 []) as [r|e] eqn:E; [|eauto]. exfalso.
    destruct (proj1 (C94_returns both_inv half_eigs plain true 4 halves (fun p => [p]) 0 [] (half_decomposes 0)) (ex_intro _ r E)) as (_ & N & _). apply N. reflexivity.
Qed.
(** Another first column, which is the variable that is scored. *)
Definition other : rmat := fun r c => if Nat.eqb c 0 then INR r else halves r c.
Example C94_example_ignores : other 1%nat 0%nat <> halves 1%nat 0%nat /\
  marginal_score both_inv half_eigs plain false 4 halves (fun p => [p]) 0 [1%nat] = marginal_score both_inv half_eigs plain false 4 other (fun p => [p]) 0 [1%nat].
Proof.
  split; [unfold other, halves; simpl; lra|]. apply C94_ignores. intros r p [<-|[]]. reflexivity.
Qed.
