(** C93: the optimiser of the kernel scores. *)

From Coq Require Import List Arith Lia Bool Reals Lra.
From Verif Require Import Model.Py Model.Minimize Spec.MinimizeSpec Proofs.MinimizeFacts.
Import ListNotations.
Open Scope R_scope.

(** The result is never worse than the start: it is one of the evaluated points, with a value
    at most the initial one and at most every value in the returned list, which starts with
    the initial value, decreases, and consists of values of evaluated points. *)
Theorem C93_decreases : forall f slope cg X v0 g0 lines n Y fX i pts, (forall s, 0 <= slope s s) -> f X = Some (v0, g0) -> (lines = false -> (0 < n)%nat) ->
  minimize f slope cg X lines n = Ok (Y, fX, i, pts) ->
  (exists v, has_value f Y v /\ In Y pts /\ v <= v0 /\ forall w, In w fX -> v <= w) /\
  decreasing fX /\ (exists l, fX = v0 :: l) /\ forall w, In w fX -> exists P, In P pts /\ has_value f P w.
Proof.
  intros f slope cg X v0 g0 lines n Y fX i pts S E Hn H. destruct (minimize_spec f slope cg S X v0 g0 lines n E Hn) as [(P & E1 & _)|(r & E1 & R)]; rewrite E1 in H; [discriminate|].
  injection H as ->. destruct R as (R1 & R2 & R3 & R4 & _). auto.
Qed.
Print Assumptions C93_decreases.

(** It returns whenever the objective does: the bracket is always set before it is used, and
    every loop ends. *)
Theorem C93_returns : forall f slope cg X lines n, (forall s, 0 <= slope s s) -> (lines = false -> (0 < n)%nat) ->
  (forall P, f P <> None) -> exists r, minimize f slope cg X lines n = Ok r.
Proof.
  intros f slope cg X lines n S Hn T. destruct (f X) as [[v0 g0]|] eqn:E; [|exfalso; apply (T X); auto].
  destruct (minimize_spec f slope cg S X v0 g0 lines n E Hn) as [(P & E1 & N)|(r & E1 & _)]; [exfalso; apply (T P); auto|exists r; auto].
Qed.
Print Assumptions C93_returns.

(** The number of evaluations: with a negative [length] at most that many, and the returned
    number is exact; with a positive [length], which counts line searches, at most twenty for
    each and one more. *)
Theorem C93_budget : forall f slope cg X lines n Y fX i pts, (forall s, 0 <= slope s s) -> (lines = false -> (0 < n)%nat) ->
  minimize f slope cg X lines n = Ok (Y, fX, i, pts) ->
  (i <= n)%nat /\ if lines then (length pts <= 1 + 20 * i)%nat else length pts = i.
Proof.
  intros f slope cg X lines n Y fX i pts S Hn H. destruct (f X) as [[v0 g0]|] eqn:E; [|unfold minimize in H; rewrite E in H; discriminate].
  destruct (minimize_spec f slope cg S X v0 g0 lines n E Hn) as [(P & E1 & _)|(r & E1 & R)]; rewrite E1 in H; [discriminate|].
  injection H as ->. destruct R as (_ & _ & _ & _ & R5 & R6). split; auto. destruct lines; auto.
Qed.
Print Assumptions C93_budget.

(** If the derivatives vanish in every coordinate that the slopes depend on, no line search
    succeeds: these coordinates keep their values, there are at most 41 evaluations whatever
    [length] is, and the list of values has only the first. *)
Theorem C93_stuck : forall f slope cg (J : nat -> Prop) X lines n Y fX i pts, (forall s, 0 <= slope s s) -> (lines = false -> (0 < n)%nat) ->
  (forall P v g, f P = Some (v, g) -> forall j, J j -> g j = 0) ->
  (forall s t, (forall j, J j -> s j = 0) -> (forall j, J j -> t j = 0) -> slope s t = 0) ->
  minimize f slope cg X lines n = Ok (Y, fX, i, pts) ->
  length fX = 1%nat /\ (length pts <= 41)%nat /\ forall P j, P = Y \/ In P pts -> J j -> P j = X j.
Proof.
  intros f slope cg J X lines n Y fX i pts S Hn HF HS H. destruct (f X) as [[v0 g0]|] eqn:E; [|unfold minimize in H; rewrite E in H; discriminate].
  destruct (stuck f slope cg S J HF HS X v0 g0 lines n Y fX i pts E Hn H) as (E1 & A & L). split; [rewrite E1; auto|]. split; auto.
  destruct (C93_decreases f slope cg X v0 g0 lines n Y fX i pts S E Hn H) as [(v & _ & I & _) _]. intros P j [->|IP] Hj; apply A; auto.
Qed.
Print Assumptions C93_stuck.

(* ---------- running it ---------- *)
Section Steps.
  Variables (f : vec -> option (R * vec)) (slope : vec -> vec -> R) (cg : vec -> vec -> vec -> vec).
  Lemma ext_stop : forall k m X s f0 df0 d0 b x3 t v g, f (move X s x3) = Some (v, g) -> c_SIG * d0 < slope g s ->
    extrapolate f slope (S k) X s f0 df0 d0 b x3 (S m) t = Ok (m, x3, v, g, slope g s, keep b (move X s x3) v g, t ++ [move X s x3]).
  Proof using. intros k m X s f0 df0 d0 b x3 t v g E H. cbn [extrapolate attempt]. rewrite E. rewrite (proj2 (gt_true _ _) H). reflexivity. Qed.
  Lemma ext_go : forall k m X s f0 df0 d0 b x3 t v g y, f (move X s x3) = Some (v, g) -> slope g s <= c_SIG * d0 -> v <= f0 + x3 * c_RHO * d0 ->
    outside 0 x3 (cubic_out 0 f0 d0 x3 v (slope g s)) = y ->
    extrapolate f slope (S k) X s f0 df0 d0 b x3 (S (S m)) t = extrapolate f slope k X s f0 df0 d0 (keep b (move X s x3) v g) y (S m) (t ++ [move X s x3]).
  Proof using. intros k m X s f0 df0 d0 b x3 t v g y E H H2 <-. cbn [extrapolate attempt]. rewrite E. rewrite (proj2 (gt_false _ _) H), (proj2 (gt_false _ _) H2). reflexivity. Qed.
  Lemma int_stop : forall m X s f0 d0 b x2 f2 d2 x3 f3 df3 d3 p4 t, Rabs d3 <= - c_SIG * d0 -> f3 <= f0 + x3 * c_RHO * d0 ->
    interpolate f slope m X s f0 d0 b x2 f2 d2 x3 f3 df3 d3 p4 t = Ok (x3, f3, df3, d3, b, p4, t).
  Proof using. intros [|m] X s f0 d0 b x2 f2 d2 x3 f3 df3 d3 p4 t H1 H2; cbn [interpolate]; auto. rewrite (proj2 (gt_false _ _) H1), (proj2 (gt_false _ _) H2). reflexivity. Qed.
  Lemma int_go : forall m X s f0 d0 b x2 f2 d2 x3 f3 df3 d3 p4 t y v g, - c_SIG * d0 < Rabs d3 -> 0 < d3 -> inside x2 x3 (between f0 x2 f2 d2 x3 f3 d3) = y -> f (move X s y) = Some (v, g) ->
    interpolate f slope (S m) X s f0 d0 b x2 f2 d2 x3 f3 df3 d3 p4 t =
    interpolate f slope m X s f0 d0 (keep b (move X s y) v g) x2 f2 d2 y v g (slope g s) (Some (x3, f3, d3)) (t ++ [move X s y]).
  Proof using. intros m X s f0 d0 b x2 f2 d2 x3 f3 df3 d3 p4 t y v g H1 H2 Y E. cbn [interpolate]. rewrite (proj2 (gt_true _ _) H1), (proj2 (gt_true _ _) H2). cbn [orb]. rewrite Y, E. reflexivity. Qed.
  (** A run that ends after one successful line search. *)
  Lemma one_search : forall X n v0 g0 m x3 f3 df3 d3 b1 t1 x v dv d b2 p4 t2, f X = Some (v0, g0) -> (1 < n)%nat ->
    extrapolate f slope (Nat.min 20 (n - 1)) X (vneg g0) v0 g0 (- slope (vneg g0) (vneg g0)) (X, v0, g0) (1 / (1 - - slope (vneg g0) (vneg g0))) (Nat.min 20 (n - 1)) [] = Ok (m, x3, f3, df3, d3, b1, t1) ->
    interpolate f slope m X (vneg g0) v0 (- slope (vneg g0) (vneg g0)) b1 0 v0 (- slope (vneg g0) (vneg g0)) x3 f3 df3 d3 None t1 = Ok (x, v, dv, d, b2, p4, t2) ->
    Rabs d < - c_SIG * - slope (vneg g0) (vneg g0) -> v < v0 + x * c_RHO * - slope (vneg g0) (vneg g0) -> n = (1 + length t2)%nat ->
    minimize f slope cg X false n = Ok (move X (vneg g0) x, [v0; v], n, X :: t2).
  Proof using.
    intros X n v0 g0 m x3 f3 df3 d3 b1 t1 x v dv d b2 p4 t2 E Hn E1 E2 H1 H2 HL. unfold minimize. rewrite E. cbn [minimize_loop m_i m_X m_s m_f0 m_df0 m_d0 m_x3 m_p4 m_points m_failed m_fX].
    replace (Nat.ltb 1 n) with true by (symmetry; apply Nat.ltb_lt; auto). change c_MAX with 20%nat. rewrite !Nat.add_0_r. rewrite E1. cbn [rbind]. rewrite E2. cbn [rbind].
    destruct (Rlt_dec (Rabs d) (- c_SIG * - slope (vneg g0) (vneg g0))); [|contradiction]. destruct (Rlt_dec v (v0 + x * c_RHO * - slope (vneg g0) (vneg g0))); [|contradiction]. cbn [andb].
    destruct (if gt (slope dv (cg g0 dv (vneg g0))) 0 then (vneg dv, - slope (vneg dv) (vneg dv)) else (cg g0 dv (vneg g0), slope dv (cg g0 dv (vneg g0)))) as [s2 d2].
    destruct n as [|n']; [lia|]. cbn [minimize_loop m_i m_X m_fX m_points]. replace (Nat.ltb (1 + length t2) (S n')) with false by (symmetry; apply Nat.ltb_ge; lia). rewrite <- HL. reflexivity.
  Qed.
End Steps.

Definition line_slope (g s : vec) : R := g 0%nat * s 0%nat.
Definition plain (df0 df3 s : vec) : vec := vneg df3.
(** x^2 from x = 1. *)
Definition square (P : vec) : option (R * vec) := Some (P 0%nat * P 0%nat, fun _ => 2 * P 0%nat).
Lemma line_nonneg : forall s, 0 <= line_slope s s.
Proof. intro s. unfold line_slope. nra. Qed.
Lemma square_at : forall P y v g, P 0%nat = y -> y * y = v -> 2 * y = g -> square P = Some (v, fun _ => g).
Proof. intros P y v g H1 H2 H3. unfold square. rewrite H1, H2, H3. reflexivity. Qed.
Example C93_example : (forall s, 0 <= line_slope s s) /\ (forall P, square P <> None) /\
  exists Y pts, minimize square line_slope plain (fun _ => 1) false 3 = Ok (Y, [1; 0], 3%nat, pts) /\ Y 0%nat = 0 /\ length pts = 3%nat.
Proof.
  split; [exact line_nonneg|]. split; [discriminate|].
  assert (forall a b, line_slope (fun _ => a) (vneg (fun _ => b)) = - (a * b)) as SL by (intros; unfold line_slope, vneg; ring).
  assert (line_slope (vneg (fun _ => 2)) (vneg (fun _ => 2)) = 4) as S4 by (unfold line_slope, vneg; ring).
  eexists. eexists. split; [|split].
  - eapply (one_search square line_slope plain (fun _ => 1) 3 1 (fun _ => 2)) with (x := 1 / 2) (v := 0) (dv := fun _ => 0) (x3 := 1 / 2) (f3 := 0) (df3 := fun _ => 0) (m := 0%nat) (d3 := - (0 * 2)) (d := - (0 * 2)).
    + apply (square_at _ 1); ring.
    + lia.
    + rewrite S4. replace (1 / (1 - Ropp 4)) with (1 / 5) by field. change (Nat.min 20 (3 - 1)) with 2%nat.
      rewrite (ext_go square line_slope 1 0 (fun _ => 1) (vneg (fun _ => 2)) 1 (fun _ => 2) (Ropp 4) _ (1 / 5) [] (9 / 25) (fun _ => 6 / 5) (1 / 2)).
      * rewrite (ext_stop square line_slope 0 0 (fun _ => 1) (vneg (fun _ => 2)) 1 (fun _ => 2) (Ropp 4) _ (1 / 2) _ 0 (fun _ => 0)); [rewrite SL; reflexivity|apply (square_at _ 0); unfold move, vneg; field|rewrite SL; unfold c_SIG; lra].
      * apply (square_at _ (3 / 5)); unfold move, vneg; field.
      * rewrite SL. unfold c_SIG. lra.
      * unfold c_RHO, c_SIG. lra.
      * rewrite SL. unfold cubic_out. destruct (Rlt_dec _ 0) as [N|N]; [exfalso; lra|]. clear N.
        match goal with |- context [sqrt ?a] => replace (sqrt a) with (4 / 25) by (symmetry; apply sqrt_lem_1; lra) end.
        destruct (Req_EM_T _ 0) as [N|N]; [exfalso; lra|]. clear N. unfold outside, c_EXT, c_INT.
        match goal with |- context [Rlt_dec (?a - ?b) 0] => replace (a - b) with (1 / 2) by field end.
        repeat (destruct (Rlt_dec _ _); [exfalso; lra|]). reflexivity.
    + rewrite S4. apply int_stop; [rewrite Rmult_0_l, Ropp_0, Rabs_R0; unfold c_SIG; lra|unfold c_RHO, c_SIG; lra].
    + rewrite S4, Rmult_0_l, Ropp_0, Rabs_R0. unfold c_SIG. lra.
    + rewrite S4. unfold c_RHO, c_SIG. lra.
    + reflexivity.
  - unfold move, vneg. field.
  - reflexivity.
Qed.

(* ---------- the best point ---------- *)
(** A polynomial with p(0) = 0, p'(0) = -1, p(9/20) = -1/2, p'(9/20) = 0, p(1/2) = -10,
    p'(1/2) = 5. *)
Definition poly (x : R) : R := - x - 1933682 / 27 * x ^ 2 + 331956944 / 729 * x ^ 3 - 701903840 / 729 * x ^ 4 + 493433600 / 729 * x ^ 5.
Definition poly' (x : R) : R := - 1 - 2 * (1933682 / 27) * x + 3 * (331956944 / 729) * x ^ 2 - 4 * (701903840 / 729) * x ^ 3 + 5 * (493433600 / 729) * x ^ 4.
Lemma poly_derivative : forall x, derivable_pt_lim poly x (poly' x).
Proof.
  intro x. unfold poly.
  assert (forall n c, derivable_pt_lim (fun y => c * y ^ n) x (c * (INR n * x ^ pred n))) as M by (intros n c; apply (derivable_pt_lim_scal (fun y => y ^ n)), derivable_pt_lim_pow).
  replace (poly' x) with (((((- (1)) - 1933682 / 27 * (INR 2 * x ^ pred 2)) + 331956944 / 729 * (INR 3 * x ^ pred 3)) - 701903840 / 729 * (INR 4 * x ^ pred 4)) + 493433600 / 729 * (INR 5 * x ^ pred 5)).
  2:{ unfold poly'. replace (INR 2) with 2 by (simpl; lra). replace (INR 3) with 3 by (simpl; lra). replace (INR 4) with 4 by (simpl; lra). replace (INR 5) with 5 by (simpl; lra). simpl pred. field. }
  apply (derivable_pt_lim_plus (fun x => - x - 1933682 / 27 * x ^ 2 + 331956944 / 729 * x ^ 3 - 701903840 / 729 * x ^ 4) (fun x => 493433600 / 729 * x ^ 5)); [|apply M].
  apply (derivable_pt_lim_minus (fun x => - x - 1933682 / 27 * x ^ 2 + 331956944 / 729 * x ^ 3) (fun x => 701903840 / 729 * x ^ 4)); [|apply M].
  apply (derivable_pt_lim_plus (fun x => - x - 1933682 / 27 * x ^ 2) (fun x => 331956944 / 729 * x ^ 3)); [|apply M].
  apply (derivable_pt_lim_minus (fun x => - x) (fun x => 1933682 / 27 * x ^ 2)); [|apply M].
  apply (derivable_pt_lim_opp (fun x => x)), derivable_pt_lim_id.
Qed.
Definition poly_objective (P : vec) : option (R * vec) := Some (poly (P 0%nat), fun _ => poly' (P 0%nat)).
Lemma poly_at : forall P y v g, P 0%nat = y -> poly y = v -> poly' y = g -> poly_objective P = Some (v, fun _ => g).
Proof. intros P y v g H1 H2 H3. unfold poly_objective. rewrite H1, H2, H3. reflexivity. Qed.

(** The comment in the code says that the best value so far is returned when the evaluations
    run out; after a successful line search it is not. *)
Theorem C93_best_refuted : exists (p p' : R -> R) X n Y fX i pts, (forall x, derivable_pt_lim p x (p' x)) /\
  minimize (fun P => Some (p (P 0%nat), fun _ => p' (P 0%nat))) line_slope plain X false n = Ok (Y, fX, i, pts) /\ i = n /\
  ~ best_of (fun P => Some (p (P 0%nat), fun _ : nat => p' (P 0%nat))) Y pts.
Proof.
  exists poly, poly'. fold poly_objective. change (fun P : vec => Some (poly (P 0%nat), fun _ : nat => poly' (P 0%nat))) with poly_objective.
  assert (forall a b, line_slope (fun _ => a) (vneg (fun _ => b)) = - (a * b)) as SL by (intros; unfold line_slope, vneg; ring).
  assert (line_slope (vneg (fun _ => - 1)) (vneg (fun _ => - 1)) = 1) as S1 by (unfold line_slope, vneg; ring).
  exists (fun _ => 0), 3%nat. do 4 eexists. split; [exact poly_derivative|]. split; [|split].
  - eapply (one_search poly_objective line_slope plain (fun _ => 0) 3 0 (fun _ => - 1)) with (x := 9 / 20) (v := - (1 / 2)) (dv := fun _ => 0) (x3 := 1 / 2) (f3 := - 10) (df3 := fun _ => 5) (m := 1%nat) (d3 := - (5 * - 1)) (d := - (0 * - 1)).
    + apply (poly_at _ 0); [reflexivity|unfold poly; field|unfold poly'; field].
    + lia.
    + rewrite S1. replace (1 / (1 - Ropp 1)) with (1 / 2) by field. change (Nat.min 20 (3 - 1)) with 2%nat.
      rewrite (ext_stop poly_objective line_slope 1 1 (fun _ => 0) (vneg (fun _ => - 1)) 0 (fun _ => - 1) (Ropp 1) _ (1 / 2) _ (- 10) (fun _ => 5)); [rewrite SL; reflexivity|apply (poly_at _ (1 / 2)); [unfold move, vneg; field|unfold poly; field|unfold poly'; field]|rewrite SL; unfold c_SIG; lra].
    + rewrite S1. rewrite (int_go poly_objective line_slope 0 (fun _ => 0) (vneg (fun _ => - 1)) 0 (Ropp 1) _ 0 0 (Ropp 1) (1 / 2) (- 10) (fun _ => 5) (- (5 * - 1)) None _ (9 / 20) (- (1 / 2)) (fun _ => 0)).
      * rewrite SL. apply int_stop; [rewrite Rmult_0_l, Ropp_0, Rabs_R0; unfold c_SIG; lra|unfold c_RHO, c_SIG; lra].
      * rewrite Rabs_right by lra. unfold c_SIG. lra.
      * lra.
      * unfold between. rewrite (proj2 (gt_false _ _)) by lra. destruct (Req_EM_T (1 / 2 - 0) 0); [exfalso; lra|].
        match goal with |- context [sqrt ?a] => assert (32 <= sqrt a) as SQ by (rewrite <- (sqrt_square 32) by lra; apply sqrt_le_1_alt; lra); set (q := sqrt a) in * end.
        destruct (Rlt_dec _ 0) as [N|N]; [exfalso; lra|]. destruct (Req_EM_T _ 0) as [N2|N2]; [exfalso; lra|]. unfold inside, c_INT.
        match goal with |- context [Rmin ?a ?b] => assert (b <= a) as L end.
        { match goal with |- ?b <= 0 + ?u / ?w => replace w with 132 by lra; apply (Rmult_le_reg_r 132); [lra|]; replace ((0 + u / 132) * 132) with u by (field) end. lra. }
        rewrite Rmin_right by exact L. rewrite Rmax_left by lra. lra.
      * apply (poly_at _ (9 / 20)); [unfold move, vneg; field|unfold poly; field|unfold poly'; field].
    + rewrite S1, Rmult_0_l, Ropp_0, Rabs_R0. unfold c_SIG. lra.
    + rewrite S1. unfold c_RHO, c_SIG. lra.
    + reflexivity.
  - reflexivity.
  - intros (v & (g & E) & H). assert (v = - (1 / 2)) as ->.
    { injection E as <- _. unfold move, vneg. replace (0 + 9 / 20 * - -1) with (9 / 20) by field. unfold poly. field. }
    specialize (H (move (fun _ => 0) (vneg (fun _ => - 1)) (1 / 2)) (- 10)). assert (- (1 / 2) <= - 10); [|lra]. apply H; [cbn; auto|].
    exists (fun _ => 5). apply (poly_at _ (1 / 2)); [unfold move, vneg; field|unfold poly; field|unfold poly'; field].
Qed.
Print Assumptions C93_best_refuted.

(** An objective that fails between two points where it is defined makes the optimiser fail:
    only the extrapolation catches exceptions. *)
Definition broken (P : vec) : option (R * vec) := if Rlt_dec 0 (P 0%nat) then if Rlt_dec (P 0%nat) (1 / 2) then None else Some (- 10, fun _ => 5) else Some (0, fun _ => - 1).
Theorem C93_failures_refuted : exists f X v g, f X = Some (v, g) /\ (forall s, 0 <= line_slope s s) /\ minimize f line_slope plain X false 3 = Err PyException.
Proof.
  assert (broken (fun _ => 0) = Some (0, fun _ => - 1)) as B0 by (unfold broken; destruct (Rlt_dec 0 0); [exfalso; lra|reflexivity]).
  exists broken, (fun _ => 0), 0, (fun _ => - 1). split; [exact B0|]. split; [exact line_nonneg|].
  unfold minimize. rewrite B0. cbn [minimize_loop m_i m_X m_s m_f0 m_df0 m_d0 m_x3 m_p4 m_points m_failed m_fX]. change (Nat.ltb 1 3) with true. change (Nat.min c_MAX (3 - (1 + 0))) with 2%nat. cbn iota.
  assert (line_slope (vneg (fun _ => - 1)) (vneg (fun _ => - 1)) = 1) as S1 by (unfold line_slope, vneg; ring). rewrite S1. replace (1 / (1 - Ropp 1)) with (1 / 2) by field.
  rewrite (ext_stop broken line_slope 1 1 (fun _ => 0) (vneg (fun _ => - 1)) 0 (fun _ => - 1) (Ropp 1) _ (1 / 2) [] (- 10) (fun _ => 5)).
  - cbn [rbind interpolate]. assert (line_slope (fun _ => 5) (vneg (fun _ => - 1)) = 5) as S5 by (unfold line_slope, vneg; ring). rewrite S5.
    rewrite (proj2 (gt_true (Rabs 5) (- c_SIG * Ropp 1))) by (rewrite Rabs_right by lra; unfold c_SIG; lra). rewrite (proj2 (gt_true 5 0)) by lra. cbn [orb].
    match goal with |- context [inside 0 (1 / 2) ?o] => destruct (inside_range 0 (1 / 2) o ltac:(lra)) as [I1 I2]; set (y := inside 0 (1 / 2) o) in * end.
    assert (broken (move (fun _ => 0) (vneg (fun _ => - 1)) y) = None) as ->; [|reflexivity]. unfold broken, move, vneg. destruct (Rlt_dec 0 (0 + y * - -1)); [|exfalso; lra]. destruct (Rlt_dec (0 + y * - -1) (1 / 2)); [reflexivity|exfalso; lra].
  - unfold broken, move, vneg. destruct (Rlt_dec 0 (0 + 1 / 2 * - -1)); [|exfalso; lra]. destruct (Rlt_dec (0 + 1 / 2 * - -1) (1 / 2)); [exfalso; lra|reflexivity].
  - unfold line_slope, vneg, c_SIG. lra.
Qed.
Print Assumptions C93_failures_refuted.

(** Derivatives in the second coordinate only: the first one stays. *)
Definition second (P : vec) : option (R * vec) := Some (P 1%nat * P 1%nat, fun j => if Nat.eqb j 1 then 2 * P 1%nat else 0).
Example C93_example_stuck : (forall P v g, second P = Some (v, g) -> forall j, j = 0%nat -> g j = 0) /\
  (forall s t : vec, (forall j, j = 0%nat -> s j = 0) -> (forall j, j = 0%nat -> t j = 0) -> line_slope s t = 0) /\
  exists Y fX i pts, minimize second line_slope plain (fun _ => 7) false 300 = Ok (Y, fX, i, pts) /\ (i <= 41)%nat.
Proof.
  assert (forall P v g, second P = Some (v, g) -> forall j, j = 0%nat -> g j = 0) as H1 by (intros P v g E j ->; unfold second in E; injection E as _ <-; reflexivity).
  assert (forall s t : vec, (forall j, j = 0%nat -> s j = 0) -> (forall j, j = 0%nat -> t j = 0) -> line_slope s t = 0) as H2 by (intros s t Hs Ht; unfold line_slope; rewrite (Hs 0%nat eq_refl); ring).
  assert (false = false -> (0 < 300)%nat) as T300 by (intros _; lia).
  split; auto. split; auto. destruct (C93_returns second line_slope plain (fun _ => 7) false 300 line_nonneg T300 ltac:(discriminate)) as [[[[Y fX] i] pts] E].
  exists Y, fX, i, pts. split; auto. destruct (C93_budget second line_slope plain _ _ _ _ _ _ _ line_nonneg T300 E) as [_ B]. rewrite <- B.
  apply (C93_stuck second line_slope plain (fun j => j = 0%nat) (fun _ => 7) false 300 Y fX i pts line_nonneg T300 H1 H2 E).
Qed.
