(** C80, C81: when the learners with the continuous penalty return an acyclic graph,
    and what the neural learner of nonlinear.py guarantees. *)

From Coq Require Import List Arith Bool Lia QArith Qabs Lqa Qpower.
From Verif Require Import Model.Py Model.SHP Model.Matrix Model.Notears Model.NotearsNet Spec.Sums Spec.Digraphs Spec.Packing.
From Verif Require Import Proofs.SimFacts Proofs.MatrixFacts Proofs.NotearsFacts Proofs.NotearsGrad Proofs.NotearsBound Proofs.RelExt.
From Verif Require Import Proofs.PackFacts Proofs.NetFacts Props.NotearsProps.
Import ListNotations.
Open Scope nat_scope.

(** The smallest penalty of a cycle of edges at or above the threshold. *)
Definition cycle_bound (d : nat) (thr : Q) : Q := Qpower (thr * thr / inject_Z (Z.of_nat d)) (Z.of_nat d).

Lemma heavy_acyclic : forall d A W thr, 0 < d -> (0 <= thr)%Q -> (thr * thr <= inject_Z (Z.of_nat d))%Q ->
  (forall i j, i < d -> j < d -> (0 <= A i j)%Q) ->
  (forall i j, i < d -> j < d -> (thr <= Qabs (W i j))%Q -> (thr * thr <= A i j)%Q) ->
  (penalty d A < cycle_bound d thr)%Q -> acyclic (support d (threshold thr W)).
Proof.
  intros d A W thr Hd H0 H1 HA HW HP u C.
  assert (dpath1 (fun x y => x < d /\ y < d /\ (thr * thr <= A x y)%Q) u u) as C'.
  { assert (SU : forall x y, support d (threshold thr W) x y -> x < d /\ y < d /\ (thr * thr <= A x y)%Q).
    { intros x y [Hx [Hy N]]. split; auto. split; auto. apply HW; auto. unfold threshold in N.
      destruct (Qle_bool thr (Qabs (W x y))) eqn:B; [apply Qle_bool_iff; auto|]. exfalso. apply N. reflexivity. }
    inversion C as [a b c He Hp]; subst. apply dp1_intro with b; [apply SU; auto|]. clear -Hp SU. induction Hp; [apply dp_refl|]. eapply dp_step; [apply SU; eauto|auto]. }
  pose proof (penalty_heavy d A (thr * thr)%Q Hd HA (Qsq_nonneg thr) u C' H1) as B. rewrite qpow_power in B. unfold cycle_bound in HP.
  change (qnat d) with (inject_Z (Z.of_nat d)) in B. lra.
Qed.

(** linear.py: a final penalty below [(thr^2 / d)^d] makes the truncated graph acyclic. *)
Theorem C80_linear : forall d W thr, 0 < d -> (0 <= thr)%Q -> (thr * thr <= inject_Z (Z.of_nat d))%Q ->
  (h_linear d W < cycle_bound d thr)%Q -> acyclic (support d (threshold thr W)).
Proof.
  intros d W thr Hd H0 H1 HP. apply (heavy_acyclic d (mmul W W)); auto.
  - intros. apply Qsq_nonneg.
  - intros i j _ _ L. unfold mmul. destruct (Qlt_le_dec (W i j) 0) as [N|P].
    + rewrite Qabs_neg in L by lra. nra.
    + rewrite Qabs_pos in L by auto. nra.
Qed.
Print Assumptions C80_linear.

(** nonlinear.py, both networks; the square root may round down. *)
Theorem C80_networks : forall sq, (forall a, (0 <= a)%Q -> (0 <= sq a)%Q /\ (sq a * sq a <= a)%Q) ->
  (forall bias d m1 ps thr, 0 < d -> (0 <= thr)%Q -> (thr * thr <= inject_Z (Z.of_nat d))%Q ->
    (mlp_h bias d m1 ps < cycle_bound d thr)%Q -> acyclic (support d (threshold thr (mlp_adj sq bias d m1 ps)))) /\
  (forall d k ps thr, 0 < d -> (0 <= thr)%Q -> (thr * thr <= inject_Z (Z.of_nat d))%Q ->
    (sobolev_h d k ps < cycle_bound d thr)%Q -> acyclic (support d (threshold thr (sobolev_adj sq d k ps)))).
Proof.
  intros sq HS.
  assert (K : forall a thr, (0 <= a)%Q -> (0 <= thr)%Q -> (thr <= Qabs (sq a))%Q -> (thr * thr <= a)%Q).
  { intros a thr Ha Ht L. destruct (HS a Ha) as [P S]. rewrite Qabs_pos in L by auto. nra. }
  split.
  - intros bias d m1 ps thr Hd H0 H1 HP.
    assert (N : forall i j, (0 <= mlp_A m1 (mlp_weight bias d ps) i j)%Q).
    { intros. unfold mlp_A. rewrite msum_sumQ. apply sumQ_nonneg. intros. apply Qsq_nonneg. }
    apply (heavy_acyclic d (mlp_A m1 (mlp_weight bias d ps))); auto.
  - intros d k ps thr Hd H0 H1 HP.
    assert (N : forall i j, (0 <= sobolev_A k (sobolev_weight d k ps) i j)%Q).
    { intros. unfold sobolev_A. rewrite msum_sumQ. apply sumQ_nonneg. intros. apply Qsq_nonneg. }
    apply (heavy_acyclic d (sobolev_A k (sobolev_weight d k ps))); auto.
Qed.
Print Assumptions C80_networks.

(** With the default tolerance and threshold a converged run on up to four
    variables is acyclic, whatever the optimiser does.  (Five variables are too
    many: C59_dag_refuted.) *)
Theorem C80_up_to_four : forall d max_iter solve rho_max W, 0 < d <= 4 ->
  notears_linear d max_iter solve (1 # 100000000) rho_max (3 # 10) = Ok W ->
  exists W0, W = threshold (3 # 10) W0 /\ ((h_linear d W0 <= 1 # 100000000)%Q -> acyclic (support d W)).
Proof.
  intros d k solve rho_max W Hd H. unfold notears_linear in H.
  destruct (outer_loop k d solve _ rho_max _ 1 0 None) as [w|e] eqn:E; [|discriminate]. cbn [rbind] in H. inversion H; subst W.
  exists (adj_of d w). split; auto. intro L. apply C80_linear; try lia; [discriminate| |].
  - apply Qle_trans with 1%Q; [discriminate|]. change 1%Q with (inject_Z 1). rewrite <- Zle_Qle. lia.
  - eapply Qle_lt_trans; [exact L|]. assert (d = 1 \/ d = 2 \/ d = 3 \/ d = 4) as [->|[->|[->| ->]]] by lia; reflexivity.
Qed.
Print Assumptions C80_up_to_four.

(** Two variables with one strong edge and one below the threshold: penalty below the bound. *)
Definition eg_pair : qmat := fun i j => if Nat.eqb i 0 && Nat.eqb j 1 then 1%Q else if Nat.eqb i 1 && Nat.eqb j 0 then (1 # 50) else 0%Q.
Example C80_example : (h_linear 2 eg_pair < cycle_bound 2 (3 # 10))%Q /\ (0 < h_linear 2 eg_pair)%Q /\ ~ acyclic (support 2 eg_pair)
  /\ acyclic (support 2 (threshold (3 # 10) eg_pair)).
Proof.
  assert (h_linear 2 eg_pair < cycle_bound 2 (3 # 10))%Q as L by (vm_compute; reflexivity).
  split; auto. split; [vm_compute; reflexivity|]. split.
  - intro A. apply (A 0). apply dp1_intro with 1; [repeat split; try lia; discriminate|].
    apply dp_step with 0; [repeat split; try lia; discriminate|apply dp_refl].
  - apply C80_linear; auto; discriminate.
Qed.

Example C80_example_network : forall ps, mlp_init false (fun k i => if Nat.eqb k 0 then (if Nat.eqb i 2 then 1%Q else if Nat.eqb i 1 then (1 # 50) else 0%Q) else 0%Q) [2; 1] = Ok ps ->
  (0 < mlp_h false 2 1 ps < cycle_bound 2 (3 # 10))%Q.
Proof. intros ps H. inversion H. split; vm_compute; reflexivity. Qed.

(* ---------- C81 ---------- *)
(** Packing: a vector of the right length is distributed without exception; the
    entries of parameter [k] are those from its start on, gathering gives the vector
    back, and at the same positions the gathered bounds are those of the parameter. *)
Theorem C81_packing : forall ps flat, length flat = list_sum (map (fun p => length (p_data p)) ps) ->
  exists ps', distribute ps flat = Ok ps' /\ gather_params ps' = flat /\ length ps' = length ps /\
  forall k i, k < length ps -> i < length (p_data (par ps k)) ->
    let at_ := start (map (fun p => length (p_data p)) ps) k + i in
    entry (par ps' k) i = nth at_ flat 0%Q /\ entry (par ps k) i = nth at_ (gather_params ps) 0%Q /\
    ((forall p b, In p ps -> p_bounds p = Some b -> length b = length (p_data p)) ->
     nth at_ (gather_bounds ps) (None, None) = match p_bounds (par ps k) with Some b => nth i b (None, None) | None => (None, None) end).
Proof.
  intros ps flat H. change (map (fun p => length (p_data p)) ps) with (sizes ps) in *.
  destruct (distribute_ok ps flat H) as [ps' [D [G [S B]]]]. assert (LY : layout ps ps') by (split; auto).
  exists ps'. split; auto. split; auto. split; [apply layout_len; auto|].
  intros k i Hk Hi. cbn zeta. split; [|split].
  - rewrite <- G, <- S. symmetry. apply gather_nth; [rewrite (layout_len _ _ LY); auto|]. rewrite par_numel, S, <- par_numel. auto.
  - symmetry. apply gather_nth; auto.
  - intro W. rewrite gather_bounds_concat, (concat_nth bounds_of); auto.
    + unfold bounds_of. destruct (p_bounds (par ps k)); auto. clear. generalize (numel (par ps k)) as n. intro n. revert i.
      induction n as [|n IH]; intros [|i]; simpl; auto.
    + intros p Hp. unfold bounds_of. destruct (p_bounds p) as [b|] eqn:E; [apply (W p b Hp E)|apply repeat_length].
Qed.
Print Assumptions C81_packing.

(** Training a network of any depth: with [rho_max] above 1 and at least one
    iteration it finishes for every optimiser that stays within its bounds; the
    result has no self-loops and respects the threshold, no prediction depends on the
    column it predicts, and the penalty fc1_l1_reg is at least the sum of the absolute
    weights. *)
Theorem C81_mlp_trained : forall bias init dims ps minimize sq max_iter h_tol rho_max thr,
  mlp_init bias init dims = Ok ps -> (forall r a, within_bounds (minimize r a)) -> (forall a, (a == 0)%Q -> (sq a == 0)%Q) ->
  0 < max_iter -> ~ (rho_max <= 1)%Q ->
  let d := nth 0 dims 0 in let m1 := nth 1 dims 0 in
  exists ps' W, notears_nonlinear minimize (mlp_h bias d m1) (mlp_adj sq bias d m1) max_iter h_tol rho_max thr ps = Ok (ps', W) /\
    (forall i, i < d -> (W i i == 0)%Q) /\ (forall i j, (W i j == 0)%Q \/ (thr <= Qabs (W i j))%Q) /\
    (forall sigma x x' r j, respects sigma -> j < d -> same_but j x x' ->
       (mlp_forward sigma bias dims ps' x r j == mlp_forward sigma bias dims ps' x' r j)%Q) /\
    (sumQ (d * m1) (fun r => sumQ d (fun i => Qabs (mlp_weight bias d ps' r i))) <= mlp_l1 bias d m1 ps')%Q.
Proof.
  intros bias init dims ps minimize sq k h_tol rho_max thr HI WB SQ Hk NB d m1.
  destruct (mlp_init_ok _ _ _ _ HI) as [W [L1 [L2 _]]].
  destruct (ascent_ok minimize (mlp_h bias d m1) h_tol rho_max (fun r a bs x0 E => proj1 (WB r a bs x0 E)) k 1 0 None ps W (Qle_refl 1) NB)
    as [ps' [E [LY [G _]]]]; [apply inner_fuel_ok|].
  specialize (G Hk WB (proj1 (feas_layout _ _ LY) (mlp_feas _ _ _ _ HI))). exists ps', (threshold thr (mlp_adj sq bias d m1 ps')). unfold notears_nonlinear. rewrite E. cbn [rbind]. split; auto.
  pose proof (weight_diag bias init dims ps ps' HI LY G) as WD. fold d m1 in WD.
  split; [|split; [|split]].
  - intros i Hi. apply threshold_zero. unfold mlp_adj. apply SQ. unfold mlp_A. rewrite msum_sumQ.
    rewrite (sumQ_ext m1 _ (fun _ => 0%Q)); [apply sumQ_zero|]. intros m Hm. rewrite (WD i m Hi Hm). ring.
  - intros i j. apply threshold_or.
  - intros sigma x x' r j HS Hj S. apply mlp_forward_same with j; auto.
  - apply (l1_ok bias init dims ps ps' HI LY G).
Qed.
Print Assumptions C81_mlp_trained.

(** The same for the basis expansion; without iterations its result is the empty graph. *)
Theorem C81_sobolev_trained : forall d k minimize sq max_iter h_tol rho_max thr,
  (forall r a, within_bounds (minimize r a)) -> (forall a, (a == 0)%Q -> (sq a == 0)%Q) -> ~ (rho_max <= 1)%Q ->
  exists ps' W, notears_nonlinear minimize (sobolev_h d k) (sobolev_adj sq d k) max_iter h_tol rho_max thr (sobolev_init d k) = Ok (ps', W) /\
    (forall i, i < d -> (W i i == 0)%Q) /\ (forall i j, (W i j == 0)%Q \/ (thr <= Qabs (W i j))%Q) /\
    (max_iter = 0 -> forall i j, (W i j == 0)%Q) /\
    (forall psi x x' r j, j < d -> same_but j x x' ->
       (sobolev_forward psi d k ps' x r j == sobolev_forward psi d k ps' x' r j)%Q).
Proof.
  intros d k minimize sq n h_tol rho_max thr WB SQ NB. pose proof (sobolev_wf d k) as W.
  destruct (ascent_ok minimize (sobolev_h d k) h_tol rho_max (fun r a bs x0 E => proj1 (WB r a bs x0 E)) n 1 0 None _ W (Qle_refl 1) NB)
    as [ps' [E [LY [G Z]]]]; [apply inner_fuel_ok|].
  exists ps', (threshold thr (sobolev_adj sq d k ps')). unfold notears_nonlinear. rewrite E. cbn [rbind]. split; auto.
  assert (Z0 : forall q i, entry (par (sobolev_init d k) q) i = 0%Q).
  { assert (R : forall m i, nth i (repeat 0%Q m) 0%Q = 0%Q) by (induction m; intros [|i]; simpl; auto).
    intros [|[|q]] i; unfold par, sobolev_init, entry; simpl; auto. destruct q; destruct i; auto. }
  assert (WD : forall j m, j < d -> m < k -> (sobolev_weight d k ps' j (j * k + m)%nat == 0)%Q).
  { intros j m Hj Hm. unfold sobolev_weight. destruct n as [|n].
    - rewrite (Z eq_refl), !Z0. ring.
    - specialize (G ltac:(lia) WB (proj1 (feas_layout _ _ LY) (sobolev_feas d k))).
      destruct (sobolev_bound d k ps' LY G 0 j j m) as [_ E1]; auto. destruct (sobolev_bound d k ps' LY G 1 j j m) as [_ E2]; auto.
      rewrite E1, E2 by auto. ring. }
  split; [|split; [|split]].
  - intros i Hi. apply threshold_zero. unfold sobolev_adj. apply SQ. unfold sobolev_A. rewrite msum_sumQ.
    rewrite (sumQ_ext k _ (fun _ => 0%Q)); [apply sumQ_zero|]. intros m Hm. rewrite (WD i m Hi Hm). ring.
  - intros i j. apply threshold_or.
  - intros -> i j. apply threshold_zero. unfold sobolev_adj. apply SQ. unfold sobolev_A. rewrite msum_sumQ, (Z eq_refl).
    rewrite (sumQ_ext k _ (fun _ => 0%Q)); [apply sumQ_zero|]. intros m Hm. unfold sobolev_weight. rewrite !Z0. ring.
  - intros psi x x' r j Hj S. apply sobolev_forward_same with j; auto.
Qed.
Print Assumptions C81_sobolev_trained.

(** Whatever the parameters: a zero in fc1_to_adj means that the prediction of [j]
    does not depend on column [i]. *)
Theorem C81_no_edge_no_influence : forall sq, (forall a, (0 <= a)%Q -> (sq a == 0)%Q -> (a == 0)%Q) ->
  (forall sigma bias init dims ps0 ps x x' r i j, mlp_init bias init dims = Ok ps0 -> respects sigma ->
     (mlp_adj sq bias (nth 0 dims 0%nat) (nth 1 dims 0%nat) ps i j == 0)%Q -> same_but i x x' ->
     (mlp_forward sigma bias dims ps x r j == mlp_forward sigma bias dims ps x' r j)%Q) /\
  (forall psi d k ps x x' r i j, (sobolev_adj sq d k ps i j == 0)%Q -> same_but i x x' ->
     (sobolev_forward psi d k ps x r j == sobolev_forward psi d k ps x' r j)%Q).
Proof.
  intros sq HS.
  assert (K : forall n f, (sq (msum n (fun m => f m * f m)) == 0)%Q -> forall m, m < n -> (f m == 0)%Q).
  { intros n f E m Hm. apply HS in E; [|rewrite msum_sumQ; apply sumQ_nonneg; intros; apply Qsq_nonneg].
    destruct (Qeq_dec (f m) 0) as [|N]; auto. exfalso. apply (proj2 (sum_squares_nonzero n f)); eauto. }
  split.
  - intros sigma bias init dims ps0 ps x x' r i j HI HR E S. destruct (mlp_init_ok _ _ _ _ HI) as [_ [L1 [L2 _]]].
    apply mlp_forward_same with i; auto. intros m Hm. apply (K _ (fun m => mlp_weight bias (nth 0 dims 0) ps (j * nth 1 dims 0 + m) i) E m Hm).
  - intros psi d k ps x x' r i j E S. apply sobolev_forward_same with i; auto. intros m Hm.
    apply (K _ (fun m => sobolev_weight d k ps j (i * k + m)) E m Hm).
Qed.
Print Assumptions C81_no_edge_no_influence.

(** The exceptions of training: TypeError exactly when [rho_max] is at most 1 and
    there is an iteration, none otherwise. *)
Theorem C81_only_exception : forall bias init dims ps minimize hf adj max_iter h_tol rho_max thr,
  mlp_init bias init dims = Ok ps -> (forall r a bs x0, length bs = length x0 -> length (minimize r a bs x0) = length x0) ->
  (notears_nonlinear minimize hf adj max_iter h_tol rho_max thr ps = Err TypeError <-> (rho_max <= 1)%Q /\ 0 < max_iter) /\
  (forall e, notears_nonlinear minimize hf adj max_iter h_tol rho_max thr ps = Err e -> e = TypeError).
Proof.
  intros bias init dims ps minimize hf adj k h_tol rho_max thr HI L. destruct (mlp_init_ok _ _ _ _ HI) as [W _].
  destruct k as [|k]; [unfold notears_nonlinear; simpl; split; [split; [discriminate|lia]|discriminate]|].
  destruct (Qlt_le_dec 1 rho_max) as [Lt|Ge].
  - destruct (ascent_ok minimize hf h_tol rho_max L (S k) 1 0 None ps W (Qle_refl 1)) as [ps' [E _]]; [lra|apply inner_fuel_ok|].
    unfold notears_nonlinear. rewrite E. cbn [rbind]. split; [split; [discriminate|intros [? _]; lra]|discriminate].
  - assert (notears_nonlinear minimize hf adj (S k) h_tol rho_max thr ps = Err TypeError) as E.
    { unfold notears_nonlinear. cbn [ascent]. unfold dual_ascent_step. apply Qle_bool_iff in Ge.
      destruct (inner_fuel rho_max); cbn [ascent_loop]; rewrite Ge; reflexivity. }
    rewrite E. split; [split; auto; intros _; split; auto; lia|]. intros e K. inversion K. auto.
Qed.
Print Assumptions C81_only_exception.

(** Without an iteration the network's random start is reported, self-loops included. *)
Theorem C81_no_iterations_refuted : forall sq minimize, (forall a, (a == 1)%Q -> (sq a == 1)%Q) ->
  exists init dims ps ps' W, mlp_init false init dims = Ok ps /\
    notears_nonlinear minimize (mlp_h false 1 1) (mlp_adj sq false 1 1) 0 (1 # 100000000) (10000000000000000 # 1) (3 # 10) ps = Ok (ps', W) /\
    ~ (W 0%nat 0%nat == 0)%Q.
Proof.
  intros sq minimize HS. exists (fun k _ => if Nat.eqb k 0 then 1%Q else 0%Q), [1; 1]. eexists. eexists. eexists.
  split; [reflexivity|]. split; [reflexivity|]. unfold threshold, mlp_adj.
  match goal with [ |- context [sq ?a] ] => assert (sq a == 1)%Q as E by (apply HS; reflexivity); set (v := sq a) in * end.
  destruct (Qle_bool (3 # 10) (Qabs v)) eqn:B; simpl.
  - intro Z. rewrite E in Z. discriminate.
  - exfalso. assert (Qle_bool (3 # 10) (Qabs v) = true) as B'; [|congruence]. apply Qle_bool_iff. rewrite E. discriminate.
Qed.
Print Assumptions C81_no_iterations_refuted.

(** An edge of the result need not be a dependence: parameters within their bounds
    with an edge 0 -> 1 whose prediction is constant. *)
Theorem C81_edge_without_influence_refuted : forall sq, (forall a, (a == 1)%Q -> (sq a == 1)%Q) ->
  exists init dims ps, mlp_init false init dims = Ok ps /\ in_bounds ps /\
    (threshold (3 # 10) (mlp_adj sq false 2 1 ps) 0%nat 1%nat == 1)%Q /\
    forall sigma x x' r, (mlp_forward sigma false dims ps x r 1 == mlp_forward sigma false dims ps x' r 1)%Q.
Proof.
  intros sq HS. exists (fun k i => if Nat.eqb k 0 && Nat.eqb i 2 then 1%Q else 0%Q), [2; 1; 1]. eexists. split; [reflexivity|].
  split; [|split].
  - intros k i Hk Hi. simpl in Hk.
    destruct k as [|[|[|k]]]; try lia; unfold numel in Hi; simpl in Hi; do 4 (destruct i as [|i]; [split; simpl; try exact Logic.I; try discriminate; apply Qle_refl|]); lia.
  - unfold threshold, mlp_adj.
    match goal with [ |- context [sq ?a] ] => assert (sq a == 1)%Q as E by (apply HS; reflexivity); set (v := sq a) in * end.
    destruct (Qle_bool (3 # 10) (Qabs v)) eqn:B; simpl; [exact E|].
    exfalso. assert (Qle_bool (3 # 10) (Qabs v) = true) as B'; [|congruence]. apply Qle_bool_iff. rewrite E. discriminate.
  - intros sigma x x' r. unfold mlp_forward. cbn [tl fc2_forward fc2_at]. unfold locally. rewrite !msum_sumQ. simpl sumQ.
    unfold par. simpl nth. unfold entry, fresh. simpl. ring.
Qed.
Print Assumptions C81_edge_without_influence_refuted.

(** Nor is a missing edge a missing dependence, because of the threshold. *)
Theorem C81_threshold_refuted : forall sq, (forall a, (0 <= a)%Q -> (0 <= sq a)%Q /\ (sq a * sq a <= a)%Q) ->
  exists init dims ps x x', mlp_init false init dims = Ok ps /\ in_bounds ps /\
    (threshold (3 # 10) (mlp_adj sq false 2 1 ps) 0%nat 1%nat == 0)%Q /\ same_but 0 x x' /\
    forall sigma, ~ (mlp_forward sigma false dims ps x 0 1 == mlp_forward sigma false dims ps x' 0 1)%Q.
Proof.
  intros sq HS. exists (fun k i => if Nat.eqb k 0 && Nat.eqb i 2 then (1 # 10)%Q else 0%Q), [2; 1]. eexists.
  exists (fun _ _ => 0%Q), (fun _ c => if Nat.eqb c 0 then 1%Q else 0%Q). split; [reflexivity|]. split; [|split; [|split]].
  - intros k i Hk Hi. simpl in Hk.
    destruct k as [|[|k]]; try lia; unfold numel in Hi; simpl in Hi; do 4 (destruct i as [|i]; [split; simpl; try exact Logic.I; try discriminate; apply Qle_refl|]); lia.
  - unfold threshold, mlp_adj.
    match goal with [ |- context [sq ?a] ] => assert (a == 1 # 100)%Q as E by reflexivity; destruct (HS a) as [P S]; [rewrite E; discriminate|]; assert (sq a * sq a <= 1 # 100)%Q as S2 by (eapply Qle_trans; [exact S|rewrite E; apply Qle_refl]); clear S E; set (v := sq a) in * end.
    destruct (Qle_bool (3 # 10) (Qabs v)) eqn:B; simpl; [|reflexivity].
    exfalso. apply Qle_bool_iff in B. rewrite Qabs_pos in B by auto. nra.
  - intros r c NE. destruct (Nat.eqb_spec c 0); [contradiction|auto].
  - intros sigma E. vm_compute in E. discriminate.
Qed.
Print Assumptions C81_threshold_refuted.

(** An optimiser within its bounds, a network with a hidden layer and bias, and a
    trained result: the hypotheses of the theorems above. *)
Definition clip (b : bound) (x : Q) : Q :=
  let x := match fst b with Some l => if Qle_bool l x then x else l | None => x end in
  match snd b with Some u => if Qle_bool x u then x else u | None => x end.
Definition clip_all (r a : Q) (bs : list bound) (x0 : list Q) : list Q := map (fun q => clip (fst q) (snd q)) (combine bs x0).

Lemma clip_between : forall b x, feasible b -> between b (clip b x).
Proof.
  assert (K : forall p q, Qle_bool p q = false -> (q < p)%Q).
  { intros p q H. apply Qnot_le_lt. intro C. apply Qle_bool_iff in C. congruence. }
  intros [[l|] [u|]] x [y [H1 H2]]; unfold clip, between; simpl in *.
  - destruct (Qle_bool l x) eqn:B1; [apply Qle_bool_iff in B1|apply K in B1].
    + destruct (Qle_bool x u) eqn:B2; [apply Qle_bool_iff in B2|apply K in B2]; split; lra.
    + destruct (Qle_bool l u) eqn:B2; [apply Qle_bool_iff in B2|apply K in B2]; split; lra.
  - destruct (Qle_bool l x) eqn:B1; [apply Qle_bool_iff in B1|apply K in B1]; split; auto; lra.
  - destruct (Qle_bool x u) eqn:B1; [apply Qle_bool_iff in B1|apply K in B1]; split; auto; lra.
  - auto.
Qed.

Example C81_optimiser : forall r a, within_bounds (clip_all r a).
Proof.
  intros r a bs x0 L. unfold clip_all, bound in *. split; [rewrite map_length, combine_length; lia|]. intros F i Hi.
  assert (i < length (combine bs x0)) as Hc by (rewrite combine_length; lia).
  set (g := fun q : bound * Q => clip (fst q) (snd q)). rewrite (nth_indep _ 0%Q (g ((None, None), 0%Q))) by (rewrite map_length; auto).
  rewrite (map_nth g), combine_nth by auto. unfold g. simpl fst. simpl snd. apply clip_between. apply F. apply nth_In. lia.
Qed.

Example C81_network : exists ps, mlp_init true (fun k i => (Z.of_nat (k + i) # 7)) [3; 2; 1] = Ok ps /\ length ps = 6 /\ length (gather_params ps) = 57
  /\ match notears_nonlinear clip_all (mlp_h true 3 2) (mlp_adj (fun a => a) true 3 2) 2 (1 # 100) 100 (1 # 20) ps with
     | Ok (ps', W) => ~ (W 0%nat 1%nat == 0)%Q /\ (W 1%nat 1%nat == 0)%Q /\ gather_params ps' <> gather_params ps
     | Err _ => False end.
Proof. eexists. split; [reflexivity|]. split; [reflexivity|]. split; [reflexivity|]. vm_compute. repeat split; discriminate. Qed.

(** The bounds stop nothing but self-loops: the identity as activation, and a
    network whose prediction for 1 does depend on column 0. *)
Example C81_dependence : respects (fun a => a) /\ forall ps, mlp_init false (fun k i => if Nat.eqb k 1 then 0%Q else (Z.of_nat i # 2)) [2; 1; 1] = Ok ps ->
  ~ (mlp_forward (fun a => a) false [2%nat; 1%nat; 1%nat] ps (fun _ _ => 0%Q) 0 1 == mlp_forward (fun a => a) false [2%nat; 1%nat; 1%nat] ps (fun _ c => if Nat.eqb c 0 then 1%Q else 0%Q) 0 1)%Q.
Proof. split; [intros a b E; exact E|]. intros ps H. inversion H; subst ps. vm_compute. discriminate. Qed.
