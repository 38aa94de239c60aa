(** C44, C58, C59: the continuous acyclicity penalty and notears_linear. *)

From Coq Require Import List Arith Bool Lia QArith Qabs Lqa.
From Verif Require Import Model.Py Model.SHP Model.Matrix Model.Notears Spec.Sums Spec.Digraphs.
From Verif Require Import Proofs.SimFacts Proofs.MatrixFacts Proofs.NotearsFacts Proofs.NotearsGrad Proofs.RelExt Proofs.FinGraph.
Import ListNotations.
Open Scope nat_scope.

(** The weighted graph of a matrix on the nodes below [d]. *)
Definition support (d : nat) (W : qmat) (i j : nat) : Prop := i < d /\ j < d /\ ~ (W i j == 0)%Q.

(** linear.py and linear_ent._h. *)
Theorem C44_linear : forall d W, 0 < d ->
  (0 <= h_linear d W)%Q /\ ((h_linear d W == 0)%Q <-> acyclic (support d W)).
Proof.
  intros d W Hd. assert (P : forall i j, i < d -> j < d -> (0 <= mmul W W i j)%Q) by (intros; apply Qsq_nonneg).
  split; [apply penalty_nonneg; auto|]. unfold h_linear. rewrite (penalty_zero_iff d _ Hd P).
  apply acyclic_ext. intros u v. unfold support, mmul. split; intros [Hu [Hv N]]; split; auto; split; auto; intro Z; apply N.
  - rewrite Z. ring.
  - apply Qsq_zero. auto.
Qed.
Print Assumptions C44_linear.

(** nonlinear.NotearsMLP: [i -> j] when some first-layer weight of the network
    of [j] on the input [i] is not zero. *)
Theorem C44_mlp : forall d m1 w, 0 < d ->
  (0 <= h_mlp d m1 w)%Q /\
  ((h_mlp d m1 w == 0)%Q <-> acyclic (fun i j => i < d /\ j < d /\ exists m, m < m1 /\ ~ (w (j * m1 + m)%nat i == 0)%Q)).
Proof.
  intros d m1 w Hd.
  assert (P : forall i j, i < d -> j < d -> (0 <= mlp_A m1 w i j)%Q).
  { intros i j _ _. unfold mlp_A. rewrite msum_sumQ. apply sumQ_nonneg. intros. apply Qsq_nonneg. }
  split; [apply penalty_nonneg; auto|]. unfold h_mlp. rewrite (penalty_zero_iff d _ Hd P).
  apply acyclic_ext. intros u v. unfold mlp_A. split; intros [Hu [Hv N]]; split; auto; split; auto.
  - apply sum_squares_nonzero in N. auto.
  - apply sum_squares_nonzero. auto.
Qed.
Print Assumptions C44_mlp.

(** nonlinear.NotearsSobolev: [i -> j] when some basis coefficient is not zero. *)
Theorem C44_sobolev : forall d k w, 0 < d ->
  (0 <= h_sobolev d k w)%Q /\
  ((h_sobolev d k w == 0)%Q <-> acyclic (fun i j => i < d /\ j < d /\ exists m, m < k /\ ~ (w j (i * k + m)%nat == 0)%Q)).
Proof.
  intros d k w Hd.
  assert (P : forall i j, i < d -> j < d -> (0 <= sobolev_A k w i j)%Q).
  { intros i j _ _. unfold sobolev_A. rewrite msum_sumQ. apply sumQ_nonneg. intros. apply Qsq_nonneg. }
  split; [apply penalty_nonneg; auto|]. unfold h_sobolev. rewrite (penalty_zero_iff d _ Hd P).
  apply acyclic_ext. intros u v. unfold sobolev_A. split; intros [Hu [Hv N]]; split; auto; split; auto.
  - apply sum_squares_nonzero in N. auto.
  - apply sum_squares_nonzero. auto.
Qed.
Print Assumptions C44_sobolev.

(** linear_ent.linear_nonGauss.h_func uses the trace of the [d]-th power: the
    same number, with the edges read from the transposed layer weight. *)
Theorem C44_ent : forall d w, 0 < d ->
  (h_ent d w == h_linear d (fun i j => w j i))%Q /\ (0 <= h_ent d w)%Q /\
  ((h_ent d w == 0)%Q <-> acyclic (fun i j => i < d /\ j < d /\ ~ (w j i == 0)%Q)).
Proof.
  intros d w Hd. assert (E : (h_ent d w == h_linear d (fun i j => w j i))%Q).
  { unfold h_linear. rewrite penalty_trace by auto. reflexivity. }
  destruct (C44_linear d (fun i j => w j i) Hd) as [P Z]. split; [exact E|]. split; [rewrite E; exact P|].
  rewrite E. exact Z.
Qed.
Print Assumptions C44_ent.

(** A triangular matrix with a negative weight, and the same with a back edge. *)
Definition ex_W : qmat := fun i j => if Nat.eqb i 0 && Nat.eqb j 1 then (-2)%Q else if Nat.eqb i 1 && Nat.eqb j 2 then (1 # 2) else 0%Q.
Definition ex_W' : qmat := fun i j => if Nat.eqb i 2 && Nat.eqb j 0 then (1 # 3) else ex_W i j.
Example C44_case : (h_linear 3 ex_W == 0)%Q /\ (0 < h_linear 3 ex_W')%Q.
Proof. split; [reflexivity|]. apply (penalty_pos 3 (mmul ex_W' ex_W')) with (u := 0); [lia|intros; apply Qsq_nonneg|].
  apply dp1_intro with 1; [repeat split; try lia; discriminate|].
  apply dp_step with 2; [repeat split; try lia; discriminate|].
  apply dp_step with 0; [repeat split; try lia; discriminate|]. apply dp_refl.
Qed.

(** The gradient that [_h] returns is the derivative: along every direction
    [V] the linear approximation is exact up to a quadratic remainder. *)
Theorem C58_gradient : forall d W V, 0 < d -> exists c : Q, forall t : Q, (Qabs t <= 1)%Q ->
  (Qabs (h_linear d (fun i j => W i j + t * V i j)%Q - h_linear d W -
         t * sumQ d (fun i => sumQ d (fun j => grad_h_linear d W i j * V i j)%Q)) <= c * (t * t))%Q.
Proof.
  intros d W V Hd. destruct (h_linear_expands d W V Hd) as [r [c E]]. exists c. intros t Ht. destruct (E t Ht) as [E1 E2].
  rewrite E1. set (g := sumQ _ _).
  setoid_replace (h_linear d W + t * g + t * t * r t - h_linear d W - t * g)%Q with (t * t * r t)%Q by ring.
  rewrite Qabs_Qmult. rewrite (Qabs_pos (t * t)) by apply Qsq_nonneg. pose proof (Qsq_nonneg t). nra.
Qed.
Print Assumptions C58_gradient.

(** The partial derivatives are not all zero at a cyclic matrix. *)
Example C58_case : ~ (grad_h_linear 3 ex_W' 0%nat 1%nat == 0)%Q.
Proof. vm_compute. discriminate. Qed.

(** With [rho_max] above 1 the optimisation always finishes, whatever the
    optimiser returns.  If the optimiser respects the bounds it is given, the
    result has a zero diagonal; every other entry is zero or at least the
    threshold; and the untruncated matrix is the zero matrix for no iterations
    and otherwise one that the optimiser returned. *)
Theorem C59_result : forall d max_iter solve h_tol rho_max thr, ~ (rho_max <= 1)%Q ->
  exists W, notears_linear d max_iter solve h_tol rho_max thr = Ok W /\
    ((forall r a w i, i < d -> (solve r a w (i * d + i)%nat == 0)%Q /\ (solve r a w (d * d + (i * d + i))%nat == 0)%Q) ->
      forall i, i < d -> (W i i == 0)%Q) /\
    (forall i j, (W i j == 0)%Q \/ (thr <= Qabs (W i j))%Q) /\
    (max_iter = 0 -> forall i j, (W i j == 0)%Q) /\
    (0 < max_iter -> exists r a w0, (1 <= r)%Q /\ W = threshold thr (adj_of d (solve r a w0))).
Proof.
  intros d k solve h_tol rho_max thr NB.
  destruct (outer_spec d solve h_tol rho_max k (fun _ => 0%Q) 1 0 None (Qle_refl 1) NB) as [w [E [Z P]]].
  unfold notears_linear. rewrite E. cbn [rbind]. eexists. split; [reflexivity|].
  assert (T : forall W i j, (W i j == 0)%Q -> (threshold thr W i j == 0)%Q).
  { intros W i j H. unfold threshold. destruct (negb _); [reflexivity|exact H]. }
  split; [|split; [|split]].
  - intros B i Hi. apply T. unfold adj_of. destruct k as [|k].
    + rewrite (Z eq_refl). ring.
    + destruct P as [r [a [w0 [-> _]]]]; [lia|]. destruct (B r a w0 i Hi) as [B1 B2]. rewrite B1, B2. ring.
  - intros i j. unfold threshold. destruct (Qle_bool thr (Qabs (adj_of d w i j))) eqn:L; simpl; [|left; reflexivity].
    right. apply Qle_bool_iff. auto.
  - intros -> i j. apply T. rewrite (Z eq_refl). unfold adj_of. ring.
  - intro Hk. destruct (P Hk) as [r [a [w0 [-> Lr]]]]. exists r, a, w0. auto.
Qed.
Print Assumptions C59_result.

(** With [rho_max] at most 1 the inner loop never runs, and the update of the
    multiplier fails. *)
Theorem C59_rho_max_error : forall d max_iter solve h_tol rho_max thr, (rho_max <= 1)%Q -> 0 < max_iter ->
  notears_linear d max_iter solve h_tol rho_max thr = Err TypeError.
Proof.
  intros d k solve h_tol rho_max thr L Hk. destruct k as [|k]; [lia|]. unfold notears_linear. cbn [outer_loop].
  apply Qle_bool_iff in L. unfold inner_fuel. destruct (Z.to_nat _); cbn [inner_loop]; rewrite L; reflexivity.
Qed.
Print Assumptions C59_rho_max_error.

(** If the penalty of the untruncated matrix is exactly zero, the result of the
    truncation is acyclic. *)
Theorem C59_exact_zero : forall d thr W, 0 < d -> (h_linear d W == 0)%Q -> acyclic (support d (threshold thr W)).
Proof.
  intros d thr W Hd H. apply (C44_linear d W Hd) in H. intros u C. apply (H u).
  assert (S : forall a b, support d (threshold thr W) a b -> support d W a b).
  { intros a b [Ha [Hb N]]. split; auto. split; auto. intro Z. apply N. unfold threshold. destruct (negb _); [reflexivity|exact Z]. }
  assert (D : forall a b, dpath (support d (threshold thr W)) a b -> dpath (support d W) a b).
  { intros a b Q. induction Q; [apply dp_refl|]. eapply dp_step; eauto. }
  inversion C as [u' v w He Hp]; subst. apply dp1_intro with v; auto.
Qed.
Print Assumptions C59_exact_zero.

(** Five variables in a circle with all weights at the threshold. *)
Definition circle (i : nat) : Q :=
  if existsb (Nat.eqb i) [1; 7; 13; 19; 20] then (3 # 10) else 0%Q.
(** Powers of the penalty matrix of the circle, by their first rows. *)
Definition circulant (row : list Q) : qmat := fun i j => nth (if Nat.leb i j then j - i else j + 5 - i) row 0%Q.
Definition row0 : list Q := [(1 # 1); (0 # 1); (0 # 1); (0 # 1); (0 # 1)].
Definition row1 : list Q := [(1 # 1); (9 # 500); (0 # 1); (0 # 1); (0 # 1)].
Definition row2 : list Q := [(1 # 1); (9 # 250); (81 # 250000); (0 # 1); (0 # 1)].
Definition row3 : list Q := [(1 # 1); (27 # 500); (243 # 250000); (729 # 125000000); (0 # 1)].
Definition row4 : list Q := [(1 # 1); (9 # 125); (243 # 125000); (729 # 31250000); (6561 # 62500000000)].
Definition row5 : list Q := [(31250000059049 # 31250000000000); (9 # 100); (81 # 25000); (729 # 12500000); (6561 # 12500000000)].

Lemma circulant_step : forall r r', (forall i j, i < 5 -> j < 5 ->
    (mdot 5 (circulant row1) (circulant r) i j == circulant r' i j)%Q) ->
  forall P, meq 5 P (circulant r) -> meq 5 (mdot 5 (penalty_matrix 5 (mmul (adj_of 5 circle) (adj_of 5 circle))) P) (circulant r').
Proof.
  intros r r' H P HP. apply meq_trans with (mdot 5 (circulant row1) (circulant r)); [|exact H].
  apply mdot_meq; [|exact HP]. intros i j Hi Hj.
  do 5 (destruct i as [|i]; [do 5 (destruct j as [|j]; [reflexivity|]); lia|]). lia.
Qed.

Ltac circulant_cases := intros i j Hi Hj; do 5 (destruct i as [|i]; [do 5 (destruct j as [|j]; [reflexivity|]); lia|]); lia.

Lemma circle_penalty : Qle_bool (h_linear 5 (adj_of 5 circle)) (1 # 100000000) = true.
Proof.
  apply Qle_bool_iff. unfold h_linear. rewrite penalty_trace by lia.
  rewrite (mtrace_meq 5 _ (circulant row5)); [discriminate|]. cbn [mpow].
  apply (circulant_step row4); [circulant_cases|]. apply (circulant_step row3); [circulant_cases|].
  apply (circulant_step row2); [circulant_cases|]. apply (circulant_step row1); [circulant_cases|].
  apply (circulant_step row0); [circulant_cases|]. circulant_cases.
Qed.

(** But the acceptance test [h <= h_tol] with the default tolerance and the
    default threshold lets a cyclic graph through: five variables in a circle
    with all weights at the threshold. *)
Theorem C59_dag_refuted : exists solve W,
  (forall r a w i, (0 <= solve r a w i)%Q) /\
  (forall r a w i, i < 5 -> (solve r a w (i * 5 + i)%nat == 0)%Q /\ (solve r a w (25 + (i * 5 + i))%nat == 0)%Q) /\
  notears_linear 5 100 solve (1 # 100000000) (10000000000000000 # 1) (3 # 10) = Ok W /\ ~ acyclic (support 5 W).
Proof.
  exists (fun _ _ _ => circle), (threshold (3 # 10) (adj_of 5 circle)). split; [|split; [|split]].
  - intros r a w i. unfold circle. destruct (existsb _ _); discriminate.
  - intros r a w i Hi. do 5 (destruct i as [|i]; [split; reflexivity|]). lia.
  - unfold notears_linear. cbn [outer_loop].
    assert (E : forall f w, inner_loop (S f) 5 (fun _ _ _ => circle) (10000000000000000 # 1) 0 w None 1 None
                = Ok (1%Q, Some (circle, h_linear 5 (adj_of 5 circle)))) by (intros; reflexivity).
    assert (F : exists f, inner_fuel (10000000000000000 # 1) = S f) by (eexists; vm_compute; reflexivity).
    destruct F as [f F]. rewrite F, E. cbn [rbind snd fst].
    rewrite circle_penalty. reflexivity.
  - intro A. apply (A 0). apply dp1_intro with 1; [repeat split; try lia; discriminate|].
    apply dp_step with 2; [repeat split; try lia; discriminate|].
    apply dp_step with 3; [repeat split; try lia; discriminate|].
    apply dp_step with 4; [repeat split; try lia; discriminate|].
    apply dp_step with 0; [repeat split; try lia; discriminate|]. apply dp_refl.
Qed.
Print Assumptions C59_dag_refuted.

(** An optimiser that stays at one acyclic matrix. *)
Example C59_case : exists W, notears_linear 2 10 (fun _ _ _ i => if Nat.eqb i 1 then 1%Q else 0%Q) (1 # 100000000) (100 # 1) (3 # 10) = Ok W
  /\ (W 0%nat 1%nat == 1)%Q /\ (W 1%nat 0%nat == 0)%Q.
Proof. eexists. split; [vm_compute; reflexivity|]. split; reflexivity. Qed.
