(** C71-C73: the one-component learner. *)

From Coq Require Import List Arith Lia Bool Permutation Reals Lra.
From Verif Require Import Model.Py Model.LocalScore Model.KCI Model.OLC Spec.OLCSpec
  Proofs.KCIFacts Proofs.FisherCombFacts Proofs.OLCPairs Proofs.OLCReal Proofs.OLCLatent Props.KCIProps.
Import ListNotations.
Open Scope nat_scope.
Open Scope res_scope.

(* ---------- C71: the first stage is a pairwise test; the direction is the column order ---------- *)

(** The kernel test of two columns of N numbers accepts independence at the level. *)
Definition independent (gcdf : R -> R -> R -> R) (N : nat) (level : R) (u v : list R) : Prop :=
  exists p, fst (kci_test gcdf N 1 (fun i _ => nth i u 0%R) 1 (fun i _ => nth i v 0%R)) = Some p /\ (level <= p)%R.

Lemma tested_independent : forall gcdf alpha n N data x y, (forall k, k < n -> length (data k) = N) -> x < n ->
  (tested gcdf alpha data x y = true <-> independent gcdf N alpha (data x) (data y)).
Proof.
  intros gcdf alpha n N data x y HL Hx. unfold tested, independent, kci_pval. rewrite HL by auto. fold (column (data x)) (column (data y)).
  destruct (fst (kci_test gcdf N 1 (column (data x)) 1 (column (data y)))) as [p|]; cbn [rge].
  - destruct (Rle_dec alpha p) as [H|H]; split; intro K; auto; [exists p; auto|discriminate|]. destruct K as [q [E L]]. inversion E; subst. contradiction.
  - split; [discriminate|]. intros [q [E _]]. discriminate.
Qed.

Definition decided_by_pairs (gcdf : R -> R -> R -> R) (N : nat) (alpha : R) (n : nat) (data : nat -> list R) (udg cg : list (nat * nat)) : Prop :=
  (forall a b, In (a, b) cg <-> b < a < n /\ independent gcdf N alpha (data b) (data a)) /\
  (forall x y, has_edge udg x y = true <-> x <> y /\ x < n /\ y < n /\ ~ independent gcdf N alpha (data x) (data y)).

Lemma settled_pairs : forall gcdf alpha beta icpt sur covd cov2 load sm n N data s, (forall k, k < n -> length (data k) = N) ->
  settled (olc_real gcdf alpha beta icpt sur covd cov2 load sm) n data affine s -> decided_by_pairs gcdf N alpha n data (s_udg s) (s_cg s).
Proof.
  intros gcdf alpha beta icpt sur covd cov2 load sm n N data s HL (_ & HU & HG). split.
  - intros a b. rewrite HG. split; intros [H A]; (split; [auto|]); apply (tested_independent gcdf alpha n N data b a HL); auto; lia.
  - intros x y. rewrite HU. split; intros (A & B & C & T); repeat split; auto.
    + intro I. apply (tested_independent gcdf alpha n N data x y HL) in I; auto. change (tested gcdf alpha data x y = false) in T. congruence.
    + change (tested gcdf alpha data x y = false). destruct (tested gcdf alpha data x y) eqn:E; auto. exfalso. apply T. apply (tested_independent gcdf alpha n N data x y HL); auto.
Qed.

(** Whatever the regression computes, after the first stage there is an arrow from
    the later to the earlier column exactly for the pairs that the test of
    the two original columns accepts as independent; the other pairs stay undecided. *)
Theorem C71_first_stage : forall gcdf alpha beta icpt sur covd cov2 load sm n N data fuel,
  (forall k, k < n -> length (data k) = N) -> 2 <= fuel ->
  exists s, stage1 (olc_real gcdf alpha beta icpt sur covd cov2 load sm) n fuel (start1 (olc_real gcdf alpha beta icpt sur covd cov2 load sm) n data) = Ok s /\
    decided_by_pairs gcdf N alpha n data (s_udg s) (s_cg s).
Proof.
  intros gcdf alpha beta icpt sur covd cov2 load sm n N data fuel HL HF. destruct fuel as [|[|f]]; try lia.
  destruct (real_stage1 gcdf alpha beta icpt sur covd cov2 load sm n N data HL f) as [s [E S]].
  exists s. split; auto. eapply settled_pairs; eauto.
Qed.
Print Assumptions C71_first_stage.

(** With the columns in the opposite order every arrow is turned round. *)
Theorem C71_direction_is_column_order : forall gcdf alpha beta icpt sur covd cov2 load sm n N data fuel s s',
  (forall k, k < n -> length (data k) = N) -> 2 <= fuel ->
  let D := olc_real gcdf alpha beta icpt sur covd cov2 load sm in
  stage1 D n fuel (start1 D n data) = Ok s ->
  stage1 D n fuel (start1 D n (fun k => data (n - 1 - k))) = Ok s' ->
  forall a b, a < n -> b < n -> (In (a, b) (s_cg s) <-> In (n - 1 - b, n - 1 - a) (s_cg s')).
Proof.
  intros gcdf alpha beta icpt sur covd cov2 load sm n N data fuel s s' HL HF D E E' a b Ha Hb.
  assert (forall k, k < n -> length (data (n - 1 - k)) = N) as HL' by (intros k Hk; apply HL; lia).
  destruct (C71_first_stage gcdf alpha beta icpt sur covd cov2 load sm n N data fuel HL HF) as [t [Et [Gt _]]].
  destruct (C71_first_stage gcdf alpha beta icpt sur covd cov2 load sm n N (fun k => data (n - 1 - k)) fuel HL' HF) as [t' [Et' [Gt' _]]].
  unfold D in *. rewrite E in Et. rewrite E' in Et'. inversion Et; inversion Et'; subst t t'.
  rewrite Gt, Gt'. cbv beta. replace (n - 1 - (n - 1 - a)) with a by lia. replace (n - 1 - (n - 1 - b)) with b by lia.
  assert (forall x y, x < n -> y < n -> independent gcdf N alpha (data x) (data y) -> independent gcdf N alpha (data y) (data x)) as SY.
  { intros x y Hx Hy I. apply (tested_independent gcdf alpha n N data y x HL Hy). rewrite (tested_sym gcdf alpha n N data HL) by auto.
    apply (tested_independent gcdf alpha n N data x y HL Hx). auto. }
  split; intros [L I]; (split; [lia|]); apply SY; auto.
Qed.
Print Assumptions C71_direction_is_column_order.

(* ---------- C72: the second stage does nothing at the usual levels ---------- *)

(** Fisher's combination of p-values below the level (NaN counts as below) is below the level. *)
Theorem C72_fisher_below : forall alpha ps, (1 / 100000 < alpha)%R -> (alpha <= 1 / 20)%R -> ps <> [] ->
  (forall p, In (Some p) ps -> (p < alpha)%R) -> exists v, fisher_test ps = Some v /\ (v < alpha)%R.
Proof.
  intros alpha ps A1 A2 NE H. eexists. split; [reflexivity|].
  assert (rge alpha (fisher_test ps) = false) as F.
  { apply fisher_below; auto; [lra|]. intros [p|] I; [|auto]. cbn. specialize (H p I). destruct (Rle_dec alpha p); [lra|auto]. }
  unfold fisher_test, rge in F. destruct (Rle_dec alpha _) in F; [discriminate|]. lra.
Qed.
Print Assumptions C72_fisher_below.

(** So the first two stages together decide every pair by its own test. *)
Theorem C72_second_stage_idle : forall gcdf alpha beta icpt sur covd cov2 load sm n N data fuel,
  (forall k, k < n -> length (data k) = N) -> n <> 1 -> 2 <= fuel -> (1 / 100000 < alpha)%R -> (alpha <= 1 / 20)%R ->
  exists s, olc_pairs (olc_real gcdf alpha beta icpt sur covd cov2 load sm) n fuel data = Ok s /\
    decided_by_pairs gcdf N alpha n data (s_udg s) (s_cg s).
Proof.
  intros gcdf alpha beta icpt sur covd cov2 load sm n N data fuel HL N1 HF A1 A2. destruct fuel as [|[|f]]; try lia.
  destruct (real_pairs gcdf alpha beta icpt sur covd cov2 load sm n N data HL f N1 A1 ltac:(lra)) as [s [E S]].
  exists s. split; auto. eapply settled_pairs; eauto.
Qed.
Print Assumptions C72_second_stage_idle.

(** Two columns accepted as independent at level 1/20, a constant third one that is not. *)
Definition cols3 (k : nat) : list R := match k with 2 => [5%R; 5%R] | _ => [0%R; 1%R] end.
Example C72_example : (forall k, k < 3 -> length (cols3 k) = 2) /\
  independent (fun _ _ _ => (1/4)%R) 2 (1/20) (cols3 0) (cols3 1) /\ ~ independent (fun _ _ _ => (1/4)%R) 2 (1/20) (cols3 0) (cols3 2) /\
  (forall p, In (Some p) [Some (/ 100)%R; None; Some (/ 25)%R] -> (p < 1 / 20)%R).
Proof.
  split; [|split; [|split]].
  - intros k H. destruct k as [|[|[|]]]; auto; lia.
  - destruct C70_example as (_ & _ & _ & _ & s & _ & E). exists (3/4)%R. split; [|lra].
    rewrite <- (kci_affine _ 2 1 two_rows (fun i _ => nth i (cols3 0) 0%R) 1 two_rows (fun _ => 1%R) (fun _ => 0%R)) in E; [|intros; lra|].
    + rewrite kci_symmetric in E. rewrite <- (kci_affine _ 2 1 two_rows (fun i _ => nth i (cols3 1) 0%R) 1 _ (fun _ => 1%R) (fun _ => 0%R)) in E; [|intros; lra|].
      * rewrite kci_symmetric in E. rewrite E. auto.
      * intros i c Hi _. destruct i as [|[|]]; try lia; unfold two_rows; simpl; lra.
    + intros i c Hi _. destruct i as [|[|]]; try lia; unfold two_rows; simpl; lra.
  - intros [p [E _]]. destruct (C70_constant (fun _ _ _ => (1/4)%R) 2 1 (fun i _ => nth i (cols3 2) 0%R) 1 (fun i _ => nth i (cols3 0) 0%R) ltac:(lia)) as [_ K].
    + intros i j c Hi Hj _. destruct i as [|[|]], j as [|[|]]; try lia; auto.
    + rewrite K in E. discriminate.
  - intros p [H|[H|[H|[]]]]; inversion H; subst; lra.
Qed.

(** On these columns the first two stages give the arrow 1 -> 0 and leave 0 - 2 and 1 - 2. *)
Example C71_example : forall icpt sur covd cov2 load sm,
  let D := olc_real (fun _ _ _ => (1/4)%R) (1/20)%R (1/100)%R icpt sur covd cov2 load sm in
  exists s : stage D, olc_pairs D 3 10 cols3 = Ok s /\
  In (1, 0) (s_cg s) /\ ~ In (0, 1) (s_cg s) /\ has_edge (s_udg s) 0 2 = true.
Proof.
  intros icpt sur covd cov2 load sm D. destruct C72_example as (HL & I1 & I2 & _).
  destruct (C72_second_stage_idle (fun _ _ _ => (1/4)%R) (1/20) (1/100) icpt sur covd cov2 load sm 3 2 cols3 10 HL ltac:(lia) ltac:(lia) ltac:(lra) ltac:(lra)) as [s [E [G U]]].
  exists s. split; auto. split; [apply G; split; [lia|exact I1]|]. split; [intro K; apply G in K; lia|]. apply U. repeat split; auto.
Qed.

(* ---------- C73: termination and shape of the answer ---------- *)

Lemma olc_cases : forall D ord n fuel data, n <> 1 -> (forall l, Permutation (ord l) l) -> n * n < fuel ->
  exists s, olc_pairs D n fuel data = Ok s /\ early D n (length (combos2 (seq 0 n))) s /\
  match stage3 D n ord (s_data s) fuel (ord (seq 0 n)) 0 (start3 D s) with
  | Ok (id, t) => rest_inv D n (s_cg s) (s_udg s) id (length (combos2 (seq 0 n))) t
  | Err e => e = IndexError /\ n < length (combos2 (seq 0 n))
  end.
Proof.
  intros D ord n fuel data N HO HF. destruct (pairs_early D n fuel data N HF) as [s [E H]]. exists s. split; auto. split; auto.
  pose proof (combos_len (seq 0 n)) as CL. rewrite seq_length in CL. pose proof H as (W & RG & LN & _).
  apply (stage3_inv D n ord (s_data s) (s_cg s)).
  - intros z I. eapply Permutation_in in I; [|apply HO]. apply in_seq in I. lia.
  - eapply Permutation_NoDup; [apply Permutation_sym, HO|apply seq_NoDup].
  - cbn. lia.
  - constructor; cbn; auto; try lia.
    + intros a b I. destruct (RG a b I). lia.
    + intros i j _ _ _. reflexivity.
Qed.

(** The search always stops: with a graph of the right shape, or with an
    IndexError, for which at least four variables are needed. *)
Theorem C73_shape_partial : forall D ord n fuel data, n <> 1 -> (forall l, Permutation (ord l) l) -> n * n < fuel ->
  match olc D ord n fuel data with
  | Ok out => latent_graph n (o_size out) (o_adj out) /\ o_size out <= 2 * n /\ (forall i j, o_adj out i j <> 1 -> o_coef out i j = nzero D)
  | Err e => e = IndexError /\ 4 <= n
  end.
Proof.
  intros D ord n fuel data N HO HF. destruct (olc_cases D ord n fuel data N HO HF) as [s [E [_ C]]].
  pose proof (combos_len (seq 0 n)) as CL. rewrite seq_length in CL.
  unfold olc. rewrite E. cbn [rbind]. destruct (stage3 D n ord (s_data s) fuel (ord (seq 0 n)) 0 (start3 D s)) as [[id t]|e]; cbn [rbind fst snd].
  2:{ destruct C as [-> L]. split; auto. nia. }
  destruct C as [[U G] RG T SB CA LN CP KP]. unfold olc_result.
  assert (forallb (fun p => Nat.ltb (fst p) (id + n) && Nat.ltb (snd p) (id + n)) (l_udg t ++ l_cg t) = true) as ->.
  { apply forallb_forall. intros [a b] I. cbn [fst snd]. apply in_app_iff in I. rewrite andb_true_iff, !Nat.ltb_lt.
    destruct I as [I|I]; [apply U in I; simpl in I; lia|]. apply RG in I. lia. }
  cbn [negb o_size o_adj o_coef]. split; [|split; [lia|]].
  - assert (forall a b, pmem (a, b) (l_cg t) = false -> ~ In (a, b) (l_cg t)) as NI by (intros a b F I; apply pmem_in in I; congruence).
    assert (forall i j, n <= i \/ n <= j \/ i = j -> has_edge (l_udg t) i j = false) as NE.
    { intros i j H. apply has_false. intro K. apply has_edge_in in K. apply U in K. unfold upair in K. destruct (Nat.leb_spec i j); simpl in K; lia. }
    split; [lia|]. split; [|split; [|split; [|split]]].
    + intros i Hi. rewrite NE by auto. destruct (pmem (i, i) (l_cg t)) eqn:P; auto. apply pmem_in in P.
      exfalso. destruct (RG i i P) as [Hn _]. destruct (G i i Hn Hn P) as [F _]. auto.
    + intros i j Hi Hj. unfold one_edge. rewrite (has_edge_sym _ j i).
      destruct (pmem (j, i) (l_cg t)) eqn:P, (pmem (i, j) (l_cg t)) eqn:Q.
      * apply pmem_in in P, Q. exfalso. destruct (G j i Hj Hi P) as (_ & _ & F). auto.
      * apply pmem_in in P. destruct (G j i Hj Hi P) as (_ & F & _). rewrite has_edge_sym in F. rewrite F. auto.
      * apply pmem_in in Q. destruct (G i j Hi Hj Q) as (_ & F & _). rewrite F. auto.
      * destruct (has_edge (l_udg t) i j); auto.
    + intros l j Hl Hj. rewrite NE by lia. destruct (pmem (j, l) (l_cg t)) eqn:P; auto. apply pmem_in in P. apply RG in P. lia.
    + intros l i Hl Hi. rewrite NE by lia. destruct (pmem (l, i) (l_cg t)); auto.
    + intros l Hl. destruct (T l ltac:(lia)) as (a & b & c & A & B & C & N1 & N2 & N3 & I1 & I2 & I3).
      exists a, b, c. apply pmem_in in I1, I2, I3. rewrite I1, I2, I3. repeat split; auto.
  - intros i j H. destruct (pmem (j, i) (l_cg t)); [contradiction|auto].
Qed.
Print Assumptions C73_shape_partial.

(** Arrows of the first two stages are returned, and their coefficient is zero
    divided by something: no coefficient is estimated for them. *)
Theorem C73_early_arrows_without_coefficient : forall D ord n fuel data s out, n <> 1 -> (forall l, Permutation (ord l) l) -> n * n < fuel ->
  olc_pairs D n fuel data = Ok s -> olc D ord n fuel data = Ok out ->
  forall a b, In (a, b) (s_cg s) -> o_adj out b a = 1 /\ exists d, o_coef out b a = ndiv D (nzero D) d.
Proof.
  intros D ord n fuel data s out N HO HF E1 E2 a b I. destruct (olc_cases D ord n fuel data N HO HF) as [s' [E [H C]]].
  rewrite E1 in E. inversion E; subst s'. unfold olc in E2. rewrite E1 in E2. cbn [rbind] in E2.
  destruct (stage3 D n ord (s_data s) fuel (ord (seq 0 n)) 0 (start3 D s)) as [[id t]|e]; cbn [rbind fst snd] in E2; [|discriminate].
  destruct C as [W RG T SB CA LN CP KP]. unfold olc_result in E2. destruct (negb _) in E2; [discriminate|]. inversion E2; subst out. cbn [o_adj o_coef].
  destruct H as ([U G] & RH & _). destruct (RH a b I) as [Ha Hb]. destruct (G a b Ha Hb I) as (Nab & F & _).
  pose proof (KP _ I) as J. apply pmem_in in J. rewrite J. split; auto.
  destruct (Nat.ltb_spec a n); [|lia]. destruct (Nat.ltb_spec b n); [|lia]. cbn [andb]. exists (l_A t a a). f_equal.
  apply CA; auto. rewrite has_edge_sym. auto.
Qed.
Print Assumptions C73_early_arrows_without_coefficient.

(** Numerical outcomes given by a table: the pure test of (x, y | z) for the k-th latent
    variable succeeds exactly for the k-th entry of [tab]; pairs in [ind] are
    accepted in the first stage. *)
Definition table_num (n : nat) (ind : list (nat * nat)) (tab : list (nat * nat * nat)) : olc_num :=
  OlcNum (list nat * list nat) bool nat
    (fun u v => match fst u, fst v with
                | [x], [y] => match snd u with [] => pmem (x, y) ind | _ => false end
                | X, [z] => match nth_error tab (last (snd u) 0 - n) with
                            | Some t => Nat.leb n (last (snd u) 0) && pmem (nth (length X - 2) X 0, nth (length X - 1) X 0) [fst t] && Nat.eqb z (snd t)
                            | None => false
                            end
                | _, _ => false
                end)
    false (fun p => p) (fun p => p) (fun _ u => u) (fun u => u) (fun _ => false)
    (fun _ _ X E _ => Some (X, 0 :: E)) (fun _ _ _ => 7) (fun _ _ => 1) (fun _ _ => 1) 0 Nat.sub Nat.mul Nat.div (fun a => Nat.eqb a 0).
Definition table_data (k : nat) : list nat * list nat := ([k], []).

(** "olc returns on all data with at least two variables" is false of the control
    flow: five latent variables fill the matrix A, and the attempt at a sixth leaves it. *)
Theorem C73_returns_refuted : exists D ord n data, n <> 1 /\ (forall l, Permutation (ord l) l) /\
  forall fuel, n * n < fuel -> olc D ord n fuel data = Err IndexError.
Proof.
  exists (table_num 5 [] [(0, 1, 2); (0, 3, 2); (0, 4, 2); (0, 1, 3); (0, 4, 3)]), (fun l => l), 5, table_data.
  split; [discriminate|]. split; [auto|]. intros fuel HF.
  do 26 (destruct fuel as [|fuel]; [lia|]). clear HF. vm_compute. reflexivity.
Qed.
Print Assumptions C73_returns_refuted.

(** A run on four variables: 3 -> 2 from the first stage, one latent variable behind 0, 1 and 2. *)
Example C73_example : exists s out, olc_pairs (table_num 4 [(2, 3); (3, 2)] [(0, 1, 2)]) 4 17 table_data = Ok s /\
  In (3, 2) (s_cg s) /\ olc (table_num 4 [(2, 3); (3, 2)] [(0, 1, 2)]) (fun l => l) 4 17 table_data = Ok out /\
  o_size out = 5 /\ map (fun i => map (o_adj out i) (seq 0 5)) (seq 0 5) = [[0; 2; 0; 2; 1]; [2; 0; 0; 2; 1]; [0; 0; 0; 1; 1]; [2; 2; 0; 0; 0]; [0; 0; 0; 0; 0]].
Proof. eexists. eexists. split; [vm_compute; reflexivity|]. split; [vm_compute; auto|]. split; [vm_compute; reflexivity|]. split; vm_compute; reflexivity. Qed.
