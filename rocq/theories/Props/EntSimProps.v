(** C84, C85: the simulators of the entropy package. *)

From Coq Require Import List Arith Bool Lia Lqa ZArith QArith Permutation.
From Verif Require Import Model.Py Model.Graph Model.Networkx Model.SHP Model.Simulators Model.EntSim Spec.Digraphs Spec.Sums.
From Verif Require Import Proofs.FinGraph Proofs.NumpyFacts Proofs.NxFacts Proofs.RelExt Proofs.SimFacts Proofs.SimSeries Proofs.SimGraphs
  Proofs.EntSimFacts Props.SimulatorProps.
Import ListNotations.
Open Scope nat_scope.

(* ---------- C84 ---------- *)
Lemma checked : forall n D, length D = n ->
  (acyclic (entry_edge n D) -> nx_is_dag (length D) (fun u v => negb (Z.eqb (mat_get D u v) 0)) = Ok true) /\
  (~ acyclic (entry_edge n D) -> nx_is_dag (length D) (fun u v => negb (Z.eqb (mat_get D u v) 0)) = Ok false).
Proof.
  intros n D L. rewrite L. set (adj := fun u v => negb (Z.eqb (mat_get D u v) 0)).
  assert (X : forall u v, entry_edge n D u v <-> E n adj u v).
  { intros u v. unfold entry_edge, E, adj. rewrite negb_true_iff, Z.eqb_neq. tauto. }
  assert (Y : acyclic (entry_edge n D) <-> acyclic (E n adj)).
  { split; intros A x C; apply (A x); [apply (dpath1_ext1 _ _ (fun u v => iff_sym (X u v)))|apply (dpath1_ext1 _ _ X)]; auto. }
  destruct (is_dag_ok n adj) as [b [E1 H]]. rewrite E1, Y. split; intro A.
  - f_equal. apply H. auto.
  - destruct b; auto. exfalso. apply A, H. auto.
Qed.

(** Erdos-Renyi: for every undirected graph and every pair of permutations the
    assertion holds, and the result is an acyclic orientation of the graph up to a
    renaming [tau] of the nodes: each edge has one direction, nothing else is an edge. *)
Theorem C84_er : forall n g s1 s2,
  undirected_matrix n g -> Permutation s1 (seq 0 n) -> Permutation s2 (seq 0 n) ->
  exists D, simulate_graph (DrawER g) s1 s2 = Ok D /\ acyclic (entry_edge n D) /\
  (length D = n /\ forall r, In r D -> length r = n) /\
  (exists tau, Permutation (map tau (seq 0 n)) (seq 0 n) /\
    forall a b, a < n -> b < n ->
      (mat_get g (tau a) (tau b) = 0 -> mat_get D a b = 0 /\ mat_get D b a = 0)%Z /\
      (mat_get g (tau a) (tau b) = 1 -> mat_get D a b = 1 /\ mat_get D b a = 0 \/ mat_get D a b = 0 /\ mat_get D b a = 1)%Z) /\
  (2 * total n D = total n g)%Z.
Proof.
  intros n g s1 s2 Hg P1 P2. pose proof (C39_orientation_acyclic n g s1 s2 Hg P1 P2) as [A [T N]].
  unfold random_acyclic_orientation in *. exists (random_permutation s2 (tril (random_permutation s1 g))).
  assert (Sh : shape n (random_permutation s2 (tril (random_permutation s1 g)))).
  { apply shape_random_permutation, shape_tril, shape_random_permutation. apply Hg. }
  split; [|auto]. unfold simulate_graph. cbn [rbind].
  rewrite (proj1 (checked n _ (proj1 Sh)) A). auto.
Qed.
Print Assumptions C84_er.

(** A directed matrix drawn by igraph ('SF' and 'BP') is only renamed; a cyclic one
    fails the assertion. *)
Theorem C84_given : forall n g s1 s2,
  length g = n -> (forall r, In r g -> length r = n) -> Permutation s2 (seq 0 n) ->
  simulate_graph (DrawSF g) s1 s2 = simulate_graph (DrawBP g) s1 s2 /\
  (acyclic (entry_edge n g) ->
     exists D tau, simulate_graph (DrawSF g) s1 s2 = Ok D /\ acyclic (entry_edge n D) /\
       Permutation (map tau (seq 0 n)) (seq 0 n) /\
       forall a b, a < n -> b < n -> mat_get D a b = mat_get g (tau a) (tau b)) /\
  (~ acyclic (entry_edge n g) -> simulate_graph (DrawSF g) s1 s2 = Err AssertionError).
Proof.
  intros n g s1 s2 L R P. split; [reflexivity|].
  assert (Sg : shape n g) by (split; auto).
  set (D := random_permutation s2 g).
  assert (SD : shape n D) by (apply shape_random_permutation; auto).
  assert (G : forall a b, a < n -> b < n -> mat_get D a b = mat_get g (pos s2 a) (pos s2 b)).
  { intros a b Ha Hb. apply (random_permutation_get n); auto. }
  assert (Lp : forall a, a < n -> pos s2 a < n) by (intros; apply (pos_lt n); auto).
  assert (F : acyclic (entry_edge n g) -> acyclic (entry_edge n D)).
  { intros A x C. apply (A (pos s2 x)).
    revert C. apply (dpath1_map (entry_edge n D) (entry_edge n g) (pos s2)). intros u v [Hu [Hv N]]. rewrite G in N by auto.
    repeat split; auto. }
  assert (B : acyclic (entry_edge n D) -> acyclic (entry_edge n g)).
  { intros A x C. apply (A (nth x s2 0)).
    assert (Ls : length s2 = n) by (rewrite (Permutation_length P), seq_length; auto).
    assert (ND : NoDup s2) by (apply (Permutation_NoDup (Permutation_sym P)), seq_NoDup).
    assert (Pn : forall a, a < n -> nth a s2 0 < n /\ pos s2 (nth a s2 0) = a).
    { intros a Ha. assert (I : In (nth a s2 0) s2) by (apply nth_In; lia).
      assert (In' : nth a s2 0 < n) by (apply (Permutation_in _ P) in I; apply in_seq in I; lia).
      split; auto. apply pos_nth; auto; lia. }
    revert C. apply (dpath1_map (entry_edge n g) (entry_edge n D) (fun x => nth x s2 0)). intros u v [Hu [Hv N]].
    destruct (Pn u Hu) as [U1 U2], (Pn v Hv) as [V1 V2]. repeat split; auto. rewrite G, U2, V2 by auto. auto. }
  unfold simulate_graph. cbn [rbind]. fold D. split; intro A.
  - exists D, (pos s2). rewrite (proj1 (checked n _ (proj1 SD)) (F A)). repeat split; auto. apply pos_perm. auto.
  - rewrite (proj2 (checked n _ (proj1 SD))); auto.
Qed.
Print Assumptions C84_given.

Theorem C84_unknown : forall s1 s2, simulate_graph DrawOther s1 s2 = Err ValueError.
Proof. reflexivity. Qed.
Print Assumptions C84_unknown.

(** The weights: zero where there is no edge, and on an edge the number drawn for the
    range drawn for it, so a number of that range.  If no range contains 0, the
    weighted graph is the given one. *)
Theorem C84_weights : forall n (ranges : list (Q * Q)) S U B,
  length B = n -> (forall r, In r B -> length r = n) ->
  (forall a b, a < n -> b < n -> mat_get B a b = 0%Z \/ mat_get B a b = 1%Z) ->
  (forall a b, S a b < length ranges) ->
  (forall i a b, i < length ranges -> (fst (nth i ranges (0, 0)) <= U i a b <= snd (nth i ranges (0, 0)))%Q) ->
  ranges <> [] ->
  exists W, simulate_parameter ranges S U B = Ok W /\ table n n W /\
  (forall a b, a < n -> b < n ->
     (mat_get B a b = 0%Z -> (qget W a b == 0)%Q) /\
     (mat_get B a b = 1%Z -> (qget W a b == U (S a b) a b)%Q /\
        exists lo hi, In (lo, hi) ranges /\ (lo <= qget W a b <= hi)%Q)) /\
  ((forall lo hi, In (lo, hi) ranges -> (0 < lo \/ hi < 0)%Q) ->
     forall a b, weight_edge W a b <-> entry_edge n B a b).
Proof.
  intros n ranges S U B L R Bin HS HU Hne. unfold simulate_parameter. rewrite L.
  assert (Ln : 0 < length ranges) by (destruct ranges; [contradiction|simpl; lia]).
  destruct (Nat.eqb_spec (length ranges) 0) as [Z|_]; [lia|].
  set (W := map _ _). exists W.
  assert (LW : length W = n) by (unfold W; rewrite map_length, seq_length; auto).
  assert (T : table n n W).
  { split; auto. intros r Hr. unfold W in Hr. apply in_map_iff in Hr. destruct Hr as [a [<- _]]. rewrite map_length, seq_length. auto. }
  assert (V : forall a b, a < n -> b < n -> (qget W a b == inject_Z (mat_get B a b) * U (S a b) a b)%Q).
  { intros a b Ha Hb. unfold W, qget. rewrite nth_map_seq by auto. rewrite nth_map_seq by auto. rewrite param_loop_value.
    specialize (HS a b). assert (E1 : Nat.ltb (S a b) (0 + length ranges) = true) by (apply Nat.ltb_lt; lia).
    rewrite E1. cbn [Nat.leb andb]. ring. }
  assert (RG : forall a b, a < n -> b < n -> mat_get B a b = 1%Z -> (qget W a b == U (S a b) a b)%Q /\
        exists lo hi, In (lo, hi) ranges /\ (lo <= qget W a b <= hi)%Q).
  { intros a b Ha Hb B1. assert (X : (qget W a b == U (S a b) a b)%Q) by (rewrite V, B1 by auto; simpl; ring). split; auto.
    exists (fst (nth (S a b) ranges (0, 0)%Q)), (snd (nth (S a b) ranges (0, 0)%Q)). split.
    - rewrite <- surjective_pairing. apply nth_In. auto.
    - rewrite X. apply HU. auto. }
  assert (ZR : forall a b, a < n -> b < n -> mat_get B a b = 0%Z -> (qget W a b == 0)%Q).
  { intros a b Ha Hb B0. rewrite V, B0 by auto. simpl. ring. }
  split; auto. split; auto. split; [intros; split; auto|].
  intros H0 a b. unfold weight_edge, entry_edge. rewrite LW. split; intros [Ha [Hb N]]; (split; [exact Ha|split; [exact Hb|]]).
  - intro B0. apply N. apply (ZR a b Ha Hb B0).
  - destruct (Bin a b Ha Hb) as [B0|B1]; [contradiction|]. destruct (RG a b Ha Hb B1) as [_ [lo [hi [I Q]]]].
    intro Z. rewrite Z in Q. destruct (H0 lo hi I); lra.
Qed.
Print Assumptions C84_weights.

Theorem C84_no_ranges : forall S U B, simulate_parameter [] S U B = Err ValueError.
Proof. reflexivity. Qed.
Print Assumptions C84_no_ranges.

Example C84_example :
  simulate_graph (DrawER ex_und) ex_s1 ex_s2 = Ok [[0; 1; 0; 0]; [0; 0; 0; 0]; [1; 1; 0; 1]; [0; 0; 0; 0]]%Z /\
  simulate_graph (DrawSF [[0; 1]; [1; 0]]%Z) [] [1; 0] = Err AssertionError /\
  simulate_graph (DrawBP [[0; 1; 1]; [0; 0; 0]; [0; 0; 0]]%Z) [] [2; 0; 1] = Ok [[0; 0; 0]; [0; 0; 0]; [1; 1; 0]]%Z /\
  exists W, simulate_parameter [(-2, -1 # 2); (1 # 2, 2)]%Q (fun a b => (a + b) mod 2) (fun i a b => if Nat.eqb i 0 then -1 else 1)%Q
    [[0; 1; 1]; [0; 0; 0]; [0; 1; 0]]%Z = Ok W /\ map (map Qred) W = [[0; 1; -(1)]; [0; 0; 0]; [0; 1; 0]]%Q.
Proof. repeat split. eexists. split; vm_compute; reflexivity. Qed.

(* ---------- C85 ---------- *)
(** A topological sorting routine: it lists the nodes of every acyclic graph after
    their predecessors; for a cyclic graph it raises or omits nodes. *)
Definition arrows (n : nat) (adj : nat -> nat -> bool) (u v : nat) : Prop := u < n /\ v < n /\ adj u v = true.
Definition sorter (topo : nat -> (nat -> nat -> bool) -> res (list nat)) : Prop := forall n adj,
  (acyclic (arrows n adj) -> exists l, topo n adj = Ok l /\ Permutation l (seq 0 n) /\
     forall l1 v l2, l = l1 ++ v :: l2 -> forall p, arrows n adj p v -> In p l1) /\
  (~ acyclic (arrows n adj) -> forall l, topo n adj = Ok l -> length l < n).

(** There is one. *)
Example networkx_sorts : sorter nx_topological_sort.
Proof.
  intros n adj. destruct (topological_sort_ok n adj) as [[A [l [T [P H]]]]|[A T]].
  - assert (X : forall u v, arrows n adj u v <-> E n adj u v) by (intros; unfold arrows, E; tauto). split.
    + intros _. exists l. auto.
    + intro C. exfalso. apply C. intros x Q. apply (A x). revert Q. apply dpath1_ext1. intros; apply iff_sym, X.
  - split; [|rewrite T; discriminate]. intro C. exfalso. apply A. intros x Q. apply (C x). revert Q. apply dpath1_ext1.
    intros; unfold arrows, E; tauto.
Qed.

Lemma weight_arrows : forall W, acyclic (weight_edge W) <-> acyclic (arrows (length W) (nonzero W)).
Proof.
  intro W. rewrite weight_acyclic.
  split; intros A x Q; apply (A x); revert Q; apply dpath1_ext1; intros; unfold arrows, E; tauto.
Qed.

Lemma sorter_ok : forall topo W, sorter topo -> acyclic (weight_edge W) ->
  exists l, topo (length W) (nonzero W) = Ok l /\ topological (length W) (nonzero W) l.
Proof.
  intros topo W H A. apply weight_arrows in A. destruct (proj1 (H _ _) A) as [l [T [P Q]]]. exists l. split; auto. split; auto.
Qed.

Lemma is_dag_w_true : forall W, acyclic (weight_edge W) -> is_dag_w W = Ok true.
Proof.
  intros W A. apply weight_acyclic in A. unfold is_dag_w. destruct (is_dag_ok (length W) (nonzero W)) as [b [E1 H]]. rewrite E1. f_equal. apply H. auto.
Qed.

Lemma is_dag_w_false : forall W, ~ acyclic (weight_edge W) -> is_dag_w W = Ok false.
Proof.
  intros W A. rewrite weight_acyclic in A. unfold is_dag_w. destruct (is_dag_ok (length W) (nonzero W)) as [b [E1 H]]. rewrite E1. f_equal.
  destruct b; auto. exfalso. apply A, H. auto.
Qed.

(** The scales that the distribution accepts. *)
Definition accepted (t : sem) (q : Q) : Prop := match t with SemGauss | SemExp => (0 <= q)%Q | _ => True end.

(** The structural equation of variable [j] in sample [k], for the input [v] from the parents. *)
Definition linear_equation (d : draws) (t : sem) (j k : nat) (scale v x : Q) : Prop :=
  match t with
  | SemGauss | SemExp | SemGumbel | SemUniform => (x == v + d_noise d j k * scale)%Q
  | SemLogistic => exists p, (p == v)%Q /\ x = d_binomial d j k (d_sigmoid d p)
  | SemPoisson => exists p, (p == v)%Q /\ x = d_poisson d j k (d_exp d p)
  | SemOther => False
  end.

Lemma single_equation_ok : forall d j ns P w t s, accepted t s -> t <> SemOther -> length P = ns ->
  exists vs, single_equation d j ns P w t s = Ok vs /\ length vs = ns.
Proof.
  intros d j ns P w t s Ha Ht LP. unfold single_equation.
  destruct t; try contradiction; cbn [accepted] in Ha; try (apply Qle_bool_iff in Ha; rewrite Ha);
    (eexists; split; [reflexivity|]); rewrite map_length, combine_length, !map_length, seq_length; lia.
Qed.

Lemma single_equation_length : forall d j ns P w t s vs, single_equation d j ns P w t s = Ok vs -> length P = ns -> length vs = ns.
Proof.
  intros d j ns P w t s vs H LP. unfold single_equation in H.
  destruct t; try discriminate; try (destruct (Qle_bool 0 s); [|discriminate]); inversion H;
    rewrite map_length, combine_length, !map_length, seq_length; lia.
Qed.

(** For any order igraph may choose, the data satisfy the structural equations of the
    chosen type. *)
Theorem C85_linear : forall topo d W ns t a,
  sorter topo -> acyclic (weight_edge W) -> fits (length W) a -> t <> SemOther ->
  (forall j, j < length W -> accepted t (scale_of a j)) ->
  exists X, simulate_linear_sem topo d W ns t a = Ok X /\ table ns (length W) X /\
    forall k j, k < ns -> j < length W ->
      linear_equation d t j k (scale_of a j) (sumQ (length W) (fun i => qget X k i * qget W i j)%Q) (qget X k j).
Proof.
  intros topo d W ns t a Hs A Ha Ht Hacc. destruct (sorter_ok topo W Hs A) as [l [T Tl]].
  destruct (scale_vec_ok (length W) a Ha) as [sv [Es Hsv]].
  unfold simulate_linear_sem. rewrite Es, is_dag_w_true, T by auto. cbn [rbind negb].
  match goal with |- context [fill_in ?f W ns l] => set (fn := f) end.
  destruct (fill_in_total fn W ns l Tl) as [X HX].
  { intros j P Hj LP _. apply single_equation_ok; auto. rewrite Hsv by auto. auto. }
  exists X. split; auto.
  destruct (fill_in_inv fn W ns l X) as [Sh Fx]; auto.
  { intros j P vs H LP. apply (single_equation_length _ _ _ _ _ _ _ _ H LP). }
  split; [exact Sh|].
  intros k j Hk Hj. destruct (Fx j Hj) as [vs [Ev [Lv Hv]]]. rewrite (Hv k Hk). unfold fn, single_equation in Ev.
  rewrite Hsv in Ev by auto. specialize (Hacc j Hj).
  rewrite get_cols_alt in Ev. destruct Sh as [LX _]. rewrite LX in Ev. rewrite !map_map in Ev.
  pose proof (parents_sum W (fun i => qget X k i) j (length W)) as PS. cbn beta in PS.
  destruct t; try contradiction; cbn [accepted] in Hacc; try (apply Qle_bool_iff in Hacc; rewrite Hacc in Ev);
    inversion Ev as [Ev']; clear Ev; cbn [linear_equation].
  1-4: rewrite combine_map_same, map_map; cbn [fst snd]; rewrite nth_map_seq by auto; rewrite PS; reflexivity.
  all: rewrite combine_map_r, map_map; cbn [fst snd]; rewrite nth_map_seq by auto;
    eexists; split; [exact PS|reflexivity].
Qed.
Print Assumptions C85_linear.

(** The simulator with one drawn scale for each variable. *)
Theorem C85_variable_scale : forall topo d u W ns t,
  sorter topo -> acyclic (weight_edge W) -> t <> SemOther -> (forall j, j < length W -> accepted t (u j)) ->
  exists X, simulate_variable_scale topo d u W ns t = Ok X /\ table ns (length W) X /\
    forall k j, k < ns -> j < length W ->
      linear_equation d t j k (u j) (sumQ (length W) (fun i => qget X k i * qget W i j)%Q) (qget X k j).
Proof.
  intros topo d u W ns t Hs A Ht Hacc.
  assert (F : fits (length W) (ScaleList (map u (seq 0 (length W))))) by (simpl; rewrite map_length, seq_length; auto).
  assert (SO : forall j, j < length W -> scale_of (ScaleList (map u (seq 0 (length W)))) j = u j).
  { intros j Hj. simpl. rewrite nth_map_seq by auto. auto. }
  destruct (C85_linear topo d W ns t _ Hs A F Ht) as [X [E1 [T H]]].
  - intros j Hj. rewrite SO; auto.
  - exists X. split; [exact E1|]. split; auto. intros k j Hk Hj. specialize (H k j Hk Hj). rewrite SO in H; auto.
Qed.
Print Assumptions C85_variable_scale.

(** Rejected inputs: a cyclic matrix, a list of scales of the wrong length, an unknown
    type and a negative scale. *)
Theorem C85_linear_rejects : forall topo d W ns t a, sorter topo ->
  (~ fits (length W) a -> simulate_linear_sem topo d W ns t a = Err ValueError) /\
  (fits (length W) a -> ~ acyclic (weight_edge W) -> simulate_linear_sem topo d W ns t a = Err ValueError) /\
  (fits (length W) a -> acyclic (weight_edge W) -> W <> [] -> t = SemOther -> simulate_linear_sem topo d W ns t a = Err ValueError) /\
  (fits (length W) a -> acyclic (weight_edge W) -> (exists j, j < length W /\ ~ accepted t (scale_of a j)) ->
     simulate_linear_sem topo d W ns t a = Err ValueError).
Proof.
  intros topo d W ns t a Hs. split; [|split; [|split]].
  - intro F. unfold simulate_linear_sem. destruct a; simpl in F; try (exfalso; apply F; exact I). simpl.
    destruct (Nat.eqb_spec (length l) (length W)); [contradiction|auto].
  - intros F A. destruct (scale_vec_ok (length W) a F) as [sv [Es Hsv]]. unfold simulate_linear_sem. rewrite Es, is_dag_w_false by auto. auto.
  - intros F A NE ->. destruct (scale_vec_ok (length W) a F) as [sv [Es Hsv]]. destruct (sorter_ok topo W Hs A) as [l [T Tl]].
    unfold simulate_linear_sem. rewrite Es, is_dag_w_true, T by auto. cbn [rbind negb]. apply fill_in_raises; auto.
    exists 0. split; auto. destruct W; [contradiction|simpl; lia].
  - intros F A [j [Hj N]]. destruct (scale_vec_ok (length W) a F) as [sv [Es Hsv]]. destruct (sorter_ok topo W Hs A) as [l [T Tl]].
    unfold simulate_linear_sem. rewrite Es, is_dag_w_true, T by auto. cbn [rbind negb]. apply fill_in_raises; auto.
    + intros i P Hi LP. unfold single_equation. destruct t; simpl in N; try (exfalso; apply N; exact I).
      all: destruct (Qle_bool 0 (nth i sv 0%Q)); auto; left; eexists; split; [reflexivity|];
        rewrite map_length, combine_length, !map_length, seq_length; lia.
    + exists j. split; auto. intros P LP. unfold single_equation. rewrite Hsv by auto.
      destruct t; simpl in N; try (exfalso; apply N; exact I).
      all: destruct (Qle_bool 0 (scale_of a j)) eqn:Q; auto; apply Qle_bool_iff in Q; contradiction.
Qed.
Print Assumptions C85_linear_rejects.

(** Random graph, weights and data together: nothing is raised and the data satisfy
    the equations of the drawn graph. *)
Theorem C84_pipeline : forall topo d n g s1 s2 (ranges : list (Q * Q)) S U ns t a,
  sorter topo -> undirected_matrix n g -> Permutation s1 (seq 0 n) -> Permutation s2 (seq 0 n) ->
  (forall a b, S a b < length ranges) ->
  (forall i a b, i < length ranges -> (fst (nth i ranges (0, 0)) <= U i a b <= snd (nth i ranges (0, 0)))%Q) ->
  (forall lo hi, In (lo, hi) ranges -> (0 < lo \/ hi < 0)%Q) -> ranges <> [] ->
  fits n a -> t <> SemOther -> (forall j, j < n -> accepted t (scale_of a j)) ->
  exists D W X, simulate_graph (DrawER g) s1 s2 = Ok D /\ simulate_parameter ranges S U D = Ok W /\
    simulate_linear_sem topo d W ns t a = Ok X /\ table ns n X /\
    (forall u v, weight_edge W u v <-> entry_edge n D u v) /\
    forall k j, k < ns -> j < n ->
      linear_equation d t j k (scale_of a j) (sumQ n (fun i => qget X k i * qget W i j)%Q) (qget X k j).
Proof.
  intros topo d n g s1 s2 ranges S U ns t a Hs Hg P1 P2 HS HU H0 Hne F Ht Hacc.
  destruct (C84_er n g s1 s2 Hg P1 P2) as [D [ED [A [[LD RD] [[tau [Pt Ht']] _]]]]].
  assert (Bin : forall x y, x < n -> y < n -> mat_get D x y = 0%Z \/ mat_get D x y = 1%Z).
  { intros x y Hx Hy. destruct (Ht' x y Hx Hy) as [Z1 Z2]. destruct Hg as [_ Hg].
    assert (Lt : forall c, c < n -> tau c < n).
    { intros c Hc. assert (I : In (tau c) (seq 0 n)).
      { apply (Permutation_in _ Pt). apply in_map. apply in_seq. lia. } apply in_seq in I. lia. }
    destruct (Hg (tau x) (tau y) (Lt x Hx) (Lt y Hy)) as [_ [[V|V] _]].
    - left. apply Z1. auto.
    - destruct (Z2 V) as [[V1 _]|[V1 _]]; auto. }
  destruct (C84_weights n ranges S U D LD RD Bin HS HU Hne) as [W [EW [[LW RW] [_ WE]]]]. specialize (WE H0).
  assert (AW : acyclic (weight_edge W)).
  { intros x C. apply (A x). revert C. apply dpath1_ext1. auto. }
  destruct (C85_linear topo d W ns t a Hs AW) as [X [EX [TX HX]]]; rewrite ?LW in *; auto.
  exists D, W, X. repeat (split; auto).
Qed.
Print Assumptions C84_pipeline.

(** 0 -> 1 -> 2 and 0 -> 2 with three types. *)
Example C85_linear_example :
  let W := [[0; 2; 1]; [0; 0; -1]; [0; 0; 0]]%Q in
  (exists X, simulate_linear_sem nx_topological_sort ex_draws W 2 SemGumbel (ScaleScalar 3) = Ok X /\
     map (map Qred) X = [[0; 3; 3]; [30; 93; -(27)]]%Q) /\
  (exists X, simulate_linear_sem nx_topological_sort ex_draws W 2 SemGauss (ScaleList [1; 0; 1]%Q) = Ok X /\
     map (map Qred) X = [[0; 0; 2]; [10; 20; 2]]%Q) /\
  simulate_linear_sem nx_topological_sort ex_draws W 2 SemGauss (ScaleScalar (-1)) = Err ValueError /\
  simulate_linear_sem nx_topological_sort ex_draws W 2 SemOther ScaleNone = Err ValueError /\
  simulate_linear_sem nx_topological_sort ex_draws [[0; 1]; [1; 0]]%Q 2 SemGauss ScaleNone = Err ValueError.
Proof. split; [|split; [|vm_compute; auto]]; eexists; split; vm_compute; reflexivity. Qed.

(* ---------- nonlinear ---------- *)
(** The distributions of the noise. *)
Definition noise_names : list sem := [SemGauss; SemExp; SemGumbel; SemUniform].

(** The scale of variable [j]: only None and a list are supported. *)
Definition listed (n : nat) (a : scale_arg) : Prop :=
  match a with ScaleNone => True | ScaleScalar _ => False | ScaleList l => n <= length l end.

(** The documented function of the parents [pa] of variable [j] in sample [k]:
    a network with 100 hidden units; tanh + cos + sin of three combinations; a
    Gaussian process, at all parents together or at each parent and added up; a network
    with 10 hidden units whose activation is the square or the cube. *)
Definition response (d : draws) (w : anm_draws) (gp : nat -> nat -> list (list Q) -> nat -> Q) (t : nl_sem) (X : list (list Q))
    (ns j : nat) (pa : list nat) (k : nat) : Q :=
  let comb c := sumQ (length pa) (fun i => (qget X k (nth i pa 0%nat) * c i)%Q) in
  match t with
  | NlMlp => sumQ 100 (fun b => (d_sigmoid d (comb (fun i => a_w1 w j i b)) * a_w2 w j b)%Q)
  | NlMim => (a_tanh w (comb (a_v1 w j)) + a_cos w (comb (a_v2 w j)) + a_sin w (comb (a_v3 w j)))%Q
  | NlGp => gp j 0 (map (fun s => map (qget X s) pa) (seq 0 ns)) k
  | NlGpAdd => sumQ (length pa) (fun i => gp j i (map (fun s => [qget X s (nth i pa 0%nat)]) (seq 0 ns)) k)
  | NlPow2 => sumQ 10 (fun b => (comb (fun i => a_w1 w j i b) * comb (fun i => a_w1 w j i b) * a_w2 w j b)%Q)
  | NlPow3 => sumQ 10 (fun b => (comb (fun i => a_w1 w j i b) * comb (fun i => a_w1 w j i b) * comb (fun i => a_w1 w j i b) * a_w2 w j b)%Q)
  | NlOther => 0%Q
  end.

(** The transcendental functions are functions of the number. *)
Definition respects (h : Q -> Q) : Prop := forall x y, (x == y)%Q -> (h x == h y)%Q.

Lemma qdot_comb : forall X k pa c,
  (qdot (map (fun i => qget X k i) pa) (map c (seq 0 (length (map (fun i => qget X k i) pa)))) ==
   sumQ (length pa) (fun i => qget X k (nth i pa 0%nat) * c i))%Q.
Proof.
  intros X k pa c. rewrite map_length.
  assert (Ep : map (fun i => qget X k i) pa = map (fun i => qget X k (nth i pa 0%nat)) (seq 0 (length pa))).
  { apply nth_ext with (d := 0%Q) (d' := 0%Q); [rewrite !map_length, seq_length; auto|].
    intros i Hi. rewrite map_length in Hi. rewrite nth_map_seq by auto.
    rewrite (nth_indep _ 0%Q (qget X k 0)) by (rewrite map_length; auto). rewrite map_nth. auto. }
  rewrite Ep, qdot_map, qsum_seq. reflexivity.
Qed.

Lemma nl_value_ok : forall d w gp t X ns j pa k,
  respects (d_sigmoid d) -> respects (a_tanh w) -> respects (a_cos w) -> respects (a_sin w) -> t <> NlOther ->
  length X = ns -> k < ns ->
  exists v, nl_value d w gp j (length pa) (get_cols X pa) t k = Ok v /\ (v == response d w gp t X ns j pa k)%Q.
Proof.
  intros d w gp t X ns j pa k R1 R2 R3 R4 Ht LX Hk.
  assert (Er : nth k (get_cols X pa) [] = map (fun i => qget X k i) pa).
  { rewrite get_cols_alt, LX, nth_map_seq by auto. auto. }
  unfold nl_value. rewrite Er.
  assert (PW : forall e, (pow_value w j e (map (fun i => qget X k i) pa) ==
    sumQ 10 (fun b => Qpower (sumQ (length pa) (fun i => qget X k (nth i pa 0%nat) * a_w1 w j i b)) (Z.of_nat e) * a_w2 w j b))%Q).
  { intro e. unfold pow_value. rewrite qdot_map, qsum_seq. apply sumQ_ext. intros b Hb.
    pose proof (qdot_comb X k pa (fun a => a_w1 w j a b)) as Q. cbn beta in Q. rewrite Q. reflexivity. }
  destruct t; try contradiction; (eexists; split; [reflexivity|]); cbv zeta; unfold response.
  - unfold mlp_value. rewrite qdot_map, qsum_seq. apply sumQ_ext. intros b Hb.
    pose proof (R1 _ _ (qdot_comb X k pa (fun a => a_w1 w j a b))) as Q. cbn beta in Q. rewrite Q. reflexivity.
  - unfold mim_value. cbv zeta.
    rewrite (R2 _ _ (qdot_comb X k pa (a_v1 w j))), (R3 _ _ (qdot_comb X k pa (a_v2 w j))), (R4 _ _ (qdot_comb X k pa (a_v3 w j))). reflexivity.
  - rewrite get_cols_alt, LX. reflexivity.
  - unfold gp_add. rewrite qsum_seq. apply sumQ_ext. intros i Hi. rewrite get_cols_alt, LX, map_map.
    assert (Em : map (fun x => [nth i (map (fun i0 => qget X x i0) pa) 0%Q]) (seq 0 ns) = map (fun s => [qget X s (nth i pa 0%nat)]) (seq 0 ns)).
    { apply map_ext. intro s. f_equal. rewrite (nth_indep _ 0%Q (qget X s 0)) by (rewrite map_length; auto).
      rewrite (map_nth (fun i0 => qget X s i0)). auto. }
    rewrite Em. reflexivity.
  - rewrite PW. apply sumQ_ext. intros b Hb. change (Z.of_nat 2) with 2%Z. simpl Qpower. ring.
  - rewrite PW. apply sumQ_ext. intros b Hb. change (Z.of_nat 3) with 3%Z. simpl Qpower. ring.
Qed.

Lemma known_names : forall t, In t noise_names <-> known_dist t = true.
Proof. intro t. unfold noise_names. destruct t; simpl; intuition discriminate. Qed.

Lemma nl_scale_ok : forall n a j, listed n a -> j < n -> nl_scale a j = Ok (scale_of a j).
Proof.
  intros n [|q|l] j H Hj; simpl in *; auto; [contradiction|].
  rewrite (nth_error_nth' l 0%Q) by lia. auto.
Qed.

Lemma single_nl_ok : forall d w gp j ns npar P t dist s, In dist noise_names -> t <> NlOther ->
  exists vs, single_nl d w gp j ns npar P t dist s = Ok vs /\ length vs = ns.
Proof.
  intros d w gp j ns npar P t dist s Hd Ht. apply known_names in Hd. unfold single_nl. rewrite Hd. cbn [negb].
  destruct (Nat.eqb npar 0); [eexists; split; [reflexivity|rewrite map_length, seq_length; auto]|].
  assert (R : exists g, forall k, nl_value d w gp j npar P t k = Ok (g k)).
  { destruct t; try contradiction; cbn [nl_value]; eexists; intro k; reflexivity. }
  destruct R as [g Hg].
  exists (map (fun k => g k + nth k (map (fun k => d_noise d j k * s) (seq 0 ns)) 0)%Q (seq 0 ns)).
  split; [|rewrite map_length, seq_length; auto].
  destruct t; try contradiction; apply rmap_ok; intros k _; rewrite Hg; reflexivity.
Qed.

Lemma single_nl_length : forall d w gp j ns npar P t dist s vs,
  single_nl d w gp j ns npar P t dist s = Ok vs -> length vs = ns.
Proof.
  intros d w gp j ns npar P t dist s vs H. assert (K := H). unfold single_nl in H.
  destruct (known_dist dist) eqn:Kd; cbn [negb] in H; [|discriminate].
  destruct (Nat.eqb npar 0) eqn:Z; [inversion H; rewrite map_length, seq_length; auto|].
  assert (Ht : t <> NlOther) by (intros ->; discriminate).
  destruct (single_nl_ok d w gp j ns npar P t dist s (proj2 (known_names dist) Kd) Ht) as [us [E1 L]]. congruence.
Qed.

(** For any order igraph may choose: a variable without parents is its noise, any other
    is the documented function of its parents plus its noise. *)
Theorem C85_nonlinear : forall topo d w gp B ns t dist a,
  respects (d_sigmoid d) -> respects (a_tanh w) -> respects (a_cos w) -> respects (a_sin w) ->
  sorter topo -> acyclic (weight_edge B) -> In dist noise_names -> t <> NlOther -> listed (length B) a ->
  exists X, simulate_nonlinear_sem topo d w gp B ns t dist a = Ok X /\ table ns (length B) X /\
    forall k j, k < ns -> j < length B ->
      let pa := parents_of B j in
      let noise := (d_noise d j k * scale_of a j)%Q in
      (pa = [] -> qget X k j = noise) /\
      (pa <> [] -> (qget X k j == response d w gp t X ns j pa k + noise)%Q).
Proof.
  intros topo d w gp B ns t dist a R1 R2 R3 R4 Hs A Hd Ht Ha. destruct (sorter_ok topo B Hs A) as [l [T Tl]].
  unfold simulate_nonlinear_sem. rewrite T. cbn [rbind].
  match goal with |- context [fill_in ?f B ns l] => set (fn := f) end.
  destruct (fill_in_total fn B ns l Tl) as [X HX].
  { intros j P Hj LP _. unfold fn. rewrite (nl_scale_ok (length B)) by auto. cbn [rbind]. apply single_nl_ok; auto. }
  exists X. split; auto. destruct (fill_in_inv fn B ns l X) as [Sh Fx]; auto.
  { intros j P vs H LP. unfold fn in H. destruct (nl_scale a j); cbn [rbind] in H; [|discriminate]. apply (single_nl_length _ _ _ _ _ _ _ _ _ _ _ H). }
  split; [exact Sh|]. intros k j Hk Hj. set (pa := parents_of B j). destruct (Fx j Hj) as [vs [Ev [Lv Hv]]]. rewrite (Hv k Hk).
  unfold fn in Ev. rewrite (nl_scale_ok (length B)) in Ev by auto. cbn [rbind] in Ev.
  change (nx_predecessors (length B) (nonzero B) j) with pa in Ev. unfold single_nl in Ev.
  rewrite (proj1 (known_names dist) Hd) in Ev. cbn [negb] in Ev. split; intro Hpa.
  - rewrite Hpa in Ev. simpl in Ev. inversion Ev. rewrite nth_map_seq by auto. auto.
  - destruct (Nat.eqb_spec (length pa) 0) as [L0|L0]; [apply length_zero_iff_nil in L0; contradiction|].
    assert (Ev2 : rmap (fun k => rbind (nl_value d w gp j (length pa) (get_cols X pa) t k)
      (fun v => Ok (v + nth k (map (fun k => d_noise d j k * scale_of a j) (seq 0 ns)) 0)%Q)) (seq 0 ns) = Ok vs).
    { destruct t; try contradiction; exact Ev. }
    assert (R : exists g, forall k, nl_value d w gp j (length pa) (get_cols X pa) t k = Ok (g k)).
    { destruct t; try contradiction; cbn [nl_value]; eexists; intro; reflexivity. }
    destruct R as [g Hg].
    rewrite (rmap_ok _ (fun k => g k + nth k (map (fun k => d_noise d j k * scale_of a j) (seq 0 ns)) 0)%Q) in Ev2
      by (intros x _; rewrite Hg; reflexivity).
    inversion Ev2. rewrite nth_map_seq by auto. rewrite nth_map_seq by auto.
    destruct Sh as [LX _]. destruct (nl_value_ok d w gp t X ns j pa k R1 R2 R3 R4 Ht LX Hk) as [v [E1 E2]].
    rewrite Hg in E1. injection E1 as Eg. rewrite Eg, E2. reflexivity.
Qed.
Print Assumptions C85_nonlinear.

(** A cyclic matrix never gives data. *)
Theorem C85_nonlinear_cyclic : forall topo d w gp B ns t dist a X,
  sorter topo -> ~ acyclic (weight_edge B) -> simulate_nonlinear_sem topo d w gp B ns t dist a <> Ok X.
Proof.
  intros topo d w gp B ns t dist a X Hs A H. unfold simulate_nonlinear_sem in H. rewrite weight_arrows in A.
  destruct (topo (length B) (nonzero B)) as [l|e] eqn:T; cbn [rbind] in H; [|discriminate].
  rewrite fill_in_short in H; [discriminate|]. apply (proj2 (Hs _ _) A l T).
Qed.
Print Assumptions C85_nonlinear_cyclic.

(** A number as noise scale, which the linear simulator accepts, raises TypeError; a list that is too
    short raises IndexError. *)
Theorem C85_nonlinear_scale : forall topo d w gp B ns t dist,
  sorter topo -> acyclic (weight_edge B) -> B <> [] ->
  (forall q, simulate_nonlinear_sem topo d w gp B ns t dist (ScaleScalar q) = Err TypeError) /\
  (forall l, length l < length B -> In dist noise_names -> t <> NlOther ->
     simulate_nonlinear_sem topo d w gp B ns t dist (ScaleList l) = Err IndexError).
Proof.
  intros topo d w gp B ns t dist Hs A NE. destruct (sorter_ok topo B Hs A) as [o [T Tl]].
  assert (H0 : 0 < length B) by (destruct B; [contradiction|simpl; lia]).
  unfold simulate_nonlinear_sem. rewrite T. cbn [rbind]. split.
  - intro q. apply fill_in_raises; auto. exists 0. split; auto.
  - intros l Hl Hd Ht. apply fill_in_raises; auto.
    + intros j P Hj LP. cbn [nl_scale]. destruct (nth_error l j); cbn [rbind]; [|right; auto]. left. apply single_nl_ok; auto.
    + exists (length l). split; auto. intros P _. cbn [nl_scale].
      rewrite (proj2 (nth_error_None l (length l))) by lia. auto.
Qed.
Print Assumptions C85_nonlinear_scale.

(** The name of the function is checked only where it is used: for a graph without
    edges every name gives pure noise, for a graph with an edge an unknown name raises
    ValueError. *)
Theorem C85_nonlinear_name : forall topo d w gp B ns t dist a,
  sorter topo -> acyclic (weight_edge B) -> In dist noise_names -> listed (length B) a ->
  ((forall u v, ~ weight_edge B u v) ->
     exists X, simulate_nonlinear_sem topo d w gp B ns t dist a = Ok X /\ table ns (length B) X /\
       forall k j, k < ns -> j < length B -> qget X k j = (d_noise d j k * scale_of a j)%Q) /\
  ((exists u v, weight_edge B u v) -> t = NlOther -> simulate_nonlinear_sem topo d w gp B ns t dist a = Err ValueError).
Proof.
  intros topo d w gp B ns t dist a Hs A Hd Ha. destruct (sorter_ok topo B Hs A) as [l [T Tl]].
  pose proof (proj1 (known_names dist) Hd) as Kd.
  unfold simulate_nonlinear_sem. rewrite T. cbn [rbind]. split.
  - intro N.
    assert (NP : forall j, j < length B -> nx_predecessors (length B) (nonzero B) j = []).
    { intros j Hj. destruct (nx_predecessors (length B) (nonzero B) j) as [|p r] eqn:Ep; auto. exfalso.
      assert (I : In p (nx_predecessors (length B) (nonzero B) j)) by (rewrite Ep; left; auto).
      unfold nx_predecessors in I. apply filter_In in I. destruct I as [I1 I2]. apply in_seq in I1. apply (N p j).
      apply nonzero_spec in I2. repeat split; auto. lia. }
    match goal with |- context [fill_in ?f B ns l] => set (fn := f) end.
    assert (Efn : forall j P, j < length B -> fn j P = Ok (map (fun k => d_noise d j k * scale_of a j)%Q (seq 0 ns))).
    { intros j P Hj. unfold fn. rewrite (nl_scale_ok (length B)), NP by auto. cbn [rbind]. unfold single_nl. rewrite Kd. auto. }
    destruct (fill_in_total fn B ns l Tl) as [X HX].
    { intros j P Hj LP _. rewrite Efn by auto. eexists. split; [reflexivity|]. rewrite map_length, seq_length. auto. }
    exists X. split; auto. destruct (fill_in_inv fn B ns l X) as [Sh Fx]; auto.
    { intros j P vs H LP. unfold fn in H. destruct (nl_scale a j); cbn [rbind] in H; [|discriminate]. apply (single_nl_length _ _ _ _ _ _ _ _ _ _ _ H). }
    split; [exact Sh|]. intros k j Hk Hj. destruct (Fx j Hj) as [vs [Ev [Lv Hv]]]. rewrite (Hv k Hk). rewrite Efn in Ev by auto.
    inversion Ev. rewrite nth_map_seq by auto. auto.
  - intros [u [v [Hu [Hv N]]]] ->. apply fill_in_raises; auto.
    + intros j P Hj LP. rewrite (nl_scale_ok (length B)) by auto. cbn [rbind]. unfold single_nl. rewrite Kd. cbn [negb].
      destruct (Nat.eqb _ 0); auto. left. eexists. split; [reflexivity|]. rewrite map_length, seq_length. auto.
    + exists v. split; auto. intros P _. rewrite (nl_scale_ok (length B)) by auto. cbn [rbind]. unfold single_nl. rewrite Kd. cbn [negb].
      destruct (Nat.eqb_spec (length (nx_predecessors (length B) (nonzero B) v)) 0) as [Z|_]; auto. exfalso.
      apply length_zero_iff_nil in Z. assert (I : In u (nx_predecessors (length B) (nonzero B) v)).
      { unfold nx_predecessors. apply filter_In. split; [apply in_seq; lia|]. apply nonzero_spec. auto. }
      rewrite Z in I. destruct I.
Qed.
Print Assumptions C85_nonlinear_name.

(** Two variables: the effect is the weighted, or nonlinearly transformed, cause plus
    its own noise; the cause is in column 0 unless [direct] is 1, when it is in column 1. *)
Theorem C85_pairwise : forall e0 e1 g weight ns linear direct,
  let cause := if Z.eqb direct 1 then 1 else 0 in
  let effect := 1 - cause in
  simulate_pairwise e0 e1 false g weight ns linear direct = Err ValueError /\
  exists X, simulate_pairwise e0 e1 true g weight ns linear direct = Ok X /\ table ns 2 X /\
    forall k, k < ns ->
      qget X k cause = e0 k /\
      qget X k effect = (e1 k + (if linear then weight * qget X k cause else g (qget X k cause)))%Q.
Proof.
  intros e0 e1 g weight ns linear direct cause effect. split; [reflexivity|].
  unfold simulate_pairwise. cbn [negb]. eexists. split; [reflexivity|]. unfold cause, effect, table, qget.
  destruct (Z.eqb direct 1).
  - rewrite map_map. split; [split|].
    + rewrite map_length, seq_length. auto.
    + intros r Hr. apply in_map_iff in Hr. destruct Hr as [x [<- _]]. auto.
    + intros k Hk. rewrite nth_map_seq by auto. auto.
  - split; [split|].
    + rewrite map_length, seq_length. auto.
    + intros r Hr. apply in_map_iff in Hr. destruct Hr as [x [<- _]]. auto.
    + intros k Hk. rewrite nth_map_seq by auto. auto.
Qed.
Print Assumptions C85_pairwise.

(** 0 -> 2 <- 1, added up Gaussian processes and squares. *)
Example C85_nonlinear_example :
  let B := [[0; 0; 1]; [0; 0; 1]; [0; 0; 0]]%Q in
  let w := (AnmDraws (fun _ a b => inject_Z (Z.of_nat (a + b))) (fun _ _ => 1) (fun _ _ => 1) (fun _ _ => 1) (fun _ _ => 1)
             (fun x => x) (fun x => x) (fun x => x))%Q in
  let gp := fun (j i : nat) (X : list (list Q)) k => (2 * nth 0 (nth k X []) 0)%Q in
  (exists X, simulate_nonlinear_sem nx_topological_sort ex_draws w gp B 2 NlGpAdd SemGumbel ScaleNone = Ok X /\
     map (map Qred) X = [[0; 1; 4]; [10; 11; 54]]%Q) /\
  (exists X, simulate_nonlinear_sem nx_topological_sort ex_draws w gp B 1 NlPow2 SemGauss (ScaleList [1; 2; 1]%Q) = Ok X /\
     map (map Qred) X = [[0; 2; 1542]]%Q) /\
  simulate_nonlinear_sem nx_topological_sort ex_draws w gp B 2 NlMlp SemGauss (ScaleScalar 1) = Err TypeError /\
  simulate_nonlinear_sem nx_topological_sort ex_draws w gp B 2 NlOther SemGauss ScaleNone = Err ValueError /\
  simulate_nonlinear_sem nx_topological_sort ex_draws w gp B 2 NlMlp SemGauss (ScaleList [1; 1]%Q) = Err IndexError /\
  simulate_pairwise (fun k => inject_Z (Z.of_nat k)) (fun _ => 1%Q) true (fun x => x) 3 2 true 1 = Ok [[1; 0]; [4; 1]]%Q.
Proof. split; [|split; [|vm_compute; auto]]; eexists; split; vm_compute; reflexivity. Qed.
