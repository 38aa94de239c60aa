(** C36-C39, C52-C54: the simulators. *)

From Coq Require Import List Arith Bool Lia ZArith QArith Permutation.
From Verif Require Import Model.Py Model.Graph Model.Networkx Model.SHP Model.Simulators Spec.Digraphs Spec.Sums.
From Verif Require Import Proofs.FinGraph Proofs.NumpyFacts Proofs.NxFacts Proofs.RelExt Proofs.SHPTerm
  Proofs.SimFacts Proofs.SimSeries Proofs.SimGraphs Proofs.SimPnl.
Import ListNotations.
Open Scope nat_scope.

(* ---------- vocabulary ---------- *)
(** [ns] rows of [n] numbers. *)
Definition table (ns n : nat) (X : list (list Q)) : Prop := length X = ns /\ forall r, In r X -> length r = n.

(** The graph of the nonzero weights. *)
Definition weight_edge (W : list (list Q)) (u v : nat) : Prop :=
  u < length W /\ v < length W /\ ~ (qget W u v == 0)%Q.

(** A noise scale that fits [n] variables, and the scale of variable [j]. *)
Definition fits (n : nat) (a : scale_arg) : Prop := match a with ScaleList l => length l = n | _ => True end.
Definition scale_of (a : scale_arg) (j : nat) : Q :=
  match a with ScaleNone => 1%Q | ScaleScalar q => q | ScaleList l => nth j l 0%Q end.

(** The noise types with additive noise. *)
Definition additive (t : noise) : Prop := In t [Gauss; Exponential; Gumbel; Uniform; Laplace].

Lemma additive_plain : forall t, additive t <-> plain_noise t = true.
Proof. intro t. unfold additive. destruct t; simpl; intuition discriminate. Qed.

Lemma scale_vec_ok : forall n a, fits n a -> exists sv, scale_vec n a = Ok sv /\ forall j, j < n -> nth j sv 0%Q = scale_of a j.
Proof.
  intros n [|q|l] H; simpl in *.
  - exists (repeat 1%Q n). split; auto. intros j Hj. rewrite (nth_indep _ 0%Q 1%Q) by (rewrite repeat_length; auto). apply nth_repeat'.
  - exists (repeat q n). split; auto. intros j Hj. rewrite (nth_indep _ 0%Q q) by (rewrite repeat_length; auto). apply nth_repeat'.
  - rewrite H, Nat.eqb_refl. eauto.
Qed.

Lemma nonzero_spec : forall W u v, nonzero W u v = true <-> ~ (qget W u v == 0)%Q.
Proof.
  intros. unfold nonzero. rewrite negb_true_iff. split.
  - intros H C. apply Qeq_bool_iff in C. congruence.
  - intro H. destruct (Qeq_bool (qget W u v) 0) eqn:Eq; auto. apply Qeq_bool_iff in Eq. contradiction.
Qed.

Lemma weight_edge_E : forall W u v, weight_edge W u v <-> E (length W) (nonzero W) u v.
Proof. intros. unfold weight_edge, E. rewrite nonzero_spec. tauto. Qed.

Lemma weight_acyclic : forall W, acyclic (weight_edge W) <-> acyclic (E (length W) (nonzero W)).
Proof.
  intro W. split; intros A u C; apply (A u); [apply (dpath1_ext1 _ _ (fun u v => iff_sym (weight_edge_E W u v)))
                                             |apply (dpath1_ext1 _ _ (weight_edge_E W))]; auto.
Qed.

(* ---------- C36 ---------- *)
Lemma single_linear_plain : forall d j ns P w t sc, plain_noise t = true ->
  single_linear d j ns P w t sc = Ok (map (fun p => (fst p + snd p)%Q)
    (combine (map (fun r => qdot r w) P) (map (fun k => (d_noise d j k * sc)%Q) (seq 0 ns)))).
Proof. intros d j ns P w t sc H. unfold single_linear, gen_noise. destruct t; simpl in *; try discriminate; auto. Qed.

Lemma parents_sum : forall W (x : nat -> Q) j n,
  (qdot (map x (nx_predecessors n (nonzero W) j)) (map (fun i => qget W i j) (nx_predecessors n (nonzero W) j)) ==
   sumQ n (fun i => x i * qget W i j))%Q.
Proof.
  intros W x j n. rewrite qdot_map. unfold nx_predecessors. rewrite qsum_filter, qsum_seq. apply sumQ_ext.
  intros i Hi. destruct (nonzero W i j) eqn:N; [reflexivity|].
  assert (Z : (qget W i j == 0)%Q).
  { unfold nonzero in N. apply negb_false_iff in N. apply Qeq_bool_iff. auto. }
  rewrite Z. ring.
Qed.

(** Every entry is the weighted sum of the entries of the same sample plus its
    own scaled noise. *)
Theorem C36_linear_solves_sem : forall d W ns t a, additive t -> fits (length W) a -> acyclic (weight_edge W) ->
  exists X, simulate_linear_anm d W ns t a = Ok X /\ table ns (length W) X /\
    forall k j, k < ns -> j < length W ->
      (qget X k j == sumQ (length W) (fun i => qget X k i * qget W i j) + d_noise d j k * scale_of a j)%Q.
Proof.
  intros d W ns t a Ht Ha A. apply additive_plain in Ht. apply weight_acyclic in A.
  destruct (scale_vec_ok (length W) a Ha) as [sv [Es Hs]].
  unfold simulate_linear_anm. rewrite Es.
  assert (Ea : rassert (match t with Unknown => false | _ => true end) = Ok tt) by (destruct t; try discriminate; auto).
  rewrite Ea. simpl.
  match goal with |- context [simulate_dag ?f W ns] => set (fn := f) end.
  assert (HL : forall j P vs, fn j P = Ok vs -> length P = ns -> length vs = ns).
  { intros j P vs H LP. unfold fn in H. rewrite single_linear_plain in H by auto. inversion H.
    rewrite map_length, combine_length, !map_length, seq_length. lia. }
  destruct (simulate_dag_total fn W ns A) as [X HX].
  { intros j P Hj LP _. unfold fn. rewrite single_linear_plain by auto. eexists. split; [reflexivity|].
    rewrite map_length, combine_length, !map_length, seq_length. lia. }
  exists X. split; auto. destruct (simulate_dag_inv fn W ns X HL HX) as [_ [Sh Fx]]. split; [exact Sh|].
  intros k j Hk Hj. destruct (Fx j Hj) as [vs [Ev [Lv Hv]]]. rewrite (Hv k Hk). unfold fn in Ev.
  rewrite single_linear_plain in Ev by auto. inversion Ev as [Ev'].
  rewrite get_cols_alt. destruct Sh as [LX _]. rewrite LX. rewrite !map_map. rewrite combine_map_same, map_map. simpl.
  rewrite nth_map_seq by auto. rewrite Hs by auto. rewrite parents_sum. reflexivity.
Qed.
Print Assumptions C36_linear_solves_sem.

(** A matrix with a cycle (or a self loop) is rejected. *)
Theorem C36_cyclic_rejected : forall d W ns t a, t <> Unknown -> fits (length W) a -> ~ acyclic (weight_edge W) ->
  simulate_linear_anm d W ns t a = Err ValueError.
Proof.
  intros d W ns t a Ht Ha A. unfold simulate_linear_anm.
  assert (Ea : rassert (match t with Unknown => false | _ => true end) = Ok tt) by (destruct t; try contradiction; auto).
  rewrite Ea. destruct (scale_vec_ok (length W) a Ha) as [sv [Es Hs]]. rewrite Es. simpl.
  apply simulate_dag_cyclic. intro C. apply A. apply weight_acyclic. auto.
Qed.
Print Assumptions C36_cyclic_rejected.

Definition ex_W : list (list Q) := [[0; 0; 0]; [2; 0; -1]; [3; 0; 0]]%Q.
Definition ex_draws : draws :=
  Draws (fun j k => inject_Z (Z.of_nat (j + 10 * k))) (fun _ _ p => p) (fun _ _ m => m) (fun x => x) (fun x => x).

Lemma ex_W_acyclic : acyclic (weight_edge ex_W).
Proof.
  apply (rank_acyclic _ (fun v => match v with 1 => 0 | 2 => 1 | _ => 2 end)).
  intros u v [Hu [Hv H]]. simpl in Hu, Hv.
  destruct u as [|[|[|u]]]; destruct v as [|[|[|v]]]; try lia; exfalso; apply H; reflexivity.
Qed.

(** 1 -> 0, 1 -> 2 -> 0, two samples, one scale per variable. *)
Example C36_example :
  acyclic (weight_edge ex_W) /\ fits (length ex_W) (ScaleList [1; 2; 1 # 2]%Q) /\
  simulate_linear_anm ex_draws ex_W 2 Gauss (ScaleList [1; 2; 1 # 2]%Q) =
    Ok [[2 # 2; 2; -2 # 2]; [12 # 2; 22; -32 # 2]]%Q /\
  simulate_linear_anm ex_draws [[0; 1]; [1; 0]]%Q 2 Gauss ScaleNone = Err ValueError.
Proof. split; [exact ex_W_acyclic|]. split; [reflexivity|]. split; vm_compute; reflexivity. Qed.

(* ---------- C37 ---------- *)
(** The series: the initial rows, then rows that follow the recurrence; lag 0
    is the oldest row of the window. *)
Theorem C37_timelag_recurrence : forall d init n Ws ml len t a,
  additive t -> fits n a -> ml = None \/ ml = Some (length Ws) ->
  exists R, timelag_linear d init n Ws ml (Some len) t a = Ok R /\ table (length Ws + len) n R /\
    (forall lag j, lag < length Ws -> j < n -> qget R lag j = (init lag j * scale_of a j)%Q) /\
    forall s j, s < len -> j < n ->
      (qget R (length Ws + s) j ==
       sumQ (length Ws) (fun lag => sumQ n (fun i => qget R (s + lag) i * qget (nth lag Ws []) i j)) +
       d_noise d s j * scale_of a j)%Q.
Proof.
  intros d init n Ws ml len t a Ht Ha Hml. apply additive_plain in Ht.
  destruct (scale_vec_ok n a Ha) as [sv [Es Hs]].
  unfold timelag_linear. rewrite Ht. simpl.
  assert (Em : match ml with None => Ok (length Ws) | Some l => if Nat.eqb l (length Ws) then Ok l else Err ValueError end = Ok (length Ws)).
  { destruct Hml as [->| ->]; auto. rewrite Nat.eqb_refl. auto. }
  rewrite Em, Es. simpl.
  assert (Eb : match t with Logistic => true | _ => false end = false) by (destruct t; auto; discriminate).
  rewrite Eb.
  set (lags := map (fun lag => map (fun j => (init lag j * nth j sv 0)%Q) (seq 0 n)) (seq 0 (length Ws))).
  set (R := run_linear d n 0 len lags Ws (length Ws) false sv lags). exists R. split; auto.
  assert (HR := run_linear_series d n Ws (length Ws) false sv len 0 lags lags). fold R in HR. symmetry in HR.
  assert (Ll : length lags = length Ws) by (unfold lags; rewrite map_length, seq_length; auto).
  assert (Rl : forall r, In r lags -> length r = n).
  { intros r Hr. unfold lags in Hr. apply in_map_iff in Hr. destruct Hr as [x [<- _]]. rewrite map_length, seq_length. auto. }
  destruct (series_ok _ (length Ws) len 0 lags lags R Ll eq_refl HR) as [LR [F K]]. simpl in LR, F, K.
  assert (Hi : forall k, k < length Ws -> nth k R [] = nth k lags []).
  { intros k Hk. rewrite <- F. rewrite <- (firstn_skipn (length Ws) R) at 1. rewrite app_nth1; auto. rewrite firstn_length. lia. }
  assert (Wi : forall s k, s < len -> k < length Ws -> nth k (firstn (length Ws) (skipn s R)) [] = nth (s + k) R []).
  { intros s k Hs' Hk. transitivity (nth k (skipn s R) []).
    - rewrite <- (firstn_skipn (length Ws) (skipn s R)) at 2. rewrite app_nth1; auto. rewrite firstn_length, skipn_length. lia.
    - rewrite <- (firstn_skipn s R) at 2. rewrite app_nth2; rewrite firstn_length; [|lia]. f_equal. lia. }
  assert (RR : forall k, k < length Ws + len -> length (nth k R []) = n).
  { intro k. induction k as [k IH] using lt_wf_ind. intro Hk. destruct (Nat.lt_ge_cases k (length Ws)) as [Hl|Hl].
    - rewrite Hi by auto. apply Rl. apply nth_In. lia.
    - specialize (K (k - length Ws)). replace (length Ws + (k - length Ws)) with k in K by lia.
      assert (Hk' : k - length Ws < len) by lia. specialize (K Hk'). inversion K as [Kx]. clear K. rewrite vadd_length.
      + apply lag_fold_length. apply repeat_length.
      + rewrite map_length, seq_length. apply lag_fold_length. apply repeat_length. }
  split; [|split].
  - split; [lia|]. intros r Hr. apply (In_nth _ _ []) in Hr. destruct Hr as [k [Hk <-]]. apply RR. lia.
  - intros lag j Hlag Hj. unfold qget. rewrite Hi by auto. unfold lags. rewrite nth_map_seq by auto. rewrite nth_map_seq by auto.
    rewrite Hs by auto. auto.
  - intros s j Hs' Hj. specialize (K s Hs'). inversion K as [Kx]. clear K. unfold qget at 1. rewrite <- Kx.
    destruct (lag_sum n (firstn (length Ws) (skipn s R)) Ws (length Ws) j Hj) as [Lv Hv].
    { intros lag Hlag. rewrite Wi by auto. apply RR. lia. }
    rewrite nth_vadd; [|rewrite map_length, seq_length; auto|rewrite Lv; auto].
    rewrite Hv, nth_map_seq by auto. rewrite Hs by auto.
    rewrite (sumQ_ext (length Ws) _ (fun lag => sumQ n (fun i => qget R (s + lag) i * qget (nth lag Ws []) i j)%Q)); [reflexivity|].
    intros lag Hlag. apply sumQ_ext. intros i Hi'. rewrite Wi by auto. reflexivity.
Qed.
Print Assumptions C37_timelag_recurrence.

(** A max_lag that does not match the weights is rejected. *)
Theorem C37_wrong_lag_rejected : forall d init n Ws ml len t a, additive t -> ml <> length Ws ->
  timelag_linear d init n Ws (Some ml) len t a = Err ValueError.
Proof.
  intros d init n Ws ml len t a Ht H. apply additive_plain in Ht. unfold timelag_linear. rewrite Ht. simpl.
  destruct (Nat.eqb_spec ml (length Ws)); [contradiction|]. auto.
Qed.
Print Assumptions C37_wrong_lag_rejected.

(** Two variables, two lags, three steps. *)
Example C37_example :
  timelag_linear ex_draws (fun lag j => inject_Z (Z.of_nat (lag + 2 * j))) 2 [[[1; 0]; [0; 0]]; [[0; 1]; [1; 0]]]%Q
    (Some 2) (Some 3) Laplace ScaleNone = Ok [[0; 2]; [1; 3]; [3; 11]; [13; 14]; [19; 25]]%Q.
Proof. vm_compute. reflexivity. Qed.

(* ---------- C38 ---------- *)
Theorem C38_pnl_columns_constant : forall p e W ns t a f1 f2 slope hidden X j i,
  simulate_pnl p e W ns t a f1 f2 slope hidden = Ok X -> weight_edge W i j ->
  forall k k', k < ns -> k' < ns -> qget X k j = qget X k' j.
Proof.
  intros p e W ns t a f1 f2 slope hidden X j i H He k k' Hk Hk'. unfold simulate_pnl in H.
  destruct (rassert (plain_noise t)); simpl in H; [|discriminate].
  destruct (rassert (accepted f1 && accepted f2)); simpl in H; [|discriminate].
  destruct (scale_vec (length W) a) as [sv|]; simpl in H; [|discriminate].
  match goal with H : simulate_dag ?f W ns = _ |- _ => set (fn := f) in H end.
  destruct (simulate_dag_inv fn W ns X) as [_ [_ Fx]]; auto.
  { intros j' P vs Ev _. apply (single_pnl_length _ _ _ _ _ _ _ _ _ _ _ _ _ Ev). }
  assert (Hj : j < length W) by apply He.
  destruct (Fx j Hj) as [vs [Ev [_ Hv]]]. rewrite (Hv k Hk), (Hv k' Hk').
  unfold fn in Ev. apply single_pnl_constant in Ev.
  - destruct Ev as [c ->]. rewrite !(nth_indep _ 0%Q c) by (rewrite repeat_length; auto). rewrite !nth_repeat'. auto.
  - intro C. apply length_zero_iff_nil in C. apply weight_edge_E in He. apply preds_in in He; auto. rewrite C in He. destruct He.
Qed.
Print Assumptions C38_pnl_columns_constant.

(** The simulation does succeed, for every choice of functions, when the
    hidden size is not given. *)
Theorem C38_pnl_defined : forall p e W ns t a f1 f2 slope, additive t -> fits (length W) a -> acyclic (weight_edge W) ->
  accepted f1 = true -> accepted f2 = true -> (0 < slope)%Q -> 0 < ns ->
  exists X, simulate_pnl p e W ns t a f1 f2 slope None = Ok X /\ table ns (length W) X.
Proof.
  intros p e W ns t a f1 f2 slope Ht Ha A H1 H2 Hs Hn. apply additive_plain in Ht. apply weight_acyclic in A.
  destruct (scale_vec_ok (length W) a Ha) as [sv [Es _]].
  unfold simulate_pnl. rewrite Ht, H1, H2, Es. simpl.
  match goal with |- context [simulate_dag ?f W ns] => set (fn := f) end.
  destruct (simulate_dag_total fn W ns A) as [X HX].
  { intros j P Hj LP _. apply single_pnl_total; auto. }
  exists X. split; auto. apply (simulate_dag_inv fn W ns X); auto.
  intros j P vs Ev _. unfold fn in Ev. apply (single_pnl_length _ _ _ _ _ _ _ _ _ _ _ _ _ Ev).
Qed.
Print Assumptions C38_pnl_defined.

Definition ex_pnl : nat -> pnl_draws := fun _ => PnlDraws (fun x => x / (1 + x * x))%Q (fun x => x) (fun _ a b => inject_Z (Z.of_nat (1 + a + b))).

(** 0 -> 1 and 0 -> 2: the root varies, the others do not. *)
Example C38_example :
  let X := simulate_pnl ex_pnl (fun j k b => inject_Z (Z.of_nat (j + 2 * k + b))) [[0; 1; 1]; [0; 0; 0]; [0; 0; 0]]%Q 2 Uniform
             ScaleNone (One Tanh) (Many [LeakyRelu; Linear]) (1 # 5) None in
  X = Ok [[0; 22 # 5; 32 # 5]; [2; 22 # 5; 32 # 5]]%Q.
Proof. vm_compute. reflexivity. Qed.

(* ---------- C39 ---------- *)
(** The matrix of an undirected graph on [n] nodes. *)
Definition undirected_matrix (n : nat) (g : list (list Z)) : Prop :=
  (length g = n /\ forall r, In r g -> length r = n) /\
  forall u v, u < n -> v < n -> mat_get g u v = mat_get g v u /\ (mat_get g u v = 0%Z \/ mat_get g u v = 1%Z) /\ mat_get g u u = 0%Z.

(** The edges of an n x n integer matrix. *)
Definition entry_edge (n : nat) (m : list (list Z)) (u v : nat) : Prop := u < n /\ v < n /\ mat_get m u v <> 0%Z.

(** The sum of all entries. *)
Definition total (n : nat) (m : list (list Z)) : Z := sumZ n (fun i => sumZ n (fun j => mat_get m i j)).

(** For every draw the result is acyclic, and up to a renaming [tau] of the
    nodes every undirected edge has exactly one direction and nothing else is
    an edge; so the undirected matrix has twice as many entries. *)
Theorem C39_orientation_acyclic : forall n g s1 s2,
  undirected_matrix n g -> Permutation s1 (seq 0 n) -> Permutation s2 (seq 0 n) ->
  let D := random_acyclic_orientation s1 s2 g in
  acyclic (entry_edge n D) /\
  (exists tau, Permutation (map tau (seq 0 n)) (seq 0 n) /\
    forall a b, a < n -> b < n ->
      (mat_get g (tau a) (tau b) = 0 -> mat_get D a b = 0 /\ mat_get D b a = 0)%Z /\
      (mat_get g (tau a) (tau b) = 1 -> mat_get D a b = 1 /\ mat_get D b a = 0 \/ mat_get D a b = 0 /\ mat_get D b a = 1)%Z) /\
  (2 * total n D = total n g)%Z.
Proof.
  intros n g s1 s2 [Sg Hg] P1 P2 D.
  assert (G : forall a b, a < n -> b < n -> mat_get D a b =
    if Nat.ltb (pos s2 b) (pos s2 a) then mat_get g (pos s1 (pos s2 a)) (pos s1 (pos s2 b)) else 0%Z).
  { intros a b Ha Hb. apply (orientation_get n); auto. }
  set (tau := fun a => pos s1 (pos s2 a)).
  assert (Ht : forall a, a < n -> tau a < n) by (intros a Ha; apply (pos_lt n); auto; apply (pos_lt n); auto).
  assert (Pt : Permutation (map tau (seq 0 n)) (seq 0 n)).
  { unfold tau. rewrite <- (map_map (pos s2) (pos s1)). transitivity (map (pos s1) (seq 0 n)).
    - apply Permutation_map. apply pos_perm. auto.
    - apply pos_perm. auto. }
  assert (Sum : forall a b, a < n -> b < n -> (mat_get D a b + mat_get D b a = mat_get g (tau a) (tau b))%Z).
  { intros a b Ha Hb. rewrite (G a b), (G b a) by auto. fold (tau a) (tau b).
    destruct (Nat.ltb_spec (pos s2 b) (pos s2 a)) as [L1|L1]; destruct (Nat.ltb_spec (pos s2 a) (pos s2 b)) as [L2|L2].
    - lia.
    - lia.
    - destruct (Hg (tau a) (tau b) (Ht a Ha) (Ht b Hb)) as [Sy _]. lia.
    - assert (E1 : a = b) by (apply (pos_inj n s2); auto; lia). subst b.
      destruct (Hg (tau a) (tau a) (Ht a Ha) (Ht a Ha)) as [_ [_ Z0]]. lia. }
  split; [|split].
  - apply (rank_acyclic _ (fun v => n - pos s2 v)). intros u v [Hu [Hv H]]. rewrite G in H by auto.
    pose proof (pos_lt n s2 u P2 Hu). destruct (Nat.ltb_spec (pos s2 v) (pos s2 u)); [lia|congruence].
  - exists tau. split; auto. intros a b Ha Hb. specialize (Sum a b Ha Hb).
    assert (V : forall a b, a < n -> b < n -> mat_get D a b = 0%Z \/ mat_get D a b = 1%Z).
    { intros x y Hx Hy. rewrite G by auto. destruct (Nat.ltb _ _); auto. apply (Hg (tau x) (tau y)); auto. }
    pose proof (V a b Ha Hb). pose proof (V b a Hb Ha). split; intro E1; rewrite E1 in Sum; lia.
  - unfold total.
    transitivity (sumZ n (fun i => sumZ n (fun j => mat_get D i j)) + sumZ n (fun j => sumZ n (fun i => mat_get D i j)))%Z.
    { rewrite (sumZ_swap n n (fun i j => mat_get D i j)). lia. }
    rewrite <- sumZ_add.
    transitivity (sumZ n (fun i => sumZ n (fun j => mat_get g (tau i) (tau j)))).
    + apply sumZ_ext. intros i Hi. rewrite <- sumZ_add. apply sumZ_ext. intros j Hj. apply Sum; auto.
    + rewrite (sumZ_perm n tau (fun i => sumZ n (fun j => mat_get g i (tau j)))) by auto.
      apply sumZ_ext. intros i Hi. apply (sumZ_perm n tau (fun j => mat_get g i j)). auto.
Qed.
Print Assumptions C39_orientation_acyclic.

Definition ex_und : list (list Z) := [[0; 1; 1; 0]; [1; 0; 1; 0]; [1; 1; 0; 1]; [0; 0; 1; 0]]%Z.
Definition ex_s1 : list nat := [2; 0; 3; 1].
Definition ex_s2 : list nat := [1; 3; 0; 2].

(** A triangle with a tail. *)
Example C39_example :
  undirected_matrix 4 ex_und /\ Permutation ex_s1 (seq 0 4) /\ Permutation ex_s2 (seq 0 4) /\
  random_acyclic_orientation ex_s1 ex_s2 ex_und = [[0; 1; 0; 0]; [0; 0; 0; 0]; [1; 1; 0; 1]; [0; 0; 0; 0]]%Z.
Proof.
  split; [|split; [|split]].
  - split; [split; [reflexivity|]|].
    + intros r Hr. simpl in Hr. repeat (destruct Hr as [<-|Hr]; [reflexivity|]). destruct Hr.
    + intros u v Hu Hv. destruct u as [|[|[|[|u]]]]; destruct v as [|[|[|[|v]]]]; try lia; vm_compute; auto.
  - apply NoDup_Permutation_bis; [repeat constructor; simpl; intuition congruence|auto|].
    intros x Hx. simpl in *. intuition.
  - apply NoDup_Permutation_bis; [repeat constructor; simpl; intuition congruence|auto|].
    intros x Hx. simpl in *. intuition.
  - vm_compute. reflexivity.
Qed.

(** erdos_renyi: with a seed, for every undirected graph and every draw, the
    matrix of 0/1 entries or of nonzero weights is acyclic. *)
Theorem C39_erdos_renyi : forall n g s1 s2 u seed, 0 < n ->
  undirected_matrix n g -> Permutation s1 (seq 0 n) -> Permutation s2 (seq 0 n) ->
  let D := random_acyclic_orientation s1 s2 g in
  erdos_renyi n g s1 s2 None (Some seed) = Ok (inl D) /\
  ((forall i j, i < n -> j < n -> ~ (u i j == 0)%Q) -> exists W, erdos_renyi n g s1 s2 (Some u) (Some seed) = Ok (inr W) /\
     acyclic (weight_edge W) /\ forall i j, i < n -> j < n -> ((qget W i j == 0)%Q <-> mat_get D i j = 0%Z)).
Proof.
  intros n g s1 s2 u seed Hn Hg P1 P2 D. unfold erdos_renyi. destruct (Nat.ltb_spec 0 n); [|lia]. simpl. split; auto.
  intro Hu. eexists. split; [reflexivity|]. fold D.
  assert (V : forall i j, i < n -> j < n -> ((qget (adj2weights n D u) i j == 0)%Q <-> mat_get D i j = 0%Z)).
  { intros i j Hi Hj. unfold qget, adj2weights. rewrite nth_map_seq by auto. rewrite nth_map_seq by auto.
    destruct (Z.eqb_spec (mat_get D i j) 0) as [Z|Z]; split; intro X; auto.
    - ring.
    - exfalso. apply (Hu i j); auto. rewrite <- X. ring.
    - contradiction. }
  split; auto. destruct (C39_orientation_acyclic n g s1 s2 Hg P1 P2) as [A _]. fold D in A.
  assert (L : length (adj2weights n D u) = n) by (unfold adj2weights; rewrite map_length, seq_length; auto).
  intros x C. apply (A x). apply (dpath1_ext1 _ _ ) with (2 := C). intros a b. unfold weight_edge, entry_edge.
  rewrite L. split; intros [Ha [Hb N]]; split; auto; split; auto; intro Z; apply N; apply V; auto.
Qed.
Print Assumptions C39_erdos_renyi.

(** Without a seed, the default, erdos_renyi always fails. *)
Theorem C39_erdos_renyi_needs_seed : forall n g s1 s2 u, 0 < n -> erdos_renyi n g s1 s2 u None = Err TypeError.
Proof. intros n g s1 s2 u H. unfold erdos_renyi. destruct (Nat.ltb_spec 0 n); [auto|lia]. Qed.
Print Assumptions C39_erdos_renyi_needs_seed.

(** The Hawkes edge matrix, for every shuffle: 0/1 entries, only from smaller
    to larger numbers (so acyclic), and as many edges as requested, or all
    pairs when more are requested. *)
Theorem C39_hawkes_edges : forall n edges k, Permutation edges (hawkes_pairs n) ->
  let D := hawkes_edges n edges k in
  (length D = n /\ forall r, In r D -> length r = n) /\
  (forall u v, mat_get D u v = 0%Z \/ mat_get D u v = 1%Z) /\
  (forall u v, mat_get D u v <> 0%Z -> u < v < n) /\ acyclic (entry_edge n D) /\
  total n D = Z.of_nat (Nat.min k (n * (n - 1) / 2)).
Proof.
  intros n edges k P D.
  assert (In1 : forall e, In e (firstn k edges) -> fst e < snd e /\ snd e < n).
  { intros [u v] H. apply hawkes_pairs_in. apply (Permutation_in _ P). rewrite <- (firstn_skipn k edges). apply in_or_app. auto. }
  assert (In2 : forall e, In e (firstn k edges) -> fst e < n /\ snd e < n) by (intros e H; apply In1 in H; lia).
  assert (G : forall u v, mat_get D u v =
    if existsb (fun e : nat * nat => Nat.eqb (fst e) u && Nat.eqb (snd e) v) (firstn k edges) then 1%Z else 0%Z).
  { intros u v. destruct (hawkes_fold n (firstn k edges) (zeros n) u v (shape_zeros n) In2) as [_ H].
    unfold D, hawkes_edges. rewrite H, mat_get_zeros. auto. }
  assert (Ed : forall u v, mat_get D u v <> 0%Z -> In (u, v) (firstn k edges)).
  { intros u v H. rewrite G in H. destruct (existsb _ _) eqn:X; [|congruence]. apply existsb_exists in X.
    destruct X as [[a b] [Hin X]]. apply andb_true_iff in X. destruct X as [X1 X2]. apply Nat.eqb_eq in X1, X2. simpl in *. subst. auto. }
  split; [|split; [|split; [|split]]].
  - apply (hawkes_fold n (firstn k edges) (zeros n) 0 0 (shape_zeros n) In2).
  - intros u v. rewrite G. destruct (existsb _ _); auto.
  - intros u v H. apply Ed in H. apply In1 in H. simpl in H. lia.
  - apply (rank_acyclic _ (fun v => v)). intros u v [_ [_ H]]. apply Ed in H. apply In1 in H. simpl in H. lia.
  - assert (ND : NoDup (firstn k edges)).
    { assert (N : NoDup edges).
      { apply (Permutation_NoDup (Permutation_sym P)). apply NoDup_filter. apply NoDup_list_prod; apply seq_NoDup. }
      rewrite <- (firstn_skipn k edges) in N. clear - N. induction (firstn k edges) as [|a l IH]; simpl in *; constructor.
      - inversion N; subst. intro C. apply H1. apply in_or_app. auto.
      - inversion N; subst. auto. }
    assert (Len : length (firstn k edges) = Nat.min k (n * (n - 1) / 2)).
    { rewrite firstn_length. f_equal. rewrite (Permutation_length P). rewrite <- hawkes_pairs_length.
      rewrite Nat.mul_comm, Nat.div_mul; auto. }
    rewrite <- Len. clear Len Ed. unfold total.
    rewrite (sumZ_ext n _ (fun u => sumZ n (fun v => if existsb (fun e : nat * nat => Nat.eqb (fst e) u && Nat.eqb (snd e) v) (firstn k edges) then 1%Z else 0%Z)))
      by (intros u Hu; apply sumZ_ext; intros v Hv; apply G).
    clear G D P. revert In1 In2 ND. generalize (firstn k edges) as l. induction l as [|[a b] l IH]; intros In1 In2 ND.
    + simpl. apply sumZ_zero. intros. apply sumZ_zero. auto.
    + simpl length. inversion ND; subst.
      assert (Hl : forall e, In e l -> fst e < snd e /\ snd e < n) by (intros; apply In1; right; auto).
      assert (Hl2 : forall e, In e l -> fst e < n /\ snd e < n) by (intros; apply In2; right; auto).
      specialize (IH Hl Hl2 H2). destruct (In2 (a, b)) as [Ha Hb]; [left; auto|]. simpl in Ha, Hb.
      rewrite (sumZ_ext n _ (fun u => (sumZ n (fun v => if Nat.eqb a u && Nat.eqb b v then 1%Z else 0%Z) +
        sumZ n (fun v => if existsb (fun e : nat * nat => Nat.eqb (fst e) u && Nat.eqb (snd e) v) l then 1%Z else 0%Z))%Z)).
      * rewrite sumZ_add, IH. rewrite (sumZ_single n _ a Ha).
        -- rewrite (sumZ_single n _ b Hb); [rewrite !Nat.eqb_refl; simpl andb; lia|].
           intros i Hi Ni. destruct (Nat.eqb_spec b i); [congruence|]. rewrite andb_false_r. auto.
        -- intros i Hi Ni. apply sumZ_zero. intros j Hj. destruct (Nat.eqb_spec a i); [congruence|]. auto.
      * intros u Hu. rewrite <- sumZ_add. apply sumZ_ext. intros v Hv. simpl.
        destruct (Nat.eqb_spec a u) as [->|]; destruct (Nat.eqb_spec b v) as [->|]; simpl; auto; try lia.
        destruct (existsb _ l) eqn:X; auto. exfalso. apply H1. apply existsb_exists in X. destruct X as [[c d] [Hin X]].
        apply andb_true_iff in X. destruct X as [X1 X2]. apply Nat.eqb_eq in X1, X2. simpl in *. subst. auto.
Qed.
Print Assumptions C39_hawkes_edges.

Definition ex_edges : list (nat * nat) := [(1, 2); (0, 3); (0, 1); (2, 3); (1, 3); (0, 2)].

Lemma ex_edges_perm : Permutation ex_edges (hawkes_pairs 4).
Proof.
  apply NoDup_Permutation_bis.
  - repeat constructor; simpl; intuition congruence.
  - vm_compute. repeat constructor.
  - intros [u v] H. apply hawkes_pairs_in. simpl in H.
    repeat (destruct H as [H|H]; [inversion H; subst; lia|]). destruct H.
Qed.

(** Four variables, three of the six pairs. *)
Example C39_hawkes_example :
  hawkes_edges 4 ex_edges 3 = [[0; 1; 0; 1]; [0; 0; 1; 0]; [0; 0; 0; 0]; [0; 0; 0; 0]]%Z /\
  total 4 (hawkes_edges 4 ex_edges 3) = 3%Z /\ total 4 (hawkes_edges 4 ex_edges 9) = 6%Z.
Proof. repeat split; vm_compute; reflexivity. Qed.

(* ---------- C52 ---------- *)
(** The parents of [j] in increasing order. *)
Definition parents_of (W : list (list Q)) (j : nat) : list nat :=
  filter (fun i => negb (Qeq_bool (qget W i j) 0)) (seq 0 (length W)).

(** Simulated nonlinear data: a variable without parents is its noise; any
    other is a two-layer network of its parents plus its noise. *)
Theorem C52_nonlinear_solves_sem : forall d w W ns t a ft hidden,
  (forall x y, x == y -> d_sigmoid d x == d_sigmoid d y)%Q ->
  additive t -> fits (length W) a -> acyclic (weight_edge W) -> ft = Mlp \/ ft = Mim ->
  let h := match hidden with None => 100 | Some h => h end in
  exists X, simulate_nonlinear_anm d w W ns t a ft hidden = Ok X /\ table ns (length W) X /\
    forall k j, k < ns -> j < length W ->
      let pa := parents_of W j in
      let noise := (d_noise d j k * scale_of a j)%Q in
      (pa = [] -> qget X k j = noise) /\
      (pa <> [] -> (qget X k j ==
         sumQ h (fun b => d_sigmoid d (sumQ (length pa) (fun i => qget X k (nth i pa 0%nat) * a_w1 w j i b)) * a_w2 w j b) + noise)%Q).
Proof.
  intros d w W ns t a ft hidden Hsig Ht Ha A Hft h. apply additive_plain in Ht. apply weight_acyclic in A.
  destruct (scale_vec_ok (length W) a Ha) as [sv [Es Hs]].
  unfold simulate_nonlinear_anm. rewrite Ht. simpl.
  assert (Ef : rassert (match ft with OtherFunc => false | _ => true end) = Ok tt) by (destruct Hft; subst; auto).
  rewrite Ef, Es. simpl.
  match goal with |- context [simulate_dag ?f W ns] => set (fn := f) end.
  set (nz j := map (fun k => (d_noise d j k * nth j sv 0)%Q) (seq 0 ns)).
  assert (Efn : forall j P, fn j P = Ok (if Nat.eqb (length (parents_of W j)) 0 then nz j
      else map (fun p => (mlp_value d w j h (fst p) + snd p)%Q) (combine P (nz j)))).
  { intros j P. unfold fn, single_nonlinear, gen_noise. rewrite Ht. simpl. fold (nz j).
    change (nx_predecessors (length W) (nonzero W) j) with (parents_of W j).
    destruct (Nat.eqb (length (parents_of W j)) 0); auto. }
  assert (Lnz : forall j, length (nz j) = ns) by (intro; unfold nz; rewrite map_length, seq_length; auto).
  assert (HL : forall j P vs, fn j P = Ok vs -> length P = ns -> length vs = ns).
  { intros j P vs H LP. rewrite Efn in H. inversion H. destruct (Nat.eqb _ 0); auto.
    rewrite map_length, combine_length, Lnz. lia. }
  destruct (simulate_dag_total fn W ns A) as [X HX].
  { intros j P Hj LP _. rewrite Efn. eexists. split; [reflexivity|]. destruct (Nat.eqb _ 0); auto.
    rewrite map_length, combine_length, Lnz. lia. }
  exists X. split; auto. destruct (simulate_dag_inv fn W ns X HL HX) as [_ [Sh Fx]]. split; [exact Sh|].
  intros k j Hk Hj. set (pa := parents_of W j). set (noise := (d_noise d j k * scale_of a j)%Q). destruct (Fx j Hj) as [vs [Ev [Lv Hv]]]. rewrite (Hv k Hk). rewrite Efn in Ev.
  inversion Ev as [Ev']. clear Ev. fold pa in Ev'. fold pa. split; intro Hpa.
  - rewrite Hpa. simpl. unfold nz. rewrite nth_map_seq by auto. rewrite Hs by auto. auto.
  - destruct (Nat.eqb_spec (length pa) 0) as [L0|L0]; [apply length_zero_iff_nil in L0; contradiction|].
    change (nx_predecessors (length W) (nonzero W) j) with pa.
    rewrite get_cols_alt. destruct Sh as [LX _]. rewrite LX. unfold nz. rewrite combine_map_same, map_map.
    rewrite nth_map_seq by auto. simpl. rewrite Hs by auto. fold noise.
    assert (M : (mlp_value d w j h (map (fun i => qget X k i) pa) ==
      sumQ h (fun b => d_sigmoid d (sumQ (length pa) (fun i => qget X k (nth i pa 0%nat) * a_w1 w j i b)) * a_w2 w j b))%Q).
    { unfold mlp_value. rewrite qdot_map, qsum_seq. apply sumQ_ext. intros b Hb.
      rewrite (Hsig _ (sumQ (length pa) (fun i => qget X k (nth i pa 0%nat) * a_w1 w j i b)%Q)); [reflexivity|].
      rewrite map_length.
      assert (Ep : map (fun i => qget X k i) pa = map (fun i => qget X k (nth i pa 0%nat)) (seq 0 (length pa))).
      { apply nth_ext with (d := 0%Q) (d' := 0%Q); [rewrite !map_length, seq_length; auto|].
        intros i Hi. rewrite map_length in Hi. rewrite nth_map_seq by auto.
        rewrite (nth_indep _ 0%Q (qget X k 0)) by (rewrite map_length; auto). rewrite map_nth. auto. }
      rewrite Ep, qdot_map, qsum_seq. reflexivity. }
    rewrite M. reflexivity.
Qed.
Print Assumptions C52_nonlinear_solves_sem.

(** func_type has no effect. *)
Theorem C52_func_type_ignored : forall d w W ns t a hidden,
  simulate_nonlinear_anm d w W ns t a Mim hidden = simulate_nonlinear_anm d w W ns t a Mlp hidden.
Proof. reflexivity. Qed.
Print Assumptions C52_func_type_ignored.

(** The equations of the documented 'mim' function. *)
Definition mim_data (d : draws) (w : anm_draws) (W : list (list Q)) (ns : nat) (X : list (list Q)) : Prop :=
  forall k j, k < ns -> j < length W -> parents_of W j <> [] ->
    let dot v := sumQ (length (parents_of W j)) (fun i => qget X k (nth i (parents_of W j) 0%nat) * v i)%Q in
    (qget X k j == a_tanh w (dot (a_v1 w j)) + a_cos w (dot (a_v2 w j)) + a_sin w (dot (a_v3 w j)) + d_noise d j k)%Q.

Theorem C52_mim_refuted : exists d w W ns t hidden X,
  acyclic (weight_edge W) /\ simulate_nonlinear_anm d w W ns t ScaleNone Mim hidden = Ok X /\ ~ mim_data d w W ns X.
Proof.
  exists (Draws (fun _ _ => 0) (fun _ _ p => p) (fun _ _ m => m) (fun _ => 1 # 2) (fun x => x))%Q.
  exists (AnmDraws (fun _ _ _ => 1) (fun _ _ => 2) (fun _ _ => 1) (fun _ _ => 1) (fun _ _ => 1) (fun _ => 0) (fun _ => 1) (fun _ => 0))%Q.
  exists [[0; 1]; [0; 0]]%Q, 1, Gauss, (Some 3). eexists. split; [|split].
  - apply (rank_acyclic _ (fun v => v)). intros u v [Hu [Hv H]]. simpl in Hu, Hv.
    destruct u as [|[|u]]; destruct v as [|[|v]]; try lia; exfalso; apply H; reflexivity.
  - vm_compute. reflexivity.
  - intro C. specialize (C 0 1). simpl in C. assert (H : 1 < 2) by lia. specialize (C (Nat.lt_0_1) H).
    assert (N : parents_of [[0; 1]; [0; 0]]%Q 1 <> []) by (vm_compute; discriminate).
    specialize (C N). vm_compute in C. discriminate.
Qed.
Print Assumptions C52_mim_refuted.

Example C52_example :
  exists X, simulate_nonlinear_anm ex_draws (AnmDraws (fun _ a b => inject_Z (Z.of_nat (a + b))) (fun _ b => inject_Z (Z.of_nat b))
    (fun _ _ => 1) (fun _ _ => 1) (fun _ _ => 1) (fun x => x) (fun x => x) (fun x => x))%Q ex_W 2 Gumbel (ScaleScalar 2) Mlp (Some 3) = Ok X /\
  map (map Qred) X = [[122; 2; 14]; [1202; 22; 134]]%Q.
Proof. eexists. split; vm_compute; reflexivity. Qed.

(* ---------- C53 ---------- *)
(** The weighted input that variable [j] gets from its parents in the [m] rows
    of [R] starting with row [s]. *)
Definition lag_input (R : list (list Q)) (As : list (list (list Q))) (n s j : nat) (u : nat -> Q) : Q :=
  sumQ (length As) (fun lag => sumQ n (fun i => qget R (s + lag) i * qget (nth lag As []) i j * u i)%Q).

(** Every row after the initial ones is a function of the parents in the
    preceding rows plus noise; the weights [ws s] of that function belong to
    the time step [s]. *)
Theorem C53_nonlinear_recurrence : forall d ws init n As ml len t a ft hidden,
  (forall x y, x == y -> d_sigmoid d x == d_sigmoid d y)%Q ->
  (forall s x y, x == y -> a_tanh (ws s) x == a_tanh (ws s) y /\ a_cos (ws s) x == a_cos (ws s) y /\ a_sin (ws s) x == a_sin (ws s) y)%Q ->
  additive t -> fits n a -> ml = None \/ ml = Some (length As) -> 0 < n -> ft = Mlp \/ ft = Mim ->
  let h := match hidden with None => 100 | Some h => h end in
  exists R, timelag_nonlinear d ws init n As ml (Some len) t a ft hidden = Ok R /\ table (length As + len) n R /\
    (forall lag j, lag < length As -> j < n -> qget R lag j = (init lag j * scale_of a j)%Q) /\
    forall s j, s < len -> j < n ->
      let noise := (d_noise d s j * scale_of a j)%Q in
      let inp := lag_input R As n s j in
      (ft = Mlp -> qget R (length As + s) j ==
         sumQ h (fun b => d_sigmoid d (inp (fun i => a_w1 (ws s) j i b)) * a_w2 (ws s) j b) + noise)%Q /\
      (ft = Mim -> qget R (length As + s) j ==
         a_tanh (ws s) (inp (a_v1 (ws s) j)) + a_cos (ws s) (inp (a_v2 (ws s) j)) + a_sin (ws s) (inp (a_v3 (ws s) j)) + noise)%Q.
Proof.
  intros d ws init n As ml len t a ft hidden Hsig Htri Ht Ha Hml Hn Hft h. apply additive_plain in Ht.
  destruct (scale_vec_ok n a Ha) as [sv [Es Hs]].
  unfold timelag_nonlinear. rewrite Ht.
  assert (Ef : rassert (match ft with OtherFunc => false | _ => true end) = Ok tt) by (destruct Hft; subst; auto).
  rewrite Ef.
  assert (Em : match ml with None => Ok (length As) | Some l => if Nat.eqb l (length As) then Ok l else Err ValueError end = Ok (length As)).
  { destruct Hml as [->| ->]; auto. rewrite Nat.eqb_refl. auto. }
  cbn [rbind rassert]. rewrite Em, Es. cbn [rbind].
  set (lags := map (fun lag => map (fun j => (init lag j * nth j sv 0)%Q) (seq 0 n)) (seq 0 (length As))).
  rewrite run_nonlinear_series.
  set (g := fun t0 lags0 => rbind (step_nonlinear d ws n t0 lags0 As sv ft hidden) (fun st => Ok (snd st))).
  pose (val s w j := match ft with
     | Mim => (a_tanh (ws s) (qsum (map (fun r => qdot r (map (a_v1 (ws s) j) (seq 0 n))) (masked n w As j))) +
               a_cos (ws s) (qsum (map (fun r => qdot r (map (a_v2 (ws s) j) (seq 0 n))) (masked n w As j))) +
               a_sin (ws s) (qsum (map (fun r => qdot r (map (a_v3 (ws s) j) (seq 0 n))) (masked n w As j))))%Q
     | _ => qdot (map (fun b => d_sigmoid d (qsum (map (fun r => qdot r (map (fun x => a_w1 (ws s) j x b) (seq 0 n))) (masked n w As j)))) (seq 0 h))
                 (map (a_w2 (ws s) j) (seq 0 h))
     end).
  assert (Eg : forall s w, g s w = Ok (vadd (map (val s w) (seq 0 n)) (map (fun j => (d_noise d s j * nth j sv 0)%Q) (seq 0 n)))).
  { intros s w. unfold g, step_nonlinear. rewrite (rmap_ok _ (val s w)); [reflexivity|].
    intros j _. unfold single_time_nonlinear, val. destruct (Nat.eqb_spec n 0); [lia|]. destruct Hft; subst ft; reflexivity. }
  destruct (series_total g len 0 lags lags) as [R HR].
  { intros s w. rewrite Eg. eauto. }
  exists R. split; auto.
  assert (Ll : length lags = length As) by (unfold lags; rewrite map_length, seq_length; auto).
  assert (Rl : forall r, In r lags -> length r = n).
  { intros r Hr. unfold lags in Hr. apply in_map_iff in Hr. destruct Hr as [x [<- _]]. rewrite map_length, seq_length. auto. }
  destruct (series_ok _ (length As) len 0 lags lags R Ll eq_refl HR) as [LR [F K]]. simpl in LR, F, K.
  assert (Hi : forall k, k < length As -> nth k R [] = nth k lags []).
  { intros k Hk. rewrite <- F. rewrite <- (firstn_skipn (length As) R) at 1. rewrite app_nth1; auto. rewrite firstn_length. lia. }
  assert (Wi : forall s k, s < len -> k < length As -> nth k (firstn (length As) (skipn s R)) [] = nth (s + k) R []).
  { intros s k Hs' Hk. transitivity (nth k (skipn s R) []).
    - rewrite <- (firstn_skipn (length As) (skipn s R)) at 2. rewrite app_nth1; auto. rewrite firstn_length, skipn_length. lia.
    - rewrite <- (firstn_skipn s R) at 2. rewrite app_nth2; rewrite firstn_length; [|lia]. f_equal. lia. }
  assert (Lw : forall s, s < len -> length (firstn (length As) (skipn s R)) = length As).
  { intros s Hs'. rewrite firstn_length, skipn_length. lia. }
  split; [|split].
  - split; [lia|]. intros r Hr. apply (In_nth _ _ []) in Hr. destruct Hr as [k [Hk <-]].
    destruct (Nat.lt_ge_cases k (length As)) as [Hl|Hl].
    + rewrite Hi by auto. apply Rl. apply nth_In. lia.
    + specialize (K (k - length As)). replace (length As + (k - length As)) with k in K by lia.
      rewrite Eg in K. assert (Hk' : k - length As < len) by lia. specialize (K Hk'). inversion K as [Kx].
      rewrite vadd_length; rewrite !map_length; rewrite ?seq_length; auto.
  - intros lag j Hlag Hj. unfold qget. rewrite Hi by auto. unfold lags. rewrite nth_map_seq by auto. rewrite nth_map_seq by auto.
    rewrite Hs by auto. auto.
  - intros s j Hs' Hj. specialize (K s Hs'). rewrite Eg in K. inversion K as [Kx]. clear K. cbv zeta. change (qget R (length As + s) j) with (nth j (nth (length As + s) R []) 0%Q). rewrite <- Kx.
    rewrite nth_vadd; [|rewrite !map_length; auto|rewrite map_length, seq_length; auto].
    rewrite !nth_map_seq by auto. rewrite Hs by auto.
    assert (In_ : forall u, (qsum (map (fun r => qdot r (map u (seq 0 n))) (masked n (firstn (length As) (skipn s R)) As j)) ==
                             lag_input R As n s j u)%Q).
    { intro u. rewrite masked_sum by auto. apply sumQ_ext. intros lag Hlag. apply sumQ_ext. intros i Hi'. rewrite Wi by auto. reflexivity. }
    split; intros ->; unfold val.
    + rewrite qdot_map, qsum_seq.
      rewrite (sumQ_ext h _ (fun b => d_sigmoid d (lag_input R As n s j (fun i => a_w1 (ws s) j i b)) * a_w2 (ws s) j b)%Q); [reflexivity|].
      intros b Hb. rewrite (Hsig _ _ (In_ (fun x => a_w1 (ws s) j x b))). reflexivity.
    + destruct (Htri s _ _ (In_ (a_v1 (ws s) j))) as [-> _]. destruct (Htri s _ _ (In_ (a_v2 (ws s) j))) as [_ [-> _]].
      destruct (Htri s _ _ (In_ (a_v3 (ws s) j))) as [_ [_ ->]]. reflexivity.
Qed.
Print Assumptions C53_nonlinear_recurrence.

(** The structural function is not the same at all times: a variable without
    parents and without noise, whose value should be constant, changes. *)
Definition constant_after (ml : nat) (R : list (list Q)) (j : nat) : Prop :=
  forall s s', ml <= s < length R -> ml <= s' < length R -> (qget R s j == qget R s' j)%Q.

Theorem C53_stationary_refuted : exists d ws init n As t R,
  (forall s j, d_noise d s j = 0%Q) /\ (forall lag i j, (qget (nth lag As []) i j == 0)%Q) /\
  timelag_nonlinear d ws init n As None (Some 2) t ScaleNone Mlp (Some 1) = Ok R /\ ~ constant_after (length As) R 0.
Proof.
  exists (Draws (fun _ _ => 0) (fun _ _ p => p) (fun _ _ m => m) (fun _ => 1 # 2) (fun x => x))%Q.
  exists (fun t => AnmDraws (fun _ _ _ => 1) (fun _ _ => inject_Z (Z.of_nat (1 + t))) (fun _ _ => 1) (fun _ _ => 1) (fun _ _ => 1) (fun _ => 0) (fun _ => 1) (fun _ => 0))%Q.
  exists (fun _ _ => 0%Q), 1, [[[0%Q]]], Gauss. eexists. split; [auto|]. split; [|split].
  - intros [|lag] i j; simpl; [|destruct lag; destruct i; destruct j; reflexivity].
    destruct i as [|[|i]]; destruct j as [|[|j]]; reflexivity.
  - vm_compute. reflexivity.
  - intro C. specialize (C 1 2). simpl in C. assert (H1 : 1 <= 1 < 3) by lia. assert (H2 : 1 <= 2 < 3) by lia.
    specialize (C H1 H2). vm_compute in C. discriminate.
Qed.
Print Assumptions C53_stationary_refuted.

Example C53_example :
  exists R, timelag_nonlinear ex_draws (fun _ => AnmDraws (fun _ a b => inject_Z (Z.of_nat (a + b))) (fun _ b => inject_Z (Z.of_nat b))
    (fun _ _ => 1) (fun _ _ => 1) (fun _ _ => 1) (fun x => x) (fun x => x) (fun x => x))%Q
    (fun lag j => inject_Z (Z.of_nat (1 + lag + j))) 2 [[[0; 1]; [1; 0]]; [[1; 0]; [0; 0]]]%Q (Some 2) (Some 2) Gauss ScaleNone Mlp (Some 2) = Ok R /\
  map (map Qred) R = [[1; 2]; [2; 3]; [6; 11]; [13; 13]]%Q.
Proof. eexists. split; vm_compute; reflexivity. Qed.

(* ---------- C54 ---------- *)
(** 'cos' is accepted as a function name but behaves like 'linear'. *)
Theorem C54_cos_is_linear : forall p e W ns t a f2 slope,
  simulate_pnl p e W ns t a (One Cos) f2 slope None = simulate_pnl p e W ns t a (One Linear) f2 slope None.
Proof. reflexivity. Qed.
Print Assumptions C54_cos_is_linear.

(** In the time series version the default [length=None] always fails. *)
Theorem C54_default_length_fails : forall p e init n As t a f1 f2 slope hidden,
  additive t -> fits n a -> accepted f1 = true -> accepted f2 = true ->
  exists x, timelag_pnl p e init n As None None t a f1 f2 slope hidden = Err x /\ (hidden = None -> x = TypeError).
Proof.
  intros p e init n As t a f1 f2 slope hidden Ht Ha H1 H2. apply additive_plain in Ht.
  destruct (scale_vec_ok n a Ha) as [sv [Es _]]. unfold timelag_pnl. rewrite Ht, H1, H2, Es. simpl.
  destruct hidden as [h|]; simpl; [|eauto].
  destruct (negb (Nat.eqb h n) && hidden_rejected f1 f2); simpl; eexists; split; try reflexivity; discriminate.
Qed.
Print Assumptions C54_default_length_fails.

(** A list of layers that starts with an activation and contains 'linear'
    later passes the checks, but never works with a hidden size different from
    the number of parents. *)
Lemma seq_width_fails : forall p c l1 l2 din dout slope h x, (forall l, In l l1 -> l = Tanh \/ l = LeakyRelu) ->
  width x <> h -> din = h \/ l1 <> [] ->
  exists er, pnl_seq p c (l1 ++ Linear :: l2) din dout slope h x = Err er.
Proof.
  intros p c l1. revert c. induction l1 as [|l l1 IH]; intros c l2 din dout slope h x Hl Hw Hd.
  - destruct Hd as [Hd|C]; [|contradiction]. simpl. unfold matmul. rewrite Hd.
    destruct (Nat.eqb_spec (width x) h); [contradiction|]. simpl. eauto.
  - simpl. assert (HL : has_linear (l1 ++ Linear :: l2) = true).
    { unfold has_linear. rewrite existsb_app. simpl. apply orb_true_r. }
    rewrite HL. assert (N : (match l with Linear => negb true | _ => false end) = false) by (destruct l; auto). rewrite N.
    destruct (Hl l (or_introl eq_refl)) as [->| ->]; simpl.
    + apply IH; [intros; apply Hl; right; auto|exact Hw|left; auto].
    + unfold leaky_relu. destruct (Qle_bool slope 0); simpl; [eauto|].
      destruct (Nat.eqb (width x) 0 || Nat.eqb (length (rows x)) 0); simpl; [eauto|].
      apply IH; [intros; apply Hl; right; auto|exact Hw|left; auto].
Qed.

Theorem C54_activation_first_fails : forall p e W ns t a l1 l2 f2 slope h j,
  l1 <> [] -> (forall l, In l l1 -> l = Tanh \/ l = LeakyRelu) ->
  j < length W -> parents_of W j <> [] -> length (parents_of W j) <> h ->
  exists er, simulate_pnl p e W ns t a (Many (l1 ++ Linear :: l2)) f2 slope (Some h) = Err er.
Proof.
  intros p e W ns t a l1 l2 f2 slope h j N1 Hl Hj Np Nh.
  destruct (simulate_pnl p e W ns t a (Many (l1 ++ Linear :: l2)) f2 slope (Some h)) as [X|er] eqn:H; [exfalso|eauto].
  unfold simulate_pnl in H.
  destruct (rassert (plain_noise t)); simpl in H; [|discriminate].
  destruct (rassert (forallb _ _ && _)); simpl in H; [|discriminate].
  destruct (scale_vec (length W) a) as [sv|]; simpl in H; [|discriminate].
  match goal with H : simulate_dag ?f W ns = _ |- _ => set (fn := f) in H end.
  destruct (simulate_dag_inv fn W ns X) as [_ [_ Fx]]; auto.
  { intros j' P vs Ev _. unfold fn in Ev. apply (single_pnl_length _ _ _ _ _ _ _ _ _ _ _ _ _ Ev). }
  destruct (Fx j Hj) as [vs [Ev _]]. unfold fn in Ev. unfold single_pnl in Ev.
  change (nx_predecessors (length W) (nonzero W) j) with (parents_of W j) in Ev.
  destruct (negb (Nat.eqb h (length (parents_of W j))) && hidden_rejected (Many (l1 ++ Linear :: l2)) f2); cbn [rbind] in Ev; [discriminate|].
  destruct (negb (plain_noise t)); [discriminate|].
  destruct (Nat.eqb_spec (length (parents_of W j)) 0) as [C|_]; [apply length_zero_iff_nil in C; contradiction|].
  cbn [pnl_func_sequential] in Ev.
  match type of Ev with context [pnl_seq ?p ?c ?l ?di ?do ?s ?h ?x] =>
    destruct (seq_width_fails p c l1 l2 di do s h x Hl) as [er Er]; [exact Nh|auto|] end.
  rewrite Er in Ev. cbn [rbind] in Ev. discriminate.
Qed.
Print Assumptions C54_activation_first_fails.

(** The case of the documentation: ['tanh', 'linear'] with hidden size 5 and
    one parent; with the sizes equal it works. *)
Example C54_example :
  let run h := simulate_pnl ex_pnl (fun j k b => inject_Z (Z.of_nat (j + 2 * k + b))) [[0; 1]; [0; 0]]%Q 2 Uniform
                 ScaleNone (Many [Tanh; Linear]) (One Linear) (1 # 5) (Some h) in
  accepted (Many [Tanh; Linear]) = true /\ parents_of [[0; 1]; [0; 0]]%Q 1 = [0] /\
  run 5 = Err ValueError /\ (exists X, run 1 = Ok X).
Proof. repeat split; try (vm_compute; reflexivity). eexists. vm_compute. reflexivity. Qed.

Example C54_length_example :
  timelag_pnl ex_pnl (fun j k b => inject_Z (Z.of_nat (j + 2 * k + b))) (fun _ _ => 1%Q) 2 [[[0; 1]; [0; 0]]]%Q None None Gauss
    ScaleNone (One Tanh) (One LeakyRelu) (1 # 5) None = Err TypeError /\
  exists R, timelag_pnl ex_pnl (fun j k b => inject_Z (Z.of_nat (j + 2 * k + b))) (fun _ _ => 1%Q) 2 [[[0; 1]; [0; 0]]]%Q None (Some 3) Gauss
    ScaleNone (One Tanh) (One LeakyRelu) (1 # 5) None = Ok R /\ length R = 4.
Proof. split; [vm_compute; reflexivity|]. eexists. split; vm_compute; reflexivity. Qed.
