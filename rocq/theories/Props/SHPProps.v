(** C34, C35, C51: the structure search of SHP. *)

From Coq Require Import List Arith Bool Lia ZArith QArith Lqa.
From Verif Require Import Model.Py Model.Graph Model.Networkx Model.SHP Spec.Digraphs.
From Verif Require Import Proofs.PyFacts Proofs.FinGraph Proofs.NumpyFacts Proofs.NxFacts Proofs.SHPFacts Proofs.SHPTerm.
Import ListNotations.
Open Scope nat_scope.

(* ---------- vocabulary ---------- *)
(** An n x n matrix. *)
Definition square (n : nat) (m : list (list Z)) : Prop :=
  length m = n /\ forall r, In r m -> length r = n.

(** An n x n matrix of zeros and ones. *)
Definition adjacency (n : nat) (m : list (list Z)) : Prop :=
  square n m /\ forall i j, mat_get m i j = 0%Z \/ mat_get m i j = 1%Z.

(** The edges of the graph of the off-diagonal entries. *)
Definition arrow (m : list (list Z)) (u v : nat) : Prop := u <> v /\ mat_get m u v <> 0%Z.

(** [m'] is [m] after adding, deleting or reversing the one edge between [j]
    and [i], or after removing an edge of the two-cycle between them. *)
Definition edit (n : nat) (m m' : list (list Z)) : Prop :=
  square n m' /\ exists j i, j < n /\ i < n /\ j <> i /\
    (forall a b, ~ (a = j /\ b = i) -> ~ (a = i /\ b = j) -> mat_get m' a b = mat_get m a b) /\
    let was x y := mat_get m j i = x /\ mat_get m i j = y in
    let is x y := mat_get m' j i = x /\ mat_get m' i j = y in
    (was 0 0 /\ is 1 0 \/ was 1 0 /\ is 0 0 \/ was 1 0 /\ is 0 1 \/ was 1 1 /\ (is 0 0 \/ is 1 0))%Z.

(** Scores: [None] is minus infinity. *)
Definition below (x y : option Q) : Prop :=
  match x, y with None, Some _ => True | Some a, Some b => (a < b)%Q | _, None => False end.
Definition at_most (x y : option Q) : Prop :=
  match x, y with None, _ => True | Some a, Some b => (a <= b)%Q | Some _, None => False end.

(** The score that EM returns for [g] without running a new fit. *)
Definition scores (o : shp) (s : shp_state) (g : list (list Z)) (L : option Q) : Prop :=
  exists s' alpha mu, EM 0 o s g = Ok (s', (L, alpha, mu)).

(** [b] is a best neighbour of [a], and better than [a]. *)
Definition best_step (o : shp) (s : shp_state) (a b : list (list Z)) : Prop :=
  edit (sh_n o) a b /\ exists x y, scores o s a x /\ scores o s b y /\ below x y /\
    forall c, edit (sh_n o) a c -> exists z, scores o s c z /\ at_most z y.

(** A search path from [a] to [c]; the list holds the graphs after [a]. *)
Inductive path (o : shp) (s : shp_state) : list (list Z) -> list (list (list Z)) -> list (list Z) -> Prop :=
| path_end : forall a, path o s a [] a
| path_step : forall a b l c, best_step o s a b -> path o s b l c -> path o s a (b :: l) c.

(* ---------- C35 ---------- *)
Theorem C35_check_DAG_exact : forall n m, square n m ->
  exists b, check_DAG m = Ok b /\ (b = true <-> acyclic (arrow m)).
Proof. intros n m H. apply (check_DAG_ok n m H). Qed.
Print Assumptions C35_check_DAG_exact.

(** Self loops are ignored, a three-cycle is found. *)
Example C35_example :
  check_DAG [[1; 1; 1]; [0; 1; 1]; [0; 0; 0]]%Z = Ok true /\
  check_DAG [[0; 1; 0]; [0; 0; 1]; [1; 0; 0]]%Z = Ok false.
Proof. split; vm_compute; reflexivity. Qed.

(* ---------- the neighbours ---------- *)
Lemma edit_iff : forall n m m', adjacency n m ->
  (edit n m m' <-> m' <> m /\ In m' (one_step_change_iterator n m)).
Proof.
  intros n m m' A. assert (A' := A). destruct A as [Sq Z]. rewrite in_iterator.
  assert (G : forall j i x y a b, j < n -> i < n -> j <> i ->
    mat_get (mat_set (mat_set m j i x) i j y) a b =
      if (Nat.eqb i a && Nat.eqb j b)%bool then y else if (Nat.eqb j a && Nat.eqb i b)%bool then x else mat_get m a b).
  { intros j i x y a b Hj Hi N. rewrite (mat_get_set n); auto; [|apply shape_mat_set; auto]. rewrite (mat_get_set n); auto. }
  split.
  - intros [Sq' [j [i [Hj [Hi [N [Fr W]]]]]]]. cbv zeta in W.
    assert (E : forall x y, mat_get m' j i = x -> mat_get m' i j = y -> m' = mat_set (mat_set m j i x) i j y).
    { intros x y Hx Hy. apply (zero_one_ext n); auto.
      { apply shape_mat_set; auto. apply shape_mat_set; auto. }
      intros a b Ha Hb. rewrite G by auto.
      destruct (Nat.eqb_spec i a) as [Q1|Q1], (Nat.eqb_spec j b) as [Q2|Q2], (Nat.eqb_spec j a) as [Q3|Q3], (Nat.eqb_spec i b) as [Q4|Q4];
        cbn [andb]; try congruence; apply Fr; intros [? ?]; congruence. }
    split.
    + intros ->. destruct W as [[[? ?] [? ?]]|[[[? ?] [? ?]]|[[[? ?] [? ?]]|[[? ?] [[? ?]|[? ?]]]]]]; congruence.
    + assert (J : Nat.eqb j i = false) by (apply Nat.eqb_neq; auto).
      destruct W as [[_ [X Y]]|[[_ [X Y]]|[[_ [X Y]]|[_ [[X Y]|[X Y]]]]]].
      * exists j, i, 1. repeat split; auto. unfold one_step_change. rewrite J. auto.
      * exists j, i, 0. repeat split; auto; try lia. unfold one_step_change. rewrite J. auto.
      * exists j, i, 2. repeat split; auto. unfold one_step_change. rewrite J. auto.
      * exists j, i, 0. repeat split; auto; try lia. unfold one_step_change. rewrite J. auto.
      * exists j, i, 1. repeat split; auto. unfold one_step_change. rewrite J. auto.
  - intros [Ne [j [i [t [Hj [Hi [Ht E]]]]]]]. 
    assert (N : j <> i). { intros ->. apply Ne. rewrite E. unfold one_step_change. rewrite Nat.eqb_refl. auto. }
    assert (J : Nat.eqb j i = false) by (apply Nat.eqb_neq; auto).
    assert (J' : Nat.eqb i j = false) by (apply Nat.eqb_neq; auto).
    assert (E' : exists x y, m' = mat_set (mat_set m j i x) i j y /\
              ((x = 0 /\ y = 0) \/ (x = 1 /\ y = 0) \/ (x = 0 /\ y = 1))%Z).
    { unfold one_step_change in E. rewrite J in E. destruct t as [|[|[|t]]]; try lia; eexists _, _; split; eauto. }
    clear E. destruct E' as [x [y [E XY]]].
    assert (Sq' : square n m'). { rewrite E. apply shape_mat_set; auto. apply shape_mat_set; auto. }
    assert (Gj : mat_get m' j i = x). { rewrite E, G by auto. rewrite J'. simpl. rewrite !Nat.eqb_refl. auto. }
    assert (Gi : mat_get m' i j = y). { rewrite E, G by auto. rewrite !Nat.eqb_refl. auto. }
    assert (Fr : forall a b, ~ (a = j /\ b = i) -> ~ (a = i /\ b = j) -> mat_get m' a b = mat_get m a b).
    { intros a b H1 H2. rewrite E, G by auto.
      destruct (Nat.eqb_spec i a) as [Q1|Q1], (Nat.eqb_spec j b) as [Q2|Q2], (Nat.eqb_spec j a) as [Q3|Q3], (Nat.eqb_spec i b) as [Q4|Q4];
        cbn [andb]; try congruence; exfalso; first [apply H2; split; congruence | apply H1; split; congruence]. }
    assert (Dif : ~ (mat_get m j i = x /\ mat_get m i j = y)).
    { intros [H1 H2]. apply Ne. apply (zero_one_ext n); auto. intros a b _ _.
      destruct (Nat.eq_dec a j) as [Q1|Q1], (Nat.eq_dec b i) as [Q2|Q2], (Nat.eq_dec a i) as [Q3|Q3], (Nat.eq_dec b j) as [Q4|Q4];
        try congruence; apply Fr; intros [? ?]; congruence. }
    split; auto.
    destruct (Z j i) as [Zj|Zj], (Z i j) as [Zi|Zi]; destruct XY as [[-> ->]|[[-> ->]|[-> ->]]]; try (exfalso; tauto).
    + exists j, i. split; auto. split; auto. split; auto. split; auto. cbv zeta. tauto.
    + exists i, j. split; auto. split; auto. split; auto. split; [intros; apply Fr; tauto|]. cbv zeta. tauto.
    + exists i, j. split; auto. split; auto. split; auto. split; [intros; apply Fr; tauto|]. cbv zeta. tauto.
    + exists i, j. split; auto. split; auto. split; auto. split; [intros; apply Fr; tauto|]. cbv zeta. tauto.
    + exists j, i. split; auto. split; auto. split; auto. split; auto. cbv zeta. tauto.
    + exists j, i. split; auto. split; auto. split; auto. split; auto. cbv zeta. tauto.
    + exists j, i. split; auto. split; auto. split; auto. split; auto. cbv zeta. tauto.
    + exists j, i. split; auto. split; auto. split; auto. split; auto. cbv zeta. tauto.
    + exists i, j. split; auto. split; auto. split; auto. split; [intros; apply Fr; tauto|]. cbv zeta. tauto.
Qed.

(* ---------- the score of the final table ---------- *)
Lemma em_nodes_present : forall o k m is t, (forall i, In i is -> lookup t i (Pa_of m i) <> None) ->
  exists rs, em_nodes 0 o k m t is = Ok (t, rs).
Proof.
  intros o k m is t. induction is as [|i is IH]; intros H.
  - exists []. auto.
  - destruct IH as [rs E]; [intros; apply H; simpl; auto|]. cbn [em_nodes]. unfold em_node.
    specialize (H i (or_introl eq_refl)). unfold lookup in H.
    destruct (dget key_eqb t (i, Pa_of m i)) as [[[L al] mu]|]; [|congruence]. cbn [rbind fst snd]. rewrite E. cbn [rbind]. eauto.
Qed.

Lemma scores_sc : forall o s m, adjacency (sh_n o) m -> present (sh_n o) (table s) m -> scores o s m (sc_of o (table s) m).
Proof.
  intros o s m A P.
  assert (E : exists s' r, EM 0 o s m = Ok (s', r) /\ table s' = table s).
  { unfold EM. destruct (check_DAG_ok _ m (proj1 A)) as [b [D _]]. rewrite D. cbn [rbind]. destruct b.
    - destruct (em_nodes_present o (draws s) m (seq 0 (sh_n o)) (table s)) as [rs E].
      { intros i Hi. apply in_seq in Hi. apply P; auto. lia. }
      rewrite E. cbn [rbind]. eexists _, _. split; reflexivity.
    - eexists _, _. split; reflexivity. }
  destruct E as [s' [[[L al] mu] [E T]]]. destruct (EM_ok _ _ _ _ _ _ A E) as [_ [_ [X _]]]. simpl in X. rewrite T in X.
  exists s', al, mu. rewrite E. subst L. auto.
Qed.

Lemma scores_fun : forall o s m x y, scores o s m x -> scores o s m y -> x = y.
Proof. intros o s m x y [s1 [a1 [m1 H1]]] [s2 [a2 [m2 H2]]]. congruence. Qed.

Lemma below_better : forall x y, below x y <-> better y x = true.
Proof.
  intros [x|] [y|].
  - rewrite better_spec. simpl. tauto.
  - simpl. split; [tauto|discriminate].
  - simpl. tauto.
  - simpl. split; [tauto|discriminate].
Qed.
Lemma at_most_better : forall x y, at_most x y <-> better x y = false.
Proof.
  intros [x|] [y|].
  - rewrite better_false. simpl. tauto.
  - simpl. split; [tauto|discriminate].
  - simpl. tauto.
  - simpl. tauto.
Qed.

Lemma climbs_path : forall o s a l c, climbs o (table s) a l c -> adjacency (sh_n o) a -> present (sh_n o) (table s) a ->
  path o s a l c /\ adjacency (sh_n o) c /\ Forall (fun m => adjacency (sh_n o) m /\ present (sh_n o) (table s) m /\ below (sc_of o (table s) a) (sc_of o (table s) m)) l
  /\ NoDup (a :: l).
Proof.
  intros o s a l c C. induction C as [a|a b l c M C IH]; intros A P.
  - split; [constructor|]. split; auto. split; auto. repeat constructor. intros [].
  - destruct M as [M1 [M2 M3]]. assert (Ab := iterator_zero_one _ _ _ A M1). destruct (M3 b M1) as [Pb _].
    destruct (IH Ab Pb) as [I1 [I2 [I3 I4]]].
    assert (F : Forall (fun m => adjacency (sh_n o) m /\ present (sh_n o) (table s) m /\ below (sc_of o (table s) a) (sc_of o (table s) m)) (b :: l)).
    { constructor; [split; auto; split; auto; apply below_better; auto|].
      eapply Forall_impl; [|exact I3]. intros m [Q1 [Q2 Q3]]. split; auto. split; auto.
      apply below_better. apply below_better in Q3. eapply better_trans; eauto. }
    split; [|split; auto; split; auto].
    + constructor; auto. split.
      * apply edit_iff; auto. split; auto. intros ->. rewrite better_irrefl in M2. discriminate.
      * exists (sc_of o (table s) a), (sc_of o (table s) b). split; [apply scores_sc; auto|]. split; [apply scores_sc; auto|].
        split; [apply below_better; auto|]. intros m Hm. apply edit_iff in Hm; auto. destruct Hm as [_ Hm].
        destruct (M3 m Hm) as [Pm Bm]. exists (sc_of o (table s) m). split; [apply scores_sc; auto; apply (iterator_zero_one _ a); auto|].
        apply at_most_better. auto.
    + constructor; auto. intro X. rewrite Forall_forall in F. destruct (F _ X) as [_ [_ Q]]. apply below_better in Q.
      rewrite better_irrefl in Q. discriminate.
Qed.

Lemma sc_finite : forall o t m, adjacency (sh_n o) m -> (sc_of o t m <> None <-> acyclic (arrow m)).
Proof.
  intros o t m A. unfold sc_of. destruct (check_DAG_ok _ m (proj1 A)) as [b [D Db]]. rewrite D. destruct b.
  - split; [intros _; apply Db; auto|discriminate].
  - split; [congruence|]. intro H. apply Db in H. discriminate.
Qed.

(* ---------- C34 ---------- *)
(** The search follows a path of best one-edge changes with strictly growing
    scores, ends where no one-edge change is better, and returns the score and
    the parameters of its last graph; no graph is visited twice. *)
Theorem C34_hill_climb : forall rounds fuel o s s' m L alpha mu,
  adjacency (sh_n o) (sh_init o) ->
  Hill_Climb rounds fuel o s = Ok (s', (m, (L, alpha, mu))) ->
  exists l, path o s' (sh_init o) l m /\ NoDup (sh_init o :: l) /\
    scores o s' m L /\
    (forall c, edit (sh_n o) m c -> exists z, scores o s' c z /\ at_most z L) /\
    Forall (fun g => acyclic (arrow g)) l /\
    (forall x, scores o s' (sh_init o) (Some x) -> acyclic (arrow (sh_init o))) /\
    length l < rounds.
Proof.
  intros rounds fuel o s s' m L alpha mu A H.
  destruct (Hill_Climb_ok _ _ _ _ _ _ A H) as [X1 [[Zm [Pm [Sm Am]]] [X3 [[l [X4 X5]] X6]]]]. simpl in *.
  destruct (climbs_path _ _ _ _ _ X4 A X3) as [Y1 [Y2 [Y3 Y4]]].
  exists l. split; auto. split; auto. split; [rewrite Sm; apply scores_sc; auto|]. split; [|split; [|split; auto]].
  - intros c Hc. apply edit_iff in Hc; auto. destruct Hc as [_ Hc]. destruct (X6 c Hc) as [Pc Bc].
    exists (sc_of o (table s') c). split; [apply scores_sc; auto; apply (iterator_zero_one _ m); auto|].
    apply at_most_better. rewrite Sm. auto.
  - eapply Forall_impl; [|exact Y3]. intros g [Q1 [Q2 Q3]]. apply (sc_finite o (table s') g Q1).
    intro N. rewrite N in Q3. destruct (sc_of o (table s') (sh_init o)); exact Q3.
  - intros x Hx. apply (sc_finite o (table s')); auto. intro N.
    assert (Q := scores_fun _ _ _ _ _ Hx (scores_sc o s' _ A X3)). congruence.
Qed.
Print Assumptions C34_hill_climb.

(** The fitted influences lie on the edges of the last graph; when the
    returned score is finite they form an acyclic graph up to self influence. *)
Theorem C34_influences_acyclic : forall rounds fuel o s s' m L alpha mu,
  adjacency (sh_n o) (sh_init o) ->
  Hill_Climb rounds fuel o s = Ok (s', (m, (Some L, alpha, mu))) ->
  (forall j i, ~ (nth j (nth i alpha []) 0 == 0)%Q -> mat_get m j i = 1%Z) /\
  acyclic (fun j i => j <> i /\ ~ (nth j (nth i alpha []) 0 == 0)%Q).
Proof.
  intros rounds fuel o s s' m L alpha mu A H.
  destruct (Hill_Climb_ok _ _ _ _ _ _ A H) as [X1 [[Zm [Pm [Sm Am]]] _]]. simpl in *.
  split; [intros j i; apply Am|].
  assert (Ac : acyclic (arrow m)) by (apply (sc_finite o (table s')); auto; congruence).
  intros u C. apply (Ac u).
  assert (M : forall a b, (a <> b /\ ~ (nth a (nth b alpha []) 0 == 0)%Q) -> arrow m a b).
  { intros a b [N Q]. split; auto. rewrite (Am b a Q). discriminate. }
  assert (D : forall a b, dpath (fun j i => j <> i /\ ~ (nth j (nth i alpha []) 0 == 0)%Q) a b -> dpath (arrow m) a b).
  { intros a b P. induction P; [constructor|]. econstructor; eauto. }
  inversion C; subst. econstructor; eauto.
Qed.
Print Assumptions C34_influences_acyclic.

(** The score: minus infinity exactly on cyclic graphs, otherwise the sum of
    the recorded local likelihoods minus the penalty. *)
Theorem C34_score : forall fuel o s g s' L alpha mu, adjacency (sh_n o) g ->
  EM fuel o s g = Ok (s', (L, alpha, mu)) ->
  (L = None <-> ~ acyclic (arrow g)) /\
  (forall q, L = Some q -> exists Ls : list Q, length Ls = sh_n o /\
     (forall i, i < sh_n o -> exists al mi, dget key_eqb (table s') (i, filter (fun j => Z.eqb (mat_get g j i) 1) (seq 0 (sh_n o))) = Some (nth i Ls 0%Q, al, mi)) /\
     (q == fold_right Qplus 0 Ls - inject_Z (Z.of_nat (sh_n o) + fold_right Z.add 0%Z (concat g)) * sh_factor o)%Q) /\
  (** recorded likelihoods are never changed *)
  (forall k e, dget key_eqb (table s) k = Some e -> dget key_eqb (table s') k = Some e).
Proof.
  intros fuel o s g s' L alpha mu A H. destruct (EM_ok _ _ _ _ _ _ A H) as [X1 [X2 [X3 X4]]]. simpl in *.
  split; [|split; auto].
  - rewrite X3. rewrite <- (sc_finite o (table s') g A). destruct (sc_of o (table s') g); split; intro N; try discriminate; auto.
    exfalso. apply N. discriminate.
  - intros q ->. unfold sc_of in X3. destruct (check_DAG g) as [[|]|] eqn:D; try discriminate. inversion X3; subst q. clear X3.
    exists (map (Lof (table s') g) (seq 0 (sh_n o))). split; [rewrite map_length, seq_length; auto|]. split.
    + intros i Hi. specialize (X2 D i Hi). unfold lookup, Pa_of in X2. destruct A as [[Lg _] _]. rewrite Lg in X2.
      destruct (dget key_eqb (table s') _) as [[[Li al] mi]|] eqn:Q; [|congruence].
      exists al, mi. do 3 f_equal.
      rewrite nth_indep with (d' := Lof (table s') g 0) by (rewrite map_length, seq_length; auto).
      rewrite map_nth, seq_nth by auto. simpl. unfold Lof, lookup, Pa_of. rewrite Lg, Q. auto.
    + assert (F : forall l a, (fold_left Qplus l a == a + fold_right Qplus 0 l)%Q).
      { induction l as [|x l IH]; intro a; simpl; [ring|]. rewrite IH. ring. }
      assert (Fz : forall l a, fold_left Z.add l a = (a + fold_right Z.add 0 l)%Z).
      { induction l as [|x l IH]; intro a; simpl; [lia|]. rewrite IH. lia. }
      unfold qsum, mat_sum. rewrite F, Fz. rewrite Z.add_0_l. ring.
Qed.
Print Assumptions C34_score.

(** The search terminates after at most 2^(n*n) rounds when the data are
    non-negative and the likelihoods are bounded above. *)
Theorem C34_terminates : forall o dt bound s,
  adjacency (sh_n o) (sh_init o) -> sh_interval o = Some dt -> (0 <= dt)%Q -> (0 <= sh_T o)%Q ->
  (forall r x, In r (sh_X o ++ sh_S o) -> In x r -> (0 <= x)%Q) -> (forall x, In x (sh_D o) -> (0 <= x)%Q) ->
  (forall k j i, (0 <= sh_rand o k j i)%Q) ->
  (forall i col mu, i < sh_n o -> (forall x, In x col -> (0 <= x)%Q) -> (0 <= mu)%Q -> (new_Li o i col mu <= bound)%Q) ->
  exists r fuel0, forall fuel, fuel0 <= fuel -> Hill_Climb (2 ^ (sh_n o * sh_n o)) fuel o s = Ok r.
Proof.
  intros o dt bound s A I Hdt HT HX HD HR HB.
  assert (NN : forall l, (forall x, In x l -> (0 <= x)%Q) -> nonneg l).
  { intros l H j. destruct (Nat.lt_ge_cases j (length l)); [apply H, nth_In; auto|]. rewrite nth_overflow by auto. lra. }
  apply (Hill_Climb_settles o dt I) with (B := bound); auto.
  - intro i. apply NN. intros x Hx. unfold qcol in Hx. apply in_map_iff in Hx. destruct Hx as [r [<- Hr]].
    destruct (Nat.lt_ge_cases i (length r)); [apply (HX r); [apply in_app_iff; auto|apply nth_In; auto]|]. rewrite nth_overflow by auto. lra.
  - intros r Hr. apply NN. intros x Hx. apply (HX r); auto. apply in_app_iff. auto.
  - intros i col mu Hi Hc Hm. apply HB; auto. intros x Hx. eapply in_nonneg; eauto.
Qed.
Print Assumptions C34_terminates.

(** Two event types; the second is triggered by the first. *)
Definition ex_shp : shp := Shp 2
  [[1; 0]; [0; 2]]%Q [[1; 0]; [2; 0]]%Q [4; 4]%Q 1%Q 1%Q (Some 1%Q) (1 # 2)%Q
  (fun x => if Qle_bool x 1 then 0%Q else 1%Q) (fun _ _ _ => 1%Q) (zeros 2).

Lemma ex_shp_init : adjacency (sh_n ex_shp) (sh_init ex_shp).
Proof.
  split; [split; auto; intros r [<-|[<-|[]]]; auto|]. intros i j. left. destruct i as [|[|i]], j as [|[|j]]; vm_compute; auto; try (destruct i; auto); destruct j; auto.
Qed.

Example C34_example :
  adjacency (sh_n ex_shp) (sh_init ex_shp) /\
  match Hill_Climb 5 4 ex_shp (St [] 0) with
  | Ok (_, (m, (Some L, alpha, _))) => m = [[0; 1]; [0; 0]]%Z /\ (L == -7 # 4)%Q /\ map (map Qred) alpha = [[0; 0]; [1 # 4; 0]]%Q
  | _ => False
  end.
Proof.
  split.
  - apply ex_shp_init.
  - vm_compute. repeat split; reflexivity.
Qed.

(** The hypotheses of [C34_terminates] hold for it. *)
Example C34_terminates_example : exists r fuel0, forall fuel, fuel0 <= fuel -> Hill_Climb (2 ^ (sh_n ex_shp * sh_n ex_shp)) fuel ex_shp (St [] 0) = Ok r.
Proof.
  refine (C34_terminates ex_shp 1%Q 3%Q (St [] 0) ex_shp_init eq_refl _ _ _ _ _ _).
  - unfold Qle; simpl; lia.
  - unfold Qle; simpl; lia.
  - intros r x Hr Hx. simpl in Hr. destruct Hr as [<-|[<-|[<-|[<-|[]]]]]; simpl in Hx; destruct Hx as [<-|[<-|[]]]; unfold Qle; simpl; lia.
  - intros x [<-|[<-|[]]]; unfold Qle; simpl; lia.
  - intros; unfold Qle; simpl; lia.
  - intros i col mu Hi Hc Hm. unfold new_Li. cbv zeta.
    match goal with |- (- (?a + ?b) + ?c <= 3)%Q => assert (Ha : (0 <= a)%Q); [|assert (Hb : (0 <= b)%Q); [|assert (Hd : (c <= 3)%Q); [|lra]]] end.
    + apply qsum_nonneg. intros x Hx. apply in_map_iff in Hx. destruct Hx as [[p q] [<- Hx]]. simpl.
      apply Qmult_le_0_compat; [|apply Hc; eapply in_combine_r; eauto].
      apply in_combine_l in Hx. simpl in Hx. destruct Hx as [<-|[<-|[]]]; vm_compute; discriminate.
    + simpl sh_T. lra.
    + simpl in Hi.
      assert (St1 : forall x, (0 <= sh_log ex_shp x <= 1)%Q) by (intro x; simpl; destruct (Qle_bool x 1); lra).
      unfold lambda_for. simpl sh_S. cbn [map]. 
      match goal with |- context[combine ?c [?x; ?y]] => generalize x as u, y as v end. intros u v.
      assert (Hu := St1 u). assert (Hv := St1 v). destruct i as [|[|i]]; [| |lia]; unfold qsum; cbn; cbn in Hu, Hv;
        destruct (Qle_bool u 1); destruct (Qle_bool v 1); vm_compute; discriminate.
Qed.

(* ---------- C51 ---------- *)
(** Without a time interval (the default of the constructor) no graph with an
    edge can be scored and the search from the empty graph (also the default)
    fails for every data set with two or more event types. *)
Theorem C51_default_interval_fails : forall rounds fuel o s,
  (forall x y, (x == y)%Q -> (sh_log o x == sh_log o y)%Q) ->
  sh_interval o = None -> sh_init o = zeros (sh_n o) -> 2 <= sh_n o -> table s = [] ->
  1 <= rounds -> 3 <= fuel ->
  Hill_Climb rounds fuel o s = Err TypeError.
Proof.
  intros rounds fuel o s Lg I In Hn T Hr Hf. apply Hill_Climb_type_error; auto.
  intros i Pa e H. rewrite T in H. discriminate.
Qed.
Print Assumptions C51_default_interval_fails.

Theorem C51_no_edge_can_be_scored : forall fuel o s g u v,
  (forall x y, (x == y)%Q -> (sh_log o x == sh_log o y)%Q) ->
  sh_interval o = None -> table s = [] -> 3 <= fuel -> adjacency (sh_n o) g ->
  acyclic (arrow g) -> arrow g u v ->
  EM fuel o s g = Err TypeError.
Proof.
  intros fuel o s g u v Lg I T Hf A Ac [N E]. destruct A as [Sq Z].
  apply (EM_type_error o Lg I fuel s g v u); auto.
  - split; auto.
  - intros i Pa e H. rewrite T in H. discriminate.
  - destruct (Nat.lt_ge_cases v (sh_n o)); auto. exfalso. apply E. apply (mat_get_out (sh_n o)); auto.
  - destruct (Z u v); auto. congruence.
Qed.
Print Assumptions C51_no_edge_can_be_scored.

Definition ex_default : shp := Shp 2
  [[1; 0]; [0; 2]]%Q [[1; 0]; [2; 0]]%Q [4; 4]%Q 1%Q 1%Q None (1 # 2)%Q
  (fun x => if Qle_bool x 1 then 0%Q else 1%Q) (fun _ _ _ => 1%Q) (zeros 2).

Example C51_example :
  (forall x y, (x == y)%Q -> (sh_log ex_default x == sh_log ex_default y)%Q) /\
  Hill_Climb 1 3 ex_default (St [] 0) = Err TypeError.
Proof.
  split.
  - intros x y H. simpl. assert (Qle_bool x 1 = Qle_bool y 1) as ->; [|reflexivity].
    destruct (Qle_bool x 1) eqn:Q1, (Qle_bool y 1) eqn:Q2; auto.
    + apply Qle_bool_iff in Q1. rewrite H in Q1. apply Qle_bool_iff in Q1. congruence.
    + apply Qle_bool_iff in Q2. rewrite <- H in Q2. apply Qle_bool_iff in Q2. congruence.
  - vm_compute. reflexivity.
Qed.
