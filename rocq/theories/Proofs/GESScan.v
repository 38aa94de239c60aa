(** GES: validity tests, operator scores and the scans over all operators. *)

From Coq Require Import List Arith Bool Lia ZArith QArith Sorted Permutation.
From Verif Require Import Model.Py Model.Graph Model.DiGraph Model.PDAG Model.Pdag2Dag Model.GES.
From Verif Require Import Spec.API Spec.GESSpec.
From Verif Require Import Proofs.PyFacts Proofs.GraphFacts Proofs.DiGraphFacts Proofs.HistoryFacts Proofs.NumpyFacts Proofs.EdgeFacts
  Proofs.PDAGFacts Proofs.MeekFacts Proofs.Pdag2DagFacts Proofs.GESSubsets Proofs.GESPaths.
Import ListNotations.
Open Scope nat_scope.

(** Iteration orders of Python sets. *)
Definition set_order (ord : list nat -> list nat) : Prop :=
  forall s, NoDup s -> NoDup (ord s) /\ forall x, In x (ord s) <-> In x s.

Lemma Combinatorial_listing : forall t T, StronglySorted lt t ->
  (In T (Combinatorial t) <-> listing T /\ incl T t).
Proof.
  intros t T S. rewrite Combinatorial_In by (apply sorted_NoDup; auto). split.
  - intros [f ->]. split; [apply sorted_filter; auto|]. intros x Hx. apply filter_In in Hx. tauto.
  - intros [L I]. exists (fun x => memb x T). apply sorted_ext; auto; [apply sorted_filter; auto|].
    intro x. rewrite filter_In, memb_In. split; [auto|tauto].
Qed.

Lemma blocked_ext : forall g j i (A B : nat -> Prop), (forall x, A x <-> B x) -> (blocked g j i A <-> blocked g j i B).
Proof.
  intros g j i A B E. split; intros H p Hp; destruct (H p Hp) as [x [H1 [H2 H3]]]; exists x; split; auto; split; auto; apply E; auto.
Qed.
Lemma clique_ext : forall g (A B : nat -> Prop), (forall x, A x <-> B x) -> (clique g A <-> clique g B).
Proof. intros g A B E. split; intros H a b Ha Hb; apply H; apply E; auto. Qed.

Section Tests.
  Variable g : graph.
  Hypothesis P : PG g.
  Hypothesis NL : forall u, ~ conp g u u.
  Let n := vars g.
  Let nd := name g.
  Let W : WF g := pg_wf g P.

  Lemma adj_i_p : forall a b, adj_i g a b <-> conp g (nd a) (nd b).
  Proof using P. intros. apply connected_p. auto. Qed.
  Lemma und_i_p : forall a b, und_i g a b <-> undp g (nd a) (nd b).
  Proof using P. intros. apply undirected_p. auto. Qed.

  Lemma adjacent_at_ok : forall i, i < n -> exists l, adjacent_at g i = Ok l /\ forall k, In k l <-> k < n /\ adj_i g i k.
  Proof using P.
    intros i Hi. unfold adjacent_at, np_where.
    rewrite (filterE_ok _ (fun k => connb g (nd i) (nd k))).
    2:{ intros k Hk. apply in_seq in Hk. unfold number_of_nodes, nodes in Hk. apply (conn_at g P); auto. lia. }
    eexists. split; [reflexivity|]. intro k. rewrite filter_In, in_seq, connb_true, adj_i_p.
    unfold number_of_nodes. fold n. unfold conp, n, vars. intuition lia.
  Qed.

  Lemma parents_at_ok : forall j, j < n -> exists l, parents_at g j = Ok l /\ lists l (fun x => x < n /\ arrow_i g x j).
  Proof using P.
    intros j Hj. unfold parents_at, np_where.
    rewrite (filterE_ok _ (fun k => markb Arrow g (nd k) (nd j))).
    2:{ intros k Hk. apply in_seq in Hk. unfold number_of_nodes, nodes in Hk. apply (arrow_at g P); auto. lia. }
    eexists. split; [reflexivity|]. split; [apply NoDup_filter, seq_NoDup|].
    intro k. rewrite filter_In, in_seq, (markb_p g). unfold number_of_nodes. fold (vars g). fold n.
    split.
    - intros [H1 H2]. split; [lia|]. apply arrow_i_mk; auto; unfold n in *; lia.
    - intros [H1 H2]. split; [lia|]. apply arrow_i_mk in H2; auto.
  Qed.

  Lemma neighbours_ok : forall j, j < n -> exists l, tails_at g j = Ok l /\ StronglySorted lt l /\
    forall k, In k l <-> k < n /\ und_i g j k.
  Proof using P.
    intros j Hj. destruct (tails_at_ok g P j Hj) as [l [E H]]. exists l. split; auto.
    split; [eapply tails_at_sorted; eauto|]. intro k. rewrite H, und_i_p. unfold n, vars, nd, name, nodes. tauto.
  Qed.

  Lemma na_yx_ok : forall i j, i < n -> j < n -> exists l, na_yx g i j = Ok l /\ StronglySorted lt l /\
    forall x, In x l <-> NA g i j x.
  Proof using P.
    intros i j Hi Hj. unfold na_yx. destruct (neighbours_ok j Hj) as [t [Et [_ Ht]]]. rewrite Et. cbn [rbind].
    destruct (adjacent_at_ok i Hi) as [a [Ea Ha]]. rewrite Ea. cbn [rbind].
    eexists. split; [reflexivity|]. split; [apply np_unique_sorted|].
    intro x. rewrite np_intersect1d_In, Ht, Ha. unfold NA. fold n. tauto.
  Qed.

  Lemma clique_test : forall S, NoDup S -> (forall a, In a S -> a < n) ->
    exists b, check_clique g S = Ok b /\ (b = true <-> clique g (fun x => In x S)).
  Proof using P.
    intros S ND HS. destruct (check_clique_ok g P S ND HS) as [b [E H]]. exists b. split; auto. rewrite H.
    unfold clique. split; intros Q x y Hx Hy N; [apply adj_i_p|apply adj_i_p]; apply Q; auto.
  Qed.

  Lemma test1_ok : forall i j T, i < n -> j < n -> (forall x, In x T -> x < n) ->
    exists b, Insert_validity_test1 g i j T = Ok b /\ (b = true <-> clique g (fun x => NA g i j x \/ In x T)).
  Proof using P.
    intros i j T Hi Hj HT. unfold Insert_validity_test1. destruct (na_yx_ok i j Hi Hj) as [na [E [_ Hna]]]. rewrite E. cbn [rbind].
    destruct (clique_test (np_union1d na T)) as [b [Eb Hb]].
    - apply sorted_NoDup, np_unique_sorted.
    - intros a Ha. apply np_union1d_In in Ha. destruct Ha as [Ha|Ha]; auto. apply Hna in Ha. destruct Ha. auto.
    - exists b. split; auto. rewrite Hb. apply clique_ext. intro x. rewrite np_union1d_In, Hna. tauto.
  Qed.

  Lemma test2_ok : forall i j T, i < n -> j < n ->
    exists b, Insert_validity_test2 g i j T = Ok b /\ (b = true <-> blocked g j i (fun x => NA g i j x \/ In x T)).
  Proof using P NL.
    intros i j T Hi Hj. unfold Insert_validity_test2. destruct (na_yx_ok i j Hi Hj) as [na [E [_ Hna]]]. rewrite E. cbn [rbind].
    destruct (vC2_ok g P NL j i (np_union1d na T) Hj) as [b [Eb Hb]]. exists b. split; auto.
    rewrite Hb, blocked_iff by auto. apply blocked_ext. intro x. rewrite np_union1d_In, Hna. tauto.
  Qed.

  Variable ord : list nat -> list nat.
  Hypothesis Ho : set_order ord.

  Lemma dtest_ok : forall i j H, i < n -> j < n ->
    exists b, Delete_validity_test ord g i j H = Ok b /\ (b = true <-> delete_valid g i j H).
  Proof using P Ho.
    intros i j H Hi Hj. unfold Delete_validity_test. destruct (na_yx_ok i j Hi Hj) as [na [E [Sn Hna]]]. rewrite E. cbn [rbind].
    set (s := filter (fun x => negb (memb x H)) (py_set na)).
    assert (Hs : forall x, In x s <-> NA g i j x /\ ~ In x H).
    { intro x. unfold s. rewrite filter_In, py_set_In, Hna, negb_true_iff, memb_false. tauto. }
    destruct (Ho s) as [Nd Hin]; [apply NoDup_filter, py_set_NoDup|].
    destruct (clique_test (ord s)) as [b [Eb Hb]]; auto.
    - intros a Ha. apply Hin, Hs in Ha. destruct Ha as [[Ha _] _]. auto.
    - exists b. split; auto. rewrite Hb. apply clique_ext. intro x. rewrite Hin, Hs. tauto.
  Qed.
End Tests.

(* ---------- the memo table ---------- *)
Lemma zs_In : forall l z, In z (zs l) <-> exists x, z = Z.of_nat x /\ In x l.
Proof.
  intros. unfold zs. rewrite in_map_iff. split; intros [x [H1 H2]]; exists x; auto.
Qed.
Lemma zs_In_nat : forall l x, In (Z.of_nat x) (zs l) <-> In x l.
Proof.
  intros. rewrite zs_In. split; [|intro H; exists x; auto]. intros [y [E H]]. apply Nat2Z.inj in E. subst. auto.
Qed.
Lemma zs_neg : forall l, ~ In (-1)%Z (zs l).
Proof. intros l H. apply zs_In in H. destruct H as [x [E _]]. lia. Qed.

Lemma zmem_In : forall x l, zmem x l = true <-> In x l.
Proof.
  intros. unfold zmem. rewrite existsb_exists. split.
  - intros [y [H E]]. apply Z.eqb_eq in E. subst. auto.
  - intro H. exists x. split; auto. apply Z.eqb_refl.
Qed.
Lemma same_set_iff : forall a b, same_set a b = true <-> forall x, In x a <-> In x b.
Proof.
  intros a b. unfold same_set. rewrite andb_true_iff, !forallb_forall. split.
  - intros [H1 H2] x. split; intro H; apply zmem_In; auto.
  - intro H. split; intros x Hx; apply zmem_In; apply H; auto.
Qed.
Lemma same_set_zs : forall a b, same_set (zs a) (zs b) = true <-> forall x, In x a <-> In x b.
Proof.
  intros a b. rewrite same_set_iff. split.
  - intros H x. rewrite <- !zs_In_nat. auto.
  - intros H z. rewrite !zs_In. split; intros [x [E Hx]]; exists x; split; auto; apply H; auto.
Qed.

(** Every recorded score is the local score of the recorded set. *)
Definition memo_ok (sf : lscore) (n : nat) (m : memo) : Prop :=
  length m = n /\ forall j ps s, j < n -> In (ps, s) (nth j m []) ->
    (ps = [(-1)%Z] /\ s = sf j []) \/ exists l, ps = zs l /\ s = sf j l.

Lemma memo_start : forall sf n, memo_ok sf n (repeat [] n).
Proof.
  intros sf n. split; [apply repeat_length|]. intros j ps s Hj H. rewrite nth_repeat' in H. destruct H.
Qed.

Lemma memo_add_ok : forall sf n m j e, memo_ok sf n m -> j < n ->
  (fst e = [(-1)%Z] /\ snd e = sf j []) \/ (exists l, fst e = zs l /\ snd e = sf j l) -> memo_ok sf n (memo_add m j e).
Proof.
  intros sf n m j e [L H] Hj He. split; [unfold memo_add; rewrite NumpyFacts.set_nth_length; auto|].
  intros k ps s Hk Hin. unfold memo_add in Hin. rewrite nth_set_nth in Hin by lia.
  destruct (Nat.eqb_spec j k) as [<-|N]; [|eauto]. apply in_app_iff in Hin. destruct Hin as [Hin|[Hin|[]]]; [eauto|].
  subst e. exact He.
Qed.

Lemma find_scores_ok : forall m1 m2 (Q1 Q2 : Q -> Prop) r a b f1 f2,
  (forall ps s, In (ps, s) r -> m1 ps = true -> Q1 s) -> (forall ps s, In (ps, s) r -> m2 ps = true -> Q2 s) ->
  (forall s, a = Some s -> Q1 s) -> (forall s, b = Some s -> Q2 s) ->
  find_scores m1 m2 r a b = (f1, f2) -> (forall s, f1 = Some s -> Q1 s) /\ (forall s, f2 = Some s -> Q2 s).
Proof.
  intros m1 m2 Q1 Q2 r. induction r as [|[ps s] r IH]; intros a b f1 f2 H1 H2 Ha Hb E; simpl in E.
  - inversion E; subst. auto.
  - assert (Ha' : forall t, (if m1 ps then Some s else a) = Some t -> Q1 t).
    { intros t. destruct (m1 ps) eqn:M; auto. intro X. inversion X; subst. eapply H1; eauto. simpl; auto. }
    assert (Hb' : forall t, (if m2 ps then Some s else b) = Some t -> Q2 t).
    { intros t. destruct (m2 ps) eqn:M; auto. intro X. inversion X; subst. eapply H2; eauto. simpl; auto. }
    destruct (if m1 ps then Some s else a) as [x|] eqn:X; destruct (if m2 ps then Some s else b) as [y|] eqn:Y.
    + inversion E; subst. auto.
    + eapply (IH (Some x) None); eauto; intros; [eapply H1|eapply H2]; eauto; simpl; eauto.
    + eapply (IH None (Some y)); eauto; intros; [eapply H1|eapply H2]; eauto; simpl; eauto.
    + eapply (IH None None); eauto; intros; [eapply H1|eapply H2]; eauto; simpl; eauto.
Qed.

Lemma changed_score_ok : forall sf n m j l1 l2, set_score sf -> memo_ok sf n m -> j < n ->
  fst (changed_score sf m j l1 l2) = (sf j l1 - sf j l2)%Q /\ memo_ok sf n (snd (changed_score sf m j l1 l2)).
Proof.
  intros sf n m j l1 l2 HS HM Hj. unfold changed_score.
  set (m1 := fun ps => same_set ps (zs l1)).
  set (m2 := fun ps => (same_set ps (zs l2) || (same_set ps [(-1)%Z] && Nat.eqb (length l2) 0))%bool).
  destruct (find_scores m1 m2 (nth j m []) None None) as [f1 f2] eqn:E.
  assert (M1 : forall ps s l, In (ps, s) (nth j m []) -> same_set ps (zs l) = true -> s = sf j l).
  { intros ps s l Hin Q. destruct (proj2 HM j ps s Hj Hin) as [[-> ->]|[l' [-> ->]]].
    - exfalso. rewrite same_set_iff in Q. apply (zs_neg l). apply Q. simpl; auto.
    - apply HS. apply same_set_zs. auto. }
  destruct (find_scores_ok m1 m2 (fun s => s = sf j l1) (fun s => s = sf j l2) (nth j m []) None None f1 f2) as [F1 F2]; auto;
    try discriminate.
  { intros ps s Hin Q. eapply M1; eauto. }
  { intros ps s Hin Q. unfold m2 in Q. apply orb_true_iff in Q. destruct Q as [Q|Q]; [eapply M1; eauto|].
    apply andb_true_iff in Q. destruct Q as [Q1 Q2]. destruct l2; [|discriminate].
    destruct (proj2 HM j ps s Hj Hin) as [[-> ->]|[l' [-> ->]]]; auto.
    exfalso. rewrite same_set_iff in Q1. apply (zs_neg l'). apply Q1. simpl; auto. }
  assert (R1 : exists ma, (match f1 with Some s => (s, m) | None => (sf j l1, memo_add m j (zs l1, sf j l1)) end) = (sf j l1, ma) /\ memo_ok sf n ma).
  { destruct f1 as [s|].
    - exists m. rewrite (F1 s eq_refl). auto.
    - eexists. split; [reflexivity|]. apply memo_add_ok; auto. right. exists l1. auto. }
  destruct R1 as [ma [-> Hma]].
  assert (R2 : exists mb, (match f2 with Some s => (s, ma)
     | None => (sf j l2, memo_add ma j (if Nat.eqb (length l2) 0 then [(-1)%Z] else zs l2, sf j l2)) end) = (sf j l2, mb) /\ memo_ok sf n mb).
  { destruct f2 as [s|].
    - exists ma. rewrite (F2 s eq_refl). auto.
    - eexists. split; [reflexivity|]. apply memo_add_ok; auto. cbn [fst snd].
      destruct l2; simpl; [left; auto|right; exists (n0 :: l2); auto]. }
  destruct R2 as [mb [-> Hmb]]. cbn [fst snd]. auto.
Qed.

Section Scores.
  Variable g : graph.
  Hypothesis P : PG g.
  Let n := vars g.
  Variable sf : lscore.

  Lemma insert_score_total : forall i j T m, i < n -> j < n -> exists r, Insert_changed_score g i j T m sf = Ok r.
  Proof using P.
    intros i j T m Hi Hj. unfold Insert_changed_score.
    destruct (na_yx_ok g P i j Hi Hj) as [na [E _]]. rewrite E. cbn [rbind].
    destruct (parents_at_ok g P j Hj) as [pa [E' _]]. rewrite E'. cbn [rbind]. eauto.
  Qed.

  Lemma insert_score_ok : forall i j T m, i < n -> j < n -> set_score sf -> memo_ok sf n m ->
    exists q m', Insert_changed_score g i j T m sf = Ok (q, m') /\ memo_ok sf n m' /\ insert_gain sf g i j T q.
  Proof using P.
    intros i j T m Hi Hj HS HM. unfold Insert_changed_score.
    destruct (na_yx_ok g P i j Hi Hj) as [na [E [_ Hna]]]. rewrite E. cbn [rbind].
    destruct (parents_at_ok g P j Hj) as [pa [E' [_ Hpa]]]. rewrite E'. cbn [rbind].
    set (t2 := np_union1d (np_union1d na T) pa). set (t3 := np_union1d t2 [i]).
    destruct (changed_score_ok sf n m j t3 t2 HS HM Hj) as [Q1 Q2].
    destruct (changed_score sf m j t3 t2) as [q m']. cbn [fst snd] in *. exists q, m'. split; auto. split; auto.
    exists t2. split.
    - split; [apply sorted_NoDup, np_unique_sorted|]. intro x. unfold t2. rewrite !np_union1d_In, Hna, Hpa. tauto.
    - rewrite Q1. f_equal. apply HS. intro x. unfold t3. rewrite np_union1d_In. simpl. tauto.
  Qed.

  Variable ord : list nat -> list nat.
  Hypothesis Ho : set_order ord.

  Lemma delete_score_total : forall i j H m, i < n -> j < n -> exists r, Delete_changed_score ord g i j H m sf = Ok r.
  Proof using P.
    intros i j H m Hi Hj. unfold Delete_changed_score.
    destruct (na_yx_ok g P i j Hi Hj) as [na [E _]]. rewrite E. cbn [rbind].
    destruct (parents_at_ok g P j Hj) as [pa [E' _]]. rewrite E'. cbn [rbind]. eauto.
  Qed.

  Lemma delete_score_ok : forall i j H m, i < n -> j < n -> set_score sf -> memo_ok sf n m ->
    exists q m', Delete_changed_score ord g i j H m sf = Ok (q, m') /\ memo_ok sf n m' /\ delete_gain sf g i j H q.
  Proof using P Ho.
    intros i j H m Hi Hj HS HM. unfold Delete_changed_score.
    destruct (na_yx_ok g P i j Hi Hj) as [na [E [_ Hna]]]. rewrite E. cbn [rbind].
    destruct (parents_at_ok g P j Hj) as [pa [E' [_ Hpa]]]. rewrite E'. cbn [rbind].
    set (t1 := filter (fun x => negb (memb x H)) (py_set na)).
    set (t2 := set_union t1 (py_set (np_union1d pa [i]))).
    set (t3 := filter (fun x => negb (Nat.eqb x i)) t2).
    assert (N2 : NoDup t2) by (apply set_union_NoDup, NoDup_filter, py_set_NoDup).
    assert (N3 : NoDup t3) by (apply NoDup_filter; auto).
    assert (H2 : forall x, In x t2 <-> (NA g i j x /\ ~ In x H) \/ (x < n /\ arrow_i g x j) \/ x = i).
    { intro x. unfold t2, t1. rewrite set_union_In, filter_In, !py_set_In, np_union1d_In, Hna, Hpa, negb_true_iff, memb_false.
      simpl. assert (i = x <-> x = i) by (split; auto). tauto. }
    assert (H3 : forall x, In x t3 <-> In x t2 /\ x <> i).
    { intro x. unfold t3. rewrite filter_In, negb_true_iff, Nat.eqb_neq. tauto. }
    destruct (Ho t2 N2) as [O2 I2]. destruct (Ho t3 N3) as [O3 I3].
    destruct (changed_score_ok sf n m j (ord t3) (ord t2) HS HM Hj) as [Q1 Q2].
    destruct (changed_score sf m j (ord t3) (ord t2)) as [q m']. cbn [fst snd] in *. exists q, m'. split; auto. split; auto.
    exists (ord t3). split.
    - split; auto. intro x. rewrite I3, H3, H2. fold n. tauto.
    - rewrite Q1. f_equal. apply HS. intro x. rewrite I2. simpl. rewrite I3, H3, H2.
      assert (i = x <-> x = i) by (split; auto). destruct (Nat.eq_dec x i); tauto.
  Qed.
End Scores.

(* ---------- scans ---------- *)
Lemma set_where_length : forall idx x s, length (set_where idx x s) = length s.
Proof. induction idx as [|b idx IH]; intros x [|y s]; simpl; auto. Qed.
Lemma set_where_nth : forall idx x s k, length idx = length s -> k < length s ->
  nth k (set_where idx x s) 0 = if nth k idx false then x else nth k s 0.
Proof.
  induction idx as [|b idx IH]; intros x [|y s] k L H; simpl in *; try lia.
  destruct k; [destruct b; auto|]. apply IH; lia.
Qed.

Lemma Qlt_of_Qle_bool : forall a b, Qle_bool a b = false -> (b < a)%Q.
Proof.
  intros a b H. apply Qnot_le_lt. intro Q. apply Qle_bool_iff in Q. congruence.
Qed.

(** The running maximum. *)
Definition best_ok (s : scan) : Prop :=
  (forall op q, In (op, q) (sc_evals s) -> (q <= sc_max s)%Q) /\
  match sc_ac s with
  | None => sc_max s = inject_Z (-10000000)
  | Some op => In (op, sc_max s) (sc_evals s)
  end.

Lemma consider_best : forall s i j T r, best_ok s -> best_ok (consider s i j T r).
Proof.
  intros s i j T [ch m] [H1 H2]. unfold consider. destruct (Qle_bool ch (sc_max s)) eqn:E; simpl; split; simpl.
  - intros op q Hin. apply in_app_iff in Hin. destruct Hin as [Hin|[Hin|[]]]; [eauto|].
    inversion Hin; subst. apply Qle_bool_iff. auto.
  - destruct (sc_ac s) as [op|]; auto. apply in_app_iff. auto.
  - apply Qlt_of_Qle_bool in E. intros op q Hin. apply in_app_iff in Hin. destruct Hin as [Hin|[Hin|[]]].
    + apply Qle_trans with (sc_max s); eauto. apply Qlt_le_weak. auto.
    + inversion Hin; subst. apply Qle_refl.
  - apply in_app_iff. right. simpl. auto.
Qed.

Section Scan.
  Variable g : graph.
  Hypothesis P : PG g.
  Hypothesis NL : forall u, ~ conp g u u.
  Let n := vars g.
  Variable sf : lscore.
  (** What is known about the table, and about the score of an operator. *)
  Variable J : memo -> Prop.
  Variable R : nat -> nat -> list nat -> Q -> Prop.

  Definition Inv (pre : list (nat * nat * list nat)) (s : scan) : Prop :=
    J (sc_memo s) /\ best_ok s /\ map fst (sc_evals s) = pre /\
    forall i j T q, In (i, j, T, q) (sc_evals s) -> R i j T q.

  Lemma Inv_consider : forall pre s i j T q m, Inv pre s -> J m -> R i j T q -> Inv (pre ++ [(i, j, T)]) (consider s i j T (q, m)).
  Proof using.
    intros pre s i j T q m [H1 [H2 [H3 H4]]] Hm HR.
    assert (E : sc_evals (consider s i j T (q, m)) = sc_evals s ++ [(i, j, T, q)]).
    { unfold consider. destruct (negb _); auto. }
    assert (Em : sc_memo (consider s i j T (q, m)) = m).
    { unfold consider. destruct (negb _); auto. }
    split; [rewrite Em; auto|]. split; [apply consider_best; auto|]. rewrite E. split.
    - rewrite map_app, H3. auto.
    - intros a b c d Hin. apply in_app_iff in Hin. destruct Hin as [Hin|[Hin|[]]]; auto. inversion Hin; subst. auto.
  Qed.

  Section Forward.
    Hypothesis HR : forall i j T m, i < n -> j < n -> J m ->
      exists q m', Insert_changed_score g i j T m sf = Ok (q, m') /\ J m' /\ R i j T q.

    Lemma forward_subsets_ok : forall i j t0 pre s, i < n -> j < n -> StronglySorted lt t0 -> (forall x, In x t0 -> x < n) ->
      Inv pre s ->
      exists tab s' ops, foldE (forward_subset sf g i j (Combinatorial t0)) (repeat 0 (length (Combinatorial t0)), s)
          (seq 0 (length (Combinatorial t0))) = Ok (tab, s') /\
        Inv (pre ++ ops) s' /\ NoDup ops /\
        forall op, In op ops <-> exists T, op = (i, j, T) /\ listing T /\ incl T t0 /\ insert_valid g i j T.
    Proof using P NL HR.
      intros i j t0 pre s Hi Hj St Ht0 I0. set (sub := Combinatorial t0).
      assert (Hsub : forall T, In T sub <-> listing T /\ incl T t0) by (intro; apply Combinatorial_listing; auto).
      assert (HT : forall T x, In T sub -> In x T -> x < n).
      { intros T x H Hx. apply Hsub in H. apply Ht0. apply H. auto. }
      set (b1 := fun T => match Insert_validity_test1 g i j T with Ok b => b | Err _ => false end).
      set (b2 := fun T => match Insert_validity_test2 g i j T with Ok b => b | Err _ => false end).
      assert (B1 : forall T, In T sub -> Insert_validity_test1 g i j T = Ok (b1 T) /\
        (b1 T = true <-> clique g (fun x => NA g i j x \/ In x T))).
      { intros T H. destruct (test1_ok g P i j T Hi Hj) as [b [E Q]]; [intros; eapply HT; eauto|].
        unfold b1. rewrite E. auto. }
      assert (B2 : forall T, Insert_validity_test2 g i j T = Ok (b2 T) /\
        (b2 T = true <-> blocked g j i (fun x => NA g i j x \/ In x T))).
      { intros T. destruct (test2_ok g P NL i j T Hi Hj) as [b [E Q]]. unfold b2. rewrite E. auto. }
      assert (Mono1 : forall T T', In T sub -> In T' sub -> incl T T' -> b1 T = false -> b1 T' = false).
      { intros T T' HT1 HT2 I H. destruct (b1 T') eqn:E; auto. exfalso.
        assert (b1 T = true); [|congruence]. apply (proj2 (B1 T HT1)). apply (proj2 (B1 T' HT2)) in E.
        intros a b Ha Hb. apply E; [destruct Ha|destruct Hb]; auto. }
      assert (Mono2 : forall T T', incl T T' -> b2 T = true -> b2 T' = true).
      { intros T T' I H. apply (proj2 (B2 T')). apply (proj2 (B2 T)) in H. intros p Hp.
        destruct (H p Hp) as [x [X1 [X2 X3]]]. exists x. split; auto. split; auto. destruct X3; auto. }
      set (vb := fun T => (b1 T && b2 T)%bool).
      set (ops_of := fun ks : list nat => map (fun T => (i, j, T)) (filter vb (map (fun k => nth k sub []) ks))).
      set (I := fun (ks : list nat) (st : list nat * scan) => length (fst st) = length sub /\
        (forall k, k < length sub -> nth k (fst st) 0 = 0 \/
           (nth k (fst st) 0 = 1 /\ b2 (nth k sub []) = true) \/ (nth k (fst st) 0 = 2 /\ b1 (nth k sub []) = false)) /\
        Inv (pre ++ ops_of ks) (snd st)).
      assert (Ops : forall ks k, ops_of (ks ++ [k]) = ops_of ks ++ (if vb (nth k sub []) then [(i, j, nth k sub [])] else [])).
      { intros ks k. unfold ops_of. rewrite map_app, filter_app, map_app. simpl. destruct (vb _); auto. }
      destruct (foldE_inv I (forward_subset sf g i j sub) (seq 0 (length sub))) with
        (l' := seq 0 (length sub)) (pre := @nil nat) (s := (repeat 0 (length sub), s)) as [[tab s'] [E [L [_ F]]]]; auto.
      - intros ks k suf [tab s1] Ek [L [Tb F]]. cbn [fst snd] in *.
        assert (Hk : k < length sub).
        { assert (In k (seq 0 (length sub))) by (rewrite <- Ek; apply in_app_iff; simpl; auto). apply in_seq in H. lia. }
        assert (Hin : In (nth k sub []) sub) by (apply nth_In; auto).
        unfold forward_subset. set (T := nth k sub []) in *.
        assert (Sup : forall k', k' < length sub -> nth k' (find_subset_include T sub) false = true -> incl T (nth k' sub [])).
        { intros k' Hk'. apply find_subset_ok. auto. }
        assert (Lf : length (find_subset_include T sub) = length tab) by (rewrite find_subset_length; auto).
        destruct (Tb k Hk) as [Q|[[Q Q']|[Q Q']]]; try fold T in Q'.
        + rewrite Q. cbn [Nat.ltb Nat.leb]. rewrite (proj1 (B1 T Hin)). cbn [rbind]. destruct (b1 T) eqn:X1.
          * cbn [Nat.eqb]. rewrite (proj1 (B2 T)). cbn [rbind]. destruct (b2 T) eqn:X2.
            -- destruct (HR i j T (sc_memo s1) Hi Hj (proj1 F)) as [q [m' [Eq [Jm Rq]]]]. rewrite Eq. cbn [rbind].
               eexists. split; [reflexivity|]. split; [cbn [fst]; rewrite set_where_length; auto|]. split.
               ++ intros k' Hk'. cbn [fst]. rewrite set_where_nth by lia.
                  destruct (nth k' (find_subset_include T sub) false) eqn:Fs; [|apply Tb; auto].
                  right. left. split; auto. apply (Mono2 T); auto.
               ++ cbn [snd]. rewrite Ops. fold T. unfold vb. rewrite X1, X2. cbn [andb]. rewrite app_assoc. apply Inv_consider; auto.
            -- eexists. split; [reflexivity|]. split; auto. split; auto. cbn [snd]. rewrite Ops. fold T. unfold vb. rewrite X1, X2.
               cbn [andb]. rewrite app_nil_r. auto.
          * eexists. split; [reflexivity|]. split; [cbn [fst]; rewrite set_where_length; auto|]. split.
            -- intros k' Hk'. cbn [fst]. rewrite set_where_nth by lia.
               destruct (nth k' (find_subset_include T sub) false) eqn:Fs; [|apply Tb; auto].
               right. right. split; auto. apply (Mono1 T); auto. apply nth_In. auto.
            -- cbn [snd]. rewrite Ops. fold T. unfold vb. rewrite X1. cbn [andb]. rewrite app_nil_r. auto.
        + rewrite Q. cbn [Nat.ltb Nat.leb]. rewrite (proj1 (B1 T Hin)). cbn [rbind]. destruct (b1 T) eqn:X1.
          * cbn [Nat.eqb rbind].
            destruct (HR i j T (sc_memo s1) Hi Hj (proj1 F)) as [q [m' [Eq [Jm Rq]]]]. rewrite Eq. cbn [rbind].
            eexists. split; [reflexivity|]. split; [cbn [fst]; rewrite set_where_length; auto|]. split.
            -- intros k' Hk'. cbn [fst]. rewrite set_where_nth by lia.
               destruct (nth k' (find_subset_include T sub) false) eqn:Fs; [|apply Tb; auto].
               right. left. split; auto. apply (Mono2 T); auto.
            -- cbn [snd]. rewrite Ops. fold T. unfold vb. rewrite X1, Q'. cbn [andb]. rewrite app_assoc. apply Inv_consider; auto.
          * eexists. split; [reflexivity|]. split; [cbn [fst]; rewrite set_where_length; auto|]. split.
            -- intros k' Hk'. cbn [fst]. rewrite set_where_nth by lia.
               destruct (nth k' (find_subset_include T sub) false) eqn:Fs; [|apply Tb; auto].
               right. right. split; auto. apply (Mono1 T); auto. apply nth_In. auto.
            -- cbn [snd]. rewrite Ops. fold T. unfold vb. rewrite X1. cbn [andb]. rewrite app_nil_r. auto.
        + rewrite Q. cbn [Nat.ltb Nat.leb]. eexists. split; [reflexivity|]. split; auto. split; auto.
          cbn [snd]. rewrite Ops. fold T. unfold vb. rewrite Q'. cbn [andb]. rewrite app_nil_r. auto.
      - split; [apply repeat_length|]. split; [intros k Hk; left; cbn [fst]; apply nth_repeat'|].
        cbn [snd]. change (ops_of []) with (@nil (nat * nat * list nat)). rewrite app_nil_r. auto.
      - exists tab, s', (ops_of (seq 0 (length sub))). cbn [snd] in F. split; auto. split; auto.
        assert (Es : map (fun k => nth k sub []) (seq 0 (length sub)) = sub).
        { apply nth_ext with (d := []) (d' := []); [rewrite map_length, seq_length; auto|].
          intros k Hk. rewrite map_length, seq_length in Hk. rewrite nth_map_seq; auto. }
        unfold ops_of. rewrite Es. split.
        + assert (NDf : NoDup (filter vb sub)) by (apply NoDup_filter, Combinatorial_NoDup, sorted_NoDup; auto).
          clear -NDf. induction NDf as [|T l H _ IH]; simpl; constructor; auto. rewrite in_map_iff. intros [T' [Q Q']].
          inversion Q; subst. auto.
        + intro op. rewrite in_map_iff. split.
          * intros [T [<- H]]. apply filter_In in H. destruct H as [H1 H2]. exists T. split; auto.
            unfold vb in H2. apply andb_true_iff in H2. destruct H2 as [X1 X2]. destruct (proj1 (Hsub T) H1). split; auto. split; auto.
            split; [apply (proj2 (B1 T H1)); auto|apply (proj2 (B2 T)); auto].
          * intros [T [-> [H1 [H2 [V1 V2]]]]]. exists T. split; auto. apply filter_In. assert (H : In T sub) by (apply Hsub; auto).
            split; auto. unfold vb. apply andb_true_iff. split; [apply (proj2 (B1 T H)); auto|apply (proj2 (B2 T)); auto].
    Qed.

    Variable max_p : Q.

    Lemma forward_pair_ok : forall i j pre s, i < n -> j < n -> Inv pre s ->
      exists s' ops, forward_pair sf max_p g n s (i, j) = Ok s' /\ Inv (pre ++ ops) s' /\ NoDup ops /\
        forall op, In op ops <-> exists T, op = (i, j, T) /\ insert_op g max_p i j T /\ insert_valid g i j T.
    Proof using P NL HR.
      intros i j pre s Hi Hj I0. unfold forward_pair.
      rewrite (conn_at g P i j Hi Hj). cbn [rbind].
      destruct (parents_at_ok g P j Hj) as [pa [Ep [NDp Hp]]]. rewrite Ep. cbn [rbind].
      assert (Cond : (negb (connb g (nth i (node_list g) 0) (nth j (node_list g) 0)) && negb (Nat.eqb i j) &&
          Qle_bool (inject_Z (Z.of_nat (length pa))) max_p)%bool = true <->
        (i <> j /\ ~ adj_i g i j /\ exists pa, lists pa (fun x => x < vars g /\ arrow_i g x j) /\ (inject_Z (Z.of_nat (length pa)) <= max_p)%Q)).
      { rewrite !andb_true_iff, !negb_true_iff, connb_false, Nat.eqb_neq, Qle_bool_iff, (adj_i_p g P).
        unfold conp, name, nodes. split.
        - intros [[H1 H2] H3]. split; auto. split; [congruence|]. exists pa. split; auto. split; auto.
        - intros [H1 [H2 [pa' [[ND' Hp'] H3]]]]. split; [split; auto|].
          + destruct (mk g (nth i (node_list g) 0) (nth j (node_list g) 0)); auto. exfalso. apply H2. discriminate.
          + assert (length pa = length pa'); [|congruence]. apply Permutation_length. apply NoDup_Permutation; auto.
            intro x. rewrite Hp, Hp'. unfold n. tauto. }
      destruct (_ && _ && _)%bool.
      - destruct (proj1 Cond eq_refl) as [C1 [C2 C3]].
        destruct (neighbours_ok g P j Hj) as [tj [Et [St Ht]]]. rewrite Et. cbn [rbind].
        destruct (adjacent_at_ok g P i Hi) as [ti [Ea Ha]]. rewrite Ea. cbn [rbind].
        set (t0 := np_intersect1d tj (filter (fun x => negb (memb x ti)) (seq 0 n))).
        assert (H0 : forall x, In x t0 <-> x < n /\ und_i g j x /\ ~ adj_i g i x).
        { intro x. unfold t0. rewrite np_intersect1d_In, Ht, filter_In, in_seq, negb_true_iff, memb_false, Ha. fold n. simpl.
          split; [intros [[? ?] [? ?]]; split; [auto|split; auto]; tauto|intros [? [? ?]]; split; [auto|split; [lia|tauto]]]. }
        destruct (forward_subsets_ok i j t0 pre s Hi Hj) as [tab [s' [ops [E [F [ND Hops]]]]]]; auto.
        { apply np_unique_sorted. } { intros x Hx. apply H0 in Hx. tauto. }
        rewrite E. cbn [rbind snd]. exists s', ops. split; auto. split; auto. split; auto. intro op. rewrite Hops. split.
        + intros [T [-> [L [I V]]]]. exists T. split; auto. split; auto. split; auto. split; auto. split; auto. split; auto.
          split; auto. split; auto. intros x Hx. apply H0. auto.
        + intros [T [-> [[_ [_ [_ [_ [_ [L I]]]]]] V]]]. exists T. split; auto. split; auto. split; auto. intros x Hx. apply H0. apply I. auto.
      - exists s, []. rewrite app_nil_r. split; auto. split; auto. split; [constructor|]. intro op. split; [intros []|].
        intros [T [-> [[_ [_ [C1 [C2 [C3 _]]]]] _]]]. assert (false = true) by (apply Cond; auto). discriminate.
    Qed.

    Theorem forward_scan_ok : forall m, J m ->
      exists s ops, forward_scan sf max_p g n m = Ok s /\ Inv ops s /\ NoDup ops /\
        forall i j T, In (i, j, T) ops <-> insert_op g max_p i j T /\ insert_valid g i j T.
    Proof using P NL HR.
      intros m Jm. unfold forward_scan.
      set (I := fun (pre : list (nat * nat)) (s : scan) => exists ops, Inv ops s /\ NoDup ops /\
        forall i j T, In (i, j, T) ops <-> In (i, j) pre /\ insert_op g max_p i j T /\ insert_valid g i j T).
      destruct (foldE_inv I (forward_pair sf max_p g n) (cells n)) with (l' := cells n) (pre := @nil (nat * nat)) (s := start_scan m)
        as [s [E [ops [H1 [H2 H3]]]]]; auto.
      - intros pre [i j] suf s Ec [ops [H1 [H2 H3]]].
        assert (Hc : In (i, j) (cells n)) by (rewrite <- Ec; apply in_app_iff; simpl; auto).
        apply cells_In in Hc. cbn [fst snd] in Hc.
        destruct (forward_pair_ok i j ops s) as [s' [o' [E [F [ND Ho']]]]]; try tauto. exists s'. split; auto.
        exists (ops ++ o'). split; auto. split.
        + assert (NDc : NoDup (cells n)).
          { unfold cells. apply (FinFun.Injective_map_NoDup (f := fun x : nat * nat => x)) || idtac.
            assert (G : forall a b, NoDup (A := nat) a -> NoDup (A := nat) b -> NoDup (list_prod a b)).
            { induction a as [|x a IH]; intros b Na Nb; simpl; [constructor|]. inversion Na; subst.
              assert (D : forall A (u v : list A), NoDup u -> NoDup v -> (forall z, In z u -> ~ In z v) -> NoDup (u ++ v)).
              { induction u as [|z u IHu]; simpl; auto. intros v Hu Hv Hd. inversion Hu; subst. constructor.
                - rewrite in_app_iff. intros [Q|Q]; [auto|]. apply (Hd z); auto.
                - apply IHu; auto. }
              apply D; auto.
              - clear -Nb. induction Nb; simpl; constructor; auto. rewrite in_map_iff. intros [y [Q Q']]. inversion Q; subst. auto.
              - intros [u v] Hu Hv. apply in_map_iff in Hu. destruct Hu as [y [Q _]]. inversion Q; subst.
                apply in_prod_iff in Hv. tauto. }
            apply G; apply seq_NoDup. }
          rewrite <- Ec in NDc. apply NoDup_remove_2 in NDc.
          assert (D : forall z, In z ops -> ~ In z o').
          { intros [[a b] T] Hz Hz'. apply Ho' in Hz'. destruct Hz' as [T' [Q _]]. inversion Q; subst.
            apply H3 in Hz. apply NDc. apply in_app_iff. tauto. }
          clear -H2 ND D. induction H2 as [|z u Hz _ IHu]; simpl; auto. constructor.
          { rewrite in_app_iff. intros [Q|Q]; [auto|]. apply (D z); simpl; auto. }
          apply IHu. intros. apply D. simpl; auto.
        + intros a b T. rewrite in_app_iff, H3, Ho', in_app_iff. simpl. split.
          * intros [[Q V]|[T' [Q V]]]; [tauto|]. inversion Q; subst. split; [auto|]. exact V.
          * intros [[Q|[Q|[]]] V]; [tauto|]. inversion Q; subst. right. exists T. auto.
      - exists []. split; [|split; [constructor|]].
        + split; auto. split; [split; [intros ? ? []|reflexivity]|]. split; auto. intros ? ? ? ? [].
        + intros. simpl. tauto.
      - exists s, ops. split; auto. split; auto. split; auto. intros i j T. rewrite H3. split; [tauto|]. intro V. split; auto.
        apply cells_In. destruct V as [[? [? _]] _]. auto.
    Qed.
  End Forward.

  Section Backward.
    Variable ord : list nat -> list nat.
    Hypothesis Ho : set_order ord.
    Hypothesis HR : forall i j T m, i < n -> j < n -> J m ->
      exists q m', Delete_changed_score ord g i j T m sf = Ok (q, m') /\ J m' /\ R i j T q.

    Lemma backward_subsets_ok : forall i j h0 pre s, i < n -> j < n -> StronglySorted lt h0 ->
      Inv pre s ->
      exists tab s' ops, foldE (backward_subset ord sf g i j (Combinatorial h0)) (repeat 1 (length (Combinatorial h0)), s)
          (seq 0 (length (Combinatorial h0))) = Ok (tab, s') /\
        Inv (pre ++ ops) s' /\ NoDup ops /\
        forall op, In op ops <-> exists T, op = (i, j, T) /\ listing T /\ incl T h0 /\ delete_valid g i j T.
    Proof using P Ho HR.
      intros i j h0 pre s Hi Hj St I0. set (sub := Combinatorial h0).
      assert (Hsub : forall T, In T sub <-> listing T /\ incl T h0) by (intro; apply Combinatorial_listing; auto).
      set (vb := fun T => match Delete_validity_test ord g i j T with Ok b => b | Err _ => false end).
      assert (B : forall T, Delete_validity_test ord g i j T = Ok (vb T) /\ (vb T = true <-> delete_valid g i j T)).
      { intros T. destruct (dtest_ok g P ord Ho i j T Hi Hj) as [b [E Q]]. unfold vb. rewrite E. auto. }
      assert (Mono : forall T T', incl T T' -> vb T = true -> vb T' = true).
      { intros T T' I H. apply (proj2 (B T')). apply (proj2 (B T)) in H. intros a b Ha Hb.
        apply H; [destruct Ha|destruct Hb]; split; auto. }
      set (ops_of := fun ks : list nat => map (fun T => (i, j, T)) (filter vb (map (fun k => nth k sub []) ks))).
      set (I := fun (ks : list nat) (st : list nat * scan) => length (fst st) = length sub /\
        (forall k, k < length sub -> nth k (fst st) 0 = 1 \/ (nth k (fst st) 0 = 2 /\ vb (nth k sub []) = true)) /\
        Inv (pre ++ ops_of ks) (snd st)).
      assert (Ops : forall ks k, ops_of (ks ++ [k]) = ops_of ks ++ (if vb (nth k sub []) then [(i, j, nth k sub [])] else [])).
      { intros ks k. unfold ops_of. rewrite map_app, filter_app, map_app. simpl. destruct (vb _); auto. }
      destruct (foldE_inv I (backward_subset ord sf g i j sub) (seq 0 (length sub))) with
        (l' := seq 0 (length sub)) (pre := @nil nat) (s := (repeat 1 (length sub), s)) as [[tab s'] [E [L [_ F]]]]; auto.
      - intros ks k suf [tab s1] Ek [L [Tb F]]. cbn [fst snd] in *.
        assert (Hk : k < length sub).
        { assert (In k (seq 0 (length sub))) by (rewrite <- Ek; apply in_app_iff; simpl; auto). apply in_seq in H. lia. }
        unfold backward_subset. set (T := nth k sub []) in *.
        assert (Sup : forall k', k' < length sub -> nth k' (find_subset_include T sub) false = true -> incl T (nth k' sub [])).
        { intros k' Hk'. apply find_subset_ok. auto. }
        assert (Lf : length (find_subset_include T sub) = length tab) by (rewrite find_subset_length; auto).
        destruct (HR i j T (sc_memo s1) Hi Hj (proj1 F)) as [q [m' [Eq [Jm Rq]]]].
        destruct (Tb k Hk) as [Q|[Q Q']]; try fold T in Q'; rewrite Q; cbn [Nat.eqb].
        + rewrite (proj1 (B T)). cbn [rbind]. destruct (vb T) eqn:X.
          * rewrite Eq. cbn [rbind]. eexists. split; [reflexivity|]. split; [cbn [fst]; rewrite set_where_length; auto|]. split.
            -- intros k' Hk'. cbn [fst]. rewrite set_where_nth by lia.
               destruct (nth k' (find_subset_include T sub) false) eqn:Fs; [|apply Tb; auto].
               right. split; auto. apply (Mono T); auto.
            -- cbn [snd]. rewrite Ops. fold T. rewrite X. rewrite app_assoc. apply Inv_consider; auto.
          * eexists. split; [reflexivity|]. split; auto. split; auto. cbn [snd]. rewrite Ops. fold T. rewrite X, app_nil_r. auto.
        + cbn [rbind]. rewrite Eq. cbn [rbind]. eexists. split; [reflexivity|]. split; auto. split; auto.
          cbn [snd]. rewrite Ops. fold T. rewrite Q'. rewrite app_assoc. apply Inv_consider; auto.
      - split; [apply repeat_length|]. split.
        + intros k Hk. left. cbn [fst]. rewrite (nth_indep _ 0 1) by (rewrite repeat_length; auto). apply nth_repeat'.
        + cbn [snd]. change (ops_of []) with (@nil (nat * nat * list nat)). rewrite app_nil_r. auto.
      - exists tab, s', (ops_of (seq 0 (length sub))). cbn [snd] in F. split; auto. split; auto.
        assert (Es : map (fun k => nth k sub []) (seq 0 (length sub)) = sub).
        { apply nth_ext with (d := []) (d' := []); [rewrite map_length, seq_length; auto|].
          intros k Hk. rewrite map_length, seq_length in Hk. rewrite nth_map_seq; auto. }
        unfold ops_of. rewrite Es. split.
        + assert (NDf : NoDup (filter vb sub)) by (apply NoDup_filter, Combinatorial_NoDup, sorted_NoDup; auto).
          clear -NDf. induction NDf as [|T l H _ IH]; simpl; constructor; auto. rewrite in_map_iff. intros [T' [Q Q']].
          inversion Q; subst. auto.
        + intro op. rewrite in_map_iff. split.
          * intros [T [<- H]]. apply filter_In in H. destruct H as [H1 H2]. exists T. split; auto.
            destruct (proj1 (Hsub T) H1). split; auto. split; auto. apply (proj2 (B T)); auto.
          * intros [T [-> [H1 [H2 V]]]]. exists T. split; auto. apply filter_In. split; [apply Hsub; auto|apply (proj2 (B T)); auto].
    Qed.

    Lemma backward_pair_ok : forall i j pre s, i < n -> j < n -> Inv pre s ->
      exists s' ops, backward_pair ord sf g s (i, j) = Ok s' /\ Inv (pre ++ ops) s' /\ NoDup ops /\
        forall op, In op ops <-> exists T, op = (i, j, T) /\ delete_op g i j T /\ delete_valid g i j T.
    Proof using P Ho HR.
      intros i j pre s Hi Hj I0. unfold backward_pair.
      rewrite (tail_at g P j i Hj Hi), (tail_at g P i j Hi Hj), (arrow_at g P i j Hi Hj). cbn [rbind].
      assert (Cond : ((markb Tail g (nth j (node_list g) 0) (nth i (node_list g) 0) &&
                       markb Tail g (nth i (node_list g) 0) (nth j (node_list g) 0)) ||
                      markb Arrow g (nth i (node_list g) 0) (nth j (node_list g) 0))%bool = true <->
        (und_i g i j \/ arrow_i g i j)).
      { rewrite orb_true_iff, andb_true_iff, !(markb_p g), (und_i_p g P), arrow_i_mk by (auto; apply (pg_wf g P)).
        unfold undp, name, nodes. tauto. }
      destruct (_ || _)%bool.
      - assert (C := proj1 Cond eq_refl). destruct (na_yx_ok g P i j Hi Hj) as [h0 [Eh [Sh Hh]]]. rewrite Eh. cbn [rbind].
        destruct (backward_subsets_ok i j h0 pre s Hi Hj Sh I0) as [tab [s' [ops [E [F [ND Hops]]]]]].
        rewrite E. cbn [rbind snd]. exists s', ops. split; auto. split; auto. split; auto. intro op. rewrite Hops. split.
        + intros [T [-> [L [I V]]]]. exists T. split; auto. split; auto. split; auto. split; auto. split; auto. split; auto.
          intros x Hx. apply Hh. auto.
        + intros [T [-> [[_ [_ [_ [L I]]]] V]]]. exists T. split; auto. split; auto. split; auto. intros x Hx. apply Hh. apply I. auto.
      - exists s, []. rewrite app_nil_r. split; auto. split; auto. split; [constructor|]. intro op. split; [intros []|].
        intros [T [-> [[_ [_ [C _]]] _]]]. assert (false = true) by (apply Cond; auto). discriminate.
    Qed.

    Theorem backward_scan_ok : forall m, J m ->
      exists s ops, backward_scan ord sf g n m = Ok s /\ Inv ops s /\ NoDup ops /\
        forall i j T, In (i, j, T) ops <-> delete_op g i j T /\ delete_valid g i j T.
    Proof using P Ho HR.
      intros m Jm. unfold backward_scan.
      set (I := fun (pre : list (nat * nat)) (s : scan) => exists ops, Inv ops s /\ NoDup ops /\
        forall i j T, In (i, j, T) ops <-> In (i, j) pre /\ delete_op g i j T /\ delete_valid g i j T).
      destruct (foldE_inv I (backward_pair ord sf g) (cells n)) with (l' := cells n) (pre := @nil (nat * nat)) (s := start_scan m)
        as [s [E [ops [H1 [H2 H3]]]]]; auto.
      - intros pre [i j] suf s Ec [ops [H1 [H2 H3]]].
        assert (Hc : In (i, j) (cells n)) by (rewrite <- Ec; apply in_app_iff; simpl; auto).
        apply cells_In in Hc. cbn [fst snd] in Hc.
        destruct (backward_pair_ok i j ops s) as [s' [o' [E [F [ND Ho']]]]]; try tauto. exists s'. split; auto.
        exists (ops ++ o'). split; auto. split.
        + assert (NDc : NoDup (cells n)).
          { assert (G : forall a b, NoDup (A := nat) a -> NoDup (A := nat) b -> NoDup (list_prod a b)).
            { induction a as [|x a IH]; intros b Na Nb; simpl; [constructor|]. inversion Na; subst.
              assert (D : forall A (u v : list A), NoDup u -> NoDup v -> (forall z, In z u -> ~ In z v) -> NoDup (u ++ v)).
              { induction u as [|z u IHu]; simpl; auto. intros v Hu Hv Hd. inversion Hu; subst. constructor.
                - rewrite in_app_iff. intros [Q|Q]; [auto|]. apply (Hd z); auto.
                - apply IHu; auto. }
              apply D; auto.
              - clear -Nb. induction Nb; simpl; constructor; auto. rewrite in_map_iff. intros [y [Q Q']]. inversion Q; subst. auto.
              - intros [u v] Hu Hv. apply in_map_iff in Hu. destruct Hu as [y [Q _]]. inversion Q; subst.
                apply in_prod_iff in Hv. tauto. }
            apply G; apply seq_NoDup. }
          rewrite <- Ec in NDc. apply NoDup_remove_2 in NDc.
          assert (D : forall z, In z ops -> ~ In z o').
          { intros [[a b] T] Hz Hz'. apply Ho' in Hz'. destruct Hz' as [T' [Q _]]. inversion Q; subst.
            apply H3 in Hz. apply NDc. apply in_app_iff. tauto. }
          clear -H2 ND D. induction H2 as [|z u Hz _ IHu]; simpl; auto. constructor.
          { rewrite in_app_iff. intros [Q|Q]; [auto|]. apply (D z); simpl; auto. }
          apply IHu. intros. apply D. simpl; auto.
        + intros a b T. rewrite in_app_iff, H3, Ho', in_app_iff. simpl. split.
          * intros [[Q V]|[T' [Q V]]]; [tauto|]. inversion Q; subst. split; [auto|]. exact V.
          * intros [[Q|[Q|[]]] V]; [tauto|]. inversion Q; subst. right. exists T. auto.
      - exists []. split; [|split; [constructor|]].
        + split; auto. split; [split; [intros ? ? []|reflexivity]|]. split; auto. intros ? ? ? ? [].
        + intros. simpl. tauto.
      - exists s, ops. split; auto. split; auto. split; auto. intros i j T. rewrite H3. split; [tauto|]. intro V. split; auto.
        apply cells_In. destruct V as [[? [? _]] _]. auto.
    Qed.
  End Backward.
End Scan.
