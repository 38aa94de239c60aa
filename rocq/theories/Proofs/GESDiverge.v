(** The fuel of the model's loops does not matter: once [pdag2dag] or
    [ges_fit] has as much fuel as there are nodes, more fuel changes nothing. *)

From Coq Require Import List Arith Bool ZArith QArith Lqa Lia.
From Verif Require Import Model.Py Model.Graph Model.DiGraph Model.PDAG Model.Pdag2Dag Model.GES.
From Verif Require Import Spec.API Spec.Digraphs Spec.PDAGs Spec.GESSpec.
From Verif Require Import Proofs.PyFacts Proofs.GraphFacts Proofs.DiGraphFacts Proofs.RelExt Proofs.HistoryFacts Proofs.NumpyFacts
  Proofs.PDAGFacts Proofs.MeekFacts Proofs.CpdagFacts Proofs.Pdag2DagFacts Proofs.GESSubsets Proofs.GESPaths Proofs.GESScan Proofs.GESFit.
Import ListNotations.
Open Scope nat_scope.

Lemma extend_loop_more : forall k k' p inde g g', k <= k' ->
  extend_loop k p inde g = (g', Ok tt) -> extend_loop k' p inde g = (g', Ok tt).
Proof.
  induction k as [|k IH]; intros k' p inde g g' L H.
  - destruct k'; cbn [extend_loop] in *; destruct (existsb negb inde); auto; discriminate.
  - destruct k' as [|k']; [lia|]. cbn [extend_loop] in *. destruct (existsb negb inde); auto.
    unfold bind in *. destruct (foldM (try_node p) inde (seq 0 (number_of_nodes p)) g) as [g1 [i1|e]]; [|discriminate].
    apply IH; auto. lia.
Qed.

Lemma pdag2dag_more : forall k k' p d, k <= k' -> pdag2dag k p = Ok d -> pdag2dag k' p = Ok d.
Proof.
  intros k k' p d L. unfold pdag2dag, run_on, bind.
  destruct (keep_directed p) as [g [u|e]]; [|discriminate].
  destruct (extend_loop k p (repeat false (number_of_nodes p)) g) as [g1 [[]|e]] eqn:E; [|discriminate].
  rewrite (extend_loop_more k k' _ _ _ _ L E). auto.
Qed.

Lemma rebuild_more : forall k k' order p g, k <= k' -> rebuild k order p = Ok g -> rebuild k' order p = Ok g.
Proof.
  intros k k' order p g L. unfold rebuild. destruct (pdag2dag k p) as [d|e] eqn:E; [|discriminate].
  rewrite (pdag2dag_more k k' p d L E). auto.
Qed.

Lemma greedy_more : forall k k' order do_scan app_op, k <= k' -> forall rounds g score m r,
  greedy rounds k order do_scan app_op g score m = Ok r -> greedy rounds k' order do_scan app_op g score m = Ok r.
Proof.
  intros k k' order do_scan app_op L. induction rounds as [|n IH]; intros g score m r; [discriminate|]. cbn [greedy].
  destruct (do_scan g m) as [s|]; cbn [rbind]; [|discriminate].
  destruct (sc_ac s) as [[[i j] T]|]; auto.
  destruct (Qle_bool (score + sc_max s - score) 0); auto.
  destruct (run_on (app_op i j T) g) as [g1|]; cbn [rbind]; [|discriminate].
  destruct (rebuild k order g1) as [g2|] eqn:E; cbn [rbind]; [|discriminate].
  rewrite (rebuild_more k k' order g1 g2 L E). cbn [rbind].
  destruct (greedy n k order do_scan app_op g2 (score + sc_max s) (sc_memo s)) as [q|] eqn:E2; cbn [rbind]; [|discriminate].
  rewrite (IH _ _ _ _ E2). auto.
Qed.

Lemma ges_fit_more : forall k k' order ord sf max_p n r, k <= k' ->
  ges_fit k order ord sf max_p n = Ok r -> ges_fit k' order ord sf max_p n = Ok r.
Proof.
  intros k k' order ord sf max_p n r L. unfold ges_fit.
  destruct (new_graph KPDAG (seq 0 n)) as [g|]; cbn [rbind]; [|discriminate].
  destruct (Score_G g sf) as [sc|]; cbn [rbind]; [|discriminate].
  destruct (rebuild k order g) as [g0|] eqn:E0; cbn [rbind]; [|discriminate].
  rewrite (rebuild_more k k' order g g0 L E0). cbn [rbind].
  match goal with |- (rbind ?a _ = _) -> _ => destruct a as [[[[g1 s1] m1] t1]|] eqn:E1 end; cbn [rbind]; [|discriminate].
  rewrite (greedy_more k k' _ _ _ L _ _ _ _ _ E1). cbn [rbind].
  match goal with |- (rbind ?a _ = _) -> _ => destruct a as [[[[g2 s2] m2] t2]|] eqn:E2 end; cbn [rbind]; [|discriminate].
  rewrite (greedy_more k k' _ _ _ L _ _ _ _ _ E2). auto.
Qed.

Lemma rebuild_same : forall n p k k' order, good n p -> orders_ok order -> n <= k -> n <= k' ->
  rebuild k order p = rebuild k' order p.
Proof.
  intros n p k k' order G Ho H H'.
  destruct (rebuild_ok n p n order G Ho (le_n n)) as [[g [E _]]|[_ Nx]].
  - rewrite (rebuild_more n k order p g H E), (rebuild_more n k' order p g H' E). auto.
  - unfold rebuild. rewrite !(not_extendable n p G Nx). auto.
Qed.

Section Same.
  Variables n k k' : nat.
  Variable order : graph -> nat -> nat -> nat -> list nat.
  Variable ord : list nat -> list nat.
  Variable sf : lscore.
  Variable max_p : Q.
  Hypothesis Ho : orders_ok order.
  Hypothesis Hord : set_order ord.
  Hypothesis Hk : n <= k.
  Hypothesis Hk' : n <= k'.

  Lemma greedy_same : forall do_scan app_op (V : graph -> nat -> nat -> list nat -> Prop),
    (forall g m, good n g -> exists s, do_scan g m = Ok s /\ forall i j T, sc_ac s = Some (i, j, T) -> V g i j T) ->
    (forall g i j T, good n g -> V g i j T -> exists p, run_on (app_op i j T) g = Ok p /\ good n p) ->
    forall rounds g score m, good n g ->
      greedy rounds k order do_scan app_op g score m = greedy rounds k' order do_scan app_op g score m.
  Proof using Ho Hk Hk'.
    intros do_scan app_op V Hs Hop. induction rounds as [|r IH]; intros g score m G; auto. cbn [greedy].
    destruct (Hs g m G) as [s [Es Hv]]. rewrite Es. cbn [rbind].
    destruct (sc_ac s) as [[[i j] T]|] eqn:Ac; auto.
    destruct (Qle_bool (score + sc_max s - score) 0); auto.
    destruct (Hop g i j T G (Hv i j T eq_refl)) as [p [Ep Gp]]. rewrite Ep. cbn [rbind].
    rewrite (rebuild_same n p k k' order Gp Ho Hk Hk').
    destruct (rebuild_ok n p k' order Gp Ho Hk') as [[g2 [E2 [G2 _]]]|[E2 _]]; rewrite E2; cbn [rbind]; auto.
    rewrite (IH g2 _ _ G2). auto.
  Qed.

  Lemma best_in : forall (J : memo -> Prop) (R : nat -> nat -> list nat -> Q -> Prop) ops s i j T,
    GESScan.Inv J R ops s -> sc_ac s = Some (i, j, T) -> In (i, j, T) ops.
  Proof using.
    intros J R ops s i j T [_ [[_ B2] [Ev _]]] Ac. rewrite Ac in B2. rewrite <- Ev. apply in_map_iff.
    exists (i, j, T, sc_max s). auto.
  Qed.

  Theorem ges_fit_same : ges_fit k order ord sf max_p n = ges_fit k' order ord sf max_p n.
  Proof using Ho Hord Hk Hk'.
    unfold ges_fit. destruct (start_ok n) as [g [E [G C]]]. rewrite E. cbn [rbind].
    rewrite (Score_G_empty n g sf G C). cbn [rbind].
    rewrite (rebuild_same n g k k' order G Ho Hk Hk').
    destruct (rebuild_empty n g k' order G C Ho Hk') as [g0 [E0 [G0 C0]]]. rewrite E0. cbn [rbind].
    assert (Fs : forall g m, good n g -> exists s, forward_scan sf max_p g n m = Ok s /\
      forall i j T, sc_ac s = Some (i, j, T) -> insert_op g max_p i j T /\ insert_valid g i j T).
    { clear. intros g m G. assert (Ev := good_vars n g G).
      destruct (forward_scan_ok g (gd_pg n g G) (gd_loop n g G) sf (fun _ => True) (fun _ _ _ _ => True))
        with (max_p := max_p) (m := m) as [s [ops [E [I [_ H]]]]]; auto.
      { rewrite Ev. intros i j T m' Hi Hj _. destruct (insert_score_total g (gd_pg n g G) sf i j T m') as [[q m''] E];
          try (rewrite Ev; auto). exists q, m''. auto. }
      rewrite Ev in E. exists s. split; auto. intros i j T Ac. apply H. eapply best_in; eauto. }
    assert (Bs : forall g m, good n g -> exists s, backward_scan ord sf g n m = Ok s /\
      forall i j T, sc_ac s = Some (i, j, T) -> delete_op g i j T /\ delete_valid g i j T).
    { clear - Hord. intros g m G. assert (Ev := good_vars n g G).
      destruct (backward_scan_ok g (gd_pg n g G) sf (fun _ => True) (fun _ _ _ _ => True) ord Hord) with (m := m) as [s [ops [E [I [_ H]]]]]; auto.
      { rewrite Ev. intros i j T m' Hi Hj _. destruct (delete_score_total g (gd_pg n g G) sf ord i j T m') as [[q m''] E];
          try (rewrite Ev; auto). exists q, m''. auto. }
      rewrite Ev in E. exists s. split; auto. intros i j T Ac. apply H. eapply best_in; eauto. }
    set (VI := fun g i j T => insert_op g max_p i j T /\ insert_valid g i j T) in *.
    set (VD := fun g i j T => delete_op g i j T /\ delete_valid g i j T) in *.
    assert (Hi : forall g i j T, good n g -> VI g i j T -> exists p, run_on (Insert i j T) g = Ok p /\ good n p).
    { clear. intros g i j T G [Hv _]. destruct (insert_step n g max_p i j T G Hv) as [_ [_ [_ [_ [p [E [Gp _]]]]]]]. eauto. }
    assert (Hd : forall g i j T, good n g -> VD g i j T -> exists p, run_on (Delete i j T) g = Ok p /\ good n p).
    { clear. intros g i j T G [Hv _]. destruct (delete_step n g i j T G Hv) as [_ [_ [_ [_ [p [E [Gp _]]]]]]]. eauto. }
    rewrite (greedy_same (fun g m => forward_scan sf max_p g n m) Insert VI Fs Hi (S (n * n)) g0 _ _ G0).
    destruct (forward_phase n k' order sf max_p Ho Hk' (fun _ => True) (fun _ _ _ _ _ => True)) with (g := g0) (score := empty_score sf n)
      (m := repeat (@nil entry) n) as [[g1 [s1 [m1 [t1 [E1 [G1 _]]]]]]|[E1 _]]; auto.
    { intros g' i j T m G' Li Lj _. assert (Ev := good_vars n g' G').
      destruct (insert_score_total g' (gd_pg n g' G') sf i j T m) as [[q m''] Eq]; try (rewrite Ev; auto). exists q, m''. auto. }
    { eapply visited_start; eauto. }
    - rewrite E1. cbn [rbind].
      rewrite (greedy_same (fun g m => backward_scan ord sf g n m) Delete VD Bs Hd (S (n * n)) g1 _ _ G1). auto.
    - rewrite E1. auto.
  Qed.
End Same.
