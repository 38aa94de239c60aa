(** Facts about Model/MakeGraph.v. *)

From Coq Require Import List Arith Bool ZArith Lia Relations.
From Verif Require Import Model.Py Model.MakeGraph Spec.DrawnSpec Proofs.PyFacts.
Import ListNotations.
Open Scope nat_scope.

Lemma precedes_cons : forall {A} (x : A) l a b, precedes (x :: l) a b <-> (a = x /\ In b l) \/ precedes l a b.
Proof.
  intros A x l a b. split.
  - intros [l1 [l2 [l3 E]]]. destruct l1 as [|y l1]; simpl in E; inversion E; subst.
    + left. split; auto. apply in_app_iff. right. left. auto.
    + right. exists l1, l2, l3. auto.
  - intros [[-> H]|[l1 [l2 [l3 ->]]]].
    + apply in_split in H. destruct H as [l2 [l3 ->]]. exists [], l2, l3. auto.
    + exists (x :: l1), l2, l3. auto.
Qed.
Lemma precedes_in : forall {A} (l : list A) a b, precedes l a b -> In a l /\ In b l.
Proof.
  intros A l a b [l1 [l2 [l3 ->]]]. split; apply in_app_iff; right; [left; auto|]. right. apply in_app_iff. right. left. auto.
Qed.
Lemma precedes_irrefl : forall {A} (l : list A) a, NoDup l -> ~ precedes l a a.
Proof.
  intros A l a N [l1 [l2 [l3 ->]]]. apply NoDup_remove_2 in N. apply N. apply in_app_iff. right. apply in_app_iff. right. left. auto.
Qed.
Lemma precedes_trans : forall {A} (l : list A) a b c, NoDup l -> precedes l a b -> precedes l b c -> precedes l a c.
Proof.
  intros A l. induction l as [|x l IH]; intros a b c N H1 H2.
  - destruct H1 as [[|] [? [? E]]]; discriminate.
  - inversion N; subst. apply precedes_cons in H1. apply precedes_cons in H2. apply precedes_cons.
    destruct H2 as [[-> H2]|H2].
    + destruct H1 as [[-> H1]|H1]; [contradiction|]. apply precedes_in in H1. tauto.
    + destruct H1 as [[-> H1]|H1]; [left; split; auto; apply precedes_in in H2; tauto|right; eauto].
Qed.
Lemma precedes_total : forall {A} (l : list A) a b, In a l -> In b l -> a <> b -> precedes l a b \/ precedes l b a.
Proof.
  intros A l a b. induction l as [|x l IH]; intros H1 H2 D; [contradiction|]. destruct H1 as [->|H1], H2 as [->|H2].
  - contradiction.
  - left. apply precedes_cons. auto.
  - right. apply precedes_cons. auto.
  - destruct (IH H1 H2 D); [left|right]; apply precedes_cons; auto.
Qed.
Lemma comb2_precedes : forall {A} (l : list A) a b, In (a, b) (comb2 l) <-> precedes l a b.
Proof.
  intros A l a b. induction l as [|x l IH]; simpl.
  - split; [contradiction|]. intros [[|] [? [? E]]]; discriminate.
  - rewrite in_app_iff, in_map_iff, precedes_cons, IH. split.
    + intros [[y [E H]]|H]; auto. inversion E; subst. auto.
    + intros [[-> H]|H]; auto. left. exists b. auto.
Qed.

Section DrawnFacts.
  Context {K : Type} (keqb : K -> K -> bool).
  Hypothesis keqb_spec : forall a b, keqb a b = true <-> a = b.

  Lemma among_In : forall x l, among keqb x l = true <-> In x l.
  Proof using keqb_spec.
    intros x l. unfold among. rewrite existsb_exists. split.
    - intros [y [H E]]. apply keqb_spec in E. subst. auto.
    - intros H. exists x. split; auto. apply keqb_spec. auto.
  Qed.
  Lemma within_incl : forall a b, within keqb a b = true <-> incl a b.
  Proof using keqb_spec.
    intros a b. unfold within. rewrite forallb_forall. split; intros H x Hx; apply among_In; auto.
  Qed.
  Lemma same_set_alike : forall a b, same_set keqb a b = true <-> alike a b.
  Proof using keqb_spec.
    intros a b. unfold same_set. rewrite andb_true_iff, !within_incl. unfold alike, incl. split.
    - intros [H1 H2] x. split; auto.
    - intros H. split; intros x Hx; apply H; auto.
  Qed.
  Lemma share_together : forall x y s, share_factor keqb x y s = true <-> together s x y.
  Proof using keqb_spec.
    intros x y s. unfold share_factor, together. rewrite existsb_exists. split.
    - intros [g [H E]]. apply within_incl in E. exists g. split; auto. split; apply E; simpl; auto.
    - intros [g [H [Hx Hy]]]. exists g. split; auto. apply within_incl. intros z [<-|[<-|[]]]; auto.
  Qed.

  Lemma add_node_in : forall (g : drawn) i v, In v (fst (add_node keqb g i)) <-> v = i \/ In v (fst g).
  Proof using keqb_spec.
    intros g i v. unfold add_node. destruct (among keqb i (fst g)) eqn:E.
    - apply among_In in E. split; auto. intros [->|H]; auto.
    - simpl. rewrite in_app_iff. simpl. split; [intros [H|[H|[]]]; auto|intros [->|H]; auto].
  Qed.
  Lemma add_node_edges : forall (g : drawn) i, snd (add_node keqb g i) = snd g.
  Proof. intros g i. unfold add_node. destruct (among keqb i (fst g)); auto. Qed.
  Lemma add_node_nodup : forall (g : drawn) i, NoDup (fst g) -> NoDup (fst (add_node keqb g i)).
  Proof using keqb_spec.
    intros g i N. unfold add_node. destruct (among keqb i (fst g)) eqn:E; auto. simpl.
    assert (H : ~ In i (fst g)) by (rewrite <- among_In; congruence).
    clear E. induction (fst g) as [|a l IH]; simpl; [constructor; auto; constructor|]. inversion N; subst.
    constructor; [|apply IH; auto; intros F; apply H; right; auto]. rewrite in_app_iff. intros [F|[F|[]]]; auto. apply H. left. auto.
  Qed.
  Lemma add_edge_nodes : forall (g : drawn) i j v, In v (fst (add_edge keqb g i j)) <-> v = i \/ v = j \/ In v (fst g).
  Proof using keqb_spec.
    intros g i j v. unfold add_edge.
    assert (H : In v (fst (add_node keqb (add_node keqb g i) j)) <-> v = i \/ v = j \/ In v (fst g)) by (rewrite !add_node_in; tauto).
    destruct (existsb _ _); simpl; auto.
  Qed.
  Lemma pair_test : forall i j (l : list (K * K)), existsb (fun e => keqb i (fst e) && keqb j (snd e)) l = true <-> In (i, j) l.
  Proof using keqb_spec.
    intros i j l. rewrite existsb_exists. split.
    - intros [[a b] [H E]]. simpl in E. apply andb_true_iff in E. destruct E as [E1 E2]. apply keqb_spec in E1. apply keqb_spec in E2. subst. auto.
    - intros H. exists (i, j). split; auto. simpl. apply andb_true_iff. split; apply keqb_spec; auto.
  Qed.
  Lemma add_edge_edges : forall (g : drawn) i j e, In e (snd (add_edge keqb g i j)) <-> e = (i, j) \/ In e (snd g).
  Proof using keqb_spec.
    intros g i j e. unfold add_edge. rewrite !add_node_edges. destruct (existsb _ _) eqn:E.
    - apply pair_test in E. rewrite !add_node_edges. split; auto. intros [->|H]; auto.
    - simpl. rewrite in_app_iff. simpl. split; [intros [H|[H|[]]]; auto|intros [->|H]; auto].
  Qed.
  Lemma add_edge_nodup : forall (g : drawn) i j, NoDup (fst g) /\ NoDup (snd g) -> NoDup (fst (add_edge keqb g i j)) /\ NoDup (snd (add_edge keqb g i j)).
  Proof using keqb_spec.
    intros g i j [N1 N2]. unfold add_edge. rewrite !add_node_edges.
    assert (N : NoDup (fst (add_node keqb (add_node keqb g i) j))) by (apply add_node_nodup, add_node_nodup; auto).
    destruct (existsb _ _) eqn:E; split; auto; [rewrite !add_node_edges; auto|]. simpl.
    assert (H : ~ In (i, j) (snd g)) by (rewrite <- pair_test; congruence).
    clear E. induction (snd g) as [|a l IH]; simpl; [constructor; auto; constructor|]. inversion N2; subst.
    constructor; [|apply IH; auto; intros F; apply H; right; auto]. rewrite in_app_iff. intros [F|[F|[]]]; auto. apply H. left. auto.
  Qed.

  Definition tidy (g : @drawn K) : Prop := NoDup (fst g) /\ NoDup (snd g).

  Lemma members_of_one : forall i A C g, tidy g ->
    let g' := fold_left (fun g j => add_edge keqb (if among keqb j A then g else add_node keqb g j) i j) C g in
    tidy g' /\ (forall e, In e (snd g') <-> (exists j, In j C /\ e = (i, j)) \/ In e (snd g))
    /\ (forall v, In i (fst g) -> In v (fst g') <-> In v C \/ In v (fst g)).
  Proof using keqb_spec.
    intros i A. induction C as [|j C IH]; intros g T; simpl.
    - split; auto. split; [|intros; split; auto; intros [[]|]; auto]. intros e. split; auto. intros [[j [[] _]]|H]; auto.
    - assert (T2 : tidy (add_edge keqb (if among keqb j A then g else add_node keqb g j) i j)).
      { apply add_edge_nodup. destruct (among keqb j A); auto. destruct T. split; [apply add_node_nodup; auto|rewrite add_node_edges; auto]. }
      destruct (IH _ T2) as [T3 [E N]]. split; auto.
      assert (Es : forall e, In e (snd (add_edge keqb (if among keqb j A then g else add_node keqb g j) i j)) <-> e = (i, j) \/ In e (snd g)).
      { intros e. rewrite add_edge_edges. destruct (among keqb j A); [|rewrite add_node_edges]; tauto. }
      assert (Ns : forall v, In v (fst (add_edge keqb (if among keqb j A then g else add_node keqb g j) i j)) <-> v = i \/ v = j \/ In v (fst g)).
      { intros v. rewrite add_edge_nodes. destruct (among keqb j A); [|rewrite add_node_in]; tauto. }
      split.
      + intros e. rewrite E, Es. split.
        * intros [[y [H ->]]|[->|H]]; auto; left; [exists y|exists j]; auto.
        * intros [[y [[->|H] ->]]|H]; auto. left. exists y. auto.
      + intros v Hi. rewrite N by (apply Ns; auto). rewrite Ns. split; [intros [H|[->|[->|H]]]; auto|intros [[->|H]|H]; auto].
  Qed.

  Lemma members_drawn : forall (LI : list (K * list K)) g A, tidy g ->
    let g' := fst (fold_left (fun s p =>
           let i := fst p in
           let A := snd s ++ [i] in
           (fold_left (fun g j => add_edge keqb (if among keqb j A then g else add_node keqb g j) i j) (snd p) (add_node keqb (fst s) i), A)) LI (g, A)) in
    tidy g' /\ (forall i j, In (i, j) (snd g') <-> (exists C, In (i, C) LI /\ In j C) \/ In (i, j) (snd g))
    /\ (forall v, In v (fst g') <-> (exists i C, In (i, C) LI /\ (v = i \/ In v C)) \/ In v (fst g)).
  Proof using keqb_spec.
    induction LI as [|[i C] LI IH]; intros g A T; simpl.
    - split; auto. split; intros; (split; [auto|]); [intros [[D [[] _]]|H]|intros [[? [? [[] _]]]|H]]; auto.
    - assert (T1 : tidy (add_node keqb g i)) by (destruct T; split; [apply add_node_nodup; auto|rewrite add_node_edges; auto]).
      destruct (members_of_one i (A ++ [i]) C _ T1) as [T2 [E N]].
      destruct (IH _ (A ++ [i]) T2) as [T3 [E3 N3]]. split; auto. split.
      + intros a b. rewrite E3, E, add_node_edges. split.
        * intros [[D [H1 H2]]|[[j [H Eq]]|H]]; auto; left; [exists D; auto|inversion Eq; subst; exists C; auto].
        * intros [[D [[H1|H1] H2]]|H]; auto; [inversion H1; subst; right; left; exists b; auto|left; exists D; auto].
      + intros v. rewrite N3, N by (apply add_node_in; auto). rewrite add_node_in. split.
        * intros [[a [D [H1 H2]]]|[H|[->|H]]]; auto; left; [exists a, D; auto|exists i, C; auto|exists i, C; auto].
        * intros [[a [D [[H1|H1] H2]]]|H]; auto; [inversion H1; subst; tauto|left; exists a, D; auto].
  Qed.

  Lemma order_drawn : forall share ps (g : drawn), tidy g ->
    let g' := fold_left (fun g p => if share_factor keqb (fst p) (snd p) share then g else add_edge keqb g (fst p) (snd p)) ps g in
    tidy g' /\ (forall i j, In (i, j) (snd g') <-> (In (i, j) ps /\ ~ together share i j) \/ In (i, j) (snd g))
    /\ (forall v, In v (fst g') <-> (exists i j, In (i, j) ps /\ ~ together share i j /\ (v = i \/ v = j)) \/ In v (fst g)).
  Proof using keqb_spec.
    intros share. induction ps as [|[i j] ps IH]; intros g T; simpl.
    - split; auto. split; intros; (split; [auto|]); [intros [[[] _]|H]|intros [[? [? [[] _]]]|H]]; auto.
    - destruct (share_factor keqb i j share) eqn:S.
      + apply share_together in S. destruct (IH g T) as [T2 [E N]]. split; auto. split.
        * intros a b. rewrite E. split; [tauto|]. intros [[[H1|H1] H2]|H]; auto. inversion H1; subst. contradiction.
        * intros v. rewrite N. split.
          -- intros [[a [b [H1 H2]]]|H]; auto. left. exists a, b. auto.
          -- intros [[a [b [[H1|H1] [H2 H3]]]]|H]; auto; [inversion H1; subst; contradiction|left; exists a, b; auto].
      + assert (S' : ~ together share i j) by (rewrite <- share_together; congruence).
        destruct (IH _ (add_edge_nodup g i j T)) as [T2 [E N]]. split; auto. split.
        * intros a b. rewrite E, add_edge_edges. split.
          -- intros [H|[H|H]]; [tauto| |tauto]. inversion H; subst. auto.
          -- intros [[[H1|H1] H2]|H]; auto.
        * intros v. rewrite N, add_edge_nodes. split.
          -- intros [[a [b [H1 H2]]]|[->|[->|H]]]; auto; left; [exists a, b|exists i, j|exists i, j]; auto.
          -- intros [[a [b [[H1|H1] [H2 H3]]]]|H]; auto; [inversion H1; subst; tauto|left; exists a, b; auto].
  Qed.

  Lemma make_graph_is : forall LI order share, let g := make_graph keqb LI order share in
    tidy g
    /\ (forall i j, In (i, j) (snd g) <-> (exists C, In (i, C) LI /\ In j C) \/ (precedes order i j /\ ~ together share i j))
    /\ (forall v, In v (fst g) <-> (exists i C, In (i, C) LI /\ (v = i \/ In v C))
                               \/ (exists i j, precedes order i j /\ ~ together share i j /\ (v = i \/ v = j))).
  Proof using keqb_spec.
    intros LI order share. unfold make_graph, draw_order, draw_members.
    assert (T0 : tidy ([], [])) by (split; constructor).
    destruct (members_drawn LI ([], []) [] T0) as [T [E N]].
    destruct (order_drawn share (comb2 order) _ T) as [T2 [E2 N2]]. split; auto. split.
    - intros i j. rewrite E2, E, comb2_precedes. simpl. tauto.
    - intros v. rewrite N2, N. simpl. split.
      + intros [[i [j [H1 H2]]]|[H|[]]]; auto. right. exists i, j. rewrite <- comb2_precedes. auto.
      + intros [H|[i [j [H1 H2]]]]; auto. left. exists i, j. rewrite comb2_precedes. auto.
  Qed.
End DrawnFacts.

Lemma lname_eqb_spec : forall a b, lname_eqb a b = true <-> a = b.
Proof.
  intros [i|i] [j|j]; simpl; try (split; [discriminate|intros; discriminate]); rewrite Nat.eqb_eq; split; intros H; [f_equal; auto|inversion H; auto|f_equal; auto|inversion H; auto].
Qed.

Lemma dset_fresh : forall (d : list (lname * list lname)) k v, ~ In k (dkeys d) -> dset lname_eqb d k v = d ++ [(k, v)].
Proof.
  induction d as [|[a b] d IH]; intros k v H; simpl; auto. destruct (lname_eqb k a) eqn:E.
  - apply lname_eqb_spec in E. subst. exfalso. apply H. left. auto.
  - f_equal. apply IH. intros F. apply H. right. auto.
Qed.

Lemma name_latents_is : forall n clu i LI ts, (forall x, In x (dkeys LI) -> exists k, x = Lat k /\ k < i) ->
  name_latents n clu (i, LI, ts) = (i + n, LI ++ map (fun k => (Lat k, clu)) (seq i n), ts ++ map Lat (seq i n)).
Proof.
  induction n as [|n IH]; intros clu i LI ts H; cbn [name_latents seq map].
  - rewrite !app_nil_r, Nat.add_0_r. auto.
  - rewrite dset_fresh. 2:{ intros F. apply H in F. destruct F as [k [E L]]. inversion E. lia. }
    rewrite IH.
    + rewrite <- !app_assoc. simpl. repeat f_equal. lia.
    + intros x. unfold dkeys. rewrite map_app, in_app_iff. intros [F|[F|[]]].
      * apply H in F. destruct F as [k [E L]]. exists k. split; auto.
      * exists i. auto.
Qed.

(** What holds after the clusters [done], each with the number that its key asks for. *)
Definition indexed (done : list (Z * list lname)) (s : nat * list (lname * list lname) * list (list lname)) : Prop :=
  match s with (i, LI, SC) =>
    dkeys LI = concat SC /\ concat SC = map Lat (seq 1 (length (concat SC))) /\ i = S (length (concat SC))
    /\ Forall2 (fun p g => length g = Z.to_nat (fst p) /\ forall x, In x g -> In (x, snd p) LI) done SC
  end.

Lemma indexed_keys : forall done i LI SC, indexed done (i, LI, SC) -> forall x, In x (dkeys LI) -> exists k, x = Lat k /\ k < i.
Proof.
  intros done i LI SC [A [B [C _]]] x H. rewrite A, B in H. apply in_map_iff in H. destruct H as [k [<- H]]. apply in_seq in H. exists k. split; auto. lia.
Qed.

Lemma Forall2_imp : forall {A B} (P Q : A -> B -> Prop) l m, (forall a b, P a b -> Q a b) -> Forall2 P l m -> Forall2 Q l m.
Proof. intros A B P Q l m H F. induction F; constructor; auto. Qed.

Lemma index_one : forall n clu done i LI SC, indexed done (i, LI, SC) ->
  indexed (done ++ [(n, clu)]) (match name_latents (Z.to_nat n) clu (i, LI, []) with (i', LI', ts) => (i', LI', SC ++ [ts]) end).
Proof.
  intros n clu done i LI SC I. rewrite name_latents_is by exact (indexed_keys _ _ _ _ I). destruct I as [A [B [C D]]]. simpl app.
  unfold indexed. rewrite concat_app. simpl concat. rewrite app_nil_r.
  assert (L : length (concat SC ++ map Lat (seq i (Z.to_nat n))) = length (concat SC) + Z.to_nat n) by (rewrite app_length, map_length, seq_length; auto).
  rewrite L. repeat split.
  - unfold dkeys in *. rewrite map_app, A, map_map. simpl. auto.
  - rewrite seq_app, map_app, <- B, C. simpl. auto.
  - lia.
  - apply Forall2_app.
    + eapply Forall2_imp; [|exact D]. intros p g [H1 H2]. split; auto. intros x Hx. apply in_app_iff. left. auto.
    + constructor; [|constructor]. simpl. split; [rewrite map_length, seq_length; auto|]. intros x Hx. apply in_map_iff in Hx. destruct Hx as [k [<- Hk]].
      apply in_app_iff. right. apply in_map_iff. exists k. auto.
Qed.

Lemma index_clusters_is : forall n lists done s, indexed done s -> indexed (done ++ map (pair n) lists) (index_clusters n lists s).
Proof.
  intros n. induction lists as [|clu l IH]; intros done [[i LI] SC] I; simpl; [rewrite app_nil_r; auto|].
  replace (done ++ (n, clu) :: map (pair n) l) with ((done ++ [(n, clu)]) ++ map (pair n) l) by (rewrite <- app_assoc; auto).
  apply IH. apply (index_one n clu done i LI SC I).
Qed.

Definition listed (Cluster : list (option Z * list (list lname))) : list (Z * list lname) :=
  flat_map (fun p => match fst p with Some n => map (pair n) (snd p) | None => [] end) Cluster.

Lemma index_keys_is : forall Cluster done s s', indexed done s -> index_keys Cluster s = Ok s' -> indexed (done ++ listed Cluster) s'.
Proof.
  induction Cluster as [|[[n|] lists] r IH]; intros done s s' I H; simpl in *; [inversion H; subst; rewrite app_nil_r; auto| |discriminate].
  unfold listed. simpl. rewrite app_assoc. apply (IH _ _ _ (index_clusters_is n lists done s I) H).
Qed.
Lemma index_keys_ok : forall Cluster s, (forall p, In p Cluster -> fst p <> None) -> exists s', index_keys Cluster s = Ok s'.
Proof.
  induction Cluster as [|[[n|] lists] r IH]; intros s H; simpl; [eexists; auto| |exfalso; exact (H _ (or_introl eq_refl) eq_refl)].
  apply IH. intros p Hp. apply H. right. auto.
Qed.
Lemma index_keys_err : forall Cluster s p, In p Cluster -> fst p = None -> index_keys Cluster s = Err ValueError.
Proof.
  induction Cluster as [|[[n|] lists] r IH]; intros s p H E; simpl; [destruct H| |auto].
  destruct H as [<-|H]; [discriminate|]. apply (IH _ p H E).
Qed.

Lemma transfer_is : forall Cluster Order LI RL SC, transfer2index Cluster Order = Ok (LI, RL, SC) ->
  (exists i, indexed (listed Cluster) (i, LI, SC)) /\ RL = root_list LI Order.
Proof.
  intros Cluster Order LI RL SC H. unfold transfer2index in H. destruct (index_keys Cluster (1, [], [])) as [s|e] eqn:E; [|discriminate].
  cbn [rbind] in H. destruct s as [[i LI'] SC']. inversion H; subst. split; auto. exists i.
  apply (index_keys_is Cluster [] (1, [], [])); auto. split; [auto|]. split; [auto|]. split; [auto|constructor].
Qed.

Lemma NoDup_lat : forall i n, NoDup (map Lat (seq i n)).
Proof.
  intros i n. revert i. induction n as [|n IH]; intros i; simpl; constructor; auto. intros H. apply in_map_iff in H. destruct H as [k [E H]]. inversion E. subst. apply in_seq in H. lia.
Qed.
Lemma indexed_nodup : forall done i LI SC, indexed done (i, LI, SC) -> NoDup (dkeys LI).
Proof. intros done i LI SC [A [B _]]. rewrite A, B. apply NoDup_lat. Qed.

Lemma keys_unique : forall (LI : list (lname * list lname)) x C D, NoDup (dkeys LI) -> In (x, C) LI -> In (x, D) LI -> C = D.
Proof.
  induction LI as [|[a b] l IH]; intros x C D N H1 H2; [destruct H1|]. unfold dkeys in N. simpl in N. inversion N; subst.
  destruct H1 as [H1|H1], H2 as [H2|H2].
  - congruence.
  - inversion H1; subst. exfalso. apply H3. apply in_map_iff. exists (x, D). auto.
  - inversion H2; subst. exfalso. apply H3. apply in_map_iff. exists (x, C). auto.
  - exact (IH _ _ _ H4 H1 H2).
Qed.

Lemma block_in : forall (LI : list (lname * list lname)) root x, In x (map fst (filter (fun p => same_set lname_eqb (snd p) root) LI)) <-> exists C, In (x, C) LI /\ alike C root.
Proof.
  intros LI root x. rewrite in_map_iff. split.
  - intros [[a C] [<- H]]. apply filter_In in H. destruct H as [H E]. apply (same_set_alike lname_eqb lname_eqb_spec) in E. exists C. auto.
  - intros [C [H E]]. exists (x, C). split; auto. apply filter_In. split; auto. apply (same_set_alike lname_eqb lname_eqb_spec). auto.
Qed.
Lemma block_nodup : forall (LI : list (lname * list lname)) f, NoDup (dkeys LI) -> NoDup (map fst (filter f LI)).
Proof.
  induction LI as [|[a C] l IH]; intros f N; simpl; [constructor|]. unfold dkeys in N. simpl in N. inversion N; subst.
  destruct (f (a, C)); [|apply IH; auto]. simpl. constructor; [|apply IH; auto]. intros H. apply H1. apply in_map_iff in H. destruct H as [p [E H]].
  apply filter_In in H. apply in_map_iff. exists p. tauto.
Qed.
Lemma block_order : forall (LI : list (lname * list lname)) f a b, precedes (map fst (filter f LI)) a b -> precedes (dkeys LI) a b.
Proof.
  induction LI as [|[x C] l IH]; intros f a b H; simpl in H; [destruct H as [[|] [? [? E]]]; discriminate|].
  unfold dkeys. simpl. apply precedes_cons. destruct (f (x, C)); simpl in H.
  - apply precedes_cons in H. destruct H as [[-> H]|H]; [left; split; auto|right; apply (IH f); auto].
    apply in_map_iff in H. destruct H as [p [<- H]]. apply filter_In in H. apply in_map. tauto.
  - right. apply (IH f). auto.
Qed.

Lemma nodup_app : forall {A} (l m : list A), NoDup l -> NoDup m -> (forall x, In x l -> ~ In x m) -> NoDup (l ++ m).
Proof.
  intros A l m N M H. induction l as [|a l IH]; simpl; auto. inversion N; subst. constructor.
  - rewrite in_app_iff. intros [F|F]; [auto|]. exact (H a (or_introl eq_refl) F).
  - apply IH; auto. intros x Hx. apply H. right. auto.
Qed.

Lemma root_list_in : forall LI Order x, In x (root_list LI Order) <-> exists root C, In root Order /\ In (x, C) LI /\ alike C root.
Proof.
  intros LI Order x. unfold root_list. rewrite in_flat_map. split.
  - intros [root [H1 H2]]. apply block_in in H2. destruct H2 as [C H2]. exists root, C. auto.
  - intros [root [C [H1 H2]]]. exists root. split; auto. apply block_in. exists C. auto.
Qed.

Lemma different_cons : forall {A} (x : list A) l, all_different (x :: l) -> (forall y, In y l -> ~ alike x y) /\ all_different l.
Proof.
  intros A x l H. split.
  - intros y Hy. apply in_split in Hy. destruct Hy as [b [c ->]]. exact (H [] x b y c eq_refl).
  - intros a z b y c ->. exact (H (x :: a) z b y c eq_refl).
Qed.

Lemma root_list_nodup : forall LI Order, NoDup (dkeys LI) -> all_different Order -> NoDup (root_list LI Order).
Proof.
  intros LI Order N. induction Order as [|r l IH]; intros D; simpl; [constructor|]. apply different_cons in D. destruct D as [D1 D2].
  apply nodup_app; [apply block_nodup; auto|apply IH; auto|].
  intros x Hx F. apply block_in in Hx. destruct Hx as [C [H1 H2]]. change (In x (root_list LI l)) in F. apply root_list_in in F.
  destruct F as [r' [C' [H3 [H4 H5]]]]. rewrite (keys_unique LI x C' C N H4 H1) in H5. apply (D1 r' H3). intros y. rewrite <- (H2 y). apply H5.
Qed.
