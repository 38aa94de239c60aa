(** Facts about Overlap_Merge.py: sorting, the overlap graph, breadth-first
    search and the components. *)

From Coq Require Import List Arith Bool Lia Permutation Sorting.Sorted.
From Verif Require Import Model.Py Model.LHS Proofs.PyFacts Spec.Clusters.
Import ListNotations.
Open Scope nat_scope.

(* ---------- sorting ---------- *)
Lemma insert_sorted_perm : forall x l, Permutation (insert_sorted x l) (x :: l).
Proof.
  induction l as [|y l IH]; simpl; auto. destruct (Nat.leb x y); auto.
  rewrite IH. apply perm_swap.
Qed.

Lemma py_sorted_perm : forall l, Permutation (py_sorted l) l.
Proof.
  induction l as [|x l IH]; simpl; auto. rewrite insert_sorted_perm, IH. auto.
Qed.

Lemma py_sorted_In : forall x l, In x (py_sorted l) <-> In x l.
Proof.
  intros. split; apply Permutation_in; [|apply Permutation_sym]; apply py_sorted_perm.
Qed.

Lemma insert_sorted_sorted : forall x l, ~ In x l -> StronglySorted lt l -> StronglySorted lt (insert_sorted x l).
Proof.
  induction l as [|y l IH]; simpl; intros N H; [repeat constructor|].
  inversion H; subst. destruct (Nat.leb_spec x y).
  - assert (x < y) by (assert (y <> x) by tauto; lia). constructor; auto. constructor; auto.
    eapply Forall_impl; [|exact H3]. intros; simpl in *; lia.
  - constructor; [apply IH; tauto|]. apply Forall_forall. intros z Hz.
    apply (Permutation_in _ (insert_sorted_perm x l)) in Hz. destruct Hz as [<-|Hz]; auto.
    rewrite Forall_forall in H3. auto.
Qed.

Lemma py_sorted_sorted : forall l, NoDup l -> StronglySorted lt (py_sorted l).
Proof.
  induction 1; simpl; [constructor|]. apply insert_sorted_sorted; auto.
  rewrite py_sorted_In. auto.
Qed.

(* ---------- dictionaries ---------- *)
Definition nbrs (g : list (nat * list nat)) (v : nat) : list nat :=
  match dget Nat.eqb g v with Some l => l | None => [] end.

Definition gwf (g : list (nat * list nat)) : Prop :=
  NoDup (dkeys g) /\ (forall v w, In w (nbrs g v) -> In w (dkeys g)) /\
  (forall v w, In w (nbrs g v) -> In v (nbrs g w)).

Lemma dkeys_dset : forall {V} (g : list (nat * V)) k v x,
  In x (dkeys (dset Nat.eqb g k v)) <-> x = k \/ In x (dkeys g).
Proof.
  induction g as [|[k' v'] g IH]; simpl; intros; [intuition|].
  destruct (Nat.eqb_spec k k'); simpl; [subst; intuition|]. fold (dkeys g). unfold dkeys in *.
  rewrite IH. intuition.
Qed.

Lemma nbrs_add : forall g k v x y,
  In y (nbrs (add_neighbour g k v) x) <-> In y (nbrs g x) \/ (x = k /\ y = v).
Proof.
  intros. unfold nbrs, add_neighbour. destruct (Nat.eq_dec x k) as [->|N].
  - destruct (dget Nat.eqb g k) as [s|] eqn:E; rewrite (dget_dset_eq _ Neqb_spec).
    + destruct (memb v s) eqn:M.
      * apply memb_In in M. intuition (subst; auto).
      * rewrite in_app_iff. simpl. intuition.
    + simpl. intuition.
  - destruct (dget Nat.eqb g k) as [s|] eqn:E; rewrite (dget_dset_neq _ Neqb_spec) by auto; intuition.
Qed.

Lemma keys_add : forall g k v x, In x (dkeys (add_neighbour g k v)) <-> x = k \/ In x (dkeys g).
Proof.
  intros. unfold add_neighbour. destruct (dget Nat.eqb g k); apply dkeys_dset.
Qed.

Lemma NoDup_add : forall g k v, NoDup (dkeys g) -> NoDup (dkeys (add_neighbour g k v)).
Proof.
  intros. unfold add_neighbour. destruct (dget Nat.eqb g k); apply (NoDup_dset _ Neqb_spec); auto.
Qed.

Lemma om_graph_gen : forall es g,
  NoDup (dkeys g) ->
  let g' := fold_left (fun g (e : nat * nat) => add_neighbour (add_neighbour g (fst e) (snd e)) (snd e) (fst e)) es g in
  NoDup (dkeys g') /\
  (forall x y, In y (nbrs g' x) <-> In y (nbrs g x) \/ In (x, y) es \/ In (y, x) es) /\
  (forall x, In x (dkeys g') <-> In x (dkeys g) \/ exists y, In (x, y) es \/ In (y, x) es).
Proof.
  induction es as [|[a b] es IH]; intros g ND; simpl.
  - split; [auto|]. split; intros; [intuition|]. split; intros; auto. destruct H as [H|[y [[]|[]]]]; auto.
  - destruct (IH (add_neighbour (add_neighbour g a b) b a)) as [H1 [H2 H3]].
    { repeat apply NoDup_add. auto. }
    split; [exact H1|]. split.
    + intros x y. rewrite H2, !nbrs_add. split.
      * intros [[[H|[-> ->]]|[-> ->]]|[H|H]]; auto.
      * intros [H|[[H|H]|[H|H]]]; auto; inversion H; subst; auto.
    + intro x. rewrite H3, !keys_add. split.
      * intros [[->|[->|H]]|[y [H|H]]]; eauto 6.
      * intros [H|[y [[H|H]|[H|H]]]]; eauto; inversion H; subst; auto.
Qed.

Lemma om_graph_nbrs : forall es x y, In y (nbrs (om_graph es) x) <-> In (x, y) es \/ In (y, x) es.
Proof.
  intros. destruct (om_graph_gen es [] (NoDup_nil _)) as [_ [H _]]. unfold om_graph. rewrite H. simpl. tauto.
Qed.

Lemma om_graph_keys : forall es x, In x (dkeys (om_graph es)) <-> exists y, In (x, y) es \/ In (y, x) es.
Proof.
  intros. destruct (om_graph_gen es [] (NoDup_nil _)) as [_ [_ H]]. unfold om_graph. rewrite H. simpl. tauto.
Qed.

Lemma om_graph_wf : forall es, gwf (om_graph es).
Proof.
  intros. split; [|split].
  - exact (proj1 (om_graph_gen es [] (NoDup_nil _))).
  - intros v w H. rewrite om_graph_nbrs in H. rewrite om_graph_keys. exists v. tauto.
  - intros v w. rewrite !om_graph_nbrs. tauto.
Qed.

Lemma set_minus_In : forall x s t, In x (set_minus s t) <-> In x s /\ ~ In x t.
Proof.
  intros. unfold set_minus. rewrite filter_In, negb_true_iff, memb_false. tauto.
Qed.

Lemma set_minus_length : forall s t, length (set_minus s t) <= length s.
Proof.
  intros. unfold set_minus. induction s; simpl; auto. destruct (negb _); simpl; lia.
Qed.

(* ---------- breadth-first search ---------- *)
Inductive gpath (g : list (nat * list nat)) : nat -> nat -> Prop :=
| gp_refl : forall v, gpath g v v
| gp_step : forall u v w, gpath g u v -> In w (nbrs g v) -> gpath g u w.

Lemma gpath_trans : forall g u v w, gpath g u v -> gpath g v w -> gpath g u w.
Proof.
  intros g u v w H1 H2. induction H2 as [|a b c H IH Hc]; auto. apply gp_step with b; auto.
Qed.

Lemma gpath_sym : forall g u v, gwf g -> gpath g u v -> gpath g v u.
Proof.
  intros g u v [_ [_ W]] H. induction H; [constructor|].
  eapply gpath_trans; [eapply gp_step; [constructor|apply W; eauto]|]. auto.
Qed.

Definition ord_ok (ord : list nat -> list nat) : Prop := forall s, Permutation (ord s) s.

Lemma ord_In : forall ord s x, ord_ok ord -> (In x (ord s) <-> In x s).
Proof.
  intros ord s x H. split; apply Permutation_in; [|apply Permutation_sym]; apply H.
Qed.

(** Adjacencies of the keys that are not visited yet. *)
Definition todo (g : list (nat * list nat)) (visited : list nat) : nat :=
  list_sum (map (fun p : nat * list nat => if memb (fst p) visited then 0 else length (snd p)) g).

Lemma todo_nil : forall g, S (todo g []) = om_fuel g.
Proof. intros. unfold todo, om_fuel. f_equal. Qed.

Lemma memb_app1 : forall x v l, memb x (l ++ [v]) = memb x l || Nat.eqb x v.
Proof. intros. unfold memb. rewrite existsb_app. simpl. rewrite orb_false_r. auto. Qed.

Lemma todo_visit : forall g visited v nb,
  NoDup (dkeys g) -> dget Nat.eqb g v = Some nb -> memb v visited = false ->
  todo g (visited ++ [v]) + length nb = todo g visited.
Proof.
  induction g as [|[k l] g IH]; intros visited v nb ND E M; simpl in *; [discriminate|].
  inversion ND; subst. unfold todo in *. simpl. rewrite memb_app1.
  destruct (Nat.eqb_spec v k).
  - subst. inversion E; subst. rewrite M, Nat.eqb_refl. simpl.
    assert (G : map (fun p : nat * list nat => if memb (fst p) (visited ++ [k]) then 0 else length (snd p)) g
              = map (fun p : nat * list nat => if memb (fst p) visited then 0 else length (snd p)) g).
    { apply map_ext_in. intros [k' l'] H. simpl. rewrite memb_app1.
      destruct (Nat.eqb_spec k' k); [|rewrite orb_false_r; auto].
      subst. exfalso. apply H1. apply in_map_iff. exists (k, l'). auto. }
    rewrite G. lia.
  - destruct (Nat.eqb_spec k v); [congruence|]. rewrite orb_false_r.
    specialize (IH visited v nb H2 E M). lia.
Qed.

Lemma om_bfs_ok : forall fuel ord g visited queue start,
  gwf g -> ord_ok ord ->
  length queue + todo g visited <= fuel ->
  NoDup visited ->
  (forall v, In v visited -> gpath g start v) ->
  (forall v, In v queue -> gpath g start v /\ In v (dkeys g)) ->
  (forall v w, In v visited -> In w (nbrs g v) -> In w visited \/ In w queue) ->
  exists c, om_bfs fuel ord g visited queue = Ok c /\ NoDup c /\
    (forall v, In v visited \/ In v queue -> In v c) /\
    (forall v, In v c -> gpath g start v) /\
    (forall v w, In v c -> In w (nbrs g v) -> In w c).
Proof.
  induction fuel as [|fuel IH]; intros ord g visited queue start W O F ND HV HQ HC.
  - destruct queue; simpl in F; [|lia]. exists visited. simpl. split; [auto|]. split; [auto|].
    split; [intros v [H|[]]; auto|]. split; auto. intros v w H H'. destruct (HC v w H H') as [|[]]; auto.
  - destruct queue as [|v q]; simpl.
    { exists visited. split; [auto|]. split; [auto|].
      split; [intros v [H|[]]; auto|]. split; auto. intros v w H H'. destruct (HC v w H H') as [|[]]; auto. }
    destruct (memb v visited) eqn:M.
    + destruct (IH ord g visited q start) as [c [E [N [I [R C]]]]]; auto.
      { simpl in F. lia. } { intros; apply HQ; right; auto. }
      { intros a b Ha Hb. destruct (HC a b Ha Hb) as [|[<-|]]; auto. left. apply memb_In. auto. }
      exists c. split; [auto|]. split; [auto|]. split; [|auto].
      intros a [H|[<-|H]]; apply I; auto. left. apply memb_In. auto.
    + destruct (HQ v (or_introl eq_refl)) as [Pv Kv].
      destruct (dget Nat.eqb g v) as [nb|] eqn:E.
      2:{ exfalso. apply (dget_None_key _ Neqb_spec) in E. auto. }
      unfold dgetE. rewrite E. cbn [rbind].
      assert (Nb : nbrs g v = nb) by (unfold nbrs; rewrite E; auto).
      destruct (IH ord g (visited ++ [v]) (q ++ ord (set_minus nb (visited ++ [v]))) start) as [c [E' [N [I [R C]]]]]; auto.
      * rewrite app_length. rewrite (Permutation_length (O _)).
        pose proof (set_minus_length nb (visited ++ [v])). simpl in F.
        pose proof (todo_visit g visited v nb (proj1 W) E M). lia.
      * apply Permutation_NoDup with (v :: visited); [apply Permutation_cons_append|].
        constructor; auto. apply memb_false. auto.
      * intros a Ha. apply in_app_iff in Ha. destruct Ha as [Ha|[<-|[]]]; auto.
      * intros a Ha. apply in_app_iff in Ha. destruct Ha as [Ha|Ha]; [apply HQ; right; auto|].
        rewrite ord_In in Ha by auto. apply set_minus_In in Ha. destruct Ha as [Ha _].
        rewrite <- Nb in Ha. split; [eapply gp_step; eauto|]. destruct W as [_ [W _]]. eauto.
      * intros a b Ha Hb. rewrite !in_app_iff. apply in_app_iff in Ha. destruct Ha as [Ha|[<-|[]]].
        -- destruct (HC a b Ha Hb) as [|[<-|]]; simpl; auto.
        -- rewrite Nb in Hb. destruct (in_dec Nat.eq_dec b (visited ++ [v])) as [H|H].
           ++ left. apply in_app_iff. auto.
           ++ right. right. rewrite ord_In by auto. apply set_minus_In. auto.
      * exists c. split; [auto|]. split; [auto|]. split; [|auto].
        intros a [H|[<-|H]]; apply I; rewrite !in_app_iff; simpl; auto.
Qed.

Lemma bfs_component : forall ord g v,
  gwf g -> ord_ok ord -> In v (dkeys g) ->
  exists c, om_bfs (om_fuel g) ord g [] [v] = Ok c /\ NoDup c /\ forall w, In w c <-> gpath g v w.
Proof.
  intros ord g v W O K.
  destruct (om_bfs_ok (om_fuel g) ord g [] [v] v W O) as [c [E [N [I [R C]]]]].
  - rewrite <- todo_nil. apply le_n.
  - constructor.
  - intros a [].
  - intros a [<-|[]]. split; [constructor|auto].
  - intros a b [].
  - exists c. split; [auto|]. split; [auto|]. intro w. split; [auto|].
    induction 1; [apply I; simpl; auto|]. eauto.
Qed.

Lemma om_components_ok : forall ord g keys seen,
  gwf g -> ord_ok ord -> incl keys (dkeys g) ->
  (forall v w, In v seen -> In w (nbrs g v) -> In w seen) ->
  exists cs, om_components ord g keys seen = Ok cs /\
    (forall c, In c cs -> NoDup c /\ exists v, In v keys /\ forall w, In w c <-> gpath g v w) /\
    (forall v, In v keys -> In v seen \/ exists c, In c cs /\ In v c) /\
    (forall c v, In c cs -> In v c -> ~ In v seen) /\
    pairwise_disjoint cs.
Proof.
  intros ord g keys. induction keys as [|v keys IH]; intros seen W O K S; cbn [om_components].
  - exists []. split; [auto|]. split; [intros c []|]. split; [intros v []|]. split; [intros c v []|].
    intros i j x _ H. destruct i; destruct H.
  - assert (K' : incl keys (dkeys g)) by (intros a Ha; apply K; right; auto).
    destruct (memb v seen) eqn:M.
    + destruct (IH seen W O K' S) as [cs [E [A [B [D P]]]]].
      exists cs. split; [auto|]. split.
      { intros c Hc. destruct (A c Hc) as [N [a [Ha H]]]. split; auto. exists a. simpl. auto. }
      split; [|auto]. intros a [<-|Ha]; auto. left. apply memb_In. auto.
    + destruct (bfs_component ord g v W O (K v (or_introl eq_refl))) as [c [E [N R]]].
      rewrite E. cbn [rbind].
      assert (Sc : forall a w, In a (set_union seen c) -> In w (nbrs g a) -> In w (set_union seen c)).
      { intros a w Ha Hw. rewrite set_union_In in *. destruct Ha as [Ha|Ha]; [left; eauto|].
        right. apply R. apply R in Ha. eapply gp_step; eauto. }
      destruct (IH (set_union seen c) W O K' Sc) as [cs [E' [A [B [D P]]]]].
      rewrite E'. cbn [rbind]. exists (c :: cs). split; [auto|].
      assert (NS : forall a, In a c -> ~ In a seen).
      { intros a Ha Hs. apply R in Ha. apply memb_false in M. apply M.
        apply (gpath_sym g v a W) in Ha. clear -Ha Hs S. induction Ha; eauto. }
      split; [|split; [|split]].
      * intros d [<-|Hd].
        { split; [auto|]. exists v. split; [left; auto|auto]. }
        destruct (A d Hd) as [N' [a [Ha H]]]. split; auto. exists a. simpl. auto.
      * intros a [<-|Ha]; [right; exists c; split; [left; auto|apply R; constructor]|].
        destruct (B a Ha) as [H|[d [Hd H]]]; [|right; exists d; split; [right|]; auto].
        rewrite set_union_In in H. destruct H as [H|H]; [auto|]. right. exists c. split; [left|]; auto.
      * intros d a [<-|Hd] Ha; auto. intro H. apply (D d a Hd Ha). rewrite set_union_In. auto.
      * assert (X : forall j x, In x c -> ~ In x (nth j cs [])).
        { intros j x Hc Hx. destruct (Nat.lt_ge_cases j (length cs)).
          - apply (D (nth j cs []) x (nth_In _ _ H) Hx). rewrite set_union_In. auto.
          - rewrite nth_overflow in Hx by auto. destruct Hx. }
        intros [|i] [|j] x NE Hi Hj; simpl in *; try congruence.
        -- eapply X; eauto.
        -- eapply X; eauto.
        -- apply (P i j x); auto.
Qed.

(* ---------- merge_list ---------- *)
Lemma filters_In : forall cs (u : list nat) i,
  In i (fold_left (fun u c => filter (fun i => negb (memb i c)) u) cs u) <->
  In i u /\ forall c, In c cs -> ~ In i c.
Proof.
  induction cs as [|c cs IH]; simpl; intros u i.
  - split; [intro; split; auto; intros c []|tauto].
  - rewrite IH, filter_In, negb_true_iff, memb_false. split.
    + intros [[H1 H2] H3]. split; auto. intros d [<-|H]; auto.
    + intros [H1 H2]. split; [split|]; auto.
Qed.

Lemma filters_NoDup : forall cs (u : list nat), NoDup u ->
  NoDup (fold_left (fun u c => filter (fun i => negb (memb i c)) u) cs u).
Proof.
  induction cs; simpl; intros; auto. apply IHcs. apply NoDup_filter. auto.
Qed.

Lemma intersects_spec : forall s t, intersects s t = true <-> exists x, In x s /\ In x t.
Proof.
  intros. unfold intersects. rewrite existsb_exists. split; intros [x [H1 H2]]; exists x; rewrite memb_In in *; auto.
Qed.

Section Merge.
  Variable L : list (list nat).
  Let s := map py_set L.
  Let n := length s.
  Let edges := filter (fun p : nat * nat => intersects (nth (fst p) s []) (nth (snd p) s [])) (comb2 (seq 0 n)).
  Let G := om_graph edges.

  Lemma s_nth : forall i x, In x (nth i s []) <-> In x (nth i L []).
  Proof.
    intros. unfold s. change (@nil nat) with (py_set []) at 1. rewrite map_nth. apply py_set_In.
  Qed.

  Lemma s_len : n = length L.
  Proof. unfold n, s. apply map_length. Qed.

  Lemma G_nbrs : forall i j, In j (nbrs G i) <->
    i < n /\ j < n /\ i <> j /\ exists x, In x (nth i L []) /\ In x (nth j L []).
  Proof.
    intros. unfold G. rewrite om_graph_nbrs. unfold edges. rewrite !filter_In. cbn [fst snd].
    rewrite !intersects_spec. split.
    - intros [[H [x [H1 H2]]]|[H [x [H1 H2]]]]; rewrite s_nth in H1, H2.
      + pose proof (in_comb2_In _ _ _ H) as [A B]. rewrite in_seq in A, B.
        pose proof (in_comb2_neq _ _ _ (seq_NoDup n 0) H). repeat split; try lia. eauto.
      + pose proof (in_comb2_In _ _ _ H) as [A B]. rewrite in_seq in A, B.
        pose proof (in_comb2_neq _ _ _ (seq_NoDup n 0) H). repeat split; try lia. eauto.
    - intros [Hi [Hj [N [x [H1 H2]]]]].
      destruct (in_comb2_total (seq 0 n) i j) as [H|H]; try (apply in_seq; lia); auto;
        [left|right]; split; auto; exists x; rewrite !s_nth; auto.
  Qed.

  Lemma G_key : forall i, In i (dkeys G) <-> exists j, In j (nbrs G i).
  Proof.
    intros. unfold G. rewrite om_graph_keys. split; intros [j H]; exists j; rewrite om_graph_nbrs in *; auto.
  Qed.

  Lemma gpath_linked : forall i j x y, gpath G i j -> i < n -> In x (nth i L []) -> In y (nth j L []) -> linked L x y.
  Proof.
    intros i j x y H. revert y. induction H as [v|u v w H IH Hw]; intros y Hu Hx Hy.
    - apply linked_in with (nth v L []); auto. apply nth_In. rewrite <- s_len. auto.
    - apply G_nbrs in Hw. destruct Hw as [Hv [Hw [_ [z [H1 H2]]]]].
      apply linked_step with (nth w L []) z; auto. apply nth_In. rewrite <- s_len. auto.
  Qed.

  Lemma linked_gpath : forall x y, linked L x y ->
    exists i j, i < n /\ j < n /\ gpath G i j /\ In x (nth i L []) /\ In y (nth j L []).
  Proof.
    induction 1.
    - destruct (In_nth _ _ [] H) as [i [Hi E]]. exists i, i. rewrite s_len. subst a.
      repeat split; auto. constructor.
    - destruct IHlinked as [i [j [Hi [Hj [P [Hx Hy]]]]]].
      destruct (In_nth _ _ [] H0) as [k [Hk E]]. subst a. rewrite <- s_len in Hk.
      exists i, k. repeat split; auto. destruct (Nat.eq_dec j k) as [->|N]; auto.
      apply gp_step with j; auto. apply G_nbrs. repeat split; auto. eauto.
  Qed.

  Lemma gpath_lt : forall i j, gpath G i j -> i < n -> j < n.
  Proof. intros i j H. induction H; auto. intros. apply G_nbrs in H0. tauto. Qed.

  Lemma gpath_share : forall i j x, i < n -> j < n -> In x (nth i L []) -> In x (nth j L []) -> gpath G i j.
  Proof.
    intros. destruct (Nat.eq_dec i j) as [->|N]; [constructor|]. eapply gp_step; [constructor|].
    apply G_nbrs. repeat split; auto. eauto.
  Qed.

  (** The output is a list of unions over index sets [cs'], one per component. *)
  Lemma merge_list_shape : forall ord, ord_ok ord ->
    exists cs, merge_list ord L = Ok (map (fun c => py_sorted (py_set (concat (map (fun i => nth i s []) c)))) cs
                 ++ map (fun i => py_sorted (nth i s [])) (fold_left (fun u c => filter (fun i => negb (memb i c)) u) cs (seq 0 n))) /\
      (forall c, In c cs -> exists v, v < n /\ In v c /\ forall w, In w c <-> gpath G v w) /\
      (forall v, v < n -> (exists w, In w (nbrs G v)) -> exists c, In c cs /\ In v c) /\
      (forall c v, In c cs -> In v c -> exists w, In w (nbrs G v)) /\
      pairwise_disjoint cs.
  Proof.
    intros ord O.
    destruct (om_components_ok ord G (dkeys G) [] (om_graph_wf _) O (incl_refl _)) as [cs [E [A [B [D P]]]]].
    { intros v w []. }
    exists cs. split.
    { unfold merge_list. fold s. fold n. fold edges. fold G. rewrite E. reflexivity. }
    split; [|split; [|split]]; auto.
    - intros c Hc. destruct (A c Hc) as [_ [v [Hv H]]]. exists v. split; [|split; [apply H; constructor|auto]].
      apply G_key in Hv. destruct Hv as [w Hw]. apply G_nbrs in Hw. tauto.
    - intros v Hv Hw. apply G_key in Hw. destruct (B v Hw) as [[]|]; auto.
    - intros c v Hc Hv. destruct (A c Hc) as [_ [a [Ha H]]]. apply H in Hv.
      inversion Hv; subst; [apply G_key; auto|]. exists v0. apply (om_graph_wf edges). auto.
  Qed.

  Lemma G_wf : gwf G.
  Proof. apply om_graph_wf. Qed.

  (** The output, described by the groups [gs] of input positions it joins. *)
  Lemma merge_list_groups : forall ord, ord_ok ord ->
    exists gs out, merge_list ord L = Ok out /\ length out = length gs /\
      (forall k x, In x (nth k out []) <-> exists i, In i (nth k gs []) /\ In x (nth i L [])) /\
      (forall c, In c out -> StronglySorted lt c) /\
      (forall k i j, In i (nth k gs []) -> i < n /\ (In j (nth k gs []) <-> gpath G i j)) /\
      (forall i, i < n -> exists k, In i (nth k gs [])) /\
      (forall g, In g gs -> g <> []) /\
      pairwise_disjoint gs.
  Proof.
    intros ord O. destruct (merge_list_shape ord O) as [cs [E [A [B [D P]]]]].
    set (un := fold_left (fun u c => filter (fun i => negb (memb i c)) u) cs (seq 0 n)) in *.
    set (f := fun c => py_sorted (py_set (concat (map (fun i => nth i s []) c)))) in *.
    set (h := fun i => py_sorted (nth i s [])) in *.
    assert (Un : forall i, In i un <-> i < n /\ forall c, In c cs -> ~ In i c).
    { intro i. unfold un. rewrite filters_In, in_seq. intuition lia. }
    assert (Sg : forall i j, In i un -> (j = i <-> gpath G i j)).
    { intros i j Hi. split; [intros ->; constructor|]. intro H. apply Un in Hi. destruct Hi as [Hn Hi].
      assert (Z : forall w, ~ In w (nbrs G i)).
      { intros w Hw. destruct (B i Hn (ex_intro _ w Hw)) as [c [Hc Hic]]. exact (Hi c Hc Hic). }
      apply (gpath_sym G i j G_wf) in H. inversion H; subst; auto.
      exfalso. apply (Z v). apply (proj2 (proj2 G_wf)). auto. }
    exists (cs ++ map (fun i => [i]) un), (map f cs ++ map h un).
    assert (NM : forall k, nth k (map f cs ++ map h un) [] =
                   if k <? length cs then f (nth k cs []) else
                   if k - length cs <? length un then h (nth (k - length cs) un 0) else []).
    { intro k. destruct (Nat.ltb_spec k (length cs)).
      - rewrite app_nth1 by (rewrite map_length; auto).
        rewrite nth_indep with (d' := f []) by (rewrite map_length; auto). apply map_nth.
      - rewrite app_nth2 by (rewrite map_length; auto). rewrite map_length.
        destruct (Nat.ltb_spec (k - length cs) (length un)).
        + rewrite nth_indep with (d' := h 0) by (rewrite map_length; auto). apply map_nth.
        + apply nth_overflow. rewrite map_length. auto. }
    assert (NG : forall k, nth k (cs ++ map (fun i => [i]) un) [] =
                   if k <? length cs then nth k cs [] else
                   if k - length cs <? length un then [nth (k - length cs) un 0] else []).
    { intro k. destruct (Nat.ltb_spec k (length cs)).
      - apply app_nth1. auto.
      - rewrite app_nth2 by auto. destruct (Nat.ltb_spec (k - length cs) (length un)).
        + rewrite nth_indep with (d' := (fun i => [i]) 0) by (rewrite map_length; auto). exact (map_nth (fun i => [i]) un 0 _).
        + apply nth_overflow. rewrite map_length. auto. }
    split; [exact E|]. split; [rewrite !app_length, !map_length; auto|].
    split; [|split; [|split; [|split; [|split]]]].
    - intros k x. rewrite NM, NG. destruct (k <? length cs).
      + unfold f. rewrite py_sorted_In, py_set_In, in_concat. split.
        * intros [l [Hl Hx]]. apply in_map_iff in Hl. destruct Hl as [i [<- Hi]].
          exists i. rewrite s_nth in Hx. auto.
        * intros [i [Hi Hx]]. exists (nth i s []). split; [apply in_map_iff; eauto|]. rewrite s_nth. auto.
      + destruct (k - length cs <? length un); [|simpl; split; [tauto|intros [i [[] _]]]].
        unfold h. rewrite py_sorted_In, s_nth. split.
        * intro. exists (nth (k - length cs) un 0). simpl. auto.
        * intros [i [[<-|[]] H]]. auto.
    - intros c Hc. apply in_app_iff in Hc. destruct Hc as [Hc|Hc]; apply in_map_iff in Hc; destruct Hc as [i [<- Hi]].
      + apply py_sorted_sorted. apply py_set_NoDup.
      + apply py_sorted_sorted. unfold s. change (@nil nat) with (py_set []) at 1. rewrite map_nth. apply py_set_NoDup.
    - intros k i j. rewrite NG. destruct (Nat.ltb_spec k (length cs)).
      + intro Hi. destruct (A (nth k cs []) (nth_In _ _ H)) as [v [Hv [_ R]]].
        pose proof (proj1 (R i) Hi) as Pi. split; [eapply gpath_lt; eauto|]. rewrite R. split.
        * intro Pj. eapply gpath_trans; [|exact Pj]. apply (gpath_sym G _ _ G_wf). auto.
        * intro Pj. eapply gpath_trans; eauto.
      + destruct (Nat.ltb_spec (k - length cs) (length un)); [|intros []].
        intros [<-|[]]. pose proof (nth_In un 0 H0) as Hi. split; [apply Un; auto|].
        rewrite <- (Sg _ j Hi). simpl. split; [intros [<-|[]]; auto|auto].
    - intros i Hi. destruct (in_dec Nat.eq_dec i un) as [Hu|Hu].
      + destruct (In_nth un i 0 Hu) as [k [Hk <-]]. exists (length cs + k). rewrite NG.
        replace (length cs + k - length cs) with k by lia.
        destruct (Nat.ltb_spec (length cs + k) (length cs)); [lia|].
        destruct (Nat.ltb_spec k (length un)); [|lia]. left. auto.
      + assert (X : exists c, In c cs /\ In i c).
        { destruct (existsb (fun c => memb i c) cs) eqn:EX.
          - apply existsb_exists in EX. destruct EX as [c [Hc Hm]]. exists c. rewrite <- memb_In. auto.
          - exfalso. apply Hu. apply Un. split; auto. intros c Hc Hic.
            assert (T : existsb (fun c => memb i c) cs = true).
            { apply existsb_exists. exists c. rewrite memb_In. auto. } congruence. }
        destruct X as [c [Hc Hic]]. destruct (In_nth cs c [] Hc) as [k [Hk Ek]]. exists k. rewrite NG.
        destruct (Nat.ltb_spec k (length cs)); [|lia]. rewrite Ek. auto.
    - intros g Hg. apply in_app_iff in Hg. destruct Hg as [Hg|Hg].
      + destruct (A g Hg) as [v [_ [Hv _]]]. intro. subst. destruct Hv.
      + apply in_map_iff in Hg. destruct Hg as [i [<- _]]. discriminate.
    - intros k l x NE. rewrite !NG.
      destruct (Nat.ltb_spec k (length cs)), (Nat.ltb_spec l (length cs)).
      + intros H1 H2. exact (P k l x NE H1 H2).
      + destruct (Nat.ltb_spec (l - length cs) (length un)); [|intros _ []].
        intros H2 [<-|[]]. pose proof (nth_In un 0 H1) as Hi. apply Un in Hi.
        apply (proj2 Hi (nth k cs [])); auto. apply nth_In. auto.
      + destruct (Nat.ltb_spec (k - length cs) (length un)); [|intros []].
        intros [<-|[]] H2. pose proof (nth_In un 0 H1) as Hi. apply Un in Hi.
        apply (proj2 Hi (nth l cs [])); auto. apply nth_In. auto.
      + destruct (Nat.ltb_spec (k - length cs) (length un)); [|intros []].
        destruct (Nat.ltb_spec (l - length cs) (length un)); [|intros _ []].
        intros [H3|[]] [H4|[]]. apply NE.
        assert (ND : NoDup un) by (apply filters_NoDup; apply seq_NoDup).
        assert (k - length cs = l - length cs); [|lia].
        apply (proj1 (NoDup_nth un 0) ND); auto. congruence.
  Qed.

  Lemma merge_list_correct : forall ord, ord_ok ord ->
    exists out, merge_list ord L = Ok out /\
      (forall c, In c out -> StronglySorted lt c) /\
      pairwise_disjoint out /\
      (forall x y, (exists c, In c out /\ In x c /\ In y c) <-> linked L x y).
  Proof.
    intros ord O. destruct (merge_list_groups ord O) as [gs [out [E [Len [M [S [R [C [NE P]]]]]]]]].
    exists out. split; [exact E|]. split; [exact S|]. split.
    - intros k l x N H1 H2. apply M in H1. apply M in H2.
      destruct H1 as [i [Hi Hx]], H2 as [j [Hj Hy]].
      destruct (R k i j Hi) as [Li Ri]. destruct (R l j i Hj) as [Lj Rj].
      apply (P k l j N); auto. apply Ri. eapply gpath_share; eauto.
    - intros x y. split.
      + intros [c [Hc [Hx Hy]]]. destruct (In_nth _ _ [] Hc) as [k [Hk <-]].
        apply M in Hx. apply M in Hy. destruct Hx as [i [Hi Hx]], Hy as [j [Hj Hy]].
        destruct (R k i j Hi) as [Li Ri]. apply Ri in Hj. eapply gpath_linked; eauto.
      + intro H. apply linked_gpath in H. destruct H as [i [j [Hi [Hj [G' [Hx Hy]]]]]].
        destruct (C i Hi) as [k Hk]. destruct (R k i j Hk) as [_ Rk].
        assert (Hx' : In x (nth k out [])) by (apply M; eauto).
        exists (nth k out []). split; [|split; auto].
        * destruct (Nat.lt_ge_cases k (length out)); [apply nth_In; auto|].
          rewrite nth_overflow in Hx' by auto. destruct Hx'.
        * apply M. exists j. split; auto. apply Rk. auto.
  Qed.

  (** No cluster of two or more variables appears from nowhere: an output is
      empty only if an input is. *)
  Lemma merge_list_nonempty : forall ord out, ord_ok ord -> merge_list ord L = Ok out ->
    (forall c, In c L -> c <> []) -> forall c, In c out -> c <> [].
  Proof.
    intros ord out O E H c Hc. destruct (merge_list_groups ord O) as [gs [out' [E' [Len [M [S [R [C [NE P]]]]]]]]].
    rewrite E in E'. inversion E'; subst out'. destruct (In_nth _ _ [] Hc) as [k [Hk <-]].
    assert (Hg : In (nth k gs []) gs) by (apply nth_In; lia).
    destruct (nth k gs []) as [|i g] eqn:Eg; [exfalso; apply (NE _ Hg); auto|].
    assert (Hi : In i (nth k gs [])) by (rewrite Eg; left; auto).
    destruct (R k i i Hi) as [Li _]. rewrite s_len in Li.
    pose proof (H _ (nth_In L [] Li)) as Z. destruct (nth i L []) as [|x r] eqn:El; [congruence|].
    assert (In x (nth k out [])) by (apply M; exists i; rewrite El; split; simpl; auto).
    intro Q. rewrite Q in H0. destruct H0.
  Qed.

  Lemma merge_list_disjoint_id : forall ord, ord_ok ord -> pairwise_disjoint L ->
    merge_list ord L = Ok (map (fun c => py_sorted (py_set c)) L).
  Proof.
    intros ord O D. unfold merge_list. fold s. fold n. fold edges.
    assert (EE : edges = []).
    { destruct edges as [|[i j] r] eqn:Ed; auto. exfalso.
      assert (H : In (i, j) edges) by (rewrite Ed; left; auto).
      unfold edges in H. apply filter_In in H. destruct H as [H I]. cbn [fst snd] in I.
      apply intersects_spec in I. destruct I as [x [H1 H2]]. rewrite s_nth in H1, H2.
      apply (D i j x); auto. apply (in_comb2_neq _ _ _ (seq_NoDup n 0) H). }
    rewrite EE. simpl. f_equal. unfold n, s. rewrite map_length.
    assert (Gn : forall (l : list (list nat)), map (fun i => py_sorted (nth i (map py_set l) [])) (seq 0 (length l)) = map (fun c => py_sorted (py_set c)) l).
    { induction l as [|a l IH]; simpl; auto. f_equal. rewrite <- seq_shift, map_map. exact IH. }
    apply Gn.
  Qed.
End Merge.
