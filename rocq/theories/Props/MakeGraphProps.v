(** C102: the latent index made from clusters and their order, and the graph drawn from it. *)

From Coq Require Import List Arith Bool ZArith Lia Relations Permutation.
From Verif Require Import Model.Py Model.LHM Model.MakeGraph Spec.Hierarchy Spec.LHMRun Spec.DrawnSpec Proofs.PyFacts Proofs.LHMLoop Proofs.MakeGraphFacts.
Import ListNotations.
Open Scope nat_scope.

(** The clusters in the order of the dict, each with the number of latents that its key asks for. *)
Definition asked (Cluster : list (option Z * list (list lname))) : list (Z * list lname) :=
  flat_map (fun p => match fst p with Some n => map (fun c => (n, c)) (snd p) | None => [] end) Cluster.

(** Two clusters of one factor, a cluster of two factors; measured variables 1 to 10. *)
Definition eg_clusters : list (option Z * list (list lname)) :=
  [(Some 1%Z, [[Obs 1; Obs 2; Obs 3]; [Obs 4; Obs 5]]); (Some 2%Z, [[Obs 6; Obs 7; Obs 8; Obs 9; Obs 10]])].
Definition eg_order : list (list lname) :=
  [[Obs 6; Obs 8; Obs 7; Obs 10; Obs 9]; [Obs 1; Obs 2; Obs 3]; [Obs 5; Obs 4]].

(** C102.  There is a result exactly if every key is the text of an integer; otherwise ValueError. *)
Theorem C102_keys : forall Cluster Order,
  ((forall p, In p Cluster -> fst p <> None) -> exists r, transfer2index Cluster Order = Ok r)
  /\ ((exists p, In p Cluster /\ fst p = None) -> transfer2index Cluster Order = Err ValueError).
Proof.
  intros Cluster Order. unfold transfer2index. split.
  - intros H. destruct (index_keys_ok Cluster (1, [], []) H) as [[[i LI] SC] E]. rewrite E. cbn [rbind]. eexists. reflexivity.
  - intros [p [H E]]. rewrite (index_keys_err Cluster _ p H E). auto.
Qed.
Print Assumptions C102_keys.
Example C102_keys_example : (exists r, transfer2index eg_clusters eg_order = Ok r) /\ transfer2index (eg_clusters ++ [(None, [])]) eg_order = Err ValueError.
Proof. split; [eexists|]; vm_compute; reflexivity. Qed.

(** C102.  The latents are L1, L2, ... without a gap, and every cluster has its own consecutive ones, as many as its key says, with
    its members; these groups are what the clusters' latents share. *)
Theorem C102_latents : forall Cluster Order LI RL SC, transfer2index Cluster Order = Ok (LI, RL, SC) ->
  map fst LI = map Lat (seq 1 (length LI)) /\ concat SC = map fst LI
  /\ Forall2 (fun p group => length group = Z.to_nat (fst p) /\ forall x C, In x group -> In (x, C) LI <-> C = snd p) (asked Cluster) SC.
Proof.
  intros Cluster Order LI RL SC H. destruct (transfer_is _ _ _ _ _ H) as [[i I] _]. pose proof (indexed_nodup _ _ _ _ I) as N.
  destruct I as [A [B [_ D]]].
  assert (L : length LI = length (concat SC)) by (rewrite <- A; unfold dkeys; rewrite map_length; auto).
  split; [rewrite L, <- B; exact A|]. split; [symmetry; exact A|].
  eapply Forall2_imp; [|exact D]. intros p g [H1 H2]. split; auto. intros x C Hx. split.
  - intros F. exact (keys_unique LI x C (snd p) N F (H2 x Hx)).
  - intros ->. auto.
Qed.
Print Assumptions C102_latents.

(** C102.  The list of roots runs through the order; for every entry it has the latents whose cluster has the same members, in the
    order of their names, each once. *)
Theorem C102_roots : forall Cluster Order LI RL SC, transfer2index Cluster Order = Ok (LI, RL, SC) ->
  exists blocks, RL = concat blocks
  /\ Forall2 (fun root block => NoDup block /\ (forall x, In x block <-> exists C, In (x, C) LI /\ alike C root)
                                /\ forall a b, precedes block (Lat a) (Lat b) -> a < b) Order blocks.
Proof.
  intros Cluster Order LI RL SC H. destruct (transfer_is _ _ _ _ _ H) as [[i I] R0]. pose proof (indexed_nodup _ _ _ _ I) as N. destruct I as [A [B _]].
  exists (map (fun root => map fst (filter (fun p => same_set lname_eqb (snd p) root) LI)) Order). split; [rewrite R0; apply flat_map_concat_map|].
  clear H R0. induction Order as [|r l IH]; simpl; constructor; auto. split; [apply block_nodup; auto|]. split; [intros x; apply block_in|].
  intros a b P. apply block_order in P. rewrite A, B in P. clear -P. destruct P as [u [v [w E]]]. revert E.
  generalize (length (concat SC)) as n. generalize 1 as s. revert u. 
  induction u as [|y u IHu]; intros s n E; (destruct n as [|n]; [discriminate|]); simpl in E; inversion E; subst.
  - assert (F : In (Lat b) (map Lat (seq (S a) n))) by (rewrite H1; apply in_app_iff; right; left; auto).
    apply in_map_iff in F. destruct F as [k [Ek F]]. inversion Ek; subst. apply in_seq in F. lia.
  - exact (IHu _ _ H1).
Qed.
Print Assumptions C102_roots.

(** C102.  If no two entries of the order have the same members, every latent is in the list at most once; and it is there exactly if
    its cluster is in the order. *)
Theorem C102_each_once : forall Cluster Order LI RL SC, transfer2index Cluster Order = Ok (LI, RL, SC) -> all_different Order ->
  NoDup RL /\ forall x C, In (x, C) LI -> (In x RL <-> exists root, In root Order /\ alike C root).
Proof.
  intros Cluster Order LI RL SC H D. destruct (transfer_is _ _ _ _ _ H) as [[i I] ->]. pose proof (indexed_nodup _ _ _ _ I) as N.
  split; [apply root_list_nodup; auto|]. intros x C Hx. rewrite root_list_in. split.
  - intros [root [C' [H1 [H2 H3]]]]. rewrite (keys_unique LI x C C' N Hx H2). exists root. auto.
  - intros [root [H1 H2]]. exists root, C. auto.
Qed.
Print Assumptions C102_each_once.

Lemma eg_different : all_different eg_order.
Proof.
  assert (P : forall (x y : list lname) v, In v x -> ~ In v y -> ~ alike x y) by (intros x y v H1 H2 E; apply H2, E, H1).
  intros a x b y c E. unfold eg_order in E.
  destruct a as [|a1 [|a2 [|a3 a]]]; simpl in E; inversion E; subst; clear E.
  - destruct b as [|b1 [|b2 b]]; simpl in *; inversion H1; subst.
    + apply (P _ _ (Obs 6)); simpl; [auto|]. intros F. repeat (destruct F as [F|F]; [discriminate|]). exact F.
    + apply (P _ _ (Obs 6)); simpl; [auto|]. intros F. repeat (destruct F as [F|F]; [discriminate|]). exact F.
    + destruct b; discriminate.
  - destruct b as [|b1 b]; simpl in *; inversion H2; subst.
    + apply (P _ _ (Obs 1)); simpl; [auto|]. intros F. repeat (destruct F as [F|F]; [discriminate|]). exact F.
    + destruct b; discriminate.
  - destruct b; discriminate.
  - destruct a; discriminate.
Qed.

(** C102.  The graph has the latents, their members and what stands in the order; an edge from a latent to each of its members, an
    edge from an entry of the order to each later one unless one group has both, and no others. *)
Theorem C102_edges : forall LI order share, let g := make_graph lname_eqb LI order share in
  NoDup (fst g) /\ NoDup (snd g)
  /\ (forall x y, In (x, y) (snd g) <-> (exists C, In (x, C) LI /\ In y C) \/ (precedes order x y /\ ~ together share x y))
  /\ (forall v, In v (fst g) <-> (exists x C, In (x, C) LI /\ (v = x \/ In v C))
                             \/ (exists x y, precedes order x y /\ ~ together share x y /\ (v = x \/ v = y))).
Proof. intros LI order share. destruct (make_graph_is lname_eqb lname_eqb_spec LI order share) as [[A B] [C D]]. auto. Qed.
Print Assumptions C102_edges.

(** C102.  The graph of clusters and an order: two latents of different clusters that are in the order are joined, by one edge, from
    the one that is earlier; two latents of a cluster are not joined; and there is no cycle.  For this, no measured variable may
    have the name of a latent and no two entries of the order the same members. *)
Theorem C102_graph : forall Cluster Order LI RL SC, transfer2index Cluster Order = Ok (LI, RL, SC) -> all_different Order ->
  (forall x C, In (x, C) LI -> forall y, In y C -> ~ In y (map fst LI)) ->
  let edges := snd (make_graph lname_eqb LI RL SC) in
  no_cycle edges
  /\ (forall x y, together SC x y -> ~ In (x, y) edges)
  /\ (forall x y, In x RL -> In y RL -> ~ together SC x y -> (In (x, y) edges /\ ~ In (y, x) edges /\ precedes RL x y) \/ (In (y, x) edges /\ ~ In (x, y) edges /\ precedes RL y x)).
Proof.
  intros Cluster Order LI RL SC H D M. destruct (C102_each_once _ _ _ _ _ H D) as [N _].
  destruct (transfer_is _ _ _ _ _ H) as [[i I] R0]. destruct I as [A _].
  destruct (C102_edges LI RL SC) as [_ [_ [E _]]]. cbv zeta.
  assert (K : forall x, In x RL -> In x (map fst LI)).
  { intros x Hx. rewrite R0 in Hx. apply root_list_in in Hx. destruct Hx as [r [C [_ [Hx _]]]]. apply in_map_iff. exists (x, C). auto. }
  assert (S : forall x y, In (x, y) (snd (make_graph lname_eqb LI RL SC)) -> In x (map fst LI) /\ ((precedes RL x y /\ ~ together SC x y) \/ ~ In y (map fst LI))).
  { intros x y F. apply E in F. destruct F as [[C [F1 F2]]|[F1 F2]].
    - split; [apply in_map_iff; exists (x, C); auto|]. right. exact (M _ _ F1 _ F2).
    - split; auto. apply K. apply precedes_in in F1. tauto. }
  split; [|split].
  - assert (W : forall x y, clos_trans _ (fun x y => In (x, y) (snd (make_graph lname_eqb LI RL SC))) x y -> In x (map fst LI) /\ (precedes RL x y \/ ~ In y (map fst LI))).
    { intros x y T. induction T as [x y F|x y z T1 [IH1 IH2] T2 [IH3 IH4]].
      - apply S in F. tauto.
      - split; auto. destruct IH2 as [IH2|IH2]; [|contradiction]. destruct IH4 as [IH4|IH4]; auto. left. exact (precedes_trans RL x y z N IH2 IH4). }
    intros v T. apply W in T. destruct T as [T1 [T2|T2]]; [|contradiction]. exact (precedes_irrefl RL v N T2).
  - intros x y T F. apply S in F. destruct F as [_ [[_ F]|F]]; [contradiction|]. apply F. destruct T as [g [G1 [_ G2]]].
    fold (dkeys LI). rewrite A. apply in_concat. exists g. auto.
  - intros x y Hx Hy T.
    assert (NE : x <> y).
    { intros ->. apply T. apply K in Hy. fold (dkeys LI) in Hy. rewrite A in Hy. apply in_concat in Hy. destruct Hy as [g [G1 G2]]. exists g. auto. }
    assert (T' : ~ together SC y x) by (intros [g [G1 [G2 G3]]]; apply T; exists g; auto).
    assert (O : forall a b, In a RL -> In b RL -> ~ together SC a b -> precedes RL a b -> In (a, b) (snd (make_graph lname_eqb LI RL SC)) /\ ~ In (b, a) (snd (make_graph lname_eqb LI RL SC)) /\ precedes RL a b).
    { intros a b Ha Hb Tab P. split; [apply E; auto|]. split; auto. intros F. apply S in F. destruct F as [_ [[F _]|F]].
      - exact (precedes_irrefl RL a N (precedes_trans RL a b a N P F)).
      - apply F. apply K. auto. }
    destruct (precedes_total RL x y Hx Hy NE) as [P|P]; [left|right]; apply O; auto.
Qed.
Print Assumptions C102_graph.

(** One case for all of these. *)
Example C102_example : exists LI RL SC, transfer2index eg_clusters eg_order = Ok (LI, RL, SC)
  /\ RL = [Lat 3; Lat 4; Lat 1; Lat 2] /\ SC = [[Lat 1]; [Lat 2]; [Lat 3; Lat 4]]
  /\ all_different eg_order
  /\ (forall x C, In (x, C) LI -> forall y, In y C -> ~ In y (map fst LI))
  /\ skipn 15 (snd (make_graph lname_eqb LI RL SC)) = [(Lat 3, Lat 1); (Lat 3, Lat 2); (Lat 4, Lat 1); (Lat 4, Lat 2); (Lat 1, Lat 2)].
Proof.
  eexists _, _, _. split; [vm_compute; reflexivity|]. split; [reflexivity|]. split; [reflexivity|]. split; [apply eg_different|]. split; [|vm_compute; reflexivity].
  intros x C H y Hy F. simpl in H, F.
  assert (L : exists k, y = Lat k) by (repeat (destruct F as [F|F]; [eexists; symmetry; exact F|]); destruct F).
  destruct L as [k ->].
  repeat (destruct H as [H|H]; [inversion H; subst; simpl in Hy; repeat (destruct Hy as [Hy|Hy]; [discriminate|]); exact Hy|]). exact H.
Qed.

(** Without the first condition "no cycle" is false: an entry that comes again in the order makes edges in both directions. *)
Theorem C102_repeated_refuted : exists Cluster Order LI RL SC, transfer2index Cluster Order = Ok (LI, RL, SC)
  /\ (forall x C, In (x, C) LI -> forall y, In y C -> ~ In y (map fst LI)) /\ ~ no_cycle (snd (make_graph lname_eqb LI RL SC)).
Proof.
  exists [(Some 1%Z, [[Obs 1; Obs 2]; [Obs 3; Obs 4]])], [[Obs 1; Obs 2]; [Obs 3; Obs 4]; [Obs 2; Obs 1]]. eexists _, _, _.
  split; [vm_compute; reflexivity|]. split.
  - intros x C [H|[H|[]]] y Hy [F|[F|[]]]; inversion H; subst; simpl in Hy; repeat (destruct Hy as [Hy|Hy]; [discriminate|]); exact Hy.
  - intros H. apply (H (Lat 1)). apply t_trans with (y := Lat 2); apply t_step; vm_compute; auto 10.
Qed.
Print Assumptions C102_repeated_refuted.

(** Without the second neither: a measured variable that is called L1 is taken for the latent. *)
Theorem C102_names_refuted : exists Cluster Order LI RL SC, transfer2index Cluster Order = Ok (LI, RL, SC)
  /\ all_different Order /\ ~ no_cycle (snd (make_graph lname_eqb LI RL SC)).
Proof.
  exists [(Some 1%Z, [[Lat 1; Obs 2]])], []. eexists _, _, _. split; [vm_compute; reflexivity|]. split.
  - intros a x b y c E. destruct a; discriminate.
  - intros H. apply (H (Lat 1)). apply t_step. vm_compute. auto.
Qed.
Print Assumptions C102_names_refuted.

(** "Latents of one cluster are not joined" needs the cluster to be listed once: under two keys its latents are, though they have
    the same members, joined as if they belonged to different clusters. *)
Theorem C102_same_members_refuted : exists Cluster Order LI RL SC x y C, transfer2index Cluster Order = Ok (LI, RL, SC) /\ all_different Order
  /\ In (x, C) LI /\ In (y, C) LI /\ (forall z, In z C -> ~ In z (map fst LI)) /\ In (x, y) (snd (make_graph lname_eqb LI RL SC)).
Proof.
  exists [(Some 1%Z, [[Obs 1; Obs 2; Obs 3]]); (Some 2%Z, [[Obs 1; Obs 2; Obs 3]])], [[Obs 1; Obs 2; Obs 3]]. eexists _, _, _. exists (Lat 1), (Lat 2), [Obs 1; Obs 2; Obs 3].
  split; [vm_compute; reflexivity|]. split.
  - intros a x b y c E. destruct a as [|? [|]]; simpl in E; inversion E; subst. destruct b; discriminate. 
  - split; [simpl; auto|]. split; [simpl; auto|]. split; [|vm_compute; auto 20].
    intros z Hz F. simpl in Hz, F. destruct F as [<-|[<-|[<-|[]]]]; repeat (destruct Hz as [Hz|Hz]; [discriminate|]); exact Hz.
Qed.
Print Assumptions C102_same_members_refuted.

(** C102.  The graph of the hierarchical search ([Make_graph_Impure]): an edge from a latent to each of its members and, for every
    impure cluster, from each latent in it to all that stand later in it; no others. *)
Theorem C102_impure : forall ord LI impure, (forall l, Permutation (ord l) l) -> NoDup (map fst LI) ->
  forall x y, In (x, y) (snd (make_graph Nat.eqb (tran_impure ord LI impure) [] []))
  <-> below LI x y \/ (In x (map fst LI) /\ exists C, In C impure /\ precedes C x y).
Proof.
  intros ord LI impure O N x y. destruct (make_graph_is Nat.eqb Nat.eqb_eq (tran_impure ord LI impure) [] []) as [_ [E _]]. rewrite E.
  destruct (tran_impure_ok ord O impure LI N) as [_ B]. change (exists C, In (x, C) (tran_impure ord LI impure) /\ In y C) with (below (tran_impure ord LI impure) x y).
  rewrite B. split; [|auto]. intros [H|[[a [b [c F]]] _]]; auto. destruct a; discriminate.
Qed.
Print Assumptions C102_impure.
Example C102_impure_example : snd (make_graph Nat.eqb (tran_impure (fun l => l) [(101, [1; 2]); (102, [3; 4])] [[101; 5; 102]]) [] [])
  = [(101, 1); (101, 2); (101, 5); (101, 102); (102, 3); (102, 4)].
Proof. vm_compute. reflexivity. Qed.
