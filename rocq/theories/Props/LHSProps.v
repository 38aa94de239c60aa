(** C40-C42, C55, C56: learning hierarchical structure. *)

From Coq Require Import List Arith Bool Lia Permutation Sorting.Sorted QArith.
From Verif Require Import Model.Py Model.LHS Spec.Clusters.
From Verif Require Import Proofs.PyFacts Proofs.MergeFacts Proofs.LHSFacts Proofs.FindFacts.
Import ListNotations.
Open Scope nat_scope.

(* ---------- C40 ---------- *)
(** [merge_list] always succeeds; its clusters are sorted, no variable is in two
    of them, and two variables are in one cluster exactly when a chain of
    overlapping input clusters links them.  With [x = y] the last part says
    that the variables covered are exactly those of the input. *)
Theorem C40_merge_list : forall ord L, (forall s, Permutation (ord s) s) ->
  exists out, merge_list ord L = Ok out /\
    (forall c, In c out -> StronglySorted lt c) /\
    pairwise_disjoint out /\
    (forall x y, (exists c, In c out /\ In x c /\ In y c) <-> linked L x y).
Proof. intros ord L O. exact (merge_list_correct L ord O). Qed.
Print Assumptions C40_merge_list.

(** Every input cluster is contained in an output cluster, and two input
    clusters that share a variable in the same one. *)
Theorem C40_inputs_kept : forall ord L out, (forall s, Permutation (ord s) s) -> merge_list ord L = Ok out ->
  forall a b x, In a L -> In b L -> In x a -> In x b -> exists c, In c out /\ incl a c /\ incl b c.
Proof.
  intros ord L out O E a b x Ha Hb Xa Xb. destruct (merge_list_correct L ord O) as [out' [E' [_ [D K]]]].
  rewrite E in E'. inversion E'; subst out'. clear E'.
  assert (Hx : linked L x x) by (eapply linked_in; eauto). apply K in Hx. destruct Hx as [c [Hc [Xc _]]].
  assert (Same : forall y, linked L x y -> In y c).
  { intros y H. apply K in H. destruct H as [c' [Hc' [X' Y']]].
    destruct (In_nth _ _ [] Hc) as [i [Hi Ei]], (In_nth _ _ [] Hc') as [j [Hj Ej]].
    destruct (Nat.eq_dec i j) as [->|N]; [congruence|]. exfalso. apply (D i j x N); [rewrite Ei|rewrite Ej]; auto. }
  exists c. split; auto. split; intros y Hy; apply Same; [apply linked_in with a|apply linked_in with b]; auto.
Qed.
Print Assumptions C40_inputs_kept.

(** Disjoint clusters come back as they are, sorted and without repetitions. *)
Theorem C40_disjoint_unchanged : forall ord L, (forall s, Permutation (ord s) s) -> pairwise_disjoint L ->
  merge_list ord L = Ok (map (fun c => py_sorted (py_set c)) L).
Proof. intros ord L O D. exact (merge_list_disjoint_id L ord O D). Qed.
Print Assumptions C40_disjoint_unchanged.

(** The order in which sets are iterated does not matter for the clusters. *)
Theorem C40_order_irrelevant : forall ord1 ord2 L out1 out2,
  (forall s, Permutation (ord1 s) s) -> (forall s, Permutation (ord2 s) s) ->
  merge_list ord1 L = Ok out1 -> merge_list ord2 L = Ok out2 ->
  forall c, c <> [] -> (In c out1 <-> In c out2).
Proof.
  assert (G : forall ord1 ord2 L out1 out2,
    (forall s, Permutation (ord1 s) s) -> (forall s, Permutation (ord2 s) s) ->
    merge_list ord1 L = Ok out1 -> merge_list ord2 L = Ok out2 ->
    forall c, c <> [] -> In c out1 -> In c out2).
  { intros ord1 ord2 L out1 out2 O1 O2 E1 E2 c N Hc.
    destruct (merge_list_correct L ord1 O1) as [o1 [F1 [S1 [D1 K1]]]].
    destruct (merge_list_correct L ord2 O2) as [o2 [F2 [S2 [D2 K2]]]].
    rewrite E1 in F1. rewrite E2 in F2. inversion F1; inversion F2; subst o1 o2.
    destruct c as [|x r] eqn:Ec; [congruence|]. rewrite <- Ec in *.
    assert (Hx : In x c) by (rewrite Ec; left; auto).
    assert (Lx : linked L x x) by (apply K1; eauto). apply K2 in Lx. destruct Lx as [c' [Hc' [Xc' _]]].
    assert (U : forall out (D : pairwise_disjoint out) a b y, In a out -> In b out -> In y a -> In y b -> a = b).
    { intros out D a b y Ha Hb Ya Yb. destruct (In_nth _ _ [] Ha) as [i [Hi Ei]], (In_nth _ _ [] Hb) as [j [Hj Ej]].
      destruct (Nat.eq_dec i j) as [->|NE]; [congruence|]. exfalso. apply (D i j y NE); [rewrite Ei|rewrite Ej]; auto. }
    assert (EQ : forall y, In y c <-> In y c').
    { intro y. split; intro H.
      - assert (Lk : linked L x y) by (apply K1; eauto). apply K2 in Lk. destruct Lk as [d [Hd [Xd Yd]]].
        rewrite (U out2 D2 c' d x); auto.
      - assert (Lk : linked L x y) by (apply K2; eauto). apply K1 in Lk. destruct Lk as [d [Hd [Xd Yd]]].
        rewrite (U out1 D1 c d x); auto. }
    assert (SS : forall a b : list nat, StronglySorted lt a -> StronglySorted lt b -> (forall y, In y a <-> In y b) -> a = b).
    { clear. induction a as [|x a IH]; intros b Ha Hb H.
      - destruct b as [|y b]; auto. exfalso. apply (proj2 (H y)). left. auto.
      - destruct b as [|y b]; [exfalso; apply (proj1 (H x)); left; auto|].
        inversion Ha; inversion Hb; subst. rewrite Forall_forall in *.
        assert (x = y).
        { destruct (proj1 (H x) (or_introl eq_refl)) as [->|Hx]; auto.
          destruct (proj2 (H y) (or_introl eq_refl)) as [->|Hy]; auto.
          apply H7 in Hx. apply H3 in Hy. lia. }
        subst. f_equal. apply IH; auto. intro z. split; intro Hz.
        + destruct (proj1 (H z) (or_intror Hz)) as [<-|]; auto. apply H3 in Hz. lia.
        + destruct (proj2 (H z) (or_intror Hz)) as [<-|]; auto. apply H7 in Hz. lia. }
    rewrite (SS c c' (S1 c Hc) (S2 c' Hc') EQ). auto. }
  intros ord1 ord2 L out1 out2 O1 O2 E1 E2 c N. split; [eapply G with (ord1 := ord1) (ord2 := ord2)|eapply G with (ord1 := ord2) (ord2 := ord1)]; eauto.
Qed.
Print Assumptions C40_order_irrelevant.

(** Five clusters, three of them in a chain, with two iteration orders. *)
Example C40_case :
  merge_list (fun s => s) [[1; 2]; [7]; [2; 3]; [8; 9]; [3; 4]] = Ok [[1; 2; 3; 4]; [7]; [8; 9]] /\
  merge_list (@rev nat) [[1; 2]; [7]; [2; 3]; [8; 9]; [3; 4]] = Ok [[1; 2; 3; 4]; [7]; [8; 9]].
Proof. split; reflexivity. Qed.
Example C40_case_disjoint : pairwise_disjoint [[5; 4]; [7]] /\
  merge_list (fun s => s) [[5; 4]; [7]] = Ok [[4; 5]; [7]].
Proof.
  split; [|reflexivity]. intros [|[|[|i]]] [|[|[|j]]] x N; simpl; intuition (try lia).
Qed.

(* ---------- C41 ---------- *)
(** The variables of [data] that stay observed: not removed, not in a cluster. *)
Definition stays (data : frame) (early clusters : list (list nat)) (v : nat) : Prop :=
  In v (columns data) /\ (forall C, In C early -> ~ In v (tl C)) /\ (forall C, In C clusters -> ~ In v C).

(** The claim fails: here variable 3 stays, and its name ends up on the data of
    variable 1, while the latent variable (name 100) gets the data of 3. *)
Theorem C41_refuted : exists ord lname merge early pure k latent data d' k' latent' v,
  (forall s, Permutation (ord s) s) /\ NoDup (columns data) /\
  update_data ord lname merge early pure k latent data = Ok (d', k', latent') /\
  stays data early (merge ++ pure) v /\ In v (columns d') /\ dget Nat.eqb d' v <> dget Nat.eqb data v.
Proof.
  exists (fun s => s), (fun k => 100 + k), [[1; 2]], [], [], 0, [], [(1, 11); (2, 12); (3, 13)], [(3, 11); (100, 13)], 1, [(100, [1; 2])], 3.
  split; [auto|]. split; [repeat constructor; simpl; intuition lia|]. split; [reflexivity|].
  split; [split; [simpl; auto|split; [intros C []|intros C [<-|[]]; simpl; lia]]|]. split; [simpl; auto|]. vm_compute. discriminate.
Qed.
Print Assumptions C41_refuted.

(** It fails for every input: as soon as one latent variable is introduced,
    every variable that stays is given the data of another variable. *)
Theorem C41_all_mislabelled : forall ord lname merge early pure k latent data d' k' latent',
  (forall s, Permutation (ord s) s) -> NoDup (map snd data) ->
  update_data ord lname merge early pure k latent data = Ok (d', k', latent') ->
  merge ++ pure <> [] ->
  forall v, stays data early (merge ++ pure) v ->
    exists u c c', dget Nat.eqb data v = Some c /\ dget Nat.eqb d' v = Some c' /\ dget Nat.eqb data u = Some c' /\ u <> v /\ c <> c'.
Proof.
  intros ord lname merge early pure k latent data d' k' latent' O ND E NE v St.
  destruct (update_data_layout _ _ _ _ _ _ _ _ _ _ _ O E) as [rest [HR [NR [_ [HC [HL [HD HN]]]]]]].
  set (Cs := merge ++ pure) in *.
  assert (Hv : In v rest) by (apply HR; exact St).
  destruct (In_nth _ _ 0 Hv) as [i [Hi Ev]].
  assert (Ck : nth i (columns d') 0 = v) by (rewrite HC, app_nth1; auto).
  assert (Ld : length Cs > 0) by (destruct Cs; [congruence|simpl; lia]).
  assert (D' : dget Nat.eqb d' v = Some (nth i (map snd d') 0)).
  { rewrite <- Ck. apply dget_first; [lia|]. intros j Hj. fold (columns d'). rewrite HC, !app_nth1 by lia.
    intro Q. assert (j = i); [|lia]. apply (proj1 (NoDup_nth rest 0) NR); auto; lia. }
  destruct St as [Sc St].
  assert (Dv : exists c, dget Nat.eqb data v = Some c).
  { destruct (dget Nat.eqb data v) eqn:Z; [eauto|]. exfalso. apply (dget_None_key _ Neqb_spec) in Z. auto. }
  destruct Dv as [c Dv].
  pose proof (HD i ltac:(lia)) as Du. set (u := nth i (map (hd 0) Cs ++ rest) 0) in *.
  assert (UV : u <> v).
  { unfold u. destruct (Nat.lt_ge_cases i (length Cs)).
    - rewrite app_nth1 by (rewrite map_length; auto).
      rewrite nth_indep with (d' := hd 0 []) by (rewrite map_length; auto). rewrite map_nth.
      intro Q. pose proof (nth_In Cs [] H) as HI. apply (proj2 St _ HI). rewrite <- Q.
      pose proof (HN _ HI). destruct (nth i Cs []); [congruence|]. left. auto.
    - rewrite app_nth2 by (rewrite map_length; auto). rewrite map_length. rewrite <- Ev. intro Q.
      assert (i - length Cs = i); [|lia]. apply (proj1 (NoDup_nth rest 0) NR); auto; lia. }
  exists u, c, (nth i (map snd d') 0). split; [auto|]. split; [auto|]. split; [auto|]. split; [auto|].
  intro Q. apply UV. rewrite <- Q in Du. exact (dget_inj data u v c ND Du Dv).
Qed.
Print Assumptions C41_all_mislabelled.

(** The latent variables are wrong too: with disjoint clusters and at least one
    variable that stays, no latent name carries the data of its own surrogate,
    the first member of its cluster. *)
Theorem C41_latents_mislabelled : forall ord lname merge early pure k latent data d' k' latent' w,
  (forall s, Permutation (ord s) s) -> NoDup (map snd data) ->
  (forall a b, lname a = lname b -> a = b) ->
  (forall a, ~ In (lname a) (columns data)) ->
  pairwise_disjoint (merge ++ pure) ->
  update_data ord lname merge early pure k latent data = Ok (d', k', latent') ->
  stays data early (merge ++ pure) w ->
  forall j, j < length (merge ++ pure) ->
    exists c c', dget Nat.eqb data (hd 0 (nth j (merge ++ pure) [])) = Some c /\
      dget Nat.eqb d' (lname (k + j)) = Some c' /\ c <> c'.
Proof.
  intros ord lname merge early pure k latent data d' k' latent' w O ND LI LF PD E St j Hj.
  destruct (update_data_layout _ _ _ _ _ _ _ _ _ _ _ O E) as [rest [HR [NR [_ [HC [HL [HD HN]]]]]]].
  set (Cs := merge ++ pure) in *.
  assert (Hw : In w rest) by (apply HR; exact St).
  assert (Lr : length rest > 0) by (destruct rest; [destruct Hw|simpl; lia]).
  set (i := length rest + j).
  assert (Nm : forall m, m < length Cs -> nth m (map lname (seq k (length Cs))) 0 = lname (k + m)).
  { intros m Hm. rewrite nth_indep with (d' := lname 0) by (rewrite map_length, seq_length; auto).
    rewrite map_nth, seq_nth by auto. auto. }
  assert (Ck : nth i (columns d') 0 = lname (k + j)).
  { unfold i. rewrite HC, app_nth2 by lia. replace (length rest + j - length rest) with j by lia. auto. }
  assert (D' : dget Nat.eqb d' (lname (k + j)) = Some (nth i (map snd d') 0)).
  { rewrite <- Ck. apply dget_first; [unfold i; lia|]. intros m Hm. fold (columns d'). rewrite Ck, HC.
    destruct (Nat.lt_ge_cases m (length rest)).
    - rewrite app_nth1 by auto. intro Q. apply (LF (k + j)). rewrite <- Q. apply HR. apply nth_In. auto.
    - rewrite app_nth2 by auto. unfold i in Hm. rewrite Nm by lia. intro Q. apply LI in Q. lia. }
  assert (SurIn : forall m, m < length Cs -> In (hd 0 (nth m Cs [])) (nth m Cs [])).
  { intros m Hm. pose proof (HN _ (nth_In Cs [] Hm)). destruct (nth m Cs []); [congruence|left; auto]. }
  assert (Sur : forall m, m < length Cs -> nth m (map (hd 0) Cs ++ rest) 0 = hd 0 (nth m Cs [])).
  { intros m Hm. rewrite app_nth1 by (rewrite map_length; auto).
    rewrite nth_indep with (d' := hd 0 []) by (rewrite map_length; auto). apply map_nth. }
  pose proof (HD j ltac:(lia)) as Dj. rewrite Sur in Dj by auto.
  pose proof (HD i ltac:(unfold i; lia)) as Di.
  exists (nth j (map snd d') 0), (nth i (map snd d') 0). split; [auto|]. split; [auto|].
  intro Q. rewrite <- Q in Di. pose proof (dget_inj data _ _ _ ND Di Dj) as Z.
  destruct (Nat.lt_ge_cases i (length Cs)).
  - rewrite Sur in Z by auto. apply (PD i j (hd 0 (nth j Cs []))); [unfold i; lia| |apply SurIn; auto].
    rewrite <- Z. apply SurIn. auto.
  - rewrite app_nth2 in Z by (rewrite map_length; auto). rewrite map_length in Z.
    assert (HI : In (nth (i - length Cs) rest 0) rest) by (apply nth_In; unfold i in *; lia).
    apply HR in HI. destruct HI as [_ [_ HI]]. apply (HI (nth j Cs []) (nth_In _ _ Hj)). rewrite Z. apply SurIn. auto.
Qed.
Print Assumptions C41_latents_mislabelled.

(** Only the two degenerate cases are labelled correctly: no latent variable is
    introduced, or no variable stays. *)
Theorem C41_degenerate_correct : forall ord lname merge early pure k latent data d' k' latent',
  (forall s, Permutation (ord s) s) ->
  update_data ord lname merge early pure k latent data = Ok (d', k', latent') ->
  (merge ++ pure = [] -> forall v, In v (columns d') -> dget Nat.eqb d' v = dget Nat.eqb data v) /\
  ((forall v, ~ stays data early (merge ++ pure) v) ->
     columns d' = map lname (seq k (length (merge ++ pure))) /\
     forall j, j < length (merge ++ pure) -> dget Nat.eqb data (hd 0 (nth j (merge ++ pure) [])) = Some (nth j (map snd d') 0)).
Proof.
  intros ord lname merge early pure k latent data d' k' latent' O E.
  destruct (update_data_layout _ _ _ _ _ _ _ _ _ _ _ O E) as [rest [HR [NR [_ [HC [HL [HD HN]]]]]]].
  set (Cs := merge ++ pure) in *. split.
  - intros C0 v Hv. rewrite C0 in *. simpl in *. rewrite app_nil_r in HC. rewrite HC in Hv.
    destruct (In_nth _ _ 0 Hv) as [i [Hi <-]]. rewrite HD by lia.
    rewrite <- HC. apply dget_first; [lia|]. intros j Hj. fold (columns d'). rewrite HC. intro Q.
    assert (j = i); [|lia]. apply (proj1 (NoDup_nth rest 0) NR); auto; lia.
  - intro No. assert (R0 : rest = []).
    { destruct rest as [|v r]; auto. exfalso. apply (No v). apply HR. left. auto. }
    subst rest. split; [exact HC|]. intros j Hj. simpl in HL. rewrite <- HD by lia. rewrite app_nil_r.
    rewrite nth_indep with (d' := hd 0 []) by (rewrite map_length; auto). rewrite map_nth. auto.
Qed.
Print Assumptions C41_degenerate_correct.

(** Two clusters, an early-learning cluster and two variables that stay. *)
Example C41_case :
  update_data (fun s => s) (fun k => 100 + k) [[1; 2]] [[3; 4]] [[5; 6]] 7 [] [(1, 11); (2, 12); (3, 13); (4, 14); (5, 15); (6, 16); (8, 18)]
  = Ok ([(3, 11); (8, 15); (107, 13); (108, 18)], 9, [(107, [1; 2]); (108, [5; 6])]) /\
  stays [(1, 11); (2, 12); (3, 13); (4, 14); (5, 15); (6, 16); (8, 18)] [[3; 4]] [[1; 2]; [5; 6]] 8 /\
  pairwise_disjoint [[1; 2]; [5; 6]].
Proof.
  split; [reflexivity|]. split.
  - split; [simpl; auto 10|]. split; [intros C [<-|[]]; simpl; lia|intros C [<-|[<-|[]]]; simpl; lia].
  - intros [|[|[|i]]] [|[|[|j]]] x N; simpl; intuition (try lia).
Qed.
Example C41_case_degenerate :
  update_data (fun s => s) (fun k => 100 + k) [[1; 2]] [] [[5; 6]] 7 [] [(1, 11); (2, 12); (5, 15); (6, 16)]
  = Ok ([(107, 11); (108, 15)], 9, [(107, [1; 2]); (108, [5; 6])]).
Proof. reflexivity. Qed.

(* ---------- C42 ---------- *)
(** The learned order lists every cluster exactly once, whatever the mutual
    informations are. *)
Theorem C42_order_permutation : forall mi cluster out, learn_causal_order mi cluster = Ok out ->
  Permutation out (concat (map snd cluster)).
Proof. intros mi cluster out H. exact (order_loop_perm _ _ _ [] _ H). Qed.
Print Assumptions C42_order_permutation.

(** It succeeds exactly when there is at most one cluster or every cluster has
    two members; otherwise a division by zero stops it. *)
Theorem C42_order_total : forall mi cluster,
  (exists out, learn_causal_order mi cluster = Ok out) <->
  (length (concat (map snd cluster)) <= 1 \/ forall c, In c (concat (map snd cluster)) -> 2 <= length c).
Proof.
  intros mi cluster. unfold learn_causal_order, get_cluster. set (cs := concat (map snd cluster)). split.
  - intros [out H]. destruct (le_lt_dec (length cs) 1) as [|L]; [auto|right]. intros c Hc.
    destruct (le_lt_dec 2 (length c)); auto. exfalso.
    destruct cs as [|a cs'] eqn:Ec; [simpl in L; lia|]. cbn [length order_loop] in H. rewrite <- Ec in *.
    unfold find_root in H. destruct (Nat.eqb_spec (length cs) 1); [lia|].
    destruct (candidate_scores_fail mi cs cs c Hc) as [e E]; [lia|lia|apply incl_refl|].
    rewrite E in H. discriminate.
  - intros [L|H]; [|apply order_loop_total; auto].
    destruct cs as [|a [|b cs']]; simpl in L; [simpl; eauto| |lia].
    exists [a]. simpl. unfold cluster_eqb. destruct (list_eq_dec Nat.eq_dec a a); [reflexivity|congruence].
Qed.
Print Assumptions C42_order_total.

(** The information that candidate [c] has to explain: the sum over the other
    clusters [o] of the mutual information for the first halves of [c], [o] and
    the clusters [K] found so far, given the second halves of [c] and [K].  An
    odd middle member counts as first half in [c] and [o], not in [K]. *)
Definition unexplained (mi : list nat -> list nat -> Q) (cs K : list (list nat)) (c : list nat) : Q :=
  fold_left (fun s o => (s + mi (firstn (Nat.div (length c + 1) 2) c ++ firstn (Nat.div (length o + 1) 2) o
                                   ++ concat (map (fun a => firstn (Nat.div (length a) 2) a) K))
                                (skipn (Nat.div (length c + 1) 2) c ++ concat (map (fun a => skipn (Nat.div (length a) 2) a) K)))%Q)
    (filter (fun o => negb (cluster_eqb c o)) cs) 0%Q.

(** The next cluster is the first one with the least unexplained information. *)
Theorem C42_root_minimal : forall mi cs K r, NoDup cs -> 2 <= length cs -> find_root mi cs K = Ok r ->
  exists i, i < length cs /\ nth i cs [] = r /\
    (forall j, j < length cs -> (unexplained mi cs K r <= unexplained mi cs K (nth j cs []))%Q) /\
    (forall j, j < i -> (unexplained mi cs K r < unexplained mi cs K (nth j cs []))%Q).
Proof.
  intros mi cs K r ND L H. unfold find_root in H. destruct (Nat.eqb_spec (length cs) 1); [lia|].
  destruct (candidate_scores mi cs cs K) as [l|] eqn:E; [|discriminate]. cbn [rbind] in H.
  assert (Sc : forall i, i < length cs -> nth i l 0%Q = unexplained mi cs K (nth i cs [])).
  { intros i Hi. destruct (candidate_scores_nth _ _ _ _ _ E i Hi) as [o [R S]].
    apply (remove_cluster_filter _ _ _ ND) in R. apply candidate_score_sum in S. rewrite S, R. reflexivity. }
  pose proof (candidate_scores_length _ _ _ _ _ E) as Ll.
  destruct l as [|x l]; [discriminate|]. inversion H. clear H.
  set (i := argmin x 0 1 l) in *.
  assert (Hi : i < length cs) by (rewrite <- Ll; apply (argmin_bound l x 0 1); lia).
  destruct (argmin_min l x 0 1 [x]) as [A B]; auto.
  { intros [|j] Hj; [apply Qle_refl|lia]. }
  { intros j Hj. lia. }
  fold i in A, B. simpl app in A, B. change (1 + length l) with (length (x :: l)) in A. rewrite Ll in A.
  exists i. split; [auto|]. split; [auto|]. rewrite <- Sc by auto. split.
  - intros j Hj. rewrite <- Sc by auto. auto.
  - intros j Hj. rewrite <- Sc by lia. auto.
Qed.
Print Assumptions C42_root_minimal.

(** Three clusters under two keys. *)
Example C42_case :
  learn_causal_order (fun X Z => inject_Z (Z.of_nat (10 - hd 0 Z))) [(0, [[1; 2]; [3; 4]]); (1, [[5; 6; 7]])]
  = Ok [[5; 6; 7]; [3; 4]; [1; 2]].
Proof. vm_compute. reflexivity. Qed.
Example C42_case_root : find_root (fun X Z => inject_Z (Z.of_nat (10 - hd 0 Z))) [[1; 2]; [3; 4]; [5; 6; 7]] [] = Ok [5; 6; 7].
Proof. vm_compute. reflexivity. Qed.
Example C42_case_failure : learn_causal_order (fun X Z => 0%Q) [(0, [[1; 2]; [3]])] = Err ZeroDivisionError.
Proof. vm_compute. reflexivity. Qed.

(* ---------- C55 ---------- *)
(** [v] is reached from [L] by going to the first member again and again. *)
Inductive first_descendant (latent : list (nat * list nat)) : nat -> nat -> Prop :=
| fd_here : forall v, dget Nat.eqb latent v = None -> first_descendant latent v v
| fd_down : forall L x r v, dget Nat.eqb latent L = Some (x :: r) -> first_descendant latent x v -> first_descendant latent L v.

(** When members come before their latent variable in some rank and no latent
    variable is without members, the search ends with the first descendant, and
    the list of observed variables has no influence. *)
Theorem C55_first_descendant : forall latent (rank : nat -> nat),
  (forall L C, dget Nat.eqb latent L = Some C -> C <> [] /\ forall x, In x C -> rank x < rank L) ->
  forall L, exists v, first_descendant latent L v /\ dget Nat.eqb latent v = None /\
    forall fuel observed, rank L <= fuel -> get_observed fuel latent observed L = Ok v.
Proof.
  intros latent rank W L. remember (rank L) as n. revert L Heqn.
  induction n as [n IH] using lt_wf_ind. intros L ->.
  destruct (dget Nat.eqb latent L) as [[|x r]|] eqn:E.
  - exfalso. apply (W L []); auto.
  - destruct (W L _ E) as [_ Hx]. specialize (Hx x (or_introl eq_refl)).
    destruct (IH (rank x) Hx x eq_refl) as [v [F [N G]]]. exists v. split; [eapply fd_down; eauto|]. split; [auto|].
    intros [|fuel] observed Hf; [lia|]. rewrite (get_observed_step _ _ _ _ _ _ E). apply G. lia.
  - exists L. split; [constructor; auto|]. split; [auto|]. intros fuel observed _. destruct fuel; simpl; rewrite E; auto.
Qed.
Print Assumptions C55_first_descendant.

(** The observed member is not preferred: latent variable 101 has the observed
    member 5, but the search returns 1, a member of its member 100. *)
Theorem C55_observed_member_refuted : exists latent observed L v, In v observed /\
  (exists C, dget Nat.eqb latent L = Some C /\ In v C /\ forall u, In u C -> In u observed -> u = v) /\
  forall fuel, 2 <= fuel -> exists u, get_observed fuel latent observed L = Ok u /\ u <> v.
Proof.
  exists [(100, [1; 2]); (101, [100; 5])], [1; 2; 5], 101, 5. split; [simpl; auto|]. split.
  - exists [100; 5]. split; [reflexivity|]. split; [simpl; auto|]. intros u [<-|[<-|[]]]; simpl; intuition lia.
  - intros [|[|fuel]] H; try lia. exists 1. split; [|lia]. destruct fuel; reflexivity.
Qed.
Print Assumptions C55_observed_member_refuted.

Example C55_case : get_observed 3 [(100, [1; 2]); (101, [100; 5])] [1; 2; 5] 101 = Ok 1 /\
  first_descendant [(100, [1; 2]); (101, [100; 5])] 101 1.
Proof. split; [reflexivity|]. eapply fd_down; [reflexivity|]. eapply fd_down; [reflexivity|]. constructor. reflexivity. Qed.

(* ---------- C56 ---------- *)
(** The search for clusters ends without an exception.  The clusters [L1] of
    the first phase are the overlap closure of the accepted pairs: sorted, with
    at least two members, disjoint, each entered as pure or impure.  The
    clusters [L2] of the second phase have at least three members, are accepted
    by the same test, are entered as impure and share no variable with [L1] nor
    with a cluster of another size in [L2]. *)
Theorem C56_find_clusters : forall ord vt d pure impure, (forall s, Permutation (ord s) s) -> NoDup (columns d) ->
  exists L1 L2 P I pairs,
    find_causal_cluster ord vt d pure impure = Ok (L1 ++ L2, pure ++ P, impure ++ I ++ L2, pairs) /\
    (forall c, In c pairs <-> exists p, In p (comb2 (columns d)) /\ c = [fst p; snd p] /\ check_cluster ord vt c d = Ok true) /\
    (forall c, In c L1 -> StronglySorted lt c /\ 2 <= length c) /\
    pairwise_disjoint L1 /\
    (forall x y, (exists c, In c L1 /\ In x c /\ In y c) <-> linked pairs x y) /\
    Permutation L1 (P ++ I) /\
    (forall c, In c P -> 2 < length c \/ judge_pure ord vt c d = Ok true) /\
    (forall c, In c I -> length c = 2 /\ judge_pure ord vt c d = Ok false) /\
    (forall c, In c L2 -> NoDup c /\ incl c (columns d) /\ 3 <= length c /\ check_cluster ord vt c d = Ok true) /\
    (forall c c', In c L2 -> In c' L1 -> forall x, In x c -> ~ In x c') /\
    (forall c c', In c L2 -> In c' L2 -> length c <> length c' -> forall x, In x c -> ~ In x c').
Proof. exact find_causal_cluster_ok. Qed.
Print Assumptions C56_find_clusters.

(** The tetrad test of a cluster: enough other variables, and for every two
    members in list order and every two other variables the constraint holds
    for one order of the latter. *)
Theorem C56_check_sound : forall ord vt C d, (forall s, Permutation (ord s) s) ->
  check_cluster ord vt C d = Ok true ->
  forall a b c e, In (a, b) (comb2 C) -> In c (columns d) -> In e (columns d) -> ~ In c C -> ~ In e C -> c <> e ->
    vanishes vt d a b c e = Ok true \/ vanishes vt d a b e c = Ok true.
Proof.
  intros ord vt C d O H a b c e Hab Hc He Nc Ne CE. unfold check_cluster in H.
  destruct (Nat.ltb _ 2); [discriminate|]. rewrite all_res_true in H. specialize (H _ Hab). rewrite all_res_true in H.
  assert (Ic : In c (ord (set_minus (py_set (columns d)) C))) by (apply ord_In; auto; apply outside_In; auto).
  assert (Ie : In e (ord (set_minus (py_set (columns d)) C))) by (apply ord_In; auto; apply outside_In; auto).
  destruct (in_comb2_total _ c e Ic Ie CE) as [Q|Q]; apply H in Q; simpl in Q; auto.
Qed.
Print Assumptions C56_check_sound.

(** When the constraint holds in both orders the test accepts. *)
Theorem C56_check_complete : forall ord vt C d, (forall s, Permutation (ord s) s) ->
  (exists c e, In c (columns d) /\ In e (columns d) /\ ~ In c C /\ ~ In e C /\ c <> e) ->
  (forall a b c e, In (a, b) (comb2 C) -> In c (columns d) -> In e (columns d) -> ~ In c C -> ~ In e C ->
     vanishes vt d a b c e = Ok true) ->
  check_cluster ord vt C d = Ok true.
Proof.
  intros ord vt C d O [c [e [Hc [He [Nc [Ne CE]]]]]] H. unfold check_cluster.
  destruct (Nat.ltb_spec (length (set_minus (py_set (columns d)) C)) 2).
  - exfalso. assert (Ic : In c (set_minus (py_set (columns d)) C)) by (apply outside_In; auto).
    assert (Ie : In e (set_minus (py_set (columns d)) C)) by (apply outside_In; auto).
    pose proof (sorted_two _ c e Ic Ie CE). lia.
  - apply all_res_true. intros [a b] Hab. apply all_res_true. intros [x y] Hxy. simpl.
    apply in_comb2_In in Hxy. destruct Hxy as [Hx Hy].
    apply (proj1 (ord_In ord _ _ O)) in Hx. apply (proj1 (ord_In ord _ _ O)) in Hy. apply outside_In in Hx, Hy. apply H; tauto.
Qed.
Print Assumptions C56_check_complete.

(** A test outcome for six variables: no pair is accepted, the overlapping
    triples {1,2,3} and {1,2,4} are. *)
Definition overlap_vt (a b c e : nat) : bool :=
  let inl x l := memb x l in
  (inl a [1; 2; 3] && inl b [1; 2; 3] && inl c [4; 5; 6] && inl e [4; 5; 6]) ||
  (inl a [1; 2; 4] && inl b [1; 2; 4] && inl c [3; 5; 6] && inl e [3; 5; 6]).

(** The clusters found are not always disjoint: the second phase goes through
    the combinations of a list taken before the accepted clusters are removed. *)
Theorem C56_disjoint_refuted : exists ord vt d L P I pairs c c' x,
  (forall s, Permutation (ord s) s) /\ NoDup (columns d) /\
  find_causal_cluster ord vt d [] [] = Ok (L, P, I, pairs) /\
  In c L /\ In c' L /\ c <> c' /\ In x c /\ In x c'.
Proof.
  exists (fun s => s), overlap_vt, [(1, 1); (2, 2); (3, 3); (4, 4); (5, 5); (6, 6)], [[1; 2; 3]; [1; 2; 4]], [], [[1; 2; 3]; [1; 2; 4]], [],
    [1; 2; 3], [1; 2; 4], 1.
  split; [auto|]. split; [repeat constructor; simpl; intuition lia|]. split; [vm_compute; reflexivity|].
  repeat split; simpl; auto; discriminate.
Qed.
Print Assumptions C56_disjoint_refuted.

(** A run with a merged pure cluster, an impure pair and a cluster of three. *)
Definition case_vt (a b c e : nat) : bool :=
  let p x y := memb a [x; y] && memb b [x; y] in
  p 1 2 || p 2 3 || p 4 5 || (memb a [6; 7; 8] && memb b [6; 7; 8] && negb (memb c [6; 7; 8]) && negb (memb e [6; 7; 8])).
Example C56_case :
  find_causal_cluster (fun s => s) case_vt (map (fun i => (i, i)) (seq 1 9)) [] []
  = Ok ([[1; 2; 3]; [4; 5]; [6; 7; 8]], [[1; 2; 3]], [[4; 5]; [6; 7; 8]], [[1; 2]; [2; 3]; [4; 5]]).
Proof. vm_compute. reflexivity. Qed.
