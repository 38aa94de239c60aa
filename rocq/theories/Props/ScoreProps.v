(** C64 - C66: caches of scores and tests, score equivalence of BIC, BDeu. *)

From Coq Require Import List Arith Lia Bool ZArith String Permutation Reals Lra.
From Verif Require Import Model.Py Model.Graph Model.Independence Model.LocalScore Model.IndepBase.
From Verif Require Import Spec.Digraphs Spec.Covered Spec.Scores.
From Verif Require Import Proofs.PyFacts Proofs.FinGraph Proofs.CoveredFacts Proofs.ScoreFacts Proofs.BicFacts Proofs.BdeuFacts Proofs.TextFacts.
Import ListNotations.
Open Scope nat_scope.

(* ================= C64: caches ================= *)

(** Different texts among those asked have different hashes. *)
Definition no_collision (hash : string -> Z) (texts : list string) : Prop :=
  forall s t, In s texts -> In t texts -> hash s = hash t -> s = t.

(** After any history of calls with lists, tuples or sets as parents, every call
    returns what computing the score afresh returns. *)
Theorem C64_score_cache_transparent : forall V (hash : string -> Z) (score_function : Z -> list Z -> res V) (qs : list (Z * parents_arg)),
  (forall i s l, ~ In (i, PIter s l) qs) ->
  no_collision hash (map (fun q => score_key_text (fst q) (snd q)) qs) ->
  snd (cached_scores hash score_function [] qs) = map (fun q => score_function (fst q) (elements (snd q))) qs.
Proof.
  intros V hash sf qs NP NC.
  apply (cached_scores_ok hash sf (fun i p => In (i, p) qs)); auto.
  - intros i [l|l|l|s l] H; simpl; auto. exact (NP i s l H).
  - intros i p i' p' H H'. apply NC; apply in_map_iff; [exists (i, p)|exists (i', p')]; auto.
  - intros k v H. discriminate.
Qed.
Print Assumptions C64_score_cache_transparent.

(** A hash for the examples: distinct texts get distinct numbers. *)
Fixpoint text_number (s : string) : Z :=
  match s with EmptyString => 0 | String c r => Z.of_nat (Ascii.nat_of_ascii c) + 1 + 257 * text_number r end%Z.

Example C64_score_cache_example :
  let qs := [(0, PList [1; 2]); (0, PTuple [1; 2]); (1, PSet []); (0, PList [1; 2]); (0, PList [12])]%Z in
  no_collision text_number (map (fun q => score_key_text (fst q) (snd q)) qs) /\
  snd (cached_scores text_number (fun i l => Ok (i, l)) [] qs)
    = [Ok (0, [1; 2]); Ok (0, [1; 2]); Ok (1, []); Ok (0, [1; 2]); Ok (0, [12])]%Z /\
  List.length (fst (cached_scores text_number (fun i l => Ok (i, l)) [] qs)) = 4.
Proof.
  split; [|split; reflexivity]. intros s t Hs Ht. simpl in Hs, Ht.
  repeat (destruct Hs as [<-|Hs]); try destruct Hs; repeat (destruct Ht as [<-|Ht]); try destruct Ht; vm_compute; intro Q; try reflexivity; discriminate.
Qed.

(** With iterators the statement is false: a new iterator at the address of one
    that is gone has its text, and is answered with the old score. *)
Theorem C64_score_cache_iterators_refuted : exists (hash : string -> Z) (score_function : Z -> list Z -> res (list Z)) (qs : list (Z * parents_arg)),
  (forall s t, hash s = hash t -> In s (map (fun q => score_key_text (fst q) (snd q)) qs) -> In t (map (fun q => score_key_text (fst q) (snd q)) qs) -> s = t) /\
  snd (cached_scores hash score_function [] qs) <> map (fun q => score_function (fst q) (elements (snd q))) qs.
Proof.
  exists text_number, (fun _ l => Ok l), [(0, PIter "<list_iterator object at 0x7f>" [1]); (0, PIter "<list_iterator object at 0x7f>" [2])]%Z.
  split; [|vm_compute; discriminate]. intros s t _ Hs Ht. simpl in Hs, Ht. destruct Hs as [<-|[<-|[]]], Ht as [<-|[<-|[]]]; reflexivity.
Qed.
Print Assumptions C64_score_cache_iterators_refuted.

(** Arguments of the tests that name all variables in one way. *)
Definition uniform (a : vars_arg) : Prop :=
  match a with
  | AList l => (exists z, l = map IInt z) \/ (exists s, l = map IStr s)
  | AArray l => exists z, l = map IInt z
  | _ => True
  end.

Lemma map_names_ints : forall names s l, mapE (item_to_index names) (map IStr s) = Ok l -> exists z, l = map IInt z.
Proof.
  intros names s. induction s as [|a s IH]; simpl; intros l H; [inversion H; exists []; auto|].
  destruct (name_to_index names a) as [i|e]; simpl in H; [|discriminate].
  destruct (mapE (item_to_index names) (map IStr s)) as [r|e]; simpl in H; [|discriminate].
  destruct (IH r eq_refl) as [z ->]. inversion H. exists (i :: z). auto.
Qed.

Lemma uniform_ints : forall names a x, uniform a -> input_to_list names a = Ok x -> ints x.
Proof.
  intros names [|i|s|l|l|] x U H.
  - inversion H. simpl. auto.
  - inversion H. exists [i]. auto.
  - simpl in H. destruct (name_to_index names s) as [i|e]; simpl in H; inversion H. exists [i]. auto.
  - destruct U as [[z ->]|[s ->]].
    + destruct z as [|i z]; simpl in H; inversion H; simpl; auto. exists (i :: z). auto.
    + destruct s as [|a s]; [simpl in H; inversion H; simpl; auto|].
      change (input_to_list names (AList (map IStr (a :: s)))) with (l <-? mapE (item_to_index names) (map IStr (a :: s)) ;; Ok (Some l))%res in H.
      destruct (mapE (item_to_index names) (map IStr (a :: s))) as [r|e] eqn:Q; cbn [rbind] in H; [|discriminate].
      inversion H. subst. exact (map_names_ints _ _ _ Q).
  - destruct U as [z ->]. destruct z as [|i z]; simpl in H; inversion H; simpl; auto. exists (i :: z). auto.
  - discriminate.
Qed.

(** The texts of the queries that can be resolved. *)
Definition query_text (names : list string) (q : vars_arg * vars_arg * vars_arg) (t : string) : Prop :=
  exists x y z, input_to_list names (fst (fst q)) = Ok x /\ input_to_list names (snd (fst q)) = Ok y /\
    input_to_list names (snd q) = Ok z /\ t = pvalue_key_text x y z.

(** After any history of calls every call of a conditional independence test
    returns what a test object with an empty cache returns. *)
Theorem C64_pvalue_cache_transparent : forall V names (hash : string -> Z) without_condition with_condition (qs : list (vars_arg * vars_arg * vars_arg)),
  (forall xs ys zs, In (xs, ys, zs) qs -> uniform xs /\ uniform ys /\ uniform zs) ->
  (forall q q' s t, In q qs -> In q' qs -> query_text names q s -> query_text names q' t -> hash s = hash t -> s = t) ->
  snd (@p_values V names hash without_condition with_condition [] qs) =
  map (fun q => snd (compute_p_value names hash without_condition with_condition [] (fst (fst q)) (snd (fst q)) (snd q))) qs.
Proof.
  intros V names hash f0 f1 qs U NC.
  apply (p_values_ok names hash f0 f1 (fun q => In q qs)); auto.
  - intros [[xs ys] zs] x y z H [E1 [E2 E3]]. simpl in *. destruct (U _ _ _ H) as [U1 [U2 U3]].
    exact (conj (uniform_ints _ _ _ U1 E1) (conj (uniform_ints _ _ _ U2 E2) (uniform_ints _ _ _ U3 E3))).
  - intros q x y z q' x' y' z' H H' [E1 [E2 E3]] [F1 [F2 F3]] K. apply (NC q q'); auto; [exists x, y, z|exists x', y', z']; auto.
  - intros k v H. discriminate.
Qed.
Print Assumptions C64_pvalue_cache_transparent.

(** A variable may be given by its name or by its number: with distinct names
    all ways of writing the same variables are resolved to the same numbers. *)
Lemma sname_fold : forall l i d, NoDup l ->
  (forall x, ~ In x l -> dget String.eqb (fold_left (fun d p => dset String.eqb d (snd p) (fst p)) (enumerate_from i l) d) x = dget String.eqb d x) /\
  (forall j x, nth_error l j = Some x ->
     dget String.eqb (fold_left (fun d p => dset String.eqb d (snd p) (fst p)) (enumerate_from i l) d) x = Some (i + j)).
Proof.
  assert (forall a b, String.eqb a b = true <-> a = b) as Sp by (intros; apply String.eqb_eq).
  induction l as [|a l IH]; intros i d ND; simpl.
  - split; auto. intros [|j] x H; discriminate.
  - inversion_clear ND as [|? ? Na ND']. destruct (IH (S i) (dset String.eqb d a i) ND') as [I1 I2]. split.
    + intros x H. rewrite I1 by tauto. apply (dget_dset_neq String.eqb Sp). intro Q. apply H. auto.
    + intros [|j] x H; simpl in H.
      * inversion H; subst. rewrite I1 by auto. rewrite (dget_dset_eq String.eqb Sp). f_equal. lia.
      * rewrite (I2 j x H). f_equal. lia.
Qed.

Theorem C64_names_are_numbers : forall names (vs : list nat), NoDup names -> vs <> [] -> (forall v, In v vs -> v < List.length names) ->
  let numbers := map (fun v => IInt (Z.of_nat v)) vs in
  let strings := map (fun v => IStr (nth v names EmptyString)) vs in
  input_to_list names (AList strings) = Ok (Some numbers) /\
  input_to_list names (AList numbers) = Ok (Some numbers) /\
  input_to_list names (AArray numbers) = Ok (Some numbers) /\
  (forall v, vs = [v] -> input_to_list names (AInt (Z.of_nat v)) = Ok (Some numbers) /\
                         input_to_list names (AStr (nth v names EmptyString)) = Ok (Some numbers)).
Proof.
  intros names vs ND NE L numbers strings.
  assert (forall v, v < List.length names -> name_to_index names (nth v names EmptyString) = Ok (Z.of_nat v)) as K.
  { intros v Hv. unfold name_to_index, name_dict, dgetE.
    rewrite (proj2 (sname_fold names 0 [] ND) v (nth v names EmptyString) (nth_error_nth' names EmptyString Hv)). auto. }
  assert (mapE (item_to_index names) strings = Ok numbers) as M.
  { unfold strings, numbers. clear NE. induction vs as [|v vs IH]; simpl; auto.
    rewrite (K v) by (apply L; left; auto). simpl. rewrite IH; auto. intros; apply L; right; auto. }
  split; [|split; [|split]].
  - unfold strings in *. destruct vs as [|v vs]; [congruence|]. cbn [map input_to_list] in *. rewrite M. auto.
  - unfold numbers. destruct vs as [|v vs]; [congruence|]. auto.
  - unfold numbers. destruct vs as [|v vs]; [congruence|]. auto.
  - intros v ->. unfold numbers. simpl. rewrite (K v) by (apply L; left; auto). auto.
Qed.
Print Assumptions C64_names_are_numbers.

Example C64_names_example :
  let names := array_names 12 in
  NoDup names /\
  input_to_list names (AStr "x11") = Ok (Some [IInt 11]) /\
  input_to_list names (AList [IStr "x3"; IStr "x10"]) = Ok (Some [IInt 3; IInt 10]) /\
  input_to_list names (AList []) = Ok None /\
  input_to_list names AScalar = Err TypeError.
Proof.
  split; [|repeat split; reflexivity]. vm_compute.
  repeat (constructor; [simpl; intuition discriminate|]). constructor.
Qed.

(** A list that starts with a number is passed on as it is: names behind it
    reach the test unresolved. *)
Theorem C64_mixed_list_refuted : exists names s, NoDup names /\ In s names /\
  input_to_list names (AList [IInt 0; IStr s]) = Ok (Some [IInt 0; IStr s]).
Proof.
  exists (array_names 2), "x1"%string. split; [|split; [right; left; reflexivity|reflexivity]].
  vm_compute. repeat (constructor; [simpl; intuition discriminate|]). constructor.
Qed.
Print Assumptions C64_mixed_list_refuted.

Example C64_pvalue_example :
  let qs := [(AInt 0, AStr "x1", ANone); (AStr "x0", AList [IInt 1], AList []); (AInt 0, AInt 1, AArray [IInt 2])]%Z in
  (forall xs ys zs, In (xs, ys, zs) qs -> uniform xs /\ uniform ys /\ uniform zs) /\
  snd (p_values (array_names 3) text_number (Some (fun x y => Ok (x, y, None))) (Some (fun x y z => Ok (x, y, z))) [] qs)
    = [Ok (Some [IInt 0], Some [IInt 1], None); Ok (Some [IInt 0], Some [IInt 1], None); Ok (Some [IInt 0], Some [IInt 1], Some [IInt 2])] /\
  List.length (fst (p_values (array_names 3) text_number (Some (fun x y => Ok (x, y, None))) (Some (fun x y z => Ok (x, y, z))) [] qs)) = 2.
Proof.
  split; [|split; vm_compute; reflexivity]. intros xs ys zs [H|[H|[H|[]]]]; inversion H; subst; simpl; repeat split; auto.
  - left. exists [1%Z]. reflexivity.
  - left. exists []. reflexivity.
  - exists [2%Z]. reflexivity.
Qed.

(* ================= C65: BIC ================= *)

Definition parents_dec (n : nat) (E : nat -> nat -> Prop) (pa : nat -> list nat) (D : dag_on n E pa) (u v : nat) : {E u v} + {~ E u v}.
Proof.
  destruct D as [_ [B L]]. destruct (lt_dec v n) as [H|H].
  - destruct (in_dec Nat.eq_dec u (pa v)) as [i|i]; [left|right]; [apply (L v H); auto|]. intro Q. apply i. apply (L v H). auto.
  - right. intro Q. destruct (B u v Q). contradiction.
Defined.

(** Markov equivalent DAGs have the same BIC score.  [C] is any non-degenerate
    matrix of correlations, [inv] any inverse that is right on such matrices,
    [m] the number of samples; the parents may be listed in any order. *)
Theorem C65_bic_score_equivalent : forall (n m : nat) (C : nat -> nat -> R) (lambda : R) (inv : nat -> rmat -> res rmat) E F paE paF,
  correlations n C ->
  (forall k A, correlations k A -> exists B, inv k A = Ok B /\ inverse_of k A B) ->
  dag_on n E paE -> dag_on n F paF -> markov_equiv E F ->
  exists s, dag_score (bic_local inv C m lambda) paE (seq 0 n) = Ok s /\
            dag_score (bic_local inv C m lambda) paF (seq 0 n) = Ok s.
Proof.
  intros n m C lambda inv E F paE paF HC HI DE DF EF.
  assert (forall E pa (D : dag_on n E pa), dag_score (bic_local inv C m lambda) pa (seq 0 n) =
     Ok (total (bic_total C inv m lambda) n E (parents_dec n E pa D))) as K.
  { intros E0 pa D. pose proof D as D0. destruct D0 as [Ac [B L]].
    assert (forall v, v < n -> good n (pa v)) as G.
    { intros v Hv. destruct (L v Hv) as [ND In']. split; auto. intros p Hp. apply In' in Hp. apply (B p v Hp). }
    assert (forall v, v < n -> ~ In v (pa v)) as NI.
    { intros v Hv Q. apply (L v Hv) in Q. apply (Ac v). econstructor; [exact Q|constructor]. }
    rewrite (dag_score_sum _ (bic_total C inv m lambda)).
    - f_equal. unfold total. apply sumR_ext. intros v Hv. apply in_seq in Hv.
      apply (bic_set C n HC inv HI); auto; try apply G; try apply NI; try apply pal_good; try lia.
      intro u. rewrite pal_in by auto. apply L. lia.
    - intros v Hv. apply in_seq in Hv. apply (bic_ok C n HC inv HI); [apply G|..]; try lia. apply NI. lia. }
  exists (total (bic_total C inv m lambda) n E (parents_dec n E paE DE)). split; [apply K|]. rewrite (K F paF DF). f_equal.
  symmetry. destruct DE as [A1 [B1 L1]] eqn:Q1, DF as [A2 [B2 L2]] eqn:Q2.
  apply score_equivalent; auto; intros.
  - apply (bic_set C n HC inv HI); auto.
  - apply (bic_turn C n HC inv HI); auto.
Qed.
Print Assumptions C65_bic_score_equivalent.

(** The chain 0 -> 1 -> 2 and its reverse, with correlations 1/2, 1/2, 1/4. *)
Definition chain3 (u v : nat) : Prop := (u = 0 /\ v = 1) \/ (u = 1 /\ v = 2).
Definition back3 (u v : nat) : Prop := (u = 1 /\ v = 0) \/ (u = 2 /\ v = 1).
Definition corr3 (i j : nat) : R :=
  if Nat.eqb i j then 1%R else if Nat.eqb (i + j) 2 then (1/4)%R else (1/2)%R.

Example C65_example : correlations 3 corr3 /\
  dag_on 3 chain3 (fun v => match v with 1 => [0] | 2 => [1] | _ => [] end) /\
  dag_on 3 back3 (fun v => match v with 0 => [1] | 1 => [2] | _ => [] end) /\
  markov_equiv chain3 back3 /\
  (forall k A, correlations k A -> exists B, spd_inv k A = Ok B /\ inverse_of k A B).
Proof.
  split; [|split; [|split; [|split]]].
  - split; [|split].
    + intros i j _ _. unfold corr3. rewrite Nat.eqb_sym, Nat.add_comm. auto.
    + intros i _. unfold corr3. rewrite Nat.eqb_refl. auto.
    + intros w [i [Hi Hw]]. unfold sumRn. simpl. unfold corr3; simpl.
      assert (0 < w i * w i)%R as Pi by nra. set (a := w 0) in *. set (b := w 1) in *. set (c := w 2) in *.
      assert (0 < a * a + b * b + c * c)%R as S.
      { destruct i as [|[|[|]]]; try lia; unfold a, b, c in *; nra. }
      pose proof (Rle_0_sqr (2 * a + b)). pose proof (Rle_0_sqr (2 * c + b)). pose proof (Rle_0_sqr (a + b)). pose proof (Rle_0_sqr (b + c)). pose proof (Rle_0_sqr (a + c)).
      pose proof (Rle_0_sqr a). pose proof (Rle_0_sqr c). unfold Rsqr in *. lra.
  - split; [|split].
    + apply rank_acyclic with (f := fun v => v). intros u v [[-> ->]|[-> ->]]; lia.
    + intros u v [[-> ->]|[-> ->]]; lia.
    + intros [|[|[|v]]] Hv; try lia; split; try (repeat constructor; simpl; tauto);
        intro u; unfold chain3; simpl; intuition lia.
  - split; [|split].
    + apply rank_acyclic with (f := fun v => 2 - v). intros u v [[-> ->]|[-> ->]]; lia.
    + intros u v [[-> ->]|[-> ->]]; lia.
    + intros [|[|[|v]]] Hv; try lia; split; try (repeat constructor; simpl; tauto);
        intro u; unfold back3; simpl; intuition lia.
  - split.
    + intros u v. unfold adjacent, chain3, back3. intuition lia.
    + intros u w v. unfold vstruct, adjacent, chain3, back3. intuition lia.
  - exact spd_inv_ok.
Qed.

(** With a correlation matrix the score without parents is 0 on both branches:
    the sign of line 27 does not matter. *)
Theorem C65_no_parents_zero : forall n m C lambda inv i, correlations n C -> i < n ->
  bic_local inv C m lambda i [] = Ok 0%R.
Proof.
  intros n m C lambda inv i [_ [D _]] Hi. unfold bic_local. simpl. rewrite (D i Hi), ln_1. f_equal. ring.
Qed.
Print Assumptions C65_no_parents_zero.

(* ================= C66: BDeu ================= *)

(** Every DAG has a variable without parents, so that the BDeu score of a DAG
    always raises (ValueError, unless there is one row only). *)
Theorem C66_bdeu_dag_fails : forall lgamma data sample_prior structure_prior n E pa,
  dag_on n E pa -> 0 < n ->
  exists e, dag_score (bdeu_local lgamma data sample_prior structure_prior) pa (seq 0 n) = Err e /\
    (List.length data <> 1 -> e = ValueError).
Proof.
  intros lgamma data sp st n E pa D Hn. pose proof D as D0. destruct D0 as [Ac [B L]].
  destruct (source_exists E (parents_dec n E pa D) (seq 0 n) Ac) as [s [Hs Src]].
  { destruct n; [lia|discriminate]. }
  assert (pa s = []) as Ps.
  { destruct (pa s) as [|p r] eqn:Q; auto. exfalso. apply in_seq in Hs. destruct (L s) as [_ I]; [lia|].
    assert (E p s) as Eps by (apply I; rewrite Q; left; auto). apply (Src p); auto. destruct (B p s Eps). apply in_seq. lia. }
  assert (forall vs, In s vs -> exists e, dag_score (bdeu_local lgamma data sp st) pa vs = Err e /\ (List.length data <> 1 -> e = ValueError)) as K.
  { induction vs as [|v vs IH]; intro H; [destruct H|]. simpl.
    destruct (bdeu_local lgamma data sp st v (pa v)) as [x|e] eqn:Q.
    - destruct H as [->|H]; [rewrite Ps in Q; discriminate|]. destruct (IH H) as [e [He1 He2]]. exists e. simpl. rewrite He1. auto.
    - exists e. split; auto. intro ND. unfold bdeu_local in Q. destruct (Nat.eqb (List.length (pa v)) 0); [inversion Q; auto|].
      destruct (Nat.eqb_spec (List.length data) 1); [contradiction|discriminate]. }
  apply K. auto.
Qed.
Print Assumptions C66_bdeu_dag_fails.

(** Where it is defined the BDeu score agrees on the two directions of a covered
    edge and does not depend on the order of the parents, for any [lgamma]. *)
Theorem C66_bdeu_covered_edge : forall lgamma data sample_prior structure_prior x y parents,
  parents <> [] -> List.length data <> 1 ->
  exists a b c d,
    bdeu_local lgamma data sample_prior structure_prior x parents = Ok a /\
    bdeu_local lgamma data sample_prior structure_prior y (x :: parents) = Ok b /\
    bdeu_local lgamma data sample_prior structure_prior y parents = Ok c /\
    bdeu_local lgamma data sample_prior structure_prior x (y :: parents) = Ok d /\
    (a + b = c + d)%R.
Proof.
  intros lgamma data sp st x y P NE ND. unfold bdeu_local. destruct (Nat.eqb_spec (List.length P) 0) as [Q|_]; [destruct P; [congruence|discriminate]|].
  destruct (Nat.eqb_spec (List.length data) 1) as [|_]; [contradiction|]. simpl Nat.eqb.
  do 4 eexists. do 4 (split; [reflexivity|]). pose proof (lt_turn data lgamma sp x y P). simpl List.length. lra.
Qed.
Print Assumptions C66_bdeu_covered_edge.

Theorem C66_bdeu_order_of_parents : forall lgamma data sample_prior structure_prior i parents parents',
  NoDup parents -> Permutation parents parents' ->
  bdeu_local lgamma data sample_prior structure_prior i parents = bdeu_local lgamma data sample_prior structure_prior i parents'.
Proof.
  intros lgamma data sp st i P P' ND Pm. unfold bdeu_local. rewrite (Permutation_length Pm).
  rewrite (lt_set data lgamma sp i P P'); auto.
  - eapply Permutation_NoDup; eauto.
  - intro p. split; apply Permutation_in; auto. symmetry. auto.
Qed.
Print Assumptions C66_bdeu_order_of_parents.

(** Four rows, three columns: the edge 0 -> 1 with common parent 2. *)
Example C66_example :
  let data := [[0; 0; 0]; [0; 1; 0]; [1; 1; 0]; [1; 1; 1]]%Z in
  ([2] <> [] :> list nat) /\ List.length data <> 1 /\
  q_i data [2] = 2 /\ q_i data [0; 2] = 4 /\ group_keys data [0; 2] = [[0; 0]; [1; 0]; [1; 1]]%Z /\
  dag_on 3 chain3 (fun v => match v with 1 => [0] | 2 => [1] | _ => [] end).
Proof.
  split; [discriminate|]. split; [discriminate|]. split; [reflexivity|]. split; [reflexivity|]. split; [reflexivity|].
  apply C65_example.
Qed.
