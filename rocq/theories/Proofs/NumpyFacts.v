(** The exported adjacency matrix. *)

From Coq Require Import List Arith Bool Lia ZArith.
From Verif Require Import Model.Py Model.Graph Model.Metrics Spec.API.
From Verif Require Import Proofs.PyFacts Proofs.GraphFacts Proofs.HistoryFacts.
Import ListNotations.

Definition shape {A} (n : nat) (m : list (list A)) : Prop :=
  length m = n /\ forall r, In r m -> length r = n.

Lemma set_nth_length : forall {A} i (x : A) l, length (set_nth i x l) = length l.
Proof. intros A i x l. revert i. induction l as [|a l IH]; intros [|i]; simpl; auto. Qed.

Lemma nth_set_nth : forall {A} (d : A) i j x l, i < length l ->
  nth j (set_nth i x l) d = if Nat.eqb i j then x else nth j l d.
Proof.
  intros A d i j x l. revert i j. induction l as [|a l IH]; intros i j H; simpl in H; [lia|].
  destruct i, j; simpl; auto. apply IH. lia.
Qed.

Lemma in_set_nth : forall {A} i (x y : A) l, In y (set_nth i x l) -> y = x \/ In y l.
Proof.
  intros A i x y l. revert i. induction l as [|a l IH]; intros [|i]; simpl; auto.
  - intros [<-|H]; auto.
  - intros [<-|H]; auto. apply IH in H. tauto.
Qed.

Lemma shape_mat_set : forall n m i j x, shape n m -> i < n -> shape n (mat_set m i j x).
Proof.
  intros n m i j x [L R] Hi. split.
  - unfold mat_set. rewrite set_nth_length. auto.
  - intros r Hr. apply in_set_nth in Hr. destruct Hr as [->|Hr]; auto.
    rewrite set_nth_length. apply R. apply nth_In. lia.
Qed.

Lemma mat_get_set : forall n m i j x i' j', shape n m -> i < n -> j < n ->
  mat_get (mat_set m i j x) i' j' = if (Nat.eqb i i' && Nat.eqb j j')%bool then x else mat_get m i' j'.
Proof.
  intros n m i j x i' j' [L R] Hi Hj. unfold mat_get, mat_set. rewrite nth_set_nth by lia.
  destruct (Nat.eqb_spec i i'); simpl; auto. subst i'. rewrite nth_set_nth.
  - destruct (Nat.eqb j j'); auto.
  - rewrite (R (nth i m [])); auto. apply nth_In. lia.
Qed.

Lemma shape_zeros : forall n, shape n (zeros n).
Proof.
  intro n. split. apply repeat_length. intros r H. apply repeat_spec in H. subst. apply repeat_length.
Qed.

Lemma nth_repeat' : forall {A} (x : A) n i, nth i (repeat x n) x = x.
Proof. induction n; intros [|i]; simpl; auto. Qed.

Lemma mat_get_zeros : forall n i j, mat_get (zeros n) i j = 0%Z.
Proof.
  intros. unfold mat_get, zeros.
  destruct (Nat.lt_ge_cases i n).
  - rewrite (nth_indep _ [] (repeat 0%Z n)) by (rewrite repeat_length; auto).
    rewrite nth_repeat'. apply nth_repeat'.
  - rewrite nth_overflow with (d := []) by (rewrite repeat_length; auto). destruct j; auto.
Qed.

Lemma node_index_fold : forall l k (d : list (nat * nat)) u, NoDup l ->
  nget (fold_left (fun d p => nset d (snd p) (fst p)) (enumerate_from k l) d) u =
  match (fix find k l := match l with [] => None | x :: r => if Nat.eqb u x then Some k else find (S k) r end) k l with
  | Some i => Some i | None => nget d u end.
Proof.
  induction l as [|a l IH]; intros k d u ND; simpl; auto. inversion ND; subst.
  rewrite IH by auto. destruct (Nat.eqb_spec u a).
  - subst. assert (G : forall k l', ~ In a l' -> (fix find k l := match l with [] => None | x :: r => if Nat.eqb a x then Some k else find (S k) r end) k l' = None).
    { intros k0 l'. revert k0. induction l' as [|b l' IHl]; intros k0 Hn; auto.
      simpl in Hn. destruct (Nat.eqb_spec a b); [subst; tauto|]. apply IHl. tauto. }
    rewrite G by auto. apply dget_dset_eq. apply Neqb_spec.
  - rewrite (dget_dset_neq Nat.eqb Neqb_spec) by auto. auto.
Qed.

Lemma node_index_ok : forall g u i, NoDup (node_list g) -> nth_error (node_list g) i = Some u ->
  nget (node_index g) u = Some i.
Proof.
  intros g u i ND H. unfold node_index. rewrite node_index_fold by auto.
  assert (G : forall l k i, NoDup l -> nth_error l i = Some u ->
    (fix find k l := match l with [] => None | x :: r => if Nat.eqb u x then Some k else find (S k) r end) k l
    = Some (k + i)).
  { clear. induction l as [|a l IH]; intros k i ND H; [destruct i; discriminate|].
    inversion ND; subst. destruct i; simpl in H.
    - inversion H; subst. rewrite Nat.eqb_refl. f_equal. lia.
    - destruct (Nat.eqb_spec u a).
      + subst. exfalso. apply H2. eapply nth_error_In; eauto.
      + rewrite (IH (S k) i) by auto. f_equal. lia. }
  rewrite (G _ 0 i) by auto. reflexivity.
Qed.

Definition val (o : option mark) : Z := match o with Some m => mark_value m | None => 0%Z end.

Section Numpy.
  Variable g : graph.
  Hypothesis W : WF g.
  Let n := length (node_list g).

  Lemma numpy_row_ok : forall i r m, shape n m -> i < n -> NoDup (dkeys r) ->
    (forall v mv, nget r v = Some mv -> In v (node_list g)) ->
    exists m', numpy_row (node_index g) i r m = Ok m' /\ shape n m' /\
      (forall j i', i' <> i -> mat_get m' j i' = mat_get m j i') /\
      (forall j v, nth_error (node_list g) j = Some v ->
         mat_get m' j i = match nget r v with Some mv => mark_value mv | None => mat_get m j i end).
  Proof using W.
    intros i. induction r as [|[v mv] r IH]; intros m Hs Hi ND Hin; simpl.
    - exists m. auto.
    - simpl in ND. inversion ND; subst.
      assert (Hv : In v (node_list g)).
      { apply (Hin v mv). simpl. rewrite Nat.eqb_refl. auto. }
      destruct (In_nth_error _ _ Hv) as [iv Eiv].
      assert (Hiv : iv < n) by (apply nth_error_Some; congruence).
      unfold dgetE. rewrite (node_index_ok g v iv) by (auto; apply W). simpl.
      destruct (IH (mat_set m iv i (mark_value mv))) as [m' [E [S [F1 F2]]]]; auto.
      { apply shape_mat_set; auto. }
      { intros v' mv' H. apply (Hin v' mv'). simpl. destruct (Nat.eqb_spec v' v); auto.
        subst. exfalso. apply H1. apply (dget_Some_key Nat.eqb Neqb_spec). congruence. }
      exists m'. split; auto. split; auto. split.
      + intros j i' N. rewrite F1 by auto. rewrite (mat_get_set n) by auto.
        rewrite (proj2 (Nat.eqb_neq i i')) by auto. rewrite andb_false_r. auto.
      + intros j v' Hj. rewrite (F2 j v' Hj). rewrite (mat_get_set n) by auto. rewrite Nat.eqb_refl, andb_true_r.
        destruct (Nat.eqb_spec v' v).
        * subst v'. assert (nget r v = None) as ->.
          { destruct (nget r v) eqn:Ex; auto. exfalso. apply H1. apply (dget_Some_key Nat.eqb Neqb_spec). congruence. }
          assert (iv = j).
          { apply (proj1 (NoDup_nth_error (node_list g)) (wf_nodup g W)); auto. congruence. }
          subst. rewrite Nat.eqb_refl. auto.
        * destruct (nget r v'); auto. destruct (Nat.eqb_spec iv j); auto. subst. congruence.
  Qed.

  Lemma numpy_loop_ok : forall l k pre m, node_list g = pre ++ l -> length pre = k -> shape n m ->
    (forall i j u v, nth_error (node_list g) i = Some u -> nth_error (node_list g) j = Some v ->
       mat_get m j i = if i <? k then val (mk g u v) else 0%Z) ->
    exists m', numpy_loop g (node_index g) (enumerate_from k l) m = Ok m' /\ shape n m' /\
      (forall i j u v, nth_error (node_list g) i = Some u -> nth_error (node_list g) j = Some v ->
         mat_get m' j i = val (mk g u v)).
  Proof using W.
    induction l as [|a l IH]; intros k pre m Hl Hk Hs H; simpl.
    - exists m. split; auto. split; auto. intros i j u v Hi Hj. rewrite (H i j u v) by auto.
      assert (i < k). { rewrite <- Hk. rewrite app_nil_r in Hl. rewrite <- Hl. apply nth_error_Some. congruence. }
      apply Nat.ltb_lt in H0. rewrite H0. auto.
    - assert (Ha : In a (node_list g)) by (rewrite Hl; apply in_app_iff; simpl; auto).
      assert (Hka : nth_error (node_list g) k = Some a).
      { rewrite Hl, nth_error_app2 by lia. rewrite Hk, Nat.sub_diag. auto. }
      destruct (wf_row g a W Ha) as [r Er]. unfold row, dgetE. rewrite Er. simpl.
      destruct (numpy_row_ok k r m) as [m' [E [S [F1 F2]]]]; auto.
      { apply nth_error_Some. congruence. }
      { eapply wf_rownd; eauto. }
      { intros v mv Hv. apply (wf_in g W a). unfold mk. rewrite Er. congruence. }
      rewrite E. simpl. apply (IH (Datatypes.S k) (pre ++ [a])).
      + rewrite <- app_assoc. auto.
      + rewrite app_length. simpl. lia.
      + auto.
      + intros i j u v Hi Hj. destruct (Nat.eq_dec i k).
        * subst i. rewrite (F2 j v Hj). assert (u = a) by congruence. subst u.
          assert (k <? Datatypes.S k = true) as -> by (apply Nat.ltb_lt; lia). unfold mk. rewrite Er.
          destruct (nget r v); auto. rewrite (H k j a v) by auto. rewrite Nat.ltb_irrefl. auto.
        * rewrite F1 by auto. rewrite (H i j u v) by auto.
          destruct (Nat.ltb_spec i k), (Nat.ltb_spec i (Datatypes.S k)); auto; lia.
  Qed.

  Theorem to_numpy_ok : exists m, to_numpy g false = Ok m /\ shape n m /\
    (forall i j u v, nth_error (node_list g) i = Some u -> nth_error (node_list g) j = Some v ->
       mat_get m j i = val (mk g u v)).
  Proof using W.
    unfold to_numpy. destruct (numpy_loop_ok (node_list g) 0 [] (zeros n)) as [m [E [S F]]]; auto.
    - apply shape_zeros.
    - intros. apply mat_get_zeros.
    - unfold n in *. rewrite E. simpl. exists m. auto.
  Qed.
End Numpy.

Lemma nth_map_seq : forall {A} (f : nat -> A) n i d, i < n -> nth i (map f (seq 0 n)) d = f i.
Proof.
  intros. rewrite (nth_indep _ d (f 0)) by (rewrite map_length, seq_length; auto).
  rewrite map_nth, seq_nth; auto.
Qed.

Lemma mat_get_transpose : forall n m i j, i < n -> j < n ->
  mat_get (transpose n m) i j = mat_get m j i.
Proof.
  intros. unfold transpose, mat_get at 1. rewrite nth_map_seq by auto. rewrite nth_map_seq by auto. auto.
Qed.

Lemma list_eqb_spec : forall {A} (eqb : A -> A -> bool), (forall a b, eqb a b = true <-> a = b) ->
  forall l1 l2, list_eqb eqb l1 l2 = true <-> l1 = l2.
Proof.
  intros A eqb H. induction l1 as [|a l1 IH]; intros [|b l2]; simpl; try (split; congruence).
  rewrite andb_true_iff, H, IH. split; [intros [-> ->]; auto|]. intro E; inversion E; auto.
Qed.

Lemma shape_ext : forall n (a b : list (list Z)), shape n a -> shape n b ->
  (a = b <-> forall i j, i < n -> j < n -> mat_get a i j = mat_get b i j).
Proof.
  intros n a b [La Ra] [Lb Rb]. split; [intros ->; auto|]. intro H.
  apply nth_ext with (d := []) (d' := []); [lia|]. intros i Hi.
  assert (In (nth i a []) a) by (apply nth_In; auto).
  assert (In (nth i b []) b) by (apply nth_In; lia).
  apply nth_ext with (d := 0%Z) (d' := 0%Z); [rewrite (Ra (nth i a [])), (Rb (nth i b [])) by auto; auto|].
  intros j Hj. rewrite (Ra (nth i a [])) in Hj by auto. apply H; lia.
Qed.

Lemma kind_eqb_spec : forall a b, kind_eqb a b = true <-> a = b.
Proof. destruct a, b; simpl; split; congruence. Qed.

(** graph_equal compares the mark values entry by entry. *)
Theorem graph_equal_ok : forall g h, WF g -> WF h -> g_kind g = g_kind h -> node_list g = node_list h ->
  exists b, graph_equal g h = Ok b /\
    (b = true <-> forall u v, In u (node_list g) -> In v (node_list g) -> val (mk g u v) = val (mk h u v)).
Proof.
  intros g h Wg Wh K N. unfold graph_equal, miss_match_graph_type, miss_match_graph_nodes, rassert, nodes.
  assert (kind_eqb (g_kind g) (g_kind h) = true) as -> by (apply kind_eqb_spec; auto).
  assert (list_eqb Nat.eqb (node_list g) (node_list h) = true) as ->.
  { apply list_eqb_spec; auto. apply Nat.eqb_eq. }
  simpl. destruct (to_numpy_ok g Wg) as [a [Ea [Sa Fa]]]. destruct (to_numpy_ok h Wh) as [b [Eb [Sb Fb]]].
  rewrite Ea, Eb. simpl. eexists. split; [reflexivity|].
  rewrite list_eqb_spec. 2:{ apply list_eqb_spec. apply Z.eqb_eq. }
  rewrite <- N in Sb, Fb. rewrite (shape_ext _ _ _ Sa Sb). split.
  - intros H u v Hu Hv. apply In_nth_error in Hu, Hv. destruct Hu as [i Hi], Hv as [j Hj].
    rewrite <- (Fa i j u v), <- (Fb i j u v) by auto.
    apply H; apply nth_error_Some; congruence.
  - intros H j i Hj Hi. 
    destruct (nth_error (node_list g) i) as [u|] eqn:Ei; [|apply nth_error_None in Ei; lia].
    destruct (nth_error (node_list g) j) as [v|] eqn:Ej; [|apply nth_error_None in Ej; lia].
    rewrite (Fa i j u v), (Fb i j u v) by auto. apply H; eapply nth_error_In; eauto.
Qed.

Lemma val_inj : forall a b, a <> Some Null -> b <> Some Null -> val a = val b -> a = b.
Proof. intros [[]|] [[]|]; simpl; congruence || auto. Qed.
