(** Facts about Model/Metrics.v. *)

From Coq Require Import List Arith Bool Lia ZArith QArith.
From Verif Require Import Model.Py Model.Graph Model.DiGraph Model.Metrics Spec.API.
From Verif Require Import Proofs.PyFacts Proofs.GraphFacts Proofs.HistoryFacts Proofs.EdgeFacts Proofs.FrameFacts
  Proofs.NumpyFacts.
Import ListNotations.
Open Scope nat_scope.

(* ---------- shd ---------- *)
Lemma edge_eqb_spec : forall a b, edge_eqb a b = true <-> a = b.
Proof.
  intros [a1 a2 a3 a4] [b1 b2 b3 b4]. unfold edge_eqb. simpl.
  rewrite !andb_true_iff, !Nat.eqb_eq, !mark_eqb_spec. split.
  - intros [[[-> ->] ->] ->]. auto.
  - intro H. inversion H. auto.
Qed.

Lemma opt_edge_eqb_spec : forall a b, opt_edge_eqb a b = true <-> a = b.
Proof.
  intros [a|] [b|]; simpl; rewrite ?edge_eqb_spec; split; congruence.
Qed.

Definition dif (t e : graph) (p : nat * nat) : nat :=
  if opt_edge_eqb (edge_of t (fst p) (snd p)) (edge_of e (fst p) (snd p)) then 0 else 1.

Lemma list_eqb_refl : forall l, list_eqb Nat.eqb l l = true.
Proof. intro l. apply list_eqb_spec; auto. apply Nat.eqb_eq. Qed.

Lemma kind_eqb_refl : forall k, kind_eqb k k = true.
Proof. destruct k; auto. Qed.

Lemma shd_ok : forall t e, WF t -> WF e -> g_kind t = g_kind e -> node_list t = node_list e ->
  shd t e = Ok (sumf (dif t e) (comb2 (node_list t))).
Proof.
  intros t e Wt We K N. unfold shd, miss_match_graph_type, miss_match_graph_nodes, nodes.
  rewrite K, N, kind_eqb_refl, list_eqb_refl. simpl.
  rewrite mapE_ok with (h := dif t e).
  - reflexivity.
  - intros [u v] H. apply in_comb2_In in H. cbn [fst snd].
    rewrite !get_edge_ok by (rewrite ?N; tauto). reflexivity.
Qed.

Lemma sumf_zero : forall {A} (f : A -> nat) l, sumf f l = 0 <-> forall x, In x l -> f x = 0.
Proof.
  induction l as [|a l IH]; unfold sumf in *; simpl; [tauto|]. split.
  - intros H x [<-|Hx]; [lia|]. apply IH; auto. lia.
  - intro H. rewrite (H a) by auto. apply IH. auto.
Qed.

Lemma sumf_le : forall {A} (f h : A -> nat) l, (forall x, In x l -> f x <= h x) -> sumf f l <= sumf h l.
Proof.
  induction l as [|a l IH]; intro H; unfold sumf in *; simpl; auto.
  pose proof (H a (or_introl eq_refl)). assert (forall x, In x l -> f x <= h x) by (intros; apply H; simpl; auto).
  specialize (IH H1). lia.
Qed.

Lemma sumf_one : forall {A} (f : A -> nat) l x, NoDup l -> (forall y, In y l -> y <> x -> f y = 0) ->
  sumf f l <= f x.
Proof.
  induction l as [|a l IH]; intros x ND H; unfold sumf in *; simpl; [lia|]. inversion ND; subst.
  destruct (in_dec Nat.eq_dec 0 []) as [[]|_].
  assert (D : a = x \/ (In x l -> a <> x)) by (right; intros Hx ->; contradiction).
  assert (C : f a = 0 \/ f a <> 0) by lia. destruct C as [C|C].
  - rewrite C. simpl. apply IH; auto. intros y Hy. apply H. simpl; auto.
  - assert (E : list_sum (map f l) = 0).
    { apply (proj2 (sumf_zero f l)). intros y Hy.
      destruct (Nat.eq_dec (f y) 0); auto. exfalso.
      assert (f a = 0); [|lia]. apply H; simpl; auto. intros ->.
      apply n. apply H; simpl; auto. intros ->. contradiction. }
    rewrite E. destruct (Nat.eq_dec (f a) (f x)); [lia|]. exfalso. apply C, H; simpl; auto.
    intros ->. congruence.
Qed.

Lemma dif_le : forall t e p, dif t e p <= 1.
Proof. intros. unfold dif. destruct opt_edge_eqb; lia. Qed.

Lemma dif_sym : forall t e p, dif t e p = dif e t p.
Proof.
  intros. unfold dif.
  destruct (opt_edge_eqb (edge_of t (fst p) (snd p)) (edge_of e (fst p) (snd p))) eqn:E1;
  destruct (opt_edge_eqb (edge_of e (fst p) (snd p)) (edge_of t (fst p) (snd p))) eqn:E2; auto.
  - apply opt_edge_eqb_spec in E1. symmetry in E1. apply opt_edge_eqb_spec in E1. congruence.
  - apply opt_edge_eqb_spec in E2. symmetry in E2. apply opt_edge_eqb_spec in E2. congruence.
Qed.

Lemma dif_zero : forall t e p, dif t e p = 0 <-> edge_of t (fst p) (snd p) = edge_of e (fst p) (snd p).
Proof.
  intros. unfold dif. rewrite <- opt_edge_eqb_spec. destruct opt_edge_eqb; split; congruence.
Qed.

Lemma dif_triangle : forall a b c p, dif a c p <= dif a b p + dif b c p.
Proof.
  intros a b c p. pose proof (dif_le a c p).
  destruct (Nat.eq_dec (dif a b p) 0) as [H1|H1]; [|lia].
  destruct (Nat.eq_dec (dif b c p) 0) as [H2|H2]; [|lia].
  apply dif_zero in H1, H2. assert (dif a c p = 0) by (apply dif_zero; congruence). lia.
Qed.

Lemma edge_of_flip : forall t e u v, WF t -> WF e -> edge_of t u v = edge_of e u v -> edge_of t v u = edge_of e v u.
Proof.
  intros t e u v Wt We. unfold edge_of.
  destruct (mk t u v), (mk t v u), (mk e u v), (mk e v u); intro H; inversion H; congruence || auto.
Qed.

(* ---------- precision, recall, F1 ---------- *)
Lemma count_true_map : forall {A} (f : A -> bool) l, count_true (map f l) = length (filter f l).
Proof.
  intros A f l. unfold count_true. induction l as [|a l IH]; simpl; auto. destruct (f a); simpl; auto.
Qed.

Lemma both_map : forall {A} (f h : A -> bool) l, both (map f l) (map h l) = map (fun x => (f x && h x)%bool) l.
Proof. intros. unfold both. induction l as [|a l IH]; simpl; auto. f_equal; auto. Qed.

Lemma both_sym : forall {A} (f h : A -> bool) l, both (map f l) (map h l) = both (map h l) (map f l).
Proof. intros. rewrite !both_map. apply map_ext. intro. apply andb_comm. Qed.

Lemma ratio_mul : forall a b, (b = 0 -> a = 0) -> (ratio a b * inject_Z (Z.of_nat b) == inject_Z (Z.of_nat a))%Q.
Proof.
  intros a b H. unfold ratio. destruct b as [|b].
  - rewrite H by auto. reflexivity.
  - unfold Qeq, inject_Z. simpl Qnum. simpl Qden. unfold Qmult. simpl Qnum. simpl Qden.
    rewrite ?Pos.mul_1_r, ?Zpos_P_of_succ_nat, ?Nat2Z.inj_succ. lia.
Qed.

Lemma ratio_range : forall a b, a <= b -> (0 <= ratio a b /\ ratio a b <= 1)%Q.
Proof.
  intros a b H. unfold ratio. destruct b as [|b].
  - split; [apply Qle_refl|discriminate].
  - unfold Qle. simpl. rewrite Zpos_P_of_succ_nat. split; lia.
Qed.

Lemma ratio_one : forall a, a <> 0 -> (ratio a a == 1)%Q.
Proof.
  intros a H. unfold ratio. destruct a as [|a]; [congruence|]. unfold Qeq. simpl Qnum. simpl Qden.
  rewrite Zpos_P_of_succ_nat. lia.
Qed.

Lemma filter_and_le_l : forall {A} (f h : A -> bool) l,
  length (filter (fun x => (f x && h x)%bool) l) <= length (filter f l).
Proof.
  intros. induction l as [|a l IH]; simpl; auto. destruct (f a); simpl; auto. destruct (h a); simpl; lia.
Qed.
Lemma filter_and_le_r : forall {A} (f h : A -> bool) l,
  length (filter (fun x => (f x && h x)%bool) l) <= length (filter h l).
Proof.
  intros. induction l as [|a l IH]; simpl; auto. destruct (f a), (h a); simpl; lia.
Qed.

Lemma skel_ok : forall t e, WF t -> WF e -> g_kind t = g_kind e -> node_list t = node_list e ->
  skeleton_evaluation t e =
  Ok (evaluate (map (fun p => connb t (fst p) (snd p)) (comb2 (node_list t)))
               (map (fun p => connb e (fst p) (snd p)) (comb2 (node_list t)))).
Proof.
  intros t e Wt We K N. unfold skeleton_evaluation, miss_match_graph_type, miss_match_graph_nodes, nodes.
  rewrite K, N, kind_eqb_refl, list_eqb_refl. simpl.
  rewrite !mapE_ok with (h := fun p => connb t (fst p) (snd p)) by
    (intros [u v] H; apply in_comb2_In in H; apply is_connected_ok; auto; rewrite ?N; tauto).
  rewrite !mapE_ok with (h := fun p => connb e (fst p) (snd p)) by
    (intros [u v] H; apply in_comb2_In in H; apply is_connected_ok; auto; rewrite ?N; tauto).
  reflexivity.
Qed.

Lemma arrow_ok : forall t e, WF t -> WF e -> g_kind t = g_kind e -> node_list t = node_list e ->
  arrow_evaluation t e =
  Ok (evaluate (map (fun p => markb Arrow t (fst p) (snd p)) (perm2 (node_list t)))
               (map (fun p => markb Arrow e (fst p) (snd p)) (perm2 (node_list t)))).
Proof.
  intros t e Wt We K N. unfold arrow_evaluation, miss_match_graph_type, miss_match_graph_nodes, nodes.
  rewrite K, N, kind_eqb_refl, list_eqb_refl. simpl. unfold is_arrow.
  rewrite !mapE_ok with (h := fun p => markb Arrow t (fst p) (snd p)) by
    (intros [u v] H; apply in_perm2 in H; [|apply We]; apply is_mark_ok; auto; rewrite ?N; tauto).
  rewrite !mapE_ok with (h := fun p => markb Arrow e (fst p) (snd p)) by
    (intros [u v] H; apply in_perm2 in H; [|apply We]; apply is_mark_ok; auto; rewrite ?N; tauto).
  reflexivity.
Qed.

Lemma dire_ok : forall t e, WF t -> WF e -> g_kind t = g_kind e -> node_list t = node_list e ->
  directed_edge_evaluation t e =
  Ok (evaluate (map (fun p => dirb t (fst p) (snd p)) (perm2 (node_list t)))
               (map (fun p => dirb e (fst p) (snd p)) (perm2 (node_list t)))).
Proof.
  intros t e Wt We K N. unfold directed_edge_evaluation, miss_match_graph_type, miss_match_graph_nodes, nodes.
  rewrite K, N, kind_eqb_refl, list_eqb_refl. simpl.
  rewrite !mapE_ok with (h := fun p => dirb t (fst p) (snd p)) by
    (intros [u v] H; apply in_perm2 in H; [|apply We]; apply is_fully_directed_ok; auto; rewrite ?N; tauto).
  rewrite !mapE_ok with (h := fun p => dirb e (fst p) (snd p)) by
    (intros [u v] H; apply in_perm2 in H; [|apply We]; apply is_fully_directed_ok; auto; rewrite ?N; tauto).
  reflexivity.
Qed.

Lemma perm2_NoDup : forall {A} (l : list A), NoDup l -> NoDup (perm2 l).
Proof.
  intros A l ND.
  assert (G : forall (B : Type) (l1 l2 : list B), NoDup l1 -> NoDup l2 ->
            (forall x, In x l1 -> ~ In x l2) -> NoDup (l1 ++ l2)).
  { induction l1; intros l2 H1 H2 H; simpl; auto. inversion H1; subst. constructor.
    - intro Hi. apply in_app_iff in Hi. destruct Hi; auto. apply (H a); simpl; auto.
    - apply IHl1; auto. intros x Hx. apply H. simpl; auto. }
  assert (P : forall l pre : list A, NoDup (pre ++ l) -> NoDup (perm2_from pre l)).
  { induction l0 as [|x r IH]; intros pre N; simpl; [constructor|].
    apply G.
    - apply FinFun.Injective_map_NoDup. { intros y z E. inversion E. auto. }
      apply NoDup_remove_1 in N. auto.
    - apply IH. rewrite <- app_assoc. auto.
    - intros [a b] Ha Hb. apply in_map_iff in Ha. destruct Ha as [y [E _]]. inversion E; subst.
      apply in_perm2_from in Hb; [|rewrite <- app_assoc; auto]. destruct Hb as [Hb _].
      apply NoDup_remove_2 in N. apply N. apply in_app_iff. auto. }
  unfold perm2. apply P. auto.
Qed.
