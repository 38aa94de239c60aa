(** get_performance: flattened matrices as tables over index pairs. *)

From Coq Require Import List Arith Bool ZArith QArith Qabs Qround Lia Lqa.
From Verif Require Import Model.Py Model.Graph Model.Metrics Model.Performance.
From Verif Require Import Proofs.PyFacts Proofs.GraphFacts Proofs.TopoFacts.
Import ListNotations.
Open Scope nat_scope.

(** An n x n matrix. *)
Definition square (n : nat) (m : list (list Q)) : Prop := length m = n /\ forall r, In r m -> length r = n.
(** Entry in row i, column j. *)
Definition at_ij (m : list (list Q)) (i j : nat) : Q := nth j (nth i m []) 0%Q.
(** All index pairs. *)
Definition ij (n : nat) : list (nat * nat) := list_prod (seq 0 n) (seq 0 n).

Lemma map_nth_seq : forall {A} (d : A) l, map (fun i => nth i l d) (seq 0 (length l)) = l.
Proof.
  intros A d. induction l as [|a l IH]; auto. simpl. f_equal. rewrite <- seq_shift, map_map. apply IH.
Qed.

Lemma list_prod_flat : forall {A B} (l : list A) (l' : list B),
  list_prod l l' = flat_map (fun a => map (fun b => (a, b)) l') l.
Proof. induction l; simpl; intros; auto. f_equal. auto. Qed.

Lemma flat_map_ext_in : forall {A B} (f g : A -> list B) l, (forall a, In a l -> f a = g a) -> flat_map f l = flat_map g l.
Proof. induction l; simpl; intros; auto. f_equal; auto. Qed.

Lemma concat_ij : forall n m, square n m -> concat m = map (fun p => at_ij m (fst p) (snd p)) (ij n).
Proof.
  intros n m [L R]. unfold ij. rewrite list_prod_flat.
  rewrite <- (map_nth_seq [] m) at 1. rewrite L, <- flat_map_concat_map.
  rewrite flat_map_concat_map, flat_map_concat_map, concat_map, !map_map. f_equal. apply map_ext_in.
  intros i Hi. apply in_seq in Hi. rewrite map_map. cbn [fst snd]. unfold at_ij.
  rewrite <- (map_nth_seq 0%Q (nth i m [])) at 1. rewrite (R (nth i m [])); auto. apply nth_In. lia.
Qed.

Lemma enum_length : forall {A} (l : list A) k, length (enumerate_from k l) = length l.
Proof. induction l; simpl; auto. Qed.
Lemma enum_nth : forall {A} (l : list A) k i d, i < length l -> nth i (enumerate_from k l) (0, d) = (k + i, nth i l d).
Proof.
  induction l as [|a l IH]; intros k i d H; simpl in H; [lia|]. destruct i; cbn [enumerate_from nth].
  - f_equal. lia.
  - rewrite IH by lia. f_equal. lia.
Qed.

Lemma minus_diag_square : forall n m, square n m -> square n (minus_diag m).
Proof.
  intros n m [L R]. split.
  - unfold minus_diag. rewrite map_length, enum_length. auto.
  - intros r H. unfold minus_diag in H. apply in_map_iff in H. destruct H as [[i x] [<- H]].
    rewrite map_length, enum_length. cbn [snd]. apply R.
    clear - H. revert H. generalize 0. induction m as [|a m IH]; simpl; intros k H; [tauto|].
    destruct H as [H|H]; [inversion H; auto|]. right. eapply IH; eauto.
Qed.
Lemma map_square : forall n m f, square n m -> square n (map (map f) m).
Proof.
  intros n m f [L R]. split; [rewrite map_length; auto|]. intros r H. apply in_map_iff in H. destruct H as [x [<- H]].
  rewrite map_length. auto.
Qed.

Lemma nth_map' : forall {A B} (f : A -> B) l i d d', i < length l -> nth i (map f l) d' = f (nth i l d).
Proof. intros A B f l i d d' H. rewrite (nth_indep _ d' (f d)) by (rewrite map_length; auto). apply map_nth. Qed.

Lemma at_minus_diag : forall n m i j, square n m -> i < n -> j < n ->
  at_ij (minus_diag m) i j = (at_ij m i j - (if Nat.eqb i j then at_ij m i j else 0))%Q.
Proof.
  intros n m i j [L R] Hi Hj. unfold at_ij, minus_diag.
  assert (Lr : length (nth i m []) = n) by (apply R, nth_In; lia).
  rewrite (nth_map' _ _ i (0, [])) by (rewrite enum_length; lia). rewrite enum_nth by lia. cbn [fst snd Nat.add].
  rewrite (nth_map' _ _ j (0, 0%Q)) by (rewrite enum_length; lia). rewrite enum_nth by lia. auto.
Qed.
Lemma at_map : forall n m f i j, square n m -> i < n -> j < n -> at_ij (map (map f) m) i j = f (at_ij m i j).
Proof.
  intros n m f i j [L R] Hi Hj. unfold at_ij.
  rewrite (nth_indep _ [] (map f [])) by (rewrite map_length; lia). rewrite map_nth.
  rewrite (nth_indep _ 0%Q (f 0%Q)) by (rewrite map_length, R; auto; apply nth_In; lia). apply map_nth.
Qed.

Lemma in_ij : forall n i j, In (i, j) (ij n) <-> i < n /\ j < n.
Proof. intros. unfold ij. rewrite in_prod_iff, !in_seq. lia. Qed.
Lemma ij_NoDup : forall n, NoDup (ij n).
Proof.
  intro n. unfold ij. rewrite list_prod_flat.
  assert (G : forall l k, NoDup l -> NoDup k -> NoDup (flat_map (fun a : nat => map (fun b : nat => (a, b)) k) l)).
  { induction l as [|a l IH]; intros k Hl Hk; simpl; [constructor|]. inversion Hl; subst.
    apply NoDup_app_intro; auto.
    - apply FinFun.Injective_map_NoDup; auto. intros x y E. congruence.
    - intros p Q H. apply in_map_iff in Q. destruct Q as [b [<- _]]. apply in_flat_map in H.
      destruct H as [a' [Ha H]]. apply in_map_iff in H. destruct H as [b' [E _]]. congruence. }
  apply G; apply seq_NoDup.
Qed.

(* ---------- labels ---------- *)
Lemma labels_In : forall x l, In x (labels l) <-> In x l.
Proof. intros. apply nodup_In. Qed.
Lemma labels_incl : forall l k, (forall x, In x l -> In x k) -> length (labels l) <= length k.
Proof. intros l k H. apply NoDup_incl_length; [apply NoDup_nodup|]. intros x Hx. apply H, labels_In, Hx. Qed.
Lemma labels_ge : forall l k, NoDup k -> (forall x, In x k -> In x l) -> length k <= length (labels l).
Proof. intros l k N H. apply NoDup_incl_length; auto. intros x Hx. apply labels_In, H, Hx. Qed.

Lemma existsb_1 : forall l, existsb (Z.eqb 1) l = true <-> In 1%Z l.
Proof.
  intro l. rewrite existsb_exists. split.
  - intros [x [H E]]. apply Z.eqb_eq in E. subst. auto.
  - intro H. exists 1%Z. auto.
Qed.

Lemma floor_int : forall z, Qfloor (inject_Z z) = z.
Proof. intro z. apply Qfloor_Z. Qed.
Lemma floor_eq : forall q z, (q == inject_Z z)%Q -> Qfloor q = z.
Proof. intros q z E. rewrite (Qfloor_comp _ _ E). apply Qfloor_Z. Qed.
Lemma is_int_iff : forall q, is_int q = true <-> exists z, (q == inject_Z z)%Q.
Proof.
  intro q. unfold is_int. rewrite Qeq_bool_iff. split; [eauto|].
  intros [z E]. rewrite (floor_eq q z E). auto.
Qed.

Definition pred_label (b : bool) : Z := if b then 1%Z else 0%Z.

(** Labels 0 and 1 are accepted. *)
Lemma sk_scores_01 : forall t e, length t = length e -> (forall x, In x t -> (x == 0)%Q \/ (x == 1)%Q) ->
  sk_scores t e = Ok (evaluate (map (fun x => Z.eqb 1 (Qfloor x)) t) e).
Proof.
  intros t e L H. unfold sk_scores. rewrite L, Nat.eqb_refl. cbn [negb].
  assert (I : forallb is_int t = true).
  { apply forallb_forall. intros x Hx. apply is_int_iff. destruct (H x Hx); [exists 0%Z|exists 1%Z]; auto. }
  rewrite I. cbn [negb].
  set (P := map Qfloor t ++ map (fun b : bool => if b then 1%Z else 0%Z) e).
  assert (A : forall x, In x P -> x = 0%Z \/ x = 1%Z).
  { intros x Hx. apply in_app_or in Hx. destruct Hx as [Hx|Hx]; apply in_map_iff in Hx.
    - destruct Hx as [q [<- Hq]]. destruct (H q Hq); [left|right]; apply floor_eq; auto.
    - destruct Hx as [[|] [<- _]]; auto. }
  assert (L2 : length (labels P) <= 2).
  { apply (labels_incl P [0%Z; 1%Z]). intros x Hx. simpl. destruct (A x Hx); auto. }
  destruct (Nat.ltb_spec 2 (length (labels P))); [lia|].
  destruct (existsb (Z.eqb 1) (labels P)) eqn:E1; cbn [negb andb].
  - rewrite map_map. auto.
  - assert (L1 : length (labels P) <= 1).
    { apply (labels_incl P [0%Z]). intros x Hx. destruct (A x Hx) as [-> | ->]; simpl; auto. exfalso.
      assert (existsb (Z.eqb 1) (labels P) = true) by (apply existsb_1, labels_In; auto). congruence. }
    destruct (Nat.leb_spec 2 (length (labels P))); [lia|]. rewrite map_map. auto.
Qed.

(** A label other than 0 and 1, next to the label 0, is rejected. *)
Lemma sk_scores_bad : forall t e a b, In a t -> In b t -> (a == 0)%Q -> ~ (b == 0)%Q -> ~ (b == 1)%Q ->
  sk_scores t e = Err ValueError.
Proof.
  intros t e a b Ia Ib A B0 B1. unfold sk_scores.
  destruct (negb (Nat.eqb (length t) (length e))); auto.
  destruct (forallb is_int t) eqn:I; cbn [negb]; auto.
  set (P := map Qfloor t ++ map (fun b : bool => if b then 1%Z else 0%Z) e).
  rewrite forallb_forall in I. assert (Ib' := I b Ib). apply is_int_iff in Ib'. destruct Ib' as [z Z].
  assert (Hz : In z P) by (apply in_or_app; left; apply in_map_iff; exists b; split; auto; apply floor_eq; auto).
  assert (H0 : In 0%Z P) by (apply in_or_app; left; apply in_map_iff; exists a; split; auto; apply floor_eq; auto).
  assert (z <> 0%Z) by (intros ->; auto). assert (z <> 1%Z) by (intros ->; auto).
  destruct (Nat.ltb_spec 2 (length (labels P))); auto.
  assert (L2 : 2 <= length (labels P)).
  { apply (labels_ge P [0%Z; z]). 2:{ simpl. intros x [<-|[<-|[]]]; auto. }
    constructor; [simpl; intuition|]. constructor; [simpl; auto|constructor]. }
  destruct (existsb (Z.eqb 1) (labels P)) eqn:E1; cbn [negb andb].
  - exfalso. apply existsb_1 in E1. apply (proj1 (labels_In _ _)) in E1.
    assert (3 <= length (labels P)); [|lia]. apply (labels_ge P [0%Z; z; 1%Z]).
    + constructor; [simpl; intros [Q|[Q|[]]]; lia|]. constructor; [simpl; intros [Q|[]]; lia|]. constructor; [simpl; auto|constructor].
    + simpl. intros x [Q|[Q|[Q|[]]]]; subst x; auto.
  - destruct (Nat.leb_spec 2 (length (labels P))); auto. lia.
Qed.
