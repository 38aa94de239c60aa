(** Counting with numpy's set routines. *)

From Coq Require Import List Arith Bool Lia ZArith QArith Permutation Sorted.
From Verif Require Import Model.Py Model.Networkx Model.LHS Model.Accuracy.
From Verif Require Import Proofs.PyFacts.
Import ListNotations.
Open Scope nat_scope.

(* ---------- intersect1d ---------- *)
Lemma ins_perm : forall x l, Permutation (x :: l) (insert_sorted x l).
Proof.
  induction l as [|y l IH]; simpl; auto. destruct (Nat.leb x y); auto.
  eapply Permutation_trans; [apply perm_swap|]. auto.
Qed.
Lemma sort_perm : forall l, Permutation l (py_sorted l).
Proof.
  induction l as [|x l IH]; simpl; auto. eapply Permutation_trans; [|apply ins_perm]. auto.
Qed.
Lemma ins_sorted : forall x l, StronglySorted le l -> StronglySorted le (insert_sorted x l).
Proof.
  induction l as [|y l IH]; intro H; simpl; [repeat constructor|].
  apply StronglySorted_inv in H. destruct H as [H1 H2]. destruct (Nat.leb_spec x y).
  - constructor; [constructor; auto|]. constructor; auto. eapply Forall_impl; [|exact H2]. simpl. intros. lia.
  - constructor; auto. apply Forall_forall. intros z Hz. apply (Permutation_in _ (Permutation_sym (ins_perm x l))) in Hz.
    destruct Hz as [<-|Hz]; [lia|]. rewrite Forall_forall in H2. auto.
Qed.
Lemma sort_sorted : forall l, StronglySorted le (py_sorted l).
Proof. induction l; simpl; [constructor|]. apply ins_sorted. auto. Qed.

Notation cnt := (count_occ Nat.eq_dec).

Lemma equal_next_count : forall l x, StronglySorted le l -> cnt (equal_next l) x = pred (cnt l x).
Proof.
  induction l as [|a [|b r] IH]; intros x H; [reflexivity| |].
  - simpl. destruct (Nat.eq_dec a x); reflexivity.
  - apply StronglySorted_inv in H. destruct H as [H1 H2]. specialize (IH x H1).
    assert (U : forall l, equal_next (a :: b :: l) = if Nat.eqb a b then a :: equal_next (b :: l) else equal_next (b :: l)) by reflexivity.
    rewrite U. destruct (Nat.eqb_spec a b) as [->|N].
    + cbn [count_occ]. cbn [count_occ] in IH. destruct (Nat.eq_dec b x); simpl in *; lia.
    + rewrite IH. cbn [count_occ]. destruct (Nat.eq_dec a x) as [->|Nx]; [|reflexivity].
      assert (Z : cnt (b :: r) x = 0).
      { apply count_occ_not_In. intro I. apply StronglySorted_inv in H1. destruct H1 as [_ H1].
        rewrite Forall_forall in H1, H2. pose proof (H2 b (or_introl eq_refl)). destruct I as [<-|I]; [congruence|].
        pose proof (H1 x I). lia. }
      cbn [count_occ] in Z. destruct (Nat.eq_dec b x); [congruence|]. rewrite Z. reflexivity.
Qed.

Lemma nodup_count : forall l x, NoDup l -> cnt l x = if memb x l then 1 else 0.
Proof.
  intros l x H. destruct (memb x l) eqn:M.
  - apply memb_In in M. apply (NoDup_count_occ' Nat.eq_dec l); auto.
  - apply memb_false in M. apply count_occ_not_In. auto.
Qed.

Lemma intersect1d_spec : forall a b, NoDup a -> NoDup b -> Permutation (intersect1d a b) (filter (fun k => memb k b) a).
Proof.
  intros a b Ha Hb. apply (Permutation_count_occ Nat.eq_dec). intro x. unfold intersect1d.
  rewrite equal_next_count by apply sort_sorted.
  rewrite <- (proj1 (Permutation_count_occ Nat.eq_dec _ _) (sort_perm (a ++ b)) x).
  rewrite count_occ_app, (nodup_count a), (nodup_count b), (nodup_count (filter _ a)) by (auto using NoDup_filter).
  destruct (memb x a) eqn:A, (memb x b) eqn:B, (memb x (filter (fun k => memb k b) a)) eqn:F; simpl; auto; exfalso.
  - apply memb_false in F. apply F. apply filter_In. split; auto. apply memb_In. auto.
  - apply memb_In, filter_In in F. destruct F. congruence.
  - apply memb_In, filter_In in F. destruct F as [F _]. apply memb_false in A. auto.
  - apply memb_In, filter_In in F. destruct F as [F _]. apply memb_false in A. auto.
Qed.

(* ---------- flat indices ---------- *)
Lemma flat_nodup : forall d p, NoDup (flatnonzero d p).
Proof. intros. apply NoDup_filter, seq_NoDup. Qed.

Lemma flat_memb : forall d p k, memb k (flatnonzero d p) = (k <? d * d) && p (k / d) (k mod d).
Proof.
  intros d p k. apply eq_true_iff_eq. rewrite memb_In. unfold flatnonzero.
  rewrite filter_In, in_seq, andb_true_iff, Nat.ltb_lt. intuition lia.
Qed.

Lemma filter_filter : forall {A} (f g : A -> bool) l, filter f (filter g l) = filter (fun x => g x && f x) l.
Proof. induction l as [|x l IH]; simpl; auto. destruct (g x); simpl; rewrite IH; auto. Qed.

Lemma filter_ext_in' : forall {A} (f g : A -> bool) l, (forall x, In x l -> f x = g x) -> filter f l = filter g l.
Proof. intros. apply filter_ext_in. auto. Qed.

Lemma flat_inter : forall d p q, filter (fun k => memb k (flatnonzero d q)) (flatnonzero d p) = flatnonzero d (fun i j => p i j && q i j).
Proof.
  intros d p q. unfold flatnonzero at 2 3. rewrite filter_filter. apply filter_ext_in'. intros k Hk. apply in_seq in Hk.
  rewrite flat_memb. replace (k <? d * d) with true by (symmetry; apply Nat.ltb_lt; lia). reflexivity.
Qed.

Lemma flat_diff : forall d p q, setdiff1d (flatnonzero d p) (flatnonzero d q) = flatnonzero d (fun i j => p i j && negb (q i j)).
Proof.
  intros d p q. unfold setdiff1d, flatnonzero at 2 3. rewrite filter_filter. apply filter_ext_in'. intros k Hk. apply in_seq in Hk.
  rewrite flat_memb. replace (k <? d * d) with true by (symmetry; apply Nat.ltb_lt; lia). reflexivity.
Qed.

Lemma memb_app : forall k a b, memb k (a ++ b) = memb k a || memb k b.
Proof.
  intros. apply eq_true_iff_eq. rewrite orb_true_iff, !memb_In, in_app_iff. tauto.
Qed.

Lemma flat_inter_app : forall d p q r, filter (fun k => memb k (flatnonzero d q ++ flatnonzero d r)) (flatnonzero d p) = flatnonzero d (fun i j => p i j && (q i j || r i j)).
Proof.
  intros d p q r. unfold flatnonzero at 3 4. rewrite filter_filter. apply filter_ext_in'. intros k Hk. apply in_seq in Hk.
  rewrite memb_app, !flat_memb. replace (k <? d * d) with true by (symmetry; apply Nat.ltb_lt; lia). reflexivity.
Qed.

Lemma flat_diff_app : forall d p q r, setdiff1d (flatnonzero d p) (flatnonzero d q ++ flatnonzero d r) = flatnonzero d (fun i j => p i j && negb (q i j || r i j)).
Proof.
  intros d p q r. unfold setdiff1d, flatnonzero at 3 4. rewrite filter_filter. apply filter_ext_in'. intros k Hk. apply in_seq in Hk.
  rewrite memb_app, !flat_memb. replace (k <? d * d) with true by (symmetry; apply Nat.ltb_lt; lia). reflexivity.
Qed.

(* ---------- counts as sums ---------- *)
Fixpoint nsum (n : nat) (f : nat -> nat) : nat := match n with 0 => 0 | S m => nsum m f + f m end.
Definition b2n (b : bool) : nat := if b then 1 else 0.
Definition nsum2 (d : nat) (f : nat -> nat -> nat) : nat := nsum d (fun i => nsum d (f i)).

Lemma nsum_ext : forall n f g, (forall i, i < n -> f i = g i) -> nsum n f = nsum n g.
Proof. induction n; intros f g H; simpl; auto. rewrite (IHn f g), (H n); auto. Qed.
Lemma nsum_le : forall n f g, (forall i, i < n -> f i <= g i) -> nsum n f <= nsum n g.
Proof. induction n; intros f g H; simpl; auto. pose proof (IHn f g ltac:(auto)). pose proof (H n ltac:(auto)). lia. Qed.
Lemma nsum_add : forall n f g, nsum n (fun i => f i + g i) = nsum n f + nsum n g.
Proof. induction n; intros f g; simpl; auto. rewrite IHn. lia. Qed.
Lemma nsum_zero : forall n, nsum n (fun _ => 0) = 0.
Proof. induction n; simpl; auto. lia. Qed.
Lemma nsum_swap : forall n m f, nsum n (fun i => nsum m (f i)) = nsum m (fun j => nsum n (fun i => f i j)).
Proof. induction n; intros m f; simpl; [symmetry; apply nsum_zero|]. rewrite IHn, <- nsum_add. reflexivity. Qed.
Lemma nsum_0_iff : forall n f, nsum n f = 0 <-> forall i, i < n -> f i = 0.
Proof.
  induction n as [|n IH]; intro f; simpl; [split; intros; auto; lia|]. split.
  - intros H i Hi. destruct (Nat.eq_dec i n) as [->|]; [lia|]. apply IH; lia.
  - intro H. assert (nsum n f = 0) by (apply IH; auto). rewrite (H n); lia.
Qed.

Lemma nsum2_ext : forall d f g, (forall i j, i < d -> j < d -> f i j = g i j) -> nsum2 d f = nsum2 d g.
Proof. intros. apply nsum_ext. intros. apply nsum_ext. auto. Qed.
Lemma nsum2_le : forall d f g, (forall i j, i < d -> j < d -> f i j <= g i j) -> nsum2 d f <= nsum2 d g.
Proof. intros. apply nsum_le. intros. apply nsum_le. auto. Qed.
Lemma nsum2_add : forall d f g, nsum2 d (fun i j => f i j + g i j) = nsum2 d f + nsum2 d g.
Proof. intros. unfold nsum2. rewrite <- nsum_add. apply nsum_ext. intros. apply nsum_add. Qed.
Lemma nsum2_0_iff : forall d f, nsum2 d f = 0 <-> forall i j, i < d -> j < d -> f i j = 0.
Proof.
  intros. unfold nsum2. rewrite nsum_0_iff. split; intros H i; [intros j Hi Hj; apply (nsum_0_iff d (f i)); auto|].
  intro Hi. apply nsum_0_iff. auto.
Qed.

(** Ordered pairs grouped by unordered pairs. *)
Lemma nsum2_pairs : forall d f, (forall i, i < d -> f i i = 0) ->
  nsum2 d f = nsum2 d (fun i j => if j <? i then f i j + f j i else 0).
Proof.
  intros d f D.
  transitivity (nsum2 d (fun i j => (if j <? i then f i j else 0) + (if i <? j then f i j else 0))).
  - apply nsum2_ext. intros i j Hi Hj. destruct (Nat.ltb_spec j i), (Nat.ltb_spec i j); try lia.
    assert (i = j) by lia. subst. rewrite D; auto.
  - rewrite nsum2_add.
    assert (S : nsum2 d (fun i j => if i <? j then f i j else 0) = nsum2 d (fun i j => if j <? i then f j i else 0)).
    { unfold nsum2. rewrite nsum_swap. reflexivity. }
    rewrite S, <- nsum2_add. apply nsum2_ext. intros i j _ _. destruct (j <? i); lia.
Qed.

(** The number of index pairs below [d] with a property. *)
Definition count2 (d : nat) (p : nat -> nat -> bool) : nat :=
  length (filter (fun q => p (fst q) (snd q)) (list_prod (seq 0 d) (seq 0 d))).

Lemma filter_len_sum : forall (f : nat -> bool) n s, length (filter f (seq s n)) = nsum n (fun k => b2n (f (s + k))).
Proof.
  intros f n s. revert n. induction n as [|n IH]; [reflexivity|].
  rewrite seq_S, filter_app, app_length, IH. simpl. unfold b2n. destruct (f (s + n)); simpl; lia.
Qed.

Lemma nsum_block : forall n d f, nsum (n * d) f = nsum n (fun i => nsum d (fun j => f (i * d + j))).
Proof.
  assert (A : forall a b f, nsum (a + b) f = nsum a f + nsum b (fun j => f (a + j))).
  { intros a b f. induction b as [|b IH]; simpl; [rewrite Nat.add_0_r; lia|].
    rewrite Nat.add_succ_r. simpl. rewrite IH. lia. }
  induction n as [|n IH]; intros d f; [reflexivity|]. cbn [nsum]. rewrite <- IH.
  replace (S n * d) with (n * d + d) by (simpl; lia). apply A.
Qed.

Lemma flat_length : forall d p, length (flatnonzero d p) = nsum2 d (fun i j => b2n (p i j)).
Proof.
  intros d p. unfold flatnonzero. rewrite filter_len_sum, nsum_block. unfold nsum2. apply nsum_ext. intros i Hi. apply nsum_ext. intros j Hj.
  simpl. replace ((i * d + j) / d) with i; [replace ((i * d + j) mod d) with j; auto|].
  - rewrite Nat.add_comm, Nat.mod_add, Nat.mod_small by lia. reflexivity.
  - rewrite Nat.add_comm, Nat.div_add, Nat.div_small by lia. reflexivity.
Qed.

Lemma fold_nsum : forall f n, fold_right (fun i a => f i + a) 0 (seq 0 n) = nsum n f.
Proof.
  intros f n.
  assert (X : forall l c, fold_right (fun i a => f i + a) c l = fold_right (fun i a => f i + a) 0 l + c).
  { induction l as [|x l IH]; intro c; simpl; [lia|]. rewrite IH. lia. }
  induction n as [|n IH]; [reflexivity|]. rewrite seq_S, fold_right_app, X, IH. simpl. lia.
Qed.

Lemma count2_sum : forall d p, count2 d p = nsum2 d (fun i j => b2n (p i j)).
Proof.
  intros d p. unfold count2, nsum2.
  assert (G : forall l, length (filter (fun q => p (fst q) (snd q)) (list_prod l (seq 0 d))) = fold_right (fun i a => nsum d (fun j => b2n (p i j)) + a) 0 l).
  { induction l as [|i l IH]; simpl; auto. rewrite filter_app, app_length, IH. f_equal.
    clear IH. pose proof (filter_len_sum (p i) d 0) as L. simpl in L. rewrite <- L. clear. induction (seq 0 d) as [|j s IH]; simpl; auto.
    destruct (p i j); simpl; auto. }
  rewrite G. apply (fold_nsum (fun i => nsum d (fun j => b2n (p i j))) d).
Qed.

Lemma NoDup_app_intro : forall (a b : list nat), NoDup a -> NoDup b -> (forall x, In x a -> ~ In x b) -> NoDup (a ++ b).
Proof.
  induction a as [|x a IH]; intros b Ha Hb D; simpl; auto. inversion Ha; subst. constructor.
  - rewrite in_app_iff. intros [H|H]; auto. apply (D x); simpl; auto.
  - apply IH; auto. intros y Hy. apply D. right. auto.
Qed.
