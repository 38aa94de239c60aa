(** The median computed by sorting is the textbook one. *)

From Coq Require Import List Arith Lia Bool Permutation Sorted Reals Lra.
From Verif Require Import Model.LocalScore Model.HSIC Spec.KernelSpec Spec.Scores Proofs.BicFacts Proofs.GaussianFacts Proofs.HSICFacts.
Import ListNotations.
Open Scope nat_scope.

Lemma sorted_nth : forall l, StronglySorted Rle l -> forall i j, i <= j -> j < length l -> (nth i l 0 <= nth j l 0)%R.
Proof.
  induction l as [|x l IH]; intros S i j L H; simpl in H; [lia|]. inversion S; subst. destruct i as [|i], j as [|j]; simpl; try lra; try lia.
  - rewrite Forall_forall in H3. apply H3. apply nth_In. lia.
  - apply IH; auto; lia.
Qed.

Lemma filter_perm : forall (A : Type) (f : A -> bool) l l', Permutation l l' -> Permutation (filter f l) (filter f l').
Proof.
  intros A f l l' P. induction P; simpl; auto.
  - destruct (f x); auto.
  - destruct (f x), (f y); auto. apply perm_swap.
  - eapply perm_trans; eauto.
Qed.
Lemma filter_none : forall (A : Type) (f : A -> bool) l, (forall x, In x l -> f x = false) -> filter f l = [].
Proof. induction l as [|x l IH]; intro H; simpl; auto. rewrite (H x) by (left; auto). apply IH. intros. apply H. right. auto. Qed.
Lemma filter_len : forall (A : Type) (f : A -> bool) l, length (filter f l) <= length l.
Proof. induction l as [|x l IH]; simpl; auto. destruct (f x); simpl; lia. Qed.

Lemma in_firstn : forall (l : list R) k x, In x (firstn k l) -> exists i, i < k /\ i < length l /\ x = nth i l 0%R.
Proof.
  induction l as [|y l IH]; intros [|k] x H; simpl in H; try contradiction. destruct H as [<-|H]; [exists 0; simpl; repeat split; auto; lia|].
  destruct (IH k x H) as [i [A [B C]]]. exists (S i). simpl. repeat split; auto; lia.
Qed.
Lemma in_skipn : forall (l : list R) k x, In x (skipn k l) -> exists i, k <= i /\ i < length l /\ x = nth i l 0%R.
Proof.
  induction l as [|y l IH]; intros [|k] x H; simpl in H; try contradiction.
  - destruct H as [<-|H]; [exists 0; simpl; repeat split; auto; lia|]. destruct (IH 0 x ltac:(auto)) as [i [A [B C]]]. exists (S i). simpl. repeat split; auto; lia.
  - destruct (IH k x H) as [i [A [B C]]]. exists (S i). simpl. repeat split; auto; lia.
Qed.

Section Sorted.
  Variable s : list R.
  Hypothesis Hs : StronglySorted Rle s.
  Lemma below_nth : forall k, k < length s -> below (nth k s 0%R) s <= k.
  Proof using Hs.
    intros k Hk. assert (below (nth k s 0%R) (firstn k s ++ skipn k s) <= k); [|rewrite firstn_skipn in H; auto]. unfold below. rewrite filter_app, app_length.
    rewrite (filter_none _ _ (skipn k s)).
    - pose proof (filter_len _ (fun y => if Rlt_dec y (nth k s 0%R) then true else false) (firstn k s)). rewrite firstn_length in H. simpl. lia.
    - intros x Hx. apply in_skipn in Hx. destruct Hx as [i [A [B ->]]]. pose proof (sorted_nth s Hs k i A B). destruct (Rlt_dec _ _); auto. exfalso. lra.
  Qed.
  Lemma above_nth : forall k, k < length s -> above (nth k s 0%R) s <= length s - 1 - k.
  Proof using Hs.
    intros k Hk. assert (above (nth k s 0%R) (firstn (S k) s ++ skipn (S k) s) <= length s - 1 - k); [|rewrite firstn_skipn in H; auto]. unfold above. rewrite filter_app, app_length.
    rewrite (filter_none _ _ (firstn (S k) s)).
    - pose proof (filter_len _ (fun y => if Rlt_dec (nth k s 0%R) y then true else false) (skipn (S k) s)). rewrite skipn_length in H. cbn [length]. lia.
    - intros x Hx. apply in_firstn in Hx. destruct Hx as [i [A [B ->]]]. pose proof (sorted_nth s Hs i k ltac:(lia) Hk). destruct (Rlt_dec _ _); auto. exfalso. lra.
  Qed.
End Sorted.
Lemma below_perm : forall x l l', Permutation l l' -> below x l = below x l'.
Proof. intros. unfold below. apply Permutation_length, filter_perm. auto. Qed.
Lemma above_perm : forall x l l', Permutation l l' -> above x l = above x l'.
Proof. intros. unfold above. apply Permutation_length, filter_perm. auto. Qed.

Lemma median_is : forall l m, median l = Some m -> is_median l m.
Proof.
  intros l m E. unfold median in E. destruct (Nat.eqb_spec (length l) 0) as [|NZ]; [discriminate|].
  pose proof (rsort_sorted l) as S. pose proof (rsort_perm l) as P. pose proof (Permutation_length P) as PL.
  set (s := rsort l) in *. set (k := length l) in *.
  assert (forall a, a < k -> In (nth a s 0%R) l) as IN by (intros a Ha; apply (Permutation_in _ P); apply nth_In; rewrite PL; auto).
  assert (forall a, a < k -> below (nth a s 0%R) l <= a) as B by (intros a Ha; rewrite <- (below_perm _ s l P); apply below_nth; auto; rewrite PL; auto).
  assert (forall a, a < k -> above (nth a s 0%R) l <= k - 1 - a) as A.
  { intros a Ha. rewrite <- (above_perm _ s l P). rewrite <- PL. apply above_nth; auto. rewrite PL. auto. }
  assert (k = 2 * (k / 2) + (if Nat.even k then 0 else 1)) as D.
  { pose proof (Nat.div_mod k 2 ltac:(lia)) as D. destruct (Nat.even k) eqn:Ev.
    - apply Nat.even_spec in Ev. destruct Ev as [q Q]. rewrite Q in *. rewrite (Nat.mul_comm 2 q), Nat.div_mul in * by lia. lia.
    - assert (Nat.odd k = true) as O by (unfold Nat.odd; rewrite Ev; auto). apply Nat.odd_spec in O. destruct O as [q Q].
      assert (k / 2 = q) by (rewrite Q; rewrite Nat.add_comm, (Nat.mul_comm 2 q), Nat.div_add by lia; auto). lia. }
  set (h := k / 2) in *.
  destruct (Nat.even k); apply (f_equal (fun o => match o with Some x => x | None => 0%R end)) in E; cbv beta iota in E; subst m.
  - exists (nth (h - 1) s 0%R), (nth h s 0%R). pose proof (B (h - 1) ltac:(lia)). pose proof (A (h - 1) ltac:(lia)). pose proof (B h ltac:(lia)). pose proof (A h ltac:(lia)).
    split; [|split; [|auto]].
    + split; [apply IN; lia|]. fold k. lia.
    + split; [apply IN; lia|]. fold k. lia.
  - exists (nth h s 0%R), (nth h s 0%R). pose proof (B h ltac:(lia)). pose proof (A h ltac:(lia)). split; [|split; [|lra]].
    + split; [apply IN; lia|]. fold k. lia.
    + split; [apply IN; lia|]. fold k. lia.
Qed.

(** Only one number is the median. *)
Lemma below_mono : forall l x y, (x < y)%R -> In x l -> length l - above x l <= below y l.
Proof.
  intros l x y H _. unfold above, below. induction l as [|z l IH]; [auto|].
  pose proof (filter_len _ (fun w => if Rlt_dec x w then true else false) l).
  cbn [filter length]. destruct (Rlt_dec x z), (Rlt_dec z y); cbn [length]; try lia. exfalso. lra.
Qed.
Lemma above_mono : forall l x y, (x < y)%R -> length l - below y l <= above x l.
Proof.
  intros l x y H. unfold above, below. induction l as [|z l IH]; [auto|].
  pose proof (filter_len _ (fun w => if Rlt_dec w y then true else false) l).
  cbn [filter length]. destruct (Rlt_dec x z), (Rlt_dec z y); cbn [length]; try lia. exfalso. lra.
Qed.
Lemma is_median_unique : forall l a b, is_median l a -> is_median l b -> a = b.
Proof.
  intros l a b [lo [hi [[I1 [A1 B1]] [[J1 [C1 D1]] ->]]]] [lo' [hi' [[I2 [A2 B2]] [[J2 [C2 D2]] ->]]]].
  assert (lo = lo') as ->.
  { destruct (Rtotal_order lo lo') as [L|[E|L]]; auto; exfalso.
    - pose proof (below_mono l lo lo' L I1). lia.
    - pose proof (below_mono l lo' lo L I2). lia. }
  assert (hi = hi') as ->.
  { destruct (Rtotal_order hi hi') as [L|[E|L]]; auto; exfalso.
    - pose proof (above_mono l hi hi' L). lia.
    - pose proof (above_mono l hi' hi L). lia. }
  auto.
Qed.

Lemma distances_model : forall n d X, positives (upper n (dist2 d X)) = distances n d X.
Proof.
  intros n d X. rewrite positives_upper. unfold distances, positives, ups, pairs. f_equal. apply map_ext. intros [i j]. unfold squared_distance.
  rewrite dist2_sq, rsumn_sumR. auto.
Qed.
Lemma median_kernel_heuristic : forall n d X K, median_kernel n d X = Some K -> median_heuristic n d X K.
Proof.
  intros n d X K H. unfold median_kernel, median_width in H. destruct (median (positives (upper n (dist2 d X)))) as [m|] eqn:E; [|discriminate].
  injection H as <-. pose proof (median_pos _ _ (fun x Hx => proj2 (proj1 (in_positives _ x) Hx)) E) as P. exists m. split.
  - rewrite <- distances_model. apply median_is. auto.
  - intros i j _ _. unfold rbf, squared_distance. rewrite sqrt_sqrt by lra. rewrite dist2_sq, rsumn_sumR. f_equal. field. lra.
Qed.
