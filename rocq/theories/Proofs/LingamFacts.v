(** Facts about ica_lingam.py. *)

From Coq Require Import List Arith Bool Lia QArith Qabs Permutation.
From Verif Require Import Model.SHP Model.Matrix Model.Lingam Spec.Sums Proofs.SimFacts Proofs.MatrixFacts.
Import ListNotations.
Open Scope nat_scope.

(* ---------- permutations ---------- *)
Lemma insertions_perm : forall x l s, In s (insertions x l) -> Permutation s (x :: l).
Proof.
  induction l as [|y l IH]; simpl; intros s H.
  - destruct H as [<-|[]]. auto.
  - destruct H as [<-|H]; auto. apply in_map_iff in H. destruct H as [t [<- H]].
    rewrite (IH t H). apply perm_swap.
Qed.

Lemma insertions_all : forall x a b, In (a ++ x :: b) (insertions x (a ++ b)).
Proof.
  induction a as [|y a IH]; intro b; simpl.
  - destruct b; simpl; auto.
  - right. apply in_map. apply IH.
Qed.

Lemma permutations_of_In : forall l s, In s (permutations_of l) <-> Permutation s l.
Proof.
  induction l as [|x l IH]; simpl; intro s.
  - split; [intros [<-|[]]; auto|]. intro H. apply Permutation_sym, Permutation_nil in H. auto.
  - rewrite in_flat_map. split.
    + intros [t [Ht Hs]]. apply IH in Ht. apply insertions_perm in Hs. rewrite Hs, Ht. auto.
    + intro H. assert (Hx : In x s) by (eapply Permutation_in; [symmetry; exact H|left; auto]).
      apply in_split in Hx. destruct Hx as [a [b ->]]. exists (a ++ b). split.
      * apply IH. apply Permutation_cons_inv with x. rewrite <- H. apply Permutation_middle.
      * apply insertions_all.
Qed.

(* ---------- argmin ---------- *)
Lemma fl_before_irrefl : forall a, fl_before a a = false.
Proof. intros [q| |]; simpl; auto. rewrite negb_false_iff. apply Qle_bool_iff. apply Qle_refl. Qed.

Lemma Qlt_bool : forall x y, negb (Qle_bool y x) = true <-> (x < y)%Q.
Proof.
  intros. rewrite negb_true_iff. split; intro H.
  - apply Qnot_le_lt. intro C. apply Qle_bool_iff in C. congruence.
  - destruct (Qle_bool y x) eqn:E; auto. apply Qle_bool_iff in E. exfalso. apply (Qlt_not_le _ _ H E).
Qed.

Lemma fl_before_trans : forall a b c, fl_before a b = true -> fl_before b c = true -> fl_before a c = true.
Proof.
  intros [x| |] [y| |] [z| |]; simpl; auto; try discriminate. rewrite !Qlt_bool. apply Qlt_trans.
Qed.

Lemma fl_argmin_spec : forall {A} (score : A -> fl) l best,
  In (fl_argmin score best l) (best :: l) /\
  forall a, In a (best :: l) -> fl_before (score a) (score (fl_argmin score best l)) = false.
Proof.
  intros A score l.
  assert (G : forall l best seen, (forall a, In a seen -> fl_before (score a) (score best) = false) ->
    (In (fl_argmin score best l) (best :: l)) /\
    forall a, In a seen \/ In a (best :: l) -> fl_before (score a) (score (fl_argmin score best l)) = false).
  { clear l. induction l as [|x l IH]; intros best seen H; simpl.
    - split; auto. intros a [Ha|[<-|[]]]; auto. apply fl_before_irrefl.
    - destruct (fl_before (score x) (score best)) eqn:B.
      + destruct (IH x (best :: seen)) as [I S].
        { intros a [<-|Ha].
          - destruct (fl_before (score best) (score x)) eqn:Z; auto.
            pose proof (fl_before_trans _ _ _ Z B) as T. rewrite fl_before_irrefl in T. discriminate.
          - destruct (fl_before (score a) (score x)) eqn:Z; auto.
            pose proof (fl_before_trans _ _ _ Z B) as T. rewrite H in T; [discriminate|auto]. }
        split; [destruct I as [<-|I]; auto|]. intros a Ha. apply S. simpl in *. tauto.
      + destruct (IH best (x :: seen)) as [I S].
        { intros a [<-|Ha]; auto. }
        split; [destruct I as [<-|I]; auto|]. intros a Ha. apply S. simpl in *. tauto. }
  intro best. destruct (G l best [] ltac:(intros a [])) as [I S]. split; auto.
Qed.

Lemma choose_spec : forall ordP n score, (forall l, Permutation (ordP l) l) ->
  Permutation (choose ordP n score) (seq 0 n) /\
  forall s, Permutation s (seq 0 n) -> fl_before (score s) (score (choose ordP n score)) = false.
Proof.
  intros ordP n score O. unfold choose.
  assert (M : forall s, In s (ordP (find_all_P n)) <-> Permutation s (seq 0 n)).
  { intro s. rewrite <- permutations_of_In. split; apply Permutation_in; [|symmetry]; apply O. }
  destruct (ordP (find_all_P n)) as [|s l].
  - exfalso. apply (proj2 (M (seq 0 n)) (Permutation_refl _)).
  - destruct (fl_argmin_spec score l s) as [I S]. split; [apply M; exact I|]. intros t Ht. apply S. apply M. auto.
Qed.

Lemma fl_add_nan : forall l a, In Nan l -> fold_left fl_add l a = Nan.
Proof.
  assert (N : forall l, fold_left fl_add l Nan = Nan) by (induction l; simpl; auto).
  induction l as [|x l IH]; simpl; intros a H; [tauto|]. destruct H as [->|H]; auto.
  destruct a; simpl; apply N.
Qed.

Lemma fl_add_fin : forall {A} (f : A -> fl) (g : A -> Q) l a, (forall x, In x l -> f x = Fin (g x)) ->
  fold_left fl_add (map f l) (Fin a) = Fin (fold_left Qplus (map g l) a).
Proof.
  induction l as [|x l IH]; simpl; intros a H; auto. rewrite (H x (or_introl eq_refl)). simpl. apply IH. auto.
Qed.

Lemma fl_add_inf : forall l a, (forall x, In x l -> x <> Nan) -> a <> Nan ->
  (In Inf l \/ a = Inf) -> fold_left fl_add l a = Inf.
Proof.
  induction l as [|x l IH]; simpl; intros a H Na I.
  - destruct I as [[]| ->]; auto.
  - assert (Nx : x <> Nan) by auto. apply IH; auto.
    + destruct a, x; simpl; congruence.
    + destruct I as [[->|I]| ->]; [right; destruct a; simpl; congruence|auto|right; destruct x; simpl; congruence].
Qed.

(** Sum over a product of index ranges. *)
Lemma qsum_list_prod : forall n m (f : nat * nat -> Q),
  (qsum (map f (list_prod (seq 0 n) (seq 0 m))) == sumQ n (fun i => sumQ m (fun j => f (i, j))))%Q.
Proof.
  intros n m f. rewrite <- qsum_seq.
  assert (G : forall l, (qsum (map f (list_prod l (seq 0 m))) == qsum (map (fun i => sumQ m (fun j => f (i, j))) l))%Q).
  { induction l as [|i l IH]; simpl; [reflexivity|]. rewrite map_app, qsum_app, qsum_cons, IH, map_map, <- qsum_seq. reflexivity. }
  apply G.
Qed.

Lemma w_score_fin : forall n W s,
  (forall i j, i < n -> j < n -> ~ (W i j == 0)%Q) -> Permutation s (seq 0 n) ->
  exists q, w_score n W s = Fin q /\ (q == sumQ n (fun i => Qabs (/ W (nth i s 0%nat) i)))%Q.
Proof.
  intros n W s NZ P. unfold w_score.
  assert (Ls : length s = n) by (rewrite (Permutation_length P); apply seq_length).
  assert (S : forall i, i < n -> nth i s 0 < n).
  { intros i Hi. assert (H : In (nth i s 0) (seq 0 n)) by (eapply Permutation_in; [exact P|apply nth_In; lia]).
    apply in_seq in H. lia. }
  set (g := fun p : nat * nat => if Nat.eqb (fst p) (snd p) then Qabs (/ W (nth (fst p) s 0%nat) (snd p)) else 0%Q).
  rewrite (fl_add_fin _ g).
  - eexists. split; [reflexivity|]. fold (qsum (map g (list_prod (seq 0 n) (seq 0 n)))).
    rewrite qsum_list_prod. apply sumQ_ext. intros i Hi.
    rewrite (sumQ_ext n _ (fun j => if Nat.eqb j i then Qabs (/ W (nth i s 0%nat) i) else 0%Q)); [apply sumQ_single; auto|].
    intros j Hj. unfold g. cbn [fst snd]. rewrite Nat.eqb_sym. destruct (Nat.eqb_spec j i); [subst; reflexivity|reflexivity].
  - intros [i j] H. apply in_prod_iff in H. rewrite !in_seq in H. unfold g, fl_inv, mrows. cbn [fst snd].
    destruct (Qeq_bool (W (nth i s 0) j) 0) eqn:Z.
    + exfalso. apply Qeq_bool_iff in Z. apply (NZ (nth i s 0) j); auto; [apply S|]; lia.
    + destruct (Nat.eqb i j); auto.
Qed.

(** Two zeros in a row make every score a [nan]. *)
Lemma w_score_nan : forall n W s r j k,
  Permutation s (seq 0 n) -> r < n -> j < n -> k < n -> j <> k -> (W r j == 0)%Q -> (W r k == 0)%Q -> w_score n W s = Nan.
Proof.
  intros n W s r j k P Hr Hj Hk N Zj Zk. unfold w_score. apply fl_add_nan.
  assert (Hs : In r s) by (eapply Permutation_in; [symmetry; exact P|apply in_seq; lia]).
  assert (Ls : length s = n) by (rewrite (Permutation_length P); apply seq_length).
  destruct (In_nth _ _ 0 Hs) as [i [Hi Ei]].
  assert (X : exists c, c < n /\ c <> i /\ (W r c == 0)%Q).
  { destruct (Nat.eq_dec j i); [exists k; subst; auto|exists j; auto]. }
  destruct X as [c [Hc [Ci Zc]]]. apply in_map_iff. exists (i, c). split.
  - cbn [fst snd]. unfold mrows. rewrite Ei. unfold fl_inv.
    apply Qeq_bool_iff in Zc. rewrite Zc. destruct (Nat.eqb_spec i c); [congruence|]. reflexivity.
  - apply in_prod_iff. rewrite !in_seq. lia.
Qed.

Lemma fl_argmin_same : forall {A} (score : A -> fl) l best v, (forall a, In a (best :: l) -> score a = v) -> fl_argmin score best l = best.
Proof.
  induction l as [|x l IH]; intros best v H; simpl; auto.
  rewrite (H x), (H best) by (simpl; auto). rewrite fl_before_irrefl. apply (IH best v). intros a [<-|Ha]; apply H; simpl; auto.
Qed.

Lemma b_score_sum : forall n B s, exists q, b_score n B s = Fin q /\
  (q == sumQ n (fun i => sumQ n (fun k => if Nat.leb i k then B (nth i s 0%nat) k * B (nth i s 0%nat) k else 0)))%Q.
Proof.
  intros n B s. eexists. split; [reflexivity|]. rewrite msum_sumQ. apply sumQ_ext. intros i Hi.
  rewrite mdot_sumQ. apply sumQ_ext. intros k Hk. unfold mmul, mrows, np_tri. destruct (Nat.leb i k); ring.
Qed.
