(** Facts about the entropy loss with nearest neighbours. *)

From Coq Require Import List Arith Bool Reals Lra Lia Permutation Sorted.
From Verif Require Import Model.Py Model.LocalScore Model.EntropyLoss Model.EntropyMore Model.LagTransitions Model.EntropyKnn Spec.NearestSpec Proofs.LagFacts Proofs.EntropyMoreFacts.
Import ListNotations.
Open Scope R_scope.

Lemma term_is : forall eps s i j, (i < length s)%nat -> (j < length s)%nat -> term eps s i j = Ok (ln ((nth i s 0 - nth j s 0) ^ 2 + eps)).
Proof. intros eps s i j Hi Hj. unfold term. rewrite (nth_error_nth' s 0 Hi), (nth_error_nth' s 0 Hj). reflexivity. Qed.

Lemma term_out : forall eps s i j, (length s <= j)%nat -> term eps s i j = Err IndexError.
Proof. intros eps s i j H. unfold term. apply nth_error_None in H. rewrite H. destruct (nth_error s i); reflexivity. Qed.

Lemma ln_mono : forall a b eps, 0 < eps -> 0 <= a <= b -> ln (a ^ 2 + eps) <= ln (b ^ 2 + eps).
Proof. intros a b eps E [A B]. destruct B as [B| ->]; [|lra]. left. apply ln_increasing; nra. Qed.

(** One neighbour: what is added for member [i] of a sorted list. *)
Lemma step_one : forall eps s i, 0 < eps -> Sorted Rle s -> (2 <= length s)%nat -> (i < length s)%nat -> exists d, nearest s i d /\ step eps 1 s i 1 = Ok (ln (d ^ 2 + eps)).
Proof.
  intros eps s i E S L Hi. pose proof (sorted_nth s S) as M. unfold step. destruct (Nat.ltb_spec i 1) as [I|I].
  - assert (i = 0)%nat as -> by lia. exists (nth 1 s 0 - nth 0 s 0). rewrite term_is by lia. pose proof (M 0%nat 1%nat ltac:(lia) ltac:(lia)). split.
    + split; [exists 1%nat; split; [lia|]; split; [lia|]; rewrite Rabs_minus_sym, Rabs_right; lra|]. intros j Hj N. pose proof (M 1%nat j ltac:(lia) Hj). rewrite Rabs_minus_sym, Rabs_right; lra.
    + f_equal. f_equal. cbn [Nat.add]. ring.
  - destruct (Nat.leb_spec (length s - 1) i) as [J|J].
    + pose proof (M (i - 1)%nat i ltac:(lia) Hi). exists (nth i s 0 - nth (i - 1) s 0). rewrite term_is by lia. split; [|reflexivity].
      split; [exists (i - 1)%nat; split; [lia|]; split; [lia|]; rewrite Rabs_right; lra|]. intros j Hj N. pose proof (M j (i - 1)%nat ltac:(lia) ltac:(lia)). rewrite Rabs_right; lra.
    + rewrite !term_is by lia. cbn [rbind]. pose proof (M (i - 1)%nat i ltac:(lia) Hi) as A. pose proof (M i (i + 1)%nat ltac:(lia) ltac:(lia)) as B.
      set (l := nth i s 0 - nth (i - 1) s 0). set (r := nth (i + 1) s 0 - nth i s 0).
      assert (Hr : (nth i s 0 - nth (i + 1) s 0) ^ 2 = r ^ 2) by (unfold r; ring). rewrite Hr.
      assert (Hl : forall j, (j < length s)%nat -> (j < i)%nat -> l <= Rabs (nth i s 0 - nth j s 0)) by (intros j Hj Q; pose proof (M j (i - 1)%nat ltac:(lia) ltac:(lia)); unfold l; rewrite Rabs_right; lra).
      assert (Hg : forall j, (j < length s)%nat -> (i < j)%nat -> r <= Rabs (nth i s 0 - nth j s 0)) by (intros j Hj Q; pose proof (M (i + 1)%nat j ltac:(lia) Hj); unfold r; rewrite Rabs_minus_sym, Rabs_right; lra).
      destruct (Rle_lt_dec l r) as [C|C].
      * exists l. split; [split; [exists (i - 1)%nat; split; [lia|]; split; [lia|]; unfold l; rewrite Rabs_right; [reflexivity|lra]|]|].
        { intros j Hj N. destruct (lt_eq_lt_dec j i) as [[Q|Q]|Q]; [auto|congruence|pose proof (Hg j Hj Q); lra]. }
        f_equal. apply Rmin_left. apply ln_mono; [assumption|unfold l in *; lra].
      * exists r. split; [split; [exists (i + 1)%nat; split; [lia|]; split; [lia|]; unfold r; rewrite Rabs_minus_sym, Rabs_right; [reflexivity|lra]|]|].
        { intros j Hj N. destruct (lt_eq_lt_dec j i) as [[Q|Q]|Q]; [pose proof (Hl j Hj Q); lra|congruence|auto]. }
        f_equal. apply Rmin_right. apply ln_mono; [assumption|unfold r, l in *; lra].
Qed.

Lemma rsum_res_map : forall A (f : A -> res R) (g : A -> R -> Prop) l, (forall a, In a l -> exists v, f a = Ok v /\ g a v) ->
  exists vs, Forall2 g l vs /\ rsum_res (map f l) = Ok (fold_right Rplus 0 vs).
Proof.
  intros A f g l H. induction l as [|a l IH]; [exists []; split; [constructor|reflexivity]|]. destruct IH as (vs & F & E); [intros; apply H; right; assumption|]. destruct (H a (or_introl eq_refl)) as (v & Ev & G).
  exists (v :: vs). split; [constructor; assumption|]. cbn [map]. unfold rsum_res in *. cbn [fold_right]. rewrite Ev. cbn [rbind]. rewrite E. reflexivity.
Qed.

Lemma choose_list : forall (P : nat -> R -> Prop) n, (forall i, (i < n)%nat -> exists d, P i d) -> exists ds, length ds = n /\ forall i, (i < n)%nat -> P i (nth i ds 0).
Proof.
  intros P n H. induction n as [|n IH]; [exists []; split; [reflexivity|intros; lia]|]. destruct IH as (ds & L & D); [intros; apply H; lia|]. destruct (H n) as [d Hd]; [lia|].
  exists (ds ++ [d]). split; [rewrite app_length; cbn; lia|]. intros i Hi. destruct (Nat.eq_dec i n) as [->|N]; [rewrite <- L, nth_middle, L; assumption|rewrite app_nth1 by lia; apply D; lia].
Qed.

Lemma flat_one : forall (f : nat -> res R) l, flat_map (fun i => [f i]) l = map f l.
Proof. intros f l. induction l as [|a l IH]; [reflexivity|]. cbn. rewrite IH. reflexivity. Qed.

Lemma rsum_res_ok : forall (f : nat -> res R) (g : nat -> R) l, (forall i, In i l -> f i = Ok (g i)) -> rsum_res (map f l) = Ok (fold_right Rplus 0 (map g l)).
Proof.
  intros f g l H. induction l as [|a l IH]; [reflexivity|]. cbn [map]. unfold rsum_res in *. cbn [fold_right]. rewrite (H a) by (left; reflexivity). cbn [rbind]. rewrite IH by (intros; apply H; right; assumption). reflexivity.
Qed.

Lemma as_nth : forall (g : R -> R) ds, map (fun i => g (nth i ds 0)) (seq 0 (length ds)) = map g ds.
Proof.
  intros g ds. induction ds as [|d ds IH]; [reflexivity|]. cbn [length seq map nth]. f_equal. rewrite <- seq_shift, map_map. exact IH.
Qed.

Lemma column_one : forall eps z, 0 < eps -> (2 <= length z)%nat -> exists s v, Permutation s z /\ nearest_sum eps s v /\ knn_column eps 1 z = Ok v.
Proof.
  intros eps z E L. pose proof (sorted_of_perm z) as P. pose proof (sorted_of_sorted z) as S. pose proof (Permutation_length P) as Len. set (s := sorted_of z) in *.
  destruct (choose_list (fun i d => nearest s i d /\ step eps 1 s i 1 = Ok (ln (d ^ 2 + eps))) (length s)) as (ds & Ld & D); [intros i Hi; apply step_one; auto; lia|].
  exists s, (fold_right Rplus 0 (map (fun d => ln (d ^ 2 + eps)) ds)). split; [assumption|]. split.
  - exists ds. split; [assumption|]. split; [intros i Hi; apply D; assumption|reflexivity].
  - unfold knn_column. fold s. change (fun i => map (step eps 1 s i) (seq 1 1)) with (fun i => [step eps 1 s i 1%nat]). rewrite (flat_one (fun i => step eps 1 s i 1%nat)).
    rewrite (rsum_res_ok _ (fun i => ln (nth i ds 0 ^ 2 + eps))); [|intros i Hi; apply in_seq in Hi; apply D; lia]. rewrite <- Ld, (as_nth (fun d => ln (d ^ 2 + eps))). reflexivity.
Qed.

Lemma rsum_res_err : forall l, (forall r, In r l -> r = Err IndexError \/ exists v, r = Ok v) -> In (Err IndexError) l -> rsum_res l = Err IndexError.
Proof.
  intros l. induction l as [|r l IH]; intros H I; [destruct I|]. unfold rsum_res in *. cbn [fold_right]. destruct (H r (or_introl eq_refl)) as [->|[v ->]]; [reflexivity|]. cbn [rbind].
  destruct I as [I|I]; [discriminate|]. rewrite IH; [reflexivity|intros; apply H; right; assumption|assumption].
Qed.

Lemma step_cases : forall eps k s i j, step eps k s i j = Err IndexError \/ exists v, step eps k s i j = Ok v.
Proof.
  intros eps k s i j. assert (T : forall a b, term eps s a b = Err IndexError \/ exists v, term eps s a b = Ok v) by (intros a b; unfold term; destruct (nth_error s a), (nth_error s b); eauto).
  unfold step. destruct (i <? k)%nat; [apply T|]. destruct (length s - k <=? i)%nat; [apply T|]. destruct (T i (i - j)%nat) as [->|[v ->]]; [left; reflexivity|]. cbn [rbind]. destruct (T i (i + j)%nat) as [->|[w ->]]; [left; reflexivity|]. cbn [rbind]. eauto.
Qed.

Lemma column_short : forall eps k z, (0 < length z < 2 * k)%nat -> knn_column eps k z = Err IndexError.
Proof.
  intros eps k z L. unfold knn_column. pose proof (Permutation_length (sorted_of_perm z)) as Len. set (s := sorted_of z) in *. apply rsum_res_err.
  - intros r Hr. apply in_flat_map in Hr as (i & _ & Hr). apply in_map_iff in Hr as (j & <- & _). apply step_cases.
  - apply in_flat_map. destruct (le_lt_dec k (length s)) as [C|C].
    + exists (k - 1)%nat. split; [apply in_seq; lia|]. apply in_map_iff. exists k. split; [|apply in_seq; lia]. unfold step. rewrite (proj2 (Nat.ltb_lt (k - 1) k)) by lia. apply term_out. lia.
    + exists (length s - 1)%nat. split; [apply in_seq; lia|]. apply in_map_iff. exists 1%nat. split; [|apply in_seq; lia]. unfold step. rewrite (proj2 (Nat.ltb_lt (length s - 1) k)) by lia. apply term_out. lia.
Qed.
