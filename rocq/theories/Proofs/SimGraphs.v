(** Random orientation of an undirected graph and the Hawkes edge matrix. *)

From Coq Require Import List Arith Bool ZArith QArith Lia Permutation.
From Verif Require Import Model.Py Model.Graph Model.Simulators Spec.Digraphs Spec.Sums
  Proofs.NumpyFacts Proofs.FinGraph.
Import ListNotations.
Open Scope nat_scope.

Lemma fold_zsum : forall f n, fold_left Z.add (map f (seq 0 n)) 0%Z = sumZ n f.
Proof.
  intros f n. induction n as [|n IH]; auto. rewrite seq_S, map_app, fold_left_app, IH. auto.
Qed.

Lemma sumZ_ext : forall n f g, (forall i, i < n -> f i = g i) -> sumZ n f = sumZ n g.
Proof. induction n as [|n IH]; intros f g H; simpl; auto. rewrite (IH f g), (H n); auto. Qed.

Lemma sumZ_zero : forall n f, (forall i, i < n -> f i = 0%Z) -> sumZ n f = 0%Z.
Proof. induction n as [|n IH]; intros f H; simpl; auto. rewrite IH, H; auto. Qed.

Lemma sumZ_single : forall n f k, k < n -> (forall i, i < n -> i <> k -> f i = 0%Z) -> sumZ n f = f k.
Proof.
  induction n as [|n IH]; intros f k Hk H; [lia|]. simpl. destruct (Nat.eq_dec k n) as [->|N].
  - rewrite sumZ_zero; [lia|]. intros i Hi. apply H; lia.
  - rewrite (IH f k), (H n); try lia. intros i Hi Ni. apply H; lia.
Qed.

Lemma sumZ_add : forall n f g, sumZ n (fun i => f i + g i)%Z = (sumZ n f + sumZ n g)%Z.
Proof. induction n as [|n IH]; intros f g; simpl; auto. rewrite IH. lia. Qed.

Lemma sumZ_swap : forall n m f, sumZ n (fun i => sumZ m (fun j => f i j)) = sumZ m (fun j => sumZ n (fun i => f i j)).
Proof.
  induction n as [|n IH]; intros m f; simpl.
  - symmetry. apply sumZ_zero. auto.
  - rewrite IH, sumZ_add. auto.
Qed.

Fixpoint zlsum (l : list Z) : Z := match l with [] => 0%Z | a :: r => (a + zlsum r)%Z end.

Lemma zlsum_perm : forall l l', Permutation l l' -> zlsum l = zlsum l'.
Proof. induction 1; simpl; lia. Qed.

Lemma zlsum_app : forall a b, zlsum (a ++ b) = (zlsum a + zlsum b)%Z.
Proof. induction a; intros; simpl; auto. rewrite IHa. lia. Qed.

Lemma zlsum_seq : forall f n, zlsum (map f (seq 0 n)) = sumZ n f.
Proof. intros f n. induction n; auto. rewrite seq_S, map_app, zlsum_app, IHn. simpl. lia. Qed.

Lemma sumZ_perm : forall n tau f, Permutation (map tau (seq 0 n)) (seq 0 n) -> sumZ n (fun i => f (tau i)) = sumZ n f.
Proof.
  intros n tau f P. rewrite <- !zlsum_seq. rewrite <- (map_map tau f). apply zlsum_perm. apply Permutation_map. auto.
Qed.

(* ---------- permutation of rows and columns ---------- *)
(** Where [a] stands in [s]. *)
Definition pos (s : list nat) (a : nat) : nat := index_of a s.

Lemma mat_get_zmatmul : forall n a b i j, i < n -> j < n ->
  mat_get (zmatmul n a b) i j = sumZ n (fun k => mat_get a i k * mat_get b k j)%Z.
Proof.
  intros. unfold zmatmul, mat_get at 1. rewrite nth_map_seq by auto. rewrite nth_map_seq by auto. apply fold_zsum.
Qed.

Lemma unit_rows_get : forall n s i j, length s = n -> i < n -> j < n ->
  mat_get (map (unit_row n) s) i j = if Nat.eqb j (nth i s 0) then 1%Z else 0%Z.
Proof.
  intros n s i j L Hi Hj. unfold mat_get.
  rewrite (nth_indep _ [] (unit_row n 0)) by (rewrite map_length; lia).
  rewrite map_nth. unfold unit_row. rewrite nth_map_seq by auto. auto.
Qed.

Lemma pos_lt : forall n s a, Permutation s (seq 0 n) -> a < n -> pos s a < n.
Proof.
  intros n s a P Ha. assert (L : length s = n) by (rewrite (Permutation_length P), seq_length; auto).
  unfold pos. rewrite <- L. apply index_of_lt. apply (Permutation_in _ (Permutation_sym P)). apply in_seq. lia.
Qed.

Lemma nth_pos : forall s a, In a s -> nth (pos s a) s 0 = a.
Proof.
  unfold pos. induction s as [|b s IH]; intros a H; [destruct H|]. simpl.
  destruct (Nat.eq_dec a b) as [->|N]; auto.
  destruct H as [->|H]; [congruence|]. simpl. auto.
Qed.

Lemma random_permutation_get : forall n s m a b, shape n m -> Permutation s (seq 0 n) -> a < n -> b < n ->
  mat_get (random_permutation s m) a b = mat_get m (pos s a) (pos s b).
Proof.
  intros n s m a b [L _] P Ha Hb. unfold random_permutation. rewrite L.
  assert (Ls : length s = n) by (rewrite (Permutation_length P), seq_length; auto).
  assert (ND : NoDup s) by (apply (Permutation_NoDup (Permutation_sym P)), seq_NoDup).
  assert (Is : forall x, x < n -> In x s) by (intros x Hx; apply (Permutation_in _ (Permutation_sym P)), in_seq; lia).
  assert (U : forall x i, x < n -> i < n -> i <> pos s x -> nth i s 0 <> x).
  { intros x i Hx Hi N C. apply N. rewrite <- (nth_pos s x (Is x Hx)) in C.
    apply (proj1 (NoDup_nth s 0) ND); auto; [lia|]. rewrite Ls. apply (pos_lt n); auto. }
  rewrite mat_get_zmatmul by auto. rewrite (sumZ_single n _ (pos s b)).
  - rewrite unit_rows_get; auto; [|apply (pos_lt n); auto]. rewrite nth_pos by auto. rewrite Nat.eqb_refl, Z.mul_1_r.
    rewrite mat_get_zmatmul; auto; [|apply (pos_lt n); auto]. rewrite (sumZ_single n _ (pos s a)).
    + rewrite mat_get_transpose; auto; [|apply (pos_lt n); auto].
      rewrite unit_rows_get; auto; [|apply (pos_lt n); auto]. rewrite nth_pos by auto. rewrite Nat.eqb_refl. lia.
    + apply (pos_lt n); auto.
    + intros i Hi Ni. rewrite mat_get_transpose by auto. rewrite unit_rows_get by auto.
      destruct (Nat.eqb_spec a (nth i s 0)) as [E|_]; [|lia]. exfalso. apply (U a i); auto.
  - apply (pos_lt n); auto.
  - intros i Hi Ni. rewrite unit_rows_get by auto.
    destruct (Nat.eqb_spec b (nth i s 0)) as [E|_]; [|lia]. exfalso. apply (U b i); auto.
Qed.

Lemma shape_map_seq : forall {A} (f : nat -> nat -> A) n, shape n (map (fun i => map (f i) (seq 0 n)) (seq 0 n)).
Proof.
  intros A f n. split; [rewrite map_length, seq_length; auto|].
  intros r H. apply in_map_iff in H. destruct H as [i [<- _]]. rewrite map_length, seq_length. auto.
Qed.

Lemma shape_random_permutation : forall n s m, shape n m -> shape n (random_permutation s m).
Proof. intros n s m [L _]. unfold random_permutation. rewrite L. apply shape_map_seq. Qed.

Lemma tril_get : forall n m i j, shape n m -> i < n -> j < n ->
  mat_get (tril m) i j = if Nat.ltb j i then mat_get m i j else 0%Z.
Proof.
  intros n m i j [L _] Hi Hj. unfold tril. rewrite L. unfold mat_get at 1. rewrite nth_map_seq by auto.
  rewrite nth_map_seq by auto. auto.
Qed.

Lemma shape_tril : forall n m, shape n m -> shape n (tril m).
Proof. intros n m [L _]. unfold tril. rewrite L. apply shape_map_seq. Qed.

Lemma orientation_get : forall n s1 s2 g a b, shape n g -> Permutation s1 (seq 0 n) -> Permutation s2 (seq 0 n) ->
  a < n -> b < n ->
  mat_get (random_acyclic_orientation s1 s2 g) a b =
  if Nat.ltb (pos s2 b) (pos s2 a) then mat_get g (pos s1 (pos s2 a)) (pos s1 (pos s2 b)) else 0%Z.
Proof.
  intros n s1 s2 g a b Sg P1 P2 Ha Hb. unfold random_acyclic_orientation.
  rewrite (random_permutation_get n); auto; [|apply shape_tril, shape_random_permutation; auto].
  rewrite (tril_get n); auto; try (apply (pos_lt n); auto); [|apply shape_random_permutation; auto].
  destruct (Nat.ltb _ _); auto. rewrite (random_permutation_get n); auto; apply (pos_lt n); auto.
Qed.

Lemma pos_perm : forall n s, Permutation s (seq 0 n) -> Permutation (map (pos s) (seq 0 n)) (seq 0 n).
Proof.
  intros n s P. apply NoDup_Permutation_bis.
  - assert (Inj : forall x y, In x (seq 0 n) -> In y (seq 0 n) -> pos s x = pos s y -> x = y).
    { intros x y Hx Hy Ep. apply (Permutation_in _ (Permutation_sym P)) in Hx, Hy.
      rewrite <- (nth_pos s x Hx), <- (nth_pos s y Hy). congruence. }
    assert (NDs := seq_NoDup n 0). revert Inj NDs. generalize (seq 0 n) as l.
    induction l as [|a l IH]; intros Inj NDs; simpl; constructor.
    + intro C. apply in_map_iff in C. destruct C as [x [Ex Hx]]. inversion NDs; subst. apply H1.
      rewrite <- (Inj x a); auto; simpl; auto.
    + inversion NDs; subst. apply IH; auto. intros x y Hx Hy. apply Inj; simpl; auto.
  - rewrite map_length. auto.
  - intros x Hx. apply in_map_iff in Hx. destruct Hx as [a [<- Ha]]. apply in_seq in Ha. apply in_seq.
    pose proof (pos_lt n s a P). lia.
Qed.

Lemma pos_inj : forall n s a b, Permutation s (seq 0 n) -> a < n -> b < n -> pos s a = pos s b -> a = b.
Proof.
  intros n s a b P Ha Hb Ep.
  rewrite <- (nth_pos s a), <- (nth_pos s b); [congruence| |]; apply (Permutation_in _ (Permutation_sym P)), in_seq; lia.
Qed.

(* ---------- Hawkes ---------- *)
Lemma hawkes_fold : forall n l m u v, shape n m -> (forall e, In e l -> fst e < n /\ snd e < n) ->
  shape n (fold_left (fun m (e : nat * nat) => mat_set m (fst e) (snd e) 1%Z) l m) /\
  mat_get (fold_left (fun m (e : nat * nat) => mat_set m (fst e) (snd e) 1%Z) l m) u v =
  if existsb (fun e : nat * nat => Nat.eqb (fst e) u && Nat.eqb (snd e) v) l then 1%Z else mat_get m u v.
Proof.
  intros n l. induction l as [|e l IH]; intros m u v S H; simpl; auto.
  destruct (H e) as [H1 H2]; [left; auto|].
  destruct (IH (mat_set m (fst e) (snd e) 1%Z) u v) as [SS G].
  - apply shape_mat_set; auto.
  - intros; apply H; right; auto.
  - split; auto. rewrite G, (mat_get_set n) by auto.
    destruct (existsb _ l); destruct (Nat.eqb (fst e) u && Nat.eqb (snd e) v); auto.
Qed.

Lemma hawkes_pairs_in : forall n u v, In (u, v) (hawkes_pairs n) <-> u < v /\ v < n.
Proof.
  intros n u v. unfold hawkes_pairs. rewrite filter_In, in_prod_iff, !in_seq, Nat.ltb_lt. simpl. lia.
Qed.

Lemma NoDup_list_prod : forall {A B} (a : list A) (b : list B), NoDup a -> NoDup b -> NoDup (list_prod a b).
Proof.
  intros A B a b Ha Hb. induction Ha as [|x a Nx Na IH]; simpl; [constructor|].
  assert (M : NoDup (map (fun y => (x, y)) b)).
  { clear - Hb. induction Hb; simpl; constructor; auto. intro C. apply in_map_iff in C. destruct C as [y [E Hy]]. inversion E; subst. auto. }
  revert M. assert (D : forall p, In p (map (fun y => (x, y)) b) -> ~ In p (list_prod a b)).
  { intros p Hp C. apply in_map_iff in Hp. destruct Hp as [y [<- _]]. apply in_prod_iff in C. tauto. }
  revert D. generalize (map (fun y : B => (x, y)) b) as l. induction l as [|p l IHl]; intros D M; simpl; auto.
  inversion M; subst. constructor.
  - intro C. apply in_app_or in C. destruct C; auto. apply (D p); simpl; auto.
  - apply IHl; auto. intros q Hq. apply D. right. auto.
Qed.

Lemma filter_lt_length : forall n i, length (filter (fun j => Nat.ltb i j) (seq 0 n)) = n - 1 - i.
Proof.
  induction n as [|n IH]; intro i; auto. rewrite seq_S, filter_app, app_length, IH. simpl.
  destruct (Nat.ltb_spec i n); simpl; lia.
Qed.

Lemma filter_prod_length : forall (p : nat * nat -> bool) a b,
  length (filter p (list_prod a b)) = list_sum (map (fun x => length (filter (fun y => p (x, y)) b)) a).
Proof.
  intros p a b. induction a as [|x a IH]; simpl; auto. rewrite filter_app, app_length, IH. f_equal.
  clear. induction b as [|y b IH]; simpl; auto. destruct (p (x, y)); simpl; auto.
Qed.

Lemma hawkes_pairs_length : forall n, 2 * length (hawkes_pairs n) = n * (n - 1).
Proof.
  intro n. unfold hawkes_pairs. rewrite filter_prod_length. simpl fst. simpl snd.
  rewrite (map_ext _ (fun i => n - 1 - i)) by (intro; apply filter_lt_length).
  assert (G : forall m, m <= n -> 2 * list_sum (map (fun i => n - 1 - i) (seq (n - m) m)) = m * (m - 1)).
  { induction m as [|m IH]; intro Hm; auto. simpl seq. simpl map. replace (S (n - S m)) with (n - m) by lia.
    unfold list_sum in *. simpl fold_right. rewrite Nat.mul_add_distr_l, IH by lia. replace (n - 1 - (n - S m)) with m by lia.
    destruct m; simpl; lia. }
  specialize (G n). rewrite Nat.sub_diag in G. apply G. lia.
Qed.
