(** Facts about the transition matrices of lagged processes. *)

From Coq Require Import List Arith Bool ZArith Reals Lra Lia Permutation Sorted Psatz.
From Verif Require Import Model.Py Model.LagTransitions Spec.LagSpec.
Import ListNotations.
Open Scope R_scope.

(** * Sums *)

Lemma total_S : forall n f, total (S n) f = total n f + f n.
Proof.
  intros n f. unfold total. rewrite seq_S, map_app, fold_right_app. cbn.
  assert (K : forall l a, fold_right Rplus a l = fold_right Rplus 0 l + a) by (induction l as [|x l IH]; intros a; cbn; [ring|rewrite IH; ring]).
  rewrite K. ring.
Qed.

Lemma total_0 : forall f, total 0 f = 0.
Proof. reflexivity. Qed.

Lemma sum_n_is : forall n f, sum_n n f = total n f.
Proof. induction n as [|n IH]; intros f; [reflexivity|]. cbn [sum_n]. rewrite IH, total_S. reflexivity. Qed.

Lemma total_ext : forall n f g, (forall i, (i < n)%nat -> f i = g i) -> total n f = total n g.
Proof. induction n as [|n IH]; intros f g H; [reflexivity|]. rewrite !total_S, (IH f g) by (intros; apply H; lia). rewrite (H n) by lia. reflexivity. Qed.

Lemma total_plus : forall n f g, total n (fun i => f i + g i) = total n f + total n g.
Proof. induction n as [|n IH]; intros f g; [rewrite !total_0; ring|]. rewrite !total_S, IH. ring. Qed.

Lemma total_mult : forall n k f, total n (fun i => k * f i) = k * total n f.
Proof. induction n as [|n IH]; intros k f; [rewrite !total_0; ring|]. rewrite !total_S, IH. ring. Qed.

Lemma total_le : forall n f g, (forall i, (i < n)%nat -> f i <= g i) -> total n f <= total n g.
Proof. induction n as [|n IH]; intros f g H; [rewrite !total_0; lra|]. rewrite !total_S. pose proof (H n). pose proof (IH f g). assert (total n f <= total n g) by (apply IH; intros; apply H; lia). assert (f n <= g n) by (apply H; lia). lra. Qed.

Lemma total_nonneg : forall n f, (forall i, (i < n)%nat -> 0 <= f i) -> 0 <= total n f.
Proof. induction n as [|n IH]; intros f H; [rewrite total_0; lra|]. rewrite total_S. assert (0 <= total n f) by (apply IH; intros; apply H; lia). assert (0 <= f n) by (apply H; lia). lra. Qed.

Lemma total_one : forall n f i, (forall i, (i < n)%nat -> 0 <= f i) -> (i < n)%nat -> f i <= total n f.
Proof.
  induction n as [|n IH]; intros f i H Hi; [lia|]. rewrite total_S. assert (0 <= f n) by (apply H; lia). destruct (Nat.eq_dec i n) as [->|].
  - assert (0 <= total n f) by (apply total_nonneg; intros; apply H; lia). lra.
  - assert (f i <= total n f) by (apply IH; [intros; apply H; lia|lia]). lra.
Qed.

Lemma total_two : forall m f, (forall i, (2 <= i)%nat -> f i = 0) -> total (S (S m)) f = f 0%nat + f 1%nat.
Proof. induction m as [|m IH]; intros f H; [rewrite !total_S, total_0; ring|]. rewrite total_S, IH, (H (S (S m))) by (auto; lia). ring. Qed.

(** * Columns *)

Lemma scale_upto : forall n A k r c, fold_left (scale_col n) (seq 0 k) A r c = if Nat.ltb c k then A r c / sqrt (inner n A c c) else A r c.
Proof.
  intros n A k. induction k as [|k IH]; intros r c; [reflexivity|].
  rewrite seq_S, fold_left_app. cbn [fold_left]. unfold scale_col at 1. rewrite Nat.add_0_l. rewrite IH.
  destruct (Nat.eqb_spec c k) as [->|N].
  - rewrite (proj2 (Nat.ltb_ge k k)) by lia. rewrite (proj2 (Nat.ltb_lt k (S k))) by lia. f_equal. f_equal. rewrite sum_n_is. apply total_ext. intros i _.
    rewrite !IH, (proj2 (Nat.ltb_ge k k)) by lia. reflexivity.
  - destruct (Nat.ltb_spec c k); [rewrite (proj2 (Nat.ltb_lt c (S k))) by lia|rewrite (proj2 (Nat.ltb_ge c (S k))) by lia]; reflexivity.
Qed.

Lemma scale_at : forall n A r c, (c < n)%nat -> scale n A r c = A r c / sqrt (inner n A c c).
Proof. intros n A r c H. unfold scale. rewrite scale_upto, (proj2 (Nat.ltb_lt c n)) by lia. reflexivity. Qed.

Lemma column_pos : forall n A j, no_zero_column n A -> (j < n)%nat -> 0 < inner n A j j.
Proof.
  intros n A j H Hj. destruct (H j Hj) as (i & Hi & N).
  pose proof (total_one n (fun i => A i j * A i j) i (fun i _ => Rle_0_sqr (A i j)) Hi) as T. cbv beta in T.
  pose proof (Rsqr_pos_lt _ N) as P. unfold Rsqr in P. unfold inner. lra.
Qed.

Lemma inner_scale : forall n A j k, (j < n)%nat -> (k < n)%nat -> 0 < inner n A j j -> 0 < inner n A k k ->
  inner n (scale n A) j k = inner n A j k / (sqrt (inner n A j j) * sqrt (inner n A k k)).
Proof.
  intros n A j k Hj Hk Pj Pk. unfold inner at 1.
  rewrite (total_ext n _ (fun i => / (sqrt (inner n A j j) * sqrt (inner n A k k)) * (A i j * A i k))).
  - rewrite total_mult. fold (inner n A j k). unfold Rdiv. ring.
  - intros i _. rewrite !scale_at by auto. pose proof (sqrt_lt_R0 _ Pj). pose proof (sqrt_lt_R0 _ Pk). field. lra.
Qed.

Lemma scale_unit : forall n A, no_zero_column n A -> unit_columns_of n A (scale n A).
Proof.
  intros n A H j Hj. pose proof (column_pos n A j H Hj) as P. split.
  - rewrite inner_scale, sqrt_sqrt by (auto; lra). field. lra.
  - exists (sqrt (inner n A j j)). pose proof (sqrt_lt_R0 _ P). split; [assumption|]. intros i. rewrite scale_at by auto. field. lra.
Qed.

Lemma unit_entries : forall n A j i, inner n A j j = 1 -> (i < n)%nat -> -1 <= A i j <= 1.
Proof.
  intros n A j i H Hi. pose proof (total_one n (fun i => A i j * A i j) i (fun i _ => Rle_0_sqr (A i j)) Hi) as T. cbv beta in T. fold (inner n A j j) in T.
  rewrite H in T. split; nra.
Qed.

(** * Two columns of numbers between 1 and 2 *)

Lemma close_columns : forall n A j k, (0 < n)%nat -> (j < n)%nat -> (k < n)%nat -> (forall i c, (i < n)%nat -> (c < n)%nat -> 1 <= A i c <= 2) -> 4 / 5 <= inner n (scale n A) j k.
Proof.
  intros n A j k Hn Hj Hk H.
  assert (P : forall c, (c < n)%nat -> 0 < inner n A c c).
  { intros c Hc. apply column_pos; [|assumption]. intros c' Hc'. exists 0%nat. split; [assumption|]. pose proof (H 0%nat c' Hn Hc'). lra. }
  rewrite inner_scale by auto. pose proof (P j Hj) as Pj. pose proof (P k Hk) as Pk.
  assert (B : inner n A j j + inner n A k k <= 5 / 2 * inner n A j k).
  { unfold inner. rewrite <- total_plus, <- total_mult. apply total_le. intros i Hi. pose proof (H i j Hi Hj). pose proof (H i k Hi Hk).
    assert (0 <= (A i k - A i j / 2) * (2 * A i j - A i k)) by (apply Rmult_le_pos; lra). nra. }
  pose proof (sqrt_lt_R0 _ Pj) as Sj. pose proof (sqrt_lt_R0 _ Pk) as Sk.
  pose proof (sqrt_sqrt (inner n A j j)) as Ej. pose proof (sqrt_sqrt (inner n A k k)) as Ek.
  set (a := sqrt (inner n A j j)) in *. set (b := sqrt (inner n A k k)) in *. rewrite <- Ej, <- Ek in B by lra.
  assert (D : 0 < a * b) by (apply Rmult_lt_0_compat; assumption).
  apply Rmult_le_reg_r with (a * b); [assumption|]. unfold Rdiv at 2. rewrite Rmult_assoc, Rinv_l, Rmult_1_r by lra.
  pose proof (Rle_0_sqr (a - b)) as Q. unfold Rsqr in Q. lra.
Qed.

Lemma close_condition : forall n A K, (2 <= n)%nat -> (forall c, (c < n)%nat -> inner n A c c = 1) -> 4 / 5 <= inner n A 0 1 -> condition_le n A K -> 3 <= K.
Proof.
  intros n A K Hn U C [Kp KK]. destruct n as [|[|m]]; [lia|lia|].
  set (x := fun s i => match i with O => 1 | S O => s | _ => 0 end : R).
  assert (T : forall s, len2 (S (S m)) (times (S (S m)) A (x s)) = 1 + s * s + 2 * s * inner (S (S m)) A 0 1).
  { intros s. unfold len2. rewrite (total_ext _ _ (fun i => (A i 0%nat * A i 0%nat + s * s * (A i 1%nat * A i 1%nat)) + 2 * s * (A i 0%nat * A i 1%nat))).
    - rewrite !total_plus, !total_mult. fold (inner (S (S m)) A 0 0) (inner (S (S m)) A 1 1) (inner (S (S m)) A 0 1). rewrite !U by lia. ring.
    - intros i _. unfold times. rewrite total_two; [cbn; ring|]. intros [|[|j]] Hj; [lia|lia|cbn; ring]. }
  assert (L : forall s, len2 (S (S m)) (x s) = 1 + s * s).
  { intros s. unfold len2. rewrite total_two; [cbn; ring|]. intros [|[|j]] Hj; [lia|lia|cbn; ring]. }
  specialize (KK (x 1) (x (-1))). rewrite !T, !L in KK. specialize (KK ltac:(ring)). set (c := inner (S (S m)) A 0 1) in *.
  assert (0 <= K * K) by nra. destruct (Rle_lt_dec 3 K) as [|N]; [assumption|]. nra.
Qed.

(** * The percentile *)

Lemma insert_perm : forall x l, Permutation (insert x l) (x :: l).
Proof. induction l as [|y l IH]; cbn; [reflexivity|]. destruct (Rle_dec x y); [reflexivity|]. rewrite IH. apply perm_swap. Qed.

Lemma insert_sorted : forall x l, Sorted Rle l -> Sorted Rle (insert x l).
Proof.
  induction l as [|y l IH]; intros S; cbn; [repeat constructor|]. destruct (Rle_dec x y) as [|N]; [constructor; [assumption|constructor; assumption]|].
  inversion S as [|? ? S' H]; subst. constructor; [apply IH; assumption|]. destruct l as [|z l]; cbn; [constructor; lra|]. destruct (Rle_dec x z); constructor; [lra|inversion H; assumption].
Qed.

Lemma sorted_of_perm : forall l, Permutation (sorted_of l) l.
Proof. induction l as [|x l IH]; cbn; [reflexivity|]. rewrite insert_perm, IH. reflexivity. Qed.

Lemma sorted_of_sorted : forall l, Sorted Rle (sorted_of l).
Proof. induction l as [|x l IH]; cbn; [constructor|apply insert_sorted; assumption]. Qed.

Lemma percentile_is : forall l q v, percentile l q = Ok v -> is_percentile l q v.
Proof.
  intros l q v. unfold percentile. destruct (Z.ltb_spec q 0) as [|Q0]; [discriminate|]. destruct (Z.ltb_spec 100 q) as [|Q1]; [discriminate|]. cbn [orb].
  destruct l as [|x0 l0]; [discriminate|]. intros H. apply (f_equal (fun r => match r with Ok a => a | Err _ => 0 end)) in H. cbv beta iota zeta in H. rewrite <- H. clear H v. remember (x0 :: l0) as l eqn:E.
  assert (N : (0 < length l)%nat) by (subst l; cbn; lia). clear E x0 l0.
  set (h := ((length l - 1) * Z.to_nat q)%nat). pose proof (Nat.div_mod_eq h 100) as D. pose proof (Nat.mod_upper_bound h 100 ltac:(lia)) as M.
  set (k := (h / 100)%nat) in *. set (r := (h mod 100)%nat) in *.
  assert (Hh : INR h = INR (length l - 1) * IZR q).
  { unfold h. rewrite mult_INR. f_equal. rewrite INR_IZR_INZ, Z2Nat.id by lia. reflexivity. }
  assert (Hp : INR (length l - 1) * IZR q / 100 = INR k + INR r / 100).
  { rewrite <- Hh, D, plus_INR, mult_INR. replace (INR 100) with 100 by (rewrite INR_IZR_INZ; reflexivity). field. }
  assert (Hr : 0 <= INR r / 100 < 1).
  { assert (INR r < 100) by (replace 100 with (INR 100) by (rewrite INR_IZR_INZ; reflexivity); apply lt_INR; lia). pose proof (pos_INR r). lra. }
  assert (Hk : (100 * k + r <= (length l - 1) * 100)%nat).
  { rewrite <- D. unfold h. apply Nat.mul_le_mono_l. lia. }
  exists (sorted_of l), k. pose proof (Permutation_length (sorted_of_perm l)) as Len. split; [apply sorted_of_perm|]. split; [apply sorted_of_sorted|].
  split; [lia|]. cbv zeta. rewrite Hp. split; [lra|]. destruct (Nat.eq_dec r 0) as [Z|NZ].
  - left. assert (Z' : INR r = 0) by (rewrite Z; reflexivity). change (INR (h mod 100)) with (INR r). rewrite Z'. split; [lra|]. unfold Rdiv. ring.
  - right. assert (K : (S k < length (sorted_of l))%nat) by lia. split; [assumption|]. rewrite (nth_indep _ (nth k (sorted_of l) 0) 0 K). ring.
Qed.

Lemma percentile_runs : forall l q, l <> [] -> (0 <= q <= 100)%Z -> exists v, percentile l q = Ok v.
Proof.
  intros l q N Q. unfold percentile. destruct (Z.ltb_spec q 0); [lia|]. destruct (Z.ltb_spec 100 q); [lia|]. cbn [orb]. destruct l; [congruence|]. eexists; reflexivity.
Qed.

Lemma at_least_perm : forall P l l', Permutation l l' -> forall n, at_least P l n -> at_least P l' n.
Proof.
  intros P l l' H. induction H; intros n A; [assumption| | |auto].
  - inversion A; subst; [apply al_yes|apply al_no]; auto.
  - inversion A as [|? ? ? P1 A1|? ? ? A1]; subst; inversion A1; subst; [apply al_yes; [assumption|apply al_yes; assumption]|apply al_no, al_yes; assumption|apply al_yes; [assumption|apply al_no; assumption]|apply al_no, al_no; assumption].
Qed.

Lemma at_least_app : forall P l l' n m, at_least P l n -> at_least P l' m -> at_least P (l ++ l') (n + m).
Proof. intros P l l' n m A B. induction A; cbn; [assumption|apply al_yes; assumption|apply al_no; assumption]. Qed.

Lemma at_least_all : forall (P : R -> Prop) l, (forall x, In x l -> P x) -> at_least P l (length l).
Proof. intros P l H. induction l as [|x l IH]; cbn; constructor; [apply H; left; reflexivity|apply IH; intros; apply H; right; assumption]. Qed.

Lemma at_least_none : forall P l, at_least P l 0.
Proof. intros P l. induction l; [constructor|apply al_no; assumption]. Qed.

Lemma sorted_nth : forall s, Sorted Rle s -> forall i j, (i <= j)%nat -> (j < length s)%nat -> nth i s 0 <= nth j s 0.
Proof.
  intros s H. apply Sorted_StronglySorted in H; [|exact Rle_trans]. induction H as [|a s SS IH F]; intros i j L Hj; [cbn in Hj; lia|].
  destruct i as [|i], j as [|j]; cbn in *; [lra| |lia|apply IH; lia]. rewrite Forall_forall in F. apply F. apply nth_In. lia.
Qed.

Lemma low_part : forall s k v, Sorted Rle s -> (k < length s)%nat -> nth k s 0 <= v -> at_least (fun c => c <= v) s (S k).
Proof.
  intros s k v H K V. rewrite <- (firstn_skipn (S k) s). replace (S k) with (length (firstn (S k) s) + 0)%nat at 3 by (rewrite firstn_length; lia).
  apply at_least_app; [|apply at_least_none]. apply at_least_all. intros x Hx. apply (In_nth _ _ 0) in Hx as (i & Hi & <-). rewrite firstn_length in Hi.
  assert (E : nth i (firstn (S k) s) 0 = nth i s 0) by (rewrite <- (firstn_skipn (S k) s) at 2; rewrite app_nth1; [reflexivity|rewrite firstn_length; lia]).
  rewrite E. pose proof (sorted_nth s H i k). assert (nth i s 0 <= nth k s 0) by (apply sorted_nth; auto; lia). lra.
Qed.

Lemma high_part : forall s k v, Sorted Rle s -> (k < length s)%nat -> v <= nth k s 0 -> at_least (fun c => v <= c) s (length s - k).
Proof.
  intros s k v H K V. rewrite <- (firstn_skipn k s) at 1. replace (length s - k)%nat with (0 + length (skipn k s))%nat by (rewrite skipn_length; lia).
  apply at_least_app; [apply at_least_none|]. apply at_least_all. intros x Hx. apply (In_nth _ _ 0) in Hx as (i & Hi & <-). rewrite skipn_length in Hi.
  assert (E : nth i (skipn k s) 0 = nth (k + i) s 0).
  { rewrite <- (firstn_skipn k s) at 2. rewrite app_nth2; rewrite firstn_length; [f_equal; lia|lia]. }
  rewrite E. assert (nth k s 0 <= nth (k + i) s 0) by (apply sorted_nth; auto; lia). lra.
Qed.

Lemma between : forall a b t, a <= b -> 0 <= t <= 1 -> a <= a + t * (b - a) /\ a + t * (b - a) <= b.
Proof. intros a b t L T. split; nra. Qed.

Lemma percentile_counts : forall l q v, (0 <= q <= 100)%Z -> is_percentile l q v -> exists m m', at_least (fun c => c <= v) l m /\ at_least (fun c => v <= c) l m' /\
  INR (length l - 1) * IZR q < 100 * INR m /\ INR (length l - 1) * IZR (100 - q) < 100 * INR m'.
Proof.
  intros l q v Q (s & k & Pm & So & K & [P0 P1] & C). pose proof (Permutation_length Pm) as Len. rewrite minus_IZR.
  assert (Sl : INR (length l - 1) = INR (length s) - 1) by (rewrite <- Len, minus_INR by lia; reflexivity).
  destruct C as [[E ->]|[K' E]].
  - exists (S k), (length s - k)%nat. split; [|split; [|split]].
    + apply (at_least_perm _ _ _ Pm), low_part; auto. lra.
    + apply (at_least_perm _ _ _ Pm), high_part; auto. lra.
    + rewrite S_INR. lra.
    + rewrite (minus_INR (length s) k) by lia. replace (INR (length s)) with (INR (length l - 1) + 1) by lra. lra.
  - assert (L : nth k s 0 <= nth (S k) s 0) by (apply sorted_nth; auto; lia).
    assert (L1 : nth k s 0 <= v /\ v <= nth (S k) s 0) by (rewrite E; apply between; lra). destruct L1 as [L1 L2].
    destruct (Req_dec (INR (length l - 1) * IZR q / 100) (INR k)) as [Z|NZ].
    + assert (Ev : v = nth k s 0) by (rewrite E, Z; ring). exists (S k), (length s - k)%nat. split; [|split; [|split]].
      * apply (at_least_perm _ _ _ Pm), low_part; auto.
      * apply (at_least_perm _ _ _ Pm), high_part; auto. lra.
      * rewrite S_INR. lra.
      * rewrite (minus_INR (length s) k) by lia. replace (INR (length s)) with (INR (length l - 1) + 1) by lra. lra.
    + exists (S k), (length s - S k)%nat. split; [|split; [|split]].
      * apply (at_least_perm _ _ _ Pm), low_part; auto.
      * apply (at_least_perm _ _ _ Pm), high_part; auto.
      * rewrite S_INR. lra.
      * rewrite (minus_INR (length s) (S k)), S_INR by lia. replace (INR (length s)) with (INR (length l - 1) + 1) by lra. lra.
Qed.

Lemma percentile_above : forall l q v b, is_percentile l q v -> (forall x, In x l -> b <= x) -> b <= v.
Proof.
  intros l q v b (s & k & Pm & So & K & [P0 P1] & C) H. assert (B : b <= nth k s 0) by (apply H, (Permutation_in _ Pm), nth_In; assumption).
  destruct C as [[_ ->]|[K' ->]]; [assumption|]. assert (nth k s 0 <= nth (S k) s 0) by (apply sorted_nth; auto; lia).
  pose proof (between (nth k s 0) (nth (S k) s 0) (INR (length l - 1) * IZR q / 100 - INR k)) as T. lra.
Qed.

(** * The draws *)

Lemma uniform_mat_is : forall fuel cond n draw thresh p r, generate_uniform_mat fuel cond n draw thresh p = Ok r ->
  exists k, r = (S k, scale n (draw k)) /\ (p <= k)%nat /\ cond (scale n (draw k)) <= thresh /\ forall i, (p <= i < k)%nat -> ~ cond (scale n (draw i)) <= thresh.
Proof.
  induction fuel as [|f IH]; intros cond n draw thresh p r H; cbn [generate_uniform_mat] in H; [discriminate|]. destruct (Rlt_dec thresh (cond (scale n (draw p)))) as [L|L].
  - apply IH in H as (k & -> & Hk & C & F). exists k. split; [reflexivity|]. split; [lia|]. split; [assumption|]. intros i Hi. destruct (Nat.eq_dec i p) as [->|]; [lra|apply F; lia].
  - injection H as <-. exists p. split; [reflexivity|]. split; [lia|]. split; [lra|]. intros; lia.
Qed.

Lemma lag_loop_is : forall fuel cond n draw thresh lags p acc ms, lag_loop fuel cond n draw thresh lags p acc = Ok ms ->
  exists ks, length ks = lags /\ kept (fun k => cond (scale n (draw k)) <= thresh) p ks /\ ms = acc ++ map (fun k => scale n (draw k)) ks.
Proof.
  intros fuel cond n draw thresh lags. induction lags as [|m IH]; intros p acc ms H; cbn [lag_loop] in H.
  - injection H as <-. exists []. split; [reflexivity|]. split; [constructor|]. cbn. rewrite app_nil_r. reflexivity.
  - destruct (generate_uniform_mat fuel cond n draw thresh p) as [B|] eqn:E; cbn [rbind] in H; [|discriminate]. apply uniform_mat_is in E as (k & -> & Hk & C & F). cbn [fst snd] in H.
    apply IH in H as (ks & Lk & Kk & ->). exists (k :: ks). split; [cbn; lia|]. split; [constructor; assumption|]. cbn [map]. rewrite <- app_assoc. reflexivity.
Qed.

Lemma uniform_mat_runs : forall cond n draw thresh d p fuel, cond (scale n (draw (p + d)%nat)) <= thresh -> (d < fuel)%nat -> exists k, (p <= k <= p + d)%nat /\ generate_uniform_mat fuel cond n draw thresh p = Ok (S k, scale n (draw k)).
Proof.
  intros cond n draw thresh. induction d as [|d IH]; intros p fuel C F; (destruct fuel as [|f]; [lia|]); cbn [generate_uniform_mat].
  - rewrite Nat.add_0_r in C. destruct (Rlt_dec _ _); [lra|]. exists p. split; [lia|reflexivity].
  - destruct (Rlt_dec _ _); [|exists p; split; [lia|reflexivity]]. destruct (IH (S p) f) as (k & Hk & E); [replace (S p + d)%nat with (p + S d)%nat by lia; assumption|lia|]. exists k. split; [lia|assumption].
Qed.

Lemma lag_loop_runs : forall cond n draw thresh, (forall p, exists k, (p <= k)%nat /\ cond (scale n (draw k)) <= thresh) ->
  forall lags p0, exists rounds, forall fuel p acc, (p <= p0)%nat -> (rounds <= fuel)%nat -> exists ms, lag_loop fuel cond n draw thresh lags p acc = Ok ms.
Proof.
  intros cond n draw thresh H. induction lags as [|m IH]; intros p0; [exists O; intros; eexists; reflexivity|].
  destruct (H p0) as (k & Hk & C). destruct (IH (S k)) as (r & R). exists (S (k + r)). intros fuel p acc Hp Hf. cbn [lag_loop].
  destruct (uniform_mat_runs cond n draw thresh (k - p) p fuel) as (k' & Hk' & E); [replace (p + (k - p))%nat with k by lia; assumption|lia|]. rewrite E. cbn [rbind fst snd].
  apply R; lia.
Qed.
