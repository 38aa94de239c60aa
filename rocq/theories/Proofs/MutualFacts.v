(** Facts about mutual information from a histogram. *)

From Coq Require Import List Arith Bool Reals Lra Lia Permutation FunctionalExtensionality.
From Verif Require Import Model.Py Model.LagTransitions Model.Mutual Spec.LagSpec Spec.InfoSpec Proofs.LagFacts.
Import ListNotations.
Open Scope R_scope.

(** * Logarithms and sums *)

Lemma ln_lt_minus : forall x, 0 < x -> x <> 1 -> ln x < x - 1.
Proof.
  intros x P N. assert (L : ln x <> 0) by (intros E; apply N; rewrite <- (exp_ln x P), E; apply exp_0). pose proof (exp_ineq1 (ln x) L) as H. rewrite exp_ln in H by assumption. lra.
Qed.

Lemma ln_le_minus : forall x, 0 < x -> ln x <= x - 1.
Proof. intros x P. destruct (Req_dec x 1) as [->|N]; [rewrite ln_1; lra|left; apply ln_lt_minus; assumption]. Qed.

Lemma total_opp : forall n f, total n (fun i => - f i) = - total n f.
Proof. induction n as [|n IH]; intros f; [rewrite !total_0; ring|]. rewrite !total_S, IH. ring. Qed.

Lemma total_mult_r : forall n k f, total n (fun i => f i * k) = total n f * k.
Proof. intros n k f. rewrite Rmult_comm, <- total_mult. apply total_ext. intros; ring. Qed.

Lemma total_minus : forall n f g, total n (fun i => f i - g i) = total n f - total n g.
Proof. induction n as [|n IH]; intros f g; [rewrite !total_0; ring|]. rewrite !total_S, IH. ring. Qed.

Lemma total_swap : forall n m f, total n (fun i => total m (fun j => f i j)) = total m (fun j => total n (fun i => f i j)).
Proof.
  induction n as [|n IH]; intros m f.
  - rewrite total_0. induction m as [|m IHm]; [reflexivity|]. rewrite total_S, <- IHm, total_0. ring.
  - rewrite total_S, IH, <- total_plus. apply total_ext. intros. rewrite total_S. reflexivity.
Qed.

Lemma total_pos : forall n f, (0 < n)%nat -> (forall i, (i < n)%nat -> 0 < f i) -> 0 < total n f.
Proof. intros n f N H. pose proof (total_one n f 0 (fun i Hi => Rlt_le _ _ (H i Hi)) N). pose proof (H 0%nat N). lra. Qed.

Lemma total_lt : forall n f g, (forall i, (i < n)%nat -> f i <= g i) -> (exists i, (i < n)%nat /\ f i < g i) -> total n f < total n g.
Proof.
  intros n f g H (i & Hi & L). pose proof (total_one n (fun k => g k - f k) i) as T. cbv beta in T. rewrite total_minus in T.
  assert (forall k, (k < n)%nat -> 0 <= g k - f k) by (intros k Hk; pose proof (H k Hk); lra). specialize (T H0 Hi). lra.
Qed.

Lemma two_le : forall n f g, (forall i j, (i < n)%nat -> (j < n)%nat -> f i j <= g i j) -> total n (fun i => total n (fun j => f i j)) <= total n (fun i => total n (fun j => g i j)).
Proof. intros n f g H. apply total_le. intros i Hi. apply total_le. intros j Hj. apply H; assumption. Qed.

Lemma two_lt : forall n f g i j, (forall i j, (i < n)%nat -> (j < n)%nat -> f i j <= g i j) -> (i < n)%nat -> (j < n)%nat -> f i j < g i j ->
  total n (fun i => total n (fun j => f i j)) < total n (fun i => total n (fun j => g i j)).
Proof.
  intros n f g i j H Hi Hj L. apply total_lt; [intros k Hk; apply total_le; intros; apply H; assumption|]. exists i. split; [assumption|]. apply total_lt; [intros; apply H; assumption|]. exists j. split; assumption.
Qed.

(** * Information *)

Section Table.
Variables (n : nat) (p : nat -> nat -> R).
Hypothesis F : frequencies n p.

Lemma row_pos : forall i, (i < n)%nat -> 0 < row_freq n p i.
Proof. intros i Hi. apply total_pos; [lia|]. intros j Hj. apply F; assumption. Qed.

Lemma col_pos : forall j, (j < n)%nat -> 0 < col_freq n p j.
Proof. intros i Hi. apply total_pos; [lia|]. intros j Hj. apply F; assumption. Qed.

Lemma row_sum : total n (row_freq n p) = 1.
Proof. unfold row_freq. apply F. Qed.

Lemma col_sum : total n (col_freq n p) = 1.
Proof. unfold col_freq. rewrite <- (proj2 F). symmetry. apply (total_swap n n p). Qed.

Lemma row_entropy : total n (fun i => total n (fun j => p i j * ln (row_freq n p i))) = - entropy1 n (row_freq n p).
Proof. unfold entropy1. rewrite Ropp_involutive. apply total_ext. intros i _. rewrite total_mult_r. reflexivity. Qed.

Lemma col_entropy : total n (fun i => total n (fun j => p i j * ln (col_freq n p j))) = - entropy1 n (col_freq n p).
Proof. unfold entropy1. rewrite Ropp_involutive, total_swap. apply total_ext. intros i _. rewrite total_mult_r. reflexivity. Qed.

Lemma information_is : information n p = entropy1 n (row_freq n p) + entropy1 n (col_freq n p) - entropy2 n p.
Proof.
  unfold information. rewrite (total_ext n _ (fun i => total n (fun j => p i j * ln (p i j)) - (total n (fun j => p i j * ln (row_freq n p i)) + total n (fun j => p i j * ln (col_freq n p j))))).
  - rewrite total_minus, total_plus, row_entropy, col_entropy. unfold entropy2. lra.
  - intros i Hi. rewrite <- total_plus, <- total_minus. apply total_ext. intros j Hj. pose proof (row_pos i Hi) as PR. pose proof (col_pos j Hj) as PC. pose proof (proj1 F i j Hi Hj) as P.
    unfold Rdiv. rewrite ln_mult by (auto; apply Rinv_0_lt_compat, Rmult_lt_0_compat; assumption). rewrite ln_Rinv by (apply Rmult_lt_0_compat; assumption). rewrite ln_mult by assumption. ring.
Qed.

Lemma term_le : forall i j, (i < n)%nat -> (j < n)%nat -> p i j - row_freq n p i * col_freq n p j <= p i j * ln (p i j / (row_freq n p i * col_freq n p j)) /\
  (p i j <> row_freq n p i * col_freq n p j -> p i j - row_freq n p i * col_freq n p j < p i j * ln (p i j / (row_freq n p i * col_freq n p j))).
Proof.
  intros i j Hi Hj. pose proof (row_pos i Hi) as PR. pose proof (col_pos j Hj) as PC. pose proof (proj1 F i j Hi Hj) as P. pose proof (Rmult_lt_0_compat _ _ PR PC) as PP.
  set (m := row_freq n p i * col_freq n p j) in *. set (a := p i j) in *.
  assert (E : ln (a / m) = - ln (m / a)) by (rewrite <- ln_Rinv by (apply Rdiv_lt_0_compat; assumption); f_equal; field; lra). rewrite E.
  pose proof (Rdiv_lt_0_compat _ _ PP P) as Q. assert (D : a * (m / a) = m) by (field; lra). split.
  - pose proof (ln_le_minus _ Q) as L. assert (a * ln (m / a) <= a * (m / a - 1)) by (apply Rmult_le_compat_l; lra). lra.
  - intros N. assert (m / a <> 1) by (intros Z; apply N; rewrite <- D, Z; ring). pose proof (ln_lt_minus _ Q H) as L. assert (a * ln (m / a) < a * (m / a - 1)) by (apply Rmult_lt_compat_l; lra). lra.
Qed.

Lemma gap : total n (fun i => total n (fun j => p i j - row_freq n p i * col_freq n p j)) = 0.
Proof.
  rewrite (total_ext n _ (fun i => row_freq n p i - row_freq n p i * 1)).
  - rewrite total_minus, total_mult_r, row_sum. ring.
  - intros i _. rewrite total_minus, total_mult. fold (row_freq n p i). rewrite <- col_sum. reflexivity.
Qed.

Lemma information_nonneg : 0 <= information n p.
Proof. rewrite <- gap. unfold information. apply two_le. intros i j Hi Hj. apply term_le; assumption. Qed.

Lemma information_zero : information n p = 0 <-> forall i j, (i < n)%nat -> (j < n)%nat -> p i j = row_freq n p i * col_freq n p j.
Proof.
  split.
  - intros Z i j Hi Hj. destruct (Req_dec (p i j) (row_freq n p i * col_freq n p j)) as [|N]; [assumption|]. exfalso.
    assert (0 < information n p); [|lra]. rewrite <- gap. unfold information.
    apply (two_lt n (fun i j => p i j - row_freq n p i * col_freq n p j) (fun i j => p i j * ln (p i j / (row_freq n p i * col_freq n p j))) i j); auto; [intros; apply term_le; assumption|apply term_le; assumption].
  - intros H. unfold information. rewrite (total_ext n _ (fun _ => 0 * 0)); [rewrite total_mult; ring|]. intros i Hi. rewrite (total_ext n _ (fun _ => 0 * 0)); [rewrite total_mult; ring|].
    intros j Hj. rewrite <- (H i j Hi Hj). pose proof (proj1 F i j Hi Hj). replace (p i j / p i j) with 1 by (field; lra). rewrite ln_1. ring.
Qed.

Lemma joint_larger : (2 <= n)%nat -> entropy1 n (row_freq n p) < entropy2 n p /\ entropy1 n (col_freq n p) < entropy2 n p.
Proof.
  intros N. assert (L : forall i j, (i < n)%nat -> (j < n)%nat -> p i j < row_freq n p i /\ p i j < col_freq n p j).
  { intros i j Hi Hj. assert (exists k, (k < n)%nat /\ k <> j) as (k & Hk & Nk) by (destruct j; [exists 1%nat|exists 0%nat]; split; lia).
    assert (exists k, (k < n)%nat /\ k <> i) as (k' & Hk' & Nk') by (destruct i; [exists 1%nat|exists 0%nat]; split; lia). split.
    - assert (S : total n (fun c => if Nat.eqb c j then p i j else 0) < row_freq n p i).
      { apply total_lt; [intros c Hc; destruct (Nat.eqb_spec c j) as [->|]; [lra|left; apply F; assumption]|]. exists k. split; [assumption|]. destruct (Nat.eqb_spec k j); [contradiction|]. apply F; assumption. }
      pose proof (total_one n (fun c => if Nat.eqb c j then p i j else 0) j) as T. cbv beta in T. rewrite Nat.eqb_refl in T. pose proof (proj1 F i j Hi Hj).
      assert (p i j <= total n (fun c => if Nat.eqb c j then p i j else 0)) by (apply T; [intros c _; destruct (Nat.eqb c j); lra|assumption]). lra.
    - assert (S : total n (fun c => if Nat.eqb c i then p i j else 0) < col_freq n p j).
      { apply total_lt; [intros c Hc; destruct (Nat.eqb_spec c i) as [->|]; [lra|left; apply F; assumption]|]. exists k'. split; [assumption|]. destruct (Nat.eqb_spec k' i); [contradiction|]. apply F; assumption. }
      pose proof (total_one n (fun c => if Nat.eqb c i then p i j else 0) i) as T. cbv beta in T. rewrite Nat.eqb_refl in T. pose proof (proj1 F i j Hi Hj).
      assert (p i j <= total n (fun c => if Nat.eqb c i then p i j else 0)) by (apply T; [intros c _; destruct (Nat.eqb c i); lra|assumption]). lra. }
  assert (S : forall i j m, (i < n)%nat -> (j < n)%nat -> p i j < m -> p i j * ln (p i j) < p i j * ln m).
  { intros i j m Hi Hj Hm. pose proof (proj1 F i j Hi Hj) as P. apply Rmult_lt_compat_l; [assumption|]. apply ln_increasing; assumption. }
  pose proof row_entropy as ER. pose proof col_entropy as EC. unfold entropy2. split.
  - assert (total n (fun i => total n (fun j => p i j * ln (p i j))) < total n (fun i => total n (fun j => p i j * ln (row_freq n p i)))); [|lra].
    apply (two_lt n (fun i j => p i j * ln (p i j)) (fun i j => p i j * ln (row_freq n p i)) 0 0); [intros; left; apply S; auto; apply L; assumption|lia|lia|apply S; [lia|lia|apply L; lia]].
  - assert (total n (fun i => total n (fun j => p i j * ln (p i j))) < total n (fun i => total n (fun j => p i j * ln (col_freq n p j)))); [|lra].
    apply (two_lt n (fun i j => p i j * ln (p i j)) (fun i j => p i j * ln (col_freq n p j)) 0 0); [intros; left; apply S; auto; apply L; assumption|lia|lia|apply S; [lia|lia|apply L; lia]].
Qed.
End Table.

Lemma entropy1_range : forall n s, (forall i, (i < n)%nat -> 0 < s i) -> total n s = 1 -> 0 <= entropy1 n s <= ln (INR n).
Proof.
  intros n s P T. unfold entropy1.
  assert (N : (0 < n)%nat) by (destruct n; [rewrite total_0 in T; lra|lia]). assert (NP : 0 < INR n) by (apply lt_0_INR; assumption). split.
  - rewrite <- total_opp. apply total_nonneg. intros i Hi. pose proof (P i Hi) as Pi.
    assert (s i <= 1) by (rewrite <- T; apply (total_one n s i); [intros k Hk; left; apply P; assumption|assumption]).
    pose proof (ln_le_minus _ Pi). nra.
  - assert (K : total n (fun i => - (s i * ln (s i)) - s i * ln (INR n)) <= total n (fun i => / INR n - s i)).
    { apply total_le. intros i Hi. pose proof (P i Hi) as Pi. assert (Q : 0 < / INR n / s i) by (apply Rdiv_lt_0_compat; [apply Rinv_0_lt_compat|]; assumption).
      pose proof (ln_le_minus _ Q) as L. unfold Rdiv in L. rewrite ln_mult, !ln_Rinv in L by (auto; apply Rinv_0_lt_compat; assumption).
      assert (s i * (- ln (INR n) + - ln (s i)) <= s i * (/ INR n * / s i - 1)) by (apply Rmult_le_compat_l; lra). assert (s i * (/ INR n * / s i) = / INR n) by (field; lra). lra. }
    rewrite !total_minus, total_mult_r, T, total_opp in K.
    assert (C : total n (fun _ => / INR n) = 1).
    { assert (G : forall m c, total m (fun _ => c) = INR m * c) by (induction m as [|m IH]; intros c; [rewrite total_0; cbn; ring|rewrite total_S, IH, S_INR; ring]). rewrite G. field. lra. }
    rewrite C in K. lra.
Qed.

(** * The code *)

Definition table (n : nat) (g : mat) : mat := fun i j => (g i j + EPS) / total n (fun i => total n (fun j => g i j + EPS)).

Lemma EPS_pos : 0 < EPS.
Proof. unfold EPS. apply Rinv_0_lt_compat, pow_lt. lra. Qed.

Lemma weights_pos : forall n g, (0 < n)%nat -> (forall i j, 0 <= g i j) -> 0 < total n (fun i => total n (fun j => g i j + EPS)).
Proof. intros n g N G. apply total_pos; [assumption|]. intros i _. apply total_pos; [assumption|]. intros j _. pose proof (G i j). pose proof EPS_pos. lra. Qed.

Lemma table_frequencies : forall n g, (0 < n)%nat -> (forall i j, 0 <= g i j) -> frequencies n (table n g).
Proof.
  intros n g N G. pose proof (weights_pos n g N G) as W. split.
  - intros i j _ _. apply Rdiv_lt_0_compat; [|assumption]. pose proof (G i j). pose proof EPS_pos. lra.
  - unfold table. set (w := total n (fun i => total n (fun j => g i j + EPS))) in *. rewrite (total_ext n _ (fun i => total n (fun j => g i j + EPS) * / w)).
    + rewrite total_mult_r. fold w. field. lra.
    + intros i _. rewrite <- total_mult_r. reflexivity.
Qed.

Lemma table_regularised : forall n g, (0 < n)%nat -> (forall i j, 0 <= g i j) -> regularised n g EPS (table n g).
Proof. intros n g N G i j. pose proof (weights_pos n g N G) as W. unfold table. field. lra. Qed.

Lemma sum_two : forall n f, sum_n n (fun i => sum_n n (fun j => f i j)) = total n (fun i => total n (fun j => f i j)).
Proof. intros n f. rewrite sum_n_is. apply total_ext. intros i _. apply sum_n_is. Qed.

Lemma from_smoothed_is : forall n g b, from_smoothed n g b =
  if b then (- entropy1 n (col_freq n (table n g)) + - entropy1 n (row_freq n (table n g))) / - entropy2 n (table n g) - 1
  else - entropy2 n (table n g) - - entropy1 n (col_freq n (table n g)) - - entropy1 n (row_freq n (table n g)).
Proof.
  intros n g b. unfold from_smoothed. rewrite !(sum_two n (fun i j => g i j + EPS)). unfold entropy1, entropy2. rewrite !Ropp_involutive.
  rewrite (sum_two n (fun i j => (g i j + EPS) / total n (fun i0 => total n (fun j0 => g i0 j0 + EPS)) * ln ((g i j + EPS) / total n (fun i0 => total n (fun j0 => g i0 j0 + EPS))))).
  rewrite !sum_n_is.
  assert (A : total n (fun j => sum_n n (fun i => (g i j + EPS) / total n (fun i0 => total n (fun j0 => g i0 j0 + EPS))) * ln (sum_n n (fun i => (g i j + EPS) / total n (fun i0 => total n (fun j0 => g i0 j0 + EPS)))))
    = total n (fun i => col_freq n (table n g) i * ln (col_freq n (table n g) i))) by (apply total_ext; intros j _; rewrite !sum_n_is; reflexivity).
  assert (B : total n (fun i => sum_n n (fun j => (g i j + EPS) / total n (fun i0 => total n (fun j0 => g i0 j0 + EPS))) * ln (sum_n n (fun j => (g i j + EPS) / total n (fun i0 => total n (fun j0 => g i0 j0 + EPS)))))
    = total n (fun i => row_freq n (table n g) i * ln (row_freq n (table n g) i))) by (apply total_ext; intros j _; rewrite !sum_n_is; reflexivity).
  rewrite A, B. reflexivity.
Qed.

(** * The histogram *)

Lemma count_edges : forall f m k, (forall i, (i <= k)%nat -> f i = true) -> (forall i, (k < i)%nat -> f i = false) -> length (filter f (seq 0 m)) = Nat.min m (S k).
Proof.
  intros f m k A B. induction m as [|m IH]; [reflexivity|]. rewrite seq_S, filter_app, app_length, IH. cbn [filter Nat.add]. destruct (le_lt_dec m k) as [L|L]; [rewrite A by lia|rewrite B by lia]; cbn [length]; lia.
Qed.

Lemma edge_le : forall n e i j, (0 < n)%nat -> fst e < snd e -> (i <= j)%nat -> edge n e i <= edge n e j.
Proof.
  intros n e i j N L H. unfold edge. apply Rplus_le_compat_l, Rmult_le_compat_r; [|apply le_INR; assumption]. left. apply Rdiv_lt_0_compat; [lra|apply lt_0_INR; assumption].
Qed.

Lemma edge_last : forall n e, (0 < n)%nat -> edge n e n = snd e.
Proof. intros n e N. unfold edge. assert (0 < INR n) by (apply lt_0_INR; assumption). field. lra. Qed.

Lemma edge_lt : forall n e i j, (0 < n)%nat -> fst e < snd e -> (i < j)%nat -> edge n e i < edge n e j.
Proof.
  intros n e i j N L H. unfold edge. apply Rplus_lt_compat_l, Rmult_lt_compat_r; [|apply lt_INR; assumption]. apply Rdiv_lt_0_compat; [lra|apply lt_0_INR; assumption].
Qed.

Lemma bin_unique : forall n lo hi i v, lo < hi -> in_cell n lo hi i v -> bin_of n (lo, hi) v = i.
Proof.
  intros n lo hi i v L (Hi & A & B). set (e := (lo, hi)). assert (N : (0 < n)%nat) by lia. assert (Le : fst e < snd e) by exact L.
  assert (A' : edge n e i <= v) by exact A. unfold bin_of. destruct B as [B|[Ei ->]].
  - assert (B' : v < edge n e (S i)) by (unfold edge; rewrite S_INR; exact B).
    rewrite (count_edges _ (S n) i).
    + destruct (Req_EM_T v (edge n e n)) as [E|_]; [pose proof (edge_le n e (S i) n N Le ltac:(lia)); lra|]. lia.
    + intros k Hk. destruct (Rle_dec (edge n e k) v) as [|C]; [reflexivity|]. pose proof (edge_le n e k i N Le Hk). lra.
    + intros k Hk. destruct (Rle_dec (edge n e k) v) as [C|]; [|reflexivity]. pose proof (edge_le n e (S i) k N Le Hk). lra.
  - pose proof (edge_last n e N) as El. cbn [snd e] in El. rewrite (count_edges _ (S n) n).
    + destruct (Req_EM_T hi (edge n e n)) as [_|C]; [lia|]. cbn in El. congruence.
    + intros k Hk. destruct (Rle_dec (edge n e k) hi) as [|C]; [reflexivity|]. pose proof (edge_le n e k n N Le Hk) as Q. rewrite (edge_last n e N) in Q. cbn in Q. lra.
    + intros k Hk. destruct (Rle_dec (edge n e k) hi) as [C|]; [|reflexivity]. pose proof (edge_lt n e n k N Le Hk) as Q. rewrite (edge_last n e N) in Q. cbn in Q. lra.
Qed.

Lemma cell_exists : forall n lo hi v, (0 < n)%nat -> lo < hi -> lo <= v <= hi -> exists i, in_cell n lo hi i v.
Proof.
  intros n lo hi v N L [A B]. pose proof (edge_last n (lo, hi) N) as El. cbn in El.
  assert (K : forall m, (m <= n)%nat -> v < edge n (lo, hi) m -> exists i, (i < m)%nat /\ edge n (lo, hi) i <= v < edge n (lo, hi) (S i)).
  { induction m as [|m IH]; intros Hm Hv; [unfold edge in Hv; cbn in Hv; lra|]. destruct (Rlt_dec v (edge n (lo, hi) m)) as [C|C].
    - destruct (IH ltac:(lia) C) as (i & Hi & Q). exists i. split; [lia|assumption].
    - exists m. split; [lia|]. lra. }
  destruct (Rle_lt_or_eq_dec v hi B) as [C|C].
  - rewrite <- El in C. destruct (K n ltac:(lia) C) as (i & Hi & Q1 & Q2). exists i. split; [assumption|]. cbv zeta. split; [exact Q1|]. left. unfold edge in Q2. rewrite S_INR in Q2. exact Q2.
  - exists (n - 1)%nat. split; [lia|]. cbv zeta. split; [|right; split; [lia|assumption]]. pose proof (edge_le n (lo, hi) (n - 1) n N L ltac:(lia)) as Q. rewrite El in Q. rewrite C. exact Q.
Qed.

Lemma fold_min : forall r v, In (fold_right Rmin v r) (v :: r) /\ forall w, In w (v :: r) -> fold_right Rmin v r <= w.
Proof.
  induction r as [|u r IH]; intros v; cbn [fold_right]; [split; [left; reflexivity|intros w [->|[]]; lra]|]. destruct (IH v) as [I M]. split.
  - unfold Rmin at 1. destruct (Rle_dec u (fold_right Rmin v r)); [right; left; reflexivity|]. destruct I as [<-|I]; [left; reflexivity|right; right; assumption].
  - intros w [<-|[<-|Hw]]; [eapply Rle_trans; [apply Rmin_r|apply M; left; reflexivity]|apply Rmin_l|eapply Rle_trans; [apply Rmin_r|apply M; right; assumption]].
Qed.

Lemma fold_max : forall r v, In (fold_right Rmax v r) (v :: r) /\ forall w, In w (v :: r) -> w <= fold_right Rmax v r.
Proof.
  induction r as [|u r IH]; intros v; cbn [fold_right]; [split; [left; reflexivity|intros w [->|[]]; lra]|]. destruct (IH v) as [I M]. split.
  - unfold Rmax at 1. destruct (Rle_dec u (fold_right Rmax v r)); [|right; left; reflexivity]. destruct I as [I|I]; [left; exact I|right; right; assumption].
  - intros w [<-|[<-|Hw]]; [eapply Rle_trans; [apply M; left; reflexivity|apply Rmax_r]|apply Rmax_l|eapply Rle_trans; [apply M; right; assumption|apply Rmax_r]].
Qed.

Lemma outer_is : forall x lo hi, range_of x lo hi -> outer_edges x = (lo, hi).
Proof.
  intros [|v r] lo hi (N & a & b & Ia & Ib & M & C); [congruence|]. unfold outer_edges. destruct (fold_min r v) as [I1 M1]. destruct (fold_max r v) as [I2 M2].
  set (lo' := fold_right Rmin v r) in *. set (hi' := fold_right Rmax v r) in *.
  assert (E1 : lo' = a) by (pose proof (M1 a Ia); pose proof (M _ I1); lra). assert (E2 : hi' = b) by (pose proof (M2 b Ib); pose proof (M _ I2); lra). rewrite E1, E2.
  destruct C as [(L & -> & ->)|(-> & -> & ->)]; destruct (Req_EM_T _ _); try lra; [reflexivity|]. f_equal; field.
Qed.

Lemma range_exists : forall x, x <> [] -> exists lo hi, range_of x lo hi.
Proof.
  intros [|v r] N; [congruence|]. destruct (fold_min r v) as [I1 M1]. destruct (fold_max r v) as [I2 M2].
  assert (L : forall w, In w (v :: r) -> fold_right Rmin v r <= w <= fold_right Rmax v r) by (intros w Hw; split; auto).
  destruct (Req_dec (fold_right Rmin v r) (fold_right Rmax v r)) as [E|E].
  - eexists _, _. split; [discriminate|]. eexists _, _. split; [exact I1|]. split; [exact I2|]. split; [exact L|]. right. split; [exact E|]. split; reflexivity.
  - eexists _, _. split; [discriminate|]. eexists _, _. split; [exact I1|]. split; [exact I2|]. split; [exact L|]. left. split; [pose proof (L _ I1); lra|]. split; reflexivity.
Qed.

Lemma range_in : forall x lo hi, range_of x lo hi -> lo < hi /\ forall v, In v x -> lo <= v <= hi.
Proof.
  intros x lo hi (N & a & b & Ia & Ib & M & C). destruct C as [(L & -> & ->)|(E & -> & ->)]; (split; [lra|]); intros v Hv; pose proof (M v Hv); lra.
Qed.

Lemma bin_cell : forall n x lo hi v i, (0 < n)%nat -> range_of x lo hi -> In v x -> (bin_of n (outer_edges x) v = i <-> in_cell n lo hi i v).
Proof.
  intros n x lo hi v i N R I. rewrite (outer_is x lo hi R). destruct (range_in x lo hi R) as [L B]. split; [|apply bin_unique; assumption].
  intros <-. destruct (cell_exists n lo hi v N L (B v I)) as [i C]. rewrite (bin_unique n lo hi i v L C). assumption.
Qed.

Lemma histogram_counts : forall n x y lx hx ly hy, (0 < n)%nat -> length x = length y -> range_of x lx hx -> range_of y ly hy -> forall i j,
  exists m, histogram (binned n x y) i j = INR m /\ exactly (fun q => in_cell n lx hx i (fst q) /\ in_cell n ly hy j (snd q)) (combine x y) m.
Proof.
  intros n x y lx hx ly hy N L Rx Ry i j. unfold histogram, binned. eexists. split; [reflexivity|].
  pose proof (fun v => bin_cell n x lx hx v i N Rx) as Bx. pose proof (fun v => bin_cell n y ly hy v j N Ry) as By.
  set (ex := outer_edges x) in *. set (ey := outer_edges y) in *. clearbody ex ey. clear Rx Ry. revert y L By. induction x as [|u x IH]; intros [|w y] L By; try discriminate; cbn [map combine filter]; [constructor|].
  cbn [fst snd]. specialize (IH (fun v I => Bx v (or_intror I)) y ltac:(cbn in L; lia) (fun v I => By v (or_intror I))).
  pose proof (Bx u (or_introl eq_refl)) as Bu. pose proof (By w (or_introl eq_refl)) as Bw.
  destruct (Nat.eqb_spec (bin_of n ex u) i) as [E|E]; cbn [andb].
  - destruct (Nat.eqb_spec (bin_of n ey w) j) as [E'|E']; cbn [length]; [apply ex_yes|apply ex_no]; cbn [fst snd]; tauto.
  - apply ex_no; cbn [fst snd]; tauto.
Qed.

Lemma histogram_nonneg : forall b i j, 0 <= histogram b i j.
Proof. intros. apply pos_INR. Qed.

Lemma total_pick : forall n k c, (k < n)%nat -> total n (fun i => if Nat.eqb k i then c else 0) = c.
Proof.
  induction n as [|n IH]; intros k c H; [lia|]. rewrite total_S. destruct (Nat.eqb_spec k n) as [->|N].
  - rewrite (total_ext n _ (fun _ => 0 * 0)); [rewrite total_mult; ring|]. intros i Hi. destruct (Nat.eqb_spec n i); [lia|ring].
  - rewrite IH by lia. ring.
Qed.

Lemma histogram_total : forall n b, (forall q, In q b -> (fst q < n)%nat /\ (snd q < n)%nat) -> total n (fun i => total n (fun j => histogram b i j)) = INR (length b).
Proof.
  intros n b. induction b as [|q b IH]; intros H.
  - rewrite (total_ext n _ (fun _ => 0 * 0)); [rewrite total_mult; cbn; ring|]. intros i _. rewrite (total_ext n _ (fun _ => 0 * 0)); [rewrite total_mult; ring|]. intros; cbn; ring.
  - destruct (H q (or_introl eq_refl)) as [H1 H2]. rewrite (total_ext n _ (fun i => (if Nat.eqb (fst q) i then 1 else 0) + total n (fun j => histogram b i j))).
    + rewrite total_plus, total_pick, IH by (auto; intros; apply H; right; assumption). cbn [length]. rewrite S_INR. ring.
    + intros i _. transitivity (total n (fun j => if Nat.eqb (snd q) j then (if Nat.eqb (fst q) i then 1 else 0) else 0) + total n (fun j => histogram b i j)); [|rewrite total_pick by assumption; reflexivity].
      rewrite <- total_plus. apply total_ext. intros j _. unfold histogram. cbn [filter]. destruct (Nat.eqb (fst q) i), (Nat.eqb (snd q) j); cbn [andb]; try ring. cbn [length]. rewrite S_INR. ring.
Qed.

(** * Changes of the data *)

Lemma bin_ext : forall n e v e' v', (forall i, edge n e i <= v <-> edge n e' i <= v') -> (v = edge n e n <-> v' = edge n e' n) -> bin_of n e v = bin_of n e' v'.
Proof.
  intros n e v e' v' A B. unfold bin_of. rewrite (filter_ext (fun i => if Rle_dec (edge n e i) v then true else false) (fun i => if Rle_dec (edge n e' i) v' then true else false)).
  - destruct (Req_EM_T v (edge n e n)), (Req_EM_T v' (edge n e' n)); tauto.
  - intros i. specialize (A i). destruct (Rle_dec (edge n e i) v), (Rle_dec (edge n e' i) v'); tauto.
Qed.

Lemma range_affine : forall a b x lo hi, 0 < a -> range_of x lo hi -> exists lo' hi', range_of (map (fun v => a * v + b) x) lo' hi' /\
  ((forall v w, In v x -> In w x -> v = w) /\ lo' = a * (lo + 1 / 2) + b - 1 / 2 /\ hi' = lo' + 1 /\ hi = lo + 1 /\ In (lo + 1 / 2) x \/ lo' = a * lo + b /\ hi' = a * hi + b).
Proof.
  intros a b x lo hi A (N & u & w & Iu & Iw & M & C).
  assert (I : forall v, In v x -> In (a * v + b) (map (fun v => a * v + b) x)) by (intros v Hv; apply in_map_iff; exists v; auto).
  assert (M' : forall v, In v (map (fun v => a * v + b) x) -> a * u + b <= v <= a * w + b) by (intros v Hv; apply in_map_iff in Hv as (t & <- & Ht); pose proof (M t Ht); nra).
  assert (N' : map (fun v => a * v + b) x <> []) by (destruct x; [congruence|discriminate]).
  destruct C as [(L & -> & ->)|(E & -> & ->)].
  - exists (a * u + b), (a * w + b). split; [|right; split; reflexivity]. split; [assumption|]. exists (a * u + b), (a * w + b). split; [auto|]. split; [auto|]. split; [assumption|]. left. split; [nra|]. split; reflexivity.
  - exists (a * u + b - 1 / 2), (a * u + b + 1 / 2). split.
    + split; [assumption|]. exists (a * u + b), (a * w + b). split; [auto|]. split; [auto|]. split; [assumption|]. right. split; [subst; reflexivity|]. split; reflexivity.
    + left. split; [intros v v' Hv Hv'; pose proof (M v Hv); pose proof (M v' Hv'); lra|]. replace (u - 1 / 2 + 1 / 2) with u by field. split; [reflexivity|]. split; [field|]. split; [field|assumption].
Qed.

Lemma bins_affine : forall n a b x, (0 < n)%nat -> 0 < a -> map (bin_of n (outer_edges (map (fun v => a * v + b) x))) (map (fun v => a * v + b) x) = map (bin_of n (outer_edges x)) x.
Proof.
  intros n a b x N A. destruct x as [|x0 x1]; [reflexivity|]. set (x := x0 :: x1). destruct (range_exists x) as (lo & hi & R); [discriminate|].
  destruct (range_affine a b x lo hi A R) as (lo' & hi' & R' & C). rewrite (outer_is _ _ _ R), (outer_is _ _ _ R'). rewrite map_map. apply map_ext_in. intros v Hv.
  assert (NP : 0 < INR n) by (apply lt_0_INR; assumption).
  destruct C as [(S & -> & -> & -> & I)|[-> ->]].
  - rewrite (S v (lo + 1 / 2) Hv I). apply bin_ext.
    + intros i. unfold edge. cbn [fst snd]. replace (a * (lo + 1 / 2) + b - 1 / 2 + 1 - (a * (lo + 1 / 2) + b - 1 / 2)) with 1 by ring. replace (lo + 1 - lo) with 1 by ring. split; lra.
    + rewrite !edge_last by assumption. cbn [snd]. split; lra.
  - apply bin_ext.
    + intros i. unfold edge. cbn [fst snd]. replace (a * lo + b + INR i * ((a * hi + b - (a * lo + b)) / INR n)) with (a * (lo + INR i * ((hi - lo) / INR n)) + b) by (field; lra).
      set (t := lo + INR i * ((hi - lo) / INR n)). split; intros Q; nra.
    + rewrite !edge_last by assumption. cbn [snd]. split; intros Q; nra.
Qed.

Lemma binned_swap : forall n x y, binned n y x = map (fun q => (snd q, fst q)) (binned n x y).
Proof.
  intros n x y. unfold binned. set (a := map _ x). set (b := map _ y). clearbody a b. revert b. induction a as [|u a IH]; intros [|w b]; cbn; try reflexivity. rewrite IH. reflexivity.
Qed.

Lemma histogram_swap : forall b i j, histogram (map (fun q => (snd q, fst q)) b) i j = histogram b j i.
Proof.
  intros b i j. unfold histogram. f_equal. induction b as [|q b IH]; [reflexivity|]. cbn [map filter fst snd]. rewrite (andb_comm (Nat.eqb (snd q) i)). destruct (_ && _)%bool; cbn [length]; rewrite IH; reflexivity.
Qed.

Lemma from_smoothed_swap : forall n g b, from_smoothed n (fun i j => g j i) b = from_smoothed n g b.
Proof.
  intros n g b. rewrite !from_smoothed_is.
  assert (T : forall i j, table n (fun i j => g j i) i j = table n g j i) by (intros i j; unfold table; f_equal; apply (total_swap n n (fun i j => g j i + EPS))).
  assert (C : forall j, col_freq n (table n (fun i j => g j i)) j = row_freq n (table n g) j) by (intros j; apply total_ext; intros; apply T).
  assert (R : forall j, row_freq n (table n (fun i j => g j i)) j = col_freq n (table n g) j) by (intros j; apply total_ext; intros; apply T).
  assert (E1 : entropy1 n (col_freq n (table n (fun i j => g j i))) = entropy1 n (row_freq n (table n g))) by (unfold entropy1; f_equal; apply total_ext; intros; rewrite !C; reflexivity).
  assert (E2 : entropy1 n (row_freq n (table n (fun i j => g j i))) = entropy1 n (col_freq n (table n g))) by (unfold entropy1; f_equal; apply total_ext; intros; rewrite !R; reflexivity).
  assert (E3 : entropy2 n (table n (fun i j => g j i)) = entropy2 n (table n g)).
  { unfold entropy2. f_equal. rewrite total_swap. apply total_ext. intros i _. apply total_ext. intros j _. rewrite T. reflexivity. }
  rewrite E1, E2, E3. destruct b; [|ring]. f_equal. f_equal. ring.
Qed.
