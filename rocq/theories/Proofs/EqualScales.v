(** With equal noise scales the true weights have the least risk among all DAGs.

    The covariance matrix is eliminated in the order of the competing DAG: the risk is
    at least the sum of the pivots, the product of the pivots does not depend on the
    order, and in the order of the true DAG all pivots are the noise variance. *)

From Coq Require Import List Arith Lia Bool Permutation Reals Lra.
From Verif Require Import Spec.Digraphs Spec.Scores Spec.LinearSem.
From Verif Require Import Proofs.FinGraph Proofs.ScoreFacts Proofs.PopulationFacts.
Import ListNotations.
Open Scope R_scope.

Definition elim (S : nat -> nat -> R) (a : nat) : nat -> nat -> R := fun i k => S i k - S i a * S k a / S a a.

Fixpoint pivots (S : nat -> nat -> R) (l : list nat) : list R :=
  match l with [] => [] | a :: r => S a a :: pivots (elim S a) r end.

Definition sym (S : nat -> nat -> R) : Prop := forall i k, S i k = S k i.
Definition pos_all (l : list R) : Prop := forall p, In p l -> 0 < p.
Definition lnsum (l : list R) : R := fold_right (fun p t => ln p + t) 0 l.
Definition total_of (l : list R) : R := fold_right Rplus 0 l.

Lemma sym_elim : forall S a, sym S -> sym (elim S a).
Proof. intros S a H i k. unfold elim. rewrite (H i k). f_equal. unfold Rdiv. ring. Qed.

Lemma pivots_ext : forall l S S', (forall i k, S i k = S' i k) -> pivots S l = pivots S' l.
Proof.
  induction l as [|a r IH]; intros S S' H; simpl; auto. rewrite H. f_equal. apply IH.
  intros i k. unfold elim. rewrite !H. auto.
Qed.

Lemma pos_cons : forall p l, pos_all (p :: l) <-> 0 < p /\ pos_all l.
Proof.
  intros p l. unfold pos_all. simpl. split; [intro H; split; auto|]. intros [H1 H2] q [<-|H]; auto.
Qed.

Lemma swap_ok : forall S a b r, sym S -> pos_all (pivots S (a :: b :: r)) ->
  pos_all (pivots S (b :: a :: r)) /\ lnsum (pivots S (a :: b :: r)) = lnsum (pivots S (b :: a :: r)).
Proof.
  intros S a b r Sy H. cbn [pivots] in *. rewrite !pos_cons in *. destruct H as [Ha [Hb Hr]].
  unfold elim in Hb. rewrite (Sy b a) in Hb.
  assert (0 < S b b) as Pb.
  { assert (0 <= S a b * S a b / S a a) by (apply Rmult_le_pos; [pose proof (Rle_0_sqr (S a b)); unfold Rsqr in *; lra|left; apply Rinv_0_lt_compat; auto]). lra. }
  assert (0 < S a a * S b b - S a b * S a b) as Pd.
  { replace (S a a * S b b - S a b * S a b) with (S a a * (S b b - S a b * S a b / S a a)) by (field; lra). apply Rmult_lt_0_compat; auto. }
  assert (elim S a b b = (S a a * S b b - S a b * S a b) / S a a) as E1 by (unfold elim; rewrite (Sy b a); field; lra).
  assert (elim S b a a = (S a a * S b b - S a b * S a b) / S b b) as E2 by (unfold elim; field; lra).
  assert (forall i k, elim (elim S a) b i k = elim (elim S b) a i k) as EE.
  { intros i k. unfold elim at 1 3. rewrite E1, E2. unfold elim. rewrite (Sy b a). field. repeat split; lra. }
  rewrite <- (pivots_ext r _ _ EE). repeat split; auto.
  - rewrite E2. apply Rmult_lt_0_compat; auto. apply Rinv_0_lt_compat; auto.
  - cbn [lnsum fold_right]. rewrite E1, E2. unfold Rdiv. rewrite !ln_mult, !ln_Rinv; auto; try (apply Rinv_0_lt_compat; auto). ring.
Qed.

Lemma perm_pivots : forall l l', Permutation l l' -> forall S, sym S -> pos_all (pivots S l) ->
  pos_all (pivots S l') /\ lnsum (pivots S l) = lnsum (pivots S l').
Proof.
  intros l l' P. induction P as [|a l l' P IH|a b l|l l' l'' P1 IH1 P2 IH2]; intros S Sy H; auto.
  - cbn [pivots] in *. rewrite pos_cons in *. destruct H as [Ha H]. destruct (IH (elim S a) (sym_elim S a Sy) H) as [H1 H2].
    split; auto. cbn [lnsum fold_right]. unfold lnsum in H2. rewrite H2. auto.
  - apply swap_ok; auto.
  - destruct (IH1 S Sy H) as [H1 E1]. destruct (IH2 S Sy H1) as [H2 E2]. split; auto. congruence.
Qed.

(* ---------- sums of logarithms ---------- *)
Lemma ln_le : forall x, 0 < x -> ln x <= x - 1 /\ (ln x = x - 1 -> x = 1).
Proof.
  intros x H. destruct (Req_dec (ln x) 0) as [Z|N].
  - assert (x = 1) as ->. { rewrite <- (exp_ln x H), Z. apply exp_0. }
    rewrite ln_1. split; [lra|auto].
  - pose proof (exp_ineq1 (ln x) N) as G. rewrite (exp_ln x H) in G. split; lra.
Qed.

(** Positive numbers with the sum of logarithms of [n] copies of [v] have at least
    the sum of these, and the same sum only if they are these. *)
Lemma mean_ineq : forall v l, 0 < v -> pos_all l ->
  lnsum l - INR (length l) * ln v <= total_of l / v - INR (length l) /\
  (lnsum l - INR (length l) * ln v = total_of l / v - INR (length l) -> forall p, In p l -> p = v).
Proof.
  intros v l Hv. induction l as [|p l IH]; intro H.
  - simpl. split; [unfold Rdiv; lra|intros _ p []].
  - rewrite pos_cons in H. destruct H as [Hp H]. destruct (IH H) as [I1 I2].
    assert (0 < p / v) as Q by (apply Rmult_lt_0_compat; auto; apply Rinv_0_lt_compat; auto).
    destruct (ln_le (p / v) Q) as [L1 L2].
    assert (ln (p / v) = ln p - ln v) as E. { unfold Rdiv. rewrite ln_mult, ln_Rinv; auto; try lra. apply Rinv_0_lt_compat; auto. }
    cbn [length]. rewrite S_INR. cbn [lnsum total_of fold_right]. fold (lnsum l) (total_of l).
    replace ((p + total_of l) / v) with (p / v + total_of l / v) by (field; lra). split; [lra|].
    intros EQ q [<-|Hq].
    + assert (p / v = 1) as E1 by (apply L2; lra). replace p with (p / v * v) by (field; lra). rewrite E1. ring.
    + apply I2; auto. lra.
Qed.

(* ---------- the true order ---------- *)
Section Model.
  Variable T : nat -> nat -> R.
  Variable v : R.
  Hypothesis vpos : 0 < v.

  (** The covariances that are due to the noise of the variables in [l]. *)
  Definition cov_of (l : list nat) : nat -> nat -> R := fun i k => sumR l (fun r => v * (T r i * T r k)).

  Lemma cov_sym : forall l, sym (cov_of l).
  Proof using. intros l i k. unfold cov_of. apply sumR_ext. intros; ring. Qed.

  Lemma cov_perm : forall l l', Permutation l l' -> forall i k, cov_of l i k = cov_of l' i k.
  Proof using. intros. apply sumR_perm. auto. Qed.

  Lemma cov_elim : forall a l, T a a = 1 -> (forall r, In r l -> T r a = 0) ->
    cov_of (a :: l) a a = v /\ forall i k, elim (cov_of (a :: l)) a i k = cov_of l i k.
  Proof using vpos.
    intros a l Ta Tl.
    assert (forall i, cov_of (a :: l) i a = v * T a i) as C.
    { intro i. unfold cov_of. cbn [sumR]. rewrite Ta. rewrite (sumR_zero l); [ring|]. intros r Hr. rewrite (Tl r Hr). ring. }
    assert (cov_of (a :: l) a a = v) as Ca by (rewrite C, Ta; ring). split; auto.
    intros i k. unfold elim. rewrite !C, Ta. unfold cov_of. cbn [sumR]. field. lra.
  Qed.

  Lemma pivots_true : forall l, (forall r, In r l -> T r r = 1) ->
    (forall l1 a l2, l = l1 ++ a :: l2 -> forall r, In r l2 -> T r a = 0) -> pivots (cov_of l) l = map (fun _ => v) l.
  Proof using vpos.
    induction l as [|a l IH]; intros T1 T0; auto. cbn [pivots map].
    destruct (cov_elim a l) as [E1 E2]; [apply T1; left; auto|apply (T0 [] a l eq_refl)|].
    rewrite E1. f_equal. rewrite (pivots_ext l _ _ E2). apply IH.
    - intros; apply T1; right; auto.
    - intros l1 b l2 E r Hr. apply (T0 (a :: l1) b l2); auto. simpl. rewrite E. auto.
  Qed.

  (** If all pivots are [v], the order is one of the true DAG. *)
  Lemma pivots_order : forall l, (forall r, In r l -> T r r = 1) -> (forall p, In p (pivots (cov_of l) l) -> p = v) ->
    forall l1 a l2, l = l1 ++ a :: l2 -> forall r, In r l2 -> T r a = 0.
  Proof using vpos.
    induction l as [|b l IH]; intros T1 HP l1 a l2 E r Hr; [destruct l1; discriminate|].
    cbn [pivots] in HP.
    assert (Tb : T b b = 1) by (apply T1; left; auto).
    assert (Tl : forall r, In r l -> T r b = 0).
    { assert (cov_of (b :: l) b b = v) as E1 by (apply HP; left; auto). unfold cov_of in E1. cbn [sumR] in E1. rewrite Tb in E1.
      assert (sumR l (fun r => v * (T r b * T r b)) = 0) as Z by lra.
      clear - Z vpos. induction l as [|c l IHl]; intros r Hr; [destruct Hr|]. cbn [sumR] in Z.
      assert (0 <= v * (T c b * T c b)) by (apply Rmult_le_pos; [lra|apply Rle_0_sqr]).
      assert (0 <= sumR l (fun r => v * (T r b * T r b))).
      { clear - vpos. induction l as [|x l IHl]; cbn [sumR]; [lra|].
        assert (0 <= v * (T x b * T x b)) by (apply Rmult_le_pos; [lra|apply Rle_0_sqr]). lra. }
      destruct Hr as [<-|Hr]; [|apply IHl; auto; lra].
      apply Rsqr_0_uniq. unfold Rsqr. apply (Rmult_eq_reg_l v); lra. }
    destruct (cov_elim b l Tb Tl) as [_ E2].
    destruct l1 as [|c l1]; simpl in E; inversion E; subst.
    - apply Tl; auto.
    - apply (IH (fun r Hr => T1 r (or_intror Hr))) with (l1 := l1) (l2 := l2); auto.
      intros p Hp. apply HP. right. rewrite (pivots_ext _ _ _ E2). auto.
  Qed.
End Model.

(* ---------- the risk is at least the sum of the pivots ---------- *)
Section Lower.
  Variable d : nat.

  (** The variance of the combination [u] of the variables. *)
  Definition quad (S : nat -> nat -> R) (u : nat -> R) : R := sumRn d (fun i => sumRn d (fun k => u i * u k * S i k)).

  Lemma quad_elim : forall S a u, sym S -> 0 < S a a -> quad (elim S a) u <= quad S u.
  Proof using.
    intros S a u Sy Ha. set (w := sumRn d (fun i => u i * S i a)).
    assert (quad (elim S a) u = quad S u - w * w / S a a) as E.
    { unfold quad.
      rewrite (sum_ext d _ (fun i => sumRn d (fun k => u i * u k * S i k) - u i * S i a * (w / S a a))).
      2:{ intros i Hi. rewrite (sum_ext d _ (fun k => u i * u k * S i k - (u i * S i a / S a a) * (u k * S k a))).
          2:{ intros k Hk. unfold elim. field. lra. }
          rewrite sum_minus, sum_scal. fold w. field. lra. }
      rewrite sum_minus, sum_scalr. fold w. field. lra. }
    rewrite E. assert (0 <= w * w / S a a).
    { apply Rmult_le_pos; [apply Rle_0_sqr|left; apply Rinv_0_lt_compat; auto]. }
    lra.
  Qed.

  Lemma elim_zero : forall S a, sym S -> 0 < S a a -> forall k, elim S a a k = 0.
  Proof using. intros S a Sy Ha k. unfold elim. rewrite (Sy k a). field. lra. Qed.

  Lemma elim_zero_keep : forall S a i, (forall k, S i k = 0) -> forall k, elim S a i k = 0.
  Proof using. intros S a i H k. unfold elim. rewrite !H. unfold Rdiv. ring. Qed.

  (** [S] has been eliminated for [done]. *)
  Lemma quad_point : forall S j u, sym S -> (j < d)%nat -> u j = 1 ->
    (forall i, (i < d)%nat -> i <> j -> u i <> 0 -> forall k, S i k = 0) -> quad S u = S j j.
  Proof using.
    intros S j u Sy Hj Hu H. unfold quad.
    assert (forall i k, (i < d)%nat -> (k < d)%nat -> u i * u k * S i k = (if Nat.eqb j i then 1 else 0) * ((if Nat.eqb j k then 1 else 0) * S i k)) as F.
    { intros i k Hi Hk.
      destruct (Nat.eqb_spec j i) as [->|N].
      - destruct (Nat.eqb_spec i k) as [->|M]; [rewrite Hu; ring|].
        destruct (Req_dec (u k) 0) as [Z|Z]; [rewrite Z; ring|]. rewrite (Sy i k), (H k Hk (not_eq_sym M) Z). ring.
      - destruct (Req_dec (u i) 0) as [Z|Z]; [rewrite Z; ring|]. rewrite (H i Hi (not_eq_sym N) Z). ring. }
    rewrite (sum_ext d _ (fun i => (if Nat.eqb j i then 1 else 0) * S i j)).
    2:{ intros i Hi. rewrite (sum_ext d _ (fun k => (if Nat.eqb j i then 1 else 0) * ((if Nat.eqb j k then 1 else 0) * S i k))) by (intros; apply F; auto).
        rewrite sum_scal, sum_delta by auto. auto. }
    rewrite (sum_delta d j (fun i => S i j)) by auto. auto.
  Qed.

  Lemma risk_pivots : forall (u : nat -> nat -> R) l done S S0, sym S -> pos_all (pivots S l) ->
    (forall j, In j l -> (j < d)%nat) -> (forall j, u j j = 1) ->
    (forall i, In i done -> forall k, S i k = 0) ->
    (forall l1 j l2, l = l1 ++ j :: l2 -> forall i, (i < d)%nat -> i <> j -> u j i <> 0 -> In i (done ++ l1)) ->
    (forall j, quad S (u j) <= quad S0 (u j)) ->
    total_of (pivots S l) <= sumR l (fun j => quad S0 (u j)).
  Proof using.
    intros u l. induction l as [|a l IH]; intros done S S0 Sy HP Hl U1 Z HU HQ; [cbn [pivots total_of fold_right sumR]; lra|].
    cbn [pivots total_of fold_right sumR]. fold (total_of (pivots (elim S a) l)).
    cbn [pivots] in HP. rewrite pos_cons in HP. destruct HP as [Pa HP].
    apply Rplus_le_compat.
    - rewrite <- (quad_point S a (u a)); auto; [apply Hl; left; auto|].
      intros i Hi N Hu. apply Z. specialize (HU [] a l eq_refl i Hi N Hu). rewrite app_nil_r in HU. auto.
    - apply (IH (a :: done)); auto.
      + apply sym_elim; auto.
      + intros; apply Hl; right; auto.
      + intros i [<-|Hi] k; [apply elim_zero; auto|apply elim_zero_keep; auto].
      + intros l1 j l2 E i Hi N Hu. specialize (HU (a :: l1) j l2). simpl in HU. rewrite E in HU. specialize (HU eq_refl i Hi N Hu).
        apply in_app_or in HU. destruct HU as [H|[H|H]]; [|left; auto|]; right; apply in_or_app; auto.
      + intro j. pose proof (quad_elim S a (u j) Sy Pa). pose proof (HQ j). lra.
  Qed.
End Lower.

Lemma lnsum_const : forall v (l : list nat), lnsum (map (fun _ => v) l) = INR (length l) * ln v.
Proof. intros v l. induction l as [|a l IH]; [simpl; ring|]. cbn [map lnsum fold_right length]. unfold lnsum in IH. rewrite IH, S_INR. ring. Qed.

Lemma pivots_length : forall l S, length (pivots S l) = length l.
Proof. induction l; simpl; auto. Qed.

(** A list of all variables in which every edge goes forward. *)
Definition forward (d : nat) (W : nat -> nat -> R) (l : list nat) : Prop :=
  Permutation l (seq 0 d) /\ forall l1 a l2, l = l1 ++ a :: l2 -> forall i, (i < d)%nat -> W i a <> 0 -> In i l1.

Lemma forward_exists : forall d W, acyclic (weighted d W) -> exists l, forward d W l.
Proof.
  intros d W A. set (adj := fun u v => if Req_EM_T (W u v) 0 then false else true).
  assert (forall x y, weighted d W x y <-> NxFacts.E d adj x y) as EQ.
  { intros x y. unfold weighted, NxFacts.E, adj. destruct (Req_EM_T (W x y) 0); split; intuition congruence. }
  destruct (NxFacts.topological_sort_ok d adj) as [[_ [l [_ [P T]]]]|[N _]].
  - exists l. split; auto. intros l1 a l2 E i Hi H. apply (T l1 a l2 E i). apply EQ. unfold weighted. repeat split; auto.
    assert (In a (seq 0 d)) as I by (apply (Permutation_in _ P); rewrite E; apply in_or_app; right; left; auto).
    apply in_seq in I. lia.
  - exfalso. apply N. intros u C. apply (A u). revert C. apply RelExt.dpath1_ext1. intros; apply iff_sym, EQ.
Qed.

Lemma forward_acyclic : forall d V W l, forward d V l -> forward d W l -> acyclic (fun u v => weighted d V u v \/ weighted d W u v).
Proof.
  intros d V W l [P H] [_ H'].
  assert (ND : NoDup l) by (apply (Permutation_NoDup (Permutation_sym P)), seq_NoDup).
  apply (rank_acyclic _ (fun x => FinGraph.index_of x l)).
  assert (forall M, (forall l1 a l2, l = l1 ++ a :: l2 -> forall i, (i < d)%nat -> M i a <> 0 -> In i l1) ->
    forall u v, weighted d M u v -> (FinGraph.index_of u l < FinGraph.index_of v l)%nat) as K.
  { intros M HM u v [Hu [Hv Huv]].
    assert (In v l) as Iv by (apply (Permutation_in _ (Permutation_sym P)), in_seq; lia).
    destruct (in_split v l Iv) as [l1 [l2 Q]]. specialize (HM l1 v l2 Q u Hu Huv). rewrite Q.
    rewrite FinGraph.index_of_app. apply FinGraph.index_of_prefix; auto.
    rewrite Q in ND. apply NoDup_remove_2 in ND. intro X. apply ND. apply in_app_iff. auto. }
  intros u v [X|X]; [apply (K V)|apply (K W)]; auto.
Qed.

Section Equal.
  Variable d : nat.
  Variables W B X : nat -> nat -> R.
  Variable sigma c : R.
  Hypothesis Hd : (0 < d)%nat.
  Hypothesis Hc : c * c = INR d.
  Hypothesis Hs : 0 < sigma.
  Hypothesis AW : acyclic (weighted d W).
  Hypothesis AB : acyclic (weighted d B).
  Hypothesis HX : forall r j, (r < d)%nat -> (j < d)%nat -> X r j = c * sigma * effect d W r j.

  Let T := effect d W.
  Let v := sigma * sigma.
  Let S0 := cov_of T v (seq 0 d).
  Let u (j i : nat) : R := if Nat.eqb j i then 1 else - B i j.

  Lemma vpos : 0 < v.
  Proof. unfold v. apply Rmult_lt_0_compat; auto. Qed.

  Lemma no_loop : forall V, acyclic (weighted d V) -> forall j, (j < d)%nat -> V j j = 0.
  Proof. intros V A j Hj. destruct (Req_dec (V j j) 0) as [Z|Z]; auto. exfalso. apply (A j). apply (dp1_intro _ j j j); [repeat split; auto|constructor]. Qed.

  Lemma ranked : exists rk, (forall u v, (u < d)%nat -> (v < d)%nat -> W u v <> 0 -> (rk u < rk v)%nat) /\ forall u, (u < d)%nat -> (rk u < d)%nat.
  Proof.
    apply (weighted_rank d (fun u v => W u v <> 0)); auto. intros x y. destruct (Req_EM_T (W x y) 0); [right|left]; auto.
  Qed.

  Lemma risk_quad : risk d X B = sumR (seq 0 d) (fun j => quad d S0 (u j)).
  Proof.
    assert (INR d <> 0) as N by (apply not_0_INR; lia).
    unfold risk. rewrite sum_swap. rewrite <- sum_scal. apply sum_ext. intros j Hj.
    assert (forall r, (r < d)%nat -> X r j - sumRn d (fun i => X r i * B i j) = sumRn d (fun i => u j i * X r i)) as E.
    { intros r Hr. rewrite <- (sum_delta d j (fun i => X r i)) by auto. rewrite <- sum_minus. apply sum_ext. intros i Hi. unfold u.
      destruct (Nat.eqb_spec j i) as [<-|M]; [rewrite (no_loop B AB j Hj)|]; ring. }
    rewrite (sum_ext d _ (fun r => INR d * (v * (sumRn d (fun i => u j i * T r i) * sumRn d (fun i => u j i * T r i))))).
    2:{ intros r Hr. rewrite E by auto.
        rewrite (sum_ext d _ (fun i => c * sigma * (u j i * T r i))) by (intros; rewrite HX by auto; unfold T; ring).
        rewrite sum_scal. unfold Rsqr, v. rewrite <- Hc. ring. }
    rewrite sum_scal.
    unfold quad, S0, cov_of.
    rewrite (sum_ext d (fun i => sumRn d (fun k => u j i * u j k * sumR (seq 0 d) (fun r => v * (T r i * T r k))))
      (fun i => sumRn d (fun r => (v * (u j i * T r i)) * sumRn d (fun k => u j k * T r k)))).
    2:{ intros i Hi. rewrite (sum_ext d _ (fun k => sumRn d (fun r => u j i * u j k * (v * (T r i * T r k))))).
        2:{ intros k Hk. rewrite sum_scal. auto. }
        rewrite sum_swap. apply sum_ext. intros r Hr. rewrite <- sum_scal. apply sum_ext. intros; ring. }
    rewrite sum_swap.
    rewrite (sum_ext d (fun b => sumRn d (fun a => v * (u j a * T b a) * sumRn d (fun k => u j k * T b k)))
      (fun r => v * (sumRn d (fun i => u j i * T r i) * sumRn d (fun i => u j i * T r i)))).
    2:{ intros r Hr. rewrite sum_scalr, sum_scal. ring. }
    field. auto.
  Qed.

  Lemma T_diag : forall r, (r < d)%nat -> T r r = 1.
  Proof.
    intros r Hr. destruct ranked as [rk [U L]]. unfold T. rewrite (effect_step d W rk U L) by auto. rewrite Nat.eqb_refl, sum_zero; [ring|].
    intros i Hi. destruct (Req_dec (effect d W r i) 0) as [Z|Z]; [rewrite Z; ring|].
    destruct (Req_dec (W i r) 0) as [Y|Y]; [rewrite Y; ring|].
    pose proof (effect_rank d W rk U r i Hr Hi Z). pose proof (U i r Hi Hr Y). lia.
  Qed.

  (** In a forward order later variables have no effect on earlier ones. *)
  Lemma T_forward : forall l, forward d W l -> forall l1 a l2, l = l1 ++ a :: l2 -> forall r, In r l2 -> T r a = 0.
  Proof.
    intros l [P H] l1 a l2 E r Hr.
    assert (ND : NoDup l) by (apply (Permutation_NoDup (Permutation_sym P)), seq_NoDup).
    assert (B1 : forall x, In x l -> (x < d)%nat) by (intros x Hx; apply (Permutation_in _ P) in Hx; apply in_seq in Hx; lia).
    assert (Hrd : (r < d)%nat) by (apply B1; rewrite E; apply in_or_app; right; right; auto).
    assert (forall l1 a l2, l = l1 ++ a :: l2 -> forall k, In r (a :: l2) -> r = a \/ along d W k r a = 0) as G.
    { clear l1 a l2 E Hr. intro l1. induction l1 as [l1 IH] using (well_founded_induction (Wf_nat.well_founded_ltof _ (@length nat))).
      intros a l2 E k Hr. destruct (Nat.eq_dec r a) as [->|N]; auto. right. destruct Hr as [Hr|Hr]; [congruence|].
      destruct k as [|k]; simpl; [destruct (Nat.eqb_spec r a); [congruence|auto]|].
      apply sum_zero. intros i Hi. destruct (Req_dec (W i a) 0) as [Z|Z]; [rewrite Z; ring|].
      specialize (H l1 a l2 E i Hi Z). destruct (in_split i l1 H) as [m1 [m2 Q]].
      assert (E' : l = m1 ++ i :: (m2 ++ a :: l2)) by (rewrite E, Q, <- app_assoc; auto).
      destruct (IH m1 ltac:(unfold ltof; rewrite Q, app_length; simpl; lia) i _ E' k) as [Y|Y].
      - right. apply in_or_app. right. right. auto.
      - exfalso. subst i. rewrite E' in ND. apply NoDup_remove_2 in ND. apply ND. apply in_or_app. right. apply in_or_app. right. right. auto.
      - rewrite Y. ring. }
    unfold T, effect. apply sum_zero. intros k _. destruct (G l1 a l2 E k (or_intror Hr)) as [->|Z]; auto.
    exfalso. rewrite E in ND. apply NoDup_remove_2 in ND. apply ND. apply in_or_app. auto.
  Qed.

  (** Conversely, such an order is a forward order. *)
  Lemma forward_T : forall l, Permutation l (seq 0 d) -> (forall l1 a l2, l = l1 ++ a :: l2 -> forall r, In r l2 -> T r a = 0) -> forward d W l.
  Proof.
    intros l P H. split; auto.
    assert (ND : NoDup l) by (apply (Permutation_NoDup (Permutation_sym P)), seq_NoDup).
    assert (B1 : forall x, In x l <-> (x < d)%nat).
    { intros x. split; intro Hx; [apply (Permutation_in _ P) in Hx; apply in_seq in Hx; lia|].
      apply (Permutation_in _ (Permutation_sym P)), in_seq. lia. }
    destruct ranked as [rk [U L]].
    assert (forall l1 a l2, l = l1 ++ a :: l2 -> forall r, In r l2 -> W r a = 0) as G.
    { intro l1. induction l1 as [l1 IH] using (well_founded_induction (Wf_nat.well_founded_ltof _ (@length nat))).
      intros a l2 E r Hr.
      assert (Ha : (a < d)%nat) by (apply B1; rewrite E; apply in_or_app; right; left; auto).
      assert (Hrd : (r < d)%nat) by (apply B1; rewrite E; apply in_or_app; right; right; auto).
      assert (Na : r <> a) by (intros ->; rewrite E in ND; apply NoDup_remove_2 in ND; apply ND; apply in_or_app; auto).
      destruct (effect_inverse d W rk U L r a Hrd Ha) as [I _]. fold T in I.
      destruct (Nat.eqb_spec r a) as [|_]; [contradiction|].
      rewrite (sum_ext d _ (fun i => (if Nat.eqb a i then 1 else 0) * (- W r i * T i i))) in I.
      - rewrite (sum_delta d a (fun i => - W r i * T i i)) in I by auto. rewrite (T_diag a Ha) in I. lra.
      - intros i Hi. unfold eye_less. destruct (Nat.eqb_spec a i) as [<-|N1].
        + destruct (Nat.eqb_spec r a); [contradiction|]. ring.
        + assert (In i l) as Ii by (apply B1; auto). rewrite E in Ii. apply in_app_or in Ii. destruct Ii as [Ii|[Ii|Ii]]; [|congruence|].
          * destruct (in_split i l1 Ii) as [m1 [m2 Q]].
            assert (E' : l = m1 ++ i :: (m2 ++ a :: l2)) by (rewrite E, Q, <- app_assoc; auto).
            assert (W r i = 0) as ->.
            { apply (IH m1 ltac:(unfold ltof; rewrite Q, app_length; simpl; lia) i _ E'). apply in_or_app. right. right. auto. }
            destruct (Nat.eqb_spec r i) as [->|_]; [|ring].
            exfalso. rewrite E' in ND. apply NoDup_remove_2 in ND. apply ND. apply in_or_app. right. apply in_or_app. right. right. auto.
          * rewrite (H l1 a l2 E i Ii). ring. }
    intros l1 a l2 E i Hi HW. assert (In i l) as Ii by (apply B1; auto). rewrite E in Ii. apply in_app_or in Ii. destruct Ii as [Ii|[Ii|Ii]]; auto.
    - subst a. exfalso. apply HW. apply (no_loop W AW); auto.
    - exfalso. apply HW. apply (G l1 a l2 E i Ii).
  Qed.

  Lemma pivots_any : forall l, Permutation l (seq 0 d) -> pos_all (pivots S0 l) /\ lnsum (pivots S0 l) = INR d * ln v.
  Proof.
    intros l P. destruct (forward_exists d W AW) as [lw F]. pose proof F as [Pw _].
    assert (forall i k, S0 i k = cov_of T v lw i k) as C by (intros; apply cov_perm; apply Permutation_sym; auto).
    assert (pivots S0 lw = map (fun _ => v) lw) as E.
    { rewrite (pivots_ext lw _ _ C). apply pivots_true; [apply vpos| |].
      - intros r Hr. apply T_diag. apply (Permutation_in _ Pw) in Hr. apply in_seq in Hr. lia.
      - apply T_forward. auto. }
    destruct (perm_pivots lw l) with (S := S0) as [H1 H2].
    - transitivity (seq 0 d); auto. apply Permutation_sym; auto.
    - apply cov_sym.
    - rewrite E. intros p Hp. apply in_map_iff in Hp. destruct Hp as [x [<- _]]. apply vpos.
    - split; auto. rewrite <- H2, E, lnsum_const. rewrite (Permutation_length Pw), seq_length. auto.
  Qed.

  Lemma equal_least : INR d * v <= risk d X B /\ (risk d X B = INR d * v -> exists l, forward d W l /\ forward d B l).
  Proof.
    destruct (forward_exists d B AB) as [l F]. pose proof F as [P H]. destruct (pivots_any l P) as [P1 P2].
    pose proof vpos as Hv.
    assert (total_of (pivots S0 l) <= risk d X B) as R1.
    { rewrite risk_quad. rewrite (sumR_perm (seq 0 d) l) by (apply Permutation_sym; auto).
      apply (risk_pivots d u l [] S0 S0); auto.
      - apply cov_sym.
      - intros j Hj. apply (Permutation_in _ P) in Hj. apply in_seq in Hj. lia.
      - intro j. unfold u. rewrite Nat.eqb_refl. auto.
      - intros i [].
      - intros l1 j l2 E i Hi N Hu. simpl. apply (H l1 j l2 E i Hi). unfold u in Hu.
        destruct (Nat.eqb_spec j i); [congruence|]. intro Z. apply Hu. rewrite Z. ring.
      - intro j. lra. }
    destruct (mean_ineq v (pivots S0 l) Hv P1) as [M1 M2].
    rewrite pivots_length, (Permutation_length P), seq_length, P2 in M1, M2.
    assert (INR d <= total_of (pivots S0 l) / v) as M3 by lra.
    assert (INR d * v <= total_of (pivots S0 l)) as M4.
    { apply (Rmult_le_compat_r v) in M3; [|lra]. replace (total_of (pivots S0 l) / v * v) with (total_of (pivots S0 l)) in M3 by (field; lra). auto. }
    split; [lra|]. intro EQ. exists l. split; auto. apply forward_T; auto.
    assert (total_of (pivots S0 l) = INR d * v) as ET by lra.
    assert (forall i k, S0 i k = cov_of T v l i k) as C by (intros; apply cov_perm; apply Permutation_sym; auto).
    apply (pivots_order T v Hv).
    - intros r Hr. apply T_diag. apply (Permutation_in _ P) in Hr. apply in_seq in Hr. lia.
    - rewrite <- (pivots_ext l _ _ C). apply M2. rewrite ET. field. lra.
  Qed.
End Equal.
