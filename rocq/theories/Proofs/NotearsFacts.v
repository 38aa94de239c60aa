(** The acyclicity penalty: sign, zeros and gradient. *)

From Coq Require Import List Arith Bool Lia QArith Qabs Lqa Permutation.
From Verif Require Import Model.SHP Model.Matrix Model.Notears Spec.Sums Spec.Digraphs.
From Verif Require Import Proofs.SimFacts Proofs.MatrixFacts Proofs.FinGraph.
Import ListNotations.
Open Scope nat_scope.

Lemma qnat_pos : forall d, 0 < d -> (0 < qnat d)%Q.
Proof. intros d H. unfold qnat. replace 0%Q with (inject_Z 0) by reflexivity. rewrite <- Zlt_Qlt. lia. Qed.

Lemma Qdiv_nonneg : forall a d, 0 < d -> (0 <= a)%Q -> (0 <= a / qnat d)%Q.
Proof. intros a d Hd Ha. apply Qle_shift_div_l; [apply qnat_pos; auto|]. lra. Qed.

Lemma Qdiv_pos : forall a d, 0 < d -> (0 < a)%Q -> (0 < a / qnat d)%Q.
Proof. intros a d Hd Ha. apply Qlt_shift_div_l; [apply qnat_pos; auto|]. lra. Qed.

Lemma Qsq_nonneg : forall x : Q, (0 <= x * x)%Q.
Proof. intro x. nra. Qed.

Lemma Qsq_zero : forall x : Q, (x * x == 0)%Q -> (x == 0)%Q.
Proof. intros x H. destruct (Qmult_integral _ _ H); auto. Qed.

Lemma Qpos_of_nonneg : forall x : Q, (0 <= x)%Q -> ~ (x == 0)%Q -> (0 < x)%Q.
Proof. intros x H N. destruct (Qlt_le_dec 0 x); auto. exfalso. apply N. apply Qle_antisym; auto. Qed.

(** [(E.T * M).sum()] is the trace of the product. *)
Lemma penalty_trace : forall d A, 0 < d -> (penalty d A == mtrace d (mpow d (penalty_matrix d A) d) - qnat d)%Q.
Proof.
  intros d A Hd. unfold penalty. set (M := penalty_matrix d A).
  assert (Q : (msum d (fun i => msum d (fun j => mmul (mT (mpow d M (d - 1))) M i j)) == mtrace d (mpow d M d))%Q).
  2:{ rewrite Q. reflexivity. }
  rewrite msum_sumQ, mtrace_sumQ.
  rewrite (sumQ_ext d _ (fun i => sumQ d (fun j => M i j * mpow d M (d - 1) j i)%Q)).
  2:{ intros i Hi. rewrite msum_sumQ. apply sumQ_ext. intros j Hj. unfold mmul, mT. ring. }
  destruct d as [|d]; [lia|]. cbn [mpow]. replace (S d - 1) with d by lia.
  apply sumQ_ext. intros i Hi. rewrite mdot_sumQ. reflexivity.
Qed.

Lemma last_indep : forall (l : list nat) x a b, last (x :: l) a = last (x :: l) b.
Proof. induction l as [|y l IH]; intros x a b; [reflexivity|]. change (last (y :: l) a = last (y :: l) b). apply IH. Qed.

Section Penalty.
  Variables (d : nat) (A : qmat).
  Hypothesis Hd : 0 < d.
  Hypothesis HA : forall i j, i < d -> j < d -> (0 <= A i j)%Q.
  Let M := penalty_matrix d A.
  Let E (u v : nat) : Prop := u < d /\ v < d /\ ~ (A u v == 0)%Q.

  Lemma M_ge_eye : forall i j, i < d -> j < d -> (meye i j <= M i j)%Q.
  Proof.
    intros i j Hi Hj. unfold M, penalty_matrix. pose proof (Qdiv_nonneg (A i j) d Hd (HA i j Hi Hj)). lra.
  Qed.

  Lemma meye_nonneg : forall i j, (0 <= meye i j)%Q.
  Proof. intros. unfold meye. destruct (Nat.eqb i j); lra. Qed.

  Lemma M_nonneg : forall i j, i < d -> j < d -> (0 <= M i j)%Q.
  Proof. intros i j Hi Hj. pose proof (M_ge_eye i j Hi Hj). pose proof (meye_nonneg i j). lra. Qed.

  Lemma mpow_nonneg : forall k i j, i < d -> j < d -> (0 <= mpow d M k i j)%Q.
  Proof.
    induction k as [|k IH]; intros i j Hi Hj; cbn [mpow]; [apply meye_nonneg|].
    rewrite mdot_sumQ. apply sumQ_nonneg. intros l Hl. apply Qmult_le_0_compat; [apply M_nonneg|apply IH]; auto.
  Qed.

  Lemma Mdiag_ge1 : forall i, i < d -> (1 <= M i i)%Q.
  Proof. intros i Hi. pose proof (M_ge_eye i i Hi Hi) as H. unfold meye in H. rewrite Nat.eqb_refl in H. exact H. Qed.

  Lemma mpow_diag_ge1 : forall k i, i < d -> (1 <= mpow d M k i i)%Q.
  Proof.
    induction k as [|k IH]; intros i Hi; cbn [mpow].
    - unfold meye. rewrite Nat.eqb_refl. apply Qle_refl.
    - rewrite mdot_sumQ.
      assert (T : (M i i * mpow d M k i i <= sumQ d (fun l => M i l * mpow d M k l i))%Q).
      { apply (sumQ_ge_term d (fun l => M i l * mpow d M k l i)%Q i); auto.
        intros l Hl. apply Qmult_le_0_compat; [apply M_nonneg|apply mpow_nonneg]; auto. }
      pose proof (Mdiag_ge1 i Hi). pose proof (IH i Hi). nra.
  Qed.

  (** A path of at most [k] edges makes the entry of the power positive. *)
  Lemma mpow_path : forall l k a, a < d -> chain E (a :: l) -> length l <= k -> (0 < mpow d M k a (last (a :: l) a))%Q.
  Proof.
    induction l as [|b l IH]; intros k a Ha C L.
    - simpl. pose proof (mpow_diag_ge1 k a Ha). lra.
    - destruct k as [|k]; [simpl in L; lia|]. inversion C; subst. destruct H1 as [_ [Hb NZ]].
      assert (Lst : last (a :: b :: l) a = last (b :: l) b).
      { change (last (a :: b :: l) a) with (last (b :: l) a). apply last_indep. }
      rewrite Lst. cbn [mpow]. rewrite mdot_sumQ.
      assert (Hl : last (b :: l) b < d).
      { clear -C Hb. assert (C' : chain E (b :: l)) by (inversion C; auto). clear C. revert b Hb C'.
        induction l as [|c l IH]; intros b Hb C; simpl; auto. inversion C; subst.
        destruct l as [|e l]; [destruct H1 as [_ [Hc _]]; auto|]. destruct H1 as [_ [Hc _]]. specialize (IH c Hc H3).
        change (last (e :: l) b < d). change (last (e :: l) c < d) in IH.
        rewrite (last_indep l e b c). auto. }
      apply (sumQ_pos d _ b); auto.
      + intros x Hx. apply Qmult_le_0_compat; [apply M_nonneg|apply mpow_nonneg]; auto.
      + apply Qmult_lt_0_compat.
        * unfold M, penalty_matrix. pose proof (meye_nonneg a b).
          pose proof (Qdiv_pos (A a b) d Hd (Qpos_of_nonneg _ (HA a b Ha Hb) NZ)). lra.
        * apply IH; auto. simpl in L. lia.
  Qed.

  (** Paths can be taken without repetitions. *)
  Lemma simple_chain : forall a b, dpath E a b -> exists l, chain E (a :: l) /\ last (a :: l) a = b /\ NoDup (a :: l).
  Proof.
    intros a b H. induction H as [u|u v w He H IH].
    - exists []. split; [constructor|]. split; auto. constructor; [intros []|constructor].
    - destruct IH as [l [C [L N]]]. destruct (in_dec Nat.eq_dec u (v :: l)) as [I|I].
      + apply in_split in I. destruct I as [l1 [l2 Eq]]. exists l2. split; [|split].
        * apply (chain_suffix E l1); [rewrite <- Eq; auto|discriminate].
        * rewrite <- L. rewrite Eq. clear. generalize v as z. induction l1 as [|x l1 IH]; intro z.
          -- apply last_indep.
          -- rewrite (IH z). simpl app. destruct (l1 ++ u :: l2) eqn:Q; [destruct l1; discriminate|].
             change (last (n :: l) z = last (n :: l) z). reflexivity.
        * rewrite Eq in N. clear -N. induction l1; simpl in *; auto. inversion N; auto.
      + exists (v :: l). split; [constructor; auto|]. split.
        * rewrite <- L. change (last (u :: v :: l) u) with (last (v :: l) u). apply last_indep.
        * constructor; auto.
  Qed.

  Lemma chain_bound : forall l a, a < d -> chain E (a :: l) -> forall x, In x (a :: l) -> x < d.
  Proof.
    induction l as [|b l IH]; intros a Ha C x [<-|Hx]; auto; [destruct Hx|].
    inversion C; subst. destruct H1 as [_ [Hb _]]. eapply IH; eauto.
  Qed.

  Lemma penalty_nonneg : (0 <= penalty d A)%Q.
  Proof.
    rewrite penalty_trace by auto. rewrite mtrace_sumQ.
    assert (H : (sumQ d (fun _ => 1) <= sumQ d (fun i => mpow d (penalty_matrix d A) d i i))%Q).
    { apply sumQ_le. intros i Hi. apply mpow_diag_ge1. auto. }
    rewrite sumQ_const in H. fold (qnat d) in H. lra.
  Qed.

  Lemma penalty_pos : forall u, dpath1 E u u -> (0 < penalty d A)%Q.
  Proof.
    intros u C. rewrite penalty_trace by auto. rewrite mtrace_sumQ. fold M.
    assert (S : (0 < sumQ d (fun i => mpow d M d i i - 1))%Q).
    2:{ rewrite sumQ_sub, sumQ_const in S. fold (qnat d) in S. lra. }
    inversion C as [u' v w He Hp]; subst. destruct He as [Hu [Hv NZ]].
    apply (sumQ_pos d _ u); auto.
    { intros i Hi. pose proof (mpow_diag_ge1 d i Hi). lra. }
    assert (Auv : (0 < A u v)%Q) by (apply Qpos_of_nonneg; auto).
    assert (Ed : exists n, d = S n) by (exists (d - 1); lia). destruct Ed as [n Ed].
    assert (EM : mpow d M d = mdot d M (mpow d M n)).
    { transitivity (mpow d M (S n)); [f_equal; exact Ed|reflexivity]. }
    rewrite EM, mdot_sumQ.
    destruct (simple_chain v u Hp) as [l [Ch [L N]]].
    assert (Len : length l <= n).
    { assert (I : incl (v :: l) (seq 0 d)).
      { intros x Hx. apply in_seq. pose proof (chain_bound l v Hv Ch x Hx). lia. }
      pose proof (NoDup_incl_length N I) as Q. rewrite seq_length in Q. simpl in Q. lia. }
    pose proof (mpow_path l n v Hv Ch Len) as P. rewrite L in P.
    assert (T : forall x, x < d -> (0 <= M u x * mpow d M n x u)%Q).
    { intros x Hx. apply Qmult_le_0_compat; [apply M_nonneg|apply mpow_nonneg]; auto. }
    assert (Du : (1 <= mpow d M n u u)%Q) by (apply mpow_diag_ge1; auto).
    assert (Mu : (1 <= M u u)%Q) by (apply Mdiag_ge1; auto).
    assert (Muv : (meye u v + A u v / qnat d == M u v)%Q) by reflexivity.
    pose proof (Qdiv_pos (A u v) d Hd Auv) as Dp.
    destruct (Nat.eq_dec v u) as [->|NE].
    - pose proof (sumQ_ge_term d (fun x => M u x * mpow d M n x u)%Q u T Hu) as G. simpl in G.
      unfold meye in Muv. rewrite Nat.eqb_refl in Muv. nra.
    - (* split off the terms of [u] and [v] *)
      assert (S2 : (M u u * mpow d M n u u + M u v * mpow d M n v u <= sumQ d (fun x => M u x * mpow d M n x u))%Q).
      { set (f := fun x => (M u x * mpow d M n x u)%Q) in *. change (f u + f v <= sumQ d f)%Q.
        rewrite (sumQ_ext d f (fun x => (if Nat.eqb x u then f u else 0) + (if Nat.eqb x u then 0 else f x))%Q).
        2:{ intros x Hx. destruct (Nat.eqb_spec x u); [subst; ring|ring]. }
        rewrite sumQ_add, sumQ_single by auto.
        assert (G : (f v <= sumQ d (fun x => if Nat.eqb x u then 0 else f x))%Q).
        { eapply Qle_trans; [|apply (sumQ_ge_term d (fun x => if Nat.eqb x u then 0 else f x)%Q v); auto].
          - destruct (Nat.eqb_spec v u); [congruence|apply Qle_refl].
          - intros x Hx. destruct (Nat.eqb x u); [apply Qle_refl|apply T; auto]. }
        lra. }
      assert (Mv : (0 < M u v)%Q) by (rewrite <- Muv; pose proof (meye_nonneg u v); lra).
      assert (0 < M u v * mpow d M n v u)%Q by (apply Qmult_lt_0_compat; auto). nra.
  Qed.

  Lemma penalty_zero : acyclic E -> (penalty d A == 0)%Q.
  Proof.
    intro Ac. rewrite penalty_trace by auto. rewrite mtrace_sumQ. fold M.
    destruct (rank_fun E) with (S := seq 0 d) as [f F]; auto.
    { intros u v. unfold E. destruct (lt_dec u d), (lt_dec v d), (Qeq_dec (A u v) 0); try (right; intros [? [? ?]]; tauto); auto. }
    { apply seq_NoDup. }
    assert (FE : forall u v, u < d -> v < d -> ~ (A u v == 0)%Q -> f u < f v).
    { intros u v Hu Hv NZ. apply F; [apply in_seq; lia|apply in_seq; lia|]. unfold E. auto. }
    assert (Md : forall u, u < d -> (M u u == 1)%Q).
    { intros u Hu. unfold M, penalty_matrix, meye. rewrite Nat.eqb_refl.
      destruct (Qeq_dec (A u u) 0) as [Z|NZ]; [rewrite Z; unfold Qdiv; ring|].
      exfalso. pose proof (FE u u Hu Hu NZ). lia. }
    assert (Mo : forall u v, u < d -> v < d -> u <> v -> f v <= f u -> (M u v == 0)%Q).
    { intros u v Hu Hv N L. unfold M, penalty_matrix, meye. destruct (Nat.eqb_spec u v); [congruence|].
      destruct (Qeq_dec (A u v) 0) as [Z|NZ]; [rewrite Z; unfold Qdiv; ring|].
      exfalso. pose proof (FE u v Hu Hv NZ). lia. }
    assert (P : forall k u v, u < d -> v < d ->
      (u = v -> (mpow d M k u v == 1)%Q) /\ (u <> v -> f v <= f u -> (mpow d M k u v == 0)%Q)).
    { induction k as [|k IH]; intros u v Hu Hv; cbn [mpow].
      - unfold meye. split; [intros ->; rewrite Nat.eqb_refl; reflexivity|].
        intros N _. destruct (Nat.eqb_spec u v); [congruence|reflexivity].
      - rewrite mdot_sumQ. split.
        + intros ->. rewrite (sumQ_ext d _ (fun x => if Nat.eqb x v then 1%Q else 0%Q)); [apply sumQ_single; auto|].
          intros x Hx. destruct (Nat.eqb_spec x v) as [->|N].
          * rewrite Md by auto. rewrite (proj1 (IH v v Hv Hv)) by auto. ring.
          * destruct (le_lt_dec (f x) (f v)) as [L|L].
            -- rewrite (Mo v x) by auto. ring.
            -- rewrite (proj2 (IH x v Hx Hv)) by (auto; lia). ring.
        + intros N L. rewrite (sumQ_ext d _ (fun _ => 0%Q)); [apply sumQ_zero|].
          intros x Hx. destruct (Nat.eq_dec x u) as [->|Nu].
          * rewrite (proj2 (IH u v Hu Hv)) by auto. ring.
          * destruct (le_lt_dec (f x) (f u)) as [Lx|Lx]; [rewrite (Mo u x) by auto; ring|].
            rewrite (proj2 (IH x v Hx Hv)); [ring|intros ->; lia|lia]. }
    rewrite (sumQ_ext d _ (fun _ => 1%Q)); [rewrite sumQ_const; fold (qnat d); ring|].
    intros i Hi. apply (P d i i Hi Hi). auto.
  Qed.

  Lemma penalty_zero_iff : (penalty d A == 0)%Q <-> acyclic E.
  Proof.
    split; [|apply penalty_zero]. intros H u C. pose proof (penalty_pos u C). lra.
  Qed.
End Penalty.

Lemma sum_squares_nonzero : forall n f, ~ (msum n (fun m => f m * f m)%Q == 0)%Q <-> exists m, m < n /\ ~ (f m == 0)%Q.
Proof.
  intros n f. rewrite msum_sumQ. split.
  - induction n as [|n IH]; simpl; intro H; [exfalso; apply H; reflexivity|].
    destruct (Qeq_dec (f n) 0) as [Z|NZ]; [|exists n; split; auto].
    destruct IH as [m [Hm N]]; [|exists m; split; auto]. intro C. apply H. rewrite C, Z. ring.
  - intros [m [Hm N]] C. assert (0 < sumQ n (fun m => f m * f m))%Q; [|lra].
    apply (sumQ_pos n _ m); auto; [intros; apply Qsq_nonneg|].
    apply Qpos_of_nonneg; [apply Qsq_nonneg|]. intro Z. apply N. apply Qsq_zero. auto.
Qed.
