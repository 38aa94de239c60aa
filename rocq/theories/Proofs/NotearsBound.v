(** A cycle of heavy edges makes the penalty large. *)

From Coq Require Import List Arith Bool Lia QArith Qabs Lqa Qpower.
From Verif Require Import Model.Py Model.SHP Model.Matrix Model.Notears Spec.Sums Spec.Digraphs.
From Verif Require Import Proofs.SimFacts Proofs.MatrixFacts Proofs.NotearsFacts Proofs.RelExt Proofs.FinGraph.
Import ListNotations.
Open Scope nat_scope.

Fixpoint qpow (c : Q) (n : nat) : Q := match n with 0 => 1%Q | S m => (c * qpow c m)%Q end.

Lemma qpow_power : forall c n, (qpow c n == Qpower c (Z.of_nat n))%Q.
Proof.
  induction n as [|n IH]; [reflexivity|]. rewrite Nat2Z.inj_succ, <- Z.add_1_r.
  cbn [qpow]. rewrite IH. destruct n as [|n]; [simpl; ring|].
  rewrite Qpower_plus' by lia. simpl (Qpower c 1). ring.
Qed.

Lemma qpow_nonneg : forall c n, (0 <= c)%Q -> (0 <= qpow c n)%Q.
Proof. induction n; simpl; intros; [lra|]. apply Qmult_le_0_compat; auto. Qed.

Lemma qpow_le : forall c m n, (0 <= c)%Q -> (c <= 1)%Q -> m <= n -> (qpow c n <= qpow c m)%Q.
Proof.
  intros c m n H0 H1 L. induction L; [apply Qle_refl|]. simpl. pose proof (qpow_nonneg c m0 H0). nra.
Qed.

Section Bound.
  Variables (d : nat) (A : qmat) (t : Q).
  Hypothesis Hd : 0 < d.
  Hypothesis HA : forall i j, i < d -> j < d -> (0 <= A i j)%Q.
  Hypothesis Ht : (0 <= t)%Q.
  Let M := penalty_matrix d A.
  Let c := (t / qnat d)%Q.
  Let heavy (u v : nat) : Prop := u < d /\ v < d /\ (t <= A u v)%Q.

  Lemma c_nonneg : (0 <= c)%Q.
  Proof using Hd Ht. apply Qdiv_nonneg; auto. Qed.

  Lemma heavy_M : forall u v, heavy u v -> (meye u v + c <= M u v)%Q.
  Proof using Hd.
    intros u v [Hu [Hv L]]. unfold M, penalty_matrix, c. pose proof (qnat_pos d Hd).
    assert (t / qnat d <= A u v / qnat d)%Q; [|lra]. unfold Qdiv. apply Qmult_le_compat_r; auto. apply Qlt_le_weak, Qinv_lt_0_compat. auto.
  Qed.

  Lemma heavy_last : forall l a, a < d -> chain heavy (a :: l) -> last (a :: l) a < d.
  Proof.
    induction l as [|b l IH]; intros a Ha C; [auto|]. inversion C; subst. destruct H1 as [_ [Hb _]].
    change (last (a :: b :: l) a) with (last (b :: l) a). rewrite (last_indep l b a b). auto.
  Qed.

  Lemma mpow_heavy : forall l n a, a < d -> chain heavy (a :: l) -> length l <= n ->
    (qpow c (length l) <= mpow d M n a (last (a :: l) a))%Q.
  Proof using Hd HA Ht.
    induction l as [|b l IH]; intros n a Ha C L.
    - simpl. apply (mpow_diag_ge1 d A Hd HA n a Ha).
    - destruct n as [|n]; [simpl in L; lia|]. inversion C; subst. assert (Hb : b < d) by (destruct H1 as [_ [Hb _]]; auto).
      change (last (a :: b :: l) a) with (last (b :: l) a). rewrite (last_indep l b a b).
      pose proof (heavy_last l b Hb H3) as HL. set (z := last (b :: l) b) in *.
      cbn [mpow]. rewrite mdot_sumQ.
      pose proof (IH n b Hb H3 ltac:(simpl in L; lia)) as IHb. fold z in IHb. pose proof (heavy_M a b H1) as HM.
      pose proof (meye_nonneg a b) as ME. pose proof c_nonneg as C0. pose proof (qpow_nonneg c (length l) C0) as P0.
      assert (G : (M a b * mpow d M n b z <= sumQ d (fun x => M a x * mpow d M n x z))%Q).
      { apply (sumQ_ge_term d (fun x => M a x * mpow d M n x z)%Q b); auto.
        intros x Hx. apply Qmult_le_0_compat; [apply (M_nonneg d A Hd HA)|apply (mpow_nonneg d A Hd HA)]; auto. }
      cbn [length qpow]. set (p := qpow c (length l)) in *. set (m := mpow d M n b z) in *.
      assert (c * p <= M a b * m)%Q; [|lra]. assert (c <= M a b)%Q by lra. nra.
  Qed.

  (** Once around the cycle. *)
  Lemma mpow_cycle : forall l n u v, heavy u v -> chain heavy (v :: l) -> last (v :: l) v = u -> length l <= n ->
    (1 + qpow c (S (length l)) <= mpow d M (S n) u u)%Q.
  Proof using Hd HA Ht.
    intros l n u v Huv C L Ln. assert (Hu : u < d) by (destruct Huv; auto). assert (Hv : v < d) by (destruct Huv as [_ [H _]]; auto).
    pose proof (mpow_heavy l n v Hv C Ln) as P. rewrite L in P. pose proof c_nonneg as C0. pose proof (qpow_nonneg c (length l) C0) as P0.
    pose proof (heavy_M u v Huv) as HM. pose proof (meye_nonneg u v) as ME.
    assert (Du : (1 <= mpow d M n u u)%Q) by (apply (mpow_diag_ge1 d A Hd HA); auto).
    assert (Mu : (1 <= M u u)%Q) by (apply (Mdiag_ge1 d A Hd HA); auto).
    assert (T : forall x, x < d -> (0 <= M u x * mpow d M n x u)%Q).
    { intros x Hx. apply Qmult_le_0_compat; [apply (M_nonneg d A Hd HA)|apply (mpow_nonneg d A Hd HA)]; auto. }
    cbn [mpow qpow]. rewrite mdot_sumQ. set (p := qpow c (length l)) in *.
    destruct (Nat.eq_dec v u) as [->|NE].
    - pose proof (sumQ_ge_term d (fun x => M u x * mpow d M n x u)%Q u T Hu) as G. cbv beta in G.
      unfold meye in HM. rewrite Nat.eqb_refl in HM. set (m := mpow d M n u u) in *.
      assert (1 + c * p <= M u u * m)%Q; [|lra]. nra.
    - assert (S2 : (M u u * mpow d M n u u + M u v * mpow d M n v u <= sumQ d (fun x => M u x * mpow d M n x u))%Q).
      { set (f := fun x => (M u x * mpow d M n x u)%Q) in *. change (f u + f v <= sumQ d f)%Q.
        rewrite (sumQ_ext d f (fun x => (if Nat.eqb x u then f u else 0) + (if Nat.eqb x u then 0 else f x))%Q).
        2:{ intros x Hx. destruct (Nat.eqb_spec x u); [subst; ring|ring]. }
        rewrite sumQ_add, sumQ_single by auto.
        assert (G : (f v <= sumQ d (fun x => if Nat.eqb x u then 0 else f x))%Q).
        { eapply Qle_trans; [|apply (sumQ_ge_term d (fun x => if Nat.eqb x u then 0 else f x)%Q v); auto].
          - destruct (Nat.eqb_spec v u); [congruence|apply Qle_refl].
          - intros x Hx. destruct (Nat.eqb x u); [apply Qle_refl|apply T; auto]. }
        lra. }
      set (m := mpow d M n v u) in *. set (m' := mpow d M n u u) in *. assert (c <= M u v)%Q by lra.
      assert (c * p <= M u v * m)%Q by nra. nra.
  Qed.

  Lemma penalty_heavy : forall u, dpath1 heavy u u -> (t <= qnat d)%Q -> (qpow c d <= penalty d A)%Q.
  Proof using Hd HA Ht.
    intros u C Hc. rewrite penalty_trace by auto. rewrite mtrace_sumQ. fold M.
    inversion C as [u' v w He Hp]; subst. assert (Hu : u < d) by (destruct He; auto). assert (Hv : v < d) by (destruct He as [_ [H _]]; auto).
    set (A' := fun x y => if Qle_bool t (A x y) then 1%Q else 0%Q).
    assert (HE : forall x y, heavy x y <-> (x < d /\ y < d /\ ~ (A' x y == 0)%Q)).
    { intros x y. unfold heavy, A'. destruct (Qle_bool t (A x y)) eqn:Q.
      - apply Qle_bool_iff in Q. split; intros [H1 [H2 H3]]; repeat split; auto. discriminate.
      - split; intros [H1 [H2 H3]]; repeat split; auto.
        + apply Qle_bool_iff in H3. congruence.
        + exfalso. apply H3. reflexivity. }
    destruct (simple_chain d A' v u) as [l [Ch [L N]]]; [apply (dpath_ext1 heavy); auto|].
    assert (Len : length l <= d - 1).
    { assert (I : incl (v :: l) (seq 0 d)).
      { intros x Hx. apply in_seq. pose proof (chain_bound d A' l v Hv Ch x Hx). lia. }
      pose proof (NoDup_incl_length N I) as Q. rewrite seq_length in Q. simpl in Q. lia. }
    assert (Ch' : chain heavy (v :: l)).
    { clear -Ch HE. set (q := v :: l) in *. clearbody q. induction Ch; [constructor|]. constructor; auto. apply HE; auto. }
    pose proof (mpow_cycle l (d - 1) u v He Ch' L Len) as P. replace (S (d - 1)) with d in P by lia.
    assert (c <= 1)%Q as C1.
    { unfold c. apply Qle_shift_div_r; [apply qnat_pos; auto|]. lra. }
    pose proof (qpow_le c (S (length l)) d c_nonneg C1 ltac:(lia)) as PL.
    assert (S : (qpow c d <= sumQ d (fun i => mpow d M d i i - 1))%Q).
    { eapply Qle_trans; [|apply (sumQ_ge_term d (fun i => mpow d M d i i - 1)%Q u); auto].
      - cbv beta. lra.
      - intros i Hi. pose proof (mpow_diag_ge1 d A Hd HA d i Hi). fold M in H. lra. }
    rewrite sumQ_sub, sumQ_const in S. fold (qnat d) in S. lra.
  Qed.
End Bound.
