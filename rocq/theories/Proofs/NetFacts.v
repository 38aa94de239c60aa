(** Facts about the two networks of nonlinear.py. *)

From Coq Require Import List Arith Bool Lia QArith Qabs Lqa.
From Verif Require Import Model.Py Model.SHP Model.Matrix Model.Notears Model.NotearsNet Spec.Sums Spec.Packing.
From Verif Require Import Proofs.SimFacts Proofs.MatrixFacts Proofs.NotearsFacts Proofs.NotearsGrad Proofs.PackFacts.
Import ListNotations.
Open Scope nat_scope.

Lemma flat_map_len : forall {X} (f : nat -> list X) s l, (forall a, In a l -> length (f a) = s) -> length (flat_map f l) = length l * s.
Proof. intros X f s l. induction l as [|a l IH]; intro H; simpl; auto. rewrite app_length, IH by (intros; apply H; simpl; auto). rewrite H by (simpl; auto). auto. Qed.

Lemma flat_map_nth : forall {X} (f : nat -> list X) s z l a b, (forall x, In x l -> length (f x) = s) -> a < length l -> b < s ->
  nth (a * s + b) (flat_map f l) z = nth b (f (nth a l 0)) z.
Proof.
  intros X f s z l. induction l as [|x l IH]; intros a b H Ha Hb; simpl in Ha; [lia|]. simpl.
  assert (length (f x) = s) as Hx by (apply H; simpl; auto). destruct a as [|a].
  - simpl. apply app_nth1. lia.
  - rewrite app_nth2 by (simpl; lia). rewrite Hx. replace (S a * s + b - s) with (a * s + b) by (simpl; lia).
    apply IH; auto; [intros; apply H; simpl; auto|lia].
Qed.

Lemma mlp_bounds_len : forall d m1, length (mlp_bounds d m1) = d * m1 * d.
Proof.
  intros. unfold mlp_bounds. rewrite (flat_map_len _ (m1 * d)); [rewrite seq_length; lia|]. intros j _.
  rewrite (flat_map_len _ d); [rewrite seq_length; auto|]. intros m _. rewrite map_length, seq_length. auto.
Qed.

Lemma mlp_bounds_nth : forall d m1 j m i, j < d -> m < m1 -> i < d ->
  nth ((j * m1 + m) * d + i) (mlp_bounds d m1) (None, None) = if Nat.eqb i j then (Some 0%Q, Some 0%Q) else (Some 0%Q, None).
Proof.
  intros d m1 j m i Hj Hm Hi. unfold mlp_bounds. replace ((j * m1 + m) * d + i) with (j * (m1 * d) + (m * d + i)) by ring.
  assert (m * d + i < m1 * d) as Lt by nia.
  rewrite (flat_map_nth _ (m1 * d)); [|intros x _|rewrite seq_length; auto|auto].
  - replace (nth j (seq 0 d) 0) with j by (rewrite seq_nth; auto). rewrite (flat_map_nth _ d); [|intros x _; rewrite map_length, seq_length; auto|rewrite seq_length; auto|auto].
    set (g := fun c : nat => if Nat.eqb c j then (Some 0%Q, Some 0%Q) else (Some 0%Q, None)).
    rewrite (nth_indep _ (None, None) (g 0)) by (rewrite map_length, seq_length; auto). rewrite (map_nth g), seq_nth by auto. reflexivity.
  - rewrite (flat_map_len _ d); [rewrite seq_length; auto|]. intros y _. rewrite map_length, seq_length. auto.
Qed.

Lemma sobolev_bounds_len : forall d k, length (sobolev_bounds d k) = d * (d * k).
Proof.
  intros. unfold sobolev_bounds. rewrite (flat_map_len _ (d * k)); [rewrite seq_length; lia|]. intros j _.
  rewrite (flat_map_len _ k); [rewrite seq_length; auto|]. intros m _. rewrite map_length, seq_length. auto.
Qed.

Lemma sobolev_bounds_nth : forall d k j i m, j < d -> m < k -> i < d ->
  nth (j * (d * k) + (i * k + m)) (sobolev_bounds d k) (None, None) = if Nat.eqb i j then (Some 0%Q, Some 0%Q) else (Some 0%Q, None).
Proof.
  intros d k j i m Hj Hm Hi. unfold sobolev_bounds. assert (i * k + m < d * k) as Lt by nia.
  rewrite (flat_map_nth _ (d * k)); [|intros x _|rewrite seq_length; auto|auto].
  - replace (nth j (seq 0 d) 0) with j by (rewrite seq_nth; auto). rewrite (flat_map_nth _ k); [|intros x _; rewrite map_length, seq_length; auto|rewrite seq_length; auto|auto].
    replace (nth i (seq 0 d) 0) with i by (rewrite seq_nth; auto). set (v := if Nat.eqb i j then _ else _).
    rewrite (nth_indep _ (None, None) v) by (rewrite map_length, seq_length; auto).
    apply (map_nth (fun _ : nat => v) (seq 0 k) 0 m).
  - rewrite (flat_map_len _ k); [rewrite seq_length; auto|]. intros y _. rewrite map_length, seq_length. auto.
Qed.

Lemma fresh_len : forall init k n b, numel (fresh init k n b) = n.
Proof. intros. unfold numel, fresh. simpl. rewrite map_length, seq_length. auto. Qed.

Lemma free_wf : forall p, p_bounds p = None -> length (bounds_of p) = numel p.
Proof. intros p H. unfold bounds_of. rewrite H. apply repeat_length. Qed.

Lemma fc2_wf : forall bias init d widths k p, In p (fc2_params bias init d k widths) -> length (bounds_of p) = numel p.
Proof.
  intros bias init d widths. induction widths as [|a [|b r] IH]; intros k p H; [destruct H|destruct H|].
  cbn [fc2_params] in H. destruct H as [<-|H]; [apply free_wf; auto|]. apply in_app_or in H. destruct H as [H|H].
  - destruct bias; [|destruct H]. destruct H as [<-|[]]. apply free_wf; auto.
  - eapply IH; eauto.
Qed.

(** The layout of a fresh network. *)
Lemma mlp_init_ok : forall bias init dims ps, mlp_init bias init dims = Ok ps ->
  let d := nth 0 dims 0 in let m1 := nth 1 dims 0 in
  wf ps /\ last dims 0 = 1 /\ 2 <= length dims /\ neg_at bias < length ps /\
  (forall k, k = 0 \/ k = neg_at bias -> numel (par ps k) = d * m1 * d /\ bounds_of (par ps k) = mlp_bounds d m1).
Proof.
  intros bias init dims ps H. unfold mlp_init in H. destruct dims as [|d [|m1 r]]; try discriminate.
  destruct (Nat.eqb_spec (last (d :: m1 :: r) 0) 1) as [L|]; [|discriminate]. cbn zeta. simpl nth.
  split; [|split; [auto|split; [simpl; lia|]]].
  - intros p Hp. destruct bias; inversion H; subst ps; clear H; cbn [app In] in Hp;
      repeat (destruct Hp as [<-|Hp]; [first [apply free_wf; reflexivity|unfold bounds_of; rewrite fresh_len; simpl; apply mlp_bounds_len]|]);
      [exact (fc2_wf true init d (m1 :: r) 4 p Hp)|exact (fc2_wf false init d (m1 :: r) 2 p Hp)].
  - destruct bias; inversion H; subst ps; clear H; (split; [simpl; lia|]); intros k [->| ->]; unfold par; simpl nth; rewrite fresh_len; auto.
Qed.

(** The bounds of both networks can be met, by 0. *)
Lemma zero_feasible : forall b : bool, feasible (if b then (Some 0%Q, Some 0%Q) else (Some 0%Q, None)).
Proof. intros []; exists 0%Q; split; simpl; auto; apply Qle_refl. Qed.

Lemma free_feas : forall p, p_bounds p = None -> forall b, In b (bounds_of p) -> feasible b.
Proof. intros p H b Hb. unfold bounds_of in Hb. rewrite H in Hb. apply repeat_spec in Hb. subst b. exists 0%Q. split; simpl; auto. Qed.

Lemma mlp_bounds_feas : forall d m1 b, In b (mlp_bounds d m1) -> feasible b.
Proof.
  intros d m1 b H. unfold mlp_bounds in H. apply in_flat_map in H. destruct H as [j [_ H]]. apply in_flat_map in H. destruct H as [m [_ H]].
  apply in_map_iff in H. destruct H as [i [<- _]]. apply zero_feasible.
Qed.

Lemma fc2_free : forall bias init d widths k p, In p (fc2_params bias init d k widths) -> p_bounds p = None.
Proof.
  intros bias init d widths. induction widths as [|a [|b r] IH]; intros k p H; [destruct H|destruct H|].
  cbn [fc2_params] in H. destruct H as [<-|H]; auto. apply in_app_or in H. destruct H as [H|H].
  - destruct bias; [|destruct H]. destruct H as [<-|[]]. auto.
  - eapply IH; eauto.
Qed.

Lemma mlp_feas : forall bias init dims ps, mlp_init bias init dims = Ok ps -> feas ps.
Proof.
  intros bias init dims ps H. unfold mlp_init in H. destruct dims as [|d [|m1 r]]; try discriminate.
  destruct (Nat.eqb_spec (last (d :: m1 :: r) 0) 1) as [L|]; [|discriminate]. apply feas_In. intros p b Hp.
  destruct bias; inversion H; subst ps; clear H; cbn [app In] in Hp;
    repeat (destruct Hp as [<-|Hp]; [first [apply free_feas; reflexivity|unfold bounds_of; simpl; apply mlp_bounds_feas]|]);
    apply free_feas; [exact (fc2_free true init d (m1 :: r) 4 p Hp)|exact (fc2_free false init d (m1 :: r) 2 p Hp)].
Qed.

Lemma sobolev_feas : forall d k, feas (sobolev_init d k).
Proof.
  intros d k. apply feas_In. intros p b Hp Hb. simpl in Hp. assert (In b (sobolev_bounds d k)) as H by (destruct Hp as [<-|[<-|[]]]; auto).
  unfold sobolev_bounds in H. apply in_flat_map in H. destruct H as [j [_ H]]. apply in_flat_map in H. destruct H as [m [_ H]].
  apply in_map_iff in H. destruct H as [i [<- _]]. apply zero_feasible.
Qed.

Lemma between_zero : forall x, between (Some 0%Q, Some 0%Q) x -> (x == 0)%Q.
Proof. intros x [H1 H2]. simpl in *. lra. Qed.

Section Trained.
  Variables (bias : bool) (init : nat -> nat -> Q) (dims : list nat) (ps0 ps : list param).
  Hypothesis HI : mlp_init bias init dims = Ok ps0.
  Hypothesis LY : layout ps0 ps.
  Hypothesis IB : in_bounds ps.
  Let d := nth 0 dims 0.
  Let m1 := nth 1 dims 0.

  Lemma row_split : forall r, r < d * m1 -> exists j m, j < d /\ m < m1 /\ r = j * m1 + m.
  Proof.
    intros r Hr. assert (m1 <> 0) by (intro E; rewrite E in Hr; lia). exists (r / m1), (r mod m1). split; [|split].
    - apply Nat.div_lt_upper_bound; auto. lia.
    - apply Nat.mod_upper_bound; auto.
    - rewrite (Nat.div_mod r m1) at 1; auto. lia.
  Qed.

  Lemma fc1_bound : forall k j m i, k = 0 \/ k = neg_at bias -> j < d -> m < m1 -> i < d ->
    (0 <= entry (par ps k) ((j * m1 + m) * d + i))%Q /\ (i = j -> (entry (par ps k) ((j * m1 + m) * d + i) == 0)%Q).
  Proof using HI LY IB.
    intros k j m i Hk Hj Hm Hi. destruct (mlp_init_ok _ _ _ _ HI) as [_ [_ [_ [HN HB]]]]. destruct (HB k Hk) as [N B]. fold d m1 in N, B.
    assert ((j * m1 + m) * d + i < d * m1 * d) as Lt.
    { assert (j * m1 + m < d * m1) by nia. nia. }
    pose proof (IB k ((j * m1 + m) * d + i)) as I.
    rewrite par_numel, (proj1 LY), <- par_numel, N, (layout_bounds ps0 ps k LY), B, mlp_bounds_nth in I by auto.
    assert (k < length ps) as Hk' by (rewrite (layout_len _ _ LY); destruct Hk; lia).
    specialize (I Hk' Lt). destruct (Nat.eqb_spec i j) as [->|NE].
    - apply between_zero in I. split; auto. rewrite I. apply Qle_refl.
    - destruct I as [I _]. simpl in I. split; auto. intro; contradiction.
  Qed.

  Lemma weight_diag : forall j m, j < d -> m < m1 -> (mlp_weight bias d ps (j * m1 + m)%nat j == 0)%Q.
  Proof using HI LY IB.
    intros j m Hj Hm. unfold mlp_weight.
    destruct (fc1_bound 0 j m j) as [_ E1]; auto. destruct (fc1_bound (neg_at bias) j m j) as [_ E2]; auto. rewrite E1, E2 by auto. ring.
  Qed.

  Lemma l1_ok : (sumQ (d * m1) (fun r => sumQ d (fun i => Qabs (mlp_weight bias d ps r i))) <= mlp_l1 bias d m1 ps)%Q.
  Proof using HI LY IB.
    unfold mlp_l1. rewrite msum_sumQ. apply sumQ_le. intros r Hr. rewrite msum_sumQ. apply sumQ_le. intros i Hi.
    destruct (row_split r Hr) as [j [m [Hj [Hm ->]]]].
    destruct (fc1_bound 0 j m i) as [E1 _]; auto. destruct (fc1_bound (neg_at bias) j m i) as [E2 _]; auto.
    unfold mlp_weight. apply Qabs_Qle_condition. lra.
  Qed.
End Trained.

(* ---------- what the predictions depend on ---------- *)
Definition respects (f : Q -> Q) : Prop := forall a b, (a == b)%Q -> (f a == f b)%Q.

Lemma mlp_first_val : forall bias d m1 ps x r j m, (mlp_first bias d m1 ps x r j m ==
  sumQ d (fun i => x r i * mlp_weight bias d ps (j * m1 + m)%nat i) +
  (if bias then entry (par ps 1) (j * m1 + m) - entry (par ps 3) (j * m1 + m) else 0))%Q.
Proof.
  intros. unfold mlp_first, linear_out. rewrite !msum_sumQ. unfold mlp_weight.
  rewrite (sumQ_ext d (fun i => x r i * (entry (par ps 0) ((j * m1 + m) * d + i) - entry (par ps (neg_at bias)) ((j * m1 + m) * d + i)))%Q
    (fun i => x r i * entry (par ps 0) ((j * m1 + m) * d + i) - x r i * entry (par ps (neg_at bias)) ((j * m1 + m) * d + i))%Q) by (intros; ring).
  rewrite sumQ_sub. destruct bias; ring.
Qed.

Lemma mlp_first_same : forall bias d m1 ps x x' i r j m, (mlp_weight bias d ps (j * m1 + m)%nat i == 0)%Q -> same_but i x x' ->
  (mlp_first bias d m1 ps x r j m == mlp_first bias d m1 ps x' r j m)%Q.
Proof.
  intros bias d m1 ps x x' i r j m Z S. rewrite !mlp_first_val. apply Qplus_comp; [|reflexivity]. apply sumQ_ext. intros c Hc.
  destruct (Nat.eq_dec c i) as [->|NE]; [rewrite Z; ring|]. rewrite (S r c NE). reflexivity.
Qed.

Lemma fc2_same : forall sigma bias ps r j, respects sigma -> forall widths k x x',
  (forall m, m < hd 0 widths -> (x r j m == x' r j m)%Q) -> forall o, o < last widths 0 ->
  (fc2_forward sigma bias k widths ps x r j o == fc2_forward sigma bias k widths ps x' r j o)%Q.
Proof.
  intros sigma bias ps r j HS widths. induction widths as [|a [|b w] IH]; intros k x x' H o Ho.
  - simpl in Ho. lia.
  - simpl. apply H. auto.
  - cbn [fc2_forward]. apply IH; auto. intros m Hm. unfold locally. apply Qplus_comp; [|reflexivity].
    rewrite !msum_sumQ. apply sumQ_ext. intros c Hc. apply Qmult_comp; [|reflexivity]. apply HS. apply H. auto.
Qed.

Lemma mlp_forward_same : forall sigma bias dims ps x x' i r j, respects sigma -> 2 <= length dims -> last dims 0 = 1 ->
  (forall m, m < nth 1 dims 0 -> (mlp_weight bias (nth 0 dims 0%nat) ps (j * nth 1 dims 0 + m)%nat i == 0)%Q) -> same_but i x x' ->
  (mlp_forward sigma bias dims ps x r j == mlp_forward sigma bias dims ps x' r j)%Q.
Proof.
  intros sigma bias dims ps x x' i r j HS L2 L1 Z S. unfold mlp_forward. destruct dims as [|d [|m1 w]]; simpl in L2; try lia. simpl nth in *. simpl tl.
  apply fc2_same; auto.
  - simpl hd. intros m Hm. apply mlp_first_same with i; auto.
  - change (last (d :: m1 :: w) 0) with (last (m1 :: w) 0) in L1. rewrite L1. lia.
Qed.

Lemma sobolev_forward_val : forall psi d k ps x r j, (sobolev_forward psi d k ps x r j ==
  sumQ (d * k) (fun c => sobolev_basis psi k x r c * sobolev_weight d k ps j c))%Q.
Proof.
  intros. unfold sobolev_forward, linear_out. rewrite !msum_sumQ. unfold sobolev_weight.
  rewrite (sumQ_ext (d * k) (fun c => sobolev_basis psi k x r c * (_ - _))%Q
    (fun c => sobolev_basis psi k x r c * entry (par ps 0) (j * (d * k) + c) - sobolev_basis psi k x r c * entry (par ps 1) (j * (d * k) + c))%Q) by (intros; ring).
  rewrite sumQ_sub. ring.
Qed.

Lemma sobolev_forward_same : forall psi d k ps x x' i r j,
  (forall m, m < k -> (sobolev_weight d k ps j (i * k + m)%nat == 0)%Q) -> same_but i x x' ->
  (sobolev_forward psi d k ps x r j == sobolev_forward psi d k ps x' r j)%Q.
Proof.
  intros psi d k ps x x' i r j Z S. rewrite !sobolev_forward_val. apply sumQ_ext. intros c Hc.
  assert (k <> 0) as K by (intro E; rewrite E in Hc; lia).
  destruct (Nat.eq_dec (c / k) i) as [E|NE].
  - assert (c = i * k + c mod k) as -> by (rewrite (Nat.div_mod c k) at 1; auto; lia).
    rewrite Z by (apply Nat.mod_upper_bound; auto). ring.
  - unfold sobolev_basis. rewrite (S r _ NE). reflexivity.
Qed.

Lemma sobolev_wf : forall d k, wf (sobolev_init d k).
Proof.
  intros d k p H. simpl in H. destruct H as [<-|[<-|[]]]; unfold bounds_of, numel; simpl; rewrite repeat_length; apply sobolev_bounds_len.
Qed.

Lemma sobolev_bound : forall d k ps, layout (sobolev_init d k) ps -> in_bounds ps -> forall q j i m, q < 2 -> j < d -> i < d -> m < k ->
  (0 <= entry (par ps q) (j * (d * k) + (i * k + m)))%Q /\ (i = j -> (entry (par ps q) (j * (d * k) + (i * k + m)) == 0)%Q).
Proof.
  intros d k ps LY IB q j i m Hq Hj Hi Hm. pose proof (IB q (j * (d * k) + (i * k + m))) as I.
  assert (numel (par (sobolev_init d k) q) = d * (d * k) /\ bounds_of (par (sobolev_init d k) q) = sobolev_bounds d k) as [N B].
  { destruct q as [|[|q]]; try lia; unfold par, sobolev_init, numel, bounds_of; simpl; rewrite repeat_length; auto. }
  rewrite par_numel, (proj1 LY), <- par_numel, N, (layout_bounds _ ps q LY), B, sobolev_bounds_nth in I by auto.
  assert (q < length ps) as Hq' by (rewrite (layout_len _ _ LY); simpl; lia).
  assert (j * (d * k) + (i * k + m) < d * (d * k)) as Lt by (assert (i * k + m < d * k) by nia; nia).
  specialize (I Hq' Lt). destruct (Nat.eqb_spec i j) as [->|NE].
  - apply between_zero in I. split; auto. rewrite I. apply Qle_refl.
  - destruct I as [I _]. simpl in I. split; auto. intro; contradiction.
Qed.

Lemma threshold_zero : forall t W i j, (W i j == 0)%Q -> (threshold t W i j == 0)%Q.
Proof. intros. unfold threshold. destruct (negb _); [reflexivity|auto]. Qed.

Lemma threshold_or : forall t W i j, (threshold t W i j == 0)%Q \/ (t <= Qabs (threshold t W i j))%Q.
Proof.
  intros. unfold threshold. destruct (Qle_bool t (Qabs (W i j))) eqn:L; simpl; [right; apply Qle_bool_iff; auto|left; reflexivity].
Qed.
