(** The rounds and kernels of the cross-validated scores. *)

From Coq Require Import List Arith Lia Bool Permutation Reals Lra FunctionalExtensionality.
From Verif Require Import Model.Py Model.LocalScore Model.KCI Model.HSIC Model.Expm Model.CVScore Spec.Scores Spec.KernelSpec Spec.CVSpec Spec.KCISpec Proofs.ScoreFacts Proofs.BicFacts Proofs.KCIFacts Proofs.GaussianFacts Proofs.HSICFacts Proofs.MedianFacts Proofs.CholeskyFacts Proofs.WoodburyFacts.
Import ListNotations.
Open Scope R_scope.

(* ---------- the rounds ---------- *)
Lemma filter_all : forall (f : nat -> bool) l, (forall x, In x l -> f x = true) -> filter f l = l.
Proof. induction l as [|x l IH]; intro H; simpl; auto. rewrite (H x) by (left; auto). f_equal. apply IH. intros. apply H. right. auto. Qed.
Lemma seq_split3 : forall T lo hi, (lo <= hi)%nat -> (hi <= T)%nat -> seq 0 T = seq 0 lo ++ seq lo (hi - lo) ++ seq hi (T - hi).
Proof.
  intros T lo hi H1 H2. replace T with (lo + ((hi - lo) + (T - hi)))%nat at 1 by lia. rewrite seq_app. f_equal. simpl. rewrite seq_app. f_equal. f_equal. lia.
Qed.
Lemma filter_range : forall T lo hi f, (lo <= hi)%nat -> (hi <= T)%nat -> (forall t, (t < T)%nat -> f t = true <-> (lo <= t < hi)%nat) ->
  filter f (seq 0 T) = range lo hi /\ filter (fun t => negb (f t)) (seq 0 T) = range 0 lo ++ range hi T.
Proof.
  intros T lo hi f H1 H2 H. rewrite (seq_split3 T lo hi H1 H2), !filter_app. unfold range.
  assert (E : forall t, (t < T)%nat -> ~ (lo <= t < hi)%nat -> f t = false). { intros t Ht N. destruct (f t) eqn:E; auto. apply H in E; auto. contradiction. }
  split.
  - rewrite (filter_none nat f (seq 0 lo)), (filter_all f (seq lo (hi - lo))), (filter_none nat f (seq hi (T - hi))).
    + rewrite app_nil_r. auto.
    + intros x Hx. apply in_seq in Hx. apply E; lia.
    + intros x Hx. apply in_seq in Hx. apply H; lia.
    + intros x Hx. apply in_seq in Hx. apply E; lia.
  - rewrite (filter_all _ (seq 0 lo)), (filter_none nat _ (seq lo (hi - lo))), (filter_all _ (seq hi (T - hi))).
    + rewrite Nat.sub_0_r. auto.
    + intros x Hx. apply in_seq in Hx. rewrite E by lia. auto.
    + intros x Hx. apply in_seq in Hx. rewrite (proj2 (H x ltac:(lia))) by lia. auto.
    + intros x Hx. apply in_seq in Hx. rewrite E by lia. auto.
Qed.
Lemma div_interval : forall t n0 kk, (0 < n0)%nat -> (t / n0 = kk)%nat <-> (kk * n0 <= t < (kk + 1) * n0)%nat.
Proof.
  intros t n0 kk H. pose proof (Nat.div_mod t n0 ltac:(lia)) as E. pose proof (Nat.mod_upper_bound t n0 ltac:(lia)) as U. split.
  - intros <-. nia.
  - intros [A B]. set (q := (t / n0)%nat) in *. nia.
Qed.
Lemma cv_fold_sets : forall T k kk, (2 <= k)%nat -> (k <= T)%nat -> (kk < k)%nat -> cv_fold T k kk = (validated T k kk, training T k kk).
Proof.
  intros T k kk Hk HT Hkk. unfold cv_fold, validated, training. set (n0 := (T / k)%nat).
  assert (P0 : (0 < n0)%nat) by (apply Nat.div_str_pos; lia). assert (B0 : (k * n0 <= T)%nat) by (apply Nat.mul_div_le; lia).
  assert (G : forall hi, (kk * n0 <= hi)%nat -> (hi <= T)%nat -> (forall t, (t < T)%nat -> round_of T k t = kk <-> (kk * n0 <= t < hi)%nat) ->
    filter (fun t => Nat.eqb (round_of T k t) kk) (seq 0 T) = range (kk * n0) hi /\ filter (fun t => negb (Nat.eqb (round_of T k t) kk)) (seq 0 T) = range 0 (kk * n0) ++ range hi T).
  { intros hi L1 L2 H. apply (filter_range T (kk * n0) hi); auto. intros t Ht. rewrite Nat.eqb_eq. apply H. auto. }
  destruct (Nat.eqb_spec kk (k - 1)) as [Ek|Nk].
  - replace (Nat.ltb kk (k - 1)) with false by (symmetry; apply Nat.ltb_ge; lia). simpl.
    destruct (G T) as [E1 E2]; [nia|lia| |rewrite E1, E2].
    + intros t Ht. unfold round_of. fold n0. pose proof (div_interval t n0 (t / n0) P0) as [D _]. specialize (D eq_refl). set (q := (t / n0)%nat) in *. rewrite Ek.
      split; intro H; [split; [|auto]; assert (k - 1 <= q)%nat by lia; nia|]. assert (k - 1 <= q)%nat; [|lia]. nia.
    + f_equal. unfold range at 3. rewrite Nat.sub_diag. simpl. rewrite app_nil_r. auto.
  - destruct (G ((kk + 1) * n0)%nat) as [E1 E2]; [nia|nia| |rewrite E1, E2].
    + intros t Ht. unfold round_of. fold n0. rewrite <- (div_interval t n0 kk P0). set (q := (t / n0)%nat). lia.
    + destruct (Nat.eqb_spec kk 0) as [->|N0].
      * rewrite andb_false_r. simpl. rewrite Nat.add_0_r. auto.
      * replace (Nat.ltb kk (k - 1)) with true by (symmetry; apply Nat.ltb_lt; lia). replace (Nat.ltb 0 kk) with true by (symmetry; apply Nat.ltb_lt; lia). auto.
Qed.
Lemma round_lt : forall T k t, (0 < k)%nat -> (round_of T k t < k)%nat.
Proof. intros. unfold round_of. lia. Qed.
Lemma in_validated : forall T k kk t, In t (validated T k kk) <-> (t < T)%nat /\ round_of T k t = kk.
Proof. intros. unfold validated. rewrite filter_In, in_seq, Nat.eqb_eq. lia. Qed.
Lemma in_training : forall T k kk t, In t (training T k kk) <-> (t < T)%nat /\ round_of T k t <> kk.
Proof. intros. unfold training. rewrite filter_In, in_seq, negb_true_iff, Nat.eqb_neq. lia. Qed.
Lemma nodup_training : forall T k kk, NoDup (training T k kk).
Proof. intros. apply NoDup_filter, seq_NoDup. Qed.
(** Every round trains on some sample. *)
Lemma training_pos : forall T k kk, (2 <= k)%nat -> (k <= T)%nat -> (0 < length (training T k kk))%nat.
Proof.
  intros T k kk Hk HT. assert (exists t, In t (training T k kk)) as [t Ht].
  - assert (P0 : (0 < T / k)%nat) by (apply Nat.div_str_pos; lia). destruct (Nat.eq_dec kk 0) as [->|N].
    + exists (T - 1)%nat. apply in_training. split; [lia|]. unfold round_of. assert (1 <= (T - 1) / (T / k))%nat; [|lia].
      apply Nat.div_le_lower_bound; [lia|]. pose proof (Nat.mul_div_le T k ltac:(lia)). nia.
    + exists 0%nat. apply in_training. split; [lia|]. unfold round_of. rewrite Nat.div_0_l by lia. lia.
  - destruct (training T k kk); [contradiction|simpl; lia].
Qed.

(* ---------- the kernels ---------- *)
Lemma kernel_exp : forall d X theta i j, kernel d X theta i j = exp (- squared_distance d X i j * (theta / 2)).
Proof. intros. unfold kernel. rewrite Rmax_right by apply dist2_nonneg. rewrite dist2_sq, rsumn_sumR. auto. Qed.
Definition constant_columns (T : nat) (data : rmat) (cols : list nat) : Prop := constant_data T (length cols) (columns data cols).
Lemma varies_constant : forall n d X, varies n d X -> ~ constant_data n d X.
Proof. intros n d X (i & j & c & Hi & Hj & Hc & H) K. apply H. apply K; auto. Qed.

Definition spread (multi : bool) (cols : list nat) : R := if multi then 9 * INR (length cols) else 4.
Lemma var_kernel_value : forall multi T data cols K, var_kernel multi T data cols = Some K ->
  exists m, is_median (distances T (length cols) (columns data cols)) m /\ 0 < m /\ (multi = true -> (0 < length cols)%nat) /\
    forall i j, K i j = exp (- squared_distance (length cols) (columns data cols) i j / (spread multi cols * m)).
Proof.
  intros multi T data cols K H. unfold var_kernel in H. change (select data cols) with (columns data cols) in H. unfold median_width in H. rewrite distances_model in H.
  destruct (median (distances T (length cols) (columns data cols))) as [m|] eqn:M; [|discriminate]. injection H as <-.
  assert (Pm : 0 < m). { apply (median_pos (distances T (length cols) (columns data cols)) m); auto. intros x Hx. unfold distances in Hx. apply filter_In in Hx. destruct (Rlt_dec 0 x); tauto || (destruct Hx; discriminate). }
  assert (Pc : (0 < length cols)%nat).
  { destruct cols as [|c cols]; [|simpl; lia]. exfalso. apply median_is in M. destruct M as (lo & _ & (I & _) & _). unfold distances in I. apply filter_In in I. destruct I as [I J].
    apply in_map_iff in I. destruct I as (p & <- & _). unfold squared_distance in J. simpl in J. unfold sumRn, sumR in J. simpl in J. destruct (Rlt_dec 0 0); [lra|discriminate]. }
  exists m. split; [apply median_is; auto|]. split; auto. split; auto. intros i j. rewrite kernel_exp. f_equal.
  assert (0 < INR (length cols)) by (apply lt_0_INR; auto). assert (0 < / 2 * m) by lra.
  unfold spread. destruct multi; cbv iota.
  - replace (sqrt (/ 2 * m) * 3 * (sqrt (/ 2 * m) * 3 * 1)) with (9 * (sqrt (/ 2 * m) * sqrt (/ 2 * m))) by ring. rewrite sqrt_sqrt by lra. field. lra.
  - replace (sqrt (/ 2 * m) * 2 * (sqrt (/ 2 * m) * 2 * 1)) with (4 * (sqrt (/ 2 * m) * sqrt (/ 2 * m))) by ring. rewrite sqrt_sqrt by lra. field. lra.
Qed.
Lemma var_kernel_spec : forall multi T data cols K, var_kernel multi T data cols = Some K -> variable_kernel multi T data cols K.
Proof. intros multi T data cols K H. destruct (var_kernel_value multi T data cols K H) as (m & M & _ & _ & E). exists m. split; auto. Qed.
Lemma var_kernel_total : forall multi T data cols, varies T (length cols) (columns data cols) -> exists K, var_kernel multi T data cols = Some K.
Proof.
  intros multi T data cols H. unfold var_kernel. change (select data cols) with (columns data cols). destruct (median_width T (length cols) (columns data cols)) as [w|] eqn:E; [eauto|].
  apply width_none in E. destruct (varies_constant _ _ _ H E).
Qed.
Lemma variable_kernel_unique : forall multi T data cols K K', variable_kernel multi T data cols K -> variable_kernel multi T data cols K' -> agree T T K K'.
Proof. intros multi T data cols K K' (m & M & E) (m' & M' & E') i j Hi Hj. rewrite E, E' by auto. rewrite (is_median_unique _ _ _ M M'). auto. Qed.
(** A variable with a kernel varies. *)
Lemma variable_kernel_model : forall multi T data cols K, variable_kernel multi T data cols K -> exists K', var_kernel multi T data cols = Some K' /\ agree T T K' K.
Proof.
  intros multi T data cols K H. destruct (var_kernel multi T data cols) as [K'|] eqn:E.
  - exists K'. split; auto. apply (variable_kernel_unique multi T data cols); auto. apply var_kernel_spec. auto.
  - exfalso. unfold var_kernel in E. change (select data cols) with (columns data cols) in E. unfold median_width in E. rewrite distances_model in E.
    destruct (median (distances T (length cols) (columns data cols))) as [m|] eqn:M; [discriminate|]. destruct H as (m & (lo & _ & (I & _) & _) & _).
    unfold median in M. destruct (Nat.eqb_spec (length (distances T (length cols) (columns data cols))) 0) as [Z|]; [|discriminate]. destruct (distances T (length cols) (columns data cols)); [contradiction|discriminate].
Qed.
Lemma var_kernel_multiplier : forall multi T data cols K, var_kernel multi T data cols = Some K -> multiplier T K /\ forall i j, K i j = K j i.
Proof.
  intros multi T data cols K H. destruct (var_kernel_value multi T data cols K H) as (m & _ & Pm & Pc & E).
  assert (0 < spread multi cols) as Ps. { unfold spread. destruct multi; [|lra]. specialize (Pc eq_refl). apply lt_0_INR in Pc. lra. }
  split.
  - apply (multiplier_ext T (fun i j => exp (- (/ (spread multi cols * m)) * rsumn (length cols) (fun a => (columns data cols i a - columns data cols j a) * (columns data cols i a - columns data cols j a))))).
    + intros i j _ _. rewrite E. f_equal. unfold squared_distance. rewrite <- rsumn_sumR. unfold Rdiv. ring.
    + apply gaussian_multiplier. left. apply Rinv_0_lt_compat, Rmult_lt_0_compat; auto.
  - intros i j. rewrite !E. f_equal. f_equal. f_equal. unfold squared_distance. rewrite <- !rsumn_sumR. apply rs_ext. intros. ring.
Qed.

Lemma parent_kernel_spec : forall multi T data label l Kpa K, parent_kernel multi T data label Kpa l = Some K ->
  exists Ks, (forall p, In p l -> var_kernel multi T data (label p) = Some (Ks p)) /\ (forall i j, K i j = Kpa i j * product l (fun p => Ks p i j)) /\
    (multiplier T Kpa -> multiplier T K) /\ ((forall i j, Kpa i j = Kpa j i) -> forall i j, K i j = K j i).
Proof.
  intros multi T data label. induction l as [|p l IH]; intros Kpa K H; simpl in H.
  - injection H as <-. exists (fun _ _ _ => 0). split; [intros p []|]. split; [intros; simpl; ring|]. auto.
  - destruct (var_kernel multi T data (label p)) as [Kp|] eqn:Ep; [|discriminate]. destruct (IH _ _ H) as (Ks & H1 & H2 & H3 & H4).
    destruct (var_kernel_multiplier _ _ _ _ _ Ep) as [M1 M2].
    exists (fun q => if Nat.eqb q p then Kp else Ks q). split; [|split; [|split]].
    + intros q [<-|Hq]; [rewrite Nat.eqb_refl; auto|]. destruct (Nat.eqb_spec q p) as [->|]; auto.
    + intros i j. rewrite H2. simpl. rewrite Nat.eqb_refl. rewrite Rmult_assoc. f_equal. f_equal.
      clear H H2 IH. induction l as [|q l IH]; auto. simpl. rewrite IH by (intros; apply H1; right; auto). f_equal.
      destruct (Nat.eqb_spec q p) as [->|]; auto. specialize (H1 p ltac:(left; auto)). rewrite Ep in H1. injection H1 as <-. auto.
    + intro Hm. apply H3. apply (multiplier_mult T Kpa Kp); auto.
    + intro Hs. apply H4. intros i j. rewrite Hs, (M2 i j). auto.
Qed.
Lemma parent_kernel_total : forall multi T data label l Kpa, (forall p, In p l -> exists K, var_kernel multi T data (label p) = Some K) -> exists K, parent_kernel multi T data label Kpa l = Some K.
Proof.
  intros multi T data label. induction l as [|p l IH]; intros Kpa H; simpl; [eauto|]. destruct (H p ltac:(left; auto)) as [K ->]. apply IH. intros. apply H. right. auto.
Qed.
Lemma product_ext : forall l f g, (forall p, In p l -> f p = g p) -> product l f = product l g.
Proof. induction l as [|p l IH]; intros f g H; simpl; auto. rewrite (H p), (IH f g); auto; intros; try (apply H; right; auto). left. auto. Qed.
Lemma parent_kernel_joint : forall multi T data label l K, parent_kernel multi T data label (fun _ _ => 1) l = Some K -> joint_kernel multi T data label l K.
Proof.
  intros multi T data label l K H. destruct (parent_kernel_spec _ _ _ _ _ _ _ H) as (Ks & H1 & H2 & _). exists Ks. split.
  - intros p Hp. apply var_kernel_spec. auto.
  - intros i j _ _. rewrite H2. ring.
Qed.
Lemma joint_kernel_model : forall multi T data label l K, joint_kernel multi T data label l K -> exists K', parent_kernel multi T data label (fun _ _ => 1) l = Some K' /\ agree T T K' K.
Proof.
  intros multi T data label l K (Ks & H1 & H2). destruct (parent_kernel_total multi T data label l (fun _ _ => 1)) as [K' E].
  - intros p Hp. destruct (variable_kernel_model _ _ _ _ _ (H1 p Hp)) as (K' & E & _). eauto.
  - exists K'. split; auto. destruct (parent_kernel_spec _ _ _ _ _ _ _ E) as (Ks' & G1 & G2 & _). intros i j Hi Hj. rewrite G2, H2 by auto. rewrite Rmult_1_l. apply product_ext.
    intros p Hp. apply (variable_kernel_unique multi T data (label p)); auto. apply var_kernel_spec. auto.
Qed.

(* ---------- centring and features ---------- *)
Lemma centered_doubly : forall T K i j, (i < T)%nat -> (j < T)%nat -> centered T K i j = doubly_centered T K i j.
Proof.
  intros T K i j Hi Hj. rewrite centered_formula by (auto; lia). unfold doubly_centered. rewrite <- !rsumn_sumR.
  rewrite (rs_ext T (fun a => sumRn T (fun b => K a b)) (fun a => rsumn T (fun b => K a b))) by (intros; rewrite <- rsumn_sumR; auto). ring.
Qed.
Lemma doubly_ext : forall T K K', agree T T K K' -> forall i j, (i < T)%nat -> (j < T)%nat -> doubly_centered T K i j = doubly_centered T K' i j.
Proof. intros T K K' H i j Hi Hj. rewrite <- !centered_doubly by auto. apply centered_ext; auto. Qed.
Lemma features_exist : forall T K, (0 < T)%nat -> multiplier T K -> (forall i j, K i j = K j i) -> exists phi, features T K T phi.
Proof.
  intros T K HT HM HS. destruct (psd_gram T (centered T K)) as [phi H].
  - apply sym_centered; auto. intros i j _ _. apply HS.
  - apply psd_centered. apply multiplier_psd. auto.
  - exists phi. intros a b Ha Hb. rewrite <- centered_doubly by auto. rewrite H by auto. apply rsumn_sumR.
Qed.
Lemma features_ext : forall T K K' d phi, agree T T K K' -> features T K d phi -> features T K' d phi.
Proof. intros T K K' d phi H F a b Ha Hb. rewrite <- F by auto. symmetry. apply doubly_ext; auto. Qed.

(* ---------- the sum of the rounds ---------- *)
Lemma rounds_sum : forall (round : nat -> res R) f l c, (forall kk, In kk l -> round kk = Ok (f kk)) -> rounds round l c = Ok (c + sumR l f).
Proof.
  intros round f. induction l as [|kk l IH]; intros c H; simpl; [f_equal; unfold sumR; simpl; ring|]. rewrite (H kk) by (left; auto). cbn [rbind]. rewrite IH by (intros; apply H; right; auto).
  f_equal. unfold sumR. simpl. ring.
Qed.

Section Score.
  Variables (inv : nat -> rmat -> rmat) (svdinv : nat -> rmat -> option rmat) (multi : bool) (lambda : R) (k T : nat).
  Hypothesis Hinv : inverts_triangular inv.
  Hypothesis Hl : 0 < lambda.
  Hypothesis Hk : (2 <= k)%nat.
  Hypothesis HT : (k <= T)%nat.

  Lemma set_lt : forall kk t, In t (validated T k kk) \/ In t (training T k kk) -> (t < T)%nat.
  Proof using. intros kk t [H|H]; [apply in_validated in H|apply in_training in H]; exact (proj1 H). Qed.
  Lemma gram_of : forall K d phi, features T K d phi -> forall a b, (a < T)%nat -> (b < T)%nat -> centered T K a b = rsumn d (fun c => phi a c * phi b c).
  Proof using. intros K d phi F a b Ha Hb. rewrite centered_doubly by auto. rewrite F by auto. rewrite rsumn_sumR. auto. Qed.

  Lemma alone_round : forall K d phi D kk, features T K d phi -> (kk < k)%nat -> round_spec T None lambda gamma d phi (validated T k kk) (training T k kk) D ->
    (let (te, tr) := cv_fold T k kk in round_alone inv svdinv te tr (centered T K)) = Ok (round_value d phi (validated T k kk) (training T k kk) D).
  Proof using Hinv Hk HT.
    intros K d phi D kk F Hkk (H1 & H2 & H3). rewrite cv_fold_sets by auto. apply round_alone_value; auto.
    - intros a b Ha Hb. apply gram_of; auto; eapply set_lt; eauto.
    - apply training_pos; auto.
    - intros t a Ht Ha. apply (H1 t Ht a Ha).
  Qed.
  Lemma parents_round : forall K P dp psi d phi D kk, features T K d phi -> features T P dp psi -> (kk < k)%nat ->
    round_spec T (Some P) lambda gamma d phi (validated T k kk) (training T k kk) D ->
    (let (te, tr) := cv_fold T k kk in round_parents inv svdinv lambda te tr (centered T K) (centered T P)) = Ok (round_value d phi (validated T k kk) (training T k kk) D).
  Proof using Hinv Hl Hk HT.
    intros K P dp psi d phi D kk F FP Hkk (H1 & H2 & H3). rewrite cv_fold_sets by auto. apply (round_parents_value d phi _ _ _) with (dp := dp) (psi := psi); auto.
    - intros a b Ha Hb. apply gram_of; auto; eapply set_lt; eauto.
    - apply training_pos; auto.
    - intros a b Ha Hb. apply gram_of; auto; eapply set_lt; eauto.
    - intros t b Ht Hb. pose proof (set_lt kk t Ht). pose proof (set_lt kk b (or_intror Hb)). rewrite centered_doubly by auto. rewrite <- (H1 t Ht b Hb). f_equal.
      apply sumR_ext. intros a Ha. pose proof (set_lt kk a (or_intror Ha)). rewrite centered_doubly by auto. auto.
  Qed.
  (** Every round has its pieces, with a diagonal of at least 1. *)
  Lemma round_exists : forall P d phi kk, (forall K, P = Some K -> exists psi, features T K T psi) ->
    exists D, round_spec T P lambda gamma d phi (validated T k kk) (training T k kk) D.
  Proof using Hl Hk HT.
    intros P d phi kk HP. pose proof (training_pos T k kk Hk HT) as Hn.
    assert (exists w, forall t, In t (validated T k kk) \/ In t (training T k kk) -> ridge_weights T P lambda (training T k kk) t (w t)) as [w Hw].
    - destruct P as [P|]; [|exists (fun _ _ => 0); intros t _ a _; auto]. destruct (HP P eq_refl) as [psi F].
      destruct (weights_exist (training T k kk) Hn (centered T P) T psi lambda) as [w H]; auto.
      + intros a b Ha Hb. apply gram_of; auto; eapply set_lt; eauto.
      + exists w. intros t Ht b Hb. pose proof (set_lt kk t Ht). pose proof (set_lt kk b (or_intror Hb)). specialize (H t b Hb (nodup_training T k kk)). rewrite centered_doubly in H by auto. rewrite <- H. f_equal.
        apply sumR_ext. intros a Ha. pose proof (set_lt kk a (or_intror Ha)). rewrite centered_doubly by auto. auto.
    - destruct (solution_exists d phi (training T k kk) Hn w) as (v & L & H2 & H3 & _). exists (mkRound w v L). split; [auto|]. split; auto.
  Qed.
  Lemma cross_exists : forall K P, (exists phi, features T K T phi) -> (forall KP, P = Some KP -> exists psi, features T KP T psi) -> exists s, cross_validated T k lambda gamma K P s.
  Proof using Hl Hk HT.
    intros K P [phi F] HP.
    assert (forall m, exists D : nat -> round_data, forall kk, (kk < m)%nat -> round_spec T P lambda gamma T phi (validated T k kk) (training T k kk) (D kk)) as H.
    { induction m as [|m [D IH]]; [exists (fun _ => mkRound (fun _ _ => 0) (fun _ _ => 0) (fun _ _ => 0)); intros; lia|].
      destruct (round_exists P T phi m HP) as [Dm Hm]. exists (fun kk => if Nat.eqb kk m then Dm else D kk). intros kk Hkk. destruct (Nat.eqb_spec kk m) as [->|]; auto. apply IH. lia. }
    destruct (H k) as [D HD]. eexists. exists T, phi, D. split; auto.
  Qed.
  Lemma cross_ext : forall K K' P P' s, agree T T K K' -> match P, P' with None, None => True | Some A, Some B => agree T T A B | _, _ => False end ->
    cross_validated T k lambda gamma K P s -> cross_validated T k lambda gamma K' P' s.
  Proof using.
    intros K K' P P' s E EP (d & phi & D & F & H & ->). exists d, phi, D. split; [apply (features_ext T K); auto|]. split; auto.
    intros kk Hkk. destruct (H kk Hkk) as (H1 & H2 & H3). split; auto. intros t Ht. specialize (H1 t Ht). destruct P as [A|], P' as [B|]; try contradiction; auto.
    intros b Hb. pose proof (set_lt kk t Ht). pose proof (set_lt kk b (or_intror Hb)). rewrite <- (doubly_ext T A B EP b t) by auto. rewrite <- (H1 b Hb). f_equal.
    apply sumR_ext. intros a Ha. pose proof (set_lt kk a (or_intror Ha)). rewrite (doubly_ext T A B EP b a) by auto. auto.
  Qed.

  Variables (data : rmat) (label : nat -> list nat) (i : nat) (parents : list nat).
  Definition model_kernels (K : rmat) (P : option rmat) : Prop :=
    var_kernel multi T data (label i) = Some K /\
    match parents with [] => P = None | _ => exists KP, P = Some KP /\ parent_kernel multi T data label (fun _ _ => 1) parents = Some KP end.
  Lemma model_features : forall K P, model_kernels K P -> (exists phi, features T K T phi) /\ (forall KP, P = Some KP -> exists psi, features T KP T psi).
  Proof using Hk HT.
    intros K P [H1 H2]. destruct (var_kernel_multiplier _ _ _ _ _ H1) as [M1 M2]. split; [apply features_exist; auto; lia|]. intros KP ->.
    destruct parents as [|p l]; [discriminate|]. destruct H2 as (KP' & E & H2). injection E as <-. destruct (parent_kernel_spec _ _ _ _ _ _ _ H2) as (_ & _ & _ & M3 & M4).
    apply features_exist; [lia|apply M3, multiplier_one|apply M4; auto].
  Qed.
  Lemma model_value : forall K P s, model_kernels K P -> cross_validated T k lambda gamma K P s -> cv_score inv svdinv multi lambda k T data label i parents = Ok s.
  Proof using Hinv Hl Hk HT.
    intros K P s HM (d & phi & D & F & H & ->). destruct (model_features K P HM) as [_ FP]. destruct HM as [H1 H2]. unfold cv_score. rewrite H1. destruct parents as [|p l].
    - subst P. rewrite (rounds_sum _ (fun kk => round_value d phi (validated T k kk) (training T k kk) (D kk))).
      + cbn [rbind]. rewrite Rplus_0_l. auto.
      + intros kk Hkk. apply in_seq in Hkk. apply alone_round; auto; [lia|]. apply H. lia.
    - destruct H2 as (KP & -> & ->). destruct (FP KP eq_refl) as [psi FK]. rewrite (rounds_sum _ (fun kk => round_value d phi (validated T k kk) (training T k kk) (D kk))).
      + cbn [rbind]. rewrite Rplus_0_l. auto.
      + intros kk Hkk. apply in_seq in Hkk. apply (parents_round K KP T psi); auto; [lia|]. apply H. lia.
  Qed.
  Lemma value_model : forall s, cv_score inv svdinv multi lambda k T data label i parents = Ok s -> exists K P, model_kernels K P /\ cross_validated T k lambda gamma K P s.
  Proof using Hinv Hl Hk HT.
    intros s E. assert (exists K P, model_kernels K P) as (K & P & HM).
    - unfold cv_score in E. unfold model_kernels. destruct (var_kernel multi T data (label i)) as [K|]; [|discriminate]. exists K. destruct parents as [|p l]; [exists None; auto|].
      destruct (parent_kernel multi T data label (fun _ _ => 1) (p :: l)) as [KP|]; [|discriminate]. exists (Some KP). eauto.
    - exists K, P. split; auto. destruct (model_features K P HM) as [F FP]. destruct (cross_exists K P F FP) as [s' C]. rewrite (model_value K P s' HM C) in E. injection E as <-. auto.
  Qed.
  Lemma scored_iff : forall s, cv_score inv svdinv multi lambda k T data label i parents = Ok s <-> scored multi T k lambda gamma data label i parents s.
  Proof using Hinv Hl Hk HT.
    intro s. split.
    - intro E. destruct (value_model s E) as (K & P & [H1 H2] & C). exists K, P. split; [apply var_kernel_spec; auto|]. split; auto. destruct parents as [|p l]; auto.
      destruct H2 as (KP & -> & H2). exists KP. split; auto. apply parent_kernel_joint. auto.
    - intros (K & P & H1 & H2 & C). destruct (variable_kernel_model _ _ _ _ _ H1) as (K' & E1 & A1). destruct parents as [|p l] eqn:EP.
      + subst P. rewrite <- EP. apply (model_value K' None); [split; auto; rewrite EP; auto|]. apply (cross_ext K K' None None); auto. intros a b Ha Hb. symmetry. apply A1; auto.
      + destruct H2 as (KP & -> & H2). destruct (joint_kernel_model _ _ _ _ _ _ H2) as (KP' & E2 & A2). rewrite <- EP. apply (model_value K' (Some KP')); [split; auto; rewrite EP; eauto|].
        apply (cross_ext K K' (Some KP) (Some KP')); auto; intros a b Ha Hb; symmetry; [apply A1|apply A2]; auto.
  Qed.
  Lemma score_exists : varies T (length (label i)) (columns data (label i)) -> (forall p, In p parents -> varies T (length (label p)) (columns data (label p))) ->
    exists s, cv_score inv svdinv multi lambda k T data label i parents = Ok s.
  Proof using Hinv Hl Hk HT.
    intros V VP. destruct (var_kernel_total multi T data (label i) V) as [K E1].
    destruct (parent_kernel_total multi T data label parents (fun _ _ => 1)) as [KP E2]; [intros p Hp; apply var_kernel_total; auto|].
    assert (model_kernels K (match parents with [] => None | _ => Some KP end)) as HM by (split; auto; destruct parents; eauto).
    destruct (model_features _ _ HM) as [F FP]. destruct (cross_exists _ _ F FP) as [s C]. exists s. apply (model_value _ _ s HM C).
  Qed.
End Score.

(* ---------- a bound ---------- *)
Lemma mahalanobis_nonneg : forall g d tr rr (v r : nat -> R), 0 <= g -> (0 < length tr)%nat ->
  (forall c, (c < d)%nat -> sumRn d (fun c' => residual_covariance g tr rr c c' * v c') = r c) -> 0 <= sumRn d (fun c => r c * v c).
Proof.
  intros g d tr rr v r Hg Hn H. set (n := length tr) in *. assert (NP : 0 < INR n) by (apply lt_0_INR; auto). set (Rm := fun c a => rr (nth a tr 0%nat) c).
  assert (E : sumRn d (fun c => r c * v c) = g * rsumn d (fun c => v c * v c) + / INR n * rsumn n (fun a => rsumn d (fun c => Rm c a * v c) * rsumn d (fun c => Rm c a * v c))).
  - rewrite <- rsumn_sumR. rewrite (rs_ext d _ (fun c => g * (v c * v c) + / INR n * (v c * mv n Rm (mv d (rtranspose Rm) v) c))).
    + rewrite rs_plus, !rs_scal. f_equal. f_equal. change (rsumn d (fun c => v c * mv n Rm (mv d (rtranspose Rm) v) c)) with (dotv d v (mv n Rm (mv d (rtranspose Rm) v))).
      rewrite (dotv_mv d n Rm (rtranspose Rm)) by (intros; reflexivity). reflexivity.
    + intros c Hc. rewrite <- H by auto. rewrite <- rsumn_sumR.
      rewrite (rs_ext d (fun c' => residual_covariance g tr rr c c' * v c') (fun c' => g * ((if Nat.eqb c c' then 1 else 0) * v c') + / INR n * (rdot n Rm (rtranspose Rm) c c' * v c'))).
      * rewrite rs_plus, !rs_scal, (rs_delta d c v) by auto. rewrite mv_mv. unfold mv. ring.
      * intros c' Hc'. unfold residual_covariance. rewrite (sum_tr tr). fold n. unfold rdot, rtranspose, Rm. destruct (Nat.eqb c c'); field; lra.
  - rewrite E. apply Rplus_le_le_0_compat; apply Rmult_le_pos; auto; [apply rs_nonneg; intros; apply Rle_0_sqr|left; apply Rinv_0_lt_compat; auto|apply rs_nonneg; intros; apply Rle_0_sqr].
Qed.
Lemma factor_ge_1 : forall d tr r L, (0 < length tr)%nat -> triangular_factor (length tr) (residual_products gamma d tr r) L -> forall a, (a < length tr)%nat -> 1 <= L a a.
Proof.
  intros d tr r L Hn HL a Ha. destruct (products_pd d tr Hn r) as [S B]. destruct (cholesky_total (length tr) 1 _ Rlt_0_1 S B) as (L' & E & _ & G).
  destruct (cholesky_unique _ _ _ HL) as (L'' & E' & Q). rewrite E in E'. injection E' as <-. rewrite <- Q by auto. rewrite <- sqrt_1. apply G. auto.
Qed.
Lemma round_value_bound : forall n P lambda d phi te tr D, (0 < length tr)%nat -> round_spec n P lambda gamma d phi te tr D ->
  INR (length te) * INR (length te) * ln (2 * PI) / 2 <= round_value d phi te tr D.
Proof.
  intros n P lambda d phi te tr D Hn (H1 & H2 & H3). unfold round_value.
  assert (0 <= INR (length te) * sumRn (length tr) (fun a => ln (round_factor D a a))).
  { apply Rmult_le_pos; [apply pos_INR|]. rewrite <- rsumn_sumR. apply rs_nonneg. intros a Ha. pose proof (factor_ge_1 _ _ _ _ Hn H3 a Ha) as G. rewrite <- ln_1. destruct G as [G|<-]; [left; apply ln_increasing; lra|right; auto]. }
  assert (0 <= sumR te (fun t => sumRn d (fun c => residual phi tr (round_weights D) t c * round_solution D t c))).
  { rewrite (sum_te te). apply rs_nonneg. intros a Ha. apply (mahalanobis_nonneg gamma d tr (residual phi tr (round_weights D))); auto; [left; apply gamma_pos|]. intros c Hc. apply H2; auto. apply nth_In. auto. }
  lra.
Qed.

(* ---------- fewer samples than rounds ---------- *)
Lemma rounds_app : forall round l c f kk, (forall j, In j l -> round j = Ok (f j)) -> rounds round (l ++ [kk]) c = (v <-? round kk ;; Ok (c + sumR l f + v)).
Proof.
  intros round l. induction l as [|j l IH]; intros c f kk H; simpl.
  - destruct (round kk); simpl; auto. f_equal. unfold sumR. simpl. ring.
  - rewrite (H j) by (left; auto). cbn [rbind]. rewrite (IH _ f) by (intros; apply H; right; auto). destruct (round kk); simpl; auto. f_equal. unfold sumR. simpl. ring.
Qed.
Lemma cv_fold_few : forall T k kk, (k = 1 \/ T < k)%nat -> (kk < k)%nat -> cv_fold T k kk = if Nat.eqb kk (k - 1) then (seq 0 T, []) else ([], seq 0 T).
Proof.
  intros T k kk [->|H] Hkk.
  - assert (kk = 0)%nat as -> by lia. unfold cv_fold, range. simpl. rewrite Nat.sub_0_r. auto.
  - unfold cv_fold. rewrite Nat.div_small by auto. rewrite !Nat.mul_0_r. unfold range. rewrite !Nat.sub_0_r. simpl. destruct (Nat.eqb_spec kk (k - 1)) as [->|N].
    + rewrite Nat.ltb_irrefl. simpl. rewrite ?Nat.sub_0_r. auto.
    + replace (Nat.ltb kk (k - 1)) with true by (symmetry; apply Nat.ltb_lt; lia). simpl. destruct (Nat.ltb 0 kk) eqn:E0; [rewrite ?Nat.sub_0_r; auto|]. apply Nat.ltb_ge in E0. assert (kk = 0)%nat as -> by lia. rewrite ?Nat.sub_0_r. auto.
Qed.
Section Few.
  Variables (inv : nat -> rmat -> rmat) (svdinv : nat -> rmat -> option rmat) (lambda : R) (k T : nat).
  Hypothesis Hinv : inverts_triangular inv.
  Hypothesis Hl : 0 < lambda.
  Hypothesis Hk : (0 < k)%nat.
  Hypothesis HT : (0 < T)%nat.
  Hypothesis Few : (k = 1 \/ T < k)%nat.
  Variables (K : rmat) (phi : nat -> nat -> R).
  Hypothesis HF : features T K T phi.

  Lemma idle_alone : round_alone inv svdinv [] (seq 0 T) (centered T K) = Ok 0.
  Proof using All.
    assert (Hn : (0 < length (seq 0 T))%nat) by (rewrite seq_length; auto).
    destruct (solution_exists T phi (seq 0 T) Hn (fun _ _ => 0)) as (v & L & H2 & H3 & _).
    rewrite (round_alone_value T phi [] (seq 0 T) (centered T K)) with (D := mkRound (fun _ _ => 0) v L); auto.
    - f_equal. unfold round_value. cbn [length INR]. unfold sumR at 1. cbn [map fold_right]. field.
    - intros a b [[]|Ha] [[]|Hb]. apply in_seq in Ha, Hb. apply (gram_of T K T phi HF); lia.
  Qed.
  Lemma idle_parents : forall P psi, features T P T psi -> round_parents inv svdinv lambda [] (seq 0 T) (centered T K) (centered T P) = Ok 0.
  Proof using All.
    intros P psi FP. assert (Hn : (0 < length (seq 0 T))%nat) by (rewrite seq_length; auto).
    assert (HP : forall a b, In a (seq 0 T) -> In b (seq 0 T) -> centered T P a b = rsumn T (fun c => psi a c * psi b c)) by (intros a b Ha Hb; apply in_seq in Ha, Hb; apply (gram_of T P T psi FP); lia).
    destruct (weights_exist (seq 0 T) Hn (centered T P) T psi lambda HP Hl) as [w Hw].
    destruct (solution_exists T phi (seq 0 T) Hn w) as (v & L & H2 & H3 & _).
    rewrite (round_parents_value T phi [] (seq 0 T) (centered T K)) with (D := mkRound w v L) (dp := T) (psi := psi); auto.
    - f_equal. unfold round_value. cbn [length INR]. unfold sumR at 1. cbn [map fold_right]. field.
    - intros a b [[]|Ha] [[]|Hb]. apply in_seq in Ha, Hb. apply (gram_of T K T phi HF); lia.
    - intros t b Ht Hb. apply Hw; auto. apply seq_NoDup.
  Qed.
  Lemma last_parents : forall P, round_parents inv svdinv lambda (seq 0 T) [] (centered T K) (centered T P) =
    Ok ((INR T * INR T * ln (2 * PI) + 100 * sumRn T (fun t => doubly_centered T K t t)) / 2).
  Proof using.
    intro P. unfold round_parents. cbn [length INR]. unfold pdinv. cbn [cholesky rbind]. unfold round_term. cbn [cholesky]. rewrite seq_length. f_equal. f_equal.
    change (rsumn 0 (fun a => ln ((fun _ _ => 0) a a))) with 0. rewrite Rmult_0_r, Rplus_0_r. f_equal. unfold rtrace. rewrite <- rsumn_sumR, <- rs_scal. apply rs_ext. intros t Ht.
    unfold rscale, radd, rsub, rdot, rsumn, rsum, rtranspose, submatrix. cbn [seq map fold_right]. rewrite seq_nth by auto. rewrite Nat.add_0_l. rewrite centered_doubly by auto. unfold gamma. field.
  Qed.
  Lemma few_alone : rounds (fun kk => let (te, tr) := cv_fold T k kk in round_alone inv svdinv te tr (centered T K)) (seq 0 k) 0 = Err ZeroDivisionError.
  Proof using All.
    replace (seq 0 k) with (seq 0 (k - 1) ++ [(k - 1)%nat]) by (replace k with (S (k - 1)) at 3 by lia; rewrite seq_S; auto).
    rewrite (rounds_app _ _ _ (fun _ => 0)).
    - rewrite cv_fold_few by (auto; lia). rewrite Nat.eqb_refl. reflexivity.
    - intros j Hj. apply in_seq in Hj. rewrite cv_fold_few by (auto; lia). destruct (Nat.eqb_spec j (k - 1)); [lia|]. apply idle_alone.
  Qed.
  Lemma few_parents : forall P psi, features T P T psi ->
    rounds (fun kk => let (te, tr) := cv_fold T k kk in round_parents inv svdinv lambda te tr (centered T K) (centered T P)) (seq 0 k) 0 =
    Ok ((INR T * INR T * ln (2 * PI) + 100 * sumRn T (fun t => doubly_centered T K t t)) / 2).
  Proof using All.
    intros P psi FP. replace (seq 0 k) with (seq 0 (k - 1) ++ [(k - 1)%nat]) by (replace k with (S (k - 1)) at 3 by lia; rewrite seq_S; auto).
    rewrite (rounds_app _ _ _ (fun _ => 0)).
    - rewrite cv_fold_few by (auto; lia). rewrite Nat.eqb_refl. rewrite last_parents. cbn [rbind]. rewrite sumR_zero by auto. f_equal. ring.
    - intros j Hj. apply in_seq in Hj. rewrite cv_fold_few by (auto; lia). destruct (Nat.eqb_spec j (k - 1)); [lia|]. apply (idle_parents P psi FP).
  Qed.
End Few.
