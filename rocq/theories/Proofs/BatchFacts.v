(** Powers of two for a whole batch. *)

From Coq Require Import List Arith Lia Bool ZArith QArith Qreals Reals Lra Setoid Morphisms Permutation Sorted.
From Verif Require Import Model.Py Model.LocalScore Model.KCI Model.Expm Spec.Scores Spec.ExpmSpec Proofs.BicFacts Proofs.PopulationFacts Proofs.KCIFacts Proofs.GaussianFacts Proofs.ExpmFacts Proofs.ExpAccuracyFacts.
Import ListNotations.
Open Scope nat_scope.

(** idx lists the places of k in ascending order of k. *)
Definition sorting (idx k : list nat) : Prop := Permutation idx (seq 0 (length k)) /\ StronglySorted (fun a b => nth a k 0 <= nth b k 0) idx.

Lemma filter_sorted : forall k last idx, StronglySorted (fun a b => nth a k 0 <= nth b k 0) idx ->
  skipn (length (filter (fun p => nth p k 0 <=? last) idx)) idx = filter (fun p => last <? nth p k 0) idx.
Proof.
  intros k last idx H. induction H as [|a l H IH F]; [reflexivity|]. cbn [filter]. rewrite (Nat.ltb_antisym (nth a k 0) last). destruct (Nat.leb_spec (nth a k 0) last) as [L|L]; cbn [negb length skipn]; [exact IH|].
  assert (filter (fun p => nth p k 0 <=? last) l = []) as E0.
  { rewrite Forall_forall in F. clear -F L. induction l as [|b l IH]; [reflexivity|]. cbn [filter]. destruct (Nat.leb_spec (nth b k 0) last); [specialize (F b (or_introl eq_refl)); lia|]. apply IH. intros x Hx. apply F. right. auto. }
  rewrite E0 in IH |- *. cbn [length skipn] in *. rewrite <- IH. auto.
Qed.
Lemma filter_places : forall (P : nat -> bool) k, length (filter P k) = length (filter (fun p => P (nth p k 0)) (seq 0 (length k))).
Proof.
  intros P k. induction k as [|x k IH]; [reflexivity|]. cbn [length seq filter]. rewrite <- seq_shift. cbn [nth]. destruct (P x); cbn [length].
  - f_equal. rewrite IH. clear. generalize (seq 0 (length k)). intro l. induction l as [|a l IH]; [reflexivity|]. cbn [map filter nth]. destruct (P (nth a k 0)); cbn [length]; auto.
  - rewrite IH. clear. generalize (seq 0 (length k)). intro l. induction l as [|a l IH]; [reflexivity|]. cbn [map filter nth]. destruct (P (nth a k 0)); cbn [length]; auto.
Qed.
Lemma filter_perm : forall (P : nat -> bool) l l', Permutation l l' -> length (filter P l) = length (filter P l').
Proof. intros P l l' H. induction H; cbn [filter]; repeat (match goal with |- context [P ?x] => destruct (P x) end; cbn [length]); congruence || auto. Qed.
Lemma count_filter : forall k e, bincount k e = length (filter (fun x => x =? e) k).
Proof.
  intros k e. unfold bincount. induction k as [|x k IH]; [reflexivity|]. cbn [count_occ filter]. destruct (Nat.eq_dec x e) as [->|N]; [rewrite Nat.eqb_refl; cbn [length]; auto|].
  destruct (Nat.eqb_spec x e); [contradiction|auto].
Qed.

Lemma assign_length : forall {T} (f : T -> T) idx l, length (assign f idx l) = length l.
Proof.
  intros T f idx. induction idx as [|p r IH]; intro l; [reflexivity|]. cbn [assign]. rewrite IH, app_length. rewrite <- (firstn_skipn p l) at 3. rewrite app_length. f_equal. destruct (skipn p l); auto.
Qed.
Lemma nth_change : forall {T} (f : T -> T) l p q d, p < length l -> nth q (firstn p l ++ match skipn p l with [] => [] | x :: t => f x :: t end) d = if Nat.eqb q p then f (nth q l d) else nth q l d.
Proof.
  intros T f l. induction l as [|a l IH]; intros p q d H; [simpl in H; lia|]. destruct p as [|p]; [destruct q; reflexivity|]. cbn [firstn skipn app]. destruct q as [|q]; [reflexivity|].
  cbn [nth Nat.eqb]. apply IH. simpl in H. lia.
Qed.
Lemma nth_assign : forall {T} (f : T -> T) idx l q d, NoDup idx -> (forall p, In p idx -> p < length l) ->
  nth q (assign f idx l) d = if in_dec Nat.eq_dec q idx then f (nth q l d) else nth q l d.
Proof.
  intros T f idx. induction idx as [|p r IH]; intros l q d N H; [reflexivity|]. cbn [assign]. inversion N as [|? ? Np Nr]; subst.
  rewrite IH; auto.
  - rewrite nth_change by (apply H; left; auto). destruct (Nat.eqb_spec q p) as [->|Q].
    + destruct (in_dec Nat.eq_dec p r); [contradiction|]. destruct (in_dec Nat.eq_dec p (p :: r)) as [I|I]; [auto|exfalso; apply I; left; auto].
    + destruct (in_dec Nat.eq_dec q r) as [I|I], (in_dec Nat.eq_dec q (p :: r)) as [J|J]; auto; exfalso; [apply J; right; auto|destruct J; [congruence|auto]].
  - intros x Hx. rewrite app_length. specialize (H x (or_intror Hx)). rewrite <- (firstn_skipn p l), app_length in H. destruct (skipn p l); auto.
Qed.

Lemma power_mul : forall n X a b, meq n (rpow n (rpow n X a) b) (rpow n X (a * b)).
Proof.
  intros n X a b. induction b as [|b IH]; [rewrite Nat.mul_0_r; reflexivity|]. cbn [rpow]. rewrite IH. rewrite Nat.mul_succ_r, Nat.add_comm. rewrite rpow_add. reflexivity.
Qed.

Lemma power_loop_spec : forall n (k idx : list nat) (As : list rmat) exps last processed B,
  sorting idx k -> length B = length k ->
  StronglySorted lt (last :: exps) ->
  (forall p, p < length k -> nth p k 0 <= last \/ In (nth p k 0) exps) ->
  processed = length (filter (fun p => nth p k 0 <=? last) idx) ->
  (forall p, p < length k -> meq n (nth p B mzero) (rpow n (nth p As mzero) (2 ^ Nat.min (nth p k 0) last))) ->
  length (power_loop n k idx exps last processed B) = length k /\
  forall p, p < length k -> meq n (nth p (power_loop n k idx exps last processed B) mzero) (rpow n (nth p As mzero) (2 ^ nth p k 0)).
Proof.
  intros n k idx As exps. induction exps as [|e exps IH]; intros last processed B HS HB HE HK HP HM.
  - cbn [power_loop]. split; auto. intros p Hp. rewrite (HM p Hp). destruct (HK p Hp) as [L|[]]. rewrite Nat.min_l by auto. reflexivity.
  - cbn [power_loop]. destruct HS as [PS SS]. inversion HE as [|? ? HE' HF]; subst. rewrite Forall_forall in HF. pose proof (HF e (or_introl eq_refl)) as Le.
    assert (NoDup idx) as ND by (apply (Permutation_NoDup (Permutation_sym PS)); apply seq_NoDup).
    assert (forall p, In p idx <-> p < length k) as HI.
    { intro p. split; intro H; [apply (Permutation_in _ PS) in H; apply in_seq in H; lia|apply (Permutation_in _ (Permutation_sym PS)); apply in_seq; lia]. }
    rewrite filter_sorted by auto. apply IH.
    + split; auto.
    + rewrite assign_length. auto.
    + auto.
    + intros p Hp. destruct (HK p Hp) as [L|[L|L]]; [left; lia|left; lia|right; auto].
    + rewrite count_filter, (filter_places (fun x => x =? e) k). rewrite <- (filter_perm (fun p => nth p k 0 =? e) _ _ PS).
      assert (forall l, (forall p, In p l -> p < length k) -> length (filter (fun p => nth p k 0 <=? last) l) + length (filter (fun p => nth p k 0 =? e) l) = length (filter (fun p => nth p k 0 <=? e) l)) as G.
      { intro l. induction l as [|p l IHl]; intro Hl; [reflexivity|]. specialize (IHl (fun q Hq => Hl q (or_intror Hq))). pose proof (Hl p (or_introl eq_refl)) as Hp. cbn [filter].
        assert (nth p k 0 <= last \/ e <= nth p k 0) as D.
        { destruct (HK p Hp) as [L|[L|L]]; [left; auto|right; lia|]. right. inversion HE' as [|? ? _ F]; subst. rewrite Forall_forall in F. specialize (F _ L). lia. }
        destruct (Nat.leb_spec (nth p k 0) last), (Nat.eqb_spec (nth p k 0) e), (Nat.leb_spec (nth p k 0) e); cbn [length]; lia. }
      apply G. intros p Hp. apply HI. auto.
    + intros p Hp. rewrite nth_assign.
      * destruct (in_dec Nat.eq_dec p (filter (fun p => last <? nth p k 0) idx)) as [I|I].
        -- apply filter_In in I. destruct I as [_ I]. apply Nat.ltb_lt in I.
           assert (e <= nth p k 0) as D.
           { destruct (HK p Hp) as [L|[L|L]]; [lia|lia|]. inversion HE' as [|? ? _ F]; subst. rewrite Forall_forall in F. specialize (F _ L). lia. }
           assert (meq n (rpow n (nth p B mzero) (2 ^ (e - last))) (rpow n (rpow n (nth p As mzero) (2 ^ Nat.min (nth p k 0) last)) (2 ^ (e - last)))) as E1.
           { generalize (2 ^ (e - last)). intro m. induction m as [|m IHm]; cbn [rpow]; [reflexivity|]. rewrite IHm, (HM p Hp). reflexivity. }
           rewrite E1, power_mul. rewrite <- Nat.pow_add_r. replace (Nat.min (nth p k 0) last + (e - last)) with (Nat.min (nth p k 0) e) by lia. reflexivity.
        -- rewrite (HM p Hp). assert (nth p k 0 <= last) as D.
           { destruct (Nat.le_gt_cases (nth p k 0) last) as [L|L]; auto. exfalso. apply I. apply filter_In. split; [apply HI; auto|]. apply Nat.ltb_lt. auto. }
           rewrite !Nat.min_l by lia. reflexivity.
      * apply NoDup_filter. auto.
      * intros q Hq. apply filter_In in Hq. rewrite HB. apply HI. tauto.
Qed.
Lemma seq_sorted : forall m s, StronglySorted lt (seq s m).
Proof. induction m as [|m IH]; intro s; cbn [seq]; constructor; auto. rewrite Forall_forall. intros x Hx. apply in_seq in Hx. lia. Qed.
Lemma filter_strong : forall (P : nat -> bool) l, StronglySorted lt l -> StronglySorted lt (filter P l).
Proof.
  intros P l H. induction H as [|a l H IH F]; [constructor|]. cbn [filter]. destruct (P a); auto. constructor; auto. rewrite Forall_forall in *. intros x Hx. apply filter_In in Hx. apply F. tauto.
Qed.
Lemma in_nonzero : forall k x, In x k -> In x (nonzero k).
Proof.
  intros k x H. unfold nonzero. apply filter_In. split.
  - apply in_seq. pose proof (list_max_le k (list_max k)) as M. destruct M as [M _]. specialize (M (le_n _)). rewrite Forall_forall in M. specialize (M x H). lia.
  - unfold bincount. apply negb_true_iff. apply Nat.eqb_neq. apply (count_occ_In Nat.eq_dec) in H. lia.
Qed.
Lemma nonzero_in : forall k x, In x (nonzero k) -> In x k.
Proof.
  intros k x H. unfold nonzero in H. apply filter_In in H. destruct H as [_ H]. apply negb_true_iff in H. apply Nat.eqb_neq in H. unfold bincount in H. apply (count_occ_In Nat.eq_dec). lia.
Qed.
Lemma power_batch_spec : forall n (As : list rmat) (k idx : list nat), k <> [] -> length As = length k -> sorting idx k ->
  exists B, matrix_power_two_batch n idx As k = Ok B /\ length B = length k /\ forall p, p < length k -> meq n (nth p B mzero) (rpow n (nth p As mzero) (2 ^ nth p k 0)).
Proof.
  intros n As k idx Hk HA HS. unfold matrix_power_two_batch. assert (StronglySorted lt (nonzero k)) as SN by (apply filter_strong; apply seq_sorted).
  destruct (nonzero k) as [|e0 exps] eqn:EN.
  { exfalso. destruct k as [|x k]; [contradiction|]. pose proof (in_nonzero (x :: k) x (or_introl eq_refl)) as I. rewrite EN in I. auto. }
  assert (forall p, p < length k -> In (nth p k 0) (e0 :: exps)) as HI by (intros p Hp; rewrite <- EN; apply in_nonzero; apply nth_In; auto).
  eexists. split; [reflexivity|]. apply power_loop_spec; auto.
  - rewrite map_length. auto.
  - intros p Hp. destruct (HI p Hp) as [<-|I]; [left; auto|right; auto].
  - destruct HS as [PS _]. rewrite count_filter, (filter_places (fun x => x =? e0) k). rewrite <- (filter_perm (fun p => nth p k 0 =? e0) _ _ PS).
    assert (forall l, (forall p, In p l -> p < length k) -> length (filter (fun p => nth p k 0 =? e0) l) = length (filter (fun p => nth p k 0 <=? e0) l)) as G.
    { intro l. induction l as [|p l IHl]; intro Hl; [reflexivity|]. specialize (IHl (fun q Hq => Hl q (or_intror Hq))). pose proof (Hl p (or_introl eq_refl)) as Hp. cbn [filter].
      assert (e0 <= nth p k 0) as D. { destruct (HI p Hp) as [<-|I]; auto. inversion SN as [|? ? _ F]; subst. rewrite Forall_forall in F. specialize (F _ I). lia. }
      destruct (Nat.eqb_spec (nth p k 0) e0), (Nat.leb_spec (nth p k 0) e0); cbn [length]; lia. }
    apply G. intros p Hp. apply (Permutation_in _ PS) in Hp. apply in_seq in Hp. lia.
  - intros p Hp. assert (e0 <= nth p k 0) as D. { destruct (HI p Hp) as [<-|I]; auto. inversion SN as [|? ? _ F]; subst. rewrite Forall_forall in F. specialize (F _ I). lia. }
    rewrite Nat.min_r by auto. rewrite (nth_indep _ mzero (rpow n mzero (2 ^ e0))) by (rewrite map_length; lia). rewrite (map_nth (fun X => rpow n X (2 ^ e0))). reflexivity.
Qed.
