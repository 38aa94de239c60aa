(** The median width and the gamma test. *)

From Coq Require Import List Arith Lia Bool Permutation Sorted Reals Lra.
From Verif Require Import Model.Py Model.LocalScore Model.KCI Model.HSIC Spec.Scores Spec.KCISpec Spec.KernelSpec Proofs.ScoreFacts Proofs.BicFacts
  Proofs.PopulationFacts Proofs.KCIFacts Proofs.GaussianFacts.
Import ListNotations.
Open Scope R_scope.

(* ---------- sorting ---------- *)
Lemma rinsert_perm : forall x l, Permutation (rinsert x l) (x :: l).
Proof.
  induction l as [|y l IH]; simpl; auto. destruct (Rle_dec x y); auto.
  eapply perm_trans; [apply perm_skip, IH|apply perm_swap].
Qed.
Lemma rsort_perm : forall l, Permutation (rsort l) l.
Proof. induction l as [|x l IH]; simpl; auto. eapply perm_trans; [apply rinsert_perm|]. auto. Qed.
Lemma rinsert_sorted : forall x l, StronglySorted Rle l -> StronglySorted Rle (rinsert x l).
Proof.
  induction l as [|y l IH]; intro S; simpl; [repeat constructor|]. inversion S; subst. destruct (Rle_dec x y) as [L|L].
  - constructor; auto. constructor; auto. rewrite Forall_forall in *. intros z Hz. specialize (H2 z Hz). lra.
  - constructor; auto. rewrite Forall_forall in *. intros z Hz. apply (Permutation_in _ (rinsert_perm x l)) in Hz. destruct Hz as [<-|Hz]; [lra|auto].
Qed.
Lemma rsort_sorted : forall l, StronglySorted Rle (rsort l).
Proof. induction l as [|x l IH]; simpl; [constructor|apply rinsert_sorted; auto]. Qed.
Lemma sorted_unique : forall l l', StronglySorted Rle l -> StronglySorted Rle l' -> Permutation l l' -> l = l'.
Proof.
  induction l as [|x l IH]; intros l' S S' P; [apply Permutation_nil in P; auto|].
  destruct l' as [|y l']; [apply Permutation_sym, Permutation_nil in P; discriminate|].
  assert (x = y) as ->.
  { inversion S; inversion S'; subst. rewrite Forall_forall in *.
    assert (In x (y :: l')) as I by (eapply Permutation_in; [exact P|left; auto]).
    assert (In y (x :: l)) as J by (eapply Permutation_in; [apply Permutation_sym; exact P|left; auto]).
    destruct I as [->|I]; auto. destruct J as [->|J]; auto. specialize (H2 y J). specialize (H6 x I). lra. }
  f_equal. inversion S; inversion S'; subst. apply IH; auto. eapply Permutation_cons_inv; eauto.
Qed.
Lemma rsort_unique : forall l l', Permutation l l' -> rsort l = rsort l'.
Proof.
  intros l l' P. apply sorted_unique; try apply rsort_sorted. eapply perm_trans; [apply rsort_perm|]. eapply perm_trans; [exact P|apply Permutation_sym, rsort_perm].
Qed.
Lemma median_perm : forall l l', Permutation l l' -> median l = median l'.
Proof. intros l l' P. unfold median. rewrite (rsort_unique l l' P), (Permutation_length P). auto. Qed.

Lemma rsort_scal : forall c l, 0 < c -> rsort (map (Rmult c) l) = map (Rmult c) (rsort l).
Proof.
  intros c l Hc. apply sorted_unique; [apply rsort_sorted| |].
  - assert (forall s, StronglySorted Rle s -> StronglySorted Rle (map (Rmult c) s)) as K; [|apply K, rsort_sorted].
    induction s as [|x s IH]; intro S; simpl; [constructor|]. inversion S; subst. constructor; auto. rewrite Forall_forall in *.
    intros z Hz. apply in_map_iff in Hz. destruct Hz as [w [<- Hw]]. apply Rmult_le_compat_l; auto. lra.
  - eapply perm_trans; [apply rsort_perm|]. apply Permutation_map, Permutation_sym, rsort_perm.
Qed.
Lemma nth_scal : forall c l k, nth k (map (Rmult c) l) 0 = c * nth k l 0.
Proof. intros c l k. rewrite <- (Rmult_0_r c) at 1. apply map_nth. Qed.
Lemma median_scal : forall c l, 0 < c -> median (map (Rmult c) l) = match median l with None => None | Some m => Some (c * m) end.
Proof.
  intros c l Hc. unfold median. rewrite map_length, rsort_scal by auto. destruct (Nat.eqb (length l) 0); auto.
  f_equal. rewrite !nth_scal. destruct (Nat.even (length l)); auto. field.
Qed.

Lemma sorted_nth_in : forall (l : list R) k, (k < length l)%nat -> In (nth k l 0) l.
Proof. intros. apply nth_In. auto. Qed.
Lemma half_lt : forall k, (k <> 0)%nat -> (k / 2 < k)%nat.
Proof. intros. apply Nat.div_lt; lia. Qed.
Lemma median_pos : forall l m, (forall x, In x l -> 0 < x) -> median l = Some m -> 0 < m.
Proof.
  intros l m H E. unfold median in E. destruct (Nat.eqb_spec (length l) 0) as [|NZ]; [discriminate|].
  assert (forall k, (k < length l)%nat -> 0 < nth k (rsort l) 0) as P.
  { intros k Hk. apply H. apply (Permutation_in _ (rsort_perm l)). apply nth_In. rewrite (Permutation_length (rsort_perm l)). auto. }
  pose proof (half_lt _ NZ) as HL. pose proof (P _ HL) as P1. assert (length l / 2 - 1 < length l)%nat as HL' by lia. pose proof (P _ HL') as P2.
  destruct (Nat.even (length l)); apply (f_equal (fun o => match o with Some x => x | None => 0 end)) in E; cbv beta iota in E; subst m; lra.
Qed.

(* ---------- distances ---------- *)
Lemma dist2_sq : forall d X i j, dist2 d X i j = rsumn d (fun c => (X i c - X j c) * (X i c - X j c)).
Proof.
  intros. unfold dist2. rewrite (rs_ext d (fun c => (X i c - X j c) * (X i c - X j c)) (fun c => (X i c * X i c + X j c * X j c) - 2 * (X i c * X j c))) by (intros; ring).
  rewrite rs_minus, rs_plus, rs_scal. auto.
Qed.
Lemma dist2_sym : forall d X i j, dist2 d X i j = dist2 d X j i.
Proof. intros. rewrite !dist2_sq. apply rs_ext. intros. ring. Qed.
Lemma dist2_nonneg : forall d X i j, 0 <= dist2 d X i j.
Proof. intros. rewrite dist2_sq. apply rs_nonneg. intros. apply Rle_0_sqr. Qed.
Lemma dist2_diag : forall d X i, dist2 d X i i = 0.
Proof. intros. rewrite dist2_sq. apply rs_zero. intros. ring. Qed.
Lemma dist2_zero : forall d X i j, dist2 d X i j = 0 -> forall c, (c < d)%nat -> X i c = X j c.
Proof.
  intros d X i j E c Hc. rewrite dist2_sq in E.
  pose proof (rs_nonneg_zero d _ (fun c _ => Rle_0_sqr (X i c - X j c)) E c Hc) as K. simpl in K. apply Rmult_integral in K. lra.
Qed.

(** The pairs above the diagonal. *)
Definition ups (n : nat) : list (nat * nat) := filter (fun p => Nat.ltb (fst p) (snd p)) (list_prod (seq 0 n) (seq 0 n)).
Lemma in_ups : forall n p, In p (ups n) <-> (fst p < snd p /\ snd p < n)%nat.
Proof.
  intros n [i j]. unfold ups. rewrite filter_In, in_prod_iff, !in_seq. simpl. rewrite Nat.ltb_lt. lia.
Qed.
Lemma NoDup_prod : forall (A B : Type) (l : list A) (m : list B), NoDup l -> NoDup m -> NoDup (list_prod l m).
Proof.
  intros A B l m Hl Hm. induction l as [|a l IH]; simpl; [constructor|]. inversion Hl; subst.
  assert (forall m, NoDup m -> NoDup (map (fun y : B => (a, y)) m)) as K.
  { clear. induction m as [|b m IH]; intro H; simpl; constructor; inversion H; subst; auto.
    intro I. apply in_map_iff in I. destruct I as [y [E Hy]]. injection E as ->. auto. }
  assert (forall l1 l2 : list (A * B), NoDup l1 -> NoDup l2 -> (forall x, In x l1 -> ~ In x l2) -> NoDup (l1 ++ l2)) as Q.
  { clear. induction l1 as [|x l1 IH]; intros l2 H1 H2 H; simpl; auto. inversion H1; subst. constructor.
    - intro I. apply in_app_iff in I. destruct I as [I|I]; [auto|]. apply (H x (or_introl eq_refl) I).
    - apply IH; auto. intros y Hy. apply H. right. auto. }
  apply Q; auto. intros [x y] I J. apply in_map_iff in I. destruct I as [z [E _]]. injection E as -> ->. apply in_prod_iff in J. tauto.
Qed.
Lemma NoDup_ups : forall n, NoDup (ups n).
Proof. intro n. apply NoDup_filter, NoDup_prod; apply seq_NoDup. Qed.

Lemma upper_prod : forall n D, upper n D = map (fun p => D (fst p) (snd p) - (if Nat.leb (snd p) (fst p) then D (fst p) (snd p) else 0)) (list_prod (seq 0 n) (seq 0 n)).
Proof.
  intros n D. unfold upper. generalize (seq 0 n) at 2 3. induction l as [|i l IH]; simpl; auto.
  rewrite map_app, map_map. simpl. rewrite IH. auto.
Qed.
Lemma positives_upper : forall n D, positives (upper n D) = positives (map (fun p => D (fst p) (snd p)) (ups n)).
Proof.
  intros n D. rewrite upper_prod. unfold ups. induction (list_prod (seq 0 n) (seq 0 n)) as [|[i j] l IH]; auto. simpl map at 1. simpl filter at 1.
  unfold positives in *. destruct (Nat.leb_spec j i) as [L|L]; destruct (Nat.ltb_spec i j) as [L'|L']; try lia.
  - cbn [filter]. destruct (Rlt_dec 0 (D i j - D i j)); [lra|]. exact IH.
  - cbn [filter map fst snd]. rewrite Rminus_0_r. rewrite IH. auto.
Qed.
Lemma in_positives : forall l x, In x (positives l) <-> In x l /\ 0 < x.
Proof. intros. unfold positives. rewrite filter_In. destruct (Rlt_dec 0 x); split; intros [A B]; split; auto; try lra; discriminate. Qed.
Lemma positives_perm : forall l l', Permutation l l' -> Permutation (positives l) (positives l').
Proof.
  intros l l' P. unfold positives. induction P; simpl; auto.
  - destruct (Rlt_dec 0 x); auto.
  - destruct (Rlt_dec 0 x), (Rlt_dec 0 y); auto. apply perm_swap.
  - eapply perm_trans; eauto.
Qed.
Lemma positives_scal : forall c l, 0 < c -> positives (map (Rmult c) l) = map (Rmult c) (positives l).
Proof.
  intros c l Hc. unfold positives. induction l as [|x l IH]; simpl; auto. rewrite IH.
  destruct (Rlt_dec 0 (c * x)) as [A|A], (Rlt_dec 0 x) as [B|B]; auto; exfalso.
  - apply B. apply (Rmult_lt_reg_l c); lra.
  - apply A. apply Rmult_lt_0_compat; auto.
Qed.

(* ---------- the width ---------- *)
Lemma width_dists : forall n d d' X X' c, 0 < c -> (forall i j, (i < n)%nat -> (j < n)%nat -> dist2 d' X' i j = c * dist2 d X i j) ->
  median_width n d' X' = match median_width n d X with None => None | Some w => Some (sqrt c * w) end.
Proof.
  intros n d d' X X' c Hc H. unfold median_width. rewrite !positives_upper.
  assert (map (fun p => dist2 d' X' (fst p) (snd p)) (ups n) = map (Rmult c) (map (fun p => dist2 d X (fst p) (snd p)) (ups n))) as ->.
  { rewrite map_map. apply map_ext_in. intros p Hp. apply in_ups in Hp. apply H; lia. }
  rewrite positives_scal, median_scal by auto.
  destruct (median (positives (map (fun p => dist2 d X (fst p) (snd p)) (ups n)))) as [m|]; auto.
  f_equal. replace (/ 2 * (c * m)) with (c * (/ 2 * m)) by ring. apply sqrt_mult_alt. lra.
Qed.
Lemma width_sq : forall n d X w, median_width n d X = Some w -> 0 < w.
Proof.
  intros n d X w E. unfold median_width in E. destruct (median (positives (upper n (dist2 d X)))) as [m|] eqn:M; [|discriminate].
  injection E as <-. apply sqrt_lt_R0. assert (0 < m); [|lra]. apply (median_pos _ _ (fun x Hx => proj2 (proj1 (in_positives _ x) Hx)) M).
Qed.
Lemma width_none : forall n d X, median_width n d X = None <-> constant_data n d X.
Proof.
  intros n d X. unfold median_width. rewrite positives_upper. set (l := positives _).
  assert (l = [] <-> constant_data n d X) as K.
  { unfold constant_data. split.
    - intros E i j c Hi Hj Hc. assert (forall i j, (i < j)%nat -> (j < n)%nat -> dist2 d X i j = 0) as Z.
      { intros a b Ha Hb. destruct (Req_dec (dist2 d X a b) 0) as [|D]; auto. exfalso.
        assert (In (dist2 d X a b) l) as I; [|rewrite E in I; destruct I]. apply in_positives. split; [|pose proof (dist2_nonneg d X a b); lra].
        apply (in_map (fun p => dist2 d X (fst p) (snd p)) (ups n) (a, b)). apply in_ups. simpl. lia. }
      destruct (Nat.lt_trichotomy i j) as [L|[->|L]]; auto.
      + apply (dist2_zero d X i j); auto.
      + symmetry. apply (dist2_zero d X j i); auto.
    - intro H. destruct l as [|x l'] eqn:E; auto. exfalso. assert (In x l) as I by (rewrite E; left; auto). unfold l in I. apply in_positives in I.
      destruct I as [I P]. apply in_map_iff in I. destruct I as [p [<- Hp]]. apply in_ups in Hp.
      rewrite dist2_sq in P. rewrite rs_zero in P; [lra|]. intros c Hc. rewrite (H (fst p) (snd p) c) by lia. ring. }
  rewrite <- K. unfold median. destruct l as [|x l']; simpl; [tauto|]. split; discriminate.
Qed.

Lemma rbf_ext : forall n d d' X X' w c, 0 < c -> w <> 0 -> (forall i j, (i < n)%nat -> (j < n)%nat -> dist2 d' X' i j = c * dist2 d X i j) ->
  agree n n (rbf d' X' (sqrt c * w)) (rbf d X w).
Proof.
  intros n d d' X X' w c Hc Hw H i j Hi Hj. unfold rbf. rewrite H by auto. f_equal.
  replace (sqrt c * w * (sqrt c * w)) with (c * (w * w)) by (rewrite <- (sqrt_sqrt c) at 1 by lra; ring). field. lra.
Qed.

(** Kernels with the same entries. *)
Definition same_kernel (n : nat) (K L : option rmat) : Prop :=
  match K, L with None, None => True | Some A, Some B => agree n n A B | _, _ => False end.
Lemma same_kernel_refl : forall n K, same_kernel n K K.
Proof. intros n [K|]; simpl; auto. intros i j _ _. auto. Qed.
Lemma kernel_dists : forall n d d' X X' c, 0 < c -> (forall i j, (i < n)%nat -> (j < n)%nat -> dist2 d' X' i j = c * dist2 d X i j) ->
  same_kernel n (median_kernel n d' X') (median_kernel n d X).
Proof.
  intros n d d' X X' c Hc H. unfold median_kernel. rewrite (width_dists n d d' X X' c Hc H).
  destruct (median_width n d X) as [w|] eqn:E; simpl; auto. apply rbf_ext; auto. apply width_sq in E. lra.
Qed.
Lemma kernel_rescaled : forall n d X X', similar_units n d X X' -> same_kernel n (median_kernel n d X') (median_kernel n d X).
Proof.
  intros n d X X' [a [b [Ha H]]]. apply (kernel_dists n d d X X' (a * a)).
  - apply Rsqr_pos_lt in Ha. exact Ha.
  - intros i j Hi Hj. rewrite !dist2_sq, <- rs_scal. apply rs_ext. intros c Hc. rewrite !H by auto. ring.
Qed.

(* ---------- the order of the samples ---------- *)
Section Order.
  Variable n : nat.
  Variable p : nat -> nat.
  Hypothesis Hp : Permutation (map p (seq 0 n)) (seq 0 n).

  Definition swap_up (q : nat * nat) : nat * nat := (Nat.min (p (fst q)) (p (snd q)), Nat.max (p (fst q)) (p (snd q))).
  Lemma ups_perm : Permutation (map swap_up (ups n)) (ups n).
  Proof using Hp.
    apply NoDup_Permutation_bis.
    - assert (forall l, (forall q, In q l -> In q (ups n)) -> NoDup l -> NoDup (map swap_up l)) as K; [|apply K; [auto|apply NoDup_ups]].
      induction l as [|q l IH]; intros I N; simpl; [constructor|]. inversion N; subst. constructor; [|apply IH; auto; intros; apply I; right; auto].
      intro J. apply in_map_iff in J. destruct J as [q' [E Hq']].
      assert (In q (ups n)) as U by (apply I; left; auto). assert (In q' (ups n)) as U' by (apply I; right; auto).
      apply in_ups in U, U'. unfold swap_up in E. injection E as E1 E2.
      destruct q as [i j], q' as [i' j']. simpl in *.
      assert ((p i' = p i /\ p j' = p j) \/ (p i' = p j /\ p j' = p i)) as [[A B]|[A B]] by lia.
      + apply (p_inj n p Hp) in A, B; try lia. subst. auto.
      + apply (p_inj n p Hp) in A, B; try lia.
    - rewrite map_length. auto.
    - intros q Hq. apply in_map_iff in Hq. destruct Hq as [q' [<- Hq']]. apply in_ups in Hq'. apply in_ups. unfold swap_up. simpl.
      pose proof (p_lt n p Hp (fst q')). pose proof (p_lt n p Hp (snd q')).
      assert (p (fst q') <> p (snd q')) by (intro E; apply (p_inj n p Hp) in E; lia). lia.
  Qed.

  Lemma dist2_rows : forall d X i j, dist2 d (rows p X) i j = dist2 d X (p i) (p j).
  Proof using. intros. unfold dist2, rows. auto. Qed.
  Lemma width_rows : forall d X, median_width n d (rows p X) = median_width n d X.
  Proof using Hp.
    intros d X. unfold median_width. rewrite !positives_upper.
    rewrite (median_perm (positives (map (fun q => dist2 d (rows p X) (fst q) (snd q)) (ups n))) (positives (map (fun q => dist2 d X (fst q) (snd q)) (ups n)))); auto.
    apply positives_perm. eapply perm_trans; [|apply Permutation_map; exact ups_perm]. rewrite map_map.
    apply Permutation_refl'. apply map_ext. intros [i j]. rewrite dist2_rows. unfold swap_up. cbn [fst snd].
    destruct (Nat.le_ge_cases (p i) (p j)) as [L|L]; [rewrite Nat.min_l, Nat.max_r by auto|rewrite Nat.min_r, Nat.max_l by auto; rewrite dist2_sym]; auto.
  Qed.
  Lemma median_kernel_rows : forall d X, median_kernel n d (rows p X) = match median_kernel n d X with None => None | Some K => Some (both p K) end.
  Proof using Hp. intros d X. unfold median_kernel. rewrite width_rows. destruct (median_width n d X); auto. Qed.

  Lemma centered_both : forall K i j, (i < n)%nat -> (j < n)%nat -> centered n (both p K) i j = centered n K (p i) (p j).
  Proof using Hp. intros. rewrite (centered_rows n p Hp K) by auto. auto. Qed.
  Lemma sum2_both : forall (f : nat -> nat -> R), rsumn n (fun i => rsumn n (fun j => f (p i) (p j))) = rsumn n (fun i => rsumn n (fun j => f i j)).
  Proof using Hp.
    intro f. rewrite <- (rsumn_perm n p Hp (fun i => rsumn n (fun j => f i j))). apply rs_ext. intros i Hi. apply (rsumn_perm n p Hp (fun j => f (p i) j)).
  Qed.
  Lemma stat_both : forall K L, hsic_stat n (both p K) (both p L) = hsic_stat n K L.
  Proof using Hp.
    intros K L. unfold hsic_stat, sum_prod. f_equal. rewrite <- (sum2_both (fun i j => centered n K j i * centered n L i j)).
    apply rs_ext2. intros i j Hi Hj. rewrite !centered_both by auto. auto.
  Qed.
  Lemma var_both : forall K L, var_hsic n (both p K) (both p L) = var_hsic n K L.
  Proof using Hp.
    intros K L. unfold var_hsic. cbv zeta.
    assert (rsumn n (fun i => rsumn n (fun j => centered n (both p K) i j * centered n (both p L) i j / 6 * (centered n (both p K) i j * centered n (both p L) i j / 6)))
      = rsumn n (fun i => rsumn n (fun j => centered n K i j * centered n L i j / 6 * (centered n K i j * centered n L i j / 6)))) as ->.
    { rewrite <- (sum2_both (fun i j => centered n K i j * centered n L i j / 6 * (centered n K i j * centered n L i j / 6))).
      apply rs_ext2. intros i j Hi Hj. rewrite !centered_both by auto. auto. }
    assert (forall A, rtrace n (fun i j => A (p i) (p j)) = rtrace n A) as T by (intro A; unfold rtrace; apply (rsumn_perm n p Hp (fun i => A i i))).
    rewrite (rtrace_ext n (fun i j => centered n (both p K) i j * centered n (both p L) i j / 6 * (centered n (both p K) i j * centered n (both p L) i j / 6))
       (fun i j => (fun a b => centered n K a b * centered n L a b / 6 * (centered n K a b * centered n L a b / 6)) (p i) (p j))).
    - rewrite (T (fun a b => centered n K a b * centered n L a b / 6 * (centered n K a b * centered n L a b / 6))). auto.
    - intros i j Hi Hj. rewrite !centered_both by auto. auto.
  Qed.
  Lemma off_mean_both : forall K, off_mean n (both p K) = off_mean n K.
  Proof using Hp.
    intro K. unfold off_mean. do 2 f_equal. rewrite <- (sum2_both (fun i j => if Nat.eqb i j then K i j - K i j else K i j)).
    apply rs_ext2. intros i j Hi Hj. unfold both. destruct (Nat.eqb_spec i j) as [->|D]; [rewrite Nat.eqb_refl; auto|].
    destruct (Nat.eqb_spec (p i) (p j)) as [E|]; auto. exfalso. apply D. apply (p_inj n p Hp); auto.
  Qed.
  Lemma hsic_gam_rows : forall ppf dx X dy Y alph, hsic_gam ppf n dx (rows p X) dy (rows p Y) alph = hsic_gam ppf n dx X dy Y alph.
  Proof using Hp.
    intros. unfold hsic_gam. rewrite !median_kernel_rows. destruct (median_kernel n dx X) as [K|]; auto. destruct (median_kernel n dy Y) as [L|]; auto.
    rewrite stat_both, var_both. unfold mean_hsic. rewrite !off_mean_both. auto.
  Qed.
End Order.

(* ---------- extensionality ---------- *)
Lemma stat_ext : forall n K K' L L', agree n n K K' -> agree n n L L' -> hsic_stat n K L = hsic_stat n K' L'.
Proof.
  intros n K K' L L' HK HL. unfold hsic_stat. f_equal. apply sum_prod_ext.
  - intros i j Hi Hj. apply (centered_ext n K K'); auto.
  - apply centered_ext; auto.
Qed.
Lemma var_ext : forall n K K' L L', agree n n K K' -> agree n n L L' -> var_hsic n K L = var_hsic n K' L'.
Proof.
  intros n K K' L L' HK HL. unfold var_hsic. cbv zeta. pose proof (centered_ext n _ _ HK) as CK. pose proof (centered_ext n _ _ HL) as CL.
  rewrite (rs_ext2 n n _ (fun i j => centered n K' i j * centered n L' i j / 6 * (centered n K' i j * centered n L' i j / 6))) by (intros; rewrite CK, CL; auto).
  rewrite (rtrace_ext n _ (fun i j => centered n K' i j * centered n L' i j / 6 * (centered n K' i j * centered n L' i j / 6))) by (intros i j Hi Hj; rewrite CK, CL; auto). auto.
Qed.
Lemma off_mean_ext : forall n K K', agree n n K K' -> off_mean n K = off_mean n K'.
Proof. intros n K K' H. unfold off_mean. do 2 f_equal. apply rs_ext2. intros. rewrite H; auto. Qed.
Lemma hsic_gam_ext : forall ppf n dx dx' X X' dy dy' Y Y' alph, same_kernel n (median_kernel n dx' X') (median_kernel n dx X) ->
  same_kernel n (median_kernel n dy' Y') (median_kernel n dy Y) -> hsic_gam ppf n dx' X' dy' Y' alph = hsic_gam ppf n dx X dy Y alph.
Proof.
  intros ppf n dx dx' X X' dy dy' Y Y' alph HX HY. unfold hsic_gam.
  destruct (median_kernel n dx' X') as [K'|], (median_kernel n dx X) as [K|]; simpl in HX; try contradiction; auto.
  destruct (median_kernel n dy' Y') as [L'|], (median_kernel n dy Y) as [L|]; simpl in HY; try contradiction; auto.
  rewrite (stat_ext n K' K L' L), (var_ext n K' K L' L) by auto. unfold mean_hsic. rewrite (off_mean_ext n K' K), (off_mean_ext n L' L) by auto. auto.
Qed.

(* ---------- symmetry ---------- *)
Lemma stat_comm : forall n K L, hsic_stat n K L = hsic_stat n L K.
Proof. intros. unfold hsic_stat, sum_prod. f_equal. rewrite rs_swap. apply rs_ext2. intros. ring. Qed.
Lemma var_comm : forall n K L, var_hsic n K L = var_hsic n L K.
Proof.
  intros. unfold var_hsic. cbv zeta. rewrite (rs_ext2 n n _ (fun i j => centered n L i j * centered n K i j / 6 * (centered n L i j * centered n K i j / 6))) by (intros; field).
  rewrite (rtrace_ext n _ (fun i j => centered n L i j * centered n K i j / 6 * (centered n L i j * centered n K i j / 6))) by (intros i j Hi Hj; field). auto.
Qed.
Lemma hsic_gam_comm : forall ppf n dx X dy Y alph, hsic_gam ppf n dx X dy Y alph = hsic_gam ppf n dy Y dx X alph.
Proof.
  intros. unfold hsic_gam. destruct (median_kernel n dx X) as [K|]; destruct (median_kernel n dy Y) as [L|]; auto.
  rewrite (stat_comm n K L), (var_comm n K L). replace (mean_hsic n K L) with (mean_hsic n L K); auto. unfold mean_hsic. cbv zeta. f_equal. ring.
Qed.

(* ---------- signs ---------- *)
Lemma rbf_multiplier : forall n d X w, w <> 0 -> multiplier n (rbf d X w).
Proof.
  intros n d X w Hw. apply (multiplier_ext n (fun i j => exp (- (/ 2 * / (w * w)) * rsumn d (fun a => (X i a - X j a) * (X i a - X j a))))).
  - intros i j _ _. unfold rbf. rewrite dist2_sq. f_equal. field. auto.
  - apply gaussian_multiplier. apply Rmult_le_pos; [lra|]. left. apply Rinv_0_lt_compat. apply Rsqr_pos_lt in Hw. exact Hw.
Qed.
Lemma rbf_sym : forall n d X w, sym n (rbf d X w).
Proof. intros n d X w i j _ _. unfold rbf. rewrite dist2_sym. auto. Qed.
Lemma rbf_diag : forall d X w i, rbf d X w i i = 1.
Proof. intros. unfold rbf. rewrite dist2_diag. replace (- 0 / 2 / (w * w)) with 0 by (unfold Rdiv; ring). apply exp_0. Qed.
Lemma rbf_range : forall d X w i j, w <> 0 -> 0 < rbf d X w i j <= 1.
Proof.
  intros d X w i j Hw. unfold rbf. split; [apply exp_pos|]. rewrite <- exp_0. pose proof (dist2_nonneg d X i j).
  apply Rsqr_pos_lt in Hw. unfold Rsqr in Hw. assert (0 < / (w * w)) as I by (apply Rinv_0_lt_compat; auto).
  destruct (Req_dec (dist2 d X i j) 0) as [->|D]; [replace (- 0 / 2 / (w * w)) with 0 by (unfold Rdiv; ring); lra|].
  left. apply exp_increasing. unfold Rdiv. assert (0 < dist2 d X i j * / 2 * / (w * w)); [|lra]. apply Rmult_lt_0_compat; [lra|auto].
Qed.
Lemma rbf_lt1 : forall d X w i j, w <> 0 -> dist2 d X i j <> 0 -> rbf d X w i j < 1.
Proof.
  intros d X w i j Hw D. unfold rbf. rewrite <- exp_0. apply exp_increasing. pose proof (dist2_nonneg d X i j).
  apply Rsqr_pos_lt in Hw. unfold Rsqr in Hw. assert (0 < / (w * w)) as I by (apply Rinv_0_lt_compat; auto).
  unfold Rdiv. assert (0 < dist2 d X i j * / 2 * / (w * w)); [|lra]. apply Rmult_lt_0_compat; [lra|auto].
Qed.
Lemma median_kernel_inv : forall n d X K, median_kernel n d X = Some K -> exists w, w <> 0 /\ K = rbf d X w /\ median_width n d X = Some w.
Proof.
  intros n d X K H. unfold median_kernel in H. destruct (median_width n d X) as [w|] eqn:E; [|discriminate]. injection H as <-.
  exists w. repeat split; auto. apply width_sq in E. lra.
Qed.
Lemma median_kernel_none : forall n d X, median_kernel n d X = None <-> constant_data n d X.
Proof. intros. rewrite <- width_none. unfold median_kernel. destruct (median_width n d X); split; auto; discriminate. Qed.

Lemma hsic_stat_nonneg : forall n d X e Y w u, w <> 0 -> u <> 0 -> 0 <= hsic_stat n (rbf d X w) (rbf e Y u).
Proof.
  intros n d X e Y w u Hw Hu. unfold hsic_stat. destruct n as [|n]; [unfold sum_prod, rsumn; simpl; lra|].
  apply Rmult_le_pos; [|left; apply Rinv_0_lt_compat, lt_0_INR; lia].
  apply stat_nonneg; [apply rbf_sym|apply rbf_multiplier; auto|apply multiplier_psd, rbf_multiplier; auto].
Qed.

Lemma not_const_varies : forall n d X, ~ constant_data n d X -> exists i j, (i < n)%nat /\ (j < n)%nat /\ dist2 d X i j <> 0.
Proof.
  intros n d X H. rewrite <- width_none in H. unfold median_width in H. rewrite positives_upper in H.
  destruct (positives (map (fun p => dist2 d X (fst p) (snd p)) (ups n))) as [|x l] eqn:E; [exfalso; apply H; auto|].
  assert (In x (x :: l)) as I by (left; auto). rewrite <- E in I. apply in_positives in I. destruct I as [I P]. apply in_map_iff in I.
  destruct I as [[i j] [<- Hp]]. apply in_ups in Hp. simpl in *. exists i, j. repeat split; try lia. lra.
Qed.

Lemma off_mean_lt : forall n d X w, w <> 0 -> ~ constant_data n d X -> off_mean n (rbf d X w) < 1.
Proof.
  intros n d X w Hw NC. destruct (not_const_varies n d X NC) as [i0 [j0 [Hi [Hj D]]]].
  assert (i0 <> j0) as NE by (intros ->; apply D, dist2_diag).
  assert (2 <= n)%nat as Hn by lia. assert (2 <= INR n) as HN by (apply (le_INR 2); auto).
  unfold off_mean. set (S := rsumn n _).
  assert (S < INR n * (INR n - 1)) as L.
  { assert (rsumn n (fun i => rsumn n (fun j => (if Nat.eqb i j then 0 else 1) - (if Nat.eqb i j then rbf d X w i j - rbf d X w i j else rbf d X w i j))) = INR n * (INR n - 1) - S) as E.
    { rewrite (rs_ext n _ (fun i => (INR n - 1) - rsumn n (fun j => if Nat.eqb i j then rbf d X w i j - rbf d X w i j else rbf d X w i j))).
      - rewrite rs_minus, rs_const. auto.
      - intros i Hi'. rewrite rs_minus. f_equal. rewrite (rs_ext n _ (fun j => 1 - (if Nat.eqb i j then 1 else 0) * 1)) by (intros j _; destruct (Nat.eqb i j); ring).
        rewrite rs_minus, rs_const, (rs_delta n i (fun _ => 1)) by auto. ring. }
    assert (forall i j, 0 <= (if Nat.eqb i j then 0 else 1) - (if Nat.eqb i j then rbf d X w i j - rbf d X w i j else rbf d X w i j)) as P.
    { intros i j. pose proof (rbf_range d X w i j Hw). destruct (Nat.eqb i j); lra. }
    assert (0 <= INR n * (INR n - 1) - S) as P0. { rewrite <- E. apply rs_nonneg. intros. apply rs_nonneg. auto. }
    destruct (Req_dec (INR n * (INR n - 1) - S) 0) as [Z|NZ]; [|lra]. exfalso. rewrite <- E in Z.
    pose proof (rs_nonneg_zero n _ (fun i Hi' => rs_nonneg n _ (fun j _ => P i j)) Z i0 Hi) as Z1. cbv beta in Z1.
    pose proof (rs_nonneg_zero n _ (fun j _ => P i0 j) Z1 j0 Hj) as Z2. cbv beta in Z2.
    destruct (Nat.eqb_spec i0 j0); [auto|]. pose proof (rbf_lt1 d X w i0 j0 Hw D). lra. }
  apply (Rmult_lt_reg_r (INR n * (INR n - 1))); [apply Rmult_lt_0_compat; lra|].
  replace (S / INR n / (INR n - 1) * (INR n * (INR n - 1))) with S by (field; lra). lra.
Qed.

Lemma mean_hsic_pos : forall n d X e Y w u, w <> 0 -> u <> 0 -> ~ constant_data n d X -> ~ constant_data n e Y -> 0 < mean_hsic n (rbf d X w) (rbf e Y u).
Proof.
  intros n d X e Y w u Hw Hu HX HY. pose proof (off_mean_lt n d X w Hw HX) as A. pose proof (off_mean_lt n e Y u Hu HY) as B.
  destruct (not_const_varies n d X HX) as [i0 [_ [Hi _]]]. unfold mean_hsic. cbv zeta.
  replace (1 + off_mean n (rbf d X w) * off_mean n (rbf e Y u) - off_mean n (rbf d X w) - off_mean n (rbf e Y u))
    with ((1 - off_mean n (rbf d X w)) * (1 - off_mean n (rbf e Y u))) by ring.
  apply Rmult_lt_0_compat; [apply Rmult_lt_0_compat; lra|]. apply Rinv_0_lt_compat, lt_0_INR. lia.
Qed.

Lemma var_factor : forall n, (4 <= n)%nat -> 0 <= 72 * (INR n - 4) * (INR n - 5) / INR n / (INR n - 1) / (INR n - 2) / (INR n - 3) /\
  ((5 < n)%nat -> 0 < 72 * (INR n - 4) * (INR n - 5) / INR n / (INR n - 1) / (INR n - 2) / (INR n - 3)).
Proof.
  intros n Hn. assert (4 <= INR n) as H4 by (replace 4 with (INR 4) by (simpl; ring); apply le_INR; auto).
  assert (0 < / INR n /\ 0 < / (INR n - 1) /\ 0 < / (INR n - 2) /\ 0 < / (INR n - 3)) as [I0 [I1 [I2 I3]]] by (repeat split; apply Rinv_0_lt_compat; lra).
  assert (n = 4 \/ 5 <= n)%nat as [->|H5] by lia.
  - split; [|lia]. replace (INR 4) with 4 by (simpl; ring). lra.
  - assert (5 <= INR n) as G5 by (replace 5 with (INR 5) by (simpl; ring); apply le_INR; auto). unfold Rdiv. split.
    + repeat apply Rmult_le_pos; lra.
    + intro H6. assert (6 <= INR n) as G6 by (replace 6 with (INR 6) by (simpl; ring); apply le_INR; auto). repeat apply Rmult_lt_0_compat; lra.
Qed.
Lemma trace_le_sum : forall n A, (forall i j, 0 <= A i j) -> 0 <= rsumn n (fun i => rsumn n (fun j => A i j)) - rtrace n A.
Proof.
  intros n A H. unfold rtrace. rewrite <- rs_minus. apply rs_nonneg. intros i Hi.
  rewrite <- (rs_delta n i (fun j => A i j)) at 1 by auto. rewrite <- rs_minus. apply rs_nonneg. intros j Hj. specialize (H i j). destruct (Nat.eqb i j); lra.
Qed.
Lemma var_nonneg : forall n K L, (4 <= n)%nat -> 0 <= var_hsic n K L.
Proof.
  intros n K L Hn. unfold var_hsic. set (v := fun i j : nat => let x := centered n K i j * centered n L i j / 6 in x * x). cbv zeta.
  change (rsumn n (fun i => rsumn n (fun j => centered n K i j * centered n L i j / 6 * (centered n K i j * centered n L i j / 6)))) with (rsumn n (fun i => rsumn n (fun j => v i j))).
  destruct (var_factor n Hn) as [F _].
  assert (0 <= (rsumn n (fun i => rsumn n (fun j => v i j)) - rtrace n v) / INR n / (INR n - 1)) as P.
  { assert (4 <= INR n) as H4 by (replace 4 with (INR 4) by (simpl; ring); apply le_INR; auto).
    unfold Rdiv. apply Rmult_le_pos; [apply Rmult_le_pos|left; apply Rinv_0_lt_compat; lra]; [|left; apply Rinv_0_lt_compat; lra].
    apply trace_le_sum. intros. unfold v. apply Rle_0_sqr. }
  eapply Rle_trans; [exact (Rmult_le_pos _ _ P F)|]. right. unfold Rdiv. ring.
Qed.
