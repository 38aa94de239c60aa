(** Facts about the entropy loss. *)

From Coq Require Import List Arith Bool Lia Reals Lra Permutation.
From Verif Require Import Model.Py Model.LocalScore Model.EntropyLoss.
Import ListNotations.
Open Scope nat_scope.

Lemma rsum_perm : forall l l', Permutation l l' -> rsum l = rsum l'.
Proof. intros l l' H. induction H; simpl in *; lra. Qed.

Lemma rsum_affine : forall a b l, rsum (map (fun x => a * x + b)%R l) = (a * rsum l + INR (length l) * b)%R.
Proof. induction l as [|x l IH]; [simpl; lra|]. cbn [map rsum fold_right length]. unfold rsum in *. rewrite IH, S_INR. lra. Qed.

Lemma rsum_scale : forall a (f : R -> R) l, rsum (map (fun x => a * f x)%R l) = (a * rsum (map f l))%R.
Proof. induction l as [|x l IH]; simpl; [lra|]. rewrite IH. lra. Qed.

Lemma rsum_map_ext : forall (f g : R -> R) l, (forall x, In x l -> f x = g x) -> rsum (map f l) = rsum (map g l).
Proof. intros f g l H. f_equal. apply map_ext_in. auto. Qed.

Lemma rsum_sq_nonneg : forall m l, (0 <= rsum (map (fun x => (x - m) * (x - m)) l))%R.
Proof. induction l as [|x l IH]; simpl; [lra|]. pose proof (Rle_0_sqr (x - m)). unfold Rsqr in *. lra. Qed.

Lemma tmean_perm : forall l l', Permutation l l' -> tmean l = tmean l'.
Proof. intros l l' H. unfold tmean. rewrite (rsum_perm _ _ H), (Permutation_length H). auto. Qed.

Lemma tmean_affine : forall a b l, l <> [] -> tmean (map (fun x => a * x + b)%R l) = (a * tmean l + b)%R.
Proof.
  intros a b l H. unfold tmean. rewrite rsum_affine, map_length. assert (INR (length l) <> 0%R) as N.
  { apply not_0_INR. destruct l; [contradiction|simpl; lia]. }
  field. auto.
Qed.

Lemma tstd_perm : forall l l', Permutation l l' -> tstd l = tstd l'.
Proof.
  intros l l' H. unfold tstd. rewrite (tmean_perm _ _ H), (Permutation_length H). f_equal. f_equal. apply rsum_perm.
  apply Permutation_map. auto.
Qed.

Lemma tstd_affine : forall a b l, l <> [] -> tstd (map (fun x => a * x + b)%R l) = (Rabs a * tstd l)%R.
Proof.
  intros a b l H. unfold tstd. rewrite tmean_affine, map_length, map_map by auto.
  rewrite (map_ext _ (fun x => (a * a) * ((x - tmean l) * (x - tmean l)))%R) by (intro; ring). rewrite rsum_scale.
  rewrite <- (sqrt_Rsqr_abs a), <- sqrt_mult_alt by apply Rle_0_sqr. f_equal. unfold Rsqr, Rdiv. ring.
Qed.

Lemma negentropy_perm : forall l l', Permutation l l' -> negentropy l = negentropy l'.
Proof.
  intros l l' H. unfold negentropy.
  rewrite (tmean_perm _ _ (Permutation_map (fun x => exp (- (x * x) / 2))%R H)), (tmean_perm _ _ (Permutation_map (fun x => x * exp (- x * x / 2))%R H)). auto.
Qed.

Lemma negentropy_sign : forall s l, (s = 1 \/ s = -1)%R -> negentropy (map (fun x => s * x)%R l) = negentropy l.
Proof.
  intros s l Hs. unfold negentropy. rewrite !map_map.
  rewrite (map_ext (fun x => exp (- (s * x * (s * x)) / 2))%R (fun x => exp (- (x * x) / 2))%R).
  2: { intro x. f_equal. replace (s * x * (s * x))%R with ((s * s) * (x * x))%R by ring. replace (s * s)%R with 1%R by (destruct Hs as [-> | ->]; lra). lra. }
  rewrite (map_ext (fun x => s * x * exp (- (s * x) * (s * x) / 2))%R (fun x => s * (x * exp (- x * x / 2)))%R).
  2: { intro x. replace (- (s * x) * (s * x))%R with (- x * x)%R; [ring|]. destruct Hs as [-> | ->]; ring. }
  unfold tmean. rewrite (rsum_scale s (fun x => x * exp (- x * x / 2))%R), !map_length.
  set (e := rsum (map (fun x => x * exp (- x * x / 2))%R l)). set (n := INR (length l)).
  replace (s * e / n * (s * e / n))%R with ((s * s) * (e / n * (e / n)))%R by (unfold Rdiv; ring).
  replace (s * s)%R with 1%R by (destruct Hs as [-> | ->]; lra). ring.
Qed.

Lemma loss_perm : forall l l', Permutation l l' -> loss_of l = loss_of l'.
Proof.
  intros l l' H. unfold loss_of. rewrite (Permutation_length H), (tstd_perm _ _ H), (tmean_perm _ _ H).
  destruct (length l' <=? 1); auto. destruct (Req_EM_T (tstd l') 0); auto. f_equal. f_equal. f_equal. apply negentropy_perm.
  apply Permutation_map. auto.
Qed.

Lemma tstd_nonneg : forall l, (0 <= tstd l)%R.
Proof. intro. apply sqrt_pos. Qed.

Lemma loss_affine : forall a b l, a <> 0%R ->
  loss_of (map (fun x => a * x + b)%R l) = match loss_of l with Some v => Some (v + ln (Rabs a))%R | None => None end.
Proof.
  intros a b l Ha. unfold loss_of. rewrite map_length. destruct (Nat.leb_spec (length l) 1) as [|L]; auto.
  assert (l <> []) as NE by (destruct l; [simpl in L; lia|discriminate]). rewrite tstd_affine, tmean_affine by auto.
  assert (0 < Rabs a)%R as PA by (apply Rabs_pos_lt; auto). pose proof (tstd_nonneg l) as PS.
  destruct (Req_EM_T (tstd l) 0) as [Z|NZ].
  - rewrite Z, Rmult_0_r. destruct (Req_EM_T 0 0); [auto|contradiction].
  - destruct (Req_EM_T (Rabs a * tstd l) 0) as [Z|_]; [exfalso; apply Rmult_integral in Z; lra|]. f_equal.
    rewrite ln_mult by lra. rewrite map_map.
    rewrite (map_ext _ (fun x => (a / Rabs a) * ((x - tmean l) / tstd l))%R) by (intro; field; lra).
    rewrite <- (map_map (fun x => (x - tmean l) / tstd l)%R (fun x => a / Rabs a * x)%R), negentropy_sign; [ring|].
    unfold Rabs. destruct (Rcase_abs a); [right|left]; field; auto; lra.
Qed.

Lemma negentropy_nonneg : forall z, (0 <= negentropy z)%R.
Proof.
  intro z. unfold negentropy. cbv zeta. set (a := (_ - con)%R). set (b := tmean _).
  pose proof (Rle_0_sqr a). pose proof (Rle_0_sqr b). unfold Rsqr in *.
  assert (0 <= k2 * (a * a))%R by (apply Rmult_le_pos; auto; unfold k2; lra).
  assert (0 <= k1 * (b * b))%R by (apply Rmult_le_pos; auto; unfold k1; lra). lra.
Qed.

Lemma sq_zero : forall m l, rsum (map (fun x => (x - m) * (x - m))%R l) = 0%R -> forall x, In x l -> x = m.
Proof.
  induction l as [|y l IH]; simpl; intros H x Hx; [contradiction|].
  pose proof (rsum_sq_nonneg m l) as P. pose proof (Rle_0_sqr (y - m)) as P2. unfold Rsqr in P2.
  destruct Hx as [<-|Hx]; [|apply IH; auto; lra]. assert ((y - m) * (y - m) = 0)%R as Z by lra. apply Rmult_integral in Z. lra.
Qed.

Lemma tmean_const : forall c l, l <> [] -> (forall x, In x l -> x = c) -> tmean l = c.
Proof.
  intros c l NE H. unfold tmean. assert (rsum l = INR (length l) * c)%R as ->.
  { clear NE. induction l as [|x l IH]; [simpl; lra|]. cbn [length]. rewrite S_INR. simpl. rewrite IH by (intros; apply H; simpl; auto).
    rewrite (H x) by (simpl; auto). lra. }
  field. apply not_0_INR. destruct l; [contradiction|simpl; lia].
Qed.

Lemma loss_nan : forall l, loss_of l = None <-> length l <= 1 \/ exists c, forall x, In x l -> x = c.
Proof.
  intro l. unfold loss_of. destruct (Nat.leb_spec (length l) 1) as [L|L]; [tauto|].
  assert (l <> []) as NE by (destruct l; [simpl in L; lia|discriminate]).
  assert (0 < INR (length l) - 1)%R as P by (apply lt_INR in L; simpl in L; lra).
  destruct (Req_EM_T (tstd l) 0) as [Z|NZ].
  - split; auto. intros _. right. exists (tmean l). apply sq_zero. unfold tstd in Z. apply sqrt_eq_0 in Z.
    + apply (Rmult_eq_compat_r (INR (length l) - 1)) in Z. unfold Rdiv in Z. rewrite Rmult_assoc, Rinv_l in Z by lra. lra.
    + apply Rmult_le_pos; [apply rsum_sq_nonneg|]. apply Rlt_le, Rinv_0_lt_compat; auto.
  - split; [discriminate|]. intros [H|[c H]]; [lia|]. exfalso. apply NZ. unfold tstd. rewrite (tmean_const c l NE H).
    rewrite (rsum_map_ext _ (fun _ => 0 * 0)%R) by (intros x Hx; rewrite (H x Hx); ring). rewrite (rsum_scale 0 (fun _ => 0%R)).
    replace (0 * _ / _)%R with 0%R by (unfold Rdiv; ring). apply sqrt_0.
Qed.
