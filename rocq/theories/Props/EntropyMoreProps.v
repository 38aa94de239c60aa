(** C106: the other entropy losses. *)

From Coq Require Import List Arith Bool Reals Lra Lia Permutation.
From Verif Require Import Model.Py Model.LocalScore Model.EntropyLoss Model.EntropyMore Proofs.EntropyLossFacts Proofs.EntropyMoreFacts.
From Verif Require Props.EntropyLossProps.
Import ListNotations.
Open Scope R_scope.

(** The residuals of all variables and rows in one list. *)
Definition residuals (n d : nat) (out inp : rmat) : list R := entries n d (fun r c => inp r c - out r c).

Lemma guarded_some : forall f l, (1 < length l)%nat -> tstd l <> 0 -> guarded f l = Some (f l).
Proof. intros f l H N. unfold guarded. rewrite (proj2 (Nat.leb_gt (length l) 1)) by assumption. destruct (Req_EM_T (tstd l) 0); [contradiction|reflexivity]. Qed.

Lemma guarded_inv : forall f l v, guarded f l = Some v -> (1 < length l)%nat /\ tstd l <> 0 /\ v = f l.
Proof. intros f l v. unfold guarded. destruct (Nat.leb_spec (length l) 1); [discriminate|]. destruct (Req_EM_T (tstd l) 0); [discriminate|]. intros E. injection E as <-. auto. Qed.

Lemma guarded_affine : forall f g a b l, a <> 0 -> (forall l, (1 < length l)%nat -> tstd l <> 0 -> f (map (fun x => a * x + b) l) = f l + g) ->
  guarded f (map (fun x => a * x + b) l) = match guarded f l with Some v => Some (v + g) | None => None end.
Proof.
  intros f g a b l A H. unfold guarded. rewrite map_length. destruct (Nat.leb_spec (length l) 1) as [|L]; [reflexivity|]. rewrite tstd_affine by (apply nonempty; assumption). pose proof (Rabs_no_R0 a A).
  destruct (Req_EM_T (tstd l) 0) as [E|E].
  - rewrite E, Rmult_0_r. destruct (Req_EM_T 0 0); [reflexivity|lra].
  - destruct (Req_EM_T (Rabs a * tstd l) 0) as [Z|_]; [apply Rmult_integral in Z; tauto|]. rewrite H by assumption. reflexivity.
Qed.

(** ** Units
    Residuals in other units (times [a], plus [b]): entropy_loss_high_order changes by ln |a|, as an entropy does.  entropy_loss_G1 and
    entropy_loss_G1_high_order do not change at all: for them a model with residuals a thousand times larger is as good. *)
Theorem C106_units : forall n d out inp out' inp' a b, a <> 0 ->
  (forall r c, (r < n)%nat -> (c < d)%nat -> inp' r c - out' r c = a * (inp r c - out r c) + b) ->
  high_order n d out' inp' = (match high_order n d out inp with Some v => Some (v + ln (Rabs a)) | None => None end) /\
  G1 n d out' inp' = G1 n d out inp /\ G1_high_order n d out' inp' = G1_high_order n d out inp.
Proof.
  intros n d out inp out' inp' a b A H. unfold high_order, G1, G1_high_order.
  rewrite (EntropyLossProps.entries_map n d (fun x => a * x + b) (fun r c => inp r c - out r c) (fun r c => inp' r c - out' r c)) by assumption.
  set (l := entries n d (fun r c => inp r c - out r c)).
  assert (Z : forall o : option R, match o with Some v => Some (v + 0) | None => None end = o) by (intros [v|]; [rewrite Rplus_0_r|]; reflexivity).
  split; [|split].
  - apply guarded_affine; [assumption|]. intros k L N. unfold high_order_of. rewrite standard_affine, tvar_affine by assumption.
    destruct (k_sign (a / Rabs a) (standard k) (sign_cases a A)) as (K3 & K4 & _). rewrite K3, K4. destruct (tvar_pos k L N) as [V _].
    assert (A2 : 0 < a * a) by (apply Rsqr_pos_lt; assumption). rewrite ln_mult by assumption.
    assert (E : ln (a * a) = 2 * ln (Rabs a)).
    { pose proof (Rabs_pos_lt a A) as P. replace (a * a) with (Rabs a * Rabs a) by (rewrite <- Rabs_mult, Rabs_right; [reflexivity|lra]). rewrite ln_mult by assumption. ring. }
    rewrite E. field.
  - rewrite (guarded_affine _ 0); [apply Z|assumption|]. intros k L N. unfold G1_of. rewrite standard_affine by assumption.
    destruct (k_sign (a / Rabs a) (standard k) (sign_cases a A)) as (_ & _ & K). rewrite K. ring.
  - rewrite (guarded_affine _ 0); [apply Z|assumption|]. intros k L N. unfold G1_high_order_of.
    rewrite (standard_var (map (fun x => a * x + b) k)); [|rewrite map_length; assumption|rewrite tstd_affine by (apply nonempty; assumption); intros E; apply Rmult_integral in E; pose proof (Rabs_no_R0 a A); tauto].
    rewrite standard_affine, standard_var by assumption.
    destruct (k_sign (a / Rabs a) (standard k) (sign_cases a A)) as (K3 & K4 & K). rewrite K3, K4, K. ring.
Qed.
Print Assumptions C106_units.

(** ** The variance term of the combined loss is 0
    entropy_loss_G1_high_order is the sum of the two other losses without the logarithm of the variance of the residuals. *)
Theorem C106_no_variance : forall n d out inp h g, high_order n d out inp = Some h -> G1 n d out inp = Some g ->
  let l := residuals n d out inp in
  let variance := rsum (map (fun e => (e - tmean l) * (e - tmean l)) l) / (INR (n * d) - 1) in
  0 < variance /\ G1_high_order n d out inp = Some (h + g - ln variance / 2).
Proof.
  intros n d out inp h g Hh Hg l variance. apply guarded_inv in Hh as (L & N & ->). apply guarded_inv in Hg as (_ & _ & ->). fold l in L, N.
  assert (Ev : variance = tvar l) by (unfold variance, tvar; f_equal; f_equal; f_equal; unfold l, residuals; rewrite EntropyLossProps.entries_len; reflexivity).
  rewrite Ev. split; [apply tvar_pos; assumption|]. unfold G1_high_order. fold l. change (entries n d (fun r c => inp r c - out r c)) with l. rewrite guarded_some by assumption. f_equal.
  unfold G1_high_order_of, high_order_of, G1_of. rewrite standard_var, ln_1 by assumption. field.
Qed.
Print Assumptions C106_no_variance.

(** ** Bounds
    The fourth moment enters without the 3 of the normal distribution, so it lowers the first loss by at least 1/48 for all residuals; the second lies between -1 and 0,
    and the third is below -1/48. *)
Theorem C106_bounds : forall n d out inp h g c, high_order n d out inp = Some h -> G1 n d out inp = Some g -> G1_high_order n d out inp = Some c ->
  let l := residuals n d out inp in
  let variance := rsum (map (fun e => (e - tmean l) * (e - tmean l)) l) / (INR (n * d) - 1) in
  h <= ln variance / 2 - 1 / 48 /\ -1 < g < 0 /\ c < - (1 / 48).
Proof.
  intros n d out inp h g c Hh Hg Hc l variance. destruct (C106_no_variance n d out inp h g Hh Hg) as [V E]. fold l in V, E. fold variance in V, E. rewrite Hc in E. injection E as ->.
  apply guarded_inv in Hh as (L & N & ->). apply guarded_inv in Hg as (_ & _ & ->). fold l in L, N. change (entries n d (fun r c => inp r c - out r c)) with l in *.
  assert (Ev : variance = tvar l) by (unfold variance, tvar; f_equal; f_equal; f_equal; unfold l, residuals; rewrite EntropyLossProps.entries_len; reflexivity).
  pose proof (k_4_ge l L N) as K4. pose proof (mean_lncosh l L N) as M. unfold high_order_of, G1_of. rewrite <- Ev.
  pose proof (Rle_0_sqr (k_3 (standard l))) as K3. unfold Rsqr in K3. set (k3 := k_3 (standard l)) in *. set (k4 := k_4 (standard l)) in *. set (m := tmean (map (fun x => ln (cosh x)) (standard l))) in *.
  assert (1 <= k4 * k4) by nra. assert (0 < m * m < 1) by nra. replace (k3 ^ 2) with (k3 * k3) by ring. replace (k4 ^ 2) with (k4 * k4) by ring. replace (m ^ 2) with (m * m) by ring. lra.
Qed.
Print Assumptions C106_bounds.

(** ** NaN
    Each of the three gives NaN exactly for at most one residual or equal residuals. *)
Theorem C106_nan : forall n d out inp, let nan := (n * d <= 1)%nat \/ exists e, forall r c, (r < n)%nat -> (c < d)%nat -> inp r c - out r c = e in
  (high_order n d out inp = None <-> nan) /\ (G1 n d out inp = None <-> nan) /\ (G1_high_order n d out inp = None <-> nan).
Proof.
  intros n d out inp nan. pose proof (EntropyLossProps.C83_nan n d out inp) as H. fold nan in H.
  assert (K : forall f, guarded f (entries n d (fun r c => inp r c - out r c)) = None <-> nan).
  { intros f. rewrite <- H. unfold mentappr, loss_of, guarded. destruct (Nat.leb _ 1); [tauto|]. cbv zeta. destruct (Req_EM_T _ 0); [tauto|]. split; discriminate. }
  split; [|split]; apply K.
Qed.
Print Assumptions C106_nan.

(** ** A case
    Two rows of two variables with the residuals 1, 0, 0, 0: all three losses are numbers. *)
Definition eg_zero : rmat := fun _ _ => 0.
Definition eg_one : rmat := fun r c => match r, c with O, O => 1 | _, _ => 0 end.

Example C106_example : exists h g c, high_order 2 2 eg_zero eg_one = Some h /\ G1 2 2 eg_zero eg_one = Some g /\ G1_high_order 2 2 eg_zero eg_one = Some c /\
  high_order 2 2 eg_zero (fun r c => 1000 * eg_one r c) = Some (h + ln 1000) /\ G1_high_order 2 2 eg_zero (fun r c => 1000 * eg_one r c) = Some c.
Proof.
  assert (N : ~ ((2 * 2 <= 1)%nat \/ exists e, forall r c, (r < 2)%nat -> (c < 2)%nat -> eg_one r c - eg_zero r c = e)).
  { intros [L|[e E]]; [lia|]. pose proof (E O O ltac:(lia) ltac:(lia)) as E0. pose proof (E 1%nat O ltac:(lia) ltac:(lia)) as E1. cbn in E0, E1. unfold eg_zero in *. lra. }
  destruct (C106_nan 2 2 eg_zero eg_one) as (A & B & C). destruct (high_order 2 2 eg_zero eg_one) as [h|] eqn:H; [|tauto]. destruct (G1 2 2 eg_zero eg_one) as [g|]; [|tauto]. destruct (G1_high_order 2 2 eg_zero eg_one) as [c|] eqn:Hc; [|tauto].
  exists h, g, c. split; [reflexivity|]. split; [reflexivity|]. split; [reflexivity|].
  destruct (C106_units 2 2 eg_zero eg_one eg_zero (fun r c => 1000 * eg_one r c) 1000 0) as (U1 & _ & U3); [lra|intros; unfold eg_zero; ring|]. rewrite H in U1. rewrite Hc in U3. rewrite Rabs_right in U1 by lra. split; assumption.
Qed.
