(** Model of entropy_loss_mentappr in
    /repo/cdmir/discovery/score_based/entropy_based/entropy_based_discovery/utils.py.
    Numbers are exact reals. *)

From Coq Require Import List Arith Bool Reals.
From Verif Require Import Model.Py Model.LocalScore.
Import ListNotations.
Open Scope nat_scope.

(** utils.py:507-509: the entries of an [n] by [d] tensor, over all of which
    [torch.mean] and [torch.std] without a dimension run. *)
Definition entries (n d : nat) (x : rmat) : list R := flat_map (fun r => map (x r) (seq 0 d)) (seq 0 n).

(** utils.py:509, 522-523: [torch.mean]. *)
Definition tmean (l : list R) : R := (rsum l / INR (length l))%R.
(** utils.py:508: [torch.std], with N - 1 in the denominator. *)
Definition tstd (l : list R) : R :=
  let m := tmean l in sqrt (rsum (map (fun x => (x - m) * (x - m)) l) / (INR (length l) - 1))%R.

(** utils.py:512: the entropy of the normal distribution. *)
Definition gaussianEntropy : R := 1.4189385332046727%R.
(** utils.py:514. *)
Definition k1 : R := 7.412888581800331%R.
(** utils.py:521. *)
Definition k2 : R := 33.66942333606287%R.
(** utils.py:521. *)
Definition con : R := 0.7071067811865476%R.

(** utils.py:522-523, for the standardised residuals. *)
Definition negentropy (z : list R) : R :=
  let a := (tmean (map (fun x => exp (- (x * x) / 2)) z) - con)%R in
  let b := tmean (map (fun x => x * exp (- x * x / 2))%R z) in
  (k2 * (a * a) + k1 * (b * b))%R.

(** utils.py:507-526 on the list of residuals; [None] is NaN: the standard
    deviation of fewer than two numbers is NaN, and with deviation 0 line 509 divides
    0 by 0. *)
Definition loss_of (l : list R) : option R :=
  if length l <=? 1 then None
  else
    let residual_std := tstd l in
    if Req_EM_T residual_std 0 then None
    else
      let m := tmean l in
      let z := map (fun x => (x - m) / residual_std)%R l in
      Some (gaussianEntropy - negentropy z + ln residual_std)%R.

(** utils.py:506-526 (entropy_loss_mentappr) for [n] rows of [d] variables. *)
Definition mentappr (n d : nat) (output input : rmat) : option R :=
  loss_of (entries n d (fun r c => input r c - output r c)%R).
