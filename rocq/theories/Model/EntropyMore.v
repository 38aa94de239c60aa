(** Model of entropy_loss_high_order, entropy_loss_G1 and entropy_loss_G1_high_order in
    /repo/cdmir/discovery/score_based/entropy_based/entropy_based_discovery/utils.py, lines 470-502.
    Numbers are exact reals; [None] is NaN, as in Model/EntropyLoss.v. *)

From Coq Require Import List Arith Bool Reals.
From Verif Require Import Model.Py Model.LocalScore Model.EntropyLoss.
Import ListNotations.
Open Scope nat_scope.

(** utils.py:472 and 499: [torch.var], with N - 1 in the denominator. *)
Definition tvar (l : list R) : R := let m := tmean l in (rsum (map (fun x => (x - m) * (x - m)) l) / (INR (length l) - 1))%R.
(** utils.py:473, 486 and 493: the standardised residuals. *)
Definition standard (l : list R) : list R := let m := tmean l in let s := tstd l in map (fun x => (x - m) / s)%R l.
(** utils.py:474-477 and 494-497. *)
Definition k_3 (z : list R) : R := (tmean (map (fun x => x ^ 3) z) / Rpower (tmean (map (fun x => x ^ 2) z)) (3 / 2))%R.
(** utils.py:474-478 and 494-498. *)
Definition k_4 (z : list R) : R := (tmean (map (fun x => x ^ 4) z) / Rpower (tmean (map (fun x => x ^ 2) z)) (4 / 2))%R.

(** utils.py:472-473, 486 and 493: fewer than two numbers, or equal ones, give NaN. *)
Definition guarded (f : list R -> R) (l : list R) : option R :=
  if length l <=? 1 then None else if Req_EM_T (tstd l) 0 then None else Some (f l).

(** utils.py:472-481 on the list of residuals. *)
Definition high_order_of (l : list R) : R :=
  let variance := tvar l in
  let z := standard l in
  (1 / 2 * ln variance - 1 / 12 * k_3 z ^ 2 - 1 / 48 * k_4 z ^ 2)%R.
(** utils.py:486-488 on the list of residuals. *)
Definition G1_of (l : list R) : R := let z := standard l in (- tmean (map (fun x => ln (cosh x)) z) ^ 2)%R.
(** utils.py:493-502 on the list of residuals; the variance is taken after line 493. *)
Definition G1_high_order_of (l : list R) : R :=
  let z := standard l in
  let variance := tvar z in
  (1 / 2 * ln variance - 1 / 12 * k_3 z ^ 2 - 1 / 48 * k_4 z ^ 2 - tmean (map (fun x => ln (cosh x)) z) ^ 2)%R.

(** utils.py:470-481: entropy_loss_high_order for [n] rows of [d] variables. *)
Definition high_order (n d : nat) (output input : rmat) : option R := guarded high_order_of (entries n d (fun r c => input r c - output r c)%R).
(** utils.py:484-488: entropy_loss_G1. *)
Definition G1 (n d : nat) (output input : rmat) : option R := guarded G1_of (entries n d (fun r c => input r c - output r c)%R).
(** utils.py:491-502: entropy_loss_G1_high_order. *)
Definition G1_high_order (n d : nat) (output input : rmat) : option R := guarded G1_high_order_of (entries n d (fun r c => input r c - output r c)%R).
