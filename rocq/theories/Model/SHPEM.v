(** Model of the estimation in SHP.EM (/repo/cdmir/discovery/point_process/SHP.py:151-202) in exact reals, for one event type
    that is not in the table of likelihoods yet.  Model/SHP.v has the same loop in rationals with an abstract logarithm, and
    the search around it.  [np.log] is the logarithm of positive numbers; Proofs/SHPEMFacts.v shows that no other number
    reaches it if the total time is positive. *)

From Coq Require Import List Arith Bool ZArith QArith Qcanon Reals Qreals.
From Verif Require Import Model.Py Model.Graph Model.LocalScore Model.SHPTable.
Import ListNotations.
Open Scope nat_scope.
Open Scope res_scope.

(** The attributes that EM reads (SHP.py:39-85). *)
Record em_data : Type := EMData {
  e_n : nat;                (* len(self.event_names) *)
  e_rows : nat;             (* len(self.X) *)
  e_X : nat -> nat -> R;    (* self.X *)
  e_S : nat -> nat -> R;    (* self.sum_t_X_kappa *)
  e_D : nat -> nat -> R;    (* self.decay_effect_integral_to_T *)
  e_decay : R;              (* self.decay *)
  e_T : R;                  (* self.T *)
  e_interval : option R     (* self.time_interval *)
}.
(** The attributes after the constructor (SHP.py:29-85). *)
Definition em_data_of (P : prepared) (decay : R) (time_interval : option (Qc * kind)) : em_data :=
  EMData (length (p_names P)) (length (p_X P))
    (fun r j => match nth_error (p_X P) r with Some (_, row) => INR (nth j row O) | None => 0%R end)
    (p_S P)
    (fun r j => match nth_error (p_D P) r with Some d => d j | None => 0%R end)
    decay (Qc2R (p_T P)) (option_map (fun dk => Qc2R (fst dk)) time_interval).

(** SHP.py:171. *)
Definition lambda_for (d : em_data) (alpha : nat -> R) (mu : R) (r : nat) : R :=
  (rsumn (e_n d) (fun j => e_S d r j * alpha j) + mu)%R.
(** SHP.py:173-177: the likelihood that is reported. *)
Definition new_Li (d : em_data) (i : nat) (alpha : nat -> R) (mu : R) : R :=
  let X_log_lambda := rsumn (e_rows d) (fun r => e_X d r i * ln (lambda_for d alpha mu r))%R in
  let lambda_i_sum := (rsumn (e_n d) (fun j => rsumn (e_rows d) (fun r => 1 / e_decay d * e_X d r j) * alpha j) + mu * e_T d)%R in
  (- lambda_i_sum + X_log_lambda)%R.
(** SHP.py:192. *)
Definition update_mu (d : em_data) (i : nat) (lam : nat -> R) (mu : R) : R :=
  (rsumn (e_rows d) (fun r => mu / lam r * e_X d r i) / e_T d)%R.
(** SHP.py:194-202. *)
Definition update_alpha (d : em_data) (i : nat) (Pa : list nat) (lam : nat -> R) (alpha : nat -> R) : res (nat -> R) :=
  fold_left (fun (c : res (nat -> R)) j =>
    a <-? c ;;
    match e_interval d with
    | None => Err TypeError
    | Some dt =>
        let upper := rsumn (e_rows d) (fun r => a j * e_S d r j / lam r * e_X d r i)%R in
        let lower := (rsumn (e_rows d) (fun r => e_D d r j) * dt)%R in
        Ok (fun k => if Nat.eqb k j then (if Req_EM_T lower 0 then 0 else upper / lower)%R else a k)
    end) Pa (Ok alpha).
(** SHP.py:167-202: [while 1: ..].  [Li = None] stands for minus infinity. *)
Fixpoint em_loop (fuel : nat) (d : em_data) (i : nat) (Pa : list nat) (Li : option R) (alpha : nat -> R) (mu : R) : res (R * (nat -> R) * R) :=
  match fuel with
  | 0 => Err OutOfFuel
  | S f =>
      let nl := new_Li d i alpha mu in
      if match Li with None => false | Some l => if Rlt_dec (nl - l) (85 / 10000) then true else false end
      then Ok (nl, alpha, mu)
      else
        let lam := lambda_for d alpha mu in
        alpha' <-? update_alpha d i Pa lam alpha ;;
        em_loop f d i Pa (Some nl) alpha' (update_mu d i lam mu)
  end.
(** SHP.py:151-202: the start for type [i] with the causes [Pa] (line 158) and the random numbers of line 151, which line 152
    keeps at the causes only; mu starts with 1 (line 153). *)
Definition em_type (fuel : nat) (d : em_data) (rand : nat -> R) (i : nat) (Pa : list nat) : res (R * (nat -> R) * R) :=
  em_loop fuel d i Pa None (fun j => if memb j Pa then rand j else 0%R) 1%R.
