(** Model of the acyclicity penalties and of the optimisation loop in
    /repo/cdmir/discovery/score_based/entropy_based/entropy_based_discovery:
    linear.py, nonlinear.py and linear_ent.py.

    Numbers are rationals.  The numerical optimiser (linear.py:82) is a function
    argument; the loss functions are not modelled. *)

From Coq Require Import List Arith Bool QArith Qabs Qround.
From Verif Require Import Model.Py Model.SHP Model.Matrix.
Import ListNotations.
Open Scope nat_scope.
Open Scope res_scope.

(** [d] as a number. *)
Definition qnat (d : nat) : Q := inject_Z (Z.of_nat d).

(** linear.py:51, nonlinear.py:58, 136, linear_ent.py:86: [np.eye(d) + A / d]. *)
Definition penalty_matrix (d : nat) (A : qmat) : qmat := fun i j => (meye i j + A i j / qnat d)%Q.

(** linear.py:52-53, nonlinear.py:59-60, 137-138, linear_ent.py:99-100:
    [E = matrix_power(M, d - 1)] and [(E.T * M).sum() - d], for [d >= 1]. *)
Definition penalty (d : nat) (A : qmat) : Q :=
  let M := penalty_matrix d A in
  let E := mpow d M (d - 1) in
  (msum d (fun i => msum d (fun j => mmul (mT E) M i j)) - qnat d)%Q.

(** linear.py:46-55 (_h): the value and the gradient for the weights [W]. *)
Definition h_linear (d : nat) (W : qmat) : Q := penalty d (mmul W W).
Definition grad_h_linear (d : nat) (W : qmat) : qmat :=
  let E := mpow d (penalty_matrix d (mmul W W)) (d - 1) in
  fun i j => (mmul (mT E) W i j * 2)%Q.

(** nonlinear.py:51-61 (NotearsMLP.h_func): [w] is the first-layer weight
    [fc1_pos.weight - fc1_neg.weight] of shape [d * m1, d]; [view(d, -1, d)]
    makes row [j * m1 + m] the entry [j, m]. *)
Definition mlp_A (m1 : nat) (w : qmat) : qmat :=
  fun i j => msum m1 (fun m => w (j * m1 + m)%nat i * w (j * m1 + m)%nat i)%Q.
Definition h_mlp (d m1 : nat) (w : qmat) : Q := penalty d (mlp_A m1 w).

(** nonlinear.py:131-139 (NotearsSobolev.h_func): the weight has shape
    [d, d * k]; [view(d, d, k)] makes column [i * k + m] of row [j] the entry
    [j, i, m]. *)
Definition sobolev_A (k : nat) (w : qmat) : qmat :=
  fun i j => msum k (fun m => w j (i * k + m)%nat * w j (i * k + m)%nat)%Q.
Definition h_sobolev (d k : nat) (w : qmat) : Q := penalty d (sobolev_A k w).

(** linear_ent.py:83-90 (linear_nonGauss.h_func): the trace of the [d]-th power;
    [weight_train().t()] is the transpose of the layer weight [w]. *)
Definition h_ent (d : nat) (w : qmat) : Q :=
  let A := mmul (mT w) (mT w) in
  (mtrace d (mpow d (penalty_matrix d A) d) - qnat d)%Q.

(* ---------- the optimisation loop of linear.py ---------- *)
(** linear.py:57-59 (_adj): the doubled vector of length 2 d^2 as a matrix. *)
Definition adj_of (d : nat) (w : nat -> Q) : qmat :=
  fun i j => (w (i * d + j)%nat - w (d * d + (i * d + j))%nat)%Q.

(** [h_new > 0.25 * h], where [h] starts as infinity (linear.py:75, 85). *)
Definition insufficient (h_new : Q) (h : option Q) : bool :=
  match h with None => false | Some h0 => negb (Qle_bool h_new ((1 # 4) * h0)) end.

(** linear.py:81-88: the inner loop, on fuel; [solve rho alpha w] is the
    minimiser that the optimiser returns when it starts from [w].  The result
    is the new [rho] and the pair [w_new, h_new], absent if the loop body never
    ran. *)
Fixpoint inner_loop (fuel : nat) (d : nat) (solve : Q -> Q -> (nat -> Q) -> (nat -> Q)) (rho_max alpha : Q)
    (w : nat -> Q) (h : option Q) (rho : Q) (last : option ((nat -> Q) * Q)) : res (Q * option ((nat -> Q) * Q)) :=
  if negb (Qle_bool rho_max rho) then
    match fuel with
    | 0 => Err OutOfFuel
    | S f =>
        let w_new := solve rho alpha w in
        let h_new := h_linear d (adj_of d w_new) in
        if insufficient h_new h then inner_loop f d solve rho_max alpha w h (rho * 10)%Q (Some (w_new, h_new))
        else Ok (rho, Some (w_new, h_new))
    end
  else Ok (rho, last).

(** Fuel for the inner loop: [rho] starts at 1 or more and grows tenfold. *)
Definition inner_fuel (rho_max : Q) : nat := Z.to_nat (Z.log2_up (Qceiling rho_max)).

(** linear.py:79-92: the outer loop; [alpha += rho * h] raises TypeError when
    [h] is [None].  The result is the last [w_est]. *)
Fixpoint outer_loop (iters : nat) (d : nat) (solve : Q -> Q -> (nat -> Q) -> (nat -> Q)) (h_tol rho_max : Q)
    (w : nat -> Q) (rho alpha : Q) (h : option Q) : res (nat -> Q) :=
  match iters with
  | 0 => Ok w
  | S k =>
      r <-? inner_loop (inner_fuel rho_max) d solve rho_max alpha w h rho None ;;
      match snd r with
      | None => Err TypeError
      | Some (w', h') =>
          let rho' := fst r in
          if Qle_bool h' h_tol || Qle_bool rho_max rho' then Ok w'
          else outer_loop k d solve h_tol rho_max w' rho' (alpha + rho' * h')%Q (Some h')
      end
  end.

(** linear.py:95: [W_est[np.abs(W_est) < w_threshold] = 0]. *)
Definition threshold (t : Q) (W : qmat) : qmat :=
  fun i j => if negb (Qle_bool t (Qabs (W i j))) then 0%Q else W i j.

(** linear.py:10-96 (notears_linear). *)
Definition notears_linear (d max_iter : nat) (solve : Q -> Q -> (nat -> Q) -> (nat -> Q)) (h_tol rho_max w_threshold : Q) : res qmat :=
  w <-? outer_loop max_iter d solve h_tol rho_max (fun _ => 0%Q) 1 0 None ;;
  Ok (threshold w_threshold (adj_of d w)).
