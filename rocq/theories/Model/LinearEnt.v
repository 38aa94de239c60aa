(** Model of linear_ent.py in
    /repo/cdmir/discovery/score_based/entropy_based/entropy_based_discovery:
    linear_nonGauss, LBFGSB, train_LBFGSB and train_dam, with the module constants
    [pos_neg = True], [is_cuda = False], [debug = False] (lines 13-16).

    Numbers are rationals.  The optimiser and the entropy loss are function
    arguments; automatic differentiation is part of the optimiser. *)

From Coq Require Import List Arith Bool QArith Qabs.
From Verif Require Import Model.Py Model.SHP Model.Matrix Model.Notears Model.NotearsNet.
Import ListNotations.
Open Scope nat_scope.
Open Scope res_scope.

(** linear_ent.py:41-51 (_bounds). *)
Definition lin_bounds (d : nat) : list bound :=
  flat_map (fun j => map (fun i => if Nat.eqb i j then (Some 0%Q, Some 0%Q) else (Some 0%Q, None)) (seq 0 d)) (seq 0 d).

(** linear_ent.py:21-34 (__init__): the weights start at 0, the biases, if any, at
    random values [init]. *)
Definition lin_init (bias : bool) (init : nat -> nat -> Q) (d : nat) : list param :=
  let w := Param (repeat 0%Q (d * d)) (Some (lin_bounds d)) in
  if bias then [w; fresh init 1 d None; w; fresh init 3 d None] else [w; w].

(** linear_ent.py:62-67 (weight_train), of shape [d, d]: row [j] predicts variable [j]. *)
Definition lin_weight (bias : bool) (d : nat) (ps : list param) : qmat := fun j i =>
  (entry (par ps 0) (j * d + i) - entry (par ps (neg_at bias)) (j * d + i))%Q.

(** linear_ent.py:53-60 (weight_test): transposed. *)
Definition weight_test (bias : bool) (d : nat) (ps : list param) : qmat := fun i j => lin_weight bias d ps j i.

(** linear_ent.py:83-90 (h_func), on the parameters. *)
Definition lin_h (bias : bool) (d : nat) (ps : list param) : Q := h_ent d (lin_weight bias d ps).

(** linear_ent.py:103-109 (forward): the prediction for variable [j] in row [r]. *)
Definition lin_forward (bias : bool) (d : nat) (ps : list param) (x : nat -> nat -> Q) (r j : nat) : Q :=
  (linear_out d (par ps 0) (if bias then Some (par ps 1) else None) x r j
   - linear_out d (par ps (neg_at bias)) (if bias then Some (par ps 3) else None) x r j)%Q.

(** linear_ent.py:69-72 (abs_L1). *)
Definition abs_L1 (bias : bool) (d : nat) (ps : list param) : Q :=
  msum d (fun j => msum d (fun i => Qabs (lin_weight bias d ps j i))).

(** linear_ent.py:79-81, 108 (L2): what forward stored, for [n] rows of data. *)
Definition L2 (n d : nat) (x : nat -> nat -> Q) : Q := (msum n (fun r => msum d (fun i => x r i * x r i)) / qnat n)%Q.

(** linear_ent.py:112-115 (squared_loss). *)
Definition squared_loss (n d : nat) (output target : nat -> nat -> Q) : Q :=
  ((1 # 2) / qnat n * msum n (fun r => msum d (fun i => (output r i - target r i) * (output r i - target r i))))%Q.

(** linear_ent.py:156-165: the objective; [ent] is entropy_loss_mentappr. *)
Definition objective (ent : (nat -> nat -> Q) -> (nat -> nat -> Q) -> Q) (bias : bool) (n d : nat) (x : nat -> nat -> Q)
    (lambda1 lambda2 beta gama rho alpha : Q) (ps : list param) : Q :=
  let x_hat := lin_forward bias d ps x in
  let h_val := lin_h bias d ps in
  let penalty := ((1 # 2) * rho * h_val * h_val + alpha * h_val)%Q in
  let l2_reg := ((1 # 2) * lambda2 * L2 n d x)%Q in
  let l1_reg := (lambda1 * abs_L1 bias d ps)%Q in
  (beta * ent x_hat x + gama * squared_loss n d x_hat x + penalty + l2_reg + l1_reg)%Q.

(** linear_ent.py:204-211: one step of annealing. *)
Definition anneal_beta (anneal : bool) (beta : Q) : Q :=
  if anneal && negb (Qle_bool beta (1 # 10)) then (beta - (1 # 10))%Q else beta.

(** linear_ent.py:205-220: the outer loop.  LBFGSB (lines 151-184) is the same code
    as dual_ascent_step of nonlinear.py but for the objective, which depends on
    [beta] as well.  The result also lists the values of [beta] used. *)
Fixpoint train_loop (iters : nat) (minimize : Q -> Q -> Q -> list bound -> list Q -> list Q) (hf : list param -> Q)
    (h_tol rho_max : Q) (anneal : bool) (beta rho alpha : Q) (h : option Q) (ps : list param) : res (list param * list Q) :=
  match iters with
  | 0 => Ok (ps, [])
  | S k =>
      let beta := anneal_beta anneal beta in
      q <-? dual_ascent_step (minimize beta) hf rho_max rho alpha h ps ;;
      match q with
      | (rho', alpha', h', ps') =>
          if Qle_bool h' h_tol || Qle_bool rho_max rho' then Ok (ps', [beta])
          else
            r <-? train_loop k minimize hf h_tol rho_max anneal beta rho' alpha' (Some h') ps' ;;
            Ok (fst r, beta :: snd r)
      end
  end.

(** linear_ent.py:187-228 (train_LBFGSB): the trained parameters, the values of
    [beta] and [W_est]. *)
Definition train_LBFGSB (minimize : Q -> Q -> Q -> list bound -> list Q -> list Q) (bias : bool) (d max_iter : nat)
    (h_tol rho_max w_threshold beta : Q) (anneal : bool) (ps : list param) : res (list param * list Q * qmat) :=
  r <-? train_loop max_iter minimize (lin_h bias d) h_tol rho_max anneal beta 1 0 None ps ;;
  Ok (fst r, snd r, threshold w_threshold (weight_test bias d (fst r))).

(** linear_ent.py:256-280: the inner loop of train_dam, on fuel; [epochs rho alpha]
    are the updates of the optimiser in lines 257-272. *)
Fixpoint dam_loop (fuel : nat) (epochs : Q -> Q -> list param -> list param) (hf : list param -> Q)
    (rho_max alpha : Q) (h_old : option Q) (rho : Q) (ps : list param) (last : option Q) : res (Q * list param * option Q) :=
  if Qle_bool rho rho_max then
    match fuel with
    | 0 => Err OutOfFuel
    | S f =>
        let ps' := epochs rho alpha ps in
        let h_new := hf ps' in
        if insufficient h_new h_old then dam_loop f epochs hf rho_max alpha h_old (rho * 10)%Q ps' (Some h_new)
        else Ok (rho, ps', Some h_new)
    end
  else Ok (rho, ps, last).

(** linear_ent.py:254-286: the outer loop of train_dam; [rho * None] raises TypeError. *)
Fixpoint dam_outer (iters fuel : nat) (epochs : Q -> Q -> list param -> list param) (hf : list param -> Q)
    (rho_max h_tol alpha : Q) (h_old : option Q) (rho : Q) (ps : list param) : res (list param) :=
  match iters with
  | 0 => Ok ps
  | S k =>
      q <-? dam_loop fuel epochs hf rho_max alpha h_old rho ps None ;;
      match q with
      | (rho', ps', Some h_new) =>
          if Qle_bool h_new h_tol || Qle_bool rho_max rho' then Ok ps'
          else dam_outer k fuel epochs hf rho_max h_tol (alpha + rho' * h_new)%Q (Some h_new) rho' ps'
      | (_, _, None) => Err TypeError
      end
  end.

(** The methods of a linear_nonGauss object (linear_ent.py:19-109) that return the
    weights, by name; nn.Module has none of these names. *)
Definition lin_method (name : nat) (bias : bool) (d : nat) (ps : list param) : res qmat :=
  match name with
  | 0 (* weight_test *) => Ok (weight_test bias d ps)
  | 1 (* weight_train *) => Ok (lin_weight bias d ps)
  | _ (* weight *) => Err AttributeError
  end.

(** linear_ent.py:231-292 (train_dam) for one of the known values of [optim_type] and
    a machine with CUDA. *)
Definition train_dam (epochs : Q -> Q -> list param -> list param) (bias : bool) (d max_iter fuel : nat)
    (rho alpha : Q) (h_tol rho_max w_threshold : Q) (ps : list param) : res qmat :=
  ps' <-? dam_outer max_iter fuel epochs (lin_h bias d) rho_max h_tol alpha None rho ps ;;
  W <-? lin_method 2 bias d ps' ;;
  Ok (threshold w_threshold W).
