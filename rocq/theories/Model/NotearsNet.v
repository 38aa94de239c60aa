(** Model of the neural learner in
    /repo/cdmir/discovery/score_based/entropy_based/entropy_based_discovery:
    nonlinear.py (NotearsMLP, NotearsSobolev, dual_ascent_step, notears_nonlinear),
    lbfgsb_scipy.py (LBFGSBScipy) and locally_connected.py (LocallyConnected).  The
    classes and loops of nonlinear_ent.py are the same but for the loss.

    Numbers are rationals.  The optimiser of scipy, the sigmoid, the sine and the
    square root are function arguments; torch's autograd is part of the optimiser
    argument, so the loss is not modelled. *)

From Coq Require Import List Arith Bool QArith Qabs.
From Verif Require Import Model.Py Model.SHP Model.Matrix Model.Notears.
Import ListNotations.
Open Scope nat_scope.
Open Scope res_scope.

(** A bound of scipy: lower and upper end, [None] for no limit (nonlinear.py:36-38). *)
Definition bound : Type := option Q * option Q.

(** A torch parameter: its entries in row-major order, and the attribute [bounds]
    if it was set (nonlinear.py:21-22, lbfgsb_scipy.py:38). *)
Record param := Param { p_data : list Q; p_bounds : option (list bound) }.

(** lbfgsb_scipy.py:41, 58: [p.numel()]. *)
Definition numel (p : param) : nat := length (p_data p).

(** lbfgsb_scipy.py:21: [self._numel]. *)
Definition total_numel (ps : list param) : nat := fold_left (fun s p => s + numel p) ps 0.

(* ---------- lbfgsb_scipy.py ---------- *)
(** lbfgsb_scipy.py:35-43 (_gather_flat_bounds). *)
Definition gather_bounds (ps : list param) : list bound :=
  fold_left (fun acc p => acc ++ match p_bounds p with Some b => b | None => repeat (None, None) (numel p) end) ps [].

(** lbfgsb_scipy.py:45-53 (_gather_flat_params). *)
Definition gather_params (ps : list param) : list Q := concat (map p_data ps).

(** lbfgsb_scipy.py:60: [params[offset:offset + numel]]. *)
Definition slice (l : list Q) (offset n : nat) : list Q := firstn n (skipn offset l).

(** lbfgsb_scipy.py:57-61: the loop of _distribute_flat_params; [view_as] raises
    RuntimeError (here [PyException]) when the slice has another number of entries.
    The result is the new parameters and the last offset. *)
Fixpoint distribute_loop (ps : list param) (flat : list Q) (offset : nat) : res (list param * nat) :=
  match ps with
  | [] => Ok ([], offset)
  | p :: r =>
      let part := slice flat offset (numel p) in
      if Nat.eqb (length part) (numel p) then
        q <-? distribute_loop r flat (offset + numel p) ;;
        Ok (Param part (p_bounds p) :: fst q, snd q)
      else Err PyException
  end.

(** lbfgsb_scipy.py:55-62 (_distribute_flat_params), with its assertion. *)
Definition distribute (ps : list param) (flat : list Q) : res (list param) :=
  q <-? distribute_loop ps flat 0 ;;
  if Nat.eqb (snd q) (total_numel ps) then Ok (fst q) else Err AssertionError.

(** lbfgsb_scipy.py:64-97 (step): [minimize bounds x0] is [sol.x]; scipy raises
    ValueError when the number of bounds is not that of the variables.  The closure
    writes trial values into the parameters, which line 97 overwrites. *)
Definition step (minimize : list bound -> list Q -> list Q) (ps : list param) : res (list param) :=
  let x0 := gather_params ps in
  let bs := gather_bounds ps in
  if Nat.eqb (length bs) (length x0) then distribute ps (minimize bs x0) else Err ValueError.

(* ---------- nonlinear.py: the two models ---------- *)
(** Entry [i] of a parameter in the order of [view(-1)] (lbfgsb_scipy.py:50). *)
Definition entry (p : param) (i : nat) : Q := nth i (p_data p) 0%Q.
(** Parameter number [k] in the order of [model.parameters()], the order of
    registration (nonlinear.py:19-27, 94-95, locally_connected.py:31-35). *)
Definition par (ps : list param) (k : nat) : param := nth k ps (Param [] None).

(** nonlinear.py:29-40 (NotearsMLP._bounds). *)
Definition mlp_bounds (d m1 : nat) : list bound :=
  flat_map (fun j => flat_map (fun _ => map (fun i =>
    if Nat.eqb i j then (Some 0%Q, Some 0%Q) else (Some 0%Q, None)) (seq 0 d)) (seq 0 m1)) (seq 0 d).

(** A fresh parameter number [k] with [n] entries (nonlinear.py:19-27,
    locally_connected.py:31-39); [init] are the random initial values. *)
Definition fresh (init : nat -> nat -> Q) (k n : nat) (b : option (list bound)) : param := Param (map (init k) (seq 0 n)) b.

(** nonlinear.py:25-26: the parameters of the layers of fc2, for the list of widths
    [dims[1:]]; locally_connected.py:31-35 gives weight and bias. *)
Fixpoint fc2_params (bias : bool) (init : nat -> nat -> Q) (d k : nat) (widths : list nat) : list param :=
  match widths with
  | a :: (b :: _) as r =>
      fresh init k (d * a * b) None ::
      (if bias then [fresh init (S k) (d * b) None] else []) ++
      fc2_params bias init d (if bias then S (S k) else S k) r
  | _ => []
  end.

(** nonlinear.py:12-27 (NotearsMLP.__init__). *)
Definition mlp_init (bias : bool) (init : nat -> nat -> Q) (dims : list nat) : res (list param) :=
  match dims with
  | d :: m1 :: _ =>
      if Nat.eqb (last dims 0) 1 then
        let b := Some (mlp_bounds d m1) in
        Ok (if bias then
              [fresh init 0 (d * m1 * d) b; fresh init 1 (d * m1) None; fresh init 2 (d * m1 * d) b; fresh init 3 (d * m1) None]
              ++ fc2_params bias init d 4 (tl dims)
            else [fresh init 0 (d * m1 * d) b; fresh init 1 (d * m1 * d) b] ++ fc2_params bias init d 2 (tl dims))
      else Err AssertionError
  | _ => Err AssertionError
  end.

(** The position of fc1_neg.weight among the parameters (nonlinear.py:19-20). *)
Definition neg_at (bias : bool) : nat := if bias then 2 else 1.
(** The position of the first parameter of fc2 (nonlinear.py:24-27). *)
Definition fc2_at (bias : bool) : nat := if bias then 4 else 2.

(** nonlinear.py:54, 81: [fc1_pos.weight - fc1_neg.weight], of shape [d * m1, d]. *)
Definition mlp_weight (bias : bool) (d : nat) (ps : list param) : qmat := fun r i =>
  (entry (par ps 0) (r * d + i) - entry (par ps (neg_at bias)) (r * d + i))%Q.

(** nonlinear.py:77-86 (fc1_to_adj); [sq] is [torch.sqrt]. *)
Definition mlp_adj (sq : Q -> Q) (bias : bool) (d m1 : nat) (ps : list param) : qmat := fun i j =>
  sq (mlp_A m1 (mlp_weight bias d ps) i j).

(** nonlinear.py:51-61 (h_func), on the parameters. *)
Definition mlp_h (bias : bool) (d m1 : nat) (ps : list param) : Q := h_mlp d m1 (mlp_weight bias d ps).

(** nonlinear.py:72-75 (fc1_l1_reg). *)
Definition mlp_l1 (bias : bool) (d m1 : nat) (ps : list param) : Q :=
  msum (d * m1) (fun r => msum d (fun i => entry (par ps 0) (r * d + i) + entry (par ps (neg_at bias)) (r * d + i))%Q).

(** nonlinear.py:43: a linear layer, [x @ weight.T + bias], output [o] of row [r]. *)
Definition linear_out (d : nat) (w : param) (b : option param) (x : nat -> nat -> Q) (r o : nat) : Q :=
  (msum d (fun i => x r i * entry w (o * d + i)%nat) + match b with Some q => entry q o | None => 0 end)%Q.

(** nonlinear.py:43-44: entry [r, j, m] after [view(-1, d, m1)]. *)
Definition mlp_first (bias : bool) (d m1 : nat) (ps : list param) (x : nat -> nat -> Q) (r j m : nat) : Q :=
  let o := j * m1 + m in
  (linear_out d (par ps 0) (if bias then Some (par ps 1) else None) x r o
   - linear_out d (par ps (neg_at bias)) (if bias then Some (par ps 3) else None) x r o)%Q.

(** locally_connected.py:51-58 (forward) with input width [a] and output width [b]:
    the weight has shape [d, a, b], the bias [d, b]. *)
Definition locally (a b : nat) (w : param) (bs : option param) (x : nat -> nat -> nat -> Q) (r j o : nat) : Q :=
  (msum a (fun m => x r j m * entry w ((j * a + m) * b + o)%nat) + match bs with Some q => entry q (j * b + o) | None => 0 end)%Q.

(** nonlinear.py:45-47: the remaining layers; [k] is the number of their first
    parameter and [sigma] is [torch.sigmoid]. *)
Fixpoint fc2_forward (sigma : Q -> Q) (bias : bool) (k : nat) (widths : list nat) (ps : list param)
    (x : nat -> nat -> nat -> Q) : nat -> nat -> nat -> Q :=
  match widths with
  | a :: (b :: _) as r =>
      fc2_forward sigma bias (if bias then S (S k) else S k) r ps
        (locally a b (par ps k) (if bias then Some (par ps (S k)) else None) (fun n j m => sigma (x n j m)))
  | _ => x
  end.

(** nonlinear.py:42-49 (NotearsMLP.forward): the prediction for variable [j] in row
    [r]; [squeeze(dim=2)] takes the only entry of the last axis. *)
Definition mlp_forward (sigma : Q -> Q) (bias : bool) (dims : list nat) (ps : list param) (x : nat -> nat -> Q) (r j : nat) : Q :=
  let d := nth 0 dims 0 in
  let m1 := nth 1 dims 0 in
  fc2_forward sigma bias (fc2_at bias) (tl dims) ps (mlp_first bias d m1 ps x) r j 0.

(** nonlinear.py:102-113 (NotearsSobolev._bounds). *)
Definition sobolev_bounds (d k : nat) : list bound :=
  flat_map (fun j => flat_map (fun i => map (fun _ =>
    if Nat.eqb i j then (Some 0%Q, Some 0%Q) else (Some 0%Q, None)) (seq 0 k)) (seq 0 d)) (seq 0 d).

(** nonlinear.py:90-100 (NotearsSobolev.__init__): all weights start at 0. *)
Definition sobolev_init (d k : nat) : list param :=
  let p := Param (repeat 0%Q (d * (d * k))) (Some (sobolev_bounds d k)) in [p; p].

(** nonlinear.py:132, 151: the weight of shape [d, d * k]. *)
Definition sobolev_weight (d k : nat) (ps : list param) : qmat := fun j c =>
  (entry (par ps 0) (j * (d * k) + c) - entry (par ps 1) (j * (d * k) + c))%Q.

(** nonlinear.py:149-156 (fc1_to_adj). *)
Definition sobolev_adj (sq : Q -> Q) (d k : nat) (ps : list param) : qmat := fun i j =>
  sq (sobolev_A k (sobolev_weight d k ps) i j).

(** nonlinear.py:131-139 (h_func), on the parameters. *)
Definition sobolev_h (d k : nat) (ps : list param) : Q := h_sobolev d k (sobolev_weight d k ps).

(** nonlinear.py:115-123 (sobolev_basis): column [i * k + m] is [psi m x_i], where
    [psi m v] is [mu * sin(v / mu)] with the [mu] of line 118. *)
Definition sobolev_basis (psi : nat -> Q -> Q) (k : nat) (x : nat -> nat -> Q) (r c : nat) : Q :=
  psi (c mod k) (x r (c / k)).

(** nonlinear.py:125-129 (NotearsSobolev.forward). *)
Definition sobolev_forward (psi : nat -> Q -> Q) (d k : nat) (ps : list param) (x : nat -> nat -> Q) (r j : nat) : Q :=
  (linear_out (d * k) (par ps 0) None (sobolev_basis psi k x) r j - linear_out (d * k) (par ps 1) None (sobolev_basis psi k x) r j)%Q.

(* ---------- nonlinear.py: the training loop ---------- *)
(** nonlinear.py:170-189: the inner loop, on fuel; [minimize rho alpha] is the
    optimiser on the objective with these multipliers, [hf] is [model.h_func].  The
    parameters are updated in place.  The result is [rho], the parameters and
    [h_new], absent if the body never ran. *)
Fixpoint ascent_loop (fuel : nat) (minimize : Q -> Q -> list bound -> list Q -> list Q) (hf : list param -> Q)
    (rho_max alpha : Q) (h : option Q) (rho : Q) (ps : list param) (last : option Q) : res (Q * list param * option Q) :=
  if negb (Qle_bool rho_max rho) then
    match fuel with
    | 0 => Err OutOfFuel
    | S f =>
        ps' <-? step (minimize rho alpha) ps ;;
        let h_new := hf ps' in
        if insufficient h_new h then ascent_loop f minimize hf rho_max alpha h (rho * 10)%Q ps' (Some h_new)
        else Ok (rho, ps', Some h_new)
    end
  else Ok (rho, ps, last).

(** nonlinear.py:165-191 (dual_ascent_step): [rho * None] raises TypeError. *)
Definition dual_ascent_step (minimize : Q -> Q -> list bound -> list Q -> list Q) (hf : list param -> Q)
    (rho_max rho alpha : Q) (h : option Q) (ps : list param) : res (Q * Q * Q * list param) :=
  q <-? ascent_loop (inner_fuel rho_max) minimize hf rho_max alpha h rho ps None ;;
  match q with
  | (rho', ps', Some h_new) => Ok (rho', (alpha + rho' * h_new)%Q, h_new, ps')
  | (_, _, None) => Err TypeError
  end.

(** nonlinear.py:204-208: the outer loop. *)
Fixpoint ascent (iters : nat) (minimize : Q -> Q -> list bound -> list Q -> list Q) (hf : list param -> Q)
    (h_tol rho_max rho alpha : Q) (h : option Q) (ps : list param) : res (list param) :=
  match iters with
  | 0 => Ok ps
  | S k =>
      q <-? dual_ascent_step minimize hf rho_max rho alpha h ps ;;
      match q with
      | (rho', alpha', h', ps') =>
          if Qle_bool h' h_tol || Qle_bool rho_max rho' then Ok ps'
          else ascent k minimize hf h_tol rho_max rho' alpha' (Some h') ps'
      end
  end.

(** nonlinear.py:194-211 (notears_nonlinear): the trained parameters and [W_est];
    [adj] is [model.fc1_to_adj]. *)
Definition notears_nonlinear (minimize : Q -> Q -> list bound -> list Q -> list Q) (hf : list param -> Q) (adj : list param -> qmat)
    (max_iter : nat) (h_tol rho_max w_threshold : Q) (ps : list param) : res (list param * qmat) :=
  ps' <-? ascent max_iter minimize hf h_tol rho_max 1 0 None ps ;;
  Ok (ps', threshold w_threshold (adj ps')).
