(** Model of /repo/cdmir/utils/local_score/marginal_base.py ("marginal_base.py":
    GeneralMarginalScore and MultiMarginalScore), and of
    [gpr_multi_new], [solve_chol], [covSum], [covSEard], [covNoise] and [sq_dist] of
    /repo/cdmir/utils/local_score/score_utils.py ("score_utils.py").

    Numbers are exact reals.  The object array of the names of the covariance functions
    (marginal_base.py:61, 152), which numpy 1.24 and later refuse to build, is not modelled. *)

From Coq Require Import List Arith Bool Reals.
From Verif Require Import Model.Py Model.LocalScore Model.KCI Model.HSIC Model.Expm Model.CVScore Model.Minimize.
Import ListNotations.
Open Scope nat_scope.
Open Scope res_scope.

(* ---------- the objective ---------- *)
(** score_utils.py:577-627 (sq_dist) of [np.diag(1 / ell) * x.T]. *)
Definition sq_dist (D : nat) (ell : vec) (x : rmat) : rmat := fun i j =>
  rsumn D (fun c => (1 / ell c * x j c - 1 / ell c * x i c) * (1 / ell c * x j c - 1 / ell c * x i c))%R.
(** score_utils.py:525-574 (covSEard): parameters [0 .. D]. *)
Definition covSEard (D : nat) (x : rmat) (theta : vec) : rmat := fun i j =>
  (exp (2 * theta D) * exp (- sq_dist D (fun c => exp (theta c)) x i j / 2))%R.
(** score_utils.py:490-522 (covNoise) with its parameter. *)
Definition covNoise (t : R) : rmat := rscale (exp (2 * t)) rident.
(** score_utils.py:630-698 (covSum) for the two functions. *)
Definition covSum (D : nat) (x : rmat) (theta : vec) : rmat := radd (covSEard D x theta) (covNoise (theta (D + 1))).
(** score_utils.py:464-484 (solve_chol) for [A = L.T]: n by n times n by m. *)
Definition solve_chol (inv : nat -> rmat -> rmat) (n : nat) (L y : rmat) : rmat :=
  rdot n (inv n (rtranspose L)) (rdot n (inv n L) y).
(** score_utils.py:383-461 (gpr_multi_new) for [nargout = 2] and no test inputs; n samples,
    D inputs, m outputs.  Only the derivative for the last parameter is computed (the loop
    of line 438 is [range(len(out2) - 1, len(out2))]), with 2 s2 times the identity. *)
Definition gpr (inv : nat -> rmat -> rmat) (n D m : nat) (x y : rmat) (theta : vec) : option (R * vec) :=
  match cholesky n (covSum D x theta) with
  | None => None
  | Some L =>
      let alpha := solve_chol inv n L y in
      let out1 := (/ 2 * rsumn m (fun c => rsumn n (fun k => y k c * alpha k c)) + INR m * rsumn n (fun a => ln (L a a)) + / 2 * INR m * INR n * ln (2 * PI))%R in
      let W := rsub (rscale (INR m) (rdot n (inv n (rtranspose L)) (rdot n (inv n L) rident))) (rdot m alpha (rtranspose alpha)) in
      let dK := rscale (2 * exp (2 * theta (D + 1)%nat)) rident in
      Some (out1, fun j => if Nat.eqb j (D + 1) then (rsumn n (fun a => rsumn n (fun b => W a b * dK a b)) / 2)%R else 0%R)
  end.
(** [(df.T * s)[0, 0]] for arrays, which are not matrices: the product of the first entries
    (score_utils.py:194, 233, 285); [s] and the derivatives are columns made by np.zeros. *)
Definition first_entries (g s : vec) : R := (g 0%nat * s 0%nat)%R.

(* ---------- the scores ---------- *)
(** marginal_base.py:52-59 (General: every column by itself) and 139-151 (Multi: one width
    for all columns of a parent); None for a width that is NaN. *)
Fixpoint widths (T : nat) (data : rmat) (label : nat -> list nat) (parents : list nat) : option (list R) :=
  match parents with
  | [] => Some []
  | p :: rest =>
      match median_width T (length (label p)) (select data (label p)), widths T data label rest with
      | Some w, Some l => Some (repeat (w * (5 / 2))%R (length (label p)) ++ l)
      | _, _ => None
      end
  end.
(** marginal_base.py:24-38, 112-127: the centred kernel of the regressed columns. *)
Definition regressed (T : nat) (data : rmat) (cols : list nat) : option rmat :=
  match median_width T (length cols) (select data cols) with
  | None => None
  | Some w => let width := (w * (5 / 2))%R in Some (centered T (kernel (length cols) (select data cols) (1 / width ^ 2)))
  end.
(** marginal_base.py:40-44, 64: the eigenvalues above 1e-5 times the largest and the outputs
    of the regression; [eigs N K] gives the [N] largest eigenvalues, in descending order, and
    their vectors in columns (score_utils.py:66-109). *)
Definition kept (N : nat) (eig : vec) : list nat := filter (fun c => gt (eig c) (eig 0%nat * / 100000)) (seq 0 N).
(** marginal_base.py:64. *)
Definition outputs (T : nat) (eig : vec) (eix : rmat) (l : list nat) : rmat := fun r c =>
  (2 * sqrt (INR T) * (eix r (nth c l 0%nat) * sqrt (eig (nth c l 0%nat))) / sqrt (eig (nth 0 l 0%nat)))%R.
(** marginal_base.py:62, 153: the initial parameters. *)
Definition theta0 (w : list R) : vec := fun j =>
  if Nat.ltb j (length w) then ln (nth j w 0%R) else if Nat.eqb j (length w) then 0%R else ln (sqrt (/ 10)).
(** marginal_base.py:21-80 and 98-171, [_score_function] of GeneralMarginalScore, where
    [label p] is [[p]], and of MultiMarginalScore; GeneralMarginalScore takes the columns of
    the parents where the column of [i] belongs (line 24).  Also returns the parameters and
    the evaluated points.  The exceptions: a width that is NaN, less than four samples
    (eigdec), no parents (lines 71, 162: PA is an array, not a matrix, so that sq_dist,
    score_utils.py:615, subtracts a 1 by T^2 array from a T by T one; T is at least 4 here),
    no eigenvalue left (line 64). *)
Definition marginal_score (inv : nat -> rmat -> rmat) (eigs : nat -> rmat -> vec * rmat) (cg : vec -> vec -> vec -> vec) (multi : bool)
    (T : nat) (data : rmat) (label : nat -> list nat) (i : nat) (parents : list nat) : res (R * vec * list vec) :=
  let cols := flat_map label parents in
  let N := Nat.min 400 (T / 4) in
  match regressed T data (if multi then label i else cols) with
  | None => Err PyException
  | Some Kx =>
      if Nat.ltb N 1 then Err PyException
      else
        let (eig, eix) := eigs N (fun a b => ((Kx a b + Kx b a) / 2)%R) in
        let l := kept N eig in
        if Nat.eqb (length parents) 0 then Err ValueError else
        match widths T data label parents with
        | None => Err PyException
        | Some w =>
            if Nat.eqb (length l) 0 then Err IndexError else
            let objective := gpr inv T (length cols) (length l) (select data cols) (outputs T eig eix l) in
            r <-? minimize objective first_entries cg (theta0 w) false 300 ;;
            let '(theta, _, _, points) := r in
            match objective theta with
            | None => Err PyException
            | Some (nlml, _) => Ok ((- nlml)%R, theta, points)
            end
        end
  end.
