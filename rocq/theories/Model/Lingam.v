(** Model of /repo/cdmir/discovery/funtional_based/lingam_based/ica_lingam.py.

    The result of FastICA and the pseudo-inverse (lines 168-169), the p-values of
    the Wald test (calcwald, lines 32-135) and the coefficients of the linear
    regressions (lines 197-199) are function arguments.  Numbers are rationals. *)

From Coq Require Import List Arith Bool QArith Qabs.
From Verif Require Import Model.SHP Model.Matrix.
Import ListNotations.
Open Scope nat_scope.

(** ica_lingam.py:13-17 (find_all_P): all permutation matrices, as lists of
    columns (see [mrows]).  The source builds a set, whose order is not
    specified; the callers take it as the argument [ordP]. *)
Fixpoint insertions (x : nat) (l : list nat) : list (list nat) :=
  match l with
  | [] => [[x]]
  | y :: r => (x :: l) :: map (cons y) (insertions x r)
  end.
Fixpoint permutations_of (l : list nat) : list (list nat) :=
  match l with
  | [] => [[]]
  | x :: r => flat_map (insertions x) (permutations_of r)
  end.
Definition find_all_P (n : nat) : list (list nat) := permutations_of (seq 0 n).

(** A floating-point value: finite, infinite or not a number (ica_lingam.py:22,
    where [1 / 0] is [inf] and [0 * inf] is [nan]). *)
Inductive fl : Type := Fin (q : Q) | Inf | Nan.
Definition fl_add (a b : fl) : fl :=
  match a, b with
  | Nan, _ | _, Nan => Nan
  | Inf, _ | _, Inf => Inf
  | Fin x, Fin y => Fin (x + y)%Q
  end.
(** [abs(1 / x)]. *)
Definition fl_inv (x : Q) : fl := if Qeq_bool x 0 then Inf else Fin (Qabs (/ x)).
(** [0 * v]. *)
Definition fl_zero_times (v : fl) : fl := match v with Fin _ => Fin 0 | _ => Nan end.

(** ica_lingam.py:22: [sum(sum(np.eye(n) * abs(1 / P.dot(W))))]. *)
Definition w_score (n : nat) (W : qmat) (s : list nat) : fl :=
  fold_left fl_add
    (map (fun p : nat * nat => let v := fl_inv (mrows s W (fst p) (snd p)) in if Nat.eqb (fst p) (snd p) then v else fl_zero_times v)
       (list_prod (seq 0 n) (seq 0 n))) (Fin 0).

(** The order of [np.argmin]: the first [nan] if there is one, else the first
    minimum (ica_lingam.py:23, 29). *)
Definition fl_before (a b : fl) : bool :=
  match a, b with
  | Nan, Nan => false
  | Nan, _ => true
  | _, Nan => false
  | Fin x, Fin y => negb (Qle_bool y x)
  | Fin _, Inf => true
  | Inf, _ => false
  end.
Fixpoint fl_argmin {A} (score : A -> fl) (best : A) (l : list A) : A :=
  match l with
  | [] => best
  | a :: r => fl_argmin score (if fl_before (score a) (score best) then a else best) r
  end.

(** ica_lingam.py:20-23 (find_W_wave): the rows of [W] in the best order. *)
Definition choose (ordP : list (list nat) -> list (list nat)) (n : nat) (score : list nat -> fl) : list nat :=
  match ordP (find_all_P n) with [] => [] | s :: r => fl_argmin score s r end.
Definition find_W_wave (ordP : list (list nat) -> list (list nat)) (n : nat) (W : qmat) : qmat :=
  mrows (choose ordP n (w_score n W)) W.

(** ica_lingam.py:28: [sum(np.diag((P.dot(B) * P.dot(B)).dot(np.tri(n))))];
    [np.tri(n)] has ones where the row is not smaller than the column. *)
Definition np_tri : qmat := fun i j => if Nat.leb j i then 1%Q else 0%Q.
Definition b_score (n : nat) (B : qmat) (s : list nat) : fl :=
  let PB := mrows s B in Fin (msum n (fun i => mdot n (mmul PB PB) np_tri i i)).

(** ica_lingam.py:26-29 (find_B_wave): only the rows are permuted. *)
Definition find_B_wave (ordP : list (list nat) -> list (list nat)) (n : nat) (B : qmat) : qmat :=
  mrows (choose ordP n (b_score n B)) B.

(** ica_lingam.py:175: [np.linalg.pinv(np.diag(np.diag(W))).dot(W)]; the
    pseudo-inverse of a diagonal matrix inverts the nonzero entries. *)
Definition normalise (W : qmat) : qmat :=
  fun i j => if Qeq_bool (W i i) 0 then 0%Q else (/ W i i * W i j)%Q.

(** ica_lingam.py:178. *)
Definition b_hat (W_wave : qmat) : qmat := msub meye (normalise W_wave).

(** ica_lingam.py:184-186: zeros on and above the diagonal; the two loops are
    modelled by their effect on each entry. *)
Definition prune_upper (B : qmat) : qmat := fun x y => if Nat.leb x y then 0%Q else B x y.

(** ica_lingam.py:138-143 (wald_prune); [pv W alpha i j] is [P[i, j] > alpha]. *)
Definition wald_prune (pv : qmat -> Q -> nat -> nat -> bool) (W B : qmat) (alpha : Q) : qmat :=
  fun i j => if pv W alpha i j then 0%Q else B i j.

(** ica_lingam.py:192-199: row [i] gets the coefficients of the regression of
    variable [i] on the variables with a nonzero entry; [coef i vs j] is the
    coefficient of variable [j] when [i] is regressed on [vs]. *)
Definition regress (coef : nat -> list nat -> nat -> Q) (n : nat) (B : qmat) : qmat :=
  fun i j =>
    let vs := filter (fun k => negb (Qeq_bool (B i k) 0)) (seq 0 n) in
    if Qeq_bool (B i j) 0 then B i j else coef i vs j.

(** ica_lingam.py:163-203 (fit): the coefficients and the graph.  [wald_alpha] is
    the attribute of line 151; line 189 passes the constant 0.5. *)
Definition lingam_fit (ordP : list (list nat) -> list (list nat)) (pv : qmat -> Q -> nat -> nat -> bool)
    (coef : nat -> list nat -> nat -> Q) (wald_alpha : Q) (n : nat) (W : qmat) : qmat * (nat -> nat -> bool) :=
  let W_wave := find_W_wave ordP n W in
  let B_wave := prune_upper (find_B_wave ordP n (b_hat W_wave)) in
  let B_Prune := regress coef n (wald_prune pv W_wave B_wave (1 # 2)) in
  (B_Prune, fun i j => negb (Qeq_bool (B_Prune i j) 0)).
