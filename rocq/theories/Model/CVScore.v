(** Model of /repo/cdmir/utils/local_score/cross_validated_base.py ("cross_validated_base.py":
    GeneralCVScore and MultiCVScore) and of [kernel], [dist2] and [pdinv] of
    /repo/cdmir/utils/local_score/score_utils.py ("score_utils.py").

    Numbers are exact reals.  [T] is the number of samples, [data r c] the matrix of the
    data; [label i] lists the columns of variable [i], for GeneralCVScore [i] alone. *)

From Coq Require Import List Arith Bool Reals.
From Verif Require Import Model.Py Model.LocalScore Model.KCI Model.HSIC Model.Expm.
Import ListNotations.
Open Scope nat_scope.
Open Scope res_scope.

(* ---------- the constructor ---------- *)
(** cross_validated_base.py:17-27, 198-209: [lambda_value] and [k_fold] are read from the
    keyword arguments; the positional ones [args] are not looked at. *)
Definition cv_init {A : Type} (args : list A) (lambda_value : option R) (k_fold : option nat) : R * nat :=
  (match lambda_value with None => (/ 100)%R | Some l => l end, match k_fold with None => 10 | Some k => k end).

(* ---------- kernels ---------- *)
(** cross_validated_base.py:44, 49, 236, 260: the columns [cols] of the data. *)
Definition select (data : rmat) (cols : list nat) : rmat := fun r c => data r (nth c cols 0).
(** score_utils.py:8-18 and 43-46 (kernel, dist2) for [theta = (theta, 1)] with a number
    [theta] that is not 0; negative distances are set to 0. *)
Definition kernel (d : nat) (X : rmat) (theta : R) : rmat := fun i j => exp (- Rmax 0 (dist2 d X i j) * (theta / 2))%R.
(** cross_validated_base.py:52-62, 76-85 (General: width times 2) and 242-252, 261-270
    (Multi: width times 3, and the number of columns in theta).  [None]: there is no
    positive distance, the width is NaN. *)
Definition var_kernel (multi : bool) (T : nat) (data : rmat) (cols : list nat) : option rmat :=
  let d := length cols in
  let X := select data cols in
  match median_width T d X with
  | None => None
  | Some w =>
      let width := (w * (if multi then 3 else 2))%R in
      let theta := (1 / (if multi then width ^ 2 * INR d else width ^ 2))%R in
      Some (kernel d X theta)
  end.
(** cross_validated_base.py:73-85, 257-270: [Kpa = np.multiply(Kpa, kernel(...))] from the
    matrix of ones. *)
Fixpoint parent_kernel (multi : bool) (T : nat) (data : rmat) (label : nat -> list nat) (Kpa : rmat) (parents : list nat) : option rmat :=
  match parents with
  | [] => Some Kpa
  | p :: rest =>
      match var_kernel multi T data (label p) with
      | None => None
      | Some K => parent_kernel multi T data label (fun i j => Kpa i j * K i j)%R rest
      end
  end.

(* ---------- Cholesky factors and inverses ---------- *)
(** [np.linalg.cholesky] (score_utils.py:53, cross_validated_base.py:131, 181): the lower
    triangular factor, [None] for LinAlgError.  Only the lower triangle is read. *)
Fixpoint cholesky (n : nat) (A : rmat) : option rmat :=
  match n with
  | 0 => Some (fun _ _ => 0%R)
  | S m =>
      if Rle_dec (A 0 0) 0 then None
      else match cholesky m (fun i j => (A (S i) (S j) - A (S i) 0%nat * A (S j) 0%nat / A 0%nat 0%nat)%R) with
           | None => None
           | Some L => Some (fun i j => match i, j with
                                        | 0, 0 => sqrt (A 0 0)
                                        | 0, S _ => 0%R
                                        | S i', 0 => (A (S i') 0%nat / sqrt (A 0%nat 0%nat))%R
                                        | S i', S j' => L i' j'
                                        end)
           end
  end.
(** score_utils.py:49-63 (pdinv).  [inv] is np.linalg.inv, [svdinv] the computation from
    the singular values in lines 58-59, [None] if it raises. *)
Definition pdinv (inv : nat -> rmat -> rmat) (svdinv : nat -> rmat -> option rmat) (n : nat) (A : rmat) : res rmat :=
  match cholesky n A with
  | Some L =>
      let U := rtranspose L in
      let invU := rdot n rident (inv n U) in
      Ok (rdot n invU (rtranspose invU))
  | None => match svdinv n A with Some B => Ok B | None => Err PyException end
  end.

(* ---------- the folds ---------- *)
(** [range(a, b)]: the slices [a:b] and [np.arange(a, b)] (cross_validated_base.py:92-119). *)
Definition range (a b : nat) : list nat := seq a (b - a).
(** cross_validated_base.py:91-119, 158-175 (General), 276-304, 339-356 (Multi): the rows
    for validation and for training in round [kk]; the later [if] overwrites. *)
Definition cv_fold (T k kk : nat) : list nat * list nat :=
  let n0 := T / k in
  let s0 := ([], []) in
  let s1 := if Nat.eqb kk 0 then (range 0 n0, range n0 T) else s0 in
  let s2 := if Nat.eqb kk (k - 1) then (range (kk * n0) T, range 0 (kk * n0)) else s1 in
  if Nat.ltb kk (k - 1) && Nat.ltb 0 kk
  then (range (kk * n0) ((kk + 1) * n0), range 0 (kk * n0) ++ range ((kk + 1) * n0) T) else s2.
(** [K[rows, cols]] (cross_validated_base.py:93-97). *)
Definition submatrix (rows cols : list nat) (K : rmat) : rmat := fun a b => K (nth a rows 0) (nth b cols 0).

(** cross_validated_base.py:46, 238. *)
Definition gamma : R := (/ 100)%R.
(** [A - B] (cross_validated_base.py:125-128, 178). *)
Definition rsub (A B : rmat) : rmat := fun i j => (A i j - B i j)%R.

(** cross_validated_base.py:130-134, 180-185: [C] and the term of a round, from
    [nv], [A] and [B]. *)
Definition round_term (nv n1 : nat) (A B : rmat) : res R :=
  match cholesky n1 B with
  | None => Err PyException
  | Some L =>
      let C := rsumn n1 (fun a => ln (L a a)) in
      Ok ((INR nv * INR nv * ln (2 * PI) + INR nv * C + rtrace nv A) / 2)%R
  end.

(** cross_validated_base.py:121-134: a round with parents. *)
Definition round_parents (inv : nat -> rmat -> rmat) (svdinv : nat -> rmat -> option rmat) (lambda : R) (te tr : list nat) (Kx Kpa : rmat) : res R :=
  let nv := length te in
  let n1 := length tr in
  let Kx_te := submatrix te te Kx in
  let Kx_tr := submatrix tr tr Kx in
  let Kx_tr_te := submatrix tr te Kx in
  let Kpa_tr := submatrix tr tr Kpa in
  let Kpa_tr_te := submatrix tr te Kpa in
  let c := (INR n1 * lambda ^ 2 / gamma)%R in
  let mul := rdot n1 in
  tmp1 <-? pdinv inv svdinv n1 (radd Kpa_tr (rscale (INR n1 * lambda) rident)) ;;
  let tmp2 := mul (mul tmp1 Kx_tr) tmp1 in
  mid <-? pdinv inv svdinv n1 (radd rident (rscale c tmp2)) ;;
  let tmp3 := mul (mul tmp1 mid) tmp1 in
  let kxT := rtranspose Kx_tr_te in
  let kpaT := rtranspose Kpa_tr_te in
  let A := rscale (/ gamma)
    (radd (rsub (rsub (rsub (radd Kx_te (mul (mul kpaT tmp2) Kpa_tr_te))
                            (mul (mul (rscale 2 kxT) tmp1) Kpa_tr_te))
                      (mul (mul (rscale c kxT) tmp3) Kx_tr_te))
                (mul (mul (mul (mul (mul (mul (rscale c kpaT) tmp1) Kx_tr) tmp3) Kx_tr) tmp1) Kpa_tr_te))
          (mul (mul (mul (mul (rscale (2 * c) kxT) tmp3) Kx_tr) tmp1) Kpa_tr_te)) in
  let B := radd (rscale c tmp2) rident in
  round_term nv n1 A B.

(** cross_validated_base.py:177-185: a round without parents; [1 / (gamma * n1)] is a
    division of Python numbers. *)
Definition round_alone (inv : nat -> rmat -> rmat) (svdinv : nat -> rmat -> option rmat) (te tr : list nat) (Kx : rmat) : res R :=
  let nv := length te in
  let n1 := length tr in
  let Kx_te := submatrix te te Kx in
  let Kx_tr := submatrix tr tr Kx in
  let Kx_tr_te := submatrix tr te Kx in
  if Nat.eqb n1 0 then Err ZeroDivisionError
  else
    let c := (1 / (gamma * INR n1))%R in
    mid <-? pdinv inv svdinv n1 (radd rident (rscale c Kx_tr)) ;;
    let A := rscale (/ gamma) (rsub Kx_te (rdot n1 (rdot n1 (rscale c (rtranspose Kx_tr_te)) mid) Kx_tr_te)) in
    let B := radd (rscale c Kx_tr) rident in
    round_term nv n1 A B.

(** cross_validated_base.py:90-91, 157-158: [CV = 0] and the loop over the rounds. *)
Fixpoint rounds (round : nat -> res R) (l : list nat) (CV : R) : res R :=
  match l with
  | [] => Ok CV
  | kk :: rest => v <-? round kk ;; rounds round rest (CV + v)%R
  end.

(** cross_validated_base.py:29-190, 216-371: _score_function of both classes.  A width
    that is NaN makes all entries of the kernel NaN, and [pdinv] raise LinAlgError; this
    is PyException here. *)
Definition cv_score (inv : nat -> rmat -> rmat) (svdinv : nat -> rmat -> option rmat) (multi : bool) (lambda : R) (k : nat)
    (T : nat) (data : rmat) (label : nat -> list nat) (i : nat) (parents : list nat) : res R :=
  match var_kernel multi T data (label i) with
  | None => Err PyException
  | Some K =>
      let Kx := centered T K in
      CV <-? (match parents with
              | [] => rounds (fun kk => let (te, tr) := cv_fold T k kk in round_alone inv svdinv te tr Kx) (seq 0 k) 0%R
              | _ =>
                  match parent_kernel multi T data label (fun _ _ => 1%R) parents with
                  | None => Err PyException
                  | Some P =>
                      let Kpa := centered T P in
                      rounds (fun kk => let (te, tr) := cv_fold T k kk in round_parents inv svdinv lambda te tr Kx Kpa) (seq 0 k) 0%R
                  end
              end) ;;
      Ok (- (CV / INR k))%R
  end.
