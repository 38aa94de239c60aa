(** Model of /repo/cdmir/discovery/score_based/entropy_based/pytorch_expm
    (expm_taylor.py, expm32.py, expm64.py, expm_pade.py).  Matrices are n by n over the
    reals, numbers are exact: the decimals below are not rounded to the type of A. *)

From Coq Require Import List Arith Bool ZArith QArith Qreals Reals.
From Verif Require Import Model.Py Model.LocalScore Model.KCI.
Import ListNotations.
Open Scope nat_scope.

(* ---------- matrices ---------- *)
(** [I + A] and the like (expm_taylor.py:136). *)
Definition radd (A B : rmat) : rmat := fun i j => (A i j + B i j)%R.
(** A number times a matrix (expm_taylor.py:138). *)
Definition rscale (c : R) (A : rmat) : rmat := fun i j => (c * A i j)%R.
(** torch.eye (expm_taylor.py:124). *)
Definition rident : rmat := fun i j => if Nat.eqb i j then 1%R else 0%R.
(** torch.matrix_power (expm_taylor.py:90). *)
Fixpoint rpow (n : nat) (A : rmat) (k : nat) : rmat :=
  match k with O => rident | S k' => rdot n A (rpow n A k') end.
(** One row of [(b * q).sum(dim=-3)] (expm_taylor.py:199, 252). *)
Fixpoint combo (b : list R) (q : list rmat) : rmat :=
  match b, q with c :: b', M :: q' => radd (rscale c M) (combo b' q') | _, _ => fun _ _ => 0%R end.

(* ---------- expm_taylor.py ---------- *)
(** expm_taylor.py:5. *)
Definition degs : list nat := [1; 2; 4; 8; 12; 18].
(** expm_taylor.py:7-24. *)
Definition thetas_single : list Q :=
  [(1192092800768788 # 10000000000000000000000); (5978858893805233 # 10000000000000000000); (5116619363445086 # 100000000000000000); (5800524627688768 # 10000000000000000); (1461661507209034 # 1000000000000000); (3010066362817634 # 1000000000000000)]%Q.
(** expm_taylor.py:25-43. *)
Definition thetas_double : list Q :=
  [(2220446049250313 # 10000000000000000000000000000000); (2580956802971767 # 100000000000000000000000); (3397168839976962 # 10000000000000000000); (4991228871115323 # 100000000000000000); (2996158913811580 # 10000000000000000); (1090863719290036 # 1000000000000000)]%Q.
(** expm_taylor.py:158-175. *)
Definition b12 : list (list Q) :=
  ([ [(-186023205146205530824 # 10000000000000000000000); (-500702322573317714499 # 100000000000000000000000); (-573420122960522249400 # 1000000000000000000000); (-133399693943892061476 # 1000000000000000000000)];
    [(46 # 10); (992875103538486847299 # 1000000000000000000000); (-132445561052799642976 # 1000000000000000000000); (172990000000000000000 # 100000000000000000000000)];
    [(211693118299809440730 # 1000000000000000000000); (158224384715726723583 # 1000000000000000000000); (165635169436727403003 # 1000000000000000000000); (107862779315792429308 # 10000000000000000000000)];
    [(0 # 1); (-131810610138301836924 # 1000000000000000000000); (-202785554058925905629 # 10000000000000000000000); (-675951846863086323186 # 100000000000000000000000)] ])%Q.
(** expm_taylor.py:211-237. *)
Definition b18 : list (list Q) :=
  ([ [(0 # 1); (-100365581030144618291 # 1000000000000000000000); (-802924648241156932449 # 100000000000000000000000); (-892138498045729985177 # 1000000000000000000000000); (0 # 1)];
    [(0 # 1); (397849749499645077844 # 1000000000000000000000); (136783778460411720168 # 100000000000000000000); (498289622525382669416 # 1000000000000000000000); (-637898194594723280150 # 1000000000000000000000000)];
    [(-109676396052962061844 # 10000000000000000000); (168015813878906206114 # 100000000000000000000); (571779846478865511061 # 10000000000000000000000); (-698210122488052056106 # 100000000000000000000000); (334975017086070470649 # 10000000000000000000000000)];
    [(-904316832390810593223 # 10000000000000000000000); (-676404519071381882256 # 10000000000000000000000); (675961301770459654925 # 10000000000000000000000); (295552570429315521194 # 10000000000000000000000); (-139180257516060693404 # 10000000000000000000000000)];
    [(0 # 1); (0 # 1); (-923364619367118555360 # 10000000000000000000000); (-169364939002081722752 # 10000000000000000000000); (-140086798182036094347 # 10000000000000000000000000)] ])%Q.

(** Row r of a table as real numbers. *)
Definition row (b : list (list Q)) (r : nat) : list R := map Q2R (nth r b []).

(** expm_taylor.py:122-261 (taylor_approx); [None] is the None that Python returns for
    any other degree.  The batched branches compute the same for each matrix. *)
Definition taylor_approx (n : nat) (A : rmat) (deg : nat) : option rmat :=
  let I := rident in
  let A2 := rdot n A A in
  let A3 := rdot n A A2 in
  let A6 := rdot n A3 A3 in
  match deg with
  | 1 => Some (radd I A)
  | 2 => Some (radd (radd I A) (rscale (5 / 10) A2))
  | 4 => Some (radd (radd I A) (rdot n A2 (radd (radd (rscale (5 / 10) I) (rscale (/ 6) A)) (rscale (/ 24) A2))))
  | 8 =>
      let s := sqrt 177 in
      let x3 := (2 / 3)%R in
      let a1 := ((1 + s) * x3)%R in
      let x1 := (a1 / 88)%R in
      let x2 := (a1 / 352)%R in
      let c0 := ((-271 + 29 * s) / (315 * x3))%R in
      let c1 := ((11 * (-1 + s)) / (1260 * x3))%R in
      let c2 := ((11 * (-9 + s)) / (5040 * x3))%R in
      let c4 := ((89 - s) / (5040 * x3 * x3))%R in
      let y2 := ((857 - 58 * s) / 630)%R in
      let A4 := rdot n A2 (radd (rscale x1 A) (rscale x2 A2)) in
      let A8 := rdot n (radd (rscale x3 A2) A4) (radd (radd (radd (rscale c0 I) (rscale c1 A)) (rscale c2 A2)) (rscale c4 A4)) in
      Some (radd (radd (radd I A) (rscale y2 A2)) A8)
  | 12 =>
      let q r := combo (row b12 r) [I; A; A2; A3] in
      let qaux := radd (q 2) (rdot n (q 3) (q 3)) in
      Some (radd (q 0) (rdot n (radd (q 1) qaux) qaux))
  | 18 =>
      let q r := combo (row b18 r) [I; A; A2; A3; A6] in
      let qaux := radd (rdot n (q 0) (q 4)) (q 3) in
      Some (radd (q 1) (rdot n (radd (q 2) qaux) qaux))
  | _ => None
  end.
(** taylor_approx for the degrees that are used (expm_taylor.py:84, 89, 118). *)
Definition taylor (n : nat) (A : rmat) (deg : nat) : rmat :=
  match taylor_approx n A deg with Some X => X | None => fun _ _ => 0%R end.

(** [math.ceil] (expm_taylor.py:87, 114). *)
Definition rceil (x : R) : Z := (- Int_part (- x))%Z.
(** [math.log2] (expm_taylor.py:87, 114). *)
Definition log2 (x : R) : R := (ln x / ln 2)%R.
(** expm_taylor.py:87, 114: the number of halvings. *)
Definition halvings (norm theta : R) : nat := Z.to_nat (rceil (log2 norm - log2 theta)).

(** [torch.norm(A, 1)] of the entries (expm_taylor.py:81). *)
Definition norm1 (n : nat) (A : rmat) : R := rsumn n (fun i => rsumn n (fun j => Rabs (A i j))).
(** The Frobenius norm (expm_taylor.py:103). *)
Definition norm_fro (n : nat) (A : rmat) : R := sqrt (rsumn n (fun i => rsumn n (fun j => A i j * A i j)))%R.
(** expm_taylor.py:74-77, 98-101: [double] for elements of more than four bytes. *)
Definition thetas (double : bool) : list R := map Q2R (if double then thetas_double else thetas_single).
(** [thetas[-1]] (expm_taylor.py:87, 112). *)
Definition theta_max (double : bool) : R := last (thetas double) 0%R.

(** expm_taylor.py:82-84: the first degree whose bound is not exceeded. *)
Fixpoint first_degree (norm : R) (dt : list (nat * R)) : option nat :=
  match dt with
  | [] => None
  | (d, t) :: r => if Rle_dec norm t then Some d else first_degree norm r
  end.

(** expm_taylor.py:86-90: scaling and squaring. *)
Definition scale_square (n : nat) (double : bool) (A : rmat) : rmat :=
  let s := halvings (norm1 n A) (theta_max double) in
  rpow n (taylor n (rscale (/ 2 ^ s) A) 18) (2 ^ s).
(** expm_taylor.py:63-90 (expm_taylor) for one square matrix. *)
Definition expm_taylor (double : bool) (n : nat) (A : rmat) : rmat :=
  if Nat.eqb n 1 then fun i j => exp (A i j)
  else match first_degree (norm1 n A) (combine degs (thetas double)) with
       | Some d => taylor n A d
       | None => scale_square n double A
       end.

(** Assignment to the places [idx] (expm_taylor.py:58). *)
Fixpoint assign {T : Type} (f : T -> T) (idx : list nat) (l : list T) : list T :=
  match idx with
  | [] => l
  | p :: r => assign f r (firstn p l ++ match skipn p l with [] => [] | x :: t => f x :: t end)
  end.
(** [torch.bincount] (expm_taylor.py:51). *)
Definition bincount (k : list nat) (e : nat) : nat := count_occ Nat.eq_dec k e.
(** [torch.nonzero(count)] (expm_taylor.py:52). *)
Definition nonzero (k : list nat) : list nat := filter (fun e => negb (Nat.eqb (bincount k e) 0)) (seq 0 (S (list_max k))).
(** expm_taylor.py:56-59. *)
Fixpoint power_loop (n : nat) (k idx : list nat) (exps : list nat) (last processed : nat) (A : list rmat) : list rmat :=
  match exps with
  | [] => A
  | e :: r =>
      let A' := assign (fun X => rpow n X (2 ^ (e - last))) (skipn processed idx) A in
      power_loop n k idx r e (processed + bincount k e) A'
  end.
(** expm_taylor.py:46-60 (matrix_power_two_batch) for a flattened batch; [idx] is the
    order that [torch.sort] returns, which need not be stable. *)
Definition matrix_power_two_batch (n : nat) (idx : list nat) (A : list rmat) (k : list nat) : res (list rmat) :=
  match nonzero k with
  | [] => Err IndexError
  | e0 :: exps => Ok (power_loop n k idx exps e0 (bincount k e0) (map (fun X => rpow n X (2 ^ e0)) A))
  end.
(** expm_taylor.py:111-114. *)
Definition batch_halvings (n : nat) (double : bool) (A : rmat) : nat :=
  if Rlt_dec (theta_max double) (norm_fro n A) then halvings (norm_fro n A) (theta_max double) else 0.
(** expm_taylor.py:63-65, 91-119 (expm_taylor) for a flattened batch; [sort] returns the
    order of [torch.sort]. *)
Definition expm_batch (sort : list nat -> list nat) (double : bool) (n : nat) (As : list rmat) : res (list rmat) :=
  if Nat.eqb n 1 then Ok (map (fun A i j => exp (A i j)) As)
  else if forallb (fun A => if Req_EM_T (norm_fro n A) 0 then true else false) As then Ok (map (fun _ => rident) As)
  else
    let k := map (batch_halvings n double) As in
    let Xs := map (fun A => taylor n (rscale (/ 2 ^ batch_halvings n double A) A) 18) As in
    matrix_power_two_batch n (sort k) Xs k.

(** expm_taylor.py:264-271 (differential): the matrix M. *)
Definition block (n : nat) (A E : rmat) : rmat := fun i j =>
  if Nat.ltb i n then (if Nat.ltb j n then A i j else E i (j - n))
  else (if Nat.ltb j n then 0%R else A (i - n) (j - n)).
(** The same. *)
Definition differential (n : nat) (A E : rmat) (f : nat -> rmat -> rmat) : rmat := fun i j => f (2 * n) (block n A E) i (n + j).
(** [A.transpose] (expm_taylor.py:287). *)
Definition rtranspose (A : rmat) : rmat := fun i j => A j i.
(** [(A == 0).all()] (expm_taylor.py:284). *)
Definition all_zero (n : nat) (A : rmat) : bool :=
  forallb (fun i => forallb (fun j => if Req_EM_T (A i j) 0 then true else false) (seq 0 n)) (seq 0 n).
(** expm_taylor.py:280-287 (expm_taylor_class.backward) for one matrix. *)
Definition backward (double : bool) (n : nat) (A G : rmat) : rmat :=
  if all_zero n A then G else differential n (rtranspose A) G (expm_taylor double).
