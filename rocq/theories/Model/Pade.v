(** Model of /repo/cdmir/discovery/score_based/entropy_based/pytorch_expm, the Pade
    version (expm64.py, expm32.py, expm_pade.py).  Matrices are n by n over the reals and
    numbers are exact, as in Expm.v.  The import of expm32 by its bare name in
    expm_pade.py:4-5 works only if the directory itself is on the path, and torch.solve
    does not exist in recent versions of torch; neither is modelled. *)

From Coq Require Import List Arith Bool ZArith QArith Qreals Reals.
From Verif Require Import Model.Py Model.LocalScore Model.KCI Model.Expm.
Import ListNotations.
Open Scope nat_scope.

(* ---------- powers and norms ---------- *)
(** expm64.py:94-122, expm32.py:94-122: the stored even powers. *)
Definition hA2 (n : nat) (A : rmat) : rmat := rdot n A A.
(** expm64.py:100-104. *)
Definition hA4 (n : nat) (A : rmat) : rmat := rdot n (hA2 n A) (hA2 n A).
(** expm64.py:106-110. *)
Definition hA6 (n : nat) (A : rmat) : rmat := rdot n (hA4 n A) (hA2 n A).
(** expm64.py:112-116. *)
Definition hA8 (n : nat) (A : rmat) : rmat := rdot n (hA6 n A) (hA2 n A).
(** expm64.py:118-122. *)
Definition hA10 (n : nat) (A : rmat) : rmat := rdot n (hA4 n A) (hA6 n A).
(** [x**(1/4.)] and the like (expm64.py:127): the exact root of a number that is not
    negative, with 0 for 0. *)
Definition root (k : nat) (x : R) : R := if Req_EM_T x 0 then 0%R else Rpower x (/ INR k).
(** expm64.py:124-128. *)
Definition d4 (n : nat) (A : rmat) : R := root 4 (norm1 n (hA4 n A)).
(** expm64.py:130-134. *)
Definition d6 (n : nat) (A : rmat) : R := root 6 (norm1 n (hA6 n A)).
(** expm64.py:136-140. *)
Definition d8 (n : nat) (A : rmat) : R := root 8 (norm1 n (hA8 n A)).
(** expm64.py:142-146. *)
Definition d10 (n : nat) (A : rmat) : R := root 10 (norm1 n (hA10 n A)).

(* ---------- the approximants: the pair U, V ---------- *)
(** expm64.py:164-168. *)
Definition pade3 (n : nat) (A : rmat) : rmat * rmat :=
  (rdot n A (radd (rscale 1 (hA2 n A)) (rscale 60 rident)), radd (rscale 12 (hA2 n A)) (rscale 120 rident)).
(** expm64.py:170-174. *)
Definition pade5 (n : nat) (A : rmat) : rmat * rmat :=
  (rdot n A (radd (radd (rscale 1 (hA4 n A)) (rscale 420 (hA2 n A))) (rscale 15120 rident)),
   radd (radd (rscale 30 (hA4 n A)) (rscale 3360 (hA2 n A))) (rscale 30240 rident)).
(** expm64.py:177-181. *)
Definition pade7 (n : nat) (A : rmat) : rmat * rmat :=
  (rdot n A (radd (radd (radd (rscale 1 (hA6 n A)) (rscale 1512 (hA4 n A))) (rscale 277200 (hA2 n A))) (rscale 8648640 rident)),
   radd (radd (radd (rscale 56 (hA6 n A)) (rscale 25200 (hA4 n A))) (rscale 1995840 (hA2 n A))) (rscale 17297280 rident)).
(** expm64.py:183-190. *)
Definition pade9 (n : nat) (A : rmat) : rmat * rmat :=
  (rdot n A (radd (radd (radd (radd (rscale 1 (hA8 n A)) (rscale 3960 (hA6 n A))) (rscale 2162160 (hA4 n A))) (rscale 302702400 (hA2 n A))) (rscale 8821612800 rident)),
   radd (radd (radd (radd (rscale 90 (hA8 n A)) (rscale 110880 (hA6 n A))) (rscale 30270240 (hA4 n A))) (rscale 2075673600 (hA2 n A))) (rscale 17643225600 rident)).
(** expm64.py:197-200, expm32.py:179-182: B, B2, B4 and B6. *)
Definition down (s k : nat) (A : rmat) : rmat := rscale (/ 2 ^ (k * s)) A.
(** expm64.py:192-205. *)
Definition pade13_scaled (n : nat) (A : rmat) (s : nat) : rmat * rmat :=
  let B := down s 1 A in
  let B2 := down s 2 (hA2 n A) in
  let B4 := down s 4 (hA4 n A) in
  let B6 := down s 6 (hA6 n A) in
  let U2 := rdot n B6 (radd (radd (rscale 1 B6) (rscale 16380 B4)) (rscale 40840800 B2)) in
  let U := rdot n B (radd (radd (radd (radd U2 (rscale 33522128640 B6)) (rscale 10559470521600 B4)) (rscale 1187353796428800 B2)) (rscale 32382376266240000 rident)) in
  let V2 := rdot n B6 (radd (radd (rscale 182 B6) (rscale 960960 B4)) (rscale 1323241920 B2)) in
  let V := radd (radd (radd (radd V2 (rscale 670442572800 B6)) (rscale 129060195264000 B4)) (rscale 7771770303897600 B2)) (rscale 64764752532480000 rident) in
  (U, V).
(** expm32.py:176-186. *)
Definition pade7_scaled (n : nat) (A : rmat) (s : nat) : rmat * rmat :=
  let B := down s 1 A in
  let B2 := down s 2 (hA2 n A) in
  let B4 := down s 4 (hA4 n A) in
  let B6 := down s 6 (hA6 n A) in
  (rdot n B (radd (radd (radd (rscale 1 B6) (rscale 1512 B4)) (rscale 277200 B2)) (rscale 8648640 rident)),
   radd (radd (radd (rscale 56 B6) (rscale 25200 B4)) (rscale 1995840 B2)) (rscale 17297280 rident)).

(** expm64.py:290 (P). *)
Definition p_of (UV : rmat * rmat) : rmat := radd (fst UV) (snd UV).
(** expm64.py:291 (Q). *)
Definition q_of (UV : rmat * rmat) : rmat := radd (rscale (-1) (fst UV)) (snd UV).
(** expm64.py:289-292, expm32.py:259-262 (_solve_P_Q); [solve n Q P] stands for
    [torch.solve(P, Q)[0]]. *)
Definition solve_P_Q (solve : nat -> rmat -> rmat -> rmat) (n : nat) (UV : rmat * rmat) : rmat := solve n (q_of UV) (p_of UV).

(* ---------- the choice of the degree ---------- *)
(** expm64.py:46-50, expm32.py:46-50 (_onenorm_matrix_power_nnm): the largest column sum of
    a power of a matrix without negative entries; n is not 0. *)
Definition onenorm_power (n : nat) (A : rmat) (p : nat) : R :=
  fold_right Rmax 0%R (map (fun j => Nat.iter p (fun v => fun i => rsumn n (fun a => A a i * v a)%R) (fun _ => 1%R) j) (seq 0 n)).
(** [scipy.special.comb(2*p, p) * math.factorial(2*p + 1)] (expm64.py:319-320). *)
Definition abs_c_recip (p : nat) : R := (C (2 * p) p * INR (fact (2 * p + 1)))%R.
(** expm64.py:295-334 with [u] = 2^-53, expm32.py:265-304 with [u] = 2^-24 (_ell). *)
Definition ell (u : R) (n : nat) (A : rmat) (m : nat) : nat :=
  let p := 2 * m + 1 in
  let norm := onenorm_power n (fun i j => Rabs (A i j)) p in
  if Req_EM_T norm 0 then 0
  else
    let alpha := (norm / (norm1 n A * abs_c_recip p))%R in
    Z.to_nat (rceil (log2 (alpha / u) / (2 * INR m))).
(** [eta < theta and _ell(h.A, m) == 0] (expm64.py:257). *)
Definition accepts (u eta theta : R) (n : nat) (A : rmat) (m : nat) : bool :=
  ((if Rlt_dec eta theta then true else false) && Nat.eqb (ell u n A m) 0)%bool.
(** [max(int(np.ceil(np.log2(eta / theta))), 0)] (expm64.py:281, expm32.py:251); None is
    the OverflowError of [int(-inf)] for eta = 0. *)
Definition scaling (eta theta : R) : option nat :=
  if Req_EM_T eta 0 then None else Some (Z.to_nat (rceil (log2 (eta / theta)))).

(** expm64.py:324. *)
Definition u64 : R := (/ 2 ^ 53)%R.
(** expm64.py:257, 263, 269, 272, 279: the bounds for the orders 3, 5, 7, 9 and 13. *)
Definition thetas64 : list Q :=
  [(1495585217958292 # 100000000000000000); (2539398330063230 # 10000000000000000); (9504178996162932 # 10000000000000000); (2097847961257068 # 1000000000000000); (425 # 100)]%Q.
(** One of them. *)
Definition theta64 (k : nat) : R := Q2R (nth k thetas64 0%Q).
(** expm64.py:239-286 (_expm); None stands for OverflowError. *)
Definition expm64 (solve : nat -> rmat -> rmat -> rmat) (n : nat) (A : rmat) : option rmat :=
  if Nat.eqb n 1 then Some (fun i j => exp (A i j))
  else
    let eta_1 := Rmax (d4 n A) (d6 n A) in
    if accepts u64 eta_1 (theta64 0) n A 3 then Some (solve_P_Q solve n (pade3 n A))
    else
    let eta_2 := Rmax (d4 n A) (d6 n A) in
    if accepts u64 eta_2 (theta64 1) n A 5 then Some (solve_P_Q solve n (pade5 n A))
    else
    let eta_3 := Rmax (d6 n A) (d8 n A) in
    if accepts u64 eta_3 (theta64 2) n A 7 then Some (solve_P_Q solve n (pade7 n A))
    else if accepts u64 eta_3 (theta64 3) n A 9 then Some (solve_P_Q solve n (pade9 n A))
    else
    let eta_4 := Rmax (d8 n A) (d10 n A) in
    let eta_5 := Rmin eta_3 eta_4 in
    match scaling eta_5 (theta64 4) with
    | None => None
    | Some s0 =>
        let s := s0 + ell u64 n (rscale (/ 2 ^ s0) A) 13 in
        Some (rpow n (solve_P_Q solve n (pade13_scaled n A s)) (2 ^ s))
    end.

(** expm32.py:294. *)
Definition u32 : R := (/ 2 ^ 24)%R.
(** expm32.py:237, 244, 249: the bounds for the orders 3, 5 and 7. *)
Definition thetas32 : list Q :=
  [(42587300348979312 # 100000000000000000); (18801526985337688 # 10000000000000000); (39257248464332842 # 10000000000000000)]%Q.
(** One of them. *)
Definition theta32 (k : nat) : R := Q2R (nth k thetas32 0%Q).
(** expm32.py:220-256 (_expm); None stands for OverflowError. *)
Definition expm32 (solve : nat -> rmat -> rmat -> rmat) (n : nat) (A : rmat) : option rmat :=
  if Nat.eqb n 1 then Some (fun i j => exp (A i j))
  else
    let eta_1 := Rmax (d4 n A) (d6 n A) in
    if accepts u32 eta_1 (theta32 0) n A 3 then Some (solve_P_Q solve n (pade3 n A))
    else
    let eta_2 := Rmax (d4 n A) (d6 n A) in
    if accepts u32 eta_2 (theta32 1) n A 5 then Some (solve_P_Q solve n (pade5 n A))
    else
    let eta_3 := Rmax (d6 n A) (d8 n A) in
    match scaling eta_3 (theta32 2) with
    | None => None
    | Some s0 =>
        let s := s0 + ell u32 n (rscale (/ 2 ^ s0) A) 7 in
        Some (rpow n (solve_P_Q solve n (pade7_scaled n A s)) (2 ^ s))
    end.

(* ---------- expm_pade.py ---------- *)
(** expm_pade.py:17-28 (forward); [double] for elements of more than four bytes. *)
Definition expm_pade (solve : nat -> rmat -> rmat -> rmat) (double : bool) (n : nat) (A : rmat) : option rmat :=
  if double then expm64 solve n A else expm32 solve n A.
(** expm_pade.py:7-13, 30-34 (differential, backward). *)
Definition backward_pade (solve : nat -> rmat -> rmat -> rmat) (double : bool) (n : nat) (A G : rmat) : option rmat :=
  match expm_pade solve double (2 * n) (block n (rtranspose A) G) with
  | Some F => Some (fun i j => F i (n + j))
  | None => None
  end.
