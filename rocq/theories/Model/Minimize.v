(** Model of [minimize] of /repo/cdmir/utils/local_score/score_utils.py ("score_utils.py"),
    Rasmussen's method of conjugate gradients.

    Numbers are exact reals, so that a value of the objective is never NaN or infinite, and
    [length] is an integer, so that [red] is 1.  The points at which the objective was
    evaluated, which the code does not keep, are returned as well. *)

From Coq Require Import List Arith Bool Reals.
From Verif Require Import Model.Py.
Import ListNotations.
Open Scope nat_scope.
Open Scope res_scope.

(* ---------- minimize ---------- *)
(** A column of parameters or of derivatives (score_utils.py:112-129). *)
Definition vec := nat -> R.
(** INT (score_utils.py:145). *)
Definition c_INT : R := (/ 10)%R.
(** EXT (score_utils.py:146). *)
Definition c_EXT : R := 3%R.
(** MAX (score_utils.py:147). *)
Definition c_MAX : nat := 20.
(** RATIO (score_utils.py:148). *)
Definition c_RATIO : R := 10%R.
(** SIG (score_utils.py:149). *)
Definition c_SIG : R := (/ 10)%R.
(** RHO (score_utils.py:150). *)
Definition c_RHO : R := (c_SIG / 2)%R.
(** [sys.float_info.min] (score_utils.py:299). *)
Definition float_min : R := (/ 2 ^ 1022)%R.
(** [X + x3 * s] (score_utils.py:219). *)
Definition move (X s : vec) (x : R) : vec := fun j => (X j + x * s j)%R.
(** [s = -df0] (score_utils.py:193, 307). *)
Definition vneg (s : vec) : vec := fun j => (- s j)%R.
(** [a > b] for numbers (score_utils.py:234). *)
Definition gt (a b : R) : bool := if Rlt_dec b a then true else false.

Section Minimize.
  (** The objective, [None] for an exception; [slope g s] is [(g.T * s)[0, 0]], and
      [cg df0 df3 s] the direction of score_utils.py:292, whose shapes fit only for some
      types of [df0] and [s]. *)
  Variables (f : vec -> option (R * vec)) (slope : vec -> vec -> R) (cg : vec -> vec -> vec -> vec).

  (** score_utils.py:211-227: the inner loop; the remaining number [M], the step, the value
      and the points at which the objective was evaluated (which the code does not keep).
      [x2] is 0 here. *)
  Fixpoint attempt (X s : vec) (x3 : R) (M : nat) : nat * R * option (R * vec) * list vec :=
    match M with
    | 0 => (0, x3, None, [])
    | S m =>
        match f (move X s x3) with
        | Some r => (m, x3, Some r, [move X s x3])
        | None => let '(m', x, r, t) := attempt X s ((0 + x3) / 2)%R m in (m', x, r, move X s x3 :: t)
        end
    end.
  (** [X0], [F0], [dF0]: the best point of a line search (score_utils.py:199-201). *)
  Definition best : Type := vec * R * vec.
  (** score_utils.py:229-232, 279-282. *)
  Definition keep (b : best) (P : vec) (v : R) (g : vec) : best := let '(_, F0, _) := b in if Rlt_dec v F0 then (P, v, g) else b.
  (** score_utils.py:243-246: the cubic extrapolation from [x1] and [x2]; None for NaN. *)
  Definition cubic_out (x1 f1 d1 x2 f2 d2 : R) : option R :=
    let A := (6 * (f1 - f2) + 3 * (d2 + d1) * (x2 - x1))%R in
    let B := (3 * (f2 - f1) - (2 * d1 + d2) * (x2 - x1))%R in
    let disc := (B * B - A * d1 * (x2 - x1))%R in
    if Rlt_dec disc 0 then None
    else let den := (B + sqrt disc)%R in
         if Req_EM_T den 0 then None else Some (x1 - d1 * (x2 - x1) ^ 2 / den)%R.
  (** score_utils.py:246-251. *)
  Definition outside (x1 x2 : R) (x : option R) : R :=
    match x with
    | None => (x2 * c_EXT)%R
    | Some x3 =>
        if Rlt_dec x3 0 then (x2 * c_EXT)%R
        else if Rlt_dec (x2 * c_EXT) x3 then (x2 * c_EXT)%R
        else if Rlt_dec x3 (x2 + c_INT * (x2 - x1)) then (x2 + c_INT * (x2 - x1))%R else x3
    end.
  (** score_utils.py:207-251: the loop of extrapolation, from the step [x3]; the remaining
      [M], step, value, derivatives, slope, best point and evaluated points. *)
  Fixpoint extrapolate (fuel : nat) (X s : vec) (f0 : R) (df0 : vec) (d0 : R) (b : best) (x3 : R) (M : nat) (t : list vec)
      : res (nat * R * R * vec * R * best * list vec) :=
    match fuel with
    | 0 => Err OutOfFuel
    | S fuel' =>
        let '(M', x, r, pts) := attempt X s x3 M in
        let (f3, df3) := match r with Some p => p | None => (f0, df0) end in
        let b' := keep b (move X s x) f3 df3 in
        let d3 := slope df3 s in
        let t' := t ++ pts in
        if gt d3 (c_SIG * d0) || gt f3 (f0 + x * c_RHO * d0) || Nat.eqb M' 0
        then Ok (M', x, f3, df3, d3, b', t')
        else extrapolate fuel' X s f0 df0 d0 b' (outside 0 x (cubic_out 0 f0 d0 x f3 d3)) M' t'
    end.
  (** score_utils.py:264-269: quadratic or cubic interpolation; None for NaN. *)
  Definition between (f0 x2 f2 d2 x4 f4 d4 : R) : option R :=
    if gt f4 f0
    then let den := (f4 - f2 - d2 * (x4 - x2))%R in
         if Req_EM_T den 0 then None else Some (x2 - (/ 2 * d2 * (x4 - x2) ^ 2) / den)%R
    else if Req_EM_T (x4 - x2) 0 then None
    else
      let A := (6 * (f2 - f4) / (x4 - x2) + 3 * (d4 + d2))%R in
      let B := (3 * (f4 - f2) - (2 * d2 + d4) * (x4 - x2))%R in
      let disc := (B * B - A * d2 * (x4 - x2) ^ 2)%R in
      if Rlt_dec disc 0 then None else if Req_EM_T A 0 then None else Some (x2 + (sqrt disc - B) / A)%R.
  (** score_utils.py:271-274. *)
  Definition inside (x2 x4 : R) (x : option R) : R :=
    let x3 := match x with None => ((x2 + x4) / 2)%R | Some x => x end in
    Rmax (Rmin x3 (x4 - c_INT * (x4 - x2))) (x2 + c_INT * (x4 - x2)).
  (** score_utils.py:254-285: the loop of interpolation; [p4] holds [x4], [f4], [d4] if they
      are bound. *)
  Fixpoint interpolate (M : nat) (X s : vec) (f0 d0 : R) (b : best) (x2 f2 d2 : R) (x3 f3 : R) (df3 : vec) (d3 : R) (p4 : option (R * R * R)) (t : list vec)
      : res (R * R * vec * R * best * option (R * R * R) * list vec) :=
    match M with
    | 0 => Ok (x3, f3, df3, d3, b, p4, t)
    | S m =>
        if gt (Rabs d3) (- c_SIG * d0) || gt f3 (f0 + x3 * c_RHO * d0) then
          let high := gt d3 0 || gt f3 (f0 + x3 * c_RHO * d0) in
          let q4 := if high then Some (x3, f3, d3) else p4 in
          let '(y2, g2, e2) := if high then (x2, f2, d2) else (x3, f3, d3) in
          match q4 with
          | None => Err UnboundLocalError
          | Some (x4, f4, d4) =>
              let y3 := inside y2 x4 (between f0 y2 g2 e2 x4 f4 d4) in
              match f (move X s y3) with
              | None => Err PyException
              | Some (v, g) => interpolate m X s f0 d0 (keep b (move X s y3) v g) y2 g2 e2 y3 v g (slope g s) q4 (t ++ [move X s y3])
              end
          end
        else Ok (x3, f3, df3, d3, b, p4, t)
    end.
  (** The variables of the main loop (score_utils.py:185-206). *)
  Record mstate : Type := mkM { m_X : vec; m_f0 : R; m_df0 : vec; m_s : vec; m_d0 : R; m_x3 : R; m_i : nat; m_failed : bool; m_fX : list R; m_p4 : option (R * R * R); m_points : list vec }.
  (** score_utils.py:197-311: the main loop; [lines]: [length] is positive and counts line
      searches, otherwise evaluations; [n] is its absolute value. *)
  Fixpoint minimize_loop (fuel : nat) (lines : bool) (n : nat) (S0 : mstate) : res (vec * list R * nat * list vec) :=
    match fuel with
    | 0 => Err OutOfFuel
    | S fuel' =>
        if Nat.ltb (m_i S0) n then
          let i0 := m_i S0 + (if lines then 1 else 0) in
          let M := if lines then c_MAX else Nat.min c_MAX (n - i0) in
          let X := m_X S0 in
          let s := m_s S0 in
          let f0 := m_f0 S0 in
          let d0 := m_d0 S0 in
          e <-? extrapolate M X s f0 (m_df0 S0) d0 (X, f0, m_df0 S0) (m_x3 S0) M [] ;;
          let '(M1, x3, f3, df3, d3, b1, t1) := e in
          r <-? interpolate M1 X s f0 d0 b1 0%R f0 d0 x3 f3 df3 d3 (m_p4 S0) t1 ;;
          let '(x, v, dv, d, b2, p4, t2) := r in
          let i1 := i0 + (if lines then 0 else length t2) in
          let points := m_points S0 ++ t2 in
          if (if Rlt_dec (Rabs d) (- c_SIG * d0) then true else false) && (if Rlt_dec v (f0 + x * c_RHO * d0) then true else false) then
            let s1 := cg (m_df0 S0) dv s in
            let d1 := slope dv s1 in
            let '(s2, d2) := if gt d1 0 then (vneg dv, (- slope (vneg dv) (vneg dv))%R) else (s1, d1) in
            minimize_loop fuel' lines n (mkM (move X s x) v dv s2 d2 (x * Rmin c_RATIO (d0 / (d2 - float_min)))%R i1 false (m_fX S0 ++ [v]) p4 points)
          else
            let '(X0, F0, dF0) := b2 in
            if m_failed S0 || Nat.ltb n i1 then Ok (X0, m_fX S0, i1, points)
            else
              let s1 := vneg dF0 in
              let d1 := (- slope s1 s1)%R in
              minimize_loop fuel' lines n (mkM X0 F0 dF0 s1 d1 (1 / (1 - d1))%R i1 true (m_fX S0) p4 points)
        else Ok (m_X S0, m_fX S0, m_i S0, m_points S0)
    end.
  (** score_utils.py:112-311 (minimize) for a number [length]; also returns the points at
      which the objective was evaluated. *)
  Definition minimize (X : vec) (lines : bool) (n : nat) : res (vec * list R * nat * list vec) :=
    match f X with
    | None => Err PyException
    | Some (f0, df0) =>
        let s := vneg df0 in
        let d0 := (- slope s s)%R in
        minimize_loop (S n) lines n (mkM X f0 df0 s d0 (1 / (1 - d0))%R (if lines then 0 else 1) false [f0] None [X])
    end.
End Minimize.
