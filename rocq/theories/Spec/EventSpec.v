(** What the tables of a point process hold, stated on the events. *)

From Coq Require Import List Arith Bool ZArith QArith Qcanon Reals Qreals.
From Verif Require Import Model.SHPTable.
Import ListNotations.

(** [b] is the time [t] on the grid of [d]: the multiple of [d] next to t on the side of 0. *)
Definition on_grid (d t b : Qc) : Prop :=
  (exists k : Z, b = Q2Qc (inject_Z k) * d)%Qc /\ (0 <= t -> b <= t /\ t < b + d)%Qc /\ (t <= 0 -> b - d < t /\ t <= b)%Qc.
(** The time of an event: as it is, or on the grid. *)
Definition stamped (grid : option Qc) (t b : Qc) : Prop := match grid with None => b = t | Some d => on_grid d t b end.

(** The first and the last time of a sequence. *)
Definition first_time (evs : list event) (stamp : event -> Qc) (s : nat) (m : Qc) : Prop :=
  (exists e, In e evs /\ ev_seq e = s /\ stamp e = m) /\ forall e, In e evs -> ev_seq e = s -> (m <= stamp e)%Qc.
Definition last_time (evs : list event) (stamp : event -> Qc) (s : nat) (m : Qc) : Prop :=
  (exists e, In e evs /\ ev_seq e = s /\ stamp e = m) /\ forall e, In e evs -> ev_seq e = s -> (stamp e <= m)%Qc.
Definition occurs (evs : list event) (s : nat) : Prop := exists e, In e evs /\ ev_seq e = s.

(** Sums over a list. *)
Definition total {A} (l : list A) (f : A -> R) : R := fold_right (fun a x => (f a + x)%R) 0%R l.
(** How many members have a property. *)
Definition how_many {A} (P : A -> bool) (l : list A) : nat := List.length (filter P l).
(** Equality of rationals as a test. *)
Definition same (a b : Qc) : bool := if Qc_eq_dec a b then true else false.
(** Before, in the order of sequences and times. *)
Definition earlier (a b : nat * Qc) : Prop := (fst a < fst b)%nat \/ fst a = fst b /\ (snd a < snd b)%Qc.

(** What is left at time [now] of an effect that starts with 1 at time [past] and decays exponentially, when effects below
    1/10000 are neglected. *)
Definition felt (decay : R) (now past : Qc) : R :=
  if Qclt_le_dec now past then 0%R
  else if Rlt_dec (exp (- (decay * (Q2R now - Q2R past)))) (1 / 10000) then 0%R else exp (- (decay * (Q2R now - Q2R past))).
(** [v] is the integral over the times from [past] to [now] of an effect that starts with 1 and decays exponentially. *)
Definition accumulated (decay : R) (past now : Qc) (v : R) : Prop :=
  exists G : R -> R, (forall x, derivable_pt_lim G x (exp (- (decay * (x - Q2R past))))) /\ v = (G (Q2R now) - G (Q2R past))%R.

(** The times of the events (as they are, or on a grid), with the first and the last of every sequence. *)
Definition calendar (grid : option Qc) (evs : list event) (stamp : event -> Qc) (first last : nat -> Qc) : Prop :=
  (forall d, grid = Some d -> 0 < d)%Qc /\ (forall e, In e evs -> stamped grid (ev_time e) (stamp e))
  /\ (forall s, occurs evs s -> first_time evs stamp s (first s)) /\ (forall s, occurs evs s -> last_time evs stamp s (last s)).
(** The events of sequence [s], at time [u], of type [y]. *)
Definition at_time (stamp : event -> Qc) (s : nat) (u : Qc) (y : nat) (e : event) : bool :=
  Nat.eqb (ev_seq e) s && same (stamp e) u && Nat.eqb (ev_type e) y.
(** Before, in the order of sequences, times and types. *)
Definition row_before (a b : trow) : Prop :=
  r_seq a < r_seq b \/ r_seq a = r_seq b /\ ((r_time a < r_time b)%Qc \/ r_time a = r_time b /\ r_type a < r_type b).
(** Every sequence once, in the order of first occurrence. *)
Definition in_order_of_occurrence (ids : list nat) (evs : list event) : Prop :=
  (forall s, In s ids <-> occurs evs s) /\
  forall l1 e l2, evs = l1 ++ e :: l2 -> ~ occurs l1 (ev_seq e) ->
    exists i1 i2, ids = i1 ++ ev_seq e :: i2 /\ ~ In (ev_seq e) i1 /\ ~ In (ev_seq e) i2 /\ forall s, In s i1 <-> occurs l1 s.
