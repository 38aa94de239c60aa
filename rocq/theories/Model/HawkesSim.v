(** Model of HawkesSimulator in /repo/cdmir/datasets/simlulators.py:563-652.  The edges are [hawkes_edges] in
    Model/Simulators.v.  The simulation of the process by the package tick is an argument, as are the random draws. *)

From Coq Require Import List Arith Bool ZArith QArith Qcanon.
From Verif Require Import Model.Py Model.Graph Model.Simulators Model.SHPTable.
Import ListNotations.
Open Scope nat_scope.
Open Scope res_scope.

(** simlulators.py:580-581: the strengths; [u i j] is what [uniform] draws. *)
Definition hawkes_alpha (edge_mat : list (list Z)) (u : nat -> nat -> Qc) (i j : nat) : Qc :=
  (Q2Qc (inject_Z (mat_get edge_mat i j)) * u i j)%Qc.
(** simlulators.py:584-588: the calls of [set_kernel], as (type that is excited, type that excites, strength). *)
Definition hawkes_kernels (n : nat) (alpha : nat -> nat -> Qc) : list (nat * nat * Qc) :=
  flat_map (fun i => flat_map (fun j => if Qc_eq_dec (alpha i j) 0 then [] else [(j, i, alpha i j)]) (seq 0 n)) (seq 0 n).
(** simlulators.py:590-601: the rows of the table; [stamps node event_name] are the times that tick returns. *)
Definition hawkes_rows (NE_num n : nat) (stamps : nat -> nat -> list Qc) : list event :=
  flat_map (fun node => flat_map (fun event_name => map (fun t => Ev node t event_name) (stamps node event_name)) (seq 0 n)) (seq 0 NE_num).
(** [unique] of pandas: the values in the order of their first occurrence (simlulators.py:610). *)
Definition first_seen (l : list nat) : list nat := fold_left (fun seen j => if existsb (Nat.eqb j) seen then seen else seen ++ [j]) l [].
(** simlulators.py:608-610. *)
Definition hawkes_events (table : list event) : list (list (list Qc)) :=
  map (fun j => map (fun i => map ev_time (filter (fun e => Nat.eqb (ev_type e) i && Nat.eqb (ev_seq e) j) table)) (unique (map ev_type table)))
      (first_seen (map ev_seq table)).
(** simlulators.py:567-611 (get_artificial_data): the table and the nested times.  The number of jumps is divided by [NE_num]
    (line 583), and the times by the interval (line 606), which gives infinities or NaN for 0.  edge_mat, alpha and mu are
    returned as they were drawn. *)
Definition artificial_data (n NE_num : nat) (stamps : nat -> nat -> list Qc) (time_interval : option Qc) : res (list event * list (list (list Qc))) :=
  _ <-? (if Nat.eqb NE_num 0 then Err ZeroDivisionError else Ok tt) ;;
  let rows := hawkes_rows NE_num n stamps in
  match time_interval with
  | None => Ok (rows, hawkes_events rows)
  | Some d =>
      if Qc_eq_dec d 0 then match rows with [] => Ok ([], []) | _ => Err ValueError end
      else
        let table := map (fun e => Ev (ev_seq e) (binned d (ev_time e)) (ev_type e)) rows in
        Ok (table, hawkes_events table)
  end.

(** simlulators.py:619-624: Y; [x i] and [e i] are the Poisson draws, [b i k] the k-th binomial draw for sample i. *)
Definition insem_y (x e : nat -> nat) (b : nat -> nat -> nat) (i : nat) : nat := list_sum (map (b i) (seq 0 (x i))) + e i.
(** simlulators.py:625-639: the rows for one variable. *)
Definition insem_rows (size : nat) (count : nat -> nat) (event_type : nat) : list event :=
  flat_map (fun t => repeat (Ev 0 (Q2Qc (inject_Z (Z.of_nat t))) event_type) (count t)) (seq 0 size).
(** simlulators.py:614-641 (INSEM_data).  Without any row the frame has no columns to rename. *)
Definition insem_data (size : nat) (x e : nat -> nat) (b : nat -> nat -> nat) : res (list event) :=
  let df := insem_rows size x 0 ++ insem_rows size (insem_y x e b) 1 in
  match df with [] => Err ValueError | _ => Ok df end.
