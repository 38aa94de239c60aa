(** Model of the preparation of the event table in /repo/cdmir/discovery/point_process/SHP.py:28-139: the constructor of
    SHP, get_event_table, calculate_influence_of_each_event, kappa; and of get_interval_events (lines 15-20).

    Times are canonical rationals (every float is one); sequence ids and event types are natural numbers, of which only the
    order is used.  Missing values (NaN) and tables without events are not modelled.  Numbers that go through [np.exp] are
    exact reals; Model/SHP.v, which reads these attributes, is written for rationals. *)

From Coq Require Import List Arith Bool ZArith QArith Qcanon Reals Qreals.
From Verif Require Import Model.Py Model.Graph.
Import ListNotations.
Open Scope nat_scope.
Open Scope res_scope.

(** A row of the table passed to the constructor (SHP.py:33): ['seq_id', 'time_stamp', 'event_type']. *)
Record event : Type := Ev { ev_seq : nat; ev_time : Qc; ev_type : nat }.

(** The types of columns that decide the type of [.values] (SHP.py:78): integers, floats, or anything else. *)
Inductive kind : Type := Ints | Floats | Objects.
(** numpy's common type of two columns (SHP.py:78). *)
Definition common (a b : kind) : kind :=
  match a, b with Objects, _ | _, Objects => Objects | Floats, _ | _, Floats => Floats | Ints, Ints => Ints end.

(** pandas' [.astype('int')] cuts off the decimals (SHP.py:16, 124). *)
Definition truncated (q : Qc) : Z := Z.quot (Qnum q) (Zpos (Qden q)).
(** SHP.py:16 and 124-125: [(t / interval).astype('int') * interval]. *)
Definition binned (interval t : Qc) : Qc := (Q2Qc (inject_Z (truncated (t / interval))) * interval)%Qc.

(** Order of the keys of groupby (SHP.py:128). *)
Definition key : Type := (nat * Qc * nat)%type.
Definition key_compare (a b : key) : comparison :=
  let '(s, t, y) := a in
  let '(s', t', y') := b in
  match Nat.compare s s' with
  | Eq => match Qccompare t t' with Eq => Nat.compare y y' | c => c end
  | c => c
  end.
(** SHP.py:127-128: [groupby([...]).count()]: one row for each key, in their order, with the number of rows of this key. *)
Fixpoint count_in (k : key) (l : list (key * nat)) : list (key * nat) :=
  match l with
  | [] => [(k, 1)]
  | (k', c) :: r =>
      match key_compare k k' with
      | Eq => (k', S c) :: r
      | Lt => (k, 1) :: l
      | Gt => (k', c) :: count_in k r
      end
  end.
Definition groupby_count (ks : list key) : list (key * nat) := fold_right count_in [] ks.

(** numpy's unique and the categories of pandas (SHP.py:18, 48, 130-132): every value once, in order. *)
Fixpoint into_sorted (x : nat) (l : list nat) : list nat :=
  match l with
  | [] => [x]
  | a :: r => match Nat.compare x a with Eq => l | Lt => x :: l | Gt => a :: into_sorted x r end
  end.
Definition unique (l : list nat) : list nat := fold_right into_sorted [] l.
(** [cat.codes] (SHP.py:131): the position among the categories. *)
Fixpoint code (names : list nat) (x : nat) : nat :=
  match names with [] => 0 | a :: r => if Nat.eqb x a then 0 else S (code r x) end.

(** [.max()] and [.min()] of times (SHP.py:51-53, 65-67, 134); of no time they are not used. *)
Definition qc_max (l : list Qc) : Qc := match l with [] => 0%Qc | a :: r => fold_left (fun m x => if Qclt_le_dec m x then x else m) r a end.
Definition qc_min (l : list Qc) : Qc := match l with [] => 0%Qc | a :: r => fold_left (fun m x => if Qclt_le_dec x m then x else m) r a end.

(** A row of [self.event_table] (SHP.py:43, 135). *)
Record trow : Type := Row { r_seq : nat; r_time : Qc; r_type : nat; r_times : nat; r_ind : nat; r_max : Qc }.
(** The times in the rows of one sequence (SHP.py:49-53, 65-67, 134). *)
Definition times_of (get : trow -> Qc) (s : nat) (l : list trow) : list Qc := map get (filter (fun r => Nat.eqb (r_seq r) s) l).

(** SHP.py:120-139 (get_event_table), for an interval other than 0: table and names.  [sort_values] (line 137) returns a
    sorted copy that is dropped; the merge (line 135) keeps the rows in their order. *)
Definition get_event_table (time_interval : option Qc) (evs : list event) : list trow * list nat :=
  let ks := map (fun e => (ev_seq e, match time_interval with None => ev_time e | Some dt => binned dt (ev_time e) end, ev_type e)) evs in
  let counted := groupby_count ks in
  let event_names := unique (map (fun kc => snd (fst kc)) counted) in
  let rows := map (fun kc : key * nat => let '((s, t, y), c) := kc in Row s t y c (code event_names y) 0%Qc) counted in
  (map (fun r => Row (r_seq r) (r_time r) (r_type r) (r_times r) (r_ind r) (qc_max (times_of r_time (r_seq r) rows))) rows, event_names).

(** SHP.py:48-53: the first time of every sequence is set to 0.  The loop treats the rows of one sequence after the other. *)
Definition start_at_zero (l : list trow) : list trow :=
  map (fun r => let first := qc_min (times_of r_time (r_seq r) l) in
                Row (r_seq r) (r_time r - first)%Qc (r_type r) (r_times r) (r_ind r) (r_max r - first)%Qc) l.

(** SHP.py:66-67: [self.T_each_seq]. *)
Definition T_each_seq (l : list trow) (s : nat) : Qc := qc_max (times_of r_time s l).
(** SHP.py:65: [self.T]. *)
Definition T_total (l : list trow) : Qc := fold_right Qcplus 0%Qc (map (T_each_seq l) (unique (map r_seq l))).

(** Equality of the keys of X_dict (SHP.py:79). *)
Definition at_eqb (a b : nat * Qc) : bool := Nat.eqb (fst a) (fst b) && (if Qc_eq_dec (snd a) (snd b) then true else false).
(** SHP.py:77-83: X_dict, the rows of X with their index. *)
Definition X_rows (n : nat) (l : list trow) : list ((nat * Qc) * list nat) :=
  fold_left (fun X r =>
    let k := (r_seq r, r_time r) in
    let X := match dget at_eqb X k with None => dset at_eqb X k (repeat 0 n) | Some _ => X end in
    match dget at_eqb X k with
    | None => X
    | Some row => dset at_eqb X k (set_nth (r_ind r) (r_times r) row)
    end) l [].

(** SHP.py:115-117 (kappa). *)
Definition kappa (decay t : R) : R := exp (- decay * t)%R.
Definition Qc2R (q : Qc) : R := Q2R q.
(** SHP.py:97-112: the factors [kap] with which the event row at time [t] of sequence [s] is added to the rows from its own
    on; no more after a factor below 0.0001 or the end of the sequence. *)
Fixpoint influence (decay : R) (s : nat) (t : Qc) (index : list (nat * Qc)) : list R :=
  match index with
  | [] => []
  | (s', t') :: r =>
      if Nat.eqb s' s then
        let kap := kappa decay (Qc2R t' - Qc2R t)%R in
        if Rlt_dec kap (1 / 10000) then [] else kap :: influence decay s t r
      else []
  end.
(** SHP.py:88-113 (calculate_influence_of_each_event): sum_t_X_kappa ... *)
Definition sum_t_X_kappa (decay : R) (X : list ((nat * Qc) * list nat)) : nat -> nat -> R :=
  fold_left (fun (M : nat -> nat -> R) ind =>
    match nth_error X ind with
    | None => M
    | Some ((s, t), row) =>
        let f := influence decay s t (map fst (skipn ind X)) in
        fun r j => (M r j + (if Nat.leb ind r then INR (nth j row O) * nth (r - ind) f 0 else 0))%R
    end) (seq 0 (length X)) (fun _ _ => 0%R).
(** ... and decay_effect_integral_to_T (SHP.py:94-95). *)
Definition decay_effect_integral_to_T (decay : R) (T : nat -> Qc) (X : list ((nat * Qc) * list nat)) : list (nat -> R) :=
  map (fun kr => let '((s, t), row) := kr in fun j => (INR (nth j row O) * ((1 - exp (- decay * (Qc2R (T s) - Qc2R t))) / decay))%R) X.

(** The attributes of the object that the search reads (SHP.py:39-85). *)
Record prepared : Type := Prepared {
  p_table : list trow;              (* self.event_table *)
  p_names : list nat;               (* self.event_names *)
  p_T : Qc;                         (* self.T *)
  p_init : list (list Z);           (* self.init_structure *)
  p_X : list ((nat * Qc) * list nat); (* self.X_df: index and rows *)
  p_S : nat -> nat -> R;            (* self.sum_t_X_kappa *)
  p_D : list (nat -> R)             (* self.decay_effect_integral_to_T *)
}.

(** The type of [self.event_table.values] (SHP.py:78): the numbers of events and the codes are integers. *)
Definition values_kind (seq_kind time_kind type_kind : kind) (time_interval : option (Qc * kind)) : kind :=
  common seq_kind (common type_kind (match time_interval with None => time_kind | Some (_, Objects) => Objects | Some (_, k) => k end)).

(** SHP.py:29-85 (SHP.__init__), for a table with at least one event.  Division of times by an interval of 0 gives
    infinities, which [astype('int')] rejects.  A row of floats holds the code as a float, which is no index of a list. *)
Definition shp_init (seq_kind time_kind type_kind : kind) (evs : list event) (decay : R) (time_interval : option (Qc * kind))
    (init_structure : option (list (list Z))) (penalty_known : bool) : res prepared :=
  _ <-? match time_interval with
        | Some (dt, _) => if Qc_eq_dec dt 0 then Err ValueError else Ok tt
        | None => Ok tt
        end ;;
  let '(table, event_names) := get_event_table (option_map fst time_interval) evs in
  let table := start_at_zero table in
  let n := length event_names in
  _ <-? (if penalty_known then Ok tt else Err PyException) ;;
  init <-? match init_structure with
           | None => Ok (repeat (repeat 0%Z n) n)
           | Some m => if forallb (forallb (fun x => Z.eqb x 0 || Z.eqb x 1)) m then Ok m else Err ValueError
           end ;;
  match values_kind seq_kind time_kind type_kind time_interval with
  | Floats => Err TypeError
  | _ =>
      let X := X_rows n table in
      Ok (Prepared table event_names (T_total table) init X (sum_t_X_kappa decay X)
            (decay_effect_integral_to_T decay (T_each_seq table) X))
  end.

(** SHP.py:15-20 (get_interval_events): the table with the binned times, which is the caller's, and for each sequence, in the
    order of its first row, and each type, in order, the times.  For an interval other than 0. *)
Definition get_interval_events (time_interval : Qc) (evs : list event) : list event * list (list (list Qc)) :=
  let table := map (fun e => Ev (ev_seq e) (binned time_interval (ev_time e)) (ev_type e)) evs in
  (table,
   map (fun j => map (fun i => map ev_time (filter (fun e => Nat.eqb (ev_type e) i && Nat.eqb (ev_seq e) j) table))
                     (unique (map ev_type table)))
       (fold_left (fun seen j => if existsb (Nat.eqb j) seen then seen else seen ++ [j]) (map ev_seq table) [])).
