(** Model of /repo/cdmir/graph/pdag2dag.py. *)

From Coq Require Import List Arith Bool.
From Verif Require Import Model.Py Model.Graph Model.DiGraph Model.PDAG.
Import ListNotations.
Open Scope res_scope.

(** [pdag_p.node_list[i]] with IndexError (pdag2dag.py:26-40, 56). *)
Definition node_at (g : graph) (i : nat) : res nat :=
  match nth_error (node_list g) i with Some u => Ok u | None => Err IndexError end.

(** [np.where([q(i) for i in range(n)])[0]] (pdag2dag.py:26-29, 38): the
    indices at which the list comprehension is true. *)
Definition np_where (n : nat) (q : nat -> res bool) : res (list nat) :=
  filterE q (seq 0 n).

(** numpy's [unique]: sorted, without repetitions. *)
Fixpoint insert_sorted (x : nat) (l : list nat) : list nat :=
  match l with
  | [] => [x]
  | y :: r => if Nat.ltb x y then x :: l else if Nat.eqb x y then l else y :: insert_sorted x r
  end.
Definition np_unique (l : list nat) : list nat := fold_right insert_sorted [] l.
(** [np.intersect1d(a, b)] (pdag2dag.py:26-29, 38). *)
Definition np_intersect1d (a b : list nat) : list nat :=
  np_unique (filter (fun x => memb x b) a).
(** [np.union1d(a, b)] (pdag2dag.py:29-30). *)
Definition np_union1d (a b : list nat) : list nat := np_unique (a ++ b).

(** [G.is_arrow(G.node_list[i], G.node_list[j])] and the like, on indices. *)
Definition at_nodes (q : graph -> nat -> nat -> res bool) (g : graph) (i j : nat) : res bool :=
  u <-? node_at g i ;; v <-? node_at g j ;; q g u v.

(** pdag2dag.py:52-59 (check2). The list comprehension of line 56 is evaluated
    completely; it has no effects. [np.delete(Ax, np.where(Ax == y)[0])] drops
    every occurrence of [y]. *)
Fixpoint check2 (g : graph) (Nx Ax : list nat) : res bool :=
  match Nx with
  | [] => Ok true
  | y :: r =>
      bad <-? filterE (fun z => c <-? at_nodes is_connected g y z ;; Ok (negb c))
                      (filter (fun z => negb (Nat.eqb z y)) Ax) ;;
      if Nat.eqb (length bad) 0 then check2 g r Ax else Ok false
  end.

(** [np.where(inde == 0)[0]] (pdag2dag.py:26-29); [inde] is the array of
    line 21 with [true] for 1. *)
Definition unremoved (inde : list bool) : list nat :=
  filter (fun i => negb (nth i inde true)) (seq 0 (length inde)).

(** pdag2dag.py:28 and 38, the indices [j] with a tail at both ends of the edge
    between node [i] and node [j]. *)
Definition tails_at (p : graph) (i : nat) : res (list nat) :=
  let n := number_of_nodes p in
  a <-? np_where n (fun j => at_nodes is_tail p i j) ;;
  b <-? np_where n (fun j => at_nodes is_tail p j i) ;;
  Ok (np_intersect1d a b).

(** pdag2dag.py:25-35: whether [sign] is 2 for node [i]. *)
Definition removable (p : graph) (inde : list bool) (i : nat) : res bool :=
  let n := number_of_nodes p in
  out <-? np_where n (fun j => at_nodes is_arrow p i j) ;;
  if Nat.eqb (length (np_intersect1d out (unremoved inde))) 0 then
    t <-? tails_at p i ;;
    let Nx := np_intersect1d t (unremoved inde) in
    a <-? np_where n (fun j => at_nodes is_arrow p j i) ;;
    b <-? np_where n (fun j => at_nodes is_arrow p i j) ;;
    let Ax := np_union1d (np_intersect1d (np_union1d a b) (unremoved inde)) Nx in
    if Nat.ltb 0 (length Nx) then check2 p Nx Ax else Ok true
  else Ok false.

Open Scope meth_scope.

(** pdag2dag.py:16-18, on [pdag_copy]. The generator of graph.py:70-77 reads
    each edge when it is asked for, so the edge is looked up in the current
    object. *)
Definition keep_directed : M unit :=
  with_nodes (fun ns => forM (comb2 ns) (fun (q : nat * nat) =>
    let (u, v) := q in
    e <- query (fun g => get_edge g u v) ;;
    match e with
    | None => ret tt
    | Some e =>
        if ((mark_eqb (mark_u e) Arrow && mark_eqb (mark_v e) Tail) ||
            (mark_eqb (mark_u e) Tail && mark_eqb (mark_v e) Arrow))%bool
        then ret tt else remove_edge (node_u e) (node_v e)
    end)).

(** pdag2dag.py:24-41: the body of the [for] loop, on [pdag_copy] and [inde]. *)
Definition try_node (p : graph) (inde : list bool) (i : nat) : M (list bool) :=
  if nth i inde true then ret inde else
  s <- query (fun _ => removable p inde i) ;;
  if s : bool then
    ts <- query (fun _ => tails_at p i) ;;
    forM ts (fun j =>
      y <- query (fun _ => node_at p j) ;;
      x <- query (fun _ => node_at p i) ;;
      c <- connectedM y x ;;
      if c : bool then ret tt else add_edge (Edge y x Tail Arrow) false) ;;;
    ret (set_nth i true inde)
  else ret inde.

(** pdag2dag.py:22-41: [while 0 in inde]. *)
Fixpoint extend_loop (fuel : nat) (p : graph) (inde : list bool) : M unit :=
  if existsb negb inde then
    match fuel with
    | 0 => raise OutOfFuel
    | S k => inde' <- foldM (try_node p) inde (seq 0 (number_of_nodes p)) ;;
             extend_loop k p inde'
    end
  else ret tt.

(** pdag2dag.py:45-46. *)
Definition to_forward (e : edge) : edge :=
  if (mark_eqb (mark_u e) Arrow && mark_eqb (mark_v e) Tail)%bool
  then Edge (node_v e) (node_u e) (mark_v e) (mark_u e) else e.

(** pdag2dag.py:11-49 (pdag2dag). [deepcopy] needs no counterpart on immutable
    values. [fuel] bounds the [while] loop of line 22. *)
Definition pdag2dag (fuel : nat) (p : graph) : res graph :=
  (c <-? run_on (keep_directed ;;;
                 extend_loop fuel p (repeat false (number_of_nodes p))) p ;;
   d <-? new_graph KDiGraph (node_list c) ;;
   es <-? edges c ;;
   run_on (forM es (fun e => add_edge (to_forward e) true)) d)%res.
