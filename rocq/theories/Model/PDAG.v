(** Model of /repo/cdmir/graph/pdag.py and /repo/cdmir/graph/dag2cpdag.py.
    Log messages are not modelled. *)

From Coq Require Import List Arith Bool.
From Verif Require Import Model.Py Model.Graph Model.DiGraph.
Import ListNotations.
Open Scope meth_scope.

(** [self.nodes] evaluated when a loop starts (graph.py:40-43). *)
Definition with_nodes {A} (f : list nat -> M A) : M A := fun g => f (nodes g) g.

(** Read-only tests of the object in its current state. *)
Definition connectedM (u v : nat) : M bool := query (fun g => is_connected g u v).
Definition fully_directedM (u v : nat) : M bool := query (fun g => is_fully_directed g u v).
Definition fully_undirectedM (u v : nat) : M bool := query (fun g => is_fully_undirected g u v).

(** Python's short-circuit [a and b]. *)
Definition andM (a b : M bool) : M bool := x <- a ;; if x : bool then b else ret false.

(** pdag.py:13-15 (create_complete_undirected_graph). *)
Definition create_complete_undirected_graph : M unit :=
  with_nodes (fun ns => forM (comb2 ns) (fun p => add_edge (Edge (fst p) (snd p) Tail Tail) false)).

(** The two statements used by every rule, e.g. pdag.py:53-54:
    [self.remove_edge(u, v); self.add_edge(Edge(u, v, Mark.Tail, Mark.Arrow))]. *)
Definition reorient (u v : nat) : M unit :=
  remove_edge u v ;;; add_edge (Edge u v Tail Arrow) false.

(** Equality of pairs of node names, the keys of [sep_set]. *)
Definition pair_eqb (a b : nat * nat) : bool :=
  Nat.eqb (fst a) (fst b) && Nat.eqb (snd a) (snd b).

(** The table [sep_set]: ordered pairs of nodes to sets of nodes. *)
Definition seps : Type := list ((nat * nat) * list nat).

(** pdag.py:17-33 (rule0). *)
Definition rule0 (sep : seps) : M unit :=
  with_nodes (fun ns => forM (comb2 ns) (fun (p : nat * nat) =>
    let (u, v) := p in
    c <- connectedM u v ;;
    if c : bool then ret tt else
    with_nodes (fun ns' => forM ns' (fun w =>
      if memb w [u; v] then ret tt else
      b <- andM (connectedM u w) (connectedM v w) ;;
      if negb b then ret tt else
      s <- query (fun _ => dgetE pair_eqb sep (u, v)) ;;
      if negb (memb w s) then reorient u w ;;; reorient v w else ret tt)))).

(** pdag.py:35-59 (rule1). *)
Definition rule1 : M bool :=
  with_nodes (fun ns => foldM (fun (ch : bool) (p : nat * nat) =>
    let (u, v) := p in
    d <- fully_directedM u v ;;
    if negb d then ret ch else
    with_nodes (fun ns' => foldM (fun (ch : bool) w =>
      if memb w [u; v] then ret ch else
      c <- connectedM u w ;;
      t <- (if c : bool then ret false else fully_undirectedM v w) ;;
      if t : bool then reorient v w ;;; ret true else ret ch) ch ns')) false (perm2 ns)).

(** pdag.py:61-87 (rule2). *)
Definition rule2 : M bool :=
  with_nodes (fun ns => foldM (fun (ch : bool) (p : nat * nat) =>
    let (u, v) := p in
    d <- fully_directedM u v ;;
    if negb d then ret ch else
    with_nodes (fun ns' => foldM (fun (ch : bool) w =>
      if memb w [u; v] then ret ch else
      d' <- fully_directedM v w ;;
      if negb d' then ret ch else
      t <- fully_undirectedM u w ;;
      if t : bool then reorient u w ;;; ret true else ret ch) ch ns')) false (perm2 ns)).

(** pdag.py:89-109 (rule3).  There is no test that [v] and [x] are not
    adjacent. *)
Definition rule3 : M bool :=
  with_nodes (fun ns => foldM (fun (ch : bool) (p : nat * nat) =>
    let (u, w) := p in
    t <- fully_undirectedM u w ;;
    if negb t then ret ch else
    with_nodes (fun ns' => foldM (fun (ch : bool) v =>
      if memb v [u; w] then ret ch else
      b <- andM (fully_undirectedM u v) (fully_directedM v w) ;;
      if negb b then ret ch else
      with_nodes (fun ns'' => foldM (fun (ch : bool) x =>
        if memb x [u; v; w] then ret ch else
        b' <- andM (fully_undirectedM u x) (fully_directedM x w) ;;
        if negb b' then ret ch else
        reorient u w ;;; ret true) ch ns'')) ch ns')) false (perm2 ns)).

(** pdag.py:111-132 (rule4). *)
Definition rule4 : M bool :=
  with_nodes (fun ns => foldM (fun (ch : bool) (p : nat * nat) =>
    let (u, w) := p in
    c <- connectedM u w ;;
    if c : bool then ret ch else
    with_nodes (fun ns' => foldM (fun (ch : bool) v =>
      if memb v [u; w] then ret ch else
      b <- andM (fully_undirectedM u v) (fully_directedM v w) ;;
      if negb b then ret ch else
      with_nodes (fun ns'' => foldM (fun (ch : bool) x =>
        if memb x [u; v; w] then ret ch else
        b' <- andM (fully_undirectedM u x) (fully_undirectedM x w) ;;
        if negb b' then ret ch else
        c' <- connectedM v x ;;
        if c' : bool then reorient x w ;;; ret true else ret ch) ch ns'')) ch ns'))
    false (perm2 ns)).

(** pdag.py:137-141: one pass of the loop body; the value is [changed]. *)
Definition meek_pass : M bool :=
  c1 <- rule1 ;; c2 <- rule2 ;; c3 <- rule3 ;; c4 <- rule4 ;;
  ret (c1 || c2 || c3 || c4).

(** pdag.py:134-141: the [while changed] loop on fuel. *)
Fixpoint meek_loop (fuel : nat) : M unit :=
  match fuel with
  | 0 => raise OutOfFuel
  | S f => ch <- meek_pass ;; if ch : bool then meek_loop f else ret tt
  end.

(** pdag.py:134-141 (orient_by_meek_rules).  The fuel, one pass more than
    there are pairs of nodes, is shown to be enough. *)
Definition orient_by_meek_rules : M unit :=
  with_nodes (fun ns => meek_loop (S (length (comb2 ns)))).

(** dag2cpdag.py:10 and adjacency_search.py:27: one empty set per ordered pair. *)
Definition empty_seps (ns : list nat) : seps := map (fun p => (p, [])) (perm2 ns).

(** [sep_set[(u, v)] |= set(z)], e.g. dag2cpdag.py:16. *)
Definition sep_add (sep : seps) (u v : nat) (z : list nat) : res seps :=
  (s <-? dgetE pair_eqb sep (u, v) ;; Ok (dset pair_eqb sep (u, v) (set_union s (py_set z))))%res.

(** dag2cpdag.py:15-19: one candidate separating set. *)
Definition cpdag_try (dag : graph) (u v : nat) (sep : seps) (z : list nat) : M seps :=
  b <- query (fun _ => is_d_separate dag u v z) ;;
  if negb b then ret sep else
  s1 <- query (fun _ => sep_add sep u v z) ;;
  s2 <- query (fun _ => sep_add s1 v u z) ;;
  c <- connectedM u v ;;
  (if c : bool then remove_edge u v else ret tt) ;;;
  ret s2.

(** dag2cpdag.py:12-19.  [order u v k] is the iteration order of the set
    [pdag.node_set - {u, v}] in the round of size [k]. *)
Definition cpdag_skeleton (dag : graph) (order : nat -> nat -> nat -> list nat) : M seps :=
  with_nodes (fun ns => foldM (fun (sep : seps) (p : nat * nat) =>
    let (u, v) := p in
    foldM (fun sep k =>
      foldM (cpdag_try dag u v) sep (combinations (order u v k) k))
      sep (seq 0 (number_of_nodes dag - 1)))
    (empty_seps ns) (comb2 ns)).

(** The state just before dag2cpdag.py:23, i.e. after rule0. *)
Definition cpdag_pattern (dag : graph) (order : nat -> nat -> nat -> list nat) : M unit :=
  create_complete_undirected_graph ;;;
  sep <- cpdag_skeleton dag order ;;
  rule0 sep.

(** The object left by a method call that must not raise. *)
Definition run_on {A} (m : M A) (g : graph) : res graph :=
  match m g with (g', Ok _) => Ok g' | (_, Err e) => Err e end.

(** dag2cpdag.py:6-25 (dag2cpdag). *)
Definition dag2cpdag (dag : graph) (order : nat -> nat -> nat -> list nat) : res graph :=
  (g <-? new_graph KPDAG (nodes dag) ;;
   run_on (cpdag_pattern dag order ;;; orient_by_meek_rules) g)%res.
