(** Model of /repo/cdmir/graph/digraph.py. *)

From Coq Require Import List Arith Bool ZArith.
From Verif Require Import Model.Py Model.Graph.
Import ListNotations.
Open Scope res_scope.

(** A generator expression [x for x in l if p(x)] whose test may raise. *)
Fixpoint filterE {A} (p : A -> res bool) (l : list A) : res (list A) :=
  match l with
  | [] => Ok []
  | x :: r => b <-? p x ;; xs <-? filterE p r ;; Ok (if b : bool then x :: xs else xs)
  end.

(** digraph.py:14-17 (get_parents). *)
Definition get_parents (g : graph) (u : nat) : res (list nat) :=
  ns <-? get_neighbours g u ;; filterE (fun v => is_arrow g v u) ns.

(** digraph.py:19-22 (get_children). *)
Definition get_children (g : graph) (u : nat) : res (list nat) :=
  ns <-? get_neighbours g u ;; filterE (fun v => is_arrow g u v) ns.

(** digraph.py:89-90 (in_degree). *)
Definition in_degree (g : graph) (u : nat) : res nat :=
  ps <-? get_parents g u ;; Ok (length ps).

(** digraph.py:92-93 (out_degree). *)
Definition out_degree (g : graph) (u : nat) : res nat :=
  cs <-? get_children g u ;; Ok (length cs).

(** Enqueue, one after the other, the keys that are not yet marked visited:
    digraph.py:48-51 (parents in phase I) and digraph.py:62-65 ([push_queue],
    phase II); both use the same statements on different key types. *)
Fixpoint push_all {K} (keqb : K -> K -> bool) (ks q : list K) (vis : list (K * bool))
    : res (list K * list (K * bool)) :=
  match ks with
  | [] => Ok (q, vis)
  | k :: r =>
      b <-? dgetE keqb vis k ;;
      if b : bool then push_all keqb r q vis
      else push_all keqb r (q ++ [k]) (dset keqb vis k true)
  end.

(** digraph.py:45-52: phase I, the ancestors of z (including z). *)
Fixpoint phase1 (g : graph) (fuel : nat) (q a : list nat) (vis : list (nat * bool))
    : res (list nat) :=
  match q with
  | [] => Ok a
  | y :: q' =>
    match fuel with
    | 0 => Err OutOfFuel
    | S f =>
      qv <-? (if memb y a then Ok (q', vis)
              else ps <-? get_parents g y ;; push_all Nat.eqb ps q' vis) ;;
      phase1 g f (fst qv) (set_union a [y]) (snd qv)
    end
  end.

(** digraph.py:39-52.  [z] is a re-iterable collection (list, tuple or set);
    a one-shot iterator is not modelled here. *)
Definition ancestors_of (g : graph) (z : list nat) : res (list nat) :=
  let vis0 := map (fun n => (n, false)) (nodes g) in
  let vis := fold_left (fun d n => dset Nat.eqb d n true) z vis0 in
  phase1 g (length z + number_of_nodes g) z [] vis.

(** Keys of phase II: a node and the direction flag of digraph.py:56-60
    ([true] stands for 1, [false] for 0). *)
Definition key : Type := (nat * bool)%type.
Definition key_eqb (a b : key) : bool :=
  Nat.eqb (fst a) (fst b) && Bool.eqb (snd a) (snd b).

(** digraph.py:71-83: the keys pushed when [(y, direction)] is taken from the
    queue, in program order. *)
Definition expand (g : graph) (z a : list nat) (k : key) : res (list key) :=
  let (y, d) := k in
  if (d && negb (memb y z))%bool then
    ps <-? get_parents g y ;; cs <-? get_children g y ;;
    Ok (map (fun p => (p, true)) ps ++ map (fun c => (c, false)) cs)
  else if negb d then
    cs <-? (if negb (memb y z) then get_children g y else Ok []) ;;
    ps <-? (if memb y a then get_parents g y else Ok []) ;;
    Ok (map (fun c => (c, false)) cs ++ map (fun p => (p, true)) ps)
  else Ok [].

(** digraph.py:67-83: phase II; [out] collects the yielded nodes. *)
Fixpoint phase2 (g : graph) (z a : list nat) (fuel : nat) (q : list key)
    (vis : list (key * bool)) (out : list nat) : res (list nat) :=
  match q with
  | [] => Ok out
  | (y, d) :: q' =>
    match fuel with
    | 0 => Err OutOfFuel
    | S f =>
      let out' := if memb y z then out else out ++ [y] in
      ks <-? expand g z a (y, d) ;;
      qv <-? push_all key_eqb ks q' vis ;;
      phase2 g z a f (fst qv) (snd qv) out'
    end
  end.

(** digraph.py:24-83 (get_reachable_nodes); the generator is run to its end. *)
Definition get_reachable_nodes (g : graph) (x : nat) (z : list nat) : res (list nat) :=
  a <-? ancestors_of g z ;;
  let vis0 := flat_map (fun n => [((n, false), false); ((n, true), false)]) (nodes g) in
  let vis := dset key_eqb vis0 (x, true) true in
  phase2 g z a (S (2 * number_of_nodes g)) [(x, true)] vis [].

(** digraph.py:85-87 (is_d_separate). *)
Definition is_d_separate (g : graph) (x y : nat) (z : list nat) : res bool :=
  r <-? get_reachable_nodes g x z ;; Ok (negb (memb y r)).

(** digraph.py:100-103: nodes without parents start the queue. *)
Fixpoint topo_init (g : graph) (l : list nat) (fp : list (nat * nat))
    (q : list nat) (v : list (nat * bool)) : res (list nat * list (nat * bool)) :=
  match l with
  | [] => Ok (q, v)
  | u :: r =>
      d <-? in_degree g u ;;
      f <-? dgetE Nat.eqb fp u ;;
      if Nat.eqb d f then topo_init g r fp (q ++ [u]) (dset Nat.eqb v u true)
      else topo_init g r fp q v
  end.

(** digraph.py:107-111: the children of the node taken from the queue. *)
Fixpoint topo_children (g : graph) (cs : list nat) (fp : list (nat * nat))
    (q : list nat) (v : list (nat * bool))
    : res (list (nat * nat) * list nat * list (nat * bool)) :=
  match cs with
  | [] => Ok (fp, q, v)
  | c :: r =>
      f <-? dgetE Nat.eqb fp c ;;
      let fp' := dset Nat.eqb fp c (f + 1) in
      vc <-? dgetE Nat.eqb v c ;;
      push <-? (if vc : bool then Ok false
                else d <-? in_degree g c ;; f' <-? dgetE Nat.eqb fp' c ;;
                     Ok (Nat.eqb d f')) ;;
      if push : bool then topo_children g r fp' (q ++ [c]) (dset Nat.eqb v c true)
      else topo_children g r fp' q v
  end.

(** digraph.py:104-111: the main loop. *)
Fixpoint topo_loop (g : graph) (fuel : nat) (fp : list (nat * nat))
    (q : list nat) (v : list (nat * bool)) (out : list nat) : res (list nat) :=
  match q with
  | [] => Ok out
  | u :: q' =>
    match fuel with
    | 0 => Err OutOfFuel
    | S f =>
      cs <-? get_children g u ;;
      st <-? topo_children g cs fp q' v ;;
      let '(fp', q'', v') := st in
      topo_loop g f fp' q'' v' (out ++ [u])
    end
  end.

(** digraph.py:95-113 (topo_sort). *)
Definition topo_sort (g : graph) : res (list nat) :=
  let fp := map (fun n => (n, 0)) (nodes g) in
  let v0 := map (fun n => (n, false)) (nodes g) in
  qv <-? topo_init g (nodes g) fp [] v0 ;;
  topo_loop g (number_of_nodes g) fp (fst qv) (snd qv) [].

(** digraph.py:114-115 (is_acyclic). *)
Definition is_acyclic (g : graph) : res bool :=
  l <-? topo_sort g ;; Ok (Nat.eqb (length l) (number_of_nodes g)).
