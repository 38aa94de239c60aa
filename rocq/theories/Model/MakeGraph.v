(** Model of the graph that is drawn from a latent index, and of the latent index made from clusters and their order:
    /repo/cdmir/discovery/funtional_based/LearningHierarchicalStructure/MakeGraph.py:5-85.  [tranImpureToLatentIndex]
    is [tran_impure] in Model/LHM.v.  Layout and drawing (MakeGraph.py:29-34) are not modelled. *)

From Coq Require Import List Arith Bool ZArith.
From Verif Require Import Model.Py.
Import ListNotations.
Open Scope res_scope.

Section Drawn.
  Context {K : Type} (keqb : K -> K -> bool).

  (** [x in l] for a list of names (MakeGraph.py:19). *)
  Definition among (x : K) (l : list K) : bool := existsb (keqb x) l.
  (** [set(a) <= set(b)] (MakeGraph.py:41). *)
  Definition within (a b : list K) : bool := forallb (fun x => among x b) a.
  (** [set(a) == set(b)] (MakeGraph.py:79). *)
  Definition same_set (a b : list K) : bool := within a b && within b a.

  (** MakeGraph.py:38-44 (RmoveEdgeBetweenN_factor). *)
  Definition share_factor (x y : K) (ShareCommonChild : list (list K)) : bool :=
    existsb (within [x; y]) ShareCommonChild.

  (** A [networkx.DiGraph]: its nodes and its edges (MakeGraph.py:8). *)
  Definition drawn : Type := (list K * list (K * K))%type.
  (** [g.add_node(i)]: nothing happens if the node is there (MakeGraph.py:15, 20). *)
  Definition add_node (g : drawn) (i : K) : drawn :=
    if among i (fst g) then g else (fst g ++ [i], snd g).
  (** [g.add_edge(i, j)]: also adds the nodes; an edge is held once (MakeGraph.py:22, 27). *)
  Definition add_edge (g : drawn) (i j : K) : drawn :=
    let g := add_node (add_node g i) j in
    if existsb (fun e => keqb i (fst e) && keqb j (snd e)) (snd g) then g else (fst g, snd g ++ [(i, j)]).

  (** MakeGraph.py:14-22: the loop over the latents; the second component is the list [A]. *)
  Definition draw_members (LatentIndex : list (K * list K)) : drawn :=
    fst (fold_left (fun s p =>
           let i := fst p in
           let A := snd s ++ [i] in
           (fold_left (fun g j => add_edge (if among j A then g else add_node g j) i j) (snd p) (add_node (fst s) i), A))
         LatentIndex (([], []), [])).

  (** MakeGraph.py:24-27: the loops over the pairs of positions of [order]. *)
  Definition draw_order (order : list K) (ShareCommonChild : list (list K)) (g : drawn) : drawn :=
    fold_left (fun g p => if share_factor (fst p) (snd p) ShareCommonChild then g else add_edge g (fst p) (snd p)) (comb2 order) g.

  (** MakeGraph.py:5-27 (Make_graph up to the layout). *)
  Definition make_graph (LatentIndex : list (K * list K)) (order : list K) (ShareCommonChild : list (list K)) : drawn :=
    draw_order order ShareCommonChild (draw_members LatentIndex).
End Drawn.

(** A name: ['L' + str(k)] is [Lat k], every other text is some [Obs k].  A measured variable may be called L1, say
    (MakeGraph.py:64). *)
Inductive lname := Lat (k : nat) | Obs (k : nat).
(** Equality of names (MakeGraph.py:79). *)
Definition lname_eqb (a b : lname) : bool :=
  match a, b with Lat i, Lat j => Nat.eqb i j | Obs i, Obs j => Nat.eqb i j | _, _ => false end.

(** MakeGraph.py:63-67: the loop over the latents of one cluster; the state is [LIndex], [LatentIndex] and [ts]. *)
Fixpoint name_latents (n : nat) (clu : list lname) (s : nat * list (lname * list lname) * list lname) : nat * list (lname * list lname) * list lname :=
  match n with
  | 0 => s
  | S m => match s with (LIndex, LatentIndex, ts) =>
             name_latents m clu (S LIndex, dset lname_eqb LatentIndex (Lat LIndex) clu, ts ++ [Lat LIndex])
           end
  end.

(** MakeGraph.py:61-68: the loop over the clusters of one key; [range(0, n)] is empty if [n] is negative.  The state is [LIndex],
    [LatentIndex] and [ShareCommonChild]. *)
Definition index_clusters (n : Z) (lists : list (list lname)) (s : nat * list (lname * list lname) * list (list lname))
    : nat * list (lname * list lname) * list (list lname) :=
  fold_left (fun s clu => match s with (LIndex, LatentIndex, Share) =>
      match name_latents (Z.to_nat n) clu (LIndex, LatentIndex, []) with (LIndex', LatentIndex', ts) => (LIndex', LatentIndex', Share ++ [ts]) end
    end) lists s.

(** MakeGraph.py:58-68: the loop over the keys.  A key is given by what [int] makes of it, [None] if it raises. *)
Fixpoint index_keys (Cluster : list (option Z * list (list lname))) (s : nat * list (lname * list lname) * list (list lname))
    : res (nat * list (lname * list lname) * list (list lname)) :=
  match Cluster with
  | [] => Ok s
  | (None, _) :: _ => Err ValueError
  | (Some n, lists) :: r => index_keys r (index_clusters n lists s)
  end.

(** MakeGraph.py:72-81: the latents in the order of the clusters. *)
Definition root_list (LatentIndex : list (lname * list lname)) (Order : list (list lname)) : list lname :=
  flat_map (fun root => map fst (filter (fun p => same_set lname_eqb (snd p) root) LatentIndex)) Order.

(** MakeGraph.py:50-85 (Transfer2Index).  [LatentIndex[k]] for the keys in their order is read off the dict's items. *)
Definition transfer2index (Cluster : list (option Z * list (list lname))) (Order : list (list lname))
    : res (list (lname * list lname) * list lname * list (list lname)) :=
  s <-? index_keys Cluster (1, [], []) ;;
  match s with (_, LatentIndex, ShareCommonChild) => Ok (LatentIndex, root_list LatentIndex Order, ShareCommonChild) end.
