(** Model of /repo/cdmir/visual/graph_layout.py and /repo/cdmir/visual/plot_graph.py.

    What is drawn is returned as a list of patches in drawing order.  Node names
    are text or integers; [show] is Python's [str] of an integer.  Coordinates
    are left abstract: [place n i] is the point of the [i]-th of [n] positions
    on the circle (graph_layout.py:15-17).  The common shift by the centre
    (plot_graph.py:15, 25, 32-33) and the trimming of edges at the node circles
    and circle marks (51-61, 67, 72) are not modelled; when both ends share a
    point the real code divides by zero there with NumPy floats, which warns and
    does not raise. *)

From Coq Require Import List Arith Bool ZArith QArith String.
From Verif Require Import Model.Py Model.Graph.
Import ListNotations.
Open Scope nat_scope.
Open Scope res_scope.

(** Node names. *)
Inductive pynode : Type := PStr (s : string) | PInt (z : Z).

(** Equality of Python values: text never equals an integer. *)
Definition pynode_eqb (a b : pynode) : bool :=
  match a, b with
  | PStr s, PStr t => String.eqb s t
  | PInt x, PInt y => Z.eqb x y
  | _, _ => false
  end.

(** [str(node)] (plot_graph.py:17, 19, graph_layout.py:9). *)
Definition text_of (show : Z -> string) (v : pynode) : string :=
  match v with PStr s => s | PInt z => show z end.

(** A graph as the plotting code sees it: nodes and edges in iteration order. *)
Record pgraph : Type := mkPG { pnodes : list pynode; pedges : list (pynode * pynode * mark * mark) }.

Definition point : Type := (Q * Q)%type.
Definition layout_dict : Type := list (string * point).

(** graph_layout.py:17: the dict comprehension over [enumerate(node_list)]. *)
Fixpoint fill_layout (place : nat -> point) (i : nat) (l : list string) (acc : layout_dict) : layout_dict :=
  match l with
  | [] => acc
  | s :: r => fill_layout place (S i) r (dset String.eqb acc s (place i))
  end.

(** graph_layout.py:8-17 (circular_layout); [sort] is the identity for
    [sort_node=False] and [sorted] otherwise. *)
Definition circular_layout (place : nat -> nat -> point) (show : Z -> string) (sort : list string -> list string) (g : pgraph) : layout_dict :=
  let l := sort (map (text_of show) (pnodes g)) in
  fill_layout (place (List.length l)) 0 l [].

(** What plt_node (88-101) and plt_edge (41-85) put on the axes. *)
Inductive patch : Type :=
| NodePatch (name : string) (at_ : point) (white : bool)
| EdgePatch (from to : point) (circle_u circle_v : bool) (style : string).

(** plot_graph.py:74-82. *)
Definition arrow_style (mu mv : mark) : string :=
  match mu, mv with
  | Arrow, Arrow => "<|-|>"
  | Arrow, _ => "<|-"
  | _, Arrow => "-|>"
  | _, _ => "-"
  end.

(** [m == Mark.Circle] (plot_graph.py:63, 68). *)
Definition is_circle (m : mark) : bool := match m with Circle => true | _ => false end.

(** [pos[node]] for a dict with text keys. *)
Definition lookup_node (pos : layout_dict) (v : pynode) : res point :=
  match v with PStr s => dgetE String.eqb pos s | PInt _ => Err KeyError end.

(** plot_graph.py:18-26. *)
Fixpoint plot_nodes (show : Z -> string) (pos : layout_dict) (latent : list pynode) (vs : list pynode) : res (list patch) :=
  match vs with
  | [] => Ok []
  | v :: r =>
      let t := text_of show v in
      p <-? dgetE String.eqb pos t ;;
      rest <-? plot_nodes show pos latent r ;;
      Ok (NodePatch t p (existsb (pynode_eqb (PStr t)) latent) :: rest)
  end.

(** plot_graph.py:29-36, 49: [assert circle_mark_radius > 0]. *)
Fixpoint plot_edges (pos : layout_dict) (circle_radius : Q) (es : list (pynode * pynode * mark * mark)) : res (list patch) :=
  match es with
  | [] => Ok []
  | (u, v, mu, mv) :: r =>
      pu <-? lookup_node pos u ;;
      pv <-? lookup_node pos v ;;
      _ <-? rassert (negb (Qle_bool circle_radius 0)) ;;
      rest <-? plot_edges pos circle_radius r ;;
      Ok (EdgePatch pu pv (is_circle mu) (is_circle mv) (arrow_style mu mv) :: rest)
  end.

(** plot_graph.py:8-38 (plot_graph). *)
Definition plot_graph (show : Z -> string) (g : pgraph) (layout : pgraph -> layout_dict) (latent : list pynode)
    (node_radius ratio : Q) : res (list patch) :=
  let pos := layout g in
  ns <-? plot_nodes show pos latent (pnodes g) ;;
  es <-? plot_edges pos (node_radius * ratio)%Q (pedges g) ;;
  Ok (ns ++ es).
