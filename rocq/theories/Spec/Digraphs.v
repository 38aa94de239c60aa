(** Directed-graph vocabulary over a bare edge relation: directed paths,
    acyclicity, active paths and d-separation.  Nothing here refers to the
    model of the code. *)

From Coq Require Import List Arith.
Import ListNotations.

Section Digraph.
  Variable E : nat -> nat -> Prop.   (* E u v : there is an edge u -> v *)

  (** A directed path of length >= 0. *)
  Inductive dpath : nat -> nat -> Prop :=
  | dp_refl : forall u, dpath u u
  | dp_step : forall u v w, E u v -> dpath v w -> dpath u w.

  (** A directed path of length >= 1. *)
  Inductive dpath1 : nat -> nat -> Prop :=
  | dp1_intro : forall u v w, E u v -> dpath v w -> dpath1 u w.

  (** No directed cycle. *)
  Definition acyclic : Prop := forall u, ~ dpath1 u u.

  Definition adjacent (u v : nat) : Prop := E u v \/ E v u.

  (** Consecutive nodes of the list are adjacent. *)
  Fixpoint linked (p : list nat) : Prop :=
    match p with
    | a :: (b :: _) as r => adjacent a b /\ linked r
    | _ => True
    end.

  (** The three consecutive nodes [a b c] block nothing given [Z]: a collider
      must have a descendant (possibly itself) in [Z], any other middle node
      must be outside [Z]. *)
  Definition open_triple (Z : nat -> Prop) (a b c : nat) : Prop :=
    (E a b /\ E c b -> exists d, Z d /\ dpath b d) /\
    (~ (E a b /\ E c b) -> ~ Z b).

  Fixpoint open_triples (Z : nat -> Prop) (p : list nat) : Prop :=
    match p with
    | a :: ((b :: c :: _) as r) => open_triple Z a b c /\ open_triples Z r
    | _ => True
    end.

  (** An active (unblocked) path: no repeated node, endpoints outside [Z]. *)
  Definition active_path (Z : nat -> Prop) (x y : nat) (p : list nat) : Prop :=
    NoDup p /\ hd_error p = Some x /\ last p x = y /\
    ~ Z x /\ ~ Z y /\ linked p /\ open_triples Z p.

  (** x and y are d-separated by Z. *)
  Definition dsep (Z : nat -> Prop) (x y : nat) : Prop :=
    ~ exists p, active_path Z x y p.

  (** u -> w <- v with u, v distinct and not adjacent. *)
  Definition vstruct (u w v : nat) : Prop :=
    E u w /\ E v w /\ u <> v /\ ~ adjacent u v.
End Digraph.

(** Two directed graphs with the same skeleton and the same v-structures. *)
Definition markov_equiv (E1 E2 : nat -> nat -> Prop) : Prop :=
  (forall u v, adjacent E1 u v <-> adjacent E2 u v) /\
  (forall u w v, vstruct E1 u w v <-> vstruct E2 u w v).
