(** What a minimiser promises, independent of the code. *)

From Coq Require Import List Reals.
Import ListNotations.
Open Scope R_scope.

(** A point has the value [v]. *)
Definition has_value {P G : Type} (f : P -> option (R * G)) (p : P) (v : R) : Prop := exists g, f p = Some (v, g).
(** Every element is smaller than the one before. *)
Fixpoint decreasing (l : list R) : Prop :=
  match l with a :: ((b :: _) as r) => b < a /\ decreasing r | _ => True end.
(** The result is a point with the least value of those looked at. *)
Definition best_of {P G : Type} (f : P -> option (R * G)) (p : P) (l : list P) : Prop :=
  exists v, has_value f p v /\ forall q w, In q l -> has_value f q w -> v <= w.
