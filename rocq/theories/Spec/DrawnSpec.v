(** What a drawing of latents over clusters is: words for property C102. *)

From Coq Require Import List Relations.
Import ListNotations.

(** [x] stands before [y] in [l]. *)
Definition precedes {A} (l : list A) (x y : A) : Prop := exists a b c, l = a ++ x :: b ++ y :: c.
(** Two lists hold the same elements. *)
Definition alike {A} (a b : list A) : Prop := forall x, In x a <-> In x b.
(** One list holds both. *)
Definition together {A} (groups : list (list A)) (x y : A) : Prop := exists g, In g groups /\ In x g /\ In y g.
(** No two entries of a list at different places hold the same elements. *)
Definition all_different {A} (l : list (list A)) : Prop :=
  forall a x b y c, l = a ++ x :: b ++ y :: c -> ~ alike x y.
(** No walk along the edges leads back to its start. *)
Definition no_cycle {A} (edges : list (A * A)) : Prop :=
  forall v, ~ clos_trans A (fun x y => In (x, y) edges) v v.
