(** Specification of a hierarchy of latent variables, given as a list of latent
    variables with their members. *)

From Coq Require Import List Relations.
Import ListNotations.

(** [v] is a member of the latent variable [L]. *)
Definition below (E : list (nat * list nat)) (L v : nat) : Prop := exists C, In (L, C) E /\ In v C.

(** [v] is [L], or a member, or a member of a member, and so on. *)
Definition under (E : list (nat * list nat)) : nat -> nat -> Prop := clos_refl_trans nat (below E).

(** The latent variables [E] form a forest over the observed variables [obs],
    whose roots are the variables [active]: a member is an observed or a latent
    variable, no observed variable has members, no variable has two parents, no
    variable is below itself, each latent variable has two or more different members, and
    [active] are the variables without a parent. *)
Record forest (obs active : list nat) (E : list (nat * list nat)) : Prop := {
  f_names : NoDup (map fst E);
  f_members : forall L v, below E L v -> In v obs \/ In v (map fst E);
  f_leaves : forall v, In v obs -> ~ In v (map fst E);
  f_once : forall L L' v, below E L v -> below E L' v -> L = L';
  f_acyclic : forall v, ~ clos_trans nat (below E) v v;
  f_two : forall L C, In (L, C) E -> NoDup C /\ 2 <= length C;
  f_roots : forall v, In v active <-> (In v obs \/ In v (map fst E)) /\ forall L, ~ below E L v;
  f_active : NoDup active
}.
