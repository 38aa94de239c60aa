(** The runs of the learner of hierarchical structure the properties speak of. *)

From Coq Require Import List Permutation.
From Verif Require Import Model.Py Model.LHS Model.LHM Spec.Clusters.
Import ListNotations.

(** A setting the library can be used with: [ord] lists sets, the names of
    latent variables are different from each other and from the observed ones,
    and the observed variables have different names. *)
Record setting_ok (G : setting) : Prop := {
  g_ord_ok : forall s, Permutation (g_ord G s) s;
  g_name_inj : forall a b, g_lname G a = g_lname G b -> a = b;
  g_name_new : forall a, ~ In (g_lname G a) (columns (g_ora G));
  g_cols : NoDup (columns (g_ora G))
}.

(** The clusters FindCausalCluster reports in a state, and the pure clusters known then. *)
Definition found (G : setting) (s : state) : list (list nat) :=
  match find_causal_cluster (g_ord G) (g_vt G) (s_data s) (s_pure s) (s_impure s) with
  | Ok (Ls, _, _, _) => Ls
  | Err _ => []
  end.
Definition pure_now (G : setting) (s : state) : list (list nat) :=
  match find_causal_cluster (g_ord G) (g_vt G) (s_data s) (s_pure s) (s_impure s) with
  | Ok (_, P, _, _) => P
  | Err _ => []
  end.

(** The states the main loop passes through. *)
Inductive reached (G : setting) : state -> Prop :=
| reached_start : reached G (start G)
| reached_next : forall s s', reached G s -> lhm_round G s = Ok (false, s') -> reached G s'.

(** In no state reached do two of the clusters found share a variable. *)
Definition always_disjoint (G : setting) : Prop := forall s, reached G s -> pairwise_disjoint (found G s).

(** The latent variable [L] has no pure cluster among its members. *)
Definition no_pure_inside (E : list (nat * list nat)) (pure : list (list nat)) (L : nat) : Prop :=
  exists C, In (L, C) E /\ forall P, In P pure -> ~ incl P C.

(** [x] comes before [y] in [C]. *)
Definition before (C : list nat) (x y : nat) : Prop := exists a b c, C = a ++ x :: b ++ y :: c.
