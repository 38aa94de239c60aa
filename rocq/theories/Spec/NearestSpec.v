(** The nearest neighbour of a member of a list of numbers. *)

From Coq Require Import List Arith Reals.
Import ListNotations.
Open Scope R_scope.

(** [d] is the distance from member [i] to the nearest of the other members. *)
Definition nearest (z : list R) (i : nat) (d : R) : Prop :=
  (exists j, (j < length z)%nat /\ j <> i /\ d = Rabs (nth i z 0 - nth j z 0)) /\ forall j, (j < length z)%nat -> j <> i -> d <= Rabs (nth i z 0 - nth j z 0).
(** [v] is the sum over the members of the logarithm of the squared distance to the nearest other member, plus [eps]. *)
Definition nearest_sum (eps : R) (z : list R) (v : R) : Prop :=
  exists ds, length ds = length z /\ (forall i, (i < length z)%nat -> nearest z i (nth i ds 0)) /\ v = fold_right Rplus 0 (map (fun d => ln (d ^ 2 + eps)) ds).
