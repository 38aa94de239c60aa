(** Facts about Model/EntSim.v: filling in the columns along any topological order,
    and the drawn weights. *)

From Coq Require Import List Arith Bool Lia ZArith QArith Permutation.
From Verif Require Import Model.Py Model.Graph Model.Networkx Model.SHP Model.Simulators Model.EntSim Spec.Digraphs Spec.Sums.
From Verif Require Import Proofs.FinGraph Proofs.NumpyFacts Proofs.NxFacts Proofs.SimFacts Proofs.SimGraphs.
Import ListNotations.
Open Scope nat_scope.

Lemma fill_in_inv : forall f W ns order Y,
  (forall j P vs, f j P = Ok vs -> length P = ns -> length vs = ns) ->
  topological (length W) (nonzero W) order -> fill_in f W ns order = Ok Y ->
  qshape ns (length W) Y /\
  forall j, j < length W -> exists vs, f j (get_cols Y (nx_predecessors (length W) (nonzero W) j)) = Ok vs /\
    length vs = ns /\ forall k, k < ns -> qget Y k j = nth k vs 0%Q.
Proof.
  intros f W ns l Y Hf Tl H. unfold fill_in in H.
  destruct (topo_perm_fill _ _ _ Tl) as [ND [I [L Pr]]]. rewrite L, Nat.eqb_refl in H. simpl in H.
  split.
  - apply (fill_keep f (nx_predecessors (length W) (nonzero W)) ns (length W) l (qzeros ns (length W)) Y); auto. apply qshape_zeros. apply I.
  - intros j Hj. apply (fill_fix f _ ns (length W) l [] (qzeros ns (length W)) Y); auto.
    apply qshape_zeros. apply I. apply I. auto.
Qed.

Lemma fill_in_total : forall f W ns order, topological (length W) (nonzero W) order ->
  (forall j P, j < length W -> length P = ns ->
     (forall r, In r P -> length r = length (nx_predecessors (length W) (nonzero W) j)) ->
     exists vs, f j P = Ok vs /\ length vs = ns) ->
  exists Y, fill_in f W ns order = Ok Y.
Proof.
  intros f W ns l Tl Hf. unfold fill_in.
  destruct (topo_perm_fill _ _ _ Tl) as [ND [I [L Pr]]]. rewrite L, Nat.eqb_refl. simpl.
  apply (fill_total f _ ns).
  - intros j P Hj. apply Hf. apply I. auto.
  - apply qshape_zeros.
Qed.

(** If every step either succeeds or raises [e], and some step always raises it, the
    loop raises it. *)
Lemma fill_raises : forall f pred ns e order X,
  (forall j P, In j order -> length P = ns -> (exists vs, f j P = Ok vs /\ length vs = ns) \/ f j P = Err e) ->
  (exists j, In j order /\ forall P, length P = ns -> f j P = Err e) ->
  length X = ns -> fill f pred order X = Err e.
Proof.
  intros f pred ns e order. induction order as [|a r IH]; intros X Hf [j [Hj He]] LX; [contradiction|]. simpl.
  assert (LP : length (get_cols X (pred a)) = ns) by (unfold get_cols; rewrite map_length; auto).
  destruct (Hf a (get_cols X (pred a))) as [[vs [E Lv]]|E]; [left; auto|auto| |].
  - rewrite E. simpl. destruct Hj as [->|Hj]; [rewrite He in E by auto; discriminate|]. apply IH.
    + intros; apply Hf; auto. right. auto.
    + eauto.
    + rewrite set_col_length; lia.
  - rewrite E. auto.
Qed.

Lemma fill_in_raises : forall f W ns order e, topological (length W) (nonzero W) order ->
  (forall j P, j < length W -> length P = ns -> (exists vs, f j P = Ok vs /\ length vs = ns) \/ f j P = Err e) ->
  (exists j, j < length W /\ forall P, length P = ns -> f j P = Err e) ->
  fill_in f W ns order = Err e.
Proof.
  intros f W ns l e Tl Hf [j [Hj He]]. unfold fill_in.
  destruct (topo_perm_fill _ _ _ Tl) as [ND [I [L Pr]]]. rewrite L, Nat.eqb_refl. simpl.
  apply (fill_raises f _ ns e).
  - intros i P Hi. apply Hf. apply I. auto.
  - exists j. split; auto. apply I. auto.
  - apply qshape_zeros.
Qed.

(** An order that does not list every node is rejected. *)
Lemma fill_in_short : forall f W ns order, length order < length W -> fill_in f W ns order = Err AssertionError.
Proof. intros f W ns l H. unfold fill_in. destruct (Nat.eqb_spec (length l) (length W)); [lia|auto]. Qed.

(* ---------- weights ---------- *)
Lemma param_loop_value : forall n S U B ranges i W a b,
  (param_loop n i ranges S U B W a b ==
   W a b + (if Nat.leb i (S a b) && Nat.ltb (S a b) (i + length ranges) then inject_Z (mat_get B a b) * U (S a b) a b else 0))%Q.
Proof.
  intros n S U B ranges. induction ranges as [|r ranges IH]; intros i W a b; simpl length.
  - simpl. assert (E : Nat.leb i (S a b) && Nat.ltb (S a b) (i + 0) = false).
    { destruct (Nat.leb_spec i (S a b)); simpl; auto. apply Nat.ltb_ge. lia. }
    rewrite E. ring.
  - cbn [param_loop]. rewrite IH.
    destruct (Nat.eqb_spec (S a b) i) as [Ei|Ei].
    + assert (E1 : Nat.leb (1 + i) (S a b) = false) by (apply Nat.leb_gt; lia). rewrite E1. cbn [andb].
      assert (E2 : Nat.leb i (S a b) = true) by (apply Nat.leb_le; lia). rewrite E2.
      assert (E3 : Nat.ltb (S a b) (i + Datatypes.S (length ranges)) = true) by (apply Nat.ltb_lt; lia). rewrite E3. cbn [andb].
      rewrite Ei. ring.
    + replace (Nat.ltb (S a b) (1 + i + length ranges)) with (Nat.ltb (S a b) (i + Datatypes.S (length ranges)))
        by (f_equal; lia).
      replace (Nat.leb (1 + i) (S a b)) with (Nat.leb i (S a b)).
      * ring.
      * destruct (Nat.leb_spec i (S a b)); destruct (Nat.leb_spec (1 + i) (S a b)); auto; lia.
Qed.

(* ---------- renaming ---------- *)
Lemma dpath1_map : forall (E F : nat -> nat -> Prop) (h : nat -> nat), (forall u v, E u v -> F (h u) (h v)) ->
  forall u v, dpath1 E u v -> dpath1 F (h u) (h v).
Proof.
  intros E F h H.
  assert (G : forall u v, dpath E u v -> dpath F (h u) (h v)).
  { intros u v P. induction P; [constructor|]. apply (dp_step _ _ (h v)); auto. }
  intros u v P. destruct P as [u v w X Y]. apply (dp1_intro _ _ (h v)); auto.
Qed.

Lemma pos_nth : forall s a, NoDup s -> a < length s -> pos s (nth a s 0) = a.
Proof.
  intros s a ND Ha. destruct (nth_split s 0 Ha) as [l1 [l2 [E L]]]. unfold pos.
  rewrite E at 2. rewrite index_of_app; auto. intro I. rewrite E in ND. apply NoDup_remove_2 in ND.
  apply ND. apply in_or_app. auto.
Qed.

Lemma combine_map_r : forall {A B} (f : A -> B) l, combine l (map f l) = map (fun x => (x, f x)) l.
Proof. induction l; simpl; congruence. Qed.
