(** The texts that serve as cache keys determine the query, and caches keyed by
    such texts are transparent. *)

From Coq Require Import List Arith Bool Lia ZArith String Ascii.
From Verif Require Import Model.Py Model.Graph Model.Independence Model.LocalScore Model.IndepBase.
From Verif Require Import Proofs.PyFacts Proofs.CacheFacts.
Import ListNotations.
Open Scope string_scope.

(** [t] ends the text of a list of integers. *)
Definition ends (t : string) : Prop :=
  match t with EmptyString => True | String c _ => ichar c = false /\ c <> ","%char end.
Lemma ends_stops : forall t, ends t -> stops t.
Proof. intros [|c t]; simpl; tauto. Qed.

Lemma join_split : forall l l' t t', ends t -> ends t' -> stringize_list l ++ t = stringize_list l' ++ t' -> l = l' /\ t = t'.
Proof.
  unfold stringize_list. induction l as [|x l IH]; intros [|y l'] t t' T T' E.
  - auto.
  - exfalso. destruct (str_int_head y) as [c [r [Ey Ic]]]. simpl in E. destruct l'; simpl in E;
      rewrite Ey in E; simpl in E; subst t; simpl in T; destruct T; congruence.
  - exfalso. destruct (str_int_head x) as [c [r [Ex Ic]]]. simpl in E. destruct l; simpl in E;
      rewrite Ex in E; simpl in E; subst t'; simpl in T'; destruct T'; congruence.
  - destruct l as [|x2 l], l' as [|y2 l'].
    + simpl in E. apply int_split in E; auto using ends_stops. destruct E as [-> ->]. auto.
    + cbn [map] in E. rewrite join_cons2 in E. simpl str_join at 1 in E. rewrite app_assoc_s in E.
      apply int_split in E; auto using ends_stops; [|simpl; auto]. destruct E as [_ E]. subst t. simpl in T. destruct T. congruence.
    + cbn [map] in E. rewrite join_cons2 in E. simpl str_join at 2 in E. rewrite app_assoc_s in E.
      apply int_split in E; auto using ends_stops; [|simpl; auto]. destruct E as [_ E]. subst t'. simpl in T'. destruct T'. congruence.
    + cbn [map] in E. rewrite !join_cons2, !app_assoc_s in E.
      apply int_split in E; try (simpl; auto; fail). destruct E as [-> E].
      apply (app_str_inj ", ") in E. destruct (IH (y2 :: l') t t' T T' E) as [Q ->]. rewrite Q. auto.
Qed.

Ltac ends_tac := simpl; split; [reflexivity|discriminate].

(* ---------- local scores ---------- *)
Definition plain (p : parents_arg) : Prop := match p with PIter _ _ => False | _ => True end.

Lemma stringize_head : forall x l t, exists c r, stringize_list (x :: l) ++ t = String c r /\ ichar c = true.
Proof.
  intros x l t. destruct (str_int_head x) as [c [r [E I]]]. unfold stringize_list. destruct l; simpl; rewrite E; simpl; eauto.
Qed.

Lemma repr_parents_inj : forall p p' t t', plain p -> plain p' -> repr_parents p ++ t = repr_parents p' ++ t' -> elements p = elements p'.
Proof.
  assert (forall x y r t t', str_int x ++ String "," (String ")" t) = stringize_list (y :: r) ++ String ")" t' -> False) as One.
  { intros x y r t t' E. unfold stringize_list in E. destruct r as [|z r]; cbn [map str_join] in E.
    - apply int_split in E; simpl; auto. destruct E as [_ E]. discriminate.
    - rewrite app_assoc_s in E. apply int_split in E; simpl; auto. destruct E as [_ E]. discriminate. }
  assert (forall x r t t', str_int x ++ String "," (String ")" t) = stringize_list r ++ String ")" t' -> False) as One'.
  { intros x [|y r] t t' E; [|eapply One; eauto]. simpl in E. destruct (str_int_head x) as [c [s [Ex I]]].
    rewrite Ex in E. simpl in E. inversion E; subst. discriminate. }
  intros [l|l|l|s l] [l'|l'|l'|s' l'] t t' P P' E; try destruct P; try destruct P'; cbn [elements];
  try (exfalso; cbn [repr_parents] in E;
       repeat match type of E with context [match ?a with _ => _ end] => destruct a end; simpl in E; discriminate).
  - cbn [repr_parents] in E. simpl in E. rewrite !app_assoc_s in E. inversion E as [E']. apply join_split in E'; [tauto| |]; ends_tac.
  - cbn [repr_parents] in E. destruct l as [|x [|x2 l]], l' as [|y [|y2 l']]; simpl in E; rewrite ?app_assoc_s in E; inversion E as [E'].
    + auto.
    + exfalso. destruct (str_int_head y) as [c [s [Ey I]]]. rewrite Ey in E'. simpl in E'. inversion E'; subst. discriminate.
    + exfalso. destruct (stringize_head y (y2 :: l') (")" ++ t')) as [c [s [Ey I]]]. simpl in Ey. rewrite Ey in E'. inversion E'; subst. discriminate.
    + exfalso. destruct (str_int_head x) as [c [s [Ex I]]]. rewrite Ex in E'. simpl in E'. inversion E'; subst. discriminate.
    + apply int_split in E'; simpl; auto. destruct E' as [-> _]. auto.
    + exfalso. eapply (One' x (y :: y2 :: l')). simpl. exact E'.
    + exfalso. destruct (stringize_head x (x2 :: l) (")" ++ t)) as [c [s [Ex I]]]. simpl in Ex. rewrite Ex in E'. inversion E'; subst. discriminate.
    + exfalso. eapply (One' y (x :: x2 :: l)). simpl. symmetry. exact E'.
    + destruct (join_split (x :: x2 :: l) (y :: y2 :: l') (")" ++ t) (")" ++ t')) as [Q _]; try ends_tac; auto.
  - cbn [repr_parents] in E. destruct l as [|x l], l' as [|y l']; auto; simpl in E; try discriminate.
    rewrite !app_assoc_s in E. inversion E as [E'].
    destruct (join_split (x :: l) (y :: l') ("}" ++ t) ("}" ++ t')) as [Q _]; try ends_tac; auto.
Qed.

Theorem score_key_inj : forall i p i' p', plain p -> plain p' -> score_key_text i p = score_key_text i' p' -> i = i' /\ elements p = elements p'.
Proof.
  intros i p i' p' P P' E. unfold score_key_text in E. apply (app_str_inj "(") in E.
  apply int_split in E; try (simpl; auto; fail). destruct E as [-> E]. split; auto.
  apply (app_str_inj ", ") in E. eapply repr_parents_inj; eauto.
Qed.

Section Scores.
  Context {V : Type}.
  Variable hash : string -> Z.
  Variable sf : Z -> list Z -> res V.
  Variable dom : Z -> parents_arg -> Prop.
  Hypothesis Dplain : forall i p, dom i p -> plain p.
  Hypothesis Dhash : forall i p i' p', dom i p -> dom i' p' -> hash (score_key_text i p) = hash (score_key_text i' p') -> score_key_text i p = score_key_text i' p'.

  Definition scache_ok (c : list (Z * V)) : Prop :=
    forall k v, dget Z.eqb c k = Some v -> exists i p, dom i p /\ hash (score_key_text i p) = k /\ sf i (elements p) = Ok v.

  Lemma Zspec : forall a b, Z.eqb a b = true <-> a = b.
  Proof using. intros. apply Z.eqb_eq. Qed.

  Lemma cached_score_ok : forall c i p, scache_ok c -> dom i p ->
    snd (cached_score hash sf c i p) = sf i (elements p) /\ scache_ok (fst (cached_score hash sf c i p)).
  Proof using Dplain Dhash.
    intros c i p I D. unfold cached_score. destruct (dget Z.eqb c (hash (score_key_text i p))) as [v|] eqn:G.
    - simpl. split; auto. destruct (I _ _ G) as [i' [p' [D' [K E]]]]. apply Dhash in K; auto.
      apply score_key_inj in K; eauto. destruct K as [-> Q]. rewrite <- Q. auto.
    - destruct (sf i (elements p)) as [v|e] eqn:E; simpl; split; auto.
      intros k w H. destruct (Z.eqb_spec k (hash (score_key_text i p))) as [->|N].
      + rewrite (dget_dset_eq Z.eqb Zspec) in H. inversion H; subst. exists i, p. auto.
      + rewrite (dget_dset_neq Z.eqb Zspec) in H by auto. auto.
  Qed.

  Lemma cached_scores_ok : forall qs c, scache_ok c -> (forall i p, In (i, p) qs -> dom i p) ->
    snd (cached_scores hash sf c qs) = map (fun q => sf (fst q) (elements (snd q))) qs.
  Proof using Dplain Dhash.
    induction qs as [|[i p] qs IH]; intros c I H; simpl; auto.
    destruct (cached_score_ok c i p I) as [E1 I1]; [apply H; simpl; auto|].
    destruct (cached_score hash sf c i p) as [c1 a]. simpl in *.
    specialize (IH c1 I1 (fun i p Hq => H i p (or_intror Hq))).
    destruct (cached_scores hash sf c1 qs) as [c2 l]. simpl in *. rewrite E1, IH. auto.
  Qed.
End Scores.

(* ---------- independence tests ---------- *)
Definition ints (l : ids) : Prop := match l with None => True | Some l => exists z, l = map IInt z end.

Lemma repr_ints : forall z, str_join ", " (map repr_item (map IInt z)) = stringize_list z.
Proof. intro z. unfold stringize_list. rewrite map_map. auto. Qed.

Lemma repr_ids_inj : forall x x' t t', ints x -> ints x' -> repr_ids x ++ t = repr_ids x' ++ t' -> x = x' /\ t = t'.
Proof.
  intros [x|] [x'|] t t' H H' E; simpl in E; try discriminate.
  - destruct H as [z ->], H' as [z' ->]. rewrite !repr_ints, !app_assoc_s in E. inversion E as [E'].
    apply join_split in E'; try ends_tac. destruct E' as [-> E']. inversion E'. auto.
  - inversion E. auto.
Qed.

Theorem pvalue_key_inj : forall x y z x' y' z', ints x -> ints y -> ints z -> ints x' -> ints y' -> ints z' ->
  pvalue_key_text x y z = pvalue_key_text x' y' z' -> x = x' /\ y = y' /\ z = z'.
Proof.
  intros x y z x' y' z' H1 H2 H3 H4 H5 H6 E. unfold pvalue_key_text in E. apply (app_str_inj "(") in E.
  apply repr_ids_inj in E; auto. destruct E as [-> E]. apply (app_str_inj ", ") in E.
  apply repr_ids_inj in E; auto. destruct E as [-> E]. apply (app_str_inj ", ") in E.
  apply repr_ids_inj in E; auto. tauto.
Qed.

Section PValues.
  Context {V : Type}.
  Variable names : list string.
  Variable hash : string -> Z.
  Variable f0 : option (ids -> ids -> res V).
  Variable f1 : option (ids -> ids -> ids -> res V).

  (** The answer computed afresh. *)
  Definition fresh (q : vars_arg * vars_arg * vars_arg) : res V :=
    snd (compute_p_value names hash f0 f1 [] (fst (fst q)) (snd (fst q)) (snd q)).
  Definition resolved (q : vars_arg * vars_arg * vars_arg) (x y z : ids) : Prop :=
    input_to_list names (fst (fst q)) = Ok x /\ input_to_list names (snd (fst q)) = Ok y /\ input_to_list names (snd q) = Ok z.
  Definition value (x y z : ids) : res V :=
    match z with
    | None => match f0 with None => Err PyException | Some f => f x y end
    | Some _ => match f1 with None => Err PyException | Some f => f x y z end
    end.

  Lemma fresh_value : forall q x y z, resolved q x y z -> fresh q = value x y z.
  Proof using.
    intros [[xs ys] zs] x y z [E1 [E2 E3]]. unfold fresh, compute_p_value, value. simpl in *. rewrite E1, E2, E3. simpl.
    destruct z as [z|]; [destruct f1 as [f|]|destruct f0 as [f|]]; auto; [destruct (f x y (Some z))|destruct (f x y)]; auto.
  Qed.

  Variable dom : vars_arg * vars_arg * vars_arg -> Prop.
  Hypothesis Dints : forall q x y z, dom q -> resolved q x y z -> ints x /\ ints y /\ ints z.
  Hypothesis Dhash : forall q x y z q' x' y' z', dom q -> dom q' -> resolved q x y z -> resolved q' x' y' z' ->
    hash (pvalue_key_text x y z) = hash (pvalue_key_text x' y' z') -> pvalue_key_text x y z = pvalue_key_text x' y' z'.

  Definition pcache_ok (c : list (Z * V)) : Prop :=
    forall k v, dget Z.eqb c k = Some v -> exists q x y z, dom q /\ resolved q x y z /\ hash (pvalue_key_text x y z) = k /\ value x y z = Ok v.

  Lemma p_value_ok : forall c xs ys zs, pcache_ok c -> dom (xs, ys, zs) ->
    snd (compute_p_value names hash f0 f1 c xs ys zs) = fresh (xs, ys, zs) /\ pcache_ok (fst (compute_p_value names hash f0 f1 c xs ys zs)).
  Proof using Dints Dhash.
    intros c xs ys zs I D.
    assert ((exists x y z, resolved (xs, ys, zs) x y z) \/ exists e, (x <-? input_to_list names xs ;; y <-? input_to_list names ys ;; z <-? input_to_list names zs ;; Ok (x, y, z))%res = Err e) as [[x [y [z R]]]|[e R]].
    { unfold resolved. simpl. destruct (input_to_list names xs); [|right; simpl; eauto].
      destruct (input_to_list names ys); [|right; simpl; eauto]. destruct (input_to_list names zs); [|right; simpl; eauto]. left. do 3 eexists. repeat split; reflexivity. }
    2: { unfold fresh, compute_p_value. simpl. rewrite R. simpl. auto. }
    rewrite (fresh_value _ x y z R). pose proof R as R0. destruct R as [E1 [E2 E3]]. simpl in *.
    unfold compute_p_value. rewrite E1, E2, E3. simpl.
    destruct (dget Z.eqb c (hash (pvalue_key_text x y z))) as [v|] eqn:G.
    - simpl. split; auto. destruct (I _ _ G) as [q' [x' [y' [z' [D' [R' [K E]]]]]]].
      apply (Dhash _ x' y' z' _ x y z D' D R' R0) in K.
      destruct (Dints _ _ _ _ D R0) as [? [? ?]]. destruct (Dints _ _ _ _ D' R') as [? [? ?]].
      apply pvalue_key_inj in K; auto. destruct K as [-> [-> ->]]. auto.
    - fold (value x y z). destruct (value x y z) as [v|e] eqn:E; simpl; split; auto.
      intros k w H. destruct (Z.eqb_spec k (hash (pvalue_key_text x y z))) as [->|N].
      + rewrite (dget_dset_eq Z.eqb Zspec) in H. inversion H; subst. exists (xs, ys, zs), x, y, z. auto.
      + rewrite (dget_dset_neq Z.eqb Zspec) in H by auto. auto.
  Qed.

  Lemma p_values_ok : forall qs c, pcache_ok c -> (forall q, In q qs -> dom q) ->
    snd (p_values names hash f0 f1 c qs) = map fresh qs.
  Proof using Dints Dhash.
    induction qs as [|[[xs ys] zs] qs IH]; intros c I H; simpl; auto.
    destruct (p_value_ok c xs ys zs I) as [E1 I1]; [apply H; simpl; auto|].
    destruct (compute_p_value names hash f0 f1 c xs ys zs) as [c1 a]. simpl in *.
    specialize (IH c1 I1 (fun q Hq => H q (or_intror Hq))).
    destruct (p_values names hash f0 f1 c1 qs) as [c2 l]. simpl in *. rewrite E1, IH. auto.
  Qed.
End PValues.
