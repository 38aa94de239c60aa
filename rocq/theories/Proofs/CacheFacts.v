(** The cache key of the independence tests identifies the query. *)

From Coq Require Import List Arith Bool Lia ZArith QArith String Ascii Decimal DecimalString DecimalPos DecimalZ Permutation Sorted.
From Verif Require Import Model.Py Model.Independence.
From Verif Require Import Proofs.PyFacts.
Import ListNotations.
Open Scope string_scope.

(** Characters that occur in the text of an integer. *)
Definition ichar (c : ascii) : bool :=
  existsb (Ascii.eqb c) ["0"; "1"; "2"; "3"; "4"; "5"; "6"; "7"; "8"; "9"; "-"]%char.

Fixpoint allch (s : string) : Prop :=
  match s with EmptyString => True | String c r => ichar c = true /\ allch r end.

Lemma allch_uint : forall d, allch (NilEmpty.string_of_uint d).
Proof. induction d; simpl; auto. Qed.

Lemma allch_int : forall i, allch (str_int i).
Proof.
  intro i. unfold str_int. destruct (Z.to_int i) as [d|d].
  - simpl. destruct d; simpl; auto using allch_uint.
  - simpl. split; auto. destruct d; simpl; auto using allch_uint.
Qed.

Lemma to_int_nonnil : forall i, Z.to_int i <> Pos Nil /\ Z.to_int i <> Neg Nil.
Proof.
  intros [|p|p]; simpl; split; try discriminate.
  - intro H. inversion H. apply (Unsigned.to_uint_nonnil p). auto.
  - intro H. inversion H. apply (Unsigned.to_uint_nonnil p). auto.
Qed.

Lemma str_int_inj : forall i j, str_int i = str_int j -> i = j.
Proof.
  intros i j H. apply to_int_inj. unfold str_int in H.
  destruct (to_int_nonnil i) as [A1 A2]. destruct (to_int_nonnil j) as [B1 B2].
  assert (E := NilZero.isi (Z.to_int i) A1 A2). rewrite H, (NilZero.isi (Z.to_int j) B1 B2) in E. inversion E. auto.
Qed.

Lemma str_int_head : forall i, exists c r, str_int i = String c r /\ ichar c = true.
Proof.
  intro i. assert (A := allch_int i). destruct (str_int i) as [|c r] eqn:E.
  - exfalso. unfold str_int in E. destruct (to_int_nonnil i) as [A1 A2].
    destruct (Z.to_int i) as [d|d]; simpl in E; [|discriminate]. destruct d; try discriminate. 
  - exists c, r. destruct A. auto.
Qed.

(** [r] does not continue an integer. *)
Definition stops (r : string) : Prop := match r with EmptyString => True | String c _ => ichar c = false end.

Lemma split_unique : forall a b r r', allch a -> allch b -> stops r -> stops r' -> a ++ r = b ++ r' -> a = b /\ r = r'.
Proof.
  induction a as [|c a IH]; intros [|d b] r r' A B S S' E; simpl in *.
  - auto.
  - subst r. simpl in S. destruct B. congruence.
  - subst r'. simpl in S'. destruct A. congruence.
  - inversion E; subst. destruct A as [_ A], B as [_ B].
    destruct (IH b r r' A B S S' H1) as [-> ->]. auto.
Qed.

Lemma int_split : forall i j r r', stops r -> stops r' -> str_int i ++ r = str_int j ++ r' -> i = j /\ r = r'.
Proof.
  intros i j r r' S S' E. destruct (split_unique _ _ _ _ (allch_int i) (allch_int j) S S' E) as [H ->].
  split; auto. apply str_int_inj. auto.
Qed.

Lemma app_assoc_s : forall a b c : string, (a ++ b) ++ c = a ++ (b ++ c).
Proof. induction a as [|x a IH]; intros; simpl; auto. rewrite IH. auto. Qed.

Lemma app_str_inj : forall a x y : string, a ++ x = a ++ y -> x = y.
Proof. induction a as [|c a IH]; simpl; intros x y H; auto. inversion H. auto. Qed.

Lemma join_cons2 : forall sep a b l, str_join sep (a :: b :: l) = a ++ sep ++ str_join sep (b :: l).
Proof. auto. Qed.

Lemma join_inj : forall l l', stringize_list l ++ ")" = stringize_list l' ++ ")" -> l = l'.
Proof.
  unfold stringize_list. induction l as [|x l IH]; intros [|y l'] E.
  - auto.
  - exfalso. destruct (str_int_head y) as [c [r [Ey Ic]]]. simpl in E. destruct l'; simpl in E;
      rewrite Ey in E; simpl in E; inversion E; subst c; discriminate.
  - exfalso. destruct (str_int_head x) as [c [r [Ex Ic]]]. simpl in E. destruct l; simpl in E;
      rewrite Ex in E; simpl in E; inversion E; subst c; discriminate.
  - destruct l as [|x2 l], l' as [|y2 l'].
    + simpl in E. apply int_split in E; simpl; auto. destruct E as [-> _]. auto.
    + cbn [map] in E. rewrite join_cons2 in E. simpl str_join at 1 in E. rewrite app_assoc_s in E.
      apply int_split in E; simpl; auto. destruct E as [_ E]. inversion E.
    + cbn [map] in E. rewrite join_cons2 in E. simpl str_join at 2 in E. rewrite app_assoc_s in E.
      apply int_split in E; simpl; auto. destruct E as [_ E]. inversion E.
    + cbn [map] in E. rewrite !join_cons2, !app_assoc_s in E.
      apply int_split in E; simpl; auto. destruct E as [-> E].
      apply (app_str_inj ", ") in E. f_equal. apply IH. exact E.
Qed.

Lemma insertZ_perm : forall x l, Permutation (x :: l) (insertZ x l).
Proof.
  intros x l. induction l as [|y l IH]; simpl; auto. destruct (x <=? y)%Z; auto.
  eapply perm_trans; [apply perm_swap|]. constructor. auto.
Qed.
Lemma sortedZ_perm : forall l, Permutation l (sortedZ l).
Proof.
  induction l as [|x l IH]; simpl; auto. eapply perm_trans; [|apply insertZ_perm]. constructor. auto.
Qed.

(** Equal after sorting means the same multiset, and conversely. *)
Lemma insertZ_sorted : forall x l, Sorted Z.le l -> Sorted Z.le (insertZ x l).
Proof.
  intros x l H. induction H as [|y l H IH Hd]; simpl; [repeat constructor|].
  destruct (Z.leb_spec x y); [constructor; [constructor; auto|constructor; auto]|].
  constructor; auto. destruct l as [|z l]; simpl in *; [constructor; lia|].
  destruct (x <=? z)%Z; constructor; [lia|]. inversion Hd; auto.
Qed.
Lemma sortedZ_sorted : forall l, Sorted Z.le (sortedZ l).
Proof. induction l as [|x l IH]; simpl; [constructor|]. apply insertZ_sorted. auto. Qed.

Lemma sorted_perm_eq : forall l l', StronglySorted Z.le l -> StronglySorted Z.le l' -> Permutation l l' -> l = l'.
Proof.
  induction l as [|x l IH]; intros l' S S' P.
  - apply Permutation_nil in P. auto.
  - destruct l' as [|y l']; [apply Permutation_sym, Permutation_nil in P; discriminate|].
    inversion S as [|? ? Sl Fx]; inversion S' as [|? ? Sl' Fy]; subst.
    rewrite Forall_forall in Fx, Fy.
    assert (x = y).
    { assert (H1 : In x (y :: l')) by (eapply Permutation_in; [exact P|left; auto]).
      assert (H2 : In y (x :: l)) by (eapply Permutation_in; [apply Permutation_sym; exact P|left; auto]).
      destruct H1 as [H1|H1]; auto. destruct H2 as [H2|H2]; auto.
      apply Fy in H1. apply Fx in H2. lia. }
    subst y. f_equal. apply IH; auto. eapply Permutation_cons_inv. eauto.
Qed.

Lemma sortedZ_eq_iff : forall l l', sortedZ l = sortedZ l' <-> Permutation l l'.
Proof.
  intros l l'. split.
  - intro E. eapply perm_trans; [apply sortedZ_perm|]. rewrite E. apply Permutation_sym, sortedZ_perm.
  - intro P. apply sorted_perm_eq.
    + apply Sorted_StronglySorted; [intros a b c; lia|apply sortedZ_sorted].
    + apply Sorted_StronglySorted; [intros a b c; lia|apply sortedZ_sorted].
    + eapply perm_trans; [apply Permutation_sym, sortedZ_perm|]. eapply perm_trans; [exact P|apply sortedZ_perm].
Qed.

(** The same query up to swapping the variables and permuting the condition. *)
Definition same_query (x y : Z) (z : option (list Z)) (x' y' : Z) (z' : option (list Z)) : Prop :=
  ((x = x' /\ y = y') \/ (x = y' /\ y = x')) /\
  match z, z' with
  | None, None => True
  | Some l, Some l' => Permutation l l'
  | _, _ => False
  end.

Theorem key_iff : forall x y z x' y' z', get_cache_key x y z = get_cache_key x' y' z' <-> same_query x y z x' y' z'.
Proof.
  intros x y z x' y' z'. unfold get_cache_key, same_query.
  assert (HS : forall x y : Z, exists a b, (if (x >? y)%Z then (y, x) else (x, y)) = (a, b) /\ (a <= b)%Z /\
    ((a = x /\ b = y) \/ (a = y /\ b = x))).
  { intros u v. destruct (Z.gtb_spec u v); [exists v, u|exists u, v]; split; auto; split; auto; lia. }
  destruct (HS x y) as [a [b [-> [L1 C1]]]]. destruct (HS x' y') as [a' [b' [-> [L2 C2]]]].
  assert (HP : ((x = x' /\ y = y') \/ (x = y' /\ y = x')) <-> (a = a' /\ b = b')) by lia.
  rewrite HP. destruct z as [l|], z' as [l'|].
  - split.
    + intro E. apply (app_str_inj "I(") in E.
      apply int_split in E; simpl; auto. destruct E as [-> E]. apply (app_str_inj ", ") in E.
      apply int_split in E; simpl; auto. destruct E as [-> E]. apply (app_str_inj " | ") in E.
      apply join_inj in E. split; auto. apply sortedZ_eq_iff. auto.
    + intros [[-> ->] P]. apply sortedZ_eq_iff in P. rewrite P. auto.
  - split; [|tauto]. intro E. exfalso. apply (app_str_inj "I(") in E.
    apply int_split in E; simpl; auto. destruct E as [-> E]. apply (app_str_inj ", ") in E.
    apply int_split in E; simpl; auto. destruct E as [_ E]. inversion E.
  - split; [|tauto]. intro E. exfalso. apply (app_str_inj "I(") in E.
    apply int_split in E; simpl; auto. destruct E as [-> E]. apply (app_str_inj ", ") in E.
    apply int_split in E; simpl; auto. destruct E as [_ E]. inversion E.
  - split; [|intros [[-> ->] _]; auto]. intro E. split; auto. apply (app_str_inj "I(") in E.
    apply int_split in E; simpl; auto. destruct E as [-> E]. apply (app_str_inj ", ") in E.
    apply int_split in E; simpl; auto. destruct E as [-> E]. auto.
Qed.

(* ---------- transparency ---------- *)
Section Cache.
  Context {V : Type}.
  Variable truthy : V -> bool.
  Variable stat : Z -> Z -> option (list Z) -> res V.
  (** queries that are asked *)
  Variable dom : Z -> Z -> option (list Z) -> Prop.
  Hypothesis compat : forall x y z x' y' z', dom x y z -> dom x' y' z' -> same_query x y z x' y' z' ->
    stat x y z = stat x' y' z'.

  Definition cache_ok (c : list (string * V)) : Prop :=
    forall k v, dget String.eqb c k = Some v -> exists x y z, dom x y z /\ get_cache_key x y z = k /\ stat x y z = Ok v.

  Lemma Seqb_spec : forall a b, String.eqb a b = true <-> a = b.
  Proof using. intros. apply String.eqb_eq. Qed.

  Lemma itest_ok : forall c x y z, cache_ok c -> dom x y z ->
    snd (itest truthy stat c x y z) = stat x y z /\ cache_ok (fst (itest truthy stat c x y z)).
  Proof using compat.
    intros c x y z I Dq. unfold itest.
    assert (COMP : snd (match stat x y z with Ok v => (dset String.eqb c (get_cache_key x y z) v, Ok v) | Err e => (c, Err e) end) = stat x y z /\
      cache_ok (fst (match stat x y z with Ok v => (dset String.eqb c (get_cache_key x y z) v, Ok v) | Err e => (c, Err e) end))).
    { destruct (stat x y z) as [v|e] eqn:E; simpl; split; auto.
      intros k w H. destruct (String.eqb_spec k (get_cache_key x y z)) as [->|N].
      - rewrite (dget_dset_eq String.eqb Seqb_spec) in H. inversion H; subst. exists x, y, z. auto.
      - rewrite (dget_dset_neq String.eqb Seqb_spec) in H by auto. auto. }
    destruct (dget String.eqb c (get_cache_key x y z)) as [v|] eqn:G; auto.
    destruct (truthy v); auto. simpl. split; auto.
    destruct (I _ _ G) as [x' [y' [z' [D' [K E]]]]]. apply key_iff in K.
    rewrite <- E. apply compat; auto.
  Qed.

  Lemma itests_ok : forall qs c, cache_ok c -> (forall x y z, In (x, y, z) qs -> dom x y z) ->
    snd (itests truthy stat c qs) = map (fun q : qry => let '(x, y, z) := q in stat x y z) qs.
  Proof using compat.
    induction qs as [|[[x y] z] qs IH]; intros c I H; simpl; auto.
    destruct (itest_ok c x y z I) as [E1 I1]; [apply H; simpl; auto|].
    destruct (itest truthy stat c x y z) as [c1 a]. simpl in *.
    specialize (IH c1 I1 (fun x y z Hq => H x y z (or_intror Hq))).
    destruct (itests truthy stat c1 qs) as [c2 l]. simpl in *. rewrite E1, IH. auto.
  Qed.
End Cache.
