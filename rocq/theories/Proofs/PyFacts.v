(** Facts about the Python run-time layer (dicts, sets, itertools). *)

From Coq Require Import List Arith Bool Lia Permutation.
From Verif Require Import Model.Py.
Import ListNotations.

(* ---------- dicts ---------- *)
Section DictFacts.
  Context {K V : Type} (keqb : K -> K -> bool).
  Hypothesis keqb_spec : forall a b, keqb a b = true <-> a = b.

  Lemma keqb_refl : forall k, keqb k k = true.
  Proof using keqb_spec. intro k. apply keqb_spec. reflexivity. Qed.

  Lemma keqb_neq : forall a b, a <> b -> keqb a b = false.
  Proof using keqb_spec.
    intros a b H. destruct (keqb a b) eqn:E; auto.
    apply keqb_spec in E. contradiction.
  Qed.

  Lemma keqb_false : forall a b, keqb a b = false -> a <> b.
  Proof using keqb_spec. intros a b E H. subst. rewrite keqb_refl in E. discriminate. Qed.

  Lemma dget_dset_eq : forall (d : list (K * V)) k v,
    dget keqb (dset keqb d k v) k = Some v.
  Proof using keqb_spec.
    induction d as [|[k' v'] d IH]; intros k v; simpl.
    - rewrite keqb_refl. reflexivity.
    - destruct (keqb k k') eqn:E; simpl; rewrite E; auto.
  Qed.

  Lemma dget_dset_neq : forall (d : list (K * V)) k k' v,
    k <> k' -> dget keqb (dset keqb d k v) k' = dget keqb d k'.
  Proof using keqb_spec.
    induction d as [|[k0 v0] d IH]; intros k k' v H; simpl.
    - rewrite keqb_neq by auto. reflexivity.
    - destruct (keqb k k0) eqn:E; simpl.
      + apply keqb_spec in E. subst k0.
        rewrite keqb_neq by auto. reflexivity.
      + destruct (keqb k' k0); auto.
  Qed.

  Lemma dget_dpop_neq : forall (d : list (K * V)) k k',
    k <> k' -> dget keqb (dpop keqb d k) k' = dget keqb d k'.
  Proof using keqb_spec.
    induction d as [|[k0 v0] d IH]; intros k k' H; simpl; auto.
    destruct (keqb k k0) eqn:E; simpl.
    - apply keqb_spec in E. subst k0. rewrite (keqb_neq k' k) by auto. reflexivity.
    - destruct (keqb k' k0); auto.
  Qed.

  Lemma dget_In : forall (d : list (K * V)) k v, dget keqb d k = Some v -> In (k, v) d.
  Proof using keqb_spec.
    induction d as [|[k0 v0] d IH]; intros k v H; simpl in *; try discriminate.
    destruct (keqb k k0) eqn:E.
    - apply keqb_spec in E. inversion H. subst. auto.
    - right. auto.
  Qed.

  Lemma dget_Some_key : forall (d : list (K * V)) k, dget keqb d k <> None <-> In k (dkeys d).
  Proof using keqb_spec.
    induction d as [|[k0 v0] d IH]; intros k; simpl.
    - split; [congruence|tauto].
    - destruct (keqb k k0) eqn:E.
      + apply keqb_spec in E. subst. split; [auto|congruence].
      + apply keqb_false in E. rewrite IH. intuition congruence.
  Qed.

  Lemma dget_None_key : forall (d : list (K * V)) k, dget keqb d k = None <-> ~ In k (dkeys d).
  Proof using keqb_spec.
    intros d k. rewrite <- dget_Some_key. destruct (dget keqb d k); split; intros; try congruence.
    exfalso. apply H. congruence.
  Qed.

  Lemma In_dget : forall (d : list (K * V)) k v,
    NoDup (dkeys d) -> In (k, v) d -> dget keqb d k = Some v.
  Proof using keqb_spec.
    induction d as [|[k0 v0] d IH]; intros k v ND H; simpl in *; [tauto|].
    inversion ND as [|? ? Hn ND']; subst.
    destruct H as [H|H].
    - inversion H; subst. rewrite keqb_refl. reflexivity.
    - rewrite keqb_neq; auto.
      intro; subst. apply Hn. apply in_map_iff. exists (k0, v). auto.
  Qed.

  Lemma dkeys_dset_in : forall (d : list (K * V)) k v,
    In k (dkeys d) -> dkeys (dset keqb d k v) = dkeys d.
  Proof using keqb_spec.
    induction d as [|[k0 v0] d IH]; intros k v H; simpl in *; [tauto|].
    destruct (keqb k k0) eqn:E; simpl; auto.
    apply keqb_false in E. f_equal. apply IH. intuition congruence.
  Qed.

  Lemma dkeys_dset_new : forall (d : list (K * V)) k v,
    ~ In k (dkeys d) -> dkeys (dset keqb d k v) = dkeys d ++ [k].
  Proof using keqb_spec.
    induction d as [|[k0 v0] d IH]; intros k v H; simpl in *; auto.
    rewrite keqb_neq by intuition. simpl. rewrite IH by intuition. reflexivity.
  Qed.

  Lemma In_dec_key : forall k (l : list K), In k l \/ ~ In k l.
  Proof using keqb_spec.
    intros k l. induction l as [|a l IH]; simpl; auto.
    destruct (keqb k a) eqn:E.
    - apply keqb_spec in E. subst. auto.
    - apply keqb_false in E. intuition congruence.
  Qed.

  Lemma NoDup_snoc : forall (l : list K) a, NoDup l -> ~ In a l -> NoDup (l ++ [a]).
  Proof.
    intros l a ND H. apply NoDup_rev in ND. rewrite <- (rev_involutive (l ++ [a])).
    apply NoDup_rev. rewrite rev_app_distr. simpl. constructor; auto.
    rewrite <- in_rev. auto.
  Qed.

  Lemma NoDup_dset : forall (d : list (K * V)) k v,
    NoDup (dkeys d) -> NoDup (dkeys (dset keqb d k v)).
  Proof using keqb_spec.
    intros d k v H. destruct (In_dec_key k (dkeys d)).
    - rewrite dkeys_dset_in; auto.
    - rewrite dkeys_dset_new; auto. apply NoDup_snoc; auto.
  Qed.

  Lemma dkeys_dset : forall (d : list (K * V)) k v x,
    In x (dkeys (dset keqb d k v)) <-> x = k \/ In x (dkeys d).
  Proof using keqb_spec.
    intros d k v x. destruct (In_dec_key k (dkeys d)).
    - rewrite dkeys_dset_in; auto. intuition congruence.
    - rewrite dkeys_dset_new; auto. rewrite in_app_iff. simpl. intuition.
  Qed.

  Lemma dpop_keys_incl : forall (d : list (K * V)) k x,
    In x (dkeys (dpop keqb d k)) -> In x (dkeys d).
  Proof.
    induction d as [|[k0 v0] d IH]; intros k x H; simpl in *; auto.
    destruct (keqb k k0); simpl in *; auto. destruct H; auto. right. eauto.
  Qed.

  Lemma NoDup_dpop : forall (d : list (K * V)) k,
    NoDup (dkeys d) -> NoDup (dkeys (dpop keqb d k)).
  Proof.
    induction d as [|[k0 v0] d IH]; intros k H; simpl in *; auto.
    inversion H; subst. destruct (keqb k k0); simpl; auto.
    constructor; auto. intro. apply H2. eapply dpop_keys_incl; eauto.
  Qed.

  Lemma dget_dpop_eq : forall (d : list (K * V)) k,
    NoDup (dkeys d) -> dget keqb (dpop keqb d k) k = None.
  Proof using keqb_spec.
    induction d as [|[k0 v0] d IH]; intros k H; simpl in *; auto.
    inversion H; subst. destruct (keqb k k0) eqn:E; simpl.
    - apply keqb_spec in E. subst. apply dget_None_key. auto.
    - rewrite E. auto.
  Qed.

  Lemma dkeys_dpop : forall (d : list (K * V)) k x,
    NoDup (dkeys d) -> (In x (dkeys (dpop keqb d k)) <-> x <> k /\ In x (dkeys d)).
  Proof using keqb_spec.
    intros d k x ND. rewrite <- !dget_Some_key. split.
    - intro H. assert (x <> k).
      { intro; subst. rewrite dget_dpop_eq in H; auto. }
      rewrite dget_dpop_neq in H; auto.
    - intros [H1 H2]. rewrite dget_dpop_neq; auto.
  Qed.

  Lemma dmem_true : forall (d : list (K * V)) k, dmem keqb d k = true <-> In k (dkeys d).
  Proof using keqb_spec.
    intros. unfold dmem. rewrite <- dget_Some_key. destruct (dget keqb d k); split; congruence.
  Qed.
End DictFacts.

Lemma Neqb_spec : forall a b, Nat.eqb a b = true <-> a = b.
Proof. intros. apply Nat.eqb_eq. Qed.

(* ---------- membership ---------- *)
Lemma memb_In : forall x l, memb x l = true <-> In x l.
Proof.
  intros. unfold memb. rewrite existsb_exists. split.
  - intros [y [H1 H2]]. apply Nat.eqb_eq in H2. subst. auto.
  - intro. exists x. split; auto. apply Nat.eqb_refl.
Qed.

Lemma memb_false : forall x l, memb x l = false <-> ~ In x l.
Proof.
  intros. rewrite <- memb_In. destruct (memb x l); split; congruence.
Qed.

Lemma lremove_incl : forall x y l, In y (lremove x l) -> In y l.
Proof.
  induction l as [|a l IH]; simpl; auto. destruct (Nat.eqb x a); simpl; intuition.
Qed.

Lemma In_lremove : forall x y l, NoDup l -> (In y (lremove x l) <-> y <> x /\ In y l).
Proof.
  induction l as [|a l IH]; simpl; intros ND; [tauto|].
  inversion ND; subst. destruct (Nat.eqb_spec x a).
  - subst. split.
    + intro. split; auto. intro. subst. contradiction.
    + intros [H [?|?]]; subst; intuition.
  - simpl. rewrite IH; auto. intuition congruence.
Qed.

Lemma NoDup_lremove : forall x l, NoDup l -> NoDup (lremove x l).
Proof.
  induction l as [|a l IH]; simpl; auto. intro H. inversion H; subst.
  destruct (Nat.eqb x a); auto. constructor; auto.
  intro. apply H2. eapply lremove_incl; eauto.
Qed.

Lemma lremove_filter : forall x l, NoDup l ->
  lremove x l = filter (fun y => negb (Nat.eqb x y)) l.
Proof.
  induction l as [|a l IH]; simpl; auto. intro H. inversion H; subst.
  destruct (Nat.eqb_spec x a); simpl.
  - subst. clear IH H. induction l as [|b l IH]; simpl; auto.
    destruct (Nat.eqb_spec a b); simpl.
    + subst. exfalso. apply H2. left. auto.
    + f_equal. apply IH. intuition. inversion H3; auto.
  - f_equal. auto.
Qed.

Lemma py_set_In : forall x l, In x (py_set l) <-> In x l.
Proof. intros. apply nodup_In. Qed.

Lemma py_set_NoDup : forall l, NoDup (py_set l).
Proof. intros. apply NoDup_nodup. Qed.

Lemma NoDup_nodup_id : forall l, NoDup l -> py_set l = l.
Proof. intros. apply nodup_fixed_point. auto. Qed.

Lemma set_union_In : forall x s t, In x (set_union s t) <-> In x s \/ In x t.
Proof.
  intros. unfold set_union. rewrite in_app_iff, filter_In, py_set_In, negb_true_iff, memb_false.
  destruct (in_dec Nat.eq_dec x s); intuition.
Qed.

Lemma set_union_NoDup : forall s t, NoDup s -> NoDup (set_union s t).
Proof.
  intros s t H. unfold set_union.
  assert (G : forall l1 l2 : list nat, NoDup l1 -> NoDup l2 ->
            (forall x, In x l1 -> ~ In x l2) -> NoDup (l1 ++ l2)).
  { induction l1; simpl; intros; auto. inversion H0; subst. constructor.
    - rewrite in_app_iff. intros [?|?]; auto. eapply H2; eauto.
    - apply IHl1; auto. }
  apply G; auto.
  - apply NoDup_filter. apply py_set_NoDup.
  - intros x Hx Hf. apply filter_In in Hf. destruct Hf as [_ Hf].
    rewrite negb_true_iff, memb_false in Hf. contradiction.
Qed.

(* ---------- pairs ---------- *)
Lemma in_comb2_In : forall {A} (l : list A) x y, In (x, y) (comb2 l) -> In x l /\ In y l.
Proof.
  induction l as [|a l IH]; simpl; intros x y H; [tauto|].
  apply in_app_iff in H. destruct H as [H|H].
  - apply in_map_iff in H. destruct H as [z [E H]]. inversion E; subst. auto.
  - apply IH in H. tauto.
Qed.

Lemma in_comb2_neq : forall {A} (l : list A) x y, NoDup l -> In (x, y) (comb2 l) -> x <> y.
Proof.
  induction l as [|a l IH]; simpl; intros x y ND H; [tauto|].
  inversion ND; subst. apply in_app_iff in H. destruct H as [H|H].
  - apply in_map_iff in H. destruct H as [z [E H]]. inversion E; subst. congruence.
  - eauto.
Qed.

Lemma in_comb2_total : forall {A} (l : list A) x y,
  In x l -> In y l -> x <> y -> In (x, y) (comb2 l) \/ In (y, x) (comb2 l).
Proof.
  induction l as [|a l IH]; simpl; intros x y Hx Hy N; [tauto|].
  rewrite !in_app_iff, !in_map_iff.
  destruct Hx as [Hx|Hx], Hy as [Hy|Hy]; subst.
  - congruence.
  - left. left. eauto.
  - right. left. eauto.
  - destruct (IH x y Hx Hy N); auto.
Qed.

Lemma in_comb2_asym : forall {A} (l : list A) x y,
  NoDup l -> In (x, y) (comb2 l) -> ~ In (y, x) (comb2 l).
Proof.
  induction l as [|a l IH]; simpl; intros x y ND H; [tauto|].
  inversion ND; subst. rewrite in_app_iff, in_map_iff in *.
  intros [[z [E Hz]]|H'].
  - inversion E; subst. destruct H as [[z' [E' Hz']]|H].
    + inversion E'; subst. congruence.
    + apply in_comb2_In in H. tauto.
  - destruct H as [[z' [E' Hz']]|H].
    + inversion E'; subst. apply in_comb2_In in H'. tauto.
    + eapply IH; eauto.
Qed.

Lemma comb2_NoDup : forall {A} (l : list A), NoDup l -> NoDup (comb2 l).
Proof.
  assert (G : forall (A : Type) (l1 l2 : list A), NoDup l1 -> NoDup l2 ->
            (forall x, In x l1 -> ~ In x l2) -> NoDup (l1 ++ l2)).
  { intros A l1. induction l1; simpl; intros; auto. inversion H; subst. constructor.
    - rewrite in_app_iff. intros [?|?]; auto. eapply H1; eauto.
    - apply IHl1; auto. }
  induction l as [|a l IH]; simpl; intros ND; [constructor|].
  inversion ND; subst. apply G; auto.
  - apply FinFun.Injective_map_NoDup; auto. intros x y E. congruence.
  - intros [x y] H H'. apply in_map_iff in H. destruct H as [z [E H]].
    inversion E; subst. apply in_comb2_In in H'. tauto.
Qed.

Lemma comb2_length : forall {A} (l : list A),
  2 * length (comb2 l) = length l * (length l - 1).
Proof.
  induction l as [|a l IH]; simpl; auto.
  rewrite app_length, map_length. replace (length l - 0) with (length l) by lia.
  destruct l as [|b l']; simpl in *; auto. nia.
Qed.

Lemma in_perm2_from : forall {A} (l pre : list A) x y,
  NoDup (pre ++ l) ->
  (In (x, y) (perm2_from pre l) <-> In x l /\ In y (pre ++ l) /\ x <> y).
Proof.
  induction l as [|a l IH]; simpl; intros pre x y ND; [tauto|].
  rewrite in_app_iff, in_map_iff, IH by (rewrite <- app_assoc; auto).
  assert (Ha : ~ In a (pre ++ l)) by (apply NoDup_remove_2; auto).
  rewrite <- app_assoc. simpl. split.
  - intros [[z [E H]]|H].
    + inversion E; subst. split; auto. split.
      * rewrite in_app_iff in *. simpl. tauto.
      * intro. subst. contradiction.
    + tauto.
  - intros [[H1|H1] [H2 H3]]; subst.
    + left. exists y. split; auto. rewrite in_app_iff in *. simpl in H2. intuition congruence.
    + tauto.
Qed.

Lemma in_perm2 : forall {A} (l : list A) x y,
  NoDup l -> (In (x, y) (perm2 l) <-> In x l /\ In y l /\ x <> y).
Proof. intros. unfold perm2. rewrite in_perm2_from; simpl; tauto. Qed.

(* ---------- combinations ---------- *)
Lemma combinations_incl : forall {A} (l : list A) k c,
  In c (combinations l k) -> incl c l.
Proof.
  induction l as [|a l IH]; intros [|k] c H; simpl in H.
  - destruct H as [<-|[]]. intros x [].
  - tauto.
  - destruct H as [<-|[]]. intros x [].
  - apply in_app_iff in H. destruct H as [H|H].
    + apply in_map_iff in H. destruct H as [c' [<- H]]. apply IH in H.
      intros x [<-|Hx]; simpl; auto.
    + apply IH in H. intros x Hx. simpl. auto.
Qed.

Lemma combinations_length : forall {A} (l : list A) k c,
  In c (combinations l k) -> length c = k.
Proof.
  induction l as [|a l IH]; intros [|k] c H; simpl in H.
  - destruct H as [<-|[]]. auto.
  - tauto.
  - destruct H as [<-|[]]. auto.
  - apply in_app_iff in H. destruct H as [H|H].
    + apply in_map_iff in H. destruct H as [c' [<- H]]. simpl. f_equal. eauto.
    + eauto.
Qed.

Lemma combinations_NoDup : forall {A} (l : list A) k c,
  NoDup l -> In c (combinations l k) -> NoDup c.
Proof.
  induction l as [|a l IH]; intros [|k] c ND H; simpl in H.
  - destruct H as [<-|[]]. constructor.
  - tauto.
  - destruct H as [<-|[]]. constructor.
  - inversion ND; subst. apply in_app_iff in H. destruct H as [H|H].
    + apply in_map_iff in H. destruct H as [c' [<- H]]. constructor; eauto.
      intro. apply H2. eapply combinations_incl; eauto.
    + eauto.
Qed.

(** Every subset, given by its characteristic function, is listed. *)
Lemma combinations_filter : forall {A} (f : A -> bool) (l : list A),
  In (filter f l) (combinations l (length (filter f l))).
Proof.
  induction l as [|a l IH]; simpl; auto.
  destruct (f a); simpl.
  - apply in_app_iff. left. apply in_map. auto.
  - destruct (length (filter f l)) eqn:E.
    + left. destruct (filter f l); auto. discriminate.
    + apply in_app_iff. right. auto.
Qed.

Lemma combinations_subset : forall (l s : list nat),
  NoDup l -> incl s l ->
  exists c, In c (combinations l (length (py_set s))) /\ (forall x, In x c <-> In x s).
Proof.
  intros l s ND H. set (f := fun x => memb x s).
  assert (Hc : forall x, In x (filter f l) <-> In x s).
  { intro x. unfold f. rewrite filter_In, memb_In. split; [tauto|]. auto. }
  exists (filter f l). split; auto.
  replace (length (py_set s)) with (length (filter f l)).
  - apply combinations_filter.
  - apply Permutation_length. apply NoDup_Permutation.
    + apply NoDup_filter. auto.
    + apply py_set_NoDup.
    + intro x. rewrite py_set_In. auto.
Qed.

Lemma filter_len : forall {A} (f : A -> bool) l, length (filter f l) <= length l.
Proof. induction l as [|a l IH]; simpl; auto. destruct (f a); simpl; lia. Qed.
