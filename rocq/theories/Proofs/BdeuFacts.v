(** The BDeu score of the code. *)

From Coq Require Import List Arith Lia Bool ZArith Permutation Reals Lra.
From Verif Require Import Model.Py Model.LocalScore.
Import ListNotations.
Open Scope nat_scope.

(* ---------- sums over lists of any kind ---------- *)
Lemma rs_ext : forall {A} (l : list A) f g, (forall a, In a l -> f a = g a) -> rsum (map f l) = rsum (map g l).
Proof. intros A l f g H. f_equal. apply map_ext_in. auto. Qed.
Lemma rs_perm : forall {A} (l l' : list A) f, Permutation l l' -> rsum (map f l) = rsum (map f l').
Proof. intros A l l' f P. induction P; simpl; auto; lra. Qed.
Lemma rs_plus : forall {A} (l : list A) f g, rsum (map (fun a => f a + g a)%R l) = (rsum (map f l) + rsum (map g l))%R.
Proof. intros A l f g. induction l; simpl; lra. Qed.
Lemma rs_app : forall l l', rsum (l ++ l') = (rsum l + rsum l')%R.
Proof. induction l; intros; simpl; [lra|]. rewrite IHl. lra. Qed.
Lemma rs_flat : forall {A B} (l : list A) (h : A -> list B) (g : A -> B -> R),
  rsum (map (fun a => rsum (map (g a) (h a))) l) = rsum (map (fun ab => g (fst ab) (snd ab)) (flat_map (fun a => map (pair a) (h a)) l)).
Proof.
  intros A B l h g. induction l as [|a l IH]; simpl; auto. rewrite IH, map_app, rs_app, map_map. auto.
Qed.

Lemma keq_p : forall a b, keq a b = true <-> a = b.
Proof. intros. unfold keq. destruct (list_eq_dec Z.eq_dec a b); split; auto; discriminate. Qed.

Lemma filter_filter' : forall {A} (p q : A -> bool) l, filter p (filter q l) = filter (fun a => q a && p a) l.
Proof. intros A p q l. induction l as [|a l IH]; simpl; auto. destruct (q a); simpl; [destruct (p a); rewrite IH; auto|auto]. Qed.

(* ---------- groups depend on the partition only ---------- *)
Section Partition.
  Context {A K K' : Type}.
  Variable Kd : forall a b : K, {a = b} + {a <> b}.
  Variable Kd' : forall a b : K', {a = b} + {a <> b}.
  Variables (f : A -> K) (f' : A -> K').

  Lemma representatives : forall D : list A, (forall r r', In r D -> In r' D -> (f r = f r' <-> f' r = f' r')) ->
    exists reps, incl reps D /\ nodup Kd (map f D) = map f reps /\ nodup Kd' (map f' D) = map f' reps.
  Proof using.
    induction D as [|d D IH]; intro H; [exists []; repeat split; intros x []|].
    destruct IH as [reps [I [E1 E2]]]; [intros; apply H; right; auto|]. simpl.
    destruct (in_dec Kd (f d) (map f D)) as [i|i], (in_dec Kd' (f' d) (map f' D)) as [i'|i'].
    - exists reps. split; auto. intros x Hx. right. auto.
    - exfalso. apply i'. apply in_map_iff in i. destruct i as [r [Er Hr]]. apply in_map_iff. exists r. split; auto.
      apply H; simpl; auto.
    - exfalso. apply i. apply in_map_iff in i'. destruct i' as [r [Er Hr]]. apply in_map_iff. exists r. split; auto.
      apply H; simpl; auto.
    - exists (d :: reps). split; [intros x [<-|Hx]; [left; auto|right; auto]|]. simpl. rewrite E1, E2. auto.
  Qed.
End Partition.

Section Data.
  Variable data : list (list Z).

  Lemma config_eq : forall P r r0, config P r = config P r0 <-> forall p, In p P -> cell r p = cell r0 p.
  Proof using.
    induction P as [|p P IH]; intros r r0; simpl; [split; auto; intros _ p []|]. split.
    - intro H. injection H as H1 H2. pose proof (proj1 (IH r r0) H2) as H3. intros q [<-|Hq]; auto.
    - intro H. rewrite (H p) by auto. f_equal. apply IH. auto.
  Qed.

  (** A sum over groups is a function of the set of grouping columns. *)
  Lemma groups_sum : forall P P' (Phi : list (list Z) -> R), (forall p, In p P <-> In p P') ->
    rsum (map (fun k => Phi (group data P k)) (group_keys data P)) = rsum (map (fun k => Phi (group data P' k)) (group_keys data P')).
  Proof using.
    intros P P' Phi E.
    assert (forall r r', config P r = config P r' <-> config P' r = config P' r') as H.
    { intros. rewrite !config_eq. split; intros Q p Hp; apply Q, E; auto. }
    destruct (representatives (list_eq_dec Z.eq_dec) (list_eq_dec Z.eq_dec) (config P) (config P') data (fun r r' _ _ => H r r')) as [reps [I [E1 E2]]].
    unfold group_keys. rewrite E1, E2, !map_map. apply rs_ext. intros r Hr. f_equal. unfold group. apply filter_ext.
    intro a. apply eq_true_iff_eq. rewrite !keq_p. apply H.
  Qed.

  Lemma group_cons : forall P x v k, group data (x :: P) (v :: k) = filter (fun row => Z.eqb (cell row x) v) (group data P k).
  Proof using.
    intros. unfold group. rewrite filter_filter'. apply filter_ext. intro a. apply eq_true_iff_eq.
    rewrite andb_true_iff, !keq_p, Z.eqb_eq. simpl. split; [intro H; injection H; auto|]. intros [-> ->]. auto.
  Qed.

  Lemma keys_in : forall P k, In k (group_keys data P) <-> exists r, In r data /\ config P r = k.
  Proof using. intros. unfold group_keys. rewrite nodup_In, in_map_iff. split; intros [r [H1 H2]]; exists r; auto. Qed.

  Lemma NoDup_pairs : forall {B} (l : list (list Z)) (h : list Z -> list B), NoDup l -> (forall a, NoDup (h a)) -> NoDup (flat_map (fun a => map (pair a) (h a)) l).
  Proof using.
    intros B l h ND H. induction l as [|a l IH]; simpl; [constructor|]. inversion ND; subst.
    assert (forall l1 l2 : list (list Z * B), NoDup l1 -> NoDup l2 -> (forall x, In x l1 -> ~ In x l2) -> NoDup (l1 ++ l2)) as AP.
    { induction l1 as [|x l1 IHl]; intros l2 N1 N2 D; simpl; auto. inversion N1; subst. constructor.
      - rewrite in_app_iff. intros [Q|Q]; auto. apply (D x); auto. left; auto.
      - apply IHl; auto. intros z Hz. apply D. right. auto. }
    apply AP; auto.
    - apply FinFun.Injective_map_NoDup; auto. intros b c Q. congruence.
    - intros [a' b] Q1 Q2. apply in_map_iff in Q1. destruct Q1 as [c [Q1 _]]. inversion Q1; subst.
      apply in_flat_map in Q2. destruct Q2 as [a2 [Ha2 Q2]]. apply in_map_iff in Q2. destruct Q2 as [c2 [Q2 _]]. inversion Q2; subst. contradiction.
  Qed.

  (** The groups of [x :: P] are the groups of [P], each split by column [x]. *)
  Lemma keys_cons : forall P x,
    Permutation (map (fun kv => snd kv :: fst kv) (flat_map (fun k => map (pair k) (group_values (group data P k) x)) (group_keys data P)))
                (group_keys data (x :: P)).
  Proof using.
    intros P x. apply NoDup_Permutation.
    - apply FinFun.Injective_map_NoDup.
      + intros [k v] [k' v'] Q. simpl in Q. congruence.
      + apply NoDup_pairs; [apply NoDup_nodup|]. intro k. apply NoDup_nodup.
    - apply NoDup_nodup.
    - intro key. rewrite keys_in, in_map_iff. split.
      + intros [[k v] [E H]]. apply in_flat_map in H. destruct H as [k' [Hk H]]. apply in_map_iff in H. destruct H as [v' [Q H]]. inversion Q; subst.
        unfold group_values in H. apply nodup_In, in_map_iff in H. destruct H as [r [Ev Hr]]. unfold group in Hr. apply filter_In in Hr.
        destruct Hr as [Hr Q2]. apply keq_p in Q2. exists r. split; auto. simpl. congruence.
      + intros [r [Hr E]]. exists (config P r, cell r x). split; [auto|]. apply in_flat_map. exists (config P r). split; [apply keys_in; eauto|].
        apply in_map. apply nodup_In, in_map_iff. exists r. split; auto. unfold group. apply filter_In. split; auto. apply keq_p. auto.
  Qed.

  Lemma split_sum : forall P x (Phi : list (list Z) -> R),
    rsum (map (fun k => rsum (map (fun v => Phi (filter (fun row => Z.eqb (cell row x) v) (group data P k))) (group_values (group data P k) x))) (group_keys data P))
    = rsum (map (fun k => Phi (group data (x :: P) k)) (group_keys data (x :: P))).
  Proof using.
    intros P x Phi. rewrite <- (rs_perm _ _ _ (keys_cons P x)). rewrite map_map.
    rewrite (rs_flat (group_keys data P) (fun k => group_values (group data P k) x) (fun k v => Phi (filter (fun row => Z.eqb (cell row x) v) (group data P k)))).
    apply rs_ext. intros [k v] _. cbn [fst snd]. rewrite group_cons. auto.
  Qed.

  Lemma q_cons : forall P x, q_i data (x :: P) = r_i_map data x * q_i data P.
  Proof using.
    intros P x. unfold q_i. simpl.
    assert (forall l a, fold_left (fun q pa => q * r_i_map data pa) l a = a * fold_left (fun q pa => q * r_i_map data pa) l 1) as H.
    { induction l as [|b l IH]; intro a; simpl; [lia|]. rewrite (IH (a * _)), (IH (r_i_map data b + 0)). lia. }
    rewrite H. lia.
  Qed.
  Lemma q_perm : forall P P', Permutation P P' -> q_i data P = q_i data P'.
  Proof using.
    intros P P' Pm. induction Pm; auto; rewrite ?q_cons; try lia.
  Qed.

  Section Score.
    Variable lgamma : R -> R.
    Variable a : R.
    Notation LT := (likelihood_term lgamma data a).

    Lemma lt_set : forall i P P', NoDup P -> NoDup P' -> (forall p, In p P <-> In p P') -> LT i P = LT i P'.
    Proof using.
      intros i P P' N N' E. unfold likelihood_term. rewrite (q_perm P P') by (apply NoDup_Permutation; auto).
      apply (groups_sum P P' (fun rows => lgamma (a / INR (q_i data P')) - lgamma (INR (length rows) + a / INR (q_i data P')) +
        rsum (map (fun v => lgamma (INR (group_count rows i v) + a / (INR (r_i_map data i) * INR (q_i data P'))) - lgamma (a / (INR (r_i_map data i) * INR (q_i data P')))) (group_values rows i)))%R E).
    Qed.

    Definition outer (P : list nat) : R :=
      rsum (map (fun k => lgamma (a / INR (q_i data P)) - lgamma (INR (length (group data P k)) + a / INR (q_i data P)))%R (group_keys data P)).
    Definition leaf (c : R) (rows : list (list Z)) : R := (lgamma (INR (length rows) + a / c) - lgamma (a / c))%R.
    Definition leaves (P : list nat) (c : R) : R := rsum (map (fun k => leaf c (group data P k)) (group_keys data P)).

    Lemma lt_split : forall i P, LT i P = (outer P + leaves (i :: P) (INR (r_i_map data i) * INR (q_i data P)))%R.
    Proof using.
      intros i P. unfold likelihood_term, leaves. rewrite <- split_sum. unfold outer. rewrite <- rs_plus. apply rs_ext. intros k Hk. auto.
    Qed.
    Lemma outer_leaves : forall P, (outer P + leaves P (INR (q_i data P)) = 0)%R.
    Proof using.
      intro P. unfold outer, leaves, leaf. rewrite <- rs_plus. induction (group_keys data P); simpl; lra.
    Qed.
    Lemma pair_sum : forall x y P, (LT x P + LT y (x :: P) = outer P + leaves (y :: x :: P) (INR (r_i_map data y) * (INR (r_i_map data x) * INR (q_i data P))))%R.
    Proof using.
      intros x y P. rewrite !lt_split. pose proof (outer_leaves (x :: P)) as Q. rewrite q_cons, mult_INR in *. lra.
    Qed.
    Theorem lt_turn : forall x y P, (LT x P + LT y (x :: P) = LT y P + LT x (y :: P))%R.
    Proof using.
      intros x y P. rewrite !pair_sum. f_equal. unfold leaves.
      replace (INR (r_i_map data y) * (INR (r_i_map data x) * INR (q_i data P)))%R with (INR (r_i_map data x) * (INR (r_i_map data y) * INR (q_i data P)))%R by ring.
      apply (groups_sum (y :: x :: P) (x :: y :: P) (leaf (INR (r_i_map data x) * (INR (r_i_map data y) * INR (q_i data P))))%R).
      intro p. simpl. tauto.
    Qed.
  End Score.
End Data.
