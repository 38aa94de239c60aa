(** Lemmas for the tables of SHP. *)

From Coq Require Import List Arith Bool ZArith QArith Qcanon Reals Qreals Lra Lia Permutation Sorted.
From Verif Require Import Model.Py Model.Graph Model.SHPTable Spec.EventSpec Proofs.PyFacts Proofs.NumpyFacts.
Import ListNotations.
Open Scope nat_scope.

(* ---------- order of keys ---------- *)
Definition klt (a b : key) : Prop :=
  let '(s, t, y) := a in let '(s', t', y') := b in
  s < s' \/ s = s' /\ ((t < t')%Qc \/ t = t' /\ y < y').

Lemma key_compare_spec : forall a b, CompareSpec (a = b) (klt a b) (klt b a) (key_compare a b).
Proof.
  intros [[s t] y] [[s' t'] y']. unfold key_compare, klt.
  destruct (Nat.compare_spec s s') as [->|H|H]; try (constructor; auto; fail).
  destruct (Qccompare t t') eqn:E.
  - apply Qceq_alt in E. subst t'. destruct (Nat.compare_spec y y') as [->|H|H]; constructor; auto.
  - apply Qclt_alt in E. constructor. auto.
  - apply Qcgt_alt in E. constructor. auto.
Qed.
Lemma klt_irrefl : forall a, ~ klt a a.
Proof. intros [[s t] y] H. unfold klt in H. destruct H as [H|[_ [H|[_ H]]]]; [lia|exact (Qclt_not_eq _ _ H eq_refl)|lia]. Qed.
Lemma klt_trans : forall a b c, klt a b -> klt b c -> klt a c.
Proof.
  intros [[s t] y] [[s' t'] y'] [[s2 t2] y2]. unfold klt. intros [A|[-> [A|[-> A]]]] [B|[B1 [B|[B2 B]]]]; subst; try (left; lia); right; split; auto.
  - left. eapply Qclt_trans; eauto.
  - right. split; auto. lia.
Qed.

(* ---------- strictly sorted lists ---------- *)
Section Sorting.
  Context {A : Type}.
  Variable lt : A -> A -> Prop.
  Hypothesis irrefl : forall a, ~ lt a a.
  Hypothesis trans : forall a b c, lt a b -> lt b c -> lt a c.

  Lemma sorted_unique : forall l l', StronglySorted lt l -> StronglySorted lt l' -> (forall x, In x l <-> In x l') -> l = l'.
  Proof using irrefl trans.
    induction l as [|a l IH]; intros l' S S' E.
    - destruct l' as [|b l']; auto. exfalso. apply (E b). simpl. auto.
    - destruct l' as [|b l']; [exfalso; apply (proj1 (E a)); simpl; auto|].
      inversion_clear S as [|? ? S1 F1]. inversion_clear S' as [|? ? S2 F2]. rewrite Forall_forall in F1, F2.
      assert (a = b) as <-.
      { destruct (proj1 (E a) (or_introl eq_refl)) as [->|Ha]; auto. destruct (proj2 (E b) (or_introl eq_refl)) as [->|Hb]; auto.
        exfalso. apply (irrefl a). eapply trans; [apply F1, Hb|apply F2, Ha]. }
      f_equal. apply IH; auto. intro x. split; intro H.
      + destruct (proj1 (E x) (or_intror H)) as [<-|]; auto. exfalso. apply (irrefl a). auto.
      + destruct (proj2 (E x) (or_intror H)) as [<-|]; auto. exfalso. apply (irrefl a). auto.
  Qed.
  Lemma sorted_nodup : forall l, StronglySorted lt l -> NoDup l.
  Proof using irrefl.
    induction 1 as [|a l S IH F]; constructor; auto. intro H. rewrite Forall_forall in F. apply (irrefl a). auto.
  Qed.
  Lemma sorted_snoc : forall l x, StronglySorted lt (l ++ [x]) <-> StronglySorted lt l /\ forall a, In a l -> lt a x.
  Proof using.
    induction l as [|a l IH]; intro x; simpl.
    - split; [intros _; split; [constructor|intros ? []]|intros _; repeat constructor].
    - split.
      + intro S. inversion_clear S as [|? ? S1 F]. apply IH in S1. destruct S1 as [S1 H]. rewrite Forall_forall in F. split.
        * constructor; auto. apply Forall_forall. intros b Hb. apply F. apply in_or_app. auto.
        * intros b [<-|Hb]; auto. apply F. apply in_or_app. simpl. auto.
      + intros [S H]. inversion_clear S as [|? ? S1 F]. constructor; [apply IH; auto|]. rewrite Forall_forall in *.
        intros b Hb. apply in_app_or in Hb. destruct Hb as [Hb|[<-|[]]]; auto.
  Qed.
End Sorting.

Lemma sorted_map : forall A B (f : A -> B) (lt : A -> A -> Prop) (lt' : B -> B -> Prop) l, StronglySorted lt l ->
  (forall a b, In a l -> In b l -> lt a b -> lt' (f a) (f b)) -> StronglySorted lt' (map f l).
Proof.
  intros A B f lt lt' l S. induction S as [|a l S IH F]; intro H; simpl; constructor.
  - apply IH. intros. apply H; simpl; auto.
  - apply Forall_forall. intros b Hb. apply in_map_iff in Hb. destruct Hb as [c [<- Hc]]. rewrite Forall_forall in F. apply H; simpl; auto.
Qed.

(* ---------- groupby ---------- *)
Lemma count_in_spec : forall k l, StronglySorted klt (map fst l) ->
  StronglySorted klt (map fst (count_in k l)) /\ (forall k', In k' (map fst (count_in k l)) <-> k' = k \/ In k' (map fst l)).
Proof.
  induction l as [|[k0 c] l IH]; intro S; cbn [count_in map fst] in *.
  - split; [repeat constructor|]. simpl. intuition.
  - inversion_clear S as [|? ? S1 F]. destruct (IH S1) as [I1 I2]. destruct (key_compare_spec k k0) as [->|L|L]; cbn [map fst].
    + split; [constructor; auto|]. intro k'. simpl. intuition.
    + split; [constructor; [constructor; auto|]|simpl; intuition]. constructor; auto. rewrite Forall_forall in *. intros x Hx. eapply klt_trans; eauto.
    + split.
      * constructor; auto. apply Forall_forall. intros x Hx. apply I2 in Hx. destruct Hx as [->|Hx]; auto. rewrite Forall_forall in F. auto.
      * intro k'. simpl. rewrite I2. intuition.
Qed.
Lemma groupby_spec : forall ks, StronglySorted klt (map fst (groupby_count ks)) /\ forall k, In k (map fst (groupby_count ks)) <-> In k ks.
Proof.
  induction ks as [|k ks [S I]]; [split; [constructor|simpl; tauto]|]. cbn [groupby_count fold_right]. fold (groupby_count ks).
  destruct (count_in_spec k _ S) as [S' I']. split; auto. intro k'. rewrite I', I. simpl. intuition.
Qed.

Lemma total_app : forall A (l l' : list A) f, total (l ++ l') f = (total l f + total l' f)%R.
Proof. induction l as [|a l IH]; intros l' f; unfold total in *; simpl; [ring|]. rewrite IH. ring. Qed.
Lemma total_ext : forall A (l : list A) f g, (forall a, In a l -> f a = g a) -> total l f = total l g.
Proof. induction l as [|a l IH]; intros f g H; simpl; auto. rewrite (H a), (IH f g); simpl; auto. intros. apply H. simpl. auto. Qed.
Lemma total_map : forall A B (h : A -> B) l f, total (map h l) f = total l (fun a => f (h a)).
Proof. induction l as [|a l IH]; intro f; simpl; auto. rewrite IH. auto. Qed.
Lemma total_zero : forall A (l : list A) f, (forall a, In a l -> f a = 0%R) -> total l f = 0%R.
Proof. intros A l f H. rewrite (total_ext _ _ f (fun _ => 0%R)) by auto. clear H. induction l; simpl; auto. rewrite IHl. ring. Qed.
Lemma total_how_many : forall A (P : A -> bool) l, total l (fun a => if P a then 1 else 0)%R = INR (how_many P l).
Proof.
  intros A P l. unfold how_many. induction l as [|a l IH]; [reflexivity|]. cbn [total fold_right filter]. fold (total l (fun a => if P a then 1 else 0)%R). rewrite IH.
  destruct (P a); [cbn [List.length]; rewrite S_INR; ring|ring].
Qed.
Lemma total_perm : forall A (l l' : list A) f, Permutation l l' -> total l f = total l' f.
Proof. intros A l l' f P. induction P; simpl; auto; [rewrite IHP; auto|ring|congruence]. Qed.

(** Summing over the groups is summing over the rows. *)
Lemma groupby_total : forall ks F, total (groupby_count ks) (fun kc => INR (snd kc) * F (fst kc))%R = total ks F.
Proof.
  assert (forall F k l, total (count_in k l) (fun kc => INR (snd kc) * F (fst kc))%R = (F k + total l (fun kc => INR (snd kc) * F (fst kc)))%R) as K.
  { intros F k. induction l as [|[k0 c] l IH]; [simpl; ring|]. cbn [count_in]. destruct (key_compare_spec k k0) as [->|_|_].
    - cbn [total fold_right fst snd]. rewrite S_INR. ring.
    - cbn [total fold_right fst snd]. simpl (INR 1). ring.
    - cbn [total fold_right fst snd] in *. fold (total (count_in k l) (fun kc => INR (snd kc) * F (fst kc))%R). rewrite IH. unfold total. ring. }
  intros ks F. induction ks as [|k ks IH]; [reflexivity|]. cbn [groupby_count fold_right]. fold (groupby_count ks). rewrite K, IH. reflexivity.
Qed.

(** The groups are determined by the rows. *)
Definition kc_eqb (a b : key) : bool := let '(s, t, y) := a in let '(s', t', y') := b in Nat.eqb s s' && same t t' && Nat.eqb y y'.
Lemma kc_eqb_spec : forall a b, kc_eqb a b = true <-> a = b.
Proof.
  intros [[s t] y] [[s' t'] y']. unfold kc_eqb, same. rewrite !andb_true_iff, !Nat.eqb_eq. destruct (Qc_eq_dec t t'); split.
  - intros [[-> _] ->]. congruence.
  - intro H. inversion H. auto.
  - intros [[_ H] _]. discriminate.
  - intro H. inversion H. contradiction.
Qed.
Lemma groupby_count_of : forall ks k c, In (k, c) (groupby_count ks) -> c = how_many (kc_eqb k) ks.
Proof.
  intros ks k c H. apply INR_eq. rewrite <- total_how_many, <- (groupby_total ks (fun a => if kc_eqb k a then 1 else 0)%R).
  destruct (groupby_spec ks) as [S _]. apply sorted_nodup in S; [|exact klt_irrefl].
  revert S H. generalize (groupby_count ks). induction l as [|[k0 c0] l IH]; intros S []; cbn [total fold_right fst snd map] in *; inversion_clear S as [|? ? N S'].
  - inversion H; subst. rewrite (proj2 (kc_eqb_spec k k) eq_refl). rewrite Rmult_1_r. symmetry.
    fold (total l (fun kc => INR (snd kc) * (if kc_eqb k (fst kc) then 1 else 0))%R). rewrite total_zero; [ring|].
    intros [k1 c1] H1. cbn [fst snd]. destruct (kc_eqb k k1) eqn:E; [|ring]. apply kc_eqb_spec in E. subst k1. exfalso. apply N. apply (in_map fst) in H1. auto.
  - rewrite (IH S' H). unfold total. destruct (kc_eqb k k0) eqn:E; [|ring]. apply kc_eqb_spec in E. subst k0. exfalso. apply N. apply (in_map fst) in H. auto.
Qed.
Lemma groupby_unique : forall ks l, StronglySorted klt (map fst l) -> (forall k, In k (map fst l) <-> In k ks) ->
  (forall k c, In (k, c) l -> c = how_many (kc_eqb k) ks) -> l = groupby_count ks.
Proof.
  intros ks l S I C. destruct (groupby_spec ks) as [S' I'].
  assert (map fst l = map fst (groupby_count ks)) as E.
  { apply (sorted_unique klt klt_irrefl klt_trans); auto. intro k. rewrite I, I'. tauto. }
  pose proof (groupby_count_of ks) as C'. clear I I' S S'. revert E C C'. generalize (groupby_count ks). revert l.
  induction l as [|[k c] l IH]; intros [|[k' c'] l'] E C C'; try discriminate; auto. cbn [map fst] in E. inversion E; subst k'.
  f_equal; [f_equal; rewrite (C k c), (C' k c') by (simpl; auto); auto|]. apply IH; auto; intros; [apply C|apply C']; simpl; auto.
Qed.
Lemma how_many_perm : forall A (P : A -> bool) l l', Permutation l l' -> how_many P l = how_many P l'.
Proof. intros. apply INR_eq. rewrite <- !total_how_many. apply total_perm. auto. Qed.
Lemma groupby_perm : forall ks ks', Permutation ks ks' -> groupby_count ks = groupby_count ks'.
Proof.
  intros ks ks' P. destruct (groupby_spec ks) as [S I]. apply groupby_unique; auto.
  - intro k. rewrite I. split; apply Permutation_in; auto. apply Permutation_sym. auto.
  - intros k c H. rewrite <- (how_many_perm _ _ _ _ P). apply groupby_count_of. auto.
Qed.
(** A renaming of the keys that keeps their order. *)
Lemma groupby_map : forall f ks, (forall a b, In a ks -> In b ks -> klt a b -> klt (f a) (f b)) ->
  groupby_count (map f ks) = map (fun kc => (f (fst kc), snd kc)) (groupby_count ks).
Proof.
  intros f ks Hf. symmetry. destruct (groupby_spec ks) as [S I].
  assert (forall a b, In a ks -> In b ks -> f a = f b -> a = b) as Inj.
  { intros a b Ha Hb E. destruct (key_compare_spec a b) as [|L|L]; auto; exfalso; apply Hf in L; auto; rewrite E in L; exact (klt_irrefl _ L). }
  assert (map fst (map (fun kc => (f (fst kc), snd kc)) (groupby_count ks)) = map f (map fst (groupby_count ks))) as EM by (rewrite !map_map; apply map_ext; auto).
  apply groupby_unique.
  - rewrite EM. apply (sorted_map _ _ f klt); auto. intros a b Ha Hb. apply Hf; apply I; auto.
  - intro k. rewrite EM, !in_map_iff. split; intros [x [<- Hx]]; exists x; split; auto; apply I; auto.
  - intros k c H. apply in_map_iff in H. destruct H as [[k0 c0] [E H]]. cbn [fst snd] in E. inversion E; subst k c.
    rewrite (groupby_count_of ks k0 c0 H). assert (In k0 ks) as H0 by (apply I; apply (in_map fst) in H; auto). clear - Inj H0.
    unfold how_many. assert (forall l, incl l ks -> List.length (filter (kc_eqb k0) l) = List.length (filter (kc_eqb (f k0)) (map f l))) as K; [|apply K, incl_refl].
    induction l as [|a l IH]; intro Q; auto. cbn [filter map]. assert (kc_eqb k0 a = kc_eqb (f k0) (f a)) as <-.
    { destruct (kc_eqb k0 a) eqn:E1; destruct (kc_eqb (f k0) (f a)) eqn:E2; auto; exfalso.
      - apply kc_eqb_spec in E1. subst a. rewrite (proj2 (kc_eqb_spec _ _) eq_refl) in E2. discriminate.
      - apply kc_eqb_spec in E2. apply Inj in E2; auto; [|apply Q; simpl; auto]. subst a. rewrite (proj2 (kc_eqb_spec _ _) eq_refl) in E1. discriminate. }
    assert (List.length (filter (kc_eqb k0) l) = List.length (filter (kc_eqb (f k0)) (map f l))) as E3 by (apply IH; intros x Hx; apply Q; simpl; auto).
    destruct (kc_eqb k0 a); simpl; auto.
Qed.

(* ---------- unique and codes ---------- *)
Lemma into_sorted_spec : forall x l, StronglySorted lt l ->
  StronglySorted lt (into_sorted x l) /\ (forall y, In y (into_sorted x l) <-> y = x \/ In y l).
Proof.
  induction l as [|a l IH]; intro S; cbn [into_sorted].
  - split; [repeat constructor|]. simpl. intuition.
  - pose proof S as S0. inversion_clear S as [|? ? S1 F]. destruct (IH S1) as [I1 I2]. destruct (Nat.compare_spec x a) as [->|L|L].
    + split; auto. simpl. intuition.
    + split; [|simpl; intuition]. constructor; auto. constructor; auto. rewrite Forall_forall in *. intros y Hy. apply F in Hy. lia.
    + split.
      * constructor; auto. apply Forall_forall. intros y Hy. apply I2 in Hy. destruct Hy as [->|Hy]; auto. rewrite Forall_forall in F. auto.
      * intro y. simpl. rewrite I2. intuition.
Qed.
Lemma unique_spec : forall l, StronglySorted lt (unique l) /\ forall y, In y (unique l) <-> In y l.
Proof.
  induction l as [|x l [S I]]; [split; [constructor|simpl; tauto]|]. cbn [unique fold_right]. fold (unique l).
  destruct (into_sorted_spec x _ S) as [S' I']. split; auto. intro y. rewrite I', I. simpl. intuition.
Qed.
Lemma unique_same : forall l l', (forall y, In y l <-> In y l') -> unique l = unique l'.
Proof.
  intros l l' H. destruct (unique_spec l) as [S I]. destruct (unique_spec l') as [S' I'].
  apply (sorted_unique lt Nat.lt_irrefl Nat.lt_trans); auto. intro y. rewrite I, I'. auto.
Qed.
Lemma code_nth : forall names x d, In x names -> nth (code names x) names d = x /\ code names x < length names.
Proof.
  induction names as [|a l IH]; intros x d []; cbn [code].
  - subst a. rewrite Nat.eqb_refl. simpl. split; auto. lia.
  - destruct (Nat.eqb_spec x a); [subst; simpl; split; auto; lia|]. simpl. destruct (IH x d H). split; auto. lia.
Qed.
Lemma code_eqb : forall names x j d, NoDup names -> In x names -> j < length names -> Nat.eqb (code names x) j = Nat.eqb x (nth j names d).
Proof.
  intros names x j d N H L. destruct (code_nth names x d H) as [E B]. apply Bool.eq_iff_eq_true. rewrite !Nat.eqb_eq. split.
  - intros <-. auto.
  - intro Q. rewrite Q in E. apply (proj1 (NoDup_nth names d) N); auto. rewrite Q. auto.
Qed.
Lemma code_mono : forall names x y, StronglySorted lt names -> In x names -> In y names -> x < y -> code names x < code names y.
Proof.
  induction names as [|a l IH]; intros x y S Hx Hy L; [destruct Hx|]. inversion_clear S as [|? ? S1 F]. rewrite Forall_forall in F. cbn [code].
  destruct (Nat.eqb_spec x a); destruct (Nat.eqb_spec y a); subst; try lia.
  - exfalso. destruct Hx as [->|Hx]; [lia|]. apply F in Hx. lia.
  - destruct Hx as [->|Hx]; [lia|]. destruct Hy as [->|Hy]; [lia|]. assert (code l x < code l y); [apply IH; auto|lia].
Qed.

(* ---------- first and last ---------- *)
Lemma qc_max_spec : forall l, l <> [] -> In (qc_max l) l /\ forall x, In x l -> (x <= qc_max l)%Qc.
Proof.
  intros [|a l] H; [contradiction|]. clear H. unfold qc_max. revert a. induction l as [|b l IH]; intro a; cbn [fold_left].
  - split; [simpl; auto|]. intros x [->|[]]. apply Qcle_refl.
  - destruct (Qclt_le_dec a b) as [L|L]; destruct (IH (if Qclt_le_dec a b then b else a)) as [I M].
    + destruct (Qclt_le_dec a b) as [_|Q]; [|exfalso; apply (Qcle_not_lt _ _ Q); auto]. destruct (IH b) as [I' M']. split; [simpl; auto|].
      intros x [<-|Hx]; auto. apply Qcle_trans with b; [apply Qclt_le_weak; auto|apply M'; simpl; auto].
    + destruct (IH a) as [I' M']. split; [destruct I' as [E|]; simpl; auto|]. intros x [<-|[<-|Hx]].
      * apply M'. simpl. auto.
      * apply Qcle_trans with a; auto. apply M'. simpl. auto.
      * apply M'. simpl. auto.
Qed.
Lemma qc_min_spec : forall l, l <> [] -> In (qc_min l) l /\ forall x, In x l -> (qc_min l <= x)%Qc.
Proof.
  intros [|a l] H; [contradiction|]. clear H. unfold qc_min. revert a. induction l as [|b l IH]; intro a; cbn [fold_left].
  - split; [simpl; auto|]. intros x [->|[]]. apply Qcle_refl.
  - destruct (Qclt_le_dec b a) as [L|L].
    + destruct (IH b) as [I' M']. split; [simpl; auto|].
      intros x [<-|Hx]; auto. apply Qcle_trans with b; [apply M'; simpl; auto|apply Qclt_le_weak; auto].
    + destruct (IH a) as [I' M']. split; [destruct I' as [E|]; simpl; auto|]. intros x [<-|[<-|Hx]].
      * apply M'. simpl. auto.
      * apply Qcle_trans with a; auto. apply M'. simpl. auto.
      * apply M'. simpl. auto.
Qed.
Lemma qc_max_is : forall l m, In m l -> (forall x, In x l -> (x <= m)%Qc) -> qc_max l = m.
Proof.
  intros l m I M. assert (l <> []) as N by (intros ->; destruct I). destruct (qc_max_spec l N) as [I' M']. apply Qcle_antisym; auto.
Qed.
Lemma qc_min_is : forall l m, In m l -> (forall x, In x l -> (m <= x)%Qc) -> qc_min l = m.
Proof.
  intros l m I M. assert (l <> []) as N by (intros ->; destruct I). destruct (qc_min_spec l N) as [I' M']. apply Qcle_antisym; auto.
Qed.

(* ---------- the table ---------- *)
Definition stamp_of (time_interval : option Qc) (e : event) : Qc := match time_interval with None => ev_time e | Some dt => binned dt (ev_time e) end.
Definition key_of (stamp : event -> Qc) (e : event) : key := (ev_seq e, stamp e, ev_type e).
Definition row_of (f g : nat -> Qc) (names : list nat) (kc : key * nat) : trow :=
  let '((s, t, y), c) := kc in Row s (t - f s)%Qc y c (code names y) (g s - f s)%Qc.
Definition table_of (evs : list event) (stamp : event -> Qc) (f g : nat -> Qc) : list trow :=
  map (row_of f g (unique (map ev_type evs))) (groupby_count (map (key_of stamp) evs)).

Lemma times_of_map : forall get s (h : key * nat -> trow) l, (forall kc, r_seq (h kc) = fst (fst (fst kc))) ->
  forall x, In x (times_of get s (map h l)) <-> exists kc, In kc l /\ fst (fst (fst kc)) = s /\ x = get (h kc).
Proof.
  intros get s h l H x. unfold times_of. rewrite in_map_iff. split.
  - intros [r [<- Hr]]. apply filter_In in Hr. destruct Hr as [Hr E]. apply in_map_iff in Hr. destruct Hr as [kc [<- Hk]]. apply Nat.eqb_eq in E. rewrite H in E. eauto.
  - intros [kc [Hk [E ->]]]. exists (h kc). split; auto. apply filter_In. split; [apply in_map; auto|]. rewrite H, E. apply Nat.eqb_refl.
Qed.
Lemma groupby_in : forall ks k, In k ks -> exists c, In (k, c) (groupby_count ks).
Proof.
  intros ks k H. destruct (groupby_spec ks) as [_ I]. apply I in H. apply in_map_iff in H. destruct H as [[k' c] [E H]]. simpl in E. subst k'. eauto.
Qed.
Lemma groupby_out : forall ks k c, In (k, c) (groupby_count ks) -> In k ks.
Proof. intros ks k c H. destruct (groupby_spec ks) as [_ I]. apply I. apply (in_map fst) in H. auto. Qed.

Section Table.
  Variable evs : list event.
  Variable grid : option Qc.
  Variable f g : nat -> Qc.
  Let stamp := stamp_of grid.
  Hypothesis first : forall s, occurs evs s -> first_time evs stamp s (f s).
  Hypothesis last : forall s, occurs evs s -> last_time evs stamp s (g s).
  Let counted := groupby_count (map (key_of stamp) evs).

  Lemma counted_occurs : forall s t y c, In ((s, t, y), c) counted -> exists e, In e evs /\ ev_seq e = s /\ stamp e = t /\ ev_type e = y.
  Proof using.
    intros s t y c H. apply groupby_out, in_map_iff in H. destruct H as [e [E H]]. unfold key_of in E. inversion E; subst. eauto.
  Qed.
  Lemma occurs_counted : forall e, In e evs -> exists c, In ((ev_seq e, stamp e, ev_type e), c) counted.
  Proof using. intros e H. apply groupby_in. change (In (key_of stamp e) (map (key_of stamp) evs)). apply in_map. auto. Qed.

  Lemma names_of : snd (get_event_table grid evs) = unique (map ev_type evs).
  Proof using.
    unfold get_event_table. cbn [snd]. apply unique_same. intro y. rewrite !in_map_iff. split.
    - intros [[[[s t] y'] c] [E H]]. simpl in E. subst y'. apply counted_occurs in H. destruct H as [e [H [_ [_ E]]]]. eauto.
    - intros [e [<- H]]. destruct (occurs_counted e H) as [c H']. exists ((ev_seq e, stamp e, ev_type e), c). auto.
  Qed.

  Lemma table_is : start_at_zero (fst (get_event_table grid evs)) = table_of evs stamp f g.
  Proof using first last.
    pose proof names_of as NM. unfold get_event_table in *. cbn [fst snd] in *. fold (stamp_of grid) in *.
    change (map (fun e => (ev_seq e, stamp_of grid e, ev_type e)) evs) with (map (key_of stamp) evs) in *. fold counted in NM |- *. rewrite NM.
    set (names := unique (map ev_type evs)).
    set (h0 := fun kc : key * nat => let '((s, t, y), c) := kc in Row s t y c (code names y) 0%Qc).
    assert (forall s, occurs evs s -> qc_max (times_of r_time s (map h0 counted)) = g s) as MX.
    { intros s O. destruct (last s O) as [[e [He [Es Et]]] M]. apply qc_max_is.
      - apply times_of_map; [intros [[[? ?] ?] ?]; auto|]. destruct (occurs_counted e He) as [c Hc]. exists ((ev_seq e, stamp e, ev_type e), c). simpl. auto.
      - intros x Hx. apply times_of_map in Hx; [|intros [[[? ?] ?] ?]; auto]. destruct Hx as [[[[s' t] y] c] [Hk [E ->]]]. simpl in *. subst s'.
        apply counted_occurs in Hk. destruct Hk as [e' [He' [E1 [E2 _]]]]. subst t. apply M; auto. }
    set (h1 := fun kc : key * nat => let '((s, t, y), c) := kc in Row s t y c (code names y) (g s)).
    assert (map (fun r => Row (r_seq r) (r_time r) (r_type r) (r_times r) (r_ind r) (qc_max (times_of r_time (r_seq r) (map h0 counted)))) (map h0 counted) = map h1 counted) as E1.
    { rewrite map_map. apply map_ext_in. intros [[[s t] y] c] H. simpl. f_equal. apply MX. apply counted_occurs in H. destruct H as [e [H [E _]]]. exists e. auto. }
    etransitivity; [apply f_equal; exact E1|]. unfold start_at_zero, table_of. fold counted. rewrite map_map. apply map_ext_in. intros [[[s t] y] c] H. simpl.
    assert (occurs evs s) as O by (apply counted_occurs in H; destruct H as [e [H [E _]]]; exists e; auto).
    assert (qc_min (times_of r_time s (map h1 counted)) = f s) as ->; auto.
    destruct (first s O) as [[e [He [Es Et]]] M]. apply qc_min_is.
    - apply times_of_map; [intros [[[? ?] ?] ?]; auto|]. destruct (occurs_counted e He) as [c' Hc]. exists ((ev_seq e, stamp e, ev_type e), c'). simpl. auto.
    - intros x Hx. apply times_of_map in Hx; [|intros [[[? ?] ?] ?]; auto]. destruct Hx as [[[[s' t'] y'] c'] [Hk [E ->]]]. simpl in *. subst s'.
      apply counted_occurs in Hk. destruct Hk as [e' [He' [E3 [E2 _]]]]. subst t'. apply M; auto.
  Qed.

  Lemma T_each_is : forall s, occurs evs s -> T_each_seq (table_of evs stamp f g) s = (g s - f s)%Qc.
  Proof using last.
    intros s O. unfold T_each_seq, table_of. fold counted. destruct (last s O) as [[e [He [Es Et]]] M]. apply qc_max_is.
    - apply times_of_map; [intros [[[? ?] ?] ?]; auto|]. destruct (occurs_counted e He) as [c Hc]. exists ((ev_seq e, stamp e, ev_type e), c). split; [exact Hc|]. simpl. rewrite Es, Et. auto.
    - intros x Hx. apply times_of_map in Hx; [|intros [[[? ?] ?] ?]; auto]. destruct Hx as [[[[s' t] y] c] [Hk [E ->]]]. simpl in *. subst s'.
      apply counted_occurs in Hk. destruct Hk as [e' [He' [E1 [E2 _]]]]. subst t. unfold Qcminus. apply Qcplus_le_compat; [apply M; auto|apply Qcle_refl].
  Qed.
  Lemma seqs_is : unique (map r_seq (table_of evs stamp f g)) = unique (map ev_seq evs).
  Proof using.
    apply unique_same. intro s. unfold table_of. fold counted. rewrite !in_map_iff. split.
    - intros [r [<- H]]. apply in_map_iff in H. destruct H as [[[[s' t] y] c] [<- H]]. apply counted_occurs in H. destruct H as [e [H [E _]]]. exists e. auto.
    - intros [e [<- H]]. destruct (occurs_counted e H) as [c Hc]. eexists. split; [|apply in_map; exact Hc]. reflexivity.
  Qed.

  Definition rkey (r : trow) : key := (r_seq r, r_time r, r_ind r).
  Lemma Qcminus_lt : forall a b c : Qc, (a < b)%Qc -> (a - c < b - c)%Qc.
  Proof using. clear. intros a b c H. apply Qclt_minus_iff in H. apply Qclt_minus_iff. replace (b - c + - (a - c))%Qc with (b + - a)%Qc by ring. auto. Qed.
  Lemma table_sorted : StronglySorted klt (map rkey (table_of evs stamp f g)).
  Proof using.
    unfold table_of. fold counted. rewrite map_map. destruct (groupby_spec (map (key_of stamp) evs)) as [S I]. fold counted in S, I.
    destruct (unique_spec (map ev_type evs)) as [SU IU].
    replace (map (fun x => rkey (row_of f g (unique (map ev_type evs)) x)) counted)
      with (map (fun k : key => let '(s, t, y) := k in (s, t - f s, code (unique (map ev_type evs)) y)%Qc) (map fst counted))
      by (rewrite map_map; apply map_ext; intros [[[s t] y] c]; auto).
    assert (forall k, In k (map fst counted) -> In (snd k) (unique (map ev_type evs))) as T.
    { intros k Hk. apply I, in_map_iff in Hk. destruct Hk as [e [<- He]]. apply IU. simpl. apply in_map. auto. }
    apply (sorted_map _ _ _ klt klt); auto. intros [[s t] y] [[s' t'] y'] Ha Hb. apply T in Ha, Hb. simpl in *.
    intros [L|[-> [L|[-> L]]]]; auto.
    - right. split; auto. left. apply Qcminus_lt. auto.
    - right. split; auto. right. split; auto. apply code_mono; auto.
  Qed.
  Lemma table_inds : forall r, In r (table_of evs stamp f g) -> r_ind r < length (unique (map ev_type evs)).
  Proof using.
    intros r H. apply in_map_iff in H. destruct H as [[[[s t] y] c] [<- H]]. simpl. apply (code_nth _ _ 0). apply unique_spec.
    apply counted_occurs in H. destruct H as [e [H [_ [_ E]]]]. apply in_map_iff. eauto.
  Qed.
  Lemma table_total : forall (F : nat * Qc -> R) j, j < length (unique (map ev_type evs)) ->
    total (table_of evs stamp f g) (fun r => if Nat.eqb (r_ind r) j then INR (r_times r) * F (r_seq r, r_time r) else 0)%R
    = total evs (fun e => if Nat.eqb (ev_type e) (nth j (unique (map ev_type evs)) O) then F (ev_seq e, stamp e - f (ev_seq e))%Qc else 0)%R.
  Proof using.
    intros F j L. set (names := unique (map ev_type evs)). destruct (unique_spec (map ev_type evs)) as [SU IU]. fold names in SU, IU.
    pose proof (sorted_nodup lt Nat.lt_irrefl _ SU) as ND.
    set (G := fun k : key => let '(s, t, y) := k in (if Nat.eqb y (nth j names O) then F (s, t - f s)%Qc else 0)%R).
    transitivity (total counted (fun kc => INR (snd kc) * G (fst kc))%R).
    - unfold table_of. fold counted names. rewrite total_map. apply total_ext. intros [[[s t] y] c] H. simpl.
      rewrite (code_eqb names y j 0); auto.
      + destruct (y =? nth j names 0); auto. ring.
      + apply IU. apply counted_occurs in H. destruct H as [e [H [_ [_ E]]]]. apply in_map_iff. eauto.
    - unfold counted. rewrite groupby_total, total_map. apply total_ext. intros e He. reflexivity.
  Qed.
End Table.

(* ---------- the rows of X ---------- *)
Lemma at_eqb_spec : forall a b, at_eqb a b = true <-> a = b.
Proof.
  intros [s t] [s' t']. unfold at_eqb. simpl. rewrite andb_true_iff, Nat.eqb_eq. destruct (Qc_eq_dec t t'); split.
  - intros [-> _]. congruence.
  - intro H. inversion H. auto.
  - intros [_ H]. discriminate.
  - intro H. inversion H. contradiction.
Qed.
Lemma earlier_irrefl : forall a, ~ earlier a a.
Proof. intros [s t] [H|[_ H]]; simpl in H; [lia|exact (Qclt_not_eq _ _ H eq_refl)]. Qed.
Lemma earlier_trans : forall a b c, earlier a b -> earlier b c -> earlier a c.
Proof.
  intros [s t] [s' t'] [s2 t2]. unfold earlier. simpl. intros [A|[-> A]] [B|[B1 B]]; subst; try (left; lia). right. split; auto. eapply Qclt_trans; eauto.
Qed.
Lemma dset_absent : forall (X : list ((nat * Qc) * list nat)) k v, ~ In k (map fst X) -> dset at_eqb X k v = X ++ [(k, v)].
Proof.
  induction X as [|[k' v'] X IH]; intros k v H; auto. cbn [dset app map fst] in *. destruct (at_eqb k k') eqn:E.
  - apply at_eqb_spec in E. subst k'. exfalso. apply H. simpl. auto.
  - rewrite IH; auto. intro Q. apply H. simpl. auto.
Qed.
Lemma dset_keys : forall (X : list ((nat * Qc) * list nat)) k v, In k (map fst X) -> map fst (dset at_eqb X k v) = map fst X.
Proof.
  induction X as [|[k' v'] X IH]; intros k v H; [destruct H|]. cbn [dset map fst] in *. destruct (at_eqb k k') eqn:E; cbn [map fst]; auto.
  f_equal. apply IH. destruct H as [->|]; auto. rewrite (proj2 (at_eqb_spec k k) eq_refl) in E. discriminate.
Qed.
Lemma dset_in : forall (X : list ((nat * Qc) * list nat)) k v a, In a (dset at_eqb X k v) -> a = (k, v) \/ In a X.
Proof.
  induction X as [|[k' v'] X IH]; intros k v a H; cbn [dset] in H; [destruct H as [<-|[]]; auto|]. destruct (at_eqb k k') eqn:E.
  - apply at_eqb_spec in E. subst k'. destruct H as [<-|H]; simpl; auto.
  - destruct H as [<-|H]; simpl; auto. apply IH in H. destruct H; auto.
Qed.
Lemma dset_total : forall (X : list ((nat * Qc) * list nat)) k v v' G, dget at_eqb X k = Some v ->
  total (dset at_eqb X k v') G = (total X G - G (k, v) + G (k, v'))%R.
Proof.
  induction X as [|[k0 v0] X IH]; intros k v v' G H; cbn [dget dset] in *; [discriminate|]. destruct (at_eqb k k0) eqn:E.
  - apply at_eqb_spec in E. subst k0. inversion H; subst. unfold total. simpl. ring.
  - unfold total in *. simpl. rewrite (IH k v v' G H). ring.
Qed.
Lemma total_at : forall (X : list ((nat * Qc) * list nat)) k row (G : list nat -> R), NoDup (map fst X) -> In (k, row) X ->
  total X (fun kr => if at_eqb k (fst kr) then G (snd kr) else 0)%R = G row.
Proof.
  induction X as [|[k0 v0] X IH]; intros k row G N []; cbn [map fst] in N; inversion_clear N as [|? ? NI N'].
  - inversion H; subst. unfold total. cbn [fold_right fst snd]. rewrite (proj2 (at_eqb_spec k k) eq_refl).
    fold (total X (fun kr => if at_eqb k (fst kr) then G (snd kr) else 0)%R). rewrite total_zero; [ring|]. intros [k1 v1] H1. cbn [fst snd].
    destruct (at_eqb k k1) eqn:E; auto. apply at_eqb_spec in E. subst k1. exfalso. apply NI. apply (in_map fst) in H1. auto.
  - unfold total in *. cbn [fold_right fst snd]. rewrite (IH k row G N' H). destruct (at_eqb k k0) eqn:E; [|ring]. apply at_eqb_spec in E. subst k0.
    exfalso. apply NI. apply (in_map fst) in H. auto.
Qed.

Definition rat (r : trow) : nat * Qc := (r_seq r, r_time r).
Lemma X_rows_spec : forall n l, StronglySorted klt (map rkey l) -> (forall r, In r l -> r_ind r < n) ->
  let X := X_rows n l in
  StronglySorted earlier (map fst X)
  /\ (forall k, In k (map fst X) <-> In k (map rat l))
  /\ (forall k row, In (k, row) X -> length row = n)
  /\ (forall (F : nat * Qc -> R) j, total X (fun kr => INR (nth j (snd kr) 0%nat) * F (fst kr))%R
       = total l (fun r => if Nat.eqb (r_ind r) j then INR (r_times r) * F (rat r) else 0)%R).
Proof.
  intros n l. induction l as [|r l IH] using rev_ind; intros S B.
  - cbn. split; [constructor|]. split; [tauto|]. split; [intros ? ? []|auto].
  - rewrite map_app in S. cbn [map] in S. apply sorted_snoc in S. destruct S as [S L].
    specialize (IH S (fun r' H => B r' (in_or_app _ _ _ (or_introl H)))). unfold X_rows in *. rewrite fold_left_app. cbn [fold_left].
    set (X := fold_left _ l []) in *. clearbody X. cbn zeta in *. destruct IH as [IS [IK [IL IT]]].
    assert (r_ind r < n) as Br by (apply B, in_or_app; simpl; auto). fold (rat r).
    assert (forall k, In k (map fst X) -> k = rat r \/ earlier k (rat r)) as Lst.
    { intros k Hk. apply IK, in_map_iff in Hk. destruct Hk as [r' [<- Hr]]. specialize (L (rkey r') (in_map rkey _ _ Hr)). unfold rkey, klt in L. unfold rat, earlier. simpl.
      destruct L as [L|[-> [L|[-> L]]]]; auto. }
    destruct (dget at_eqb X (rat r)) as [row|] eqn:D.
    + rewrite D. assert (In (rat r, row) X) as HX by (apply (dget_In at_eqb at_eqb_spec); auto).
      assert (In (rat r) (map fst X)) as HK by (apply (in_map fst) in HX; auto).
      assert (NoDup (map fst X)) as ND by (apply (sorted_nodup earlier earlier_irrefl); auto).
      assert (nth (r_ind r) row 0 = 0) as Z.
      { apply INR_eq. change (INR 0) with 0%R. rewrite <- (total_at X (rat r) row (fun row => INR (nth (r_ind r) row 0)) ND HX).
        etransitivity; [|etransitivity; [apply (IT (fun k => if at_eqb (rat r) k then 1 else 0)%R (r_ind r))|]].
        - apply total_ext. intros [k1 v1] _. simpl. destruct (at_eqb (rat r) k1); ring.
        - apply total_zero. intros r' Hr. destruct (Nat.eqb_spec (r_ind r') (r_ind r)) as [E|]; auto. destruct (at_eqb (rat r) (rat r')) eqn:E2; [|ring].
          exfalso. apply at_eqb_spec in E2. apply (klt_irrefl (rkey r)). assert (rkey r = rkey r') as -> by (unfold rkey, rat in *; inversion E2; congruence).
          replace (rkey r') with (rkey r) at 2 by (unfold rkey, rat in *; inversion E2; congruence). apply L. apply in_map. auto. }
      split; [rewrite dset_keys; auto|]. split; [|split].
      * intro k. rewrite dset_keys by auto. rewrite IK, map_app, in_app_iff. simpl. split; auto. intros [|[<-|[]]]; auto. apply IK. auto.
      * intros k row' H. apply dset_in in H. destruct H as [H|H]; [inversion H; subst; rewrite set_nth_length|]; eauto.
      * intros F j. rewrite (dset_total X (rat r) row _ _ D). cbn [fst snd]. rewrite nth_set_nth by (rewrite (IL _ _ HX); auto).
        rewrite IT, total_app. unfold total at 3. cbn [fold_right]. destruct (Nat.eqb_spec (r_ind r) j) as [<-|]; [rewrite Z; simpl; ring|ring].
    + assert (~ In (rat r) (map fst X)) as NI by (apply (dget_None_key at_eqb at_eqb_spec); auto).
      rewrite (dget_dset_eq at_eqb at_eqb_spec). rewrite (dset_absent X) by auto.
      assert (dset at_eqb (X ++ [(rat r, repeat 0 n)]) (rat r) (set_nth (r_ind r) (r_times r) (repeat 0 n)) = X ++ [(rat r, set_nth (r_ind r) (r_times r) (repeat 0 n))]) as ->.
      { clear - NI. induction X as [|[k0 v0] X IH]; cbn [app dset map fst] in *; [rewrite (proj2 (at_eqb_spec _ _) eq_refl); auto|].
        destruct (at_eqb (rat r) k0) eqn:E; [apply at_eqb_spec in E; subst k0; exfalso; apply NI; simpl; auto|]. rewrite IH; auto. intro. apply NI. simpl. auto. }
      rewrite map_app. cbn [map fst]. split; [|split; [|split]].
      * apply sorted_snoc. split; auto. intros k Hk. destruct (Lst k Hk) as [->|]; auto. contradiction.
      * intro k. rewrite map_app, !in_app_iff, IK. simpl. tauto.
      * intros k row H. apply in_app_or in H. destruct H as [H|[H|[]]]; eauto. inversion H. rewrite set_nth_length. apply repeat_length.
      * intros F j. rewrite !total_app, IT. f_equal. unfold total. cbn [fold_right fst snd]. rewrite nth_set_nth by (rewrite repeat_length; auto).
        destruct (r_ind r =? j); auto. rewrite nth_repeat. simpl. ring.
Qed.

(* ---------- times as reals ---------- *)
Lemma q2r_plus : forall a b : Qc, Q2R (a + b)%Qc = (Q2R a + Q2R b)%R.
Proof. intros a b. rewrite <- Q2R_plus. apply Qeq_eqR. apply Qred_correct. Qed.
Lemma q2r_mult : forall a b : Qc, Q2R (a * b)%Qc = (Q2R a * Q2R b)%R.
Proof. intros a b. rewrite <- Q2R_mult. apply Qeq_eqR. apply Qred_correct. Qed.
Lemma q2r_opp : forall a : Qc, Q2R (- a)%Qc = (- Q2R a)%R.
Proof. intros a. rewrite <- Q2R_opp. apply Qeq_eqR. apply Qred_correct. Qed.
Lemma q2r_minus : forall a b : Qc, Q2R (a - b)%Qc = (Q2R a - Q2R b)%R.
Proof. intros a b. unfold Qcminus. rewrite q2r_plus, q2r_opp. ring. Qed.
Lemma q2r_int : forall k, Q2R (Q2Qc (inject_Z k)) = IZR k.
Proof. intro k. transitivity (Q2R (inject_Z k)); [apply Qeq_eqR; apply Qred_correct|]. unfold Q2R, inject_Z. simpl. field. Qed.
Lemma q2r_le : forall a b : Qc, (a <= b)%Qc <-> (Q2R a <= Q2R b)%R.
Proof. intros. split; [apply Qle_Rle|apply Rle_Qle]. Qed.
Lemma q2r_lt : forall a b : Qc, (a < b)%Qc <-> (Q2R a < Q2R b)%R.
Proof. intros. split; [apply Qlt_Rlt|apply Rlt_Qlt]. Qed.
Lemma q2r_inj : forall a b : Qc, Q2R a = Q2R b -> a = b.
Proof. intros a b H. apply Qc_is_canon. apply eqR_Qeq. auto. Qed.
Lemma q2r_0 : Q2R 0%Qc = 0%R.
Proof. unfold Q2R. simpl. field. Qed.

Lemma truncated_spec : forall q : Qc, (0 <= Q2R q -> IZR (truncated q) <= Q2R q < IZR (truncated q) + 1)%R
  /\ (Q2R q <= 0 -> IZR (truncated q) - 1 < Q2R q <= IZR (truncated q))%R.
Proof.
  intro q. unfold truncated, Q2R. set (n := Qnum q). set (d := Qden q). clearbody n d.
  assert (0 < IZR (Z.pos d))%R as D by (apply IZR_lt; lia).
  pose proof (Z.quot_rem' n (Z.pos d)) as E. set (k := (n ÷ Z.pos d)%Z) in *. set (m := Z.rem n (Z.pos d)) in *.
  assert (IZR n * / IZR (Z.pos d) = IZR k + IZR m * / IZR (Z.pos d))%R as V.
  { rewrite E at 1. rewrite plus_IZR, mult_IZR. field. lra. }
  assert (forall x : R, (x = x * / IZR (Z.pos d) * IZR (Z.pos d))%R) as Q by (intro; field; lra).
  split; intro H.
  - assert (0 <= n)%Z as Hn by (apply le_IZR; rewrite (Q (IZR n)); apply Rmult_le_pos; lra).
    assert (0 <= m < Z.pos d)%Z as [M1 M2] by (apply Z.rem_bound_pos; lia). apply IZR_le in M1. apply IZR_lt in M2. rewrite V.
    assert (0 <= IZR m * / IZR (Z.pos d) < 1)%R; [|lra]. split; [apply Rmult_le_pos; [lra|left; apply Rinv_0_lt_compat; auto]|].
    apply Rmult_lt_reg_r with (IZR (Z.pos d)); auto. rewrite <- Q. lra.
  - assert (n <= 0)%Z as Hn.
    { apply le_IZR. rewrite (Q (IZR n)). assert (0 <= - (IZR n * / IZR (Z.pos d)) * IZR (Z.pos d))%R by (apply Rmult_le_pos; lra). lra. }
    assert (- Z.pos d < m <= 0)%Z as [M1 M2] by (pose proof (Z.rem_bound_pos (- n) (Z.pos d)) as W; rewrite Z.rem_opp_l' in W; fold m in W; lia). apply IZR_lt in M1. apply IZR_le in M2. rewrite opp_IZR in M1. rewrite V.
    assert (-1 < IZR m * / IZR (Z.pos d) <= 0)%R; [|lra]. split.
    + apply Rmult_lt_reg_r with (IZR (Z.pos d)); auto. rewrite <- Q. lra.
    + assert (0 <= - IZR m * / IZR (Z.pos d))%R by (apply Rmult_le_pos; [lra|left; apply Rinv_0_lt_compat; auto]). lra.
Qed.

Lemma binned_on_grid : forall d t, (0 < d)%Qc -> on_grid d t (binned d t).
Proof.
  intros d t D. assert (d <> 0%Qc) as N by (intros ->; exact (Qclt_not_eq _ _ D eq_refl)). unfold on_grid, binned.
  assert (Q2R t = Q2R (t / d)%Qc * Q2R d)%R as E by (rewrite <- q2r_mult; f_equal; f_equal; field; auto).
  destruct (truncated_spec (t / d)) as [P M]. set (k := truncated (t / d)) in *. set (q := Q2R (t / d)%Qc) in *. rewrite q2r_lt, q2r_0 in D.
  split; [exists k; reflexivity|]. rewrite !q2r_le, !q2r_lt, q2r_plus, q2r_minus, q2r_mult, q2r_int, q2r_0, E. clearbody k q. split; intro H.
  - assert (0 <= q)%R as Hq by nra. destruct (P Hq). split; nra.
  - assert (q <= 0)%R as Hq by nra. destruct (M Hq). split; nra.
Qed.
Lemma on_grid_unique : forall d t b b', (0 < d)%Qc -> on_grid d t b -> on_grid d t b' -> b = b'.
Proof.
  intros d t b b' D [[k ->] [P M]] [[k' ->] [P' M']]. rewrite q2r_lt, q2r_0 in D.
  rewrite !q2r_le, !q2r_lt, q2r_plus, q2r_minus, q2r_mult, q2r_int, q2r_0 in *. f_equal. f_equal. f_equal.
  set (x := Q2R t) in *. set (w := Q2R d) in *. clearbody x w.
  assert (forall i i' : Z, (IZR i * w < IZR i' * w + w)%R -> (i <= i')%Z) as K.
  { intros i i' H. assert (IZR i < IZR i' + 1)%R as L by (apply Rmult_lt_reg_r with w; auto; lra). rewrite <- plus_IZR in L. apply lt_IZR in L. lia. }
  destruct (Rle_dec 0 x) as [H|H].
  - destruct (P H), (P' H). apply Z.le_antisymm; apply K; lra.
  - assert (x <= 0)%R as H' by lra. destruct (M H'), (M' H'). apply Z.le_antisymm; apply K; lra.
Qed.
Lemma stamped_of : forall grid t, (forall d, grid = Some d -> (0 < d)%Qc) -> forall y s, stamped grid t (stamp_of grid (Ev s t y)).
Proof. intros [d|] t H y s; simpl; auto. apply binned_on_grid. auto. Qed.
Lemma stamped_unique : forall grid t b b', (forall d, grid = Some d -> (0 < d)%Qc) -> stamped grid t b -> stamped grid t b' -> b = b'.
Proof. intros [d|] t b b' H; simpl; [apply on_grid_unique; auto|congruence]. Qed.

(* ---------- influence ---------- *)
Definition reach (decay : R) (k k' : nat * Qc) : R := if Nat.eqb (fst k) (fst k') then felt decay (snd k') (snd k) else 0%R.

Lemma influence_nth : forall decay s t idx, StronglySorted earlier idx -> (forall k, In k idx -> k = (s, t) \/ earlier (s, t) k) ->
  forall m d, m < length idx -> nth m (influence decay s t idx) 0%R = reach decay (s, t) (nth m idx d).
Proof.
  intros decay s t. induction idx as [|[s0 t0] r IH]; intros S B m d L; [simpl in L; lia|].
  inversion_clear S as [|? ? S1 F]. rewrite Forall_forall in F. cbn [influence].
  assert (forall k, In k r -> earlier (s0, t0) k) as F' by auto. pose proof (B _ (or_introl eq_refl)) as B0.
  destruct (Nat.eqb_spec s0 s) as [->|N].
  - assert (t <= t0)%Qc as Lt by (destruct B0 as [E|[E|[_ E]]]; [inversion E; apply Qcle_refl|simpl in E; lia|apply Qclt_le_weak; auto]).
    assert (kappa decay (Qc2R t0 - Qc2R t) = exp (- (decay * (Q2R t0 - Q2R t))))%R as EK by (unfold kappa, Qc2R; f_equal; ring). rewrite EK.
    destruct (Rlt_dec (exp (- (decay * (Q2R t0 - Q2R t)))) (1 / 10000)) as [K|K].
    + assert (nth m (@nil R) 0%R = 0%R) as -> by (destruct m; auto). symmetry. unfold reach. cbn [fst].
      destruct (Nat.eqb_spec s (fst (nth m ((s, t0) :: r) d))) as [E|]; auto. unfold felt. cbn [snd].
      destruct (Qclt_le_dec (snd (nth m ((s, t0) :: r) d)) t); auto.
      match goal with |- (if ?x then _ else _) = _ => destruct x as [|NK]; [reflexivity|] end. exfalso. apply NK.
      destruct m as [|m]; [exact K|]. simpl in *. assert (In (nth m r d) r) as Hm by (apply nth_In; lia). apply F' in Hm.
      destruct Hm as [Hm|[_ Hm]]; [simpl in Hm; lia|]. simpl in Hm. apply q2r_lt in Hm. apply q2r_le in Lt.
      assert (0 < decay)%R as D.
      { destruct (Rlt_dec 0 decay); auto. exfalso. assert (0 <= - (decay * (Q2R t0 - Q2R t)))%R as X by (assert (0 <= (- decay) * (Q2R t0 - Q2R t))%R by (apply Rmult_le_pos; lra); lra).
        assert (1 <= exp (- (decay * (Q2R t0 - Q2R t))))%R by (rewrite <- exp_0; destruct X as [X|X]; [left; apply exp_increasing; auto|rewrite <- X; lra]). lra. }
      eapply Rlt_trans; [|exact K]. apply exp_increasing. assert (decay * (Q2R t0 - Q2R t) < decay * (Q2R (snd (nth m r d)) - Q2R t))%R by (apply Rmult_lt_compat_l; lra). lra.
    + destruct m as [|m]; cbn [nth].
      * unfold reach, felt. cbn [fst snd]. rewrite Nat.eqb_refl. destruct (Qclt_le_dec t0 t) as [Q|_]; [exfalso; apply (Qcle_not_lt _ _ Lt); auto|].
        destruct (Rlt_dec (exp (- (decay * (Q2R t0 - Q2R t)))) (1 / 10000)); [contradiction|auto].
      * apply IH; auto; [|simpl in L; lia]. intros k Hk. apply B. simpl. auto.
  - assert (nth m (@nil R) 0%R = 0%R) as -> by (destruct m; auto). unfold reach. cbn [fst].
    assert (s < s0) as L0 by (destruct B0 as [E|[E|[E _]]]; simpl in *; [inversion E; congruence|auto|congruence]).
    destruct (Nat.eqb_spec s (fst (nth m ((s0, t0) :: r) d))) as [E|]; auto. exfalso. destruct m as [|m]; simpl in *; [congruence|].
    assert (In (nth m r d) r) as Hm by (apply nth_In; lia). apply F' in Hm. destruct Hm as [Hm|[Hm _]]; simpl in Hm; lia.
Qed.

Lemma total_seq : forall A (X : list A) (H : A -> R), total (seq 0 (length X)) (fun i => match nth_error X i with Some a => H a | None => 0%R end) = total X H.
Proof.
  induction X as [|a X IH]; intro H; auto. cbn [length seq]. rewrite <- seq_shift. unfold total at 1. cbn [fold_right nth_error].
  fold (total (map S (seq 0 (length X))) (fun i => match nth_error (a :: X) i with Some a => H a | None => 0%R end)). rewrite total_map. cbn [nth_error].
  rewrite IH. reflexivity.
Qed.
Lemma sum_is : forall decay X, StronglySorted earlier (map fst X) -> forall r j d, r < length X ->
  sum_t_X_kappa decay X r j = total X (fun kr => INR (nth j (snd kr) 0%nat) * reach decay (fst kr) (nth r (map fst X) d))%R.
Proof.
  intros decay X S r j d L. unfold sum_t_X_kappa.
  assert (forall is M, fold_left (fun (M : nat -> nat -> R) ind =>
      match nth_error X ind with
      | None => M
      | Some ((s, t), row) => let f := influence decay s t (map fst (skipn ind X)) in
          fun r j => (M r j + (if Nat.leb ind r then INR (nth j row O) * nth (r - ind) f 0 else 0))%R
      end) is M r j
    = (M r j + total is (fun ind => match nth_error X ind with None => 0 | Some ((s, t), row) =>
         if Nat.leb ind r then INR (nth j row O) * nth (r - ind) (influence decay s t (map fst (skipn ind X))) 0 else 0 end))%R) as K.
  { induction is as [|i is IH]; intro M; [simpl; ring|]. cbn [fold_left]. rewrite IH. unfold total. cbn [fold_right].
    destruct (nth_error X i) as [[[s t] row]|]; cbn zeta; ring. }
  rewrite K. clear K. rewrite Rplus_0_l. etransitivity; [|apply total_seq]. apply total_ext. intros i Hi. apply in_seq in Hi.
  destruct (nth_error X i) as [[[s t] row]|] eqn:E; auto. cbn [fst snd].
  assert (nth i (map fst X) d = (s, t)) as Ei by (apply nth_error_nth; rewrite nth_error_map, E; auto).
  assert (forall a b, a < b < length X -> earlier (nth a (map fst X) d) (nth b (map fst X) d)) as Ord.
  { clear - S. intros a b H. rewrite <- (map_length fst X) in H. revert a b H. generalize (map fst X) S. clear. intros l S. induction S as [|k l S IH F]; intros a b H; simpl in H; [lia|].
    destruct b as [|b]; [lia|]. destruct a as [|a]; cbn [nth]; [|apply IH; lia]. rewrite Forall_forall in F. apply F. apply nth_In. lia. }
  destruct (Nat.leb_spec i r) as [H|H].
  - f_equal. rewrite <- skipn_map.
    assert (forall A (l : list A) i m d, nth m (skipn i l) d = nth (i + m) l d) as NS.
    { clear. intros A. induction l as [|a l IH]; intros [|i] m d; auto; [simpl; destruct m; auto|]. cbn [skipn plus nth]. apply IH. }
    replace (nth r (map fst X) d) with (nth (r - i) (skipn i (map fst X)) d) by (rewrite NS; f_equal; lia).
    apply influence_nth.
    + clear - S. revert i. induction S as [|k l S IH F]; intros [|i]; cbn [skipn]; try constructor; auto.
    + intros k Hk. apply (In_nth _ _ d) in Hk. destruct Hk as [m [Hm <-]]. rewrite NS. rewrite skipn_length, map_length in Hm. destruct m as [|m].
      * left. rewrite Nat.add_0_r. auto.
      * right. rewrite <- Ei. apply Ord. lia.
    + rewrite skipn_length, map_length. lia.
  - symmetry. rewrite <- Ei. unfold reach. destruct (Ord r i) as [Q|[Q1 Q2]]; [lia| |].
    + rewrite (proj2 (Nat.eqb_neq _ _)) by lia. ring.
    + rewrite Q1, Nat.eqb_refl. unfold felt. destruct (Qclt_le_dec (snd (nth r (map fst X) d)) (snd (nth i (map fst X) d))) as [_|Q]; [ring|].
      exfalso. apply (Qcle_not_lt _ _ Q). auto.
Qed.

Lemma accumulated_is : forall decay a b, decay <> 0%R -> accumulated decay a b ((1 - exp (- decay * (Q2R b - Q2R a))) / decay)%R.
Proof.
  intros decay a b D. exists (fun x => - / decay * exp (- decay * (x - Q2R a)))%R. split.
  - intro x. replace (exp (- (decay * (x - Q2R a))))%R with (- / decay * (exp (- decay * (x - Q2R a)) * (- decay * (1 - 0))))%R.
    + apply derivable_pt_lim_scal. apply (derivable_pt_lim_comp (fun x => - decay * (x - Q2R a))%R exp).
      * apply derivable_pt_lim_scal. apply (derivable_pt_lim_minus id (fct_cte (Q2R a))); [apply derivable_pt_lim_id|apply derivable_pt_lim_const].
      * apply derivable_pt_lim_exp.
    + replace (- (decay * (x - Q2R a)))%R with (- decay * (x - Q2R a))%R by ring. field. auto.
  - replace (- decay * (Q2R a - Q2R a))%R with 0%R by ring. rewrite exp_0. field. auto.
Qed.
Lemma accumulated_unique : forall decay a b v v', (a <= b)%Qc -> accumulated decay a b v -> accumulated decay a b v' -> v = v'.
Proof.
  intros decay a b v v' L [G [DG ->]] [G' [DG' ->]]. apply q2r_le in L.
  assert (forall x, derivable_pt_lim (G - G')%F x 0%R) as DD.
  { intro x. replace 0%R with (exp (- (decay * (x - Q2R a))) - exp (- (decay * (x - Q2R a))))%R by ring. apply derivable_pt_lim_minus; auto. }
  assert (derivable (G - G')%F) as pr by (intro x; exists 0%R; apply DD).
  destruct L as [L|E]; [|rewrite E; ring].
  assert ((G - G')%F (Q2R b) = (G - G')%F (Q2R a)) as E.
  { destruct (MVT_cor1 (G - G')%F (Q2R a) (Q2R b) pr L) as [c [E _]]. rewrite (derive_pt_eq_0 _ _ _ (pr c) (DD c)) in E. lra. }
  unfold minus_fct in E. lra.
Qed.

(* ---------- existence of the first and last time; changes of the table ---------- *)
Lemma firsts : forall evs stamp, exists f, forall s, occurs evs s -> first_time evs stamp s (f s).
Proof.
  intros evs stamp. exists (fun s => qc_min (map stamp (filter (fun e => Nat.eqb (ev_seq e) s) evs))). intros s [e0 [H0 E0]].
  assert (forall e, In e evs -> ev_seq e = s -> In (stamp e) (map stamp (filter (fun e => Nat.eqb (ev_seq e) s) evs))) as K.
  { intros e H E. apply in_map. apply filter_In. split; auto. apply Nat.eqb_eq. auto. }
  assert (map stamp (filter (fun e => Nat.eqb (ev_seq e) s) evs) <> []) as N by (intro Q; specialize (K e0 H0 E0); rewrite Q in K; destruct K).
  destruct (qc_min_spec _ N) as [I M]. split; [|intros e H E; apply M, K; auto].
  apply in_map_iff in I. destruct I as [e [E I]]. apply filter_In in I. destruct I as [I Q]. apply Nat.eqb_eq in Q. eauto.
Qed.
Lemma lasts : forall evs stamp, exists g, forall s, occurs evs s -> last_time evs stamp s (g s).
Proof.
  intros evs stamp. exists (fun s => qc_max (map stamp (filter (fun e => Nat.eqb (ev_seq e) s) evs))). intros s [e0 [H0 E0]].
  assert (forall e, In e evs -> ev_seq e = s -> In (stamp e) (map stamp (filter (fun e => Nat.eqb (ev_seq e) s) evs))) as K.
  { intros e H E. apply in_map. apply filter_In. split; auto. apply Nat.eqb_eq. auto. }
  assert (map stamp (filter (fun e => Nat.eqb (ev_seq e) s) evs) <> []) as N by (intro Q; specialize (K e0 H0 E0); rewrite Q in K; destruct K).
  destruct (qc_max_spec _ N) as [I M]. split; [|intros e H E; apply M, K; auto].
  apply in_map_iff in I. destruct I as [e [E I]]. apply filter_In in I. destruct I as [I Q]. apply Nat.eqb_eq in Q. eauto.
Qed.

Lemma shp_same_table : forall ks kt ky evs evs' decay dt init pen,
  start_at_zero (fst (get_event_table (option_map fst dt) evs)) = start_at_zero (fst (get_event_table (option_map fst dt) evs')) ->
  snd (get_event_table (option_map fst dt) evs) = snd (get_event_table (option_map fst dt) evs') ->
  shp_init ks kt ky evs decay dt init pen = shp_init ks kt ky evs' decay dt init pen.
Proof.
  intros ks kt ky evs evs' decay dt init pen E1 E2. unfold shp_init.
  destruct (get_event_table (option_map fst dt) evs) as [t n]. destruct (get_event_table (option_map fst dt) evs') as [t' n']. simpl in E1, E2. rewrite E1, E2. reflexivity.
Qed.

(** Times that move together in each sequence. *)
Lemma moved : forall grid evs (mv : event -> event) (c : nat -> Qc),
  (forall e, In e evs -> ev_seq (mv e) = ev_seq e /\ ev_type (mv e) = ev_type e /\ stamp_of grid (mv e) = (stamp_of grid e + c (ev_seq e))%Qc) ->
  start_at_zero (fst (get_event_table grid (map mv evs))) = start_at_zero (fst (get_event_table grid evs))
  /\ snd (get_event_table grid (map mv evs)) = snd (get_event_table grid evs).
Proof.
  intros grid evs mv c H. destruct (firsts evs (stamp_of grid)) as [f Hf]. destruct (lasts evs (stamp_of grid)) as [g Hg].
  assert (forall s, occurs (map mv evs) s -> occurs evs s) as Oc.
  { intros s [e [He E]]. apply in_map_iff in He. destruct He as [e0 [<- H0]]. exists e0. split; auto. rewrite <- E. symmetry. apply H. auto. }
  assert (map ev_type (map mv evs) = map ev_type evs) as ET by (rewrite map_map; apply map_ext_in; intros e He; apply H; auto).
  split; [|rewrite !names_of, ET; auto].
  rewrite (table_is evs grid f g Hf Hg). rewrite (table_is (map mv evs) grid (fun s => f s + c s)%Qc (fun s => g s + c s)%Qc).
  - unfold table_of. rewrite ET. rewrite map_map.
    rewrite (map_ext_in _ (fun e => (fun k : key => let '(s, t, y) := k in (s, t + c s, y)%Qc) (key_of (stamp_of grid) e))).
    2: { intros e He. destruct (H e He) as [E1 [E2 E3]]. unfold key_of. rewrite E1, E2, E3. auto. }
    rewrite <- (map_map (key_of (stamp_of grid)) (fun k : key => let '(s, t, y) := k in (s, t + c s, y)%Qc)).
    rewrite groupby_map.
    + rewrite map_map. apply map_ext. intros [[[s t] y] k]. simpl. f_equal; ring.
    + intros [[s t] y] [[s' t'] y'] _ _. unfold klt. intros [L|[-> [L|[-> L]]]]; auto. right. split; auto. left.
      apply Qclt_minus_iff in L. apply Qclt_minus_iff. replace (t' + c s' + - (t + c s'))%Qc with (t' + - t)%Qc by ring. auto.
  - intros s O. destruct (Hf s (Oc s O)) as [[e [He [E1 E2]]] M]. split.
    + exists (mv e). destruct (H e He) as [Q1 [_ Q3]]. split; [apply in_map; auto|]. split; [congruence|]. rewrite Q3, E1, E2. auto.
    + intros e' He' Es. apply in_map_iff in He'. destruct He' as [e0 [<- H0]]. destruct (H e0 H0) as [Q1 [_ Q3]]. rewrite Q3. rewrite <- Q1, Es.
      apply Qcplus_le_compat; [apply M; congruence|apply Qcle_refl].
  - intros s O. destruct (Hg s (Oc s O)) as [[e [He [E1 E2]]] M]. split.
    + exists (mv e). destruct (H e He) as [Q1 [_ Q3]]. split; [apply in_map; auto|]. split; [congruence|]. rewrite Q3, E1, E2. auto.
    + intros e' He' Es. apply in_map_iff in He'. destruct He' as [e0 [<- H0]]. destruct (H e0 H0) as [Q1 [_ Q3]]. rewrite Q3. rewrite <- Q1, Es.
      apply Qcplus_le_compat; [apply M; congruence|apply Qcle_refl].
Qed.

Lemma reordered : forall grid evs evs', Permutation evs evs' ->
  start_at_zero (fst (get_event_table grid evs)) = start_at_zero (fst (get_event_table grid evs'))
  /\ snd (get_event_table grid evs) = snd (get_event_table grid evs').
Proof.
  intros grid evs evs' P. destruct (firsts evs (stamp_of grid)) as [f Hf]. destruct (lasts evs (stamp_of grid)) as [g Hg].
  assert (unique (map ev_type evs) = unique (map ev_type evs')) as ET.
  { apply unique_same. intro y. split; apply Permutation_in; [|apply Permutation_sym]; apply Permutation_map; auto. }
  assert (forall e, In e evs' <-> In e evs) as I by (intro e; split; apply Permutation_in; auto; apply Permutation_sym; auto).
  split; [|rewrite !names_of; auto].
  rewrite (table_is evs grid f g Hf Hg), (table_is evs' grid f g).
  - unfold table_of. rewrite ET. rewrite (groupby_perm (map (key_of (stamp_of grid)) evs) (map (key_of (stamp_of grid)) evs')); auto using Permutation_map.
  - intros s [e [He E]]. destruct (Hf s) as [[e0 [H0 Q]] M]; [exists e; split; auto; apply I; auto|]. split; [exists e0; split; auto; apply I; auto|].
    intros e' He' E'. apply M; auto. apply I. auto.
  - intros s [e [He E]]. destruct (Hg s) as [[e0 [H0 Q]] M]; [exists e; split; auto; apply I; auto|]. split; [exists e0; split; auto; apply I; auto|].
    intros e' He' E'. apply M; auto. apply I. auto.
Qed.

(* ---------- the prepared object ---------- *)
Lemma shp_ok : forall ks kt ky evs decay dt init pen P, shp_init ks kt ky evs decay dt init pen = Ok P ->
  let table := start_at_zero (fst (get_event_table (option_map fst dt) evs)) in
  let names := snd (get_event_table (option_map fst dt) evs) in
  p_table P = table /\ p_names P = names /\ p_T P = T_total table /\ p_X P = X_rows (length names) table
  /\ p_S P = sum_t_X_kappa decay (p_X P) /\ p_D P = decay_effect_integral_to_T decay (T_each_seq table) (p_X P).
Proof.
  intros ks kt ky evs decay dt init pen P H. unfold shp_init in H.
  destruct (match dt with Some (d, _) => if Qc_eq_dec d 0 then Err ValueError else Ok tt | None => Ok tt end); [|discriminate]. cbn [rbind] in H.
  destruct (get_event_table (option_map fst dt) evs) as [t n]. cbn [fst snd]. destruct pen; [|discriminate]. cbn [rbind] in H.
  destruct (match init with None => _ | Some m => _ end); [|discriminate]. cbn [rbind] in H.
  destruct (values_kind ks kt ky dt); inversion H; cbn; auto 10.
Qed.

Lemma first_time_ext : forall evs stamp stamp' s m, (forall e, In e evs -> stamp e = stamp' e) -> first_time evs stamp s m -> first_time evs stamp' s m.
Proof.
  intros evs stamp stamp' s m H [[e [He [E1 E2]]] M]. split; [exists e; rewrite <- H; auto|]. intros e' He' E'. rewrite <- H; auto.
Qed.
Lemma last_time_ext : forall evs stamp stamp' s m, (forall e, In e evs -> stamp e = stamp' e) -> last_time evs stamp s m -> last_time evs stamp' s m.
Proof.
  intros evs stamp stamp' s m H [[e [He [E1 E2]]] M]. split; [exists e; rewrite <- H; auto|]. intros e' He' E'. rewrite <- H; auto.
Qed.
Lemma felt_shift : forall decay a b c, felt decay (a - c)%Qc (b - c)%Qc = felt decay a b.
Proof.
  intros decay a b c. unfold felt. rewrite !q2r_minus. replace (Q2R a - Q2R c - (Q2R b - Q2R c))%R with (Q2R a - Q2R b)%R by ring.
  destruct (Qclt_le_dec (a - c)%Qc (b - c)%Qc) as [L|L]; destruct (Qclt_le_dec a b) as [L'|L']; auto; exfalso.
  - rewrite q2r_lt, !q2r_minus in L. rewrite q2r_le in L'. lra.
  - rewrite q2r_le, !q2r_minus in L. rewrite q2r_lt in L'. lra.
Qed.

Section Prepared.
  Variable evs : list event.
  Variable grid : option Qc.
  Variable f g : nat -> Qc.
  Hypothesis first : forall s, occurs evs s -> first_time evs (stamp_of grid) s (f s).
  Hypothesis last : forall s, occurs evs s -> last_time evs (stamp_of grid) s (g s).
  Let stamp := stamp_of grid.
  Let names := unique (map ev_type evs).
  Let table := table_of evs stamp f g.
  Let X := X_rows (length names) table.

  Lemma X_sorted : StronglySorted earlier (map fst X).
  Proof using. apply X_rows_spec; [apply table_sorted|apply table_inds]. Qed.
  Lemma X_lengths : forall k row, In (k, row) X -> length row = length names.
  Proof using. apply X_rows_spec; [apply table_sorted|apply table_inds]. Qed.
  Lemma X_keys : forall s t, In (s, t) (map fst X) <-> exists e, In e evs /\ ev_seq e = s /\ (stamp e - f s)%Qc = t.
  Proof using.
    intros s t. etransitivity; [apply X_rows_spec; [apply table_sorted|apply table_inds]|]. unfold table, table_of. rewrite map_map, in_map_iff. split.
    - intros [[[[s' t'] y] c] [E H]]. unfold rat in E. simpl in E. inversion E; subst. apply counted_occurs in H. destruct H as [e [He [E1 [E2 _]]]].
      exists e. split; auto. split; auto. unfold stamp. rewrite E2. auto.
    - intros [e [He [<- <-]]]. destruct (occurs_counted evs grid e He) as [c Hc]. exists ((ev_seq e, stamp_of grid e, ev_type e), c). split; auto.
  Qed.
  Lemma X_total : forall (F : nat * Qc -> R) j, j < length names ->
    total X (fun kr => INR (nth j (snd kr) 0%nat) * F (fst kr))%R
    = total evs (fun e => if Nat.eqb (ev_type e) (nth j names O) then F (ev_seq e, stamp e - f (ev_seq e))%Qc else 0)%R.
  Proof using.
    intros F j L. unfold stamp, names. rewrite <- (table_total evs grid f g F j L). apply X_rows_spec; [apply table_sorted|apply table_inds].
  Qed.
  Lemma X_entry : forall s u row j, In ((s, u - f s)%Qc, row) X -> j < length names ->
    nth j row 0 = how_many (fun e => Nat.eqb (ev_seq e) s && same (stamp e) u && Nat.eqb (ev_type e) (nth j names 0)) evs.
  Proof using.
    intros s u row j H L. apply INR_eq. rewrite <- total_how_many.
    rewrite <- (total_at X (s, u - f s)%Qc row (fun row => INR (nth j row 0)) (sorted_nodup _ earlier_irrefl _ X_sorted) H).
    etransitivity; [|etransitivity; [apply (X_total (fun k => if at_eqb (s, u - f s)%Qc k then 1 else 0)%R j L)|]].
    - apply total_ext. intros [k1 v1] _. simpl. destruct (at_eqb (s, u - f s)%Qc k1); ring.
    - apply total_ext. intros e He. destruct (Nat.eqb (ev_type e) (nth j names 0)); [|rewrite andb_false_r; auto]. rewrite andb_true_r.
      assert (at_eqb (s, u - f s)%Qc (ev_seq e, stamp e - f (ev_seq e))%Qc = Nat.eqb (ev_seq e) s && same (stamp e) u) as ->; auto.
      apply Bool.eq_iff_eq_true. rewrite at_eqb_spec, andb_true_iff, Nat.eqb_eq. unfold same. destruct (Qc_eq_dec (stamp e) u) as [->|N]; split.
      + intro E. inversion E. auto.
      + intros [-> _]. auto.
      + intro E. pose proof (f_equal fst E) as E1. pose proof (f_equal snd E) as E2. cbn [fst snd] in E1, E2. exfalso. apply N. rewrite <- E1 in E2. replace (stamp e) with (stamp e - f s + f s)%Qc by ring. rewrite <- E2. ring.
      + intros [_ Q]. discriminate.
  Qed.
  Lemma S_entry : forall decay r s u j, nth_error (map fst X) r = Some (s, u - f s)%Qc -> j < length names ->
    sum_t_X_kappa decay X r j = total evs (fun e => if Nat.eqb (ev_seq e) s && Nat.eqb (ev_type e) (nth j names 0%nat) then felt decay u (stamp e) else 0%R).
  Proof using.
    intros decay r s u j E L. assert (r < length X) as Lr by (rewrite <- (map_length fst X); apply nth_error_Some; rewrite E; discriminate).
    rewrite (sum_is decay X X_sorted r j (0, 0%Qc) Lr). rewrite (nth_error_nth _ _ _ E). rewrite (X_total (fun k => reach decay k (s, u - f s)%Qc) j L).
    apply total_ext. intros e He. destruct (Nat.eqb (ev_type e) (nth j names 0)); [|rewrite andb_false_r; auto]. rewrite andb_true_r. unfold reach. cbn [fst snd].
    destruct (Nat.eqb_spec (ev_seq e) s) as [<-|]; auto. apply felt_shift.
  Qed.
End Prepared.
