(** Edges of the one-component learner, and its first two stages. *)

From Coq Require Import List Arith Lia Bool.
From Verif Require Import Model.Py Model.OLC.
Import ListNotations.
Open Scope nat_scope.
Open Scope res_scope.

(* ---------- edges ---------- *)
Lemma upair_sym : forall x y, upair x y = upair y x.
Proof. intros. unfold upair. destruct (Nat.leb_spec x y), (Nat.leb_spec y x); auto; f_equal; lia. Qed.
Lemma upair_lt : forall x y, x < y -> upair x y = (x, y).
Proof. intros. unfold upair. destruct (Nat.leb_spec x y); auto; lia. Qed.
Lemma upair_inj : forall x y a b, upair x y = upair a b <-> (x = a /\ y = b) \/ (x = b /\ y = a).
Proof.
  intros. unfold upair. destruct (Nat.leb_spec x y), (Nat.leb_spec a b); split; intro E;
    try (inversion E; subst; lia); destruct E as [[-> ->]|[-> ->]]; auto; try lia; f_equal; lia.
Qed.
Lemma peq : forall p q : nat * nat, Nat.eqb (fst q) (fst p) && Nat.eqb (snd q) (snd p) = true <-> q = p.
Proof. intros [a b] [c d]. simpl. rewrite andb_true_iff, !Nat.eqb_eq. split; [intros [-> ->]; auto|intro E; inversion E; auto]. Qed.
Lemma pmem_in : forall p l, pmem p l = true <-> In p l.
Proof.
  intros p l. unfold pmem. rewrite existsb_exists. split.
  - intros [q [I E]]. apply peq in E. subst. auto.
  - intro I. exists p. split; auto. apply peq. auto.
Qed.
Lemma has_edge_sym : forall u x y, has_edge u x y = has_edge u y x.
Proof. intros. unfold has_edge. rewrite upair_sym. auto. Qed.
Lemma remove_in : forall u x y q, In q (remove_edge u x y) <-> In q u /\ q <> upair x y.
Proof.
  intros. unfold remove_edge. rewrite filter_In. rewrite negb_true_iff. split; intros [I N]; split; auto.
  - intro E. apply peq in E. congruence.
  - destruct (Nat.eqb (fst q) (fst (upair x y)) && Nat.eqb (snd q) (snd (upair x y))) eqn:E; auto. apply peq in E. contradiction.
Qed.
Lemma has_edge_in : forall u x y, has_edge u x y = true <-> In (upair x y) u.
Proof. intros. apply pmem_in. Qed.
Lemma has_remove : forall u x y a b, has_edge (remove_edge u x y) a b = true <-> has_edge u a b = true /\ ~ ((a = x /\ b = y) \/ (a = y /\ b = x)).
Proof. intros. rewrite !has_edge_in, remove_in. rewrite upair_inj. tauto. Qed.
Lemma add_in : forall g x y q, In q (add_arc g x y) <-> In q g \/ q = (x, y).
Proof.
  intros g x y q. unfold add_arc. destruct (pmem (x, y) g) eqn:E.
  - apply pmem_in in E. split; [auto|]. intros [I| ->]; auto.
  - rewrite in_app_iff. simpl. split; [intros [I|[I|[]]]; auto|intros [I| ->]; auto].
Qed.
Lemma filter_le : forall {A} (f : A -> bool) l, length (filter f l) <= length l.
Proof. induction l as [|a l IH]; simpl; auto. destruct (f a); simpl; lia. Qed.
Lemma remove_len : forall u x y, length (remove_edge u x y) <= length u.
Proof. intros. apply filter_le. Qed.
Lemma remove_less : forall u x y, has_edge u x y = true -> length (remove_edge u x y) < length u.
Proof.
  intros u x y H. apply has_edge_in in H. unfold remove_edge. induction u as [|q u IH]; [destruct H|].
  cbn [filter length]. set (t := negb (Nat.eqb (fst q) (fst (upair x y)) && Nat.eqb (snd q) (snd (upair x y)))). destruct t eqn:E; subst t.
  - destruct H as [->|H]; [|cbn [length]; specialize (IH H); lia].
    rewrite negb_true_iff in E. assert (Nat.eqb (fst (upair x y)) (fst (upair x y)) && Nat.eqb (snd (upair x y)) (snd (upair x y)) = true) by (apply peq; auto). congruence.
  - pose proof (remove_len u x y) as L. unfold remove_edge in L. lia.
Qed.

Lemma combos_in : forall l x y, In (x, y) (combos2 l) -> In x l /\ In y l.
Proof.
  induction l as [|a l IH]; simpl; [tauto|]. intros x y I. apply in_app_iff in I. destruct I as [I|I].
  - apply in_map_iff in I. destruct I as [b [E Hb]]. inversion E; subst. auto.
  - apply IH in I. tauto.
Qed.
Lemma combos_seq : forall n a x y, In (x, y) (combos2 (seq a n)) <-> a <= x /\ x < y /\ y < a + n.
Proof.
  induction n as [|n IH]; intros a x y; cbn [seq combos2]; [simpl; lia|]. rewrite in_app_iff, in_map_iff, IH. split.
  - intros [[b [E Hb]]|H]; [|lia]. inversion E; subst. apply in_seq in Hb. lia.
  - intro H. destruct (Nat.eq_dec x a) as [->|N]; [left|right; lia]. exists y. split; auto. apply in_seq. lia.
Qed.
Lemma combos_ne : forall l x y, NoDup l -> In (x, y) (combos2 l) -> x <> y.
Proof.
  induction l as [|a l IH]; simpl; [tauto|]. intros x y ND I. inversion ND; subst. apply in_app_iff in I. destruct I as [I|I]; auto.
  apply in_map_iff in I. destruct I as [b [E Hb]]. inversion E; subst. intro; subst. contradiction.
Qed.
Lemma combos_len : forall l, 2 * length (combos2 l) + length l = length l * length l.
Proof. induction l as [|a l IH]; simpl; auto. rewrite app_length, map_length. lia. Qed.
Lemma has_complete : forall n x y, has_edge (combos2 (seq 0 n)) x y = true <-> x <> y /\ x < n /\ y < n.
Proof.
  intros. rewrite has_edge_in. unfold upair. destruct (Nat.leb_spec x y); rewrite combos_seq; lia.
Qed.

Lemma perms_in : forall n x y, In (x, y) (perms2 n) <-> x < n /\ y < n /\ x <> y.
Proof.
  intros. unfold perms2. rewrite in_flat_map. split.
  - intros [a [Ha I]]. apply in_map_iff in I. destruct I as [b [E Hb]]. inversion E; subst. apply filter_In in Hb.
    destruct Hb as [Hb N]. apply in_seq in Ha, Hb. apply negb_true_iff, Nat.eqb_neq in N. lia.
  - intros (A & B & N). exists x. split; [apply in_seq; lia|]. apply in_map_iff. exists y. split; auto. apply filter_In.
    split; [apply in_seq; lia|]. apply negb_true_iff, Nat.eqb_neq. auto.
Qed.

(** Of two opposite pairs the one with the smaller first component comes first. *)
Lemma flat_split : forall {B} (f : nat -> list B) n l1 p l2, flat_map f (seq 0 n) = l1 ++ p :: l2 ->
  exists a, a < n /\ In p (f a) /\ forall b q, b < a -> In q (f b) -> In q l1.
Proof.
  intros B f n. induction n as [|n IH]; intros l1 p l2 E; [destruct l1; discriminate|].
  rewrite seq_S in E. cbn [plus] in E. rewrite flat_map_app in E. cbn [flat_map] in E. rewrite app_nil_r in E.
  assert (forall (a b c d : list B), a ++ b = c ++ p :: d -> (exists e, a = c ++ p :: e) \/ (exists e, c = a ++ e /\ b = e ++ p :: d)) as K.
  { induction a as [|x a IHa]; intros b c d H; [right; exists c; auto|]. destruct c as [|y c]; simpl in H; inversion H; subst.
    - left. exists a. auto.
    - apply IHa in H2. destruct H2 as [[e ->]|[e [-> ->]]]; [left|right]; exists e; auto. }
  apply K in E. destruct E as [[e E]|[e [-> E]]].
  - apply IH in E. destruct E as (a & La & I & F). exists a. repeat split; auto.
  - exists n. split; [lia|]. split; [rewrite E; apply in_app_iff; right; left; auto|].
    intros b q Hb Iq. apply in_app_iff. left. apply in_flat_map. exists b. split; auto. apply in_seq. lia.
Qed.
Lemma perms_order : forall n l1 x y l2, perms2 n = l1 ++ (y, x) :: l2 -> x < y -> In (x, y) l1.
Proof.
  intros n l1 x y l2 E L. pose proof E as E0. unfold perms2 in E. apply flat_split in E. destruct E as (a & La & I & F).
  apply in_map_iff in I. destruct I as [b [Eb Hb]]. inversion Eb; subst. apply filter_In in Hb. destruct Hb as [Hb _]. apply in_seq in Hb.
  apply (F x); auto. apply in_map_iff. exists y. split; auto. apply filter_In. split; [apply in_seq; lia|]. apply negb_true_iff, Nat.eqb_neq. lia.
Qed.

(* ---------- the first two stages when the regression does not matter ---------- *)
Section Pairs.
  Variable D : olc_num.
  Variable n : nat.
  Variable data : nat -> col D.
  (** Columns that every test treats like the original ones. *)
  Variable sim : col D -> col D -> Prop.
  Definition acc (x y : nat) : bool := ge_alpha D (cal_pval D (data x) (data y)).
  Hypothesis sim_refl : forall k, k < n -> sim (data k) (data k).
  Hypothesis acc_sym : forall x y, x < n -> y < n -> acc x y = acc y x.
  Hypothesis acc_sim : forall x y u v X, x < n -> y < n -> sim (data x) u -> sim (data y) v ->
    ge_alpha D (cal_pval D (residual D X u) v) = acc x y.
  Hypothesis sim_norm : forall x y u v X, x < n -> y < n -> sim (data x) u -> sim (data y) v -> acc x y = true ->
    sim (data x) (normal D (residual D X u)).
  Hypothesis fisher_no : forall x ys u X d, x < n -> (forall y, In y ys -> y < n /\ sim (data y) (d y) /\ acc x y = false) -> ys <> [] ->
    sim (data x) u -> ge_alpha D (fisher D (map (fun y => cal_pval D (residual D X u) (d y)) ys)) = false.

  (** After the pairs in [l1] were looked at. *)
  Definition after (l1 : list (nat * nat)) (s : stage D) : Prop :=
    (forall k, k < n -> sim (data k) (s_data s k)) /\
    (forall x y, x < y < n -> (has_edge (s_udg s) x y = true <-> ~ (acc x y = true /\ In (x, y) l1))) /\
    (forall q, In q (s_udg s) -> fst q < snd q < n) /\
    (forall a b, In (a, b) (s_cg s) <-> b < a < n /\ acc b a = true /\ In (b, a) l1) /\
    (s_changed s = false -> forall x y, x < y < n -> In (x, y) l1 -> acc x y = false).

  Lemma step1_after : forall l1 l2 p s, perms2 n = l1 ++ p :: l2 -> after l1 s -> after (l1 ++ [p]) (step1 D s p).
  Proof using acc_sym acc_sim sim_norm.
    intros l1 l2 [x y] s E (SD & HU & UL & HG & CH).
    assert (In (x, y) (perms2 n)) as I by (rewrite E; apply in_app_iff; right; left; auto).
    apply perms_in in I. destruct I as (Lx & Ly & N).
    assert (forall q, In q (l1 ++ [(x, y)]) <-> In q l1 \/ q = (x, y)) as IA.
    { intro q. rewrite in_app_iff. simpl. split; [intros [A|[A|[]]]; auto|intros [A|A]; auto]. }
    unfold step1. destruct (has_edge (s_udg s) x y) eqn:HE; cbn [negb].
    2:{ (* no edge *)
      assert (x < y -> acc x y = true /\ In (x, y) l1) as P.
      { intro L. destruct (acc x y) eqn:A.
        - destruct (pmem (x, y) l1) eqn:J; [apply pmem_in in J; auto|].
          exfalso. assert (~ In (x, y) l1) as J' by (intro K; apply pmem_in in K; congruence).
          assert (has_edge (s_udg s) x y = true) by (apply HU; [lia|tauto]). congruence.
        - exfalso. assert (has_edge (s_udg s) x y = true) by (apply HU; [lia|intros [? _]; congruence]). congruence. }
      assert (forall a b, a < b < n -> In (a, b) (l1 ++ [(x, y)]) <-> In (a, b) l1) as Q.
      { intros a b Hab. rewrite IA. split; [|auto]. intros [A|A]; auto. inversion A; subst. apply P. lia. }
      split; [auto|]. split; [intros a b Hab; rewrite (HU a b Hab), Q by auto; tauto|].
      split; [auto|]. split.
      - intros a b. rewrite HG. split; intros (A & B & C); (split; [auto|split; [auto|]]); apply Q; auto; lia.
      - intros C a b Hab J. apply (CH C a b Hab). apply Q; auto. }
    assert (forall L, acc x y = L -> ge_alpha D (cal_pval D (residual D [s_data s y] (s_data s x)) (s_data s y)) = L) as AE
      by (intros L <-; apply acc_sim; auto).
    destruct (acc x y) eqn:A; rewrite (AE _ eq_refl).
    - (* accepted *)
      assert (x < y) as L.
      { destruct (Nat.lt_trichotomy x y) as [L|[L|L]]; [auto|lia|]. exfalso.
        pose proof (perms_order n l1 y x l2 E L) as J. rewrite has_edge_sym in HE. apply (HU y x ltac:(lia)) in HE. apply HE. split; auto.
        rewrite acc_sym; auto. }
      split; [|split; [|split; [|split]]]; cbn [s_udg s_cg s_data s_changed].
      + intros k Hk. unfold set_col. destruct (Nat.eqb_spec k x) as [->|Nk]; auto. apply (sim_norm x y _ (s_data s y)); auto.
      + intros a b Hab. rewrite has_remove, (HU a b Hab), IA. split.
        * intros [H1 H2] [H3 [H4|H4]]; [apply H1; auto|inversion H4; subst; apply H2; auto].
        * intro H. split; [intros [H1 H2]; apply H; auto|]. intros [[-> ->]|[-> ->]]; [apply H; auto|lia].
      + intros q I. apply remove_in in I. apply UL. tauto.
      + intros a b. rewrite add_in, HG, IA. split.
        * intros [(B & C & I)|B]; [auto|]. inversion B; subst. auto.
        * intros (B & C & [I|I]); [auto|]. inversion I; subst. auto.
      + discriminate.
    - (* rejected *)
      split; [auto|]. split; [intros a b Hab; rewrite (HU a b Hab), IA; split; intro H; [intros [H1 [H2|H2]]; [apply H; auto|inversion H2; subst; congruence]|intros [H1 H2]; apply H; auto]|].
      split; [auto|]. split.
      + intros a b. rewrite HG, IA. split; [intros (B & C & I); auto|]. intros (B & C & [I|I]); [auto|]. inversion I; subst. congruence.
      + intros C a b Hab J. apply IA in J. destruct J as [J|J]; [apply (CH C a b Hab J)|inversion J; subst; auto].
  Qed.

  Lemma pass1_after : forall l2 l1 s, perms2 n = l1 ++ l2 -> after l1 s -> after (perms2 n) (fold_left (step1 D) l2 s).
  Proof using acc_sym acc_sim sim_norm.
    induction l2 as [|p l2 IH]; intros l1 s E A; cbn [fold_left]; [rewrite app_nil_r in E; rewrite E; auto|].
    apply (IH (l1 ++ [p])); [rewrite <- app_assoc; auto|]. eapply step1_after; eauto.
  Qed.

  Definition settled (s : stage D) : Prop :=
    (forall k, k < n -> sim (data k) (s_data s k)) /\
    (forall x y, has_edge (s_udg s) x y = true <-> x <> y /\ x < n /\ y < n /\ acc x y = false) /\
    (forall a b, In (a, b) (s_cg s) <-> b < a < n /\ acc b a = true).

  Lemma after_settled : forall s, after (perms2 n) s -> settled s.
  Proof using acc_sym.
    intros s (SD & HU & UL & HG & CH). split; [auto|]. split.
    - assert (forall x y, x < y < n -> (has_edge (s_udg s) x y = true <-> acc x y = false)) as K.
      { intros x y H. rewrite (HU x y H). split; [|intros A0 [A1 _]; congruence]. intro N. destruct (acc x y) eqn:A; auto. exfalso. apply N. split; auto. apply perms_in. lia. }
      intros x y. split.
      + intro H. assert (x <> y /\ x < n /\ y < n) as (N & Lx & Ly).
        { apply has_edge_in in H. apply UL in H. unfold upair in H. destruct (Nat.leb_spec x y); simpl in H; lia. }
        repeat split; auto. destruct (Nat.lt_trichotomy x y) as [L|[L|L]]; [apply K; auto|lia|].
        rewrite acc_sym by auto. apply K; auto. rewrite has_edge_sym. auto.
      + intros (N & Lx & Ly & A). destruct (Nat.lt_trichotomy x y) as [L|[L|L]]; [apply K; auto|lia|].
        rewrite has_edge_sym. apply K; auto. rewrite acc_sym; auto.
    - intros a b. rewrite HG. split; [tauto|]. intros [H A]. repeat split; auto; try lia. apply perms_in. lia.
  Qed.

  Lemma start_after : after [] (clear D (start1 D n data)).
  Proof using sim_refl.
    unfold clear, start1. split; [|split; [|split; [|split]]]; cbn [s_udg s_cg s_data s_changed]; auto.
    - intros x y H. rewrite has_complete. simpl. split; [tauto|intros _; lia].
    - intros [x y] I. apply combos_seq in I. simpl. lia.
    - intros a b. simpl. tauto.
    - simpl. tauto.
  Qed.

  Lemma stage1_settled : forall f, exists s, stage1 D n (S (S f)) (start1 D n data) = Ok s /\ settled s.
  Proof using sim_refl acc_sym acc_sim sim_norm.
    intro f. cbn [stage1]. set (s1 := fold_left (step1 D) (perms2 n) (clear D (start1 D n data))).
    assert (after (perms2 n) s1) as A by (apply (pass1_after (perms2 n) []); auto; apply start_after).
    destruct (s_changed s1) eqn:C; [|exists s1; split; auto; apply after_settled; auto].
    assert (fold_left (step1 D) (perms2 n) (clear D s1) = clear D s1) as E.
    { (* every pair rejects whatever the flag says *)
      assert (forall l s, (forall p, In p l -> In p (perms2 n)) -> settled s -> fold_left (step1 D) l s = s) as K.
      { induction l as [|[x y] l IH]; intros s H S; cbn [fold_left]; auto.
        assert (step1 D s (x, y) = s) as ->; [|apply IH; auto; intros q Hq; apply H; right; auto].
        destruct S as (SD & HU & _). assert (In (x, y) (perms2 n)) as I by (apply H; left; auto). apply perms_in in I. destruct I as (Lx & Ly & N).
        unfold step1. destruct (has_edge (s_udg s) x y) eqn:HE; auto. cbn [negb]. rewrite (acc_sim x y) by auto. apply HU in HE.
        destruct HE as (_ & _ & _ & ->). auto. }
      apply K; auto. destruct (after_settled _ A) as (P & Q & R). split; [exact P|split; [exact Q|exact R]]. }
    rewrite E. cbn [s_changed clear]. exists (clear D s1). split; auto.
    destruct (after_settled _ A) as (P & Q & R). split; [exact P|split; [exact Q|exact R]].
  Qed.

  Lemma step2_settled : forall s x, x < n -> settled s -> step2 D n s x = s.
  Proof using fisher_no.
    intros s x Lx (SD & HU & HG). unfold step2. destruct (neighbors n (s_udg s) x) as [|a l] eqn:E; auto.
    rewrite (fisher_no x); auto; [|discriminate]. intros y Iy. rewrite <- E in Iy. apply filter_In in Iy. destruct Iy as [Iy H].
    apply in_seq in Iy. apply HU in H. repeat split; try tauto. apply SD. lia.
  Qed.

  Lemma stage2_settled : forall f s, n <> 1 -> settled s -> stage2 D n (S f) s = Ok (clear D s).
  Proof using fisher_no.
    intros f s N S. cbn [stage2]. destruct (Nat.eqb_spec n 1); [contradiction|].
    assert (settled (clear D s)) as S' by exact S.
    assert (forall l, (forall x, In x l -> x < n) -> fold_left (step2 D n) l (clear D s) = clear D s) as K.
    { induction l as [|x l IH]; intro H; cbn [fold_left]; auto. rewrite step2_settled by (auto; apply H; left; auto). apply IH. intros z Hz. apply H. right. auto. }
    rewrite K by (intros x Hx; apply in_seq in Hx; lia). auto.
  Qed.
End Pairs.
