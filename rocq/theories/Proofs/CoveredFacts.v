(** Two DAGs with the same skeleton and v-structures are linked by reversals of
    covered edges. *)

From Coq Require Import List Arith Lia Bool.
From Verif Require Import Spec.Digraphs Spec.Covered Proofs.FinGraph Proofs.RelExt.
Import ListNotations.

(* ---------- choosing an extreme element ---------- *)
Lemma argmin : forall (f : nat -> nat) (l : list nat), l <> [] -> exists m, In m l /\ forall x, In x l -> f m <= f x.
Proof.
  intros f l. induction l as [|a l IH]; [congruence|]. intros _.
  destruct l as [|b l]. { exists a. split; [left; auto|]. intros x [<-|[]]. lia. }
  destruct IH as [m [Hm Hmin]]; [discriminate|]. destruct (le_lt_dec (f a) (f m)) as [L|L].
  - exists a. split; [left; auto|]. intros x [<-|Hx]; [lia|]. specialize (Hmin x Hx). lia.
  - exists m. split; [right; auto|]. intros x [<-|Hx]; [lia|]. auto.
Qed.
Lemma argmax : forall (f : nat -> nat) (l : list nat), l <> [] -> exists m, In m l /\ forall x, In x l -> f x <= f m.
Proof.
  intros f l. induction l as [|a l IH]; [congruence|]. intros _.
  destruct l as [|b l]. { exists a. split; [left; auto|]. intros x [<-|[]]. lia. }
  destruct IH as [m [Hm Hmin]]; [discriminate|]. destruct (le_lt_dec (f m) (f a)) as [L|L].
  - exists a. split; [left; auto|]. intros x [<-|Hx]; [lia|]. specialize (Hmin x Hx). lia.
  - exists m. split; [right; auto|]. intros x [<-|Hx]; [lia|]. auto.
Qed.

(* ---------- turning a covered edge ---------- *)
Section Turn.
  Variable E : nat -> nat -> Prop.
  Variables x y : nat.
  Hypothesis Ac : acyclic E.
  Hypothesis Cov : covered E x y.
  Let E' (u v : nat) : Prop := E u v /\ ~ (u = x /\ v = y).

  Lemma cov_neq : x <> y.
  Proof using Ac Cov. intro H. apply (Ac x). destruct Cov as [Hxy _]. rewrite <- H in Hxy. econstructor; [exact Hxy|constructor]. Qed.

  Lemma sub_path : forall u v, dpath E' u v -> dpath E u v.
  Proof using. induction 1; [constructor|]. destruct H. econstructor; eauto. Qed.

  Lemma path_snoc : forall (R : nat -> nat -> Prop) u v w, dpath R u v -> R v w -> dpath R u w.
  Proof using. intros R u v w H. induction H; intro HR; econstructor; eauto. constructor. Qed.
  Lemma path_app : forall (R : nat -> nat -> Prop) u v w, dpath R u v -> dpath R v w -> dpath R u w.
  Proof using. intros R u v w H. induction H; auto. intro. econstructor; eauto. Qed.
  Lemma path_last : forall (R : nat -> nat -> Prop) u v, dpath R u v -> u = v \/ exists z, dpath R u z /\ R z v.
  Proof using.
    intros R u v H. induction H as [|u v w H P IH]; auto. right. destruct IH as [->|[z [P1 P2]]].
    - exists u. split; [constructor|auto].
    - exists z. split; auto. econstructor; eauto.
  Qed.

  (** No way around the edge. *)
  Lemma no_detour : ~ dpath E' x y.
  Proof using Ac Cov.
    intro P. destruct (path_last _ _ _ P) as [H|[z [P1 [P2 N]]]]; [exact (cov_neq H)|].
    assert (z <> x) as Nz by (intro; subst; apply N; auto).
    destruct Cov as [_ Hc]. apply (Hc z Nz) in P2. apply (Ac z). econstructor; [exact P2|]. apply sub_path. auto.
  Qed.

  Lemma turned_path : forall u v, dpath (turned E x y) u v -> dpath E' u v \/ (dpath E' u y /\ dpath E' x v).
  Proof using.
    induction 1 as [u|u v w H P IH]; [left; constructor|].
    destruct H as [[H N]|[-> ->]].
    - destruct IH as [IH|[I1 I2]]; [left|right; split; auto]; econstructor; eauto; split; auto.
    - right. destruct IH as [IH|[I1 I2]]; split; auto; constructor.
  Qed.

  Theorem turned_acyclic : acyclic (turned E x y).
  Proof using Ac Cov.
    intros u C. inversion C as [a b c H P]; subst. apply turned_path in P.
    destruct H as [[H N]|[-> ->]].
    - destruct P as [P|[P1 P2]].
      + apply (Ac u). econstructor; [exact H|]. apply sub_path. auto.
      + apply no_detour. eapply path_app; [exact P2|]. econstructor; [|exact P1]. split; auto.
    - destruct P as [P|[P1 P2]]; [exact (no_detour P)|]. exact (no_detour P2).
  Qed.

  Theorem turned_adjacent : forall u v, adjacent (turned E x y) u v <-> adjacent E u v.
  Proof using Cov.
    destruct Cov as [Hxy _].
    assert (forall u v, E u v -> turned E x y u v \/ turned E x y v u) as A.
    { intros u v H. unfold turned. destruct (Nat.eq_dec u x) as [->|]; [destruct (Nat.eq_dec v y) as [->|]|]; [right; right; auto|left; left; tauto|left; left; tauto]. }
    assert (forall u v, turned E x y u v -> E u v \/ E v u) as B.
    { intros u v [[H _]|[-> ->]]; auto. }
    intros u v. unfold adjacent. split; intros [H|H].
    - exact (B _ _ H). - destruct (B _ _ H); auto. - exact (A _ _ H). - destruct (A _ _ H); auto.
  Qed.

  Theorem turned_vstruct : forall u w v, vstruct (turned E x y) u w v <-> vstruct E u w v.
  Proof using Ac Cov.
    intros u w v. unfold vstruct. rewrite turned_adjacent. destruct Cov as [Hxy Hc].
    assert (forall a b c, E a b -> E c b -> a <> c -> ~ adjacent E a c -> ~ (a = x /\ b = y)) as K.
    { intros a b c H1 H2 N A [-> ->]. apply A. right. apply Hc; auto. }
    split.
    - intros [H1 [H2 [N A]]].
      destruct H1 as [[H1 N1]|[-> ->]].
      + destruct H2 as [[H2 N2]|[-> ->]]; [auto|].
        exfalso. apply A. left. assert (u <> x) by (intro; subst; apply (Ac x); econstructor; [exact H1|constructor]).
        apply Hc; auto.
      + exfalso. apply A. right. destruct H2 as [[H2 N2]|[-> _]]; [|congruence].
        assert (v <> x) by (intro; subst; apply (Ac x); econstructor; [exact H2|constructor]).
        apply Hc; auto.
    - intros [H1 [H2 [N A]]]. split; [|split; [|auto]]; left; split; auto.
      + eapply K; eauto.
      + apply (K v w u); auto. intros [Q|Q]; apply A; [right|left]; auto.
  Qed.

  Theorem turned_equiv : markov_equiv E (turned E x y).
  Proof using Ac Cov. split; intros; [symmetry; apply turned_adjacent|symmetry; apply turned_vstruct]. Qed.
End Turn.

Lemma equiv_sym : forall E F, markov_equiv E F -> markov_equiv F E.
Proof. intros E F [A B]. split; intros; [symmetry; apply A|symmetry; apply B]. Qed.
Lemma equiv_trans : forall E F G, markov_equiv E F -> markov_equiv F G -> markov_equiv E G.
Proof. intros E F G [A B] [C D]. split; intros; [rewrite A; apply C|rewrite B; apply D]. Qed.

(* ---------- a differing edge that is covered ---------- *)
Section Differ.
  Variables E F : nat -> nat -> Prop.
  Hypothesis E_dec : forall u v, {E u v} + {~ E u v}.
  Hypothesis F_dec : forall u v, {F u v} + {~ F u v}.
  Variable N : list nat.
  Hypothesis ND : NoDup N.
  Hypothesis EN : forall u v, E u v -> In u N /\ In v N.
  Hypothesis AE : acyclic E.
  Hypothesis AF : acyclic F.
  Hypothesis EF : markov_equiv E F.

  Definition differ (u v : nat) : Prop := E u v /\ F v u.
  Definition differb (u v : nat) : bool := (if E_dec u v then true else false) && (if F_dec v u then true else false).
  Lemma differb_p : forall u v, differb u v = true <-> differ u v.
  Proof using. intros u v. unfold differb, differ. destruct (E_dec u v), (F_dec v u); simpl; split; intros; try discriminate; tauto. Qed.

  Lemma keep_or_differ : forall u v, E u v -> F u v \/ differ u v.
  Proof using EF. intros u v H. destruct EF as [A _]. destruct (proj1 (A u v) (or_introl H)); [left|right; split]; auto. Qed.

  Theorem covered_difference : (exists u v, differ u v) -> exists x y, differ x y /\ covered E x y.
  Proof using E_dec F_dec ND EN AE AF EF.
    intros [u0 [v0 D0]].
    destruct (rank_fun E E_dec N AE ND) as [f Hf].
    assert (forall u v, E u v -> f u < f v) as R by (intros u v H; destruct (EN u v H); auto).
    set (heads := filter (fun v => existsb (fun u => differb u v) N) N).
    assert (forall v, In v heads <-> exists u, differ u v) as Hh.
    { intro v. unfold heads. rewrite filter_In, existsb_exists. split.
      - intros [_ [u [_ Hu]]]. exists u. apply differb_p. auto.
      - intros [u Hu]. destruct (EN u v (proj1 Hu)). split; auto. exists u. split; auto. apply differb_p. auto. }
    destruct (argmin f heads) as [y [Hy Miny]].
    { intro Z. assert (In v0 heads) as Q by (apply Hh; eauto). rewrite Z in Q. destruct Q. }
    set (tails := filter (fun u => differb u y) N).
    assert (forall u, In u tails <-> differ u y) as Ht.
    { intro u. unfold tails. rewrite filter_In. split; [intros [_ Q]; apply differb_p; auto|].
      intro Q. split; [exact (proj1 (EN u y (proj1 Q)))|apply differb_p; auto]. }
    apply Hh in Hy. destruct Hy as [u1 Hu1].
    destruct (argmax f tails) as [x [Hx Maxx]].
    { intro Z. assert (In u1 tails) as Q by (apply Ht; auto). rewrite Z in Q. destruct Q. }
    apply Ht in Hx. exists x, y. split; auto.
    assert (forall u v, differ u v -> f y <= f v) as Min by (intros u v Q; apply Miny, Hh; eauto).
    assert (forall u, differ u y -> f u <= f x) as Max by (intros u Q; apply Maxx, Ht; auto).
    destruct Hx as [Hxy Fyx]. assert (f x < f y) as Lxy by auto. destruct EF as [A V].
    split; auto. intros z Nz. split; intro Hz.
    - (* z -> y *)
      assert (adjacent E z x) as Az.
      { destruct (E_dec z x) as [|n1]; [left; auto|]. destruct (E_dec x z) as [|n2]; [right; auto|]. exfalso.
        assert (vstruct E x y z) as Q.
        { split; [auto|]. split; [auto|]. split; [auto|]. intros [Q|Q]; auto. }
        apply V in Q. destruct Q as [Q _]. exact (acyclic_asym F AF _ _ Q Fyx). }
      destruct Az as [|Q]; auto. exfalso.
      assert (F x z) as Fxz. { destruct (keep_or_differ _ _ Q) as [|Dz]; auto. apply Min in Dz. apply R in Hz. lia. }
      assert (F z y) as Fzy. { destruct (keep_or_differ _ _ Hz) as [|Dz]; auto. apply Max in Dz. apply R in Q. lia. }
      apply (AF x). econstructor; [exact Fxz|]. econstructor; [exact Fzy|]. econstructor; [exact Fyx|constructor].
    - (* z -> x *)
      assert (adjacent E z y) as Az.
      { destruct (E_dec z y) as [|n1]; [left; auto|]. destruct (E_dec y z) as [|n2]; [right; auto|]. exfalso.
        destruct (keep_or_differ _ _ Hz) as [Fzx|Dz].
        - assert (vstruct F z x y) as Q.
          { split; [auto|]. split; [auto|]. split; [intro; subst; auto; exact (acyclic_asym E AE _ _ Hxy Hz)|].
            intro Q. apply A in Q. destruct Q; auto. }
          apply V in Q. destruct Q as [_ [Q _]]. exact (acyclic_asym E AE _ _ Hxy Q).
        - apply Min in Dz. lia. }
      destruct Az as [|Q]; auto. exfalso. apply R in Hz. apply R in Q. lia.
  Qed.
End Differ.

(* ---------- the sequence of reversals ---------- *)
Definition ndiff (E F : nat -> nat -> Prop) (Ed : forall u v, {E u v} + {~ E u v}) (Fd : forall u v, {F u v} + {~ F u v}) (N : list nat) : nat :=
  length (filter (fun p => differb E F Ed Fd (fst p) (snd p)) (list_prod N N)).

Lemma filter_shrinks : forall {A} (p q : A -> bool) l a, (forall b, q b = true -> p b = true) -> In a l -> p a = true -> q a = false ->
  length (filter q l) < length (filter p l).
Proof.
  intros A p q l a I H P Qa. assert (forall k, length (filter q k) <= length (filter p k)) as L.
  { induction k as [|b k IH]; simpl; auto. destruct (q b) eqn:Qb; [rewrite (I b Qb); simpl; lia|]. destruct (p b); simpl; lia. }
  induction l as [|b l IH]; [destruct H|]. simpl. destruct H as [->|H].
  - rewrite P, Qa. simpl. specialize (L l). lia.
  - specialize (IH H). destruct (q b) eqn:Qb; [rewrite (I b Qb); simpl; lia|]. destruct (p b); simpl; lia.
Qed.

Definition turned_dec (E : nat -> nat -> Prop) (Ed : forall u v, {E u v} + {~ E u v}) (x y u v : nat) :
  {turned E x y u v} + {~ turned E x y u v}.
Proof.
  unfold turned. destruct (Nat.eq_dec u x), (Nat.eq_dec v y), (Nat.eq_dec u y), (Nat.eq_dec v x), (Ed u v); tauto.
Defined.

Theorem equivalent_by_turns : forall E F N,
  (forall u v, {E u v} + {~ E u v}) -> (forall u v, {F u v} + {~ F u v}) ->
  NoDup N -> (forall u v, E u v -> In u N /\ In v N) ->
  acyclic E -> acyclic F -> markov_equiv E F -> by_covered_turns F E.
Proof.
  intros E F N Ed Fd ND EN AE AF EF. remember (ndiff E F Ed Fd N) as k eqn:K.
  revert E Ed EN AE EF K. induction k as [k IH] using lt_wf_ind. intros E Ed EN AE EF K.
  assert ((exists u v, differ E F u v) \/ ~ exists u v, differ E F u v) as [D|D].
  { destruct (filter (fun p => differb E F Ed Fd (fst p) (snd p)) (list_prod N N)) as [|[u v] r] eqn:Q.
    - right. intros [u [v D]]. destruct (EN u v (proj1 D)) as [Hu Hv].
      assert (In (u, v) (filter (fun p => differb E F Ed Fd (fst p) (snd p)) (list_prod N N))) as I.
      { apply filter_In. split; [apply in_prod; auto|]. apply differb_p. auto. }
      rewrite Q in I. destruct I.
    - left. assert (In (u, v) (filter (fun p => differb E F Ed Fd (fst p) (snd p)) (list_prod N N))) as I by (rewrite Q; left; auto).
      apply filter_In in I. exists u, v. apply (differb_p E F Ed Fd). tauto. }
  - destruct (covered_difference E F Ed Fd N ND EN AE AF EF D) as [x [y [Dxy Cov]]].
    apply (turns_step F E x y Cov).
    assert (In x N /\ In y N) as [Hx Hy] by (apply EN; exact (proj1 Dxy)).
    apply (IH (ndiff (turned E x y) F (turned_dec E Ed x y) Fd N)) with (Ed := turned_dec E Ed x y); auto.
    + subst k. unfold ndiff. apply (filter_shrinks _ _ _ (x, y)).
      * intros [u v] Q. simpl in *. apply differb_p in Q. apply differb_p. destruct Q as [[[Q _]|[-> ->]] Q2]; [split; auto|].
        exfalso. exact (acyclic_asym F AF _ _ Q2 (proj2 Dxy)).
      * apply in_prod; auto.
      * apply differb_p. auto.
      * simpl. apply Bool.not_true_is_false. intro Q. apply differb_p in Q. destruct Q as [[[_ Q]|[Q1 Q2]] _]; [apply Q; auto|].
        exact (cov_neq E x y AE Cov (eq_sym Q2)).
    + intros u v [[Q _]|[-> ->]]; auto.
    + apply turned_acyclic; auto.
    + eapply equiv_trans; [apply equiv_sym, turned_equiv; auto|]. auto.
  - apply turns_done. intros u v. split; intro H.
    + destruct (keep_or_differ E F EF u v H) as [|Q]; auto. exfalso. apply D. eauto.
    + destruct EF as [A _]. destruct (proj2 (A u v) (or_introl H)) as [|Q]; auto. exfalso. apply D. exists v, u. split; auto.
Qed.

(** Conversely, turning covered edges of a DAG gives an equivalent DAG. *)
Theorem turns_equivalent : forall F E, by_covered_turns F E -> acyclic E -> acyclic F /\ markov_equiv E F.
Proof.
  intros F E T. induction T as [E H|E x y C T IH]; intro AE.
  - split; [exact (proj1 (acyclic_ext E F H) AE)|]. split; [exact (adjacent_ext E F H)|exact (vstruct_ext E F H)].
  - destruct (IH (turned_acyclic E x y AE C)) as [AF Q]. split; auto. exact (equiv_trans _ _ _ (turned_equiv E x y AE C) Q).
Qed.
