(** Meek's completeness theorem: the edges derivable from the v-structures by
    the first three rules are exactly the compelled ones. *)

From Coq Require Import List Arith Bool Lia Permutation.
From Verif Require Import Spec.Digraphs Proofs.FinGraph Proofs.Chordal.
Import ListNotations.

Lemma ex_dec : forall (P : nat -> Prop) l, (forall x, P x \/ ~ P x) ->
  (exists x, In x l /\ P x) \/ ~ (exists x, In x l /\ P x).
Proof.
  intros P l D. induction l as [|a l IH]; [right; intros [x [[] _]]|].
  destruct (D a) as [H|H]; [left; exists a; simpl; auto|].
  destruct IH as [[x [Hx Px]]|IH]; [left; exists x; simpl; auto|].
  right. intros [x [[<-|Hx] Px]]; eauto.
Qed.

Section Complete.
  Variable E : nat -> nat -> Prop.
  Hypothesis Edec : forall u v, {E u v} + {~ E u v}.
  Variable V : list nat.
  Hypothesis ndV : NoDup V.
  Hypothesis EV : forall u v, E u v -> In u V /\ In v V.
  Hypothesis Ac : acyclic E.

  Notation adj := (adjacent E).
  Notation vs := (vstruct E).

  Lemma adj_sym : forall a b, adj a b -> adj b a.
  Proof using. unfold adjacent. tauto. Qed.
  Lemma adj_dec : forall a b, adj a b \/ ~ adj a b.
  Proof using Edec. intros. unfold adjacent. destruct (Edec a b), (Edec b a); tauto. Qed.
  Lemma vs_dec : forall a b c, vs a b c \/ ~ vs a b c.
  Proof using Edec.
    intros. unfold vstruct. destruct (Edec a b), (Edec c b), (Nat.eq_dec a c), (adj_dec a c); tauto.
  Qed.
  Lemma vs_sym : forall a b c, vs a b c -> vs c b a.
  Proof using. unfold vstruct, adjacent. intuition. Qed.
  Lemma Eas : forall a b, E a b -> ~ E b a.
  Proof using Ac. apply acyclic_asym. auto. Qed.

  Inductive MD : nat -> nat -> Prop :=
  | md_0 : forall a b c, vs a b c -> MD a b
  | md_1 : forall a b c, MD a b -> adj b c -> a <> c -> ~ adj a c -> ~ vs a b c -> MD b c
  | md_2 : forall a b c, MD a b -> MD b c -> adj a c -> MD a c
  | md_3 : forall a b p q, adj a b -> adj a p -> adj a q -> MD p b -> MD q b ->
      p <> q -> ~ adj p q -> ~ vs p a q -> MD a b.

  (* ---------- soundness ---------- *)
  Lemma MD_compelled : forall E', acyclic E' -> markov_equiv E E' -> forall a b, MD a b -> E' a b.
  Proof using.
    intros E' Ac' [HA HV] a b D.
    assert (Tri : forall x y z, E' x y -> E' y z -> E' z x -> False).
    { intros x y z H1 H2 H3. apply (Ac' x). econstructor; eauto. econstructor; eauto. econstructor; eauto. constructor. }
    induction D as [a b c H|a b c D1 I1 H1 N1 H2 H3|a b c D1 I1 D2 I2 H1|a b p q H1 H2 H3 D1 I1 D2 I2 N1 H4 H5].
    - apply HV in H. apply H.
    - apply HA in H1. destruct H1 as [H1|H1]; auto. exfalso. apply H3. apply HV.
      split; auto. split; auto. split; auto. rewrite <- HA. auto.
    - apply HA in H1. destruct H1 as [H1|H1]; auto. exfalso. eauto.
    - apply HA in H1, H2, H3. destruct H1 as [H1|H1]; auto. exfalso.
      destruct H2 as [H2|H2]; [eauto|]. destruct H3 as [H3|H3]; [eauto|].
      apply H5. apply HV. split; auto. split; auto. split; auto. rewrite <- HA. auto.
  Qed.

  Lemma self_equiv : markov_equiv E E.
  Proof using. split; tauto. Qed.
  Lemma MD_E : forall a b, MD a b -> E a b.
  Proof using Ac. intros. apply MD_compelled; auto. apply self_equiv. Qed.
  Lemma MD_as : forall a b, MD a b -> ~ MD b a.
  Proof using Ac. intros a b H1 H2. apply MD_E in H1, H2. eapply Eas; eauto. Qed.
  Lemma MD_adj : forall a b, MD a b -> adj a b.
  Proof using Ac. intros a b H. left. apply MD_E. auto. Qed.

  (* ---------- decidability ---------- *)
  Definition fire (L : list (nat * nat)) (a b : nat) : Prop :=
    (exists c, In c V /\ vs a b c) \/
    (exists z, In z V /\ (In (z, a) L /\ adj a b /\ z <> b /\ ~ adj z b /\ ~ vs z a b)) \/
    (exists z, In z V /\ (In (a, z) L /\ In (z, b) L /\ adj a b)) \/
    (exists p, In p V /\ exists q, In q V /\ (adj a b /\ adj a p /\ adj a q /\ In (p, b) L /\ In (q, b) L /\
       p <> q /\ ~ adj p q /\ ~ vs p a q)).

  Lemma inL_dec : forall (x : nat * nat) L, In x L \/ ~ In x L.
  Proof using.
    intros x L. assert (D : forall y z : nat * nat, {y = z} + {y <> z}) by (decide equality; apply Nat.eq_dec).
    destruct (in_dec D x L); auto.
  Qed.

  Lemma and_dec : forall P Q, (P \/ ~ P) -> (Q \/ ~ Q) -> (P /\ Q) \/ ~ (P /\ Q).
  Proof using. tauto. Qed.
  Lemma not_dec : forall P, (P \/ ~ P) -> (~ P) \/ ~ (~ P).
  Proof using. tauto. Qed.
  Lemma neq_dec : forall a b : nat, a <> b \/ ~ a <> b.
  Proof using. intros. destruct (Nat.eq_dec a b); auto. Qed.

  Lemma fire_dec : forall L a b, fire L a b \/ ~ fire L a b.
  Proof using Edec.
    intros L a b. unfold fire.
    assert (OD : forall P Q, (P \/ ~ P) -> (Q \/ ~ Q) -> (P \/ Q) \/ ~ (P \/ Q)) by (intros; tauto).
    assert (N := neq_dec). assert (A := adj_dec). assert (VD := vs_dec). assert (I := inL_dec).
    repeat apply OD; apply ex_dec; intro x.
    - auto.
    - repeat apply and_dec; auto; apply not_dec; auto.
    - repeat apply and_dec; auto.
    - apply ex_dec. intro y. repeat apply and_dec; auto; apply not_dec; auto.
  Qed.

  Lemma pair_search : forall (P : nat * nat -> Prop) l, (forall x, P x \/ ~ P x) ->
    (exists x, In x l /\ P x) \/ (forall x, In x l -> ~ P x).
  Proof using.
    intros P l D. induction l as [|a l IH]; [right; intros x []|].
    destruct (D a) as [H|H]; [left; exists a; simpl; auto|].
    destruct IH as [[x [Hx Px]]|IH]; [left; exists x; simpl; auto|].
    right. intros x [<-|Hx]; auto.
  Qed.

  Lemma fire_MD : forall L a b, (forall x y, In (x, y) L -> MD x y) -> fire L a b -> MD a b.
  Proof using.
    intros L a b HL [[c [_ H]]|[[z [_ H]]|[[z [_ H]]|[p [_ [q [_ H]]]]]]].
    - eapply md_0; eauto.
    - destruct H as [H1 [H2 [H3 [H4 H5]]]]. eapply md_1; eauto.
    - destruct H as [H1 [H2 H3]]. eapply md_2; eauto.
    - destruct H as [H1 [H2 [H3 [H4 [H5 [H6 [H7 H8]]]]]]]. eapply md_3 with (p := p) (q := q); eauto.
  Qed.

  Lemma saturate : forall n L, length V * length V - length L <= n -> NoDup L -> incl L (list_prod V V) ->
    (forall x y, In (x, y) L -> MD x y) ->
    exists L', (forall x y, In (x, y) L' -> MD x y) /\ forall a b, In a V -> In b V -> fire L' a b -> In (a, b) L'.
  Proof using Edec.
    induction n as [|n IH]; intros L Ln ND I HL.
    - assert (H : incl (list_prod V V) L).
      { apply NoDup_length_incl; auto. rewrite prod_length. lia. }
      exists L. split; auto. intros a b Ha Hb _. apply H. apply in_prod; auto.
    - destruct (pair_search (fun p => fire L (fst p) (snd p) /\ ~ In p L) (list_prod V V)) as [[[a b] [Hp [Hf Hn]]]|H].
      + intro p. apply and_dec; [apply fire_dec|apply not_dec, inL_dec].
      + apply (IH ((a, b) :: L)).
        * simpl. assert (length L < length V * length V); [|lia].
          rewrite <- prod_length. assert (Q : NoDup ((a, b) :: L)) by (constructor; auto).
          apply NoDup_incl_length with (l' := list_prod V V) in Q; [simpl in Q; lia|].
          intros x [<-|Hx]; auto.
        * constructor; auto.
        * intros x [<-|Hx]; auto.
        * intros x y [Q|Hx]; auto. inversion Q; subst. eapply fire_MD; eauto.
      + exists L. split; auto. intros a b Ha Hb Hf.
        destruct (inL_dec (a, b) L) as [Q|Q]; auto. exfalso. apply (H (a, b)); [apply in_prod; auto|auto].
  Qed.

  Lemma adjV : forall a b, adj a b -> In a V /\ In b V.
  Proof using EV. intros a b [H|H]; apply EV in H; tauto. Qed.

  Lemma MD_decb : exists m : nat -> nat -> bool, forall a b, m a b = true <-> MD a b.
  Proof using Edec EV Ac.
    destruct (saturate (length V * length V) [] ltac:(simpl; lia) ltac:(constructor) ltac:(intros ? []) ltac:(intros ? ? []))
      as [L [HL HC]].
    assert (D : forall y z : nat * nat, {y = z} + {y <> z}) by (decide equality; apply Nat.eq_dec).
    exists (fun a b => if in_dec D (a, b) L then true else false).
    intros a b. destruct (in_dec D (a, b) L) as [H|H]; split; intro Q; auto; try discriminate.
    exfalso. apply H. clear H. induction Q as [a b c H|a b c D1 I1 H1 N1 H2 H3|a b c D1 I1 D2 I2 H1|a b p q H1 H2 H3 D1 I1 D2 I2 N1 H4 H5].
    - destruct H as [H1 [H2 [H3 H4]]]. destruct (EV _ _ H1), (EV _ _ H2). apply HC; auto.
      left. exists c. split; auto. split; auto.
    - destruct (adjV _ _ H1). apply HC; auto. right. left. exists a. split; auto.
      apply MD_adj in D1. apply adjV in D1. tauto.
    - destruct (adjV _ _ H1). apply HC; auto. right. right. left. exists b. split; auto.
      apply MD_adj in D1. apply adjV in D1. tauto.
    - destruct (adjV _ _ H1), (adjV _ _ H2), (adjV _ _ H3). apply HC; auto. right. right. right.
      exists p. split; auto. exists q. auto 10.
  Qed.

  (* ---------- Meek's first lemma ---------- *)
  Definition und (a b : nat) : Prop := adj a b /\ ~ MD a b /\ ~ MD b a.
  Lemma und_sym : forall a b, und a b -> und b a.
  Proof using. intros a b [H1 [H2 H3]]. split; auto. apply adj_sym. auto. Qed.

  Hypothesis MDdec : forall a b, MD a b \/ ~ MD a b.

  Lemma adj_cases : forall a b, adj a b -> MD a b \/ MD b a \/ und a b.
  Proof using MDdec. intros a b H. unfold und. destruct (MDdec a b), (MDdec b a); tauto. Qed.

  (** a directed edge into an undirected edge: the outer nodes are adjacent. *)
  Lemma tri_adj : forall a b c, MD a b -> und b c -> adj a c.
  Proof using Edec.
    intros a b c D [U1 [U2 U3]]. destruct (adj_dec a c) as [H|H]; auto. exfalso. apply U2.
    eapply md_1; eauto.
    - intros ->. auto.
    - intro Q. apply U3. apply vs_sym in Q. eapply md_0; eauto.
  Qed.

  Lemma meek1 : forall a b, MD a b -> forall c, und b c -> MD a c.
  Proof using Edec Ac MDdec.
    intros a b D. induction D as [a b d H|z a b D1 I1 H1 N1 H2 H3|a d b D1 I1 D2 I2 H1|a b p q H1 H2 H3 D1 I1 D2 I2 N1 H4 H5]; intros c U.
    - assert (Da : MD a b) by (eapply md_0; eauto). assert (Dd : MD d b) by (apply vs_sym in H; eapply md_0; eauto).
      assert (Ua := tri_adj _ _ _ Da U). assert (Ud := tri_adj _ _ _ Dd U).
      destruct U as [U1 [U2 U3]].
      destruct (adj_cases _ _ Ua) as [Q|[Q|Q]]; auto.
      { exfalso. apply U3. eapply md_2; [exact Q|exact Da|]. apply adj_sym. auto. }
      exfalso. destruct H as [E1 [E2 [N Na]]].
      destruct (adj_cases _ _ Ud) as [R|[R|R]].
      + destruct Q as [Q1 [Q2 Q3]]. apply Q3. apply (md_1 d c a R); auto.
        * apply adj_sym. auto.
        * intro Z. apply Na. apply adj_sym. auto.
        * intro Z. apply Q2. apply vs_sym in Z. eapply md_0; eauto.
      + apply U3. eapply md_2; [exact R|exact Dd|]. apply adj_sym. auto.
      + apply U3. apply (md_3 c b a d); auto.
        * apply adj_sym. auto.
        * apply adj_sym. auto.
        * apply adj_sym. auto.
        * intro Z. destruct Q as [_ [Q2 _]]. apply Q2. eapply md_0; eauto.
    - assert (Da : MD a b) by (eapply md_1; eauto). assert (Ua := tri_adj _ _ _ Da U).
      destruct (adj_cases _ _ Ua) as [Q|[Q|Q]]; auto.
      + exfalso. destruct U as [U1 [U2 U3]]. apply U3. eapply md_2; [exact Q|exact Da|]. apply adj_sym. auto.
      + exfalso. assert (R := I1 c Q). destruct U as [U1 [U2 U3]]. apply U3. apply (md_1 z c b R); auto.
        * apply adj_sym. auto.
        * intro Z. apply U2. apply vs_sym in Z. eapply md_0; eauto.
    - assert (Da : MD a b) by (eapply md_2; eauto). assert (Ua := tri_adj _ _ _ Da U).
      eapply md_2; [exact D1|apply I2; auto|auto].
    - assert (Da : MD a b) by (eapply md_3 with (p := p) (q := q); eauto). assert (Ua := tri_adj _ _ _ Da U).
      eapply md_3 with (p := p) (q := q); auto.
  Qed.

  (* ---------- reorienting the undirected part ---------- *)
  Lemma und_irr : forall a, ~ und a a.
  Proof using Ac. intros a [[H|H] _]; eapply Eas; eauto. Qed.

  Lemma und_shield : forall x y z, und x z -> und y z -> E x z -> E y z -> x <> y -> und x y.
  Proof using Edec Ac MDdec.
    intros x y z U1 U2 E1 E2 N.
    destruct (adj_dec x y) as [A|A].
    - destruct (adj_cases _ _ A) as [Q|[Q|Q]]; auto; exfalso.
      + assert (R := meek1 _ _ Q z U2). destruct U1 as [_ [U1 _]]. auto.
      + assert (R := meek1 _ _ Q z U1). destruct U2 as [_ [U2 _]]. auto.
    - exfalso. destruct U1 as [_ [U1 _]]. apply U1. apply (md_0 x z y). repeat split; auto.
  Qed.

  Section Combine.
    Variable F : nat -> nat -> Prop.
    Hypothesis Fund : forall x y, F x y -> und x y.
    Hypothesis Ftot : forall x y, und x y -> F x y \/ F y x.
    Hypothesis Fac : acyclic F.
    Hypothesis Fsh : forall x y z, F x z -> F y z -> x <> y -> und x y.

    Definition comb (x y : nat) : Prop := MD x y \/ F x y.

    Lemma comb_adj : forall x y, adj x y <-> adjacent comb x y.
    Proof using Ac MDdec Fund Ftot.
      intros x y. split.
      - intro A. destruct (adj_cases _ _ A) as [Q|[Q|Q]]; [left; left; auto|right; left; auto|].
        destruct (Ftot _ _ Q); [left|right]; right; auto.
      - intros [[H|H]|[H|H]].
        + apply MD_adj. auto.
        + apply Fund in H. apply H.
        + apply adj_sym, MD_adj. auto.
        + apply Fund in H. apply adj_sym, H.
    Qed.

    Lemma comb_equiv : markov_equiv E comb.
    Proof using Edec Ac MDdec Fund Ftot Fsh.
      split; [apply comb_adj|]. intros u w v. split.
      - intro H. assert (H' := vs_sym _ _ _ H). split; [left; eapply md_0; eauto|]. split; [left; eapply md_0; eauto|].
        split; [apply H|]. rewrite <- comb_adj. apply H.
      - intros [[H1|H1] [[H2|H2] [N A]]]; rewrite <- comb_adj in A.
        + split; [apply MD_E; auto|]. split; [apply MD_E; auto|]. auto.
        + exfalso. apply A. apply MD_adj. apply (meek1 _ _ H1). apply und_sym. auto.
        + exfalso. apply A. apply adj_sym. apply MD_adj. apply (meek1 _ _ H2). apply und_sym. auto.
        + exfalso. apply A. apply (Fsh u v w); auto.
    Qed.

    Lemma comb_contract : forall y z, dpath comb y z -> forall x, MD x y -> dpath1 MD x z.
    Proof using Edec Ac MDdec Fund.
      intros y z P. induction P as [y|y y' z [H|H] P IH]; intros x D.
      - econstructor; [exact D|constructor].
      - specialize (IH y H). econstructor; [exact D|]. inversion IH; subst. econstructor; eauto.
      - apply IH. apply (meek1 _ _ D). auto.
    Qed.

    Lemma dpath_trans' : forall (R : nat -> nat -> Prop) a b c, dpath R a b -> dpath R b c -> dpath R a c.
    Proof using. intros R a b c P Q. induction P; auto. econstructor; eauto. Qed.

    Lemma comb_split : forall u v, dpath comb u v -> dpath F u v \/
      exists x y, dpath comb u x /\ MD x y /\ dpath comb y v.
    Proof using.
      intros u v P. induction P as [u|u y v [H|H] P IH].
      - left. constructor.
      - right. exists u, y. split; [constructor|]. auto.
      - destruct IH as [IH|[x [y' [P1 [D P2]]]]].
        + left. econstructor; eauto.
        + right. exists x, y'. split; auto. econstructor; [right; exact H|auto].
    Qed.

    Lemma MD_dpath : forall a b, dpath MD a b -> dpath E a b.
    Proof using Ac. intros a b P. induction P; [constructor|]. econstructor; eauto. apply MD_E. auto. Qed.
    Lemma MD_acyclic : forall a, ~ dpath1 MD a a.
    Proof using Ac.
      intros a H. inversion H; subst. apply (Ac a). econstructor; [apply MD_E; eauto|]. apply MD_dpath. auto.
    Qed.

    Lemma comb_acyclic : acyclic comb.
    Proof using Edec Ac MDdec Fund Fac.
      intros u C. inversion C as [a b c H P]; subst.
      destruct H as [H|H].
      - apply (MD_acyclic u). eapply comb_contract; eauto.
      - destruct (comb_split _ _ P) as [Q|[x [y [P1 [D P2]]]]].
        + apply (Fac u). econstructor; eauto.
        + apply (MD_acyclic x). eapply comb_contract; [|exact D].
          eapply dpath_trans'; [exact P2|]. econstructor; [right; exact H|]. exact P1.
    Qed.
  End Combine.

  Lemma reversible : forall a b, und a b -> exists E', acyclic E' /\ markov_equiv E E' /\ E' b a.
  Proof using Edec ndV EV Ac MDdec.
    intros a b Uab.
    destruct MD_decb as [m Hm].
    assert (Udec : forall x y, {und x y} + {~ und x y}).
    { intros x y. destruct (Edec x y) as [H1|H1].
      - destruct (m x y) eqn:M1; [right; intros [_ [Q _]]; apply Q, Hm; auto|].
        destruct (m y x) eqn:M2; [right; intros [_ [_ Q]]; apply Q, Hm; auto|].
        left. split; [left; auto|]. rewrite <- !Hm, M1, M2. split; discriminate.
      - destruct (Edec y x) as [H2|H2].
        + destruct (m x y) eqn:M1; [right; intros [_ [Q _]]; apply Q, Hm; auto|].
          destruct (m y x) eqn:M2; [right; intros [_ [_ Q]]; apply Q, Hm; auto|].
          left. split; [right; auto|]. rewrite <- !Hm, M1, M2. split; discriminate.
        + right. intros [[Q|Q] _]; auto. }
    destruct (rank_exists E Edec V Ac ndV) as [l [PL T]].
    assert (NDl : NoDup l) by (eapply Permutation_NoDup; [apply Permutation_sym; eauto|auto]).
    assert (P : peo und (rev l)).
    { apply peo_of_topo with (E := E); auto.
      - intros x y [H _]. auto.
      - intros. eapply und_shield; eauto.
      - apply und_sym. }
    assert (InL : forall x, In x (rev l) <-> In x V).
    { intro x. rewrite <- in_rev. split; [apply Permutation_in; auto|apply Permutation_in, Permutation_sym; auto]. }
    assert (Hab : In a V /\ In b V) by (apply adjV, Uab).
    destruct (reroot und und_sym und_irr Udec (length (rev l)) (rev l) b eq_refl P) as [l0 [P0 H0]]; [apply InL; tauto|].
    set (F := orient und (l0 ++ [b])).
    assert (FU : forall x y, F x y -> und x y) by (intros x y H; apply H).
    assert (FT : forall x y, und x y -> F x y \/ F y x).
    { intros x y H. assert (Q := adjV _ _ (proj1 H)). apply orient_total; auto.
      - apply und_sym. - apply und_irr. - apply H0, InL; tauto. - apply H0, InL; tauto. }
    exists (comb F). split; [|split].
    - apply comb_acyclic; auto. apply orient_acyclic.
    - apply comb_equiv; auto. intros. eapply orient_shield; eauto. apply und_sym.
    - right. apply orient_root; auto.
      + apply und_irr. + apply H0, InL. tauto. + apply und_sym. auto.
  Qed.
End Complete.

(** The derivable edges are exactly the compelled edges. *)
Theorem MD_iff_compelled : forall E V, (forall u v, {E u v} + {~ E u v}) -> NoDup V ->
  (forall u v, E u v -> In u V /\ In v V) -> acyclic E -> forall a b, adjacent E a b ->
  (MD E a b <-> forall E', acyclic E' -> markov_equiv E E' -> E' a b).
Proof.
  intros E V Edec ndV EV Ac a b A. split.
  - intros D E' A' M. eapply MD_compelled; eauto.
  - intro H. destruct (MD_decb E Edec V EV Ac) as [m Hm].
    assert (MDdec : forall x y, MD E x y \/ ~ MD E x y).
    { intros x y. rewrite <- Hm. destruct (m x y); auto. }
    destruct (MDdec a b) as [D|D]; auto. exfalso.
    destruct (MDdec b a) as [D'|D'].
    + assert (H1 := H E Ac (self_equiv E)). apply MD_E in D'; auto. eapply Eas; eauto.
    + destruct (reversible E Edec V ndV EV Ac MDdec a b) as [E' [A' [M R]]]; [split; auto|].
      assert (H1 := H E' A' M). eapply acyclic_asym; eauto.
Qed.

Lemma MD_or_not : forall E V, (forall u v, {E u v} + {~ E u v}) ->
  (forall u v, E u v -> In u V /\ In v V) -> acyclic E -> forall a b, MD E a b \/ ~ MD E a b.
Proof.
  intros E V Edec EV Ac a b. destruct (MD_decb E Edec V EV Ac) as [m Hm].
  rewrite <- Hm. destruct (m a b); auto.
Qed.
