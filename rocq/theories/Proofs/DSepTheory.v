(** Theory of active walks and paths over a bare edge relation. *)

From Coq Require Import List Arith Lia Bool Wf_nat ListDec.
From Verif Require Import Spec.Digraphs.
Import ListNotations.

Section Theory.
  Variable E : nat -> nat -> Prop.
  Hypothesis E_dec : forall u v, {E u v} + {~ E u v}.
  Hypothesis E_asym : forall u v, E u v -> ~ E v u.

  Notation dpath := (dpath E).
  Notation dpath1 := (dpath1 E).
  Notation adjacent := (adjacent E).
  Notation linked := (linked E).
  Notation open_triple := (open_triple E).
  Notation open_triples := (open_triples E).

  Lemma dpath_trans : forall a b c, dpath a b -> dpath b c -> dpath a c.
  Proof using. intros a b c H. induction H; auto. intro. econstructor; eauto. Qed.

  Lemma dpath_snoc : forall a b c, dpath a b -> E b c -> dpath a c.
  Proof using. intros. eapply dpath_trans; eauto. econstructor; eauto. constructor. Qed.

  Lemma dpath_cases : forall a b, dpath a b -> a = b \/ dpath1 a b.
  Proof using. intros a b H. destruct H; auto. right. econstructor; eauto. Qed.

  Lemma dpath1_dpath : forall a b, dpath1 a b -> dpath a b.
  Proof using. intros a b H. destruct H. econstructor; eauto. Qed.

  Lemma dpath1_trans_l : forall a b c, dpath1 a b -> dpath b c -> dpath1 a c.
  Proof using. intros a b c H H'. destruct H. econstructor; eauto. eapply dpath_trans; eauto. Qed.

  Lemma dpath1_trans_r : forall a b c, dpath a b -> dpath1 b c -> dpath1 a c.
  Proof using.
    intros a b c H H'. destruct H; auto. econstructor; eauto.
    eapply dpath_trans; eauto. apply dpath1_dpath; auto.
  Qed.

  Lemma dpath1_snoc : forall a b c, dpath a b -> E b c -> dpath1 a c.
  Proof using. intros. eapply dpath1_trans_r; eauto. econstructor; eauto. constructor. Qed.

  Lemma adjacent_sym : forall a b, adjacent a b -> adjacent b a.
  Proof using. unfold Digraphs.adjacent. tauto. Qed.

  Lemma adjacent_irrefl : forall a, ~ adjacent a a.
  Proof using E_asym. intros a [H|H]; eapply E_asym; eauto. Qed.

  Lemma open_triple_sym : forall Z a b c, open_triple Z a b c -> open_triple Z c b a.
  Proof using. unfold Digraphs.open_triple. intros Z a b c [H1 H2]. split; tauto. Qed.

  (* ----- lists ----- *)
  Lemma linked_app : forall l1 a l2,
    linked (l1 ++ a :: l2) <-> linked (l1 ++ [a]) /\ linked (a :: l2).
  Proof using.
    induction l1 as [|x l1 IH]; intros a l2; simpl.
    - tauto.
    - destruct l1 as [|y l1]; simpl in *.
      + tauto.
      + rewrite IH. tauto.
  Qed.

  Lemma open_app : forall Z l1 a b l2,
    open_triples Z (l1 ++ a :: b :: l2) <->
    open_triples Z (l1 ++ [a; b]) /\ open_triples Z (a :: b :: l2).
  Proof using.
    induction l1 as [|x l1 IH]; intros a b l2.
    - simpl. tauto.
    - destruct l1 as [|y [|y' l1]].
      + simpl. tauto.
      + specialize (IH a b l2). simpl in *. tauto.
      + specialize (IH a b l2). simpl in *. tauto.
  Qed.

  Lemma open_app1 : forall Z l1 a b l2,
    open_triples Z (l1 ++ a :: b :: l2) -> open_triples Z (a :: b :: l2).
  Proof using. intros. apply open_app in H. tauto. Qed.

  Lemma open_suffix : forall Z l1 l2, open_triples Z (l1 ++ l2) -> open_triples Z l2.
  Proof using.
    induction l1 as [|x l1 IH]; simpl; auto. intros l2 H.
    apply IH. destruct (l1 ++ l2) as [|a [|b l]]; simpl; auto. tauto.
  Qed.

  Lemma linked_suffix : forall l1 l2, linked (l1 ++ l2) -> linked l2.
  Proof using.
    induction l1 as [|x l1 IH]; simpl; auto. intros l2 H.
    apply IH. destruct (l1 ++ l2); simpl; auto. tauto.
  Qed.

  (** Splitting at a node: prefix, suffix and the triple centred there. *)
  Lemma open_mid : forall Z l1 p a n l2,
    open_triples Z (l1 ++ p :: a :: n :: l2) <->
    open_triples Z (l1 ++ [p; a]) /\ open_triple Z p a n /\ open_triples Z (a :: n :: l2).
  Proof using. intros. rewrite open_app. simpl. tauto. Qed.

  Lemma open_prefix : forall Z l1 l2, open_triples Z (l1 ++ l2) -> open_triples Z l1.
  Proof using.
    intros Z l1 l2. revert l1. induction l1 as [|a l1 IH]; simpl; auto.
    destruct l1 as [|b [|c l1]]; simpl in *; auto. tauto.
  Qed.

  Lemma linked_prefix : forall l1 l2, linked (l1 ++ l2) -> linked l1.
  Proof using.
    intros l1 l2. induction l1 as [|a l1 IH]; simpl; auto.
    destruct l1 as [|b l1]; simpl in *; auto. tauto.
  Qed.

  Lemma linked_rev : forall p, linked p -> linked (rev p).
  Proof using.
    induction p as [|a [|b p] IH]; simpl; auto. intros [H1 H2].
    specialize (IH H2). simpl in IH. rewrite <- app_assoc. simpl.
    apply linked_app. split; auto. simpl. split; auto. apply adjacent_sym. auto.
  Qed.

  Lemma open_rev : forall Z p, open_triples Z p -> open_triples Z (rev p).
  Proof using.
    induction p as [|a [|b [|c p]] IH]; simpl; auto. intros [H1 H2].
    specialize (IH H2). simpl in IH. rewrite <- !app_assoc in *. simpl in *.
    apply (open_mid Z (rev p) c b a []). split; auto. split; simpl; auto.
    apply open_triple_sym. auto.
  Qed.

  Lemma rev_hd_last : forall (p : list nat) x d, hd_error p = Some x -> last (rev p) d = x.
  Proof using. intros [|a p] x d H; inversion H; subst. simpl. apply last_last. Qed.

  Lemma last_indep : forall (p : list nat) d d', p <> [] -> last p d = last p d'.
  Proof using.
    induction p as [|a [|b p] IH]; intros; simpl in *; auto; try congruence. apply IH. congruence.
  Qed.

  Lemma last_rev_hd : forall (p : list nat) d, p <> [] -> hd_error (rev p) = Some (last p d).
  Proof using.
    intros p d Hp. destruct (rev p) as [|a r] eqn:R.
    - apply (f_equal (@length nat)) in R. rewrite rev_length in R. destruct p; simpl in *; congruence.
    - simpl. f_equal. apply (f_equal (@rev nat)) in R. rewrite rev_involutive in R. simpl in R.
      rewrite R. symmetry. apply last_last.
  Qed.

  Theorem active_path_sym : forall Z x y p, active_path E Z x y p -> active_path E Z y x (rev p).
  Proof using.
    intros Z x y p [ND [Hh [Hl [Hx [Hy [L O]]]]]].
    assert (Hp : p <> []) by (destruct p; simpl in *; congruence).
    repeat split; auto.
    - apply NoDup_rev. auto.
    - rewrite (last_rev_hd p x Hp). congruence.
    - eapply rev_hd_last. eauto.
    - apply linked_rev. auto.
    - apply open_rev. auto.
  Qed.

  Theorem dsep_sym : forall Z x y, dsep E Z x y <-> dsep E Z y x.
  Proof using.
    assert (G : forall Z x y, dsep E Z x y -> dsep E Z y x).
    { intros Z x y H [p Hp]. apply H. exists (rev p). apply active_path_sym. auto. }
    split; apply G.
  Qed.

  Lemma destruct_last : forall l : list nat, l = [] \/ exists l' a, l = l' ++ [a].
  Proof using.
    intro l. destruct l as [|x l]; auto. right.
    destruct (exists_last (l := x :: l)) as [l' [a H]]; [discriminate|]. eauto.
  Qed.

  (* ----- first collider argument ----- *)
  (** A walk that leaves [a] along an arrow and arrives at its end against an
      arrow meets a collider below [a]. *)
  Lemma first_collider : forall Z r a b,
    linked (a :: b :: r) -> open_triples Z (a :: b :: r) ->
    E a b ->
    (exists l' p q, a :: b :: r = l' ++ [p; q] /\ E q p) ->
    exists d, Z d /\ dpath a d.
  Proof using E_asym.
    induction r as [|c r IH]; intros a b L O Hab [l' [p [q [Eq Hq]]]].
    - exfalso. destruct l' as [|? [|? ?]]; inversion Eq; subst; simpl in *.
      + eapply E_asym; eauto.
      + destruct l; simpl in *; discriminate.
    - simpl in L, O. destruct L as [_ [Lbc L]]. destruct O as [[O1 O2] O].
      destruct Lbc as [Hbc|Hcb].
      + destruct (IH b c) as [d [Zd Hd]]; auto.
        * simpl. split; auto. left; auto.
        * destruct l' as [|a' l']; inversion Eq; subst. exists l', p, q. auto.
        * exists d. split; auto. econstructor; eauto.
      + destruct O1 as [d [Zd Hd]]; auto. exists d. split; auto. econstructor; eauto.
  Qed.

  (** Splicing a walk at a repeated node keeps it active. *)
  Lemma splice : forall Z l1 w l2 l3,
    linked (l1 ++ w :: l2 ++ w :: l3) ->
    open_triples Z (l1 ++ w :: l2 ++ w :: l3) ->
    linked (l1 ++ w :: l3) /\ open_triples Z (l1 ++ w :: l3).
  Proof using E_asym E_dec.
    intros Z l1 w l2 l3 L O.
    assert (L1 : linked (l1 ++ [w])) by (apply linked_app in L; tauto).
    assert (L2 : linked (w :: l2 ++ w :: l3)) by (apply linked_app in L; tauto).
    assert (L3 : linked (w :: l3)).
    { apply (linked_suffix (w :: l2)). auto. }
    split. { apply linked_app. auto. }
    assert (O3 : open_triples Z (w :: l3)).
    { apply (open_suffix Z (l1 ++ w :: l2)). rewrite <- app_assoc. auto. }
    destruct l3 as [|n l3].
    { apply (open_prefix Z (l1 ++ [w]) (l2 ++ [w])). rewrite <- app_assoc. auto. }
    destruct (destruct_last l1) as [->|[l0 [p ->]]]; [exact O3|].
    rewrite <- !app_assoc in *. simpl in *.
    apply open_mid.
    assert (O1 : open_triples Z (l0 ++ [p; w])).
    { apply (open_prefix Z _ (l2 ++ w :: n :: l3)). rewrite <- app_assoc. auto. }
    split; auto. split; auto.
    destruct l2 as [|f l2].
    { exfalso. simpl in *. apply (adjacent_irrefl w). tauto. }
    assert (Tf : open_triple Z p w f).
    { apply (open_mid Z l0 p w f (l2 ++ w :: n :: l3)) in O. tauto. }
    destruct (destruct_last (f :: l2)) as [?|[l2' [e El]]]; [discriminate|].
    assert (Te : open_triple Z e w n).
    { replace (l0 ++ p :: w :: (f :: l2) ++ w :: n :: l3)
        with ((l0 ++ [p; w] ++ l2') ++ e :: w :: n :: l3) in O.
      - apply open_mid in O. tauto.
      - rewrite El. rewrite <- !app_assoc. simpl. try rewrite <- app_assoc. reflexivity. }
    assert (Lf : adjacent w f) by (simpl in L2; tauto).
    assert (Lseg : linked (w :: f :: l2 ++ [w])).
    { apply (linked_prefix _ (n :: l3)).
      replace ((w :: f :: l2 ++ [w]) ++ n :: l3) with (w :: (f :: l2) ++ w :: n :: l3); auto.
      simpl. rewrite <- app_assoc. reflexivity. }
    assert (Le : adjacent e w).
    { change (w :: f :: l2 ++ [w]) with (w :: (f :: l2) ++ [w]) in Lseg. rewrite El in Lseg.
      replace (w :: (l2' ++ [e]) ++ [w]) with ((w :: l2') ++ [e; w]) in Lseg
        by (simpl; rewrite <- app_assoc; reflexivity).
      apply linked_suffix in Lseg. simpl in Lseg. tauto. }
    assert (Oseg : open_triples Z (w :: f :: l2 ++ [w])).
    { apply (open_prefix Z _ (n :: l3)).
      replace ((w :: f :: l2 ++ [w]) ++ n :: l3) with (w :: (f :: l2) ++ w :: n :: l3)
        by (simpl; rewrite <- app_assoc; reflexivity).
      apply (open_suffix Z (l0 ++ [p])). rewrite <- app_assoc. exact O. }
    destruct Tf as [Tf1 Tf2]. destruct Te as [Te1 Te2]. split.
    - intros [Hp Hn]. destruct (E_dec f w) as [Hf|Hf]; [apply Tf1; auto|].
      destruct (E_dec e w) as [He|He]; [apply Te1; auto|].
      apply (first_collider Z (l2 ++ [w]) w f); auto.
      + destruct Lf; tauto.
      + exists (w :: l2'), e, w. split.
        * change (w :: f :: l2 ++ [w]) with (w :: (f :: l2) ++ [w]). rewrite El.
          simpl. rewrite <- app_assoc. reflexivity.
        * destruct Le; tauto.
    - intros Hn. destruct (E_dec p w) as [Hp|Hp].
      + apply Te2. tauto.
      + apply Tf2. tauto.
  Qed.

  Lemma not_NoDup_split : forall p : list nat, ~ NoDup p ->
    exists l1 w l2 l3, p = l1 ++ w :: l2 ++ w :: l3.
  Proof using.
    induction p as [|a p IH]; intro H.
    - exfalso. apply H. constructor.
    - destruct (in_dec Nat.eq_dec a p) as [Hi|Hi].
      + apply in_split in Hi. destruct Hi as [l2 [l3 ->]]. exists [], a, l2, l3. reflexivity.
      + destruct IH as [l1 [w [l2 [l3 ->]]]].
        * intro. apply H. constructor; auto.
        * exists (a :: l1), w, l2, l3. reflexivity.
  Qed.

  Lemma last_mid : forall (l1 : list nat) w l3 d, last (l1 ++ w :: l3) d = last (w :: l3) d.
  Proof using.
    induction l1 as [|a l1 IH]; intros; simpl; auto.
    destruct (l1 ++ w :: l3) eqn:Ex.
    - destruct l1; discriminate.
    - rewrite <- Ex. rewrite IH. reflexivity.
  Qed.

  (** An active walk (repetitions allowed) can be shortened to an active path. *)
  Theorem walk_to_path : forall Z p x y,
    hd_error p = Some x -> last p x = y -> ~ Z x -> ~ Z y ->
    linked p -> open_triples Z p ->
    exists p', active_path E Z x y p'.
  Proof using E_asym E_dec.
    intros Z p. induction p as [p IH] using (induction_ltof1 _ (@length nat)).
    unfold ltof in IH. intros x y Hh Hl Hx Hy L O.
    destruct (ListDec.NoDup_dec Nat.eq_dec p) as [ND|ND].
    { exists p. repeat split; auto. }
    apply not_NoDup_split in ND. destruct ND as [l1 [w [l2 [l3 ->]]]].
    destruct (splice Z l1 w l2 l3 L O) as [L' O'].
    apply (IH (l1 ++ w :: l3)); auto.
    - rewrite !app_length. simpl. rewrite app_length. simpl. lia.
    - destruct l1; simpl in *; auto.
    - rewrite last_mid in Hl. replace (w :: l2 ++ w :: l3) with ((w :: l2) ++ w :: l3) in Hl by auto.
      rewrite last_mid in Hl. rewrite last_mid. auto.
  Qed.

  (* ----- adjacency and d-separation ----- *)
  Theorem adjacent_not_dsep : forall Z x y, adjacent x y -> ~ Z x -> ~ Z y -> ~ dsep E Z x y.
  Proof using E_asym.
    intros Z x y H Hx Hy D. apply D. exists [x; y]. repeat split; simpl; auto.
    constructor; [|constructor; simpl; auto; constructor].
    intros [->|[]]. apply (adjacent_irrefl x H).
  Qed.

  (** A walk leaving [v] along an arrow either stays directed to its end or
      meets an open collider below [v]. *)
  Lemma directed_or_collider : forall Z r a b d0,
    linked (a :: b :: r) -> open_triples Z (a :: b :: r) -> E a b ->
    dpath1 a (last (b :: r) d0) \/ (exists c d, dpath1 a c /\ Z d /\ dpath c d).
  Proof using.
    induction r as [|c r IH]; intros a b d0 L O Hab.
    - left. simpl. econstructor; eauto. constructor.
    - simpl in L, O. destruct L as [_ [Lbc L]]. destruct O as [[O1 O2] O].
      destruct Lbc as [Hbc|Hcb].
      + destruct (IH b c d0) as [H|[e [d [H1 [H2 H3]]]]]; auto.
        * simpl. split; auto. left; auto.
        * left. change (last (b :: c :: r) d0) with (last (c :: r) d0).
          econstructor; eauto. apply dpath1_dpath. auto.
        * right. exists e, d. split; auto. econstructor; eauto. apply dpath1_dpath. auto.
      + right. destruct O1 as [d [Zd Hd]]; auto. exists b, d. split; auto.
        econstructor; eauto. constructor.
  Qed.

  Definition parents_of (v : nat) : nat -> Prop := fun u => E u v.

  Theorem parents_separate : forall u v, acyclic E ->
    u <> v -> ~ adjacent u v -> ~ dpath v u -> dsep E (parents_of v) v u.
  Proof using E_asym.
    intros u v Ac Huv Na Nd [p [ND [Hh [Hl [Hv [Hu [L O]]]]]]].
    destruct p as [|v' p]; [discriminate|]. simpl in Hh. inversion Hh; subst v'.
    destruct p as [|a p]. { simpl in Hl. congruence. }
    assert (La : adjacent v a) by (simpl in L; tauto).
    destruct La as [Hva|Hav].
    - destruct (directed_or_collider _ p v a v L O Hva) as [H|[c [d [H1 [H2 H3]]]]].
      + apply Nd. apply dpath1_dpath.
        change (last (v :: a :: p) v) with (last (a :: p) v) in Hl. rewrite Hl in H. auto.
      + apply (Ac v). eapply dpath1_trans_l; eauto. eapply dpath_snoc; eauto.
    - destruct p as [|b p].
      + simpl in Hl. subst. apply Na. left. auto.
      + simpl in O. destruct O as [[_ O2] _]. apply O2; auto.
        intros [H _]. eapply E_asym; eauto.
  Qed.

  (** Membership of the middle of an unshielded triple in a separating set. *)
  Theorem collider_not_in_sep : forall Z u v w,
    u <> v -> ~ adjacent u v -> E u w -> E v w -> ~ Z u -> ~ Z v ->
    dsep E Z u v -> ~ Z w.
  Proof using E_asym.
    intros Z u v w N Na Hu Hv Zu Zv D Zw. apply D. exists [u; w; v].
    assert (u <> w) by (intro Q; rewrite Q in Hu; exact (E_asym _ _ Hu Hu)).
    assert (v <> w) by (intro Q; rewrite Q in Hv; exact (E_asym _ _ Hv Hv)).
    repeat split; simpl; auto.
    - repeat constructor; simpl; intuition.
    - left. auto.
    - right. auto.
    - intros _. exists w. split; auto. constructor.
  Qed.

  Theorem noncollider_in_sep : forall Z u v w,
    (forall x, {Z x} + {~ Z x}) ->
    u <> v -> adjacent u w -> adjacent v w -> ~ (E u w /\ E v w) -> ~ Z u -> ~ Z v ->
    dsep E Z u v -> Z w.
  Proof using E_asym.
    intros Z u v w Zdec N Hu Hv Hn Zu Zv D. destruct (Zdec w) as [Hw|Hw]; auto.
    exfalso. apply D. exists [u; w; v].
    assert (u <> w) by (intro Q; rewrite Q in Hu; exact (adjacent_irrefl w Hu)).
    assert (v <> w) by (intro Q; rewrite Q in Hv; exact (adjacent_irrefl w Hv)).
    repeat split; simpl; auto.
    - repeat constructor; simpl; intuition.
    - apply adjacent_sym. auto.
    - tauto.
  Qed.
End Theory.
