(** GES: the depth-first search over semi-directed paths. *)

From Coq Require Import List Arith Bool Lia ZArith QArith Sorted Permutation.
From Verif Require Import Model.Py Model.Graph Model.DiGraph Model.PDAG Model.Pdag2Dag Model.GES.
From Verif Require Import Spec.API Spec.GESSpec.
From Verif Require Import Proofs.PyFacts Proofs.GraphFacts Proofs.DiGraphFacts Proofs.HistoryFacts Proofs.NumpyFacts Proofs.EdgeFacts
  Proofs.PDAGFacts Proofs.MeekFacts Proofs.Pdag2DagFacts Proofs.GESSubsets.
Import ListNotations.
Open Scope nat_scope.

Lemma iterate_ok : forall {A B} (step : A -> res (A + B)) (I : A -> Prop) (m : A -> nat) (R : B -> Prop),
  (forall a, I a -> (exists a', step a = Ok (inl a') /\ I a' /\ m a' < m a) \/
                    (exists b, step a = Ok (inr b) /\ R b)) ->
  forall d a, I a ->
    (exists b, iterate d step a = Ok (inr b) /\ R b) \/
    (exists a', iterate d step a = Ok (inl a') /\ I a' /\ m a' + 2 ^ d <= m a).
Proof.
  intros A B step I m R H. induction d as [|d IH]; intros a Ia; simpl.
  - destruct (H a Ia) as [[a' [E [I' L]]]|[b [E Hb]]]; [right; exists a'; split; auto; split; auto; lia|left; eauto].
  - destruct (IH a Ia) as [[b [E Hb]]|[a' [E [I' L]]]]; rewrite E; cbn [rbind]; [left; eauto|].
    destruct (IH a' I') as [[b [E' Hb]]|[a'' [E' [I'' L']]]]; [left; eauto|right]. exists a''. split; auto. split; auto. lia.
Qed.

Lemma tails_at_sorted : forall p i l, tails_at p i = Ok l -> StronglySorted lt l.
Proof.
  intros p i l. unfold tails_at. destruct (np_where _ _) as [a|]; [|discriminate]. cbn [rbind].
  destruct (np_where _ _) as [b|]; [|discriminate]. cbn [rbind]. intro E. inversion E. apply np_unique_sorted.
Qed.

Lemma app_prefix_dec : forall (x y : list nat), (exists q, y = x ++ q) \/ ~ exists q, y = x ++ q.
Proof.
  induction x as [|a x IH]; intro y; [left; exists y; auto|].
  destruct y as [|b y]; [right; intros [q Q]; discriminate|].
  destruct (Nat.eq_dec a b) as [->|N].
  - destruct (IH y) as [[q ->]|X]; [left; exists q; auto|right]. intros [q Q]. inversion Q. eauto.
  - right. intros [q Q]. inversion Q. congruence.
Qed.

Section Paths.
  Variable g : graph.
  Hypothesis P : PG g.
  Hypothesis NL : forall u, ~ conp g u u.
  Let n := length (node_list g).
  Let nd (i : nat) : nat := nth i (node_list g) 0.
  Let W : WF g := pg_wf g P.

  Definition sstep (a b : nat) : Prop := mk g (nd a) (nd b) = Some Arrow \/ undp g (nd a) (nd b).

  Lemma semi_children_ok : forall x, x < n -> exists cs, semi_children g x = Ok cs /\ NoDup cs /\
    forall c, In c cs <-> c < n /\ sstep x c.
  Proof using P.
    intros x Hx. unfold semi_children, np_where, number_of_nodes, nodes. fold n.
    rewrite (filterE_ok _ (fun k => markb Arrow g (nd x) (nd k))).
    2:{ intros k Hk. apply in_seq in Hk. apply (arrow_at g P); auto. fold n. lia. }
    cbn [rbind]. destruct (tails_at_ok g P x Hx) as [t [Et Ht]]. rewrite Et. cbn [rbind].
    eexists. split; [reflexivity|].
    assert (Ha : forall c, In c (filter (fun k => markb Arrow g (nd x) (nd k)) (seq 0 n)) <-> c < n /\ mk g (nd x) (nd c) = Some Arrow).
    { intro c. rewrite filter_In, in_seq, (markb_p g). intuition lia. }
    split.
    - assert (Hd : forall c, In c (filter (fun k => markb Arrow g (nd x) (nd k)) (seq 0 n)) -> ~ In c t).
      { intros c Hc Hc'. apply Ha in Hc. apply Ht in Hc'. unfold undp in Hc'. fold (nd x) (nd c) in Hc'. destruct Hc', Hc. destruct H0. congruence. }
      assert (N1 : NoDup (filter (fun k => markb Arrow g (nd x) (nd k)) (seq 0 n))) by (apply NoDup_filter, seq_NoDup).
      assert (N2 : NoDup t) by (apply sorted_NoDup; eapply tails_at_sorted; eauto).
      revert N1 Hd. generalize (filter (fun k => markb Arrow g (nd x) (nd k)) (seq 0 n)). clear -N2.
      induction l as [|a l IH]; simpl; auto. intros N1 Hd. inversion N1; subst. constructor; auto.
      rewrite in_app_iff. intros [H|H]; auto. apply (Hd a); auto.
    - intro c. rewrite in_app_iff, Ha, Ht. unfold sstep, nd. tauto.
  Qed.

  (** A stack entry is a reversed path. *)
  Fixpoint rchain (p : list nat) : Prop :=
    match p with
    | b :: (a :: _) as r => sstep a b /\ rchain r
    | _ => True
    end.
  Definition okentry (j : nat) (e : nat * list nat) : Prop :=
    NoDup (fst e :: snd e) /\ (forall y, In y (fst e :: snd e) -> y < n) /\
    (exists r, fst e :: snd e = r ++ [j]) /\ rchain (fst e :: snd e).

  (** Weight of an entry: an upper bound on the loop iterations it causes. *)
  Fixpoint wt (d : nat) : nat := match d with 0 => 1 | S k => 1 + n * wt k end.
  Definition ew (e : nat * list nat) : nat := wt (n - length (fst e :: snd e)).
  Definition sw (st : list (nat * list nat)) : nat := list_sum (map ew st).

  Lemma wt_pow : forall d, wt d <= (S n) ^ d.
  Proof using.
    induction d as [|d IH]; simpl; auto.
    assert (1 <= S n ^ d) by (change 1 with (S 0); apply Nat.le_succ_l; apply Nat.neq_0_lt_0; apply Nat.pow_nonzero; discriminate).
    cbn [Nat.pow] in *. nia.
  Qed.

  Lemma pow2 : forall k, S k <= 2 ^ k.
  Proof using. clear. induction k as [|k IH]; simpl; lia. Qed.

  Lemma fuel_enough : forall d, d <= n -> wt d < 2 ^ (S n * S n).
  Proof using.
    intros d Hd. pose proof (wt_pow d). pose proof (pow2 n).
    assert (S n ^ d <= 2 ^ (n * d)) by (rewrite Nat.pow_mul_r; apply Nat.pow_le_mono_l; auto).
    assert (2 ^ (n * d) <= 2 ^ (n * n)) by (apply Nat.pow_le_mono_r; nia).
    assert (2 ^ (n * n) * 2 ^ (S (n + n)) = 2 ^ (S n * S n)) by (rewrite <- Nat.pow_add_r; f_equal; nia).
    assert (1 <= 2 ^ (n * n)) by (pose proof (pow2 (n * n)); lia).
    assert (2 <= 2 ^ S (n + n)) by (pose proof (pow2 (S (n + n))); lia).
    nia.
  Qed.

  Variables j i : nat.
  Variable NAT : list nat.
  Hypothesis Hj : j < n.

  (** An unblocked path. *)
  Definition free_path (p : list nat) : Prop :=
    NoDup p /\ (forall x, In x p -> x < n) /\ (exists q, rev p = i :: q /\ (forall x, In x q -> ~ In x NAT)) /\
    rchain (rev p) /\ (exists r, rev p = r ++ [j]).

  Definition inv (st : list (nat * list nat)) : Prop :=
    (forall e, In e st -> okentry j e) /\
    (forall p, free_path p -> exists e q, In e st /\ p = rev (fst e :: snd e) ++ q).

  Lemma push_In : forall x pa cs st e,
    In e (fold_left (fun s (c : nat) => (c, x :: pa : list nat) :: s) cs st) <-> In e st \/ (exists c, In c cs /\ e = (c, x :: pa)).
  Proof using.
    clear. intros x pa cs. induction cs as [|c cs IH]; intros st e; simpl.
    - split; auto. intros [H|[c [[] _]]]; auto.
    - rewrite IH. simpl. split.
      + intros [[H|H]|[c' [H1 H2]]]; [right; exists c; auto|auto|right; exists c'; auto].
      + intros [H|[c' [[H|H] E]]]; [auto|subst; auto|right; exists c'; auto].
  Qed.
  Lemma push_sw : forall x pa cs st,
    sw (fold_left (fun s (c : nat) => (c, x :: pa : list nat) :: s) cs st) = sw st + length cs * wt (n - S (S (length pa))).
  Proof using.
    clear Hj j i NAT. intros x pa cs. induction cs as [|c cs IH]; intros st; simpl; [lia|].
    rewrite IH. unfold sw. simpl. unfold ew at 1. simpl. lia.
  Qed.

  Lemma NoDup_lt_length : forall l m, NoDup l -> (forall x, In x l -> x < m) -> length l <= m.
  Proof using.
    clear. intros l m ND H. rewrite <- (seq_length m 0). apply NoDup_incl_length; auto.
    intros x Hx. apply in_seq. specialize (H x Hx). lia.
  Qed.

  Lemma step_self : forall x, ~ sstep x x.
  Proof using NL.
    intros x H. apply (NL (nd x)). unfold conp. destruct H as [H|[H _]]; congruence.
  Qed.

  Lemma rchain_tail : forall x p, rchain (x :: p) -> rchain p.
  Proof using. intros x [|y p]; simpl; tauto. Qed.

  (** In a reversed path, the element before a given suffix. *)
  Lemma rchain_app : forall r p, rchain (r ++ p) -> rchain p.
  Proof using. induction r as [|a r IH]; simpl; auto. intros p H. apply IH. eapply rchain_tail; eauto. Qed.

  Lemma step_ok : forall st, inv st ->
    (exists st', path_step g i NAT st = Ok (inl st') /\ inv st' /\ sw st' < sw st) \/
    (exists b, path_step g i NAT st = Ok (inr b) /\ (b = true <-> forall p, ~ free_path p)).
  Proof using P NL Hj.
    intros [|[x pa] st] [Hok Hfree].
    - right. exists true. split; auto. split; auto. intros _ p F. destruct (Hfree p F) as [e [q [[] _]]].
    - destruct (Hok (x, pa)) as [ND [Hlt [[r Er] Hch]]]; [simpl; auto|]. cbn [fst snd] in *.
      assert (Hx : x < n) by (apply Hlt; simpl; auto).
      cbn [path_step]. destruct (Nat.eqb_spec x i) as [E|E].
      + subst x. destruct (existsb (fun y => memb y NAT) pa) eqn:B.
        * left. exists st. split; auto. split; [split; [intros; apply Hok; simpl; auto|]|].
          -- intros p F. destruct (Hfree p F) as [e [q [[He|He] Ep]]]; [|eauto]. exfalso. subst e. cbn [fst snd] in Ep.
             destruct F as [NDp [_ [[q' [Eq Hq]] _]]].
             assert (q = []).
             { destruct (list_eq_dec Nat.eq_dec q []) as [|Nq]; auto. exfalso.
               destruct (exists_last Nq) as [q0 [z Eqz]]. subst q p. rewrite app_assoc, rev_app_distr in Eq. simpl in Eq.
               inversion Eq; subst z.
               rewrite app_assoc in NDp. apply NoDup_remove_2 in NDp. apply NDp. rewrite app_nil_r. apply in_app_iff. left.
               apply in_rev. rewrite rev_involutive. simpl. auto. }
             subst q. rewrite app_nil_r in Ep. subst p. rewrite rev_involutive in Eq. inversion Eq; subst q'.
             apply existsb_exists in B. destruct B as [y [Hy B]]. apply memb_In in B. apply (Hq y); auto.
          -- assert (W0 : forall d, 1 <= wt d) by (destruct d; simpl; lia).
             unfold sw. simpl. unfold ew at 2. pose proof (W0 (n - length (i :: pa))). simpl fst. simpl snd. lia.
        * right. exists false. split; auto. split; [discriminate|]. intro H. exfalso.
          apply (H (rev (i :: pa))). split; [apply NoDup_rev; auto|]. split; [intros y Hy; apply in_rev in Hy; auto|].
          rewrite rev_involutive. split; [|split; [exact Hch|eauto]]. exists pa. split; auto. intros y Hy Q.
          assert (existsb (fun y => memb y NAT) pa = true); [|congruence]. apply existsb_exists. exists y. split; auto. apply memb_In. auto.
      + destruct (semi_children_ok x Hx) as [cs [Ec [NDc Hc]]]. rewrite Ec. cbn [rbind].
        left. eexists. split; [reflexivity|].
        set (cs' := filter (fun c => negb (memb c pa)) cs).
        assert (Hc' : forall c, In c cs' <-> c < n /\ sstep x c /\ ~ In c pa).
        { intro c. unfold cs'. rewrite filter_In, Hc, negb_true_iff, memb_false. tauto. }
        split; [split|].
        * intros e He. apply push_In in He. destruct He as [He|[c [Hin ->]]]; [apply Hok; simpl; auto|].
          apply Hc' in Hin. destruct Hin as [H1 [H2 H3]]. unfold okentry. cbn [fst snd].
          split; [constructor; auto|]. { intros [Q|Q]; [|auto]. subst c. apply (step_self x); auto. }
          split; [intros y [<-|Hy]; auto|]. split; [exists (c :: r); simpl; rewrite Er; auto|]. split; auto.
        * intros p F. destruct (Hfree p F) as [e [q [[He|He] Ep]]].
          2:{ exists e, q. split; auto. apply push_In. auto. }
          subst e. cbn [fst snd] in Ep. destruct q as [|c q].
          { exfalso. rewrite app_nil_r in Ep. destruct F as [_ [_ [[q' [Eq _]] _]]]. subst p. rewrite rev_involutive in Eq.
            inversion Eq. congruence. }
          exists (c, x :: pa), q. split.
          -- apply push_In. right. exists c. split; auto. apply Hc'.
             destruct F as [NDp [Hltp [_ [Hcp _]]]]. subst p.
             split; [apply Hltp; apply in_app_iff; simpl; auto|]. split.
             ++ rewrite rev_app_distr, rev_involutive in Hcp. simpl in Hcp. rewrite <- app_assoc in Hcp.
                apply rchain_app in Hcp. simpl in Hcp. tauto.
             ++ intro Q. apply NoDup_remove_2 in NDp. apply NDp. apply in_app_iff. left. apply in_rev. rewrite rev_involutive. simpl. auto.
          -- rewrite Ep. cbn [fst snd]. change (rev (c :: x :: pa)) with (rev (x :: pa) ++ [c]). rewrite <- app_assoc. auto.
        * rewrite push_sw. unfold sw. cbn [map list_sum fold_right]. fold (list_sum (map ew st)).
          change (fold_right Init.Nat.add 0 (map ew st)) with (list_sum (map ew st)). unfold ew at 2. cbn [fst snd length].
          assert (Lp : S (length pa) <= n) by (apply (NoDup_lt_length (x :: pa)); auto).
          destruct (Nat.eq_dec (S (length pa)) n) as [Q|Q].
          -- (* every variable is on the path: no child is left *)
             assert (cs' = []).
             { destruct cs' as [|c l] eqn:Ecs; auto. exfalso. assert (Hin : In c (c :: l)) by (simpl; auto).
               apply Hc' in Hin. destruct Hin as [H1 [H2 H3]].
               assert (Lq : length (c :: x :: pa) <= n).
               { apply NoDup_lt_length; [constructor; auto|intros y [<-|Hy]; auto].
                 intros [R|R]; [subst c; apply (step_self x); auto|auto]. }
               simpl in Lq. lia. }
             rewrite H. simpl. assert (W0 : forall d, 1 <= wt d) by (destruct d; simpl; lia). pose proof (W0 (n - S (length pa))). lia.
          -- assert (Lc : length cs' <= n).
             { apply NoDup_lt_length; [apply NoDup_filter; auto|]. intros c Hin. apply Hc' in Hin. tauto. }
             replace (n - S (length pa)) with (S (n - S (S (length pa)))) by lia. cbn [wt]. nia.
  Qed.

  Lemma vC2_ok : exists b, Insert_vC2_new g j i NAT = Ok b /\ (b = true <-> forall p, ~ free_path p).
  Proof using P NL Hj.
    unfold Insert_vC2_new, number_of_nodes, nodes. fold n.
    assert (I0 : inv [(j, [])]).
    { split.
      - intros e [<-|[]]. unfold okentry. simpl. split; [repeat constructor; auto|]. split; [intros y [<-|[]]; auto|].
        split; auto. exists []. auto.
      - intros p [_ [_ [_ [_ [r Er]]]]]. exists (j, []), (rev r). split; [simpl; auto|]. simpl.
        rewrite <- (rev_involutive p), Er, rev_app_distr. auto. }
    destruct (iterate_ok (path_step g i NAT) inv sw (fun b => b = true <-> forall p, ~ free_path p) step_ok (S n * S n) _ I0)
      as [[b [E Hb]]|[a [_ [_ L]]]].
    - rewrite E. cbn [rbind]. exists b. auto.
    - exfalso. assert (F : n - 1 <= n) by lia. pose proof (fuel_enough (n - 1) F) as Q.
      assert (Ew : sw [(j, [])] = wt (n - 1)) by (unfold sw, ew; simpl; lia).
      rewrite Ew in L. lia.
  Qed.
End Paths.

(* ---------- the specification ---------- *)
Lemma arrow_i_mk : forall g a b, WF g -> a < vars g -> b < vars g ->
  (arrow_i g a b <-> mk g (name g a) (name g b) = Some Arrow).
Proof.
  intros g a b W Ha Hb. unfold arrow_i, is_arrow. rewrite is_mark_ok; auto; try (apply nth_In; auto).
  rewrite <- (markb_p g). split; congruence.
Qed.

Lemma blocked_iff : forall g j i NAT, WF g -> j < vars g -> 
  ((forall p, ~ free_path g j i NAT p) <-> blocked g j i (fun x => In x NAT)).
Proof.
  intros g j i NAT W Hj.
  assert (SP : forall p, (forall x, In x p -> x < vars g) -> (semi_path g p <-> rchain g (rev p))).
  { intros p Hp. set (r := rev p). assert (Ep : p = rev r) by (unfold r; rewrite rev_involutive; auto). rewrite Ep in *. clearbody r. clear p Ep.
    induction r as [|b r IH]; [simpl; tauto|]. cbn [rev].
    destruct r as [|a r]; [simpl; tauto|].
    assert (H1 : semi_path g (rev (a :: r) ++ [b]) <-> semi_path g (rev (a :: r)) /\ (arrow_i g a b \/ und_i g a b)).
    { cbn [rev]. generalize (rev r). clear. intro l. induction l as [|x l IHl]; [simpl; tauto|].
      destruct l as [|y l]; [simpl; tauto|]. cbn [app] in *. cbn [semi_path] in *. rewrite IHl. tauto. }
    rewrite H1, IH; [|intros x Hx; apply Hp; cbn [rev]; apply in_app_iff; auto].
    cbn [rchain]. unfold sstep. rewrite arrow_i_mk; auto.
    - unfold und_i. rewrite undirected_p by auto. unfold name, nodes. tauto.
    - apply Hp. apply in_app_iff. left. apply in_app_iff. simpl; auto.
    - apply Hp. apply in_app_iff. simpl; auto. }
  split.
  - intros H p [ND [Hlt [Hh [Hl Hp]]]].
    destruct (existsb (fun x => (negb (Nat.eqb x i) && memb x NAT)%bool) p) eqn:X.
    + apply existsb_exists in X. destruct X as [x [Hx Q]]. apply andb_true_iff in Q. destruct Q as [Q1 Q2].
      exists x. split; auto. split; [apply negb_true_iff, Nat.eqb_neq in Q1; auto|apply memb_In; auto].
    + exfalso. apply (H p). destruct p as [|a p]; [discriminate|]. inversion Hh; subst a.
      split; auto. split; auto. assert (Ne : j :: p <> []) by discriminate.
      destruct (exists_last Ne) as [q [z Eq]]. assert (z = i).
      { rewrite Eq, last_last in Hl. auto. }
      subst z. split; [|split; [apply SP; auto|exists (rev p); reflexivity]].
      exists (rev q). rewrite Eq, rev_app_distr. split; auto. intros x Hx Q. apply in_rev in Hx.
      rewrite Eq in ND. assert (x <> i). { intros ->. apply NoDup_remove_2 in ND. apply ND. rewrite app_nil_r. auto. }
      assert (existsb (fun x => (negb (Nat.eqb x i) && memb x NAT)%bool) (j :: p) = true); [|congruence].
      apply existsb_exists. exists x. rewrite Eq. split; [apply in_app_iff; auto|]. rewrite (proj2 (memb_In x NAT) Q).
      apply Nat.eqb_neq in H0. rewrite H0. auto.
  - intros H p [ND [Hlt [[q [Eq Hq]] [Hc [r Er]]]]].
    destruct (H p) as [x [Hx [N Q]]].
    + split; auto. split; auto. split; [|split; [|apply SP; auto]].
      * rewrite <- (rev_involutive p), Er, rev_app_distr. auto.
      * rewrite <- (rev_involutive p), Eq. simpl. apply last_last.
    + apply (Hq x); auto. apply in_rev in Hx. rewrite Eq in Hx. destruct Hx; [congruence|auto].
Qed.
