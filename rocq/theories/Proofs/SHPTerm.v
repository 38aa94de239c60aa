(** Termination of the EM iteration and of the hill climbing of SHP, and the
    failure when no time interval is given. *)

From Coq Require Import List Arith Bool Lia ZArith QArith Qround Lqa.
From Verif Require Import Model.Py Model.Graph Model.Networkx Model.SHP Spec.Digraphs.
From Verif Require Import Proofs.PyFacts Proofs.RelExt Proofs.NumpyFacts Proofs.NxFacts Proofs.SHPFacts.
Import ListNotations.
Open Scope nat_scope.

(* ---------- enough fuel ---------- *)
(** [f] gives the value [r] for all large enough fuel. *)
Definition settles {A} (f : nat -> res A) (r : A) : Prop := exists F, forall k, F <= k -> f k = Ok r.

Lemma settles_bind : forall {A B} (f : nat -> res A) (g : nat -> A -> res B) a b,
  settles f a -> settles (fun k => g k a) b -> settles (fun k => rbind (f k) (g k)) b.
Proof.
  intros A B f g a b [F1 H1] [F2 H2]. exists (Nat.max F1 F2). intros k Hk.
  rewrite H1 by lia. simpl. apply H2. lia.
Qed.

Section Term.
  Variable o : shp.
  Variable dt : Q.
  Hypothesis interval : sh_interval o = Some dt.

  (** Non-negative data. *)
  Definition nonneg (l : list Q) : Prop := forall j, (0 <= nth j l 0)%Q.
  Hypothesis dX : forall i, nonneg (qcol (sh_X o) i).
  Hypothesis dS : forall r, In r (sh_S o) -> nonneg r.
  Hypothesis dD : nonneg (sh_D o).
  Hypothesis dT : (0 <= sh_T o)%Q.
  Hypothesis ddt : (0 <= dt)%Q.
  Hypothesis dR : forall k j i, (0 <= sh_rand o k j i)%Q.

  (** The likelihoods are bounded above on the non-negative parameters. *)
  Variable B : Q.
  Hypothesis bounded : forall i col mu, i < sh_n o -> nonneg col -> (0 <= mu)%Q -> (new_Li o i col mu <= B)%Q.

  Lemma qdiv_nonneg : forall a b, (0 <= a)%Q -> (0 <= b)%Q -> (0 <= a / b)%Q.
  Proof.
    intros a b Ha Hb. unfold Qdiv. apply Qmult_le_0_compat; auto. apply Qinv_le_0_compat. auto.
  Qed.

  Lemma fold_nonneg : forall l a, (0 <= a)%Q -> (forall x, In x l -> (0 <= x)%Q) -> (0 <= fold_left Qplus l a)%Q.
  Proof.
    induction l as [|x l IH]; intros a Ha H; simpl; auto. apply IH.
    - assert (0 <= x)%Q by (apply H; simpl; auto). lra.
    - intros; apply H; simpl; auto.
  Qed.
  Lemma qsum_nonneg : forall l, (forall x, In x l -> (0 <= x)%Q) -> (0 <= qsum l)%Q.
  Proof. intros l H. apply fold_nonneg; auto. lra. Qed.

  Lemma in_nonneg : forall l x, nonneg l -> In x l -> (0 <= x)%Q.
  Proof. intros l x H Hx. apply (In_nth _ _ 0%Q) in Hx. destruct Hx as [j [_ <-]]. apply H. Qed.

  Lemma lambda_nonneg : forall col mu x, nonneg col -> (0 <= mu)%Q -> In x (lambda_for o col mu) -> (0 <= x)%Q.
  Proof.
    intros col mu x Hc Hm H. unfold lambda_for in H. apply in_map_iff in H. destruct H as [r [<- Hr]].
    assert (0 <= qsum (map (fun p => fst p * snd p) (combine r col)))%Q.
    { apply qsum_nonneg. intros y Hy. apply in_map_iff in Hy. destruct Hy as [[a b] [<- Hy]]. simpl.
      apply Qmult_le_0_compat; [apply (in_nonneg r)|apply (in_nonneg col)]; auto.
      apply in_combine_l in Hy; auto. apply in_combine_r in Hy; auto. }
    lra.
  Qed.

  Lemma update_mu_nonneg : forall i col mu, nonneg col -> (0 <= mu)%Q -> (0 <= update_mu o i (lambda_for o col mu) mu)%Q.
  Proof.
    intros i col mu Hc Hm. unfold update_mu. apply qdiv_nonneg; auto. apply qsum_nonneg.
    intros x Hx. apply in_map_iff in Hx. destruct Hx as [[a b] [<- H]]. simpl. apply Qmult_le_0_compat.
    - apply qdiv_nonneg; auto. apply in_combine_l in H. eapply lambda_nonneg; eauto.
    - apply in_combine_r in H. eapply in_nonneg; [apply (dX i)|auto].
  Qed.

  Lemma nonneg_set : forall l j x, nonneg l -> (0 <= x)%Q -> nonneg (set_nth j x l).
  Proof.
    intros l j x H Hx k. destruct (Nat.lt_ge_cases j (length l)) as [L|L].
    - rewrite nth_set_nth by auto. destruct (Nat.eqb j k); auto.
    - assert (G : set_nth j x l = l).
      { clear - L. revert j L. induction l as [|b l IHl]; intros [|j] L; simpl in *; auto; try lia. f_equal. apply IHl. lia. }
      rewrite G. apply H.
  Qed.

  Lemma update_alpha_nonneg : forall i Pa lam col, (forall x, In x lam -> (0 <= x)%Q) -> nonneg col ->
    exists col', update_alpha o i Pa lam col = Ok col' /\ nonneg col'.
  Proof.
    intros i Pa lam. unfold update_alpha. rewrite interval. induction Pa as [|j Pa IH]; intros col Hl Hc; simpl.
    - exists col. auto.
    - apply IH; auto. apply nonneg_set; auto. destruct (Qeq_bool _ _); [lra|].
      apply qdiv_nonneg.
      + apply qsum_nonneg. intros x Hx. apply in_map_iff in Hx. destruct Hx as [[[a b] c] [<- H]]. simpl.
        assert (H1 := in_combine_l _ _ _ _ H). assert (H2 := in_combine_r _ _ _ _ H).
        assert (H3 := in_combine_l _ _ _ _ H1). assert (H4 := in_combine_r _ _ _ _ H1).
        apply Qmult_le_0_compat; [|eapply in_nonneg; [apply (dX i)|auto]].
        apply qdiv_nonneg; auto. apply Qmult_le_0_compat; auto.
        unfold qcol in H3. apply in_map_iff in H3. destruct H3 as [r [<- Hr]]. apply (dS r Hr).
      + apply Qmult_le_0_compat; auto.
  Qed.

  (** How many times a likelihood of at least [l] can still grow by 0.0085. *)
  Lemma em_loop_some : forall K i Pa l col mu, i < sh_n o -> nonneg col -> (0 <= mu)%Q ->
    (B - l < inject_Z (Z.of_nat K) * (85 # 10000))%Q ->
    exists r, settles (fun f => em_loop f o i Pa (Some l) col mu) r.
  Proof.
    induction K as [|K IH]; intros i Pa l col mu Hi Hc Hm HK.
    - assert (N := bounded i col mu Hi Hc Hm).
      exists (new_Li o i col mu, col, mu). exists 1. intros [|k] Hk; [lia|]. cbn [em_loop].
      assert (Qle_bool (85 # 10000) (new_Li o i col mu - l) = false) as ->; auto.
      destruct (Qle_bool _ _) eqn:Q; auto. apply Qle_bool_iff in Q. exfalso.
      change (inject_Z (Z.of_nat 0)) with 0%Q in HK. lra.
    - assert (N := bounded i col mu Hi Hc Hm).
      destruct (Qle_bool (85 # 10000) (new_Li o i col mu - l)) eqn:Q.
      + assert (Ln := lambda_nonneg col mu).
        destruct (update_alpha_nonneg i Pa (lambda_for o col mu) col) as [col' [U Hc']]; auto.
        destruct (IH i Pa (new_Li o i col mu) col' (update_mu o i (lambda_for o col mu) mu)) as [r [F HF]]; auto.
        { apply update_mu_nonneg; auto. }
        { apply Qle_bool_iff in Q. rewrite Nat2Z.inj_succ in HK. unfold Z.succ in HK. rewrite inject_Z_plus in HK.
          change (inject_Z 1) with 1%Q in HK. lra. }
        exists r, (S F). intros [|k] Hk; [lia|]. cbn [em_loop]. rewrite Q. cbn [negb]. rewrite U. cbn [rbind].
        apply HF. lia.
      + exists (new_Li o i col mu, col, mu). exists 1. intros [|k] Hk; [lia|]. cbn [em_loop]. rewrite Q. auto.
  Qed.

  Lemma enough : forall q : Q, exists K, (q < inject_Z (Z.of_nat K) * (85 # 10000))%Q.
  Proof.
    intro q. exists (Z.to_nat (Qfloor (q * (10000 # 85)) + 1)).
    assert (L := Qlt_floor (q * (10000 # 85))).
    assert (M : (inject_Z (Qfloor (q * (10000 # 85)) + 1) <= inject_Z (Z.of_nat (Z.to_nat (Qfloor (q * (10000 # 85)) + 1))))%Q).
    { rewrite <- Zle_Qle. lia. }
    lra.
  Qed.

  Lemma start_nonneg : forall n k m i, zero_one n m -> nonneg (start_col o k m i).
  Proof.
    intros n k m i [Sh Z] j. unfold start_col.
    destruct (Nat.lt_ge_cases j (sh_n o)) as [L|L].
    - rewrite nth_indep with (d' := (sh_rand o k 0 i * inject_Z (mat_get m 0 i))%Q) by (rewrite map_length, seq_length; auto).
      rewrite (map_nth (fun j => (sh_rand o k j i * inject_Z (mat_get m j i))%Q) (seq 0 (sh_n o)) 0), seq_nth by auto. simpl.
      apply Qmult_le_0_compat; auto. destruct (Z j i) as [-> | ->]; [change (inject_Z 0) with 0%Q|change (inject_Z 1) with 1%Q]; lra.
    - rewrite nth_overflow by (rewrite map_length, seq_length; auto). lra.
  Qed.

  Lemma em_node_settles : forall n k m t i, zero_one n m -> i < sh_n o ->
    exists r, settles (fun f => em_node f o k m t i) r.
  Proof.
    intros n k m t i Z Hi. unfold em_node.
    destruct (dget key_eqb t (i, Pa_of m i)) as [[[L al] mu]|].
    - eexists. exists 0. intros f _. reflexivity.
    - assert (Hc := start_nonneg n k m i Z). assert (H1 : (0 <= 1)%Q) by lra.
      destruct (update_alpha_nonneg i (Pa_of m i) (lambda_for o (start_col o k m i) 1) (start_col o k m i)) as [col' [U Hc']]; auto.
      { intros x Hx. eapply lambda_nonneg; eauto. }
      destruct (enough (B - new_Li o i (start_col o k m i) 1)) as [K HK].
      destruct (em_loop_some K i (Pa_of m i) _ col' (update_mu o i (lambda_for o (start_col o k m i) 1) 1) Hi Hc'
                  (update_mu_nonneg i _ _ Hc H1) HK) as [[[L c] mu] [F HF]].
      eexists. exists (S F). intros [|f] Hf; [lia|]. cbn [em_loop]. rewrite U. cbn [rbind]. rewrite HF by lia.
      cbn [rbind]. reflexivity.
  Qed.

  Lemma em_nodes_settles : forall n k m is t, zero_one n m -> (forall i, In i is -> i < sh_n o) ->
    exists r, settles (fun f => em_nodes f o k m t is) r.
  Proof.
    intros n k m is. induction is as [|i is IH]; intros t Z Hi.
    - exists (t, []). exists 0. auto.
    - destruct (em_node_settles n k m t i Z) as [p [F1 H1]]; [apply Hi; simpl; auto|].
      destruct (IH (fst p) Z) as [q [F2 H2]]; [intros; apply Hi; simpl; auto|].
      eexists. exists (Nat.max F1 F2). intros f Hf. cbn [em_nodes]. rewrite H1 by lia. cbn [rbind].
      rewrite H2 by lia. cbn [rbind]. reflexivity.
  Qed.

  Lemma EM_settles : forall s m, zero_one (sh_n o) m -> exists r, settles (fun f => EM f o s m) r.
  Proof.
    intros s m Z. unfold EM. destruct (check_DAG_ok (sh_n o) m (proj1 Z)) as [b [D _]]. rewrite D. cbn [rbind]. destruct b.
    - destruct (em_nodes_settles (sh_n o) (draws s) m (seq 0 (sh_n o)) (table s) Z) as [p [F H]].
      { intros i Hi. apply in_seq in Hi. lia. }
      eexists. exists F. intros f Hf. rewrite H by auto. cbn [rbind]. reflexivity.
    - eexists. exists 0. intros; reflexivity.
  Qed.

  Lemma round_settles : forall ms s c stop, (forall m, In m ms -> zero_one (sh_n o) m) ->
    exists r, settles (fun f => climb_round f o ms s c stop) r.
  Proof.
    induction ms as [|m ms IH]; intros s c stop Z.
    - eexists. exists 0. intros; reflexivity.
    - destruct (EM_settles s m) as [p [F1 H1]]; [apply Z; simpl; auto|].
      assert (Z' : forall m0, In m0 ms -> zero_one (sh_n o) m0) by (intros; apply Z; simpl; auto).
      destruct (better (fst (fst (snd p))) (fst (fst (snd c)))) eqn:Bt.
      + destruct (IH (fst p) (m, snd p) false Z') as [r [F2 H2]].
        exists r, (Nat.max F1 F2). intros f Hf. cbn [climb_round]. rewrite H1 by lia. cbn [rbind]. rewrite Bt. apply H2. lia.
      + destruct (IH (fst p) c stop Z') as [r [F2 H2]].
        exists r, (Nat.max F1 F2). intros f Hf. cbn [climb_round]. rewrite H1 by lia. cbn [rbind]. rewrite Bt. apply H2. lia.
  Qed.

  (** All 0/1 rows and matrices. *)
  Fixpoint all_lists {A} (xs : list A) (k : nat) : list (list A) :=
    match k with 0 => [[]] | S k' => flat_map (fun x => map (cons x) (all_lists xs k')) xs end.

  Lemma all_lists_in : forall {A} (xs : list A) k l, length l = k -> (forall x, In x l -> In x xs) -> In l (all_lists xs k).
  Proof.
    intros A xs. induction k as [|k IH]; intros l L H; destruct l as [|a l]; simpl in *; try discriminate; auto.
    apply in_flat_map. exists a. split; auto. apply in_map. apply IH; auto.
  Qed.
  Lemma all_lists_len : forall {A} (xs : list A) k, length (all_lists xs k) = length xs ^ k.
  Proof.
    intros A xs. induction k as [|k IH]; simpl; auto.
    assert (G : forall ys, length (flat_map (fun x => map (cons x) (all_lists xs k)) ys) = length ys * length xs ^ k).
    { induction ys as [|y ys IHy]; simpl; auto. rewrite app_length, map_length, IH, IHy. auto. }
    apply G.
  Qed.

  Lemma count_bound : forall n (ms : list (list (list Z))), NoDup ms -> (forall m, In m ms -> zero_one n m) -> length ms <= 2 ^ (n * n).
  Proof.
    intros n ms ND Z.
    assert (L : length (all_lists (all_lists [0%Z; 1%Z] n) n) = 2 ^ (n * n)).
    { rewrite !all_lists_len. simpl length. rewrite <- Nat.pow_mul_r. auto. }
    rewrite <- L. apply NoDup_incl_length; auto. intros m Hm. specialize (Z m Hm). destruct Z as [[L1 L2] Z].
    apply all_lists_in; auto. intros r Hr. apply all_lists_in; auto.
    intros x Hx. apply (In_nth _ _ 0%Z) in Hx. destruct Hx as [j [_ <-]].
    apply (In_nth _ _ []) in Hr. destruct Hr as [i [_ <-]]. specialize (Z i j). unfold mat_get in Z. simpl.
    destruct Z as [-> | ->]; auto.
  Qed.

  Lemma climb_settles : forall rounds s c past, cur_ok o (table s) c ->
    NoDup (fst c :: past) -> (forall m, In m past -> zero_one (sh_n o) m /\ present (sh_n o) (table s) m /\
      better (sc_of o (table s) (fst c)) (sc_of o (table s) m) = true) ->
    2 ^ (sh_n o * sh_n o) < rounds + S (length past) ->
    exists r, settles (fun f => climb rounds f o s c) r.
  Proof.
    induction rounds as [|k IH]; intros s c past C ND P L.
    - exfalso. assert (X := count_bound (sh_n o) (fst c :: past) ND). simpl in X.
      assert (forall m, fst c = m \/ In m past -> zero_one (sh_n o) m) by (intros m [<-|Hm]; [apply C|apply P; auto]).
      specialize (X H). simpl in L. lia.
    - assert (Zi : forall m, In m (one_step_change_iterator (sh_n o) (fst c)) -> zero_one (sh_n o) m).
      { intros m Hm. eapply iterator_zero_one; eauto. apply C. }
      destruct (round_settles (one_step_change_iterator (sh_n o) (fst c)) s c true Zi) as [[[s1 c1] stop] [F1 H1]].
      destruct (climb_round_ok _ _ _ _ _ _ _ _ _ (H1 F1 (le_n _)) Zi C) as [X1 [X2 [X3 X4]]].
      destruct stop.
      + exists (s1, c1), F1. intros f Hf. cbn [climb]. rewrite H1 by auto. reflexivity.
      + destruct X4 as [[_ ?]|[_ [X5 X6]]]; [discriminate|].
        assert (Pn : forall m, In m (fst c :: past) -> zero_one (sh_n o) m /\ present (sh_n o) (table s1) m /\
                   better (sc_of o (table s1) (fst c1)) (sc_of o (table s1) m) = true).
        { destruct (cur_ok_ext _ _ _ _ X1 C) as [Zc [Pc [Sc _]]]. intros m [<-|Hm]; auto.
          destruct (P m Hm) as [Q1 [Q2 Q3]]. destruct (sc_of_ext _ _ _ _ X1 Q2) as [Q4 Q5].
          split; auto. split; auto. eapply better_trans; eauto.
          destruct C as [_ [Pc0 _]]. destruct (sc_of_ext _ _ _ _ X1 Pc0) as [_ Q6]. rewrite Q5, Q6. auto. }
        destruct (IH s1 c1 (fst c :: past)) as [r [F2 H2]]; auto.
        { constructor; auto. intro X. destruct (Pn _ X) as [_ [_ X7]]. rewrite better_irrefl in X7. discriminate. }
        { simpl. lia. }
        exists r, (Nat.max F1 F2). intros f Hf. cbn [climb]. rewrite H1 by lia. cbn [rbind]. apply H2. lia.
  Qed.

  Theorem Hill_Climb_settles : forall s, zero_one (sh_n o) (sh_init o) ->
    exists r, settles (fun f => Hill_Climb (2 ^ (sh_n o * sh_n o)) f o s) r.
  Proof.
    intros s Z. destruct (EM_settles s (sh_init o) Z) as [[s1 r1] [F1 H1]].
    destruct (EM_ok _ _ _ _ _ _ Z (H1 F1 (le_n _))) as [X1 [X2 [X3 X4]]].
    destruct (climb_settles (2 ^ (sh_n o * sh_n o)) s1 (sh_init o, r1) []) as [r [F2 H2]].
    - split; auto.
    - repeat constructor. intros [].
    - intros m [].
    - simpl. lia.
    - exists r, (Nat.max F1 F2). intros f Hf. unfold Hill_Climb. rewrite H1 by lia. cbn [rbind fst snd]. apply H2. lia.
  Qed.
End Term.

(* ---------- without a time interval ---------- *)
Section NoInterval.
  Variable o : shp.
  Hypothesis log_ext : forall x y, (x == y)%Q -> (sh_log o x == sh_log o y)%Q.

  Definition zcol (col : list Q) : Prop := forall x, In x col -> (x == 0)%Q.

  Lemma qsum_ext : forall l l', Forall2 Qeq l l' -> (qsum l == qsum l')%Q.
  Proof.
    intros l l' F. unfold qsum. assert (G : forall a b, (a == b)%Q -> (fold_left Qplus l a == fold_left Qplus l' b)%Q).
    { induction F as [|x y l l' H F IH]; intros a b Hab; simpl; auto. apply IH. rewrite H, Hab. reflexivity. }
    apply G. reflexivity.
  Qed.

  Lemma qsum_zero : forall l, (forall x, In x l -> (x == 0)%Q) -> (qsum l == 0)%Q.
  Proof.
    intros l H. unfold qsum. assert (G : forall a, (a == 0)%Q -> (fold_left Qplus l a == 0)%Q).
    { induction l as [|x l IH]; intros a Ha; simpl; auto. apply IH.
      - intros; apply H; simpl; auto.
      - rewrite Ha, (H x) by (simpl; auto). reflexivity. }
    apply G. reflexivity.
  Qed.

  Lemma lambda_mu : forall col mu x, zcol col -> In x (lambda_for o col mu) -> (x == mu)%Q.
  Proof.
    intros col mu x Hc H. unfold lambda_for in H. apply in_map_iff in H. destruct H as [r [<- Hr]].
    rewrite qsum_zero; [ring|]. intros y Hy. apply in_map_iff in Hy. destruct Hy as [[a b] [<- Hy]]. simpl.
    apply in_combine_r in Hy. rewrite (Hc b Hy). ring.
  Qed.

  Lemma new_Li_ext : forall i col mu mu', (mu == mu')%Q -> (new_Li o i col mu == new_Li o i col mu')%Q.
  Proof.
    intros i col mu mu' H. unfold new_Li.
    assert (G : (qsum (map (fun p => fst p * sh_log o (snd p))%Q (combine (qcol (sh_X o) i) (lambda_for o col mu))) ==
                 qsum (map (fun p => fst p * sh_log o (snd p))%Q (combine (qcol (sh_X o) i) (lambda_for o col mu'))))%Q).
    { apply qsum_ext. unfold lambda_for. generalize (qcol (sh_X o) i) as xs. induction (sh_S o) as [|r S IH]; intros [|x xs]; simpl; auto.
      constructor; auto. rewrite (log_ext (qsum (map (fun p : Q * Q => (fst p * snd p)%Q) (combine r col)) + mu)
        (qsum (map (fun p : Q * Q => (fst p * snd p)%Q) (combine r col)) + mu')); [reflexivity|].
      rewrite H. reflexivity. }
    cbv zeta. revert G.
    generalize (qsum (map (fun p => fst p * sh_log o (snd p))%Q (combine (qcol (sh_X o) i) (lambda_for o col mu)))) as a.
    generalize (qsum (map (fun p => fst p * sh_log o (snd p))%Q (combine (qcol (sh_X o) i) (lambda_for o col mu')))) as b.
    intros a b G. rewrite G, H. reflexivity.
  Qed.

  Lemma update_mu_1 : forall i mu lam, ~ (mu == 0)%Q -> (forall x, In x lam -> (x == mu)%Q) ->
    (update_mu o i lam mu == qsum (map snd (combine lam (qcol (sh_X o) i))) / sh_T o)%Q.
  Proof.
    intros i mu lam Nz H. unfold update_mu.
    assert (G : (qsum (map (fun p => (mu / fst p) * snd p)%Q (combine lam (qcol (sh_X o) i))) ==
                 qsum (map snd (combine lam (qcol (sh_X o) i))))%Q).
    { apply qsum_ext. revert H. generalize (qcol (sh_X o) i) as xs. induction lam as [|a lam IH]; intros [|x xs] H; simpl; auto.
      constructor; [|apply IH; intros; apply H; simpl; auto]. rewrite (H a) by (simpl; auto). field. auto. }
    rewrite G. reflexivity.
  Qed.

  Lemma snd_combine_len : forall (l l' xs : list Q), length l = length l' -> map snd (combine l xs) = map snd (combine l' xs).
  Proof.
    induction l as [|a l IH]; intros [|b l'] xs H; try discriminate; auto. destruct xs; simpl; auto. f_equal. apply IH. auto.
  Qed.

  Lemma update_mu_0 : forall i mu lam, (mu == 0)%Q -> (update_mu o i lam mu == 0)%Q.
  Proof.
    intros i mu lam H. unfold update_mu. rewrite qsum_zero; [unfold Qdiv; ring|].
    intros x Hx. apply in_map_iff in Hx. destruct Hx as [[a b] [<- _]]. simpl. rewrite H. unfold Qdiv. ring.
  Qed.

  (** A type without parents needs at most three rounds. *)
  Lemma em_loop_empty : forall fuel i col, 3 <= fuel -> zcol col ->
    exists L mu, em_loop fuel o i [] None col 1%Q = Ok (L, col, mu).
  Proof.
    intros fuel i col Hf Hc. destruct fuel as [|[|[|f]]]; try lia.
    set (mu1 := update_mu o i (lambda_for o col 1) 1).
    set (mu2 := update_mu o i (lambda_for o col mu1) mu1).
    assert (E : (mu2 == mu1)%Q).
    { destruct (Qeq_dec mu1 0) as [Z|Z].
      - unfold mu2. rewrite update_mu_0; auto. symmetry. auto.
      - assert (H1 : (mu2 == qsum (map snd (combine (lambda_for o col mu1) (qcol (sh_X o) i))) / sh_T o)%Q)
          by (apply update_mu_1; auto; intros x; apply lambda_mu; auto).
        assert (H2 : (mu1 == qsum (map snd (combine (lambda_for o col 1) (qcol (sh_X o) i))) / sh_T o)%Q).
        { apply update_mu_1; auto. intro X; discriminate. intros x; apply lambda_mu; auto. }
        rewrite (snd_combine_len (lambda_for o col mu1) (lambda_for o col 1)) in H1
          by (unfold lambda_for; rewrite !map_length; auto).
        eapply Qeq_trans; [exact H1|]. apply Qeq_sym. exact H2. }
    assert (N := new_Li_ext i col mu2 mu1 E).
    cbn [em_loop update_alpha fold_left rbind]. fold mu1. fold mu2.
    destruct (Qle_bool (85 # 10000) (new_Li o i col mu1 - new_Li o i col 1)); cbn [negb]; [|eauto].
    destruct (Qle_bool (85 # 10000) (new_Li o i col mu2 - new_Li o i col mu1)) eqn:Q; cbn [negb]; [|eauto].
    exfalso. apply Qle_bool_iff in Q. rewrite N in Q. lra.
  Qed.

  Hypothesis no_interval : sh_interval o = None.

  Lemma em_loop_type_error : forall fuel i j Pa col mu, 1 <= fuel -> em_loop fuel o i (j :: Pa) None col mu = Err TypeError.
  Proof.
    intros [|f] i j Pa col mu H; [lia|]. cbn [em_loop]. unfold update_alpha. cbn [fold_left]. rewrite no_interval. cbn [rbind].
    assert (G : forall l, fold_left (fun (c : res (list Q)) (_ : nat) => rbind c (fun _ => Err TypeError)) l (Err TypeError) = Err TypeError).
    { induction l; simpl; auto. }
    rewrite G. auto.
  Qed.

  (** Only entries for types without parents. *)
  Definition rootless (t : tab) : Prop := forall i Pa e, lookup t i Pa = Some e -> Pa = [].

  Lemma em_nodes_type_error : forall n fuel k m is t, zero_one n m -> 3 <= fuel -> rootless t ->
    (forall i, In i is -> Pa_of m i = []) /\ (exists t' rs, em_nodes fuel o k m t is = Ok (t', rs) /\ rootless t') \/
    (exists i, In i is /\ Pa_of m i <> []) /\ em_nodes fuel o k m t is = Err TypeError.
  Proof.
    intros n fuel k m is t Z Hf. revert t. induction is as [|i is IH]; intros t R.
    - left. split; [intros i []|]. exists t, []. auto.
    - cbn [em_nodes]. unfold em_node. destruct (dget key_eqb t (i, Pa_of m i)) as [[[L al] mu]|] eqn:G.
      + assert (P := R _ _ _ G). cbn [rbind fst snd].
        destruct (IH t R) as [[A [t' [rs [B C]]]]|[[i' [A1 A2]] B]]; rewrite B; cbn [rbind].
        * left. split; [intros i' [<-|X]; auto|]. eauto.
        * right. split; auto. exists i'. split; auto. simpl. auto.
      + destruct (Pa_of m i) as [|j Pa] eqn:P.
        * destruct (em_loop_empty fuel i (start_col o k m i) Hf) as [L [mu E]].
          { intros x Hx. apply (In_nth _ _ 0%Q) in Hx. destruct Hx as [j [_ <-]]. eapply start_col_out; eauto. rewrite P. simpl. auto. }
          rewrite E. cbn [rbind fst snd map].
          assert (R' : rootless (dset key_eqb t (i, []) (L, [], mu))).
          { intros i' Pa e He. unfold lookup in He. destruct (key_eqb (i, []) (i', Pa)) eqn:Q.
            - apply key_eqb_spec in Q. inversion Q. auto.
            - rewrite (dget_dset_neq key_eqb key_eqb_spec) in He; [apply (R _ _ _ He)|].
              intro X. apply key_eqb_spec in X. congruence. }
          destruct (IH _ R') as [[A [t' [rs [B C]]]]|[[i' [A1 A2]] B]]; rewrite B; cbn [rbind].
          -- left. split; [intros i' [<-|X]; auto|]. eauto.
          -- right. split; auto. exists i'. split; auto. simpl. auto.
        * rewrite em_loop_type_error by lia. right. split; auto. exists i. split; [simpl; auto|]. rewrite P. discriminate.
  Qed.

  (** An edge makes EM fail. *)
  Lemma EM_type_error : forall fuel s m i j, zero_one (sh_n o) m -> 3 <= fuel -> rootless (table s) -> acyclic (edge m) ->
    i < sh_n o -> mat_get m j i = 1%Z -> EM fuel o s m = Err TypeError.
  Proof.
    intros fuel s m i j Z Hf R Ac Hi H. unfold EM. destruct (check_DAG_ok _ m (proj1 Z)) as [b [D Db]]. rewrite D. cbn [rbind].
    assert (b = true) as -> by (apply Db; auto).
    destruct (em_nodes_type_error _ fuel (draws s) m (seq 0 (sh_n o)) (table s) Z Hf R) as [[A _]|[_ B]]; [|rewrite B; auto].
    exfalso. assert (X : In j (Pa_of m i)).
    { unfold Pa_of. apply filter_In. split; [|rewrite H; auto]. apply in_seq.
      destruct (Nat.lt_ge_cases j (length m)); [lia|]. unfold mat_get in H. rewrite (nth_overflow m) in H by auto. destruct i; discriminate. }
    rewrite (A i) in X; [destruct X|]. apply in_seq. lia.
  Qed.

  (** The empty graph is scored without failure. *)
  Lemma EM_empty : forall fuel s, 3 <= fuel -> rootless (table s) ->
    exists s' r, EM fuel o s (zeros (sh_n o)) = Ok (s', r) /\ rootless (table s').
  Proof.
    intros fuel s Hf R.
    assert (Z : zero_one (sh_n o) (zeros (sh_n o))).
    { split; [apply shape_zeros|]. intros i j. rewrite mat_get_zeros. auto. }
    unfold EM. destruct (check_DAG_ok _ _ (proj1 Z)) as [b [D Db]]. rewrite D. cbn [rbind]. destruct b.
    - destruct (em_nodes_type_error _ fuel (draws s) (zeros (sh_n o)) (seq 0 (sh_n o)) (table s) Z Hf R) as [[_ [t' [rs [B C]]]]|[[i [_ X]] _]].
      + rewrite B. cbn [rbind]. eexists _, _. split; [reflexivity|]. auto.
      + exfalso. apply X. unfold Pa_of. induction (seq 0 (length (zeros (sh_n o)))) as [|a l IH]; simpl; auto. rewrite mat_get_zeros. auto.
    - eexists _, _. split; [reflexivity|]. auto.
  Qed.

  Lemma round_type_error : forall fuel bad post pre s c stop, 3 <= fuel -> rootless (table s) ->
    (forall m, In m pre -> m = zeros (sh_n o)) ->
    zero_one (sh_n o) bad -> acyclic (edge bad) -> (exists i j, i < sh_n o /\ mat_get bad j i = 1%Z) ->
    climb_round fuel o (pre ++ bad :: post) s c stop = Err TypeError.
  Proof.
    intros fuel bad post pre s c stop Hf R P Zb Ab [i [j [Hi Hj]]]. revert s c stop R. induction pre as [|m pre IH]; intros s c stop R.
    - simpl. rewrite (EM_type_error fuel s bad i j); auto.
    - cbn [app climb_round]. rewrite (P m) by (simpl; auto). destruct (EM_empty fuel s Hf R) as [s' [r [E R']]]. rewrite E. cbn [rbind fst snd].
      destruct (better _ _); apply IH; auto; intros; apply P; simpl; auto.
  Qed.

  Theorem Hill_Climb_type_error : forall rounds fuel s, 1 <= rounds -> 3 <= fuel -> rootless (table s) ->
    2 <= sh_n o -> sh_init o = zeros (sh_n o) -> Hill_Climb rounds fuel o s = Err TypeError.
  Proof.
    intros rounds fuel s Hr Hf R Hn Hi. unfold Hill_Climb. rewrite Hi.
    destruct (EM_empty fuel s Hf R) as [s' [r [E R']]]. rewrite E. cbn [rbind fst snd].
    destruct rounds as [|k]; [lia|]. cbn [climb fst].
    set (z := zeros (sh_n o)). assert (Z : zero_one (sh_n o) z).
    { split; [apply shape_zeros|]. intros i j. unfold z. rewrite mat_get_zeros. auto. }
    set (bad := one_step_change z (0, 1, 1)).
    assert (Zb : zero_one (sh_n o) bad) by (apply zero_one_step; auto; lia).
    assert (Gb : forall a b, mat_get bad a b = if (Nat.eqb 0 a && Nat.eqb 1 b)%bool then 1%Z else 0%Z).
    { intros a b. unfold bad, one_step_change. simpl Nat.eqb. cbv iota.
      rewrite (mat_get_set (sh_n o)); try lia; [|apply shape_mat_set; [apply Z|lia]].
      rewrite (mat_get_set (sh_n o)); try lia; [|apply Z]. unfold z. rewrite mat_get_zeros.
      destruct a as [|[|a]], b as [|[|b]]; simpl; auto. }
    assert (exists post, one_step_change_iterator (sh_n o) z = [z; z; z; mat_set (mat_set z 0 1 0%Z) 1 0 0%Z] ++ bad :: post) as [post Q].
    { unfold one_step_change_iterator. destruct (sh_n o) as [|[|n]]; try lia. simpl. eexists. reflexivity. }
    rewrite Q. rewrite round_type_error; auto.
    - intros m Hm. assert (Zz : mat_set (mat_set z 0 1 0%Z) 1 0 0%Z = z).
      { apply (zero_one_ext (sh_n o)); [|apply Z|].
        - apply shape_mat_set; [|lia]. apply shape_mat_set; [apply Z|lia].
        - intros a b _ _. rewrite (mat_get_set (sh_n o)); try lia; [|apply shape_mat_set; [apply Z|lia]].
          rewrite (mat_get_set (sh_n o)); try lia; [|apply Z]. unfold z. rewrite mat_get_zeros.
          destruct (_ && _)%bool; auto. destruct (_ && _)%bool; auto. }
      rewrite Zz in Hm. simpl in Hm. intuition.
    - apply (FinGraph.rank_acyclic _ (fun x => x)). intros u v [_ H]. rewrite Gb in H. destruct u as [|[|u]], v as [|[|v]]; simpl in H; try congruence; lia.
    - exists 1, 0. split; [lia|]. rewrite Gb. auto.
  Qed.
End NoInterval.
