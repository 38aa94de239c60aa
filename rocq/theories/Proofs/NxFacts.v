(** Kahn's algorithm: the topological sort succeeds exactly on acyclic graphs
    and lists every node after its predecessors. *)

From Coq Require Import List Arith Bool Lia Permutation.
From Verif Require Import Model.Py Model.Networkx Spec.Digraphs.
From Verif Require Import Proofs.PyFacts Proofs.FinGraph Proofs.TopoFacts.
Import ListNotations.

Lemma app_len_inv : forall {A} (a c b d : list A), length a = length c -> a ++ b = c ++ d -> a = c /\ b = d.
Proof.
  induction a as [|x a IH]; intros [|y c] b d L H; simpl in *; try discriminate; auto.
  inversion H; subst. destruct (IH c b d) as [-> ->]; auto.
Qed.

Section Kahn.
  Variable n : nat.
  Variable adj : nat -> nat -> bool.

  Definition E (u v : nat) : Prop := u < n /\ v < n /\ adj u v = true.

  Lemma E_dec : forall u v, {E u v} + {~ E u v}.
  Proof.
    intros u v. unfold E. destruct (lt_dec u n); [|right; tauto].
    destruct (lt_dec v n); [|right; tauto]. destruct (adj u v); [left|right]; auto.
    intros [_ [_ X]]. discriminate.
  Qed.

  Lemma preds_in : forall u v, v < n -> (In u (nx_predecessors n adj v) <-> E u v).
  Proof.
    intros u v Hv. unfold nx_predecessors, E. rewrite filter_In, in_seq. split; intros; intuition lia.
  Qed.
  Lemma succs_in : forall u v, u < n -> (In v (nx_neighbors n adj u) <-> E u v).
  Proof.
    intros u v Hv. unfold nx_neighbors, E. rewrite filter_In, in_seq. split; intros; intuition lia.
  Qed.
  Lemma succs_nd : forall u, NoDup (nx_neighbors n adj u).
  Proof. intro u. apply NoDup_filter, seq_NoDup. Qed.
  Lemma preds_nd : forall u, NoDup (nx_predecessors n adj u).
  Proof. intro u. apply NoDup_filter, seq_NoDup. Qed.

  (** Predecessors of [c] not yet processed. *)
  Definition npar (O : list nat) (c : nat) : nat :=
    length (filter (fun p => negb (memb p O)) (nx_predecessors n adj c)).

  Lemma npar_nil : forall c, npar [] c = nx_in_degree n adj c.
  Proof.
    intro c. unfold npar, nx_in_degree. f_equal.
    induction (nx_predecessors n adj c) as [|a l IH]; simpl; auto. f_equal. auto.
  Qed.

  Lemma npar_0 : forall O c, npar O c = 0 <-> (forall p, In p (nx_predecessors n adj c) -> In p O).
  Proof.
    intros O c. unfold npar. split.
    - intros H p Hp. destruct (in_dec Nat.eq_dec p O); auto. exfalso.
      assert (X : In p (filter (fun p => negb (memb p O)) (nx_predecessors n adj c))).
      { apply filter_In. split; auto. apply negb_true_iff, memb_false. auto. }
      destruct (filter _ _); [auto|discriminate].
    - intro H. destruct (filter (fun p => negb (memb p O)) (nx_predecessors n adj c)) as [|a l] eqn:F; auto.
      assert (X : In a (a :: l)) by (simpl; auto). rewrite <- F in X. apply filter_In in X.
      destruct X as [X1 X2]. apply negb_true_iff, memb_false in X2. exfalso. auto.
  Qed.

  Lemma npar_snoc : forall O u c, ~ In u O ->
    npar O c = npar (O ++ [u]) c + (if in_dec Nat.eq_dec u (nx_predecessors n adj c) then 1 else 0).
  Proof.
    intros O u c H. unfold npar. pose proof (preds_nd c) as ND.
    induction (nx_predecessors n adj c) as [|a l IH]; simpl; auto. inversion ND as [|? ? N1 N2]; subst.
    specialize (IH N2).
    assert (M : memb a (O ++ [u]) = (memb a O || Nat.eqb a u)%bool).
    { unfold memb. rewrite existsb_app. simpl. rewrite orb_false_r. auto. }
    rewrite M. destruct (Nat.eqb_spec a u).
    - subst a. assert (memb u O = false) as -> by (apply memb_false; auto). simpl.
      destruct (Nat.eq_dec u u) as [_|X]; [|congruence].
      destruct (in_dec Nat.eq_dec u l) as [X|X]; [tauto|]. lia.
    - rewrite orb_false_r. destruct (memb a O); simpl; destruct (Nat.eq_dec a u); try congruence;
        destruct (in_dec Nat.eq_dec u l); lia.
  Qed.

  Lemma children_ok : forall cs deg zero, NoDup cs -> NoDup (dkeys deg) ->
    (forall c, In c cs -> exists k, dget Nat.eqb deg c = Some (S k)) ->
    exists deg', kahn_children cs deg zero =
        Ok (deg', zero ++ filter (fun c => match dget Nat.eqb deg c with Some 1 => true | _ => false end) cs) /\
      NoDup (dkeys deg') /\
      forall c, dget Nat.eqb deg' c =
        if in_dec Nat.eq_dec c cs
        then match dget Nat.eqb deg c with Some (S (S k)) => Some (S k) | _ => None end
        else dget Nat.eqb deg c.
  Proof.
    induction cs as [|a cs IH]; intros deg zero ND NK H.
    - exists deg. rewrite app_nil_r. simpl. auto.
    - inversion ND as [|? ? N1 N2]; subst. destruct (H a) as [k Hk]; [simpl; auto|].
      simpl kahn_children. unfold dgetE. rewrite Hk. cbn [rbind]. rewrite Nat.sub_succ, Nat.sub_0_r.
      destruct k as [|k].
      + destruct (IH (dpop Nat.eqb deg a) (zero ++ [a])) as [deg' [E1 [E2 E3]]]; auto.
        { apply NoDup_dpop. auto. }
        { intros c Hc. assert (a <> c) by (intro; subst; auto).
          rewrite (dget_dpop_neq Nat.eqb Neqb_spec) by auto. apply H. simpl. auto. }
        exists deg'. cbn [Nat.eqb]. rewrite E1. split; [|split; auto].
        * f_equal. f_equal. rewrite <- app_assoc. f_equal. simpl filter. rewrite Hk. simpl. f_equal.
          apply filter_ext_in. intros c Hc. assert (a <> c) by (intro; subst; auto).
          rewrite (dget_dpop_neq Nat.eqb Neqb_spec); auto.
        * intro c. rewrite E3. simpl. destruct (Nat.eq_dec a c) as [->|D].
          { rewrite Hk. destruct (in_dec Nat.eq_dec c cs); [tauto|].
            apply (dget_dpop_eq Nat.eqb Neqb_spec). auto. }
          rewrite (dget_dpop_neq Nat.eqb Neqb_spec) by auto. destruct (in_dec Nat.eq_dec c cs); auto.
      + destruct (IH (dset Nat.eqb deg a (S k)) zero) as [deg' [E1 [E2 E3]]]; auto.
        { apply (NoDup_dset Nat.eqb Neqb_spec). auto. }
        { intros c Hc. assert (a <> c) by (intro; subst; auto).
          rewrite (dget_dset_neq Nat.eqb Neqb_spec) by auto. apply H. simpl. auto. }
        exists deg'. cbn [Nat.eqb]. rewrite E1. split; [|split; auto].
        * f_equal. f_equal. f_equal. simpl filter. rewrite Hk.
          apply filter_ext_in. intros c Hc. assert (a <> c) by (intro; subst; auto).
          rewrite (dget_dset_neq Nat.eqb Neqb_spec); auto.
        * intro c. rewrite E3. simpl. destruct (Nat.eq_dec a c) as [->|D].
          { rewrite Hk. destruct (in_dec Nat.eq_dec c cs); [tauto|].
            apply (dget_dset_eq Nat.eqb Neqb_spec). }
          rewrite (dget_dset_neq Nat.eqb Neqb_spec) by auto. destruct (in_dec Nat.eq_dec c cs); auto.
  Qed.

  (** State of the algorithm: [O] processed, [W] waiting. *)
  Record kinv (deg : list (nat * nat)) (O W : list nat) : Prop := {
    k_keys : NoDup (dkeys deg);
    k_deg : forall c, dget Nat.eqb deg c = if c <? n then match npar O c with 0 => None | S k => Some (S k) end else None;
    k_nd : NoDup (O ++ W);
    k_in : forall c, In c (O ++ W) <-> c < n /\ npar O c = 0;
    k_ord : forall l1 v l2, O ++ W = l1 ++ v :: l2 -> forall p, E p v -> In p l1 }.

  Lemma node_step : forall deg O u rest zero, kinv deg O (u :: rest ++ zero) ->
    exists deg' zero', kahn_children (nx_neighbors n adj u) deg zero = Ok (deg', zero ++ zero') /\
      kinv deg' (O ++ [u]) (rest ++ zero ++ zero').
  Proof.
    intros deg O u rest zero [K D ND I Or].
    assert (Hu : u < n) by (apply (I u); apply in_app_iff; simpl; auto).
    assert (Nu : ~ In u O).
    { intro X. apply (NoDup_app_elim O (u :: rest ++ zero)) in ND.
      destruct ND as [_ [_ N3]]. apply (N3 u X). simpl. auto. }
    assert (Sc : forall c, In c (nx_neighbors n adj u) -> c < n /\ npar O c = S (npar (O ++ [u]) c)).
    { intros c Hc. apply succs_in in Hc; auto. split; [apply Hc|]. rewrite (npar_snoc O u c Nu).
      destruct (in_dec Nat.eq_dec u (nx_predecessors n adj c)) as [X|X]; [lia|].
      exfalso. apply X. apply preds_in; auto. apply Hc. }
    assert (Nc : forall c, ~ In c (nx_neighbors n adj u) -> c < n -> npar (O ++ [u]) c = npar O c).
    { intros c Hc Hn. rewrite (npar_snoc O u c Nu).
      destruct (in_dec Nat.eq_dec u (nx_predecessors n adj c)) as [X|X]; [|lia].
      exfalso. apply Hc. apply succs_in; auto. apply preds_in in X; auto. }
    destruct (children_ok (nx_neighbors n adj u) deg zero (succs_nd u) K) as [deg' [E1 [E2 E3]]].
    { intros c Hc. destruct (Sc c Hc) as [H1 H2]. exists (npar (O ++ [u]) c). rewrite D, H2.
      apply Nat.ltb_lt in H1. rewrite H1. auto. }
    set (z' := filter _ _) in E1. exists deg', z'. split; auto.
    assert (Z : forall c, In c z' <-> In c (nx_neighbors n adj u) /\ npar (O ++ [u]) c = 0).
    { intro c. unfold z'. rewrite filter_In. split; intros [H1 H2]; split; auto; destruct (Sc c H1) as [H3 H4];
        apply Nat.ltb_lt in H3; rewrite D, H3, H4 in *; destruct (npar (O ++ [u]) c); auto; discriminate. }
    constructor; auto.
    - intro c. rewrite E3. destruct (in_dec Nat.eq_dec c (nx_neighbors n adj u)) as [X|X].
      + destruct (Sc c X) as [H1 H2]. rewrite D, H2. apply Nat.ltb_lt in H1. rewrite H1.
        destruct (npar (O ++ [u]) c); auto.
      + rewrite D. destruct (Nat.ltb_spec c n) as [L|L]; auto. rewrite Nc; auto.
    - replace ((O ++ [u]) ++ rest ++ zero ++ z') with ((O ++ u :: rest ++ zero) ++ z')
        by (rewrite <- !app_assoc; simpl; rewrite <- app_assoc; auto).
      apply NoDup_app_intro; auto.
      + unfold z'. apply NoDup_filter, succs_nd.
      + intros c H1 H2. apply Z in H2. destruct H2 as [H2 H3]. apply I in H1. destruct H1 as [H1 H4].
        destruct (Sc c H2). lia.
    - intro c. replace ((O ++ [u]) ++ rest ++ zero ++ z') with ((O ++ u :: rest ++ zero) ++ z')
        by (rewrite <- !app_assoc; simpl; rewrite <- app_assoc; auto).
      rewrite in_app_iff, I, Z. split.
      + intros [[H1 H2]|[H1 H2]]; [|destruct (Sc c H1); auto]. split; auto.
        pose proof (npar_snoc O u c Nu). lia.
      + intros [H1 H2]. destruct (in_dec Nat.eq_dec c (nx_neighbors n adj u)); auto.
        left. split; auto. rewrite <- Nc; auto.
    - intros l1 v l2 H p Hp.
      replace ((O ++ [u]) ++ rest ++ zero ++ z') with ((O ++ u :: rest ++ zero) ++ z') in H
        by (rewrite <- !app_assoc; simpl; rewrite <- app_assoc; auto).
      destruct (Nat.lt_ge_cases (length l1) (length (O ++ u :: rest ++ zero))) as [L|L].
      + destruct (skipn (length l1) (O ++ u :: rest ++ zero)) as [|x r] eqn:S1.
        { pose proof (skipn_length (length l1) (O ++ u :: rest ++ zero)) as SL. rewrite S1 in SL. simpl in SL. lia. }
        pose proof (firstn_skipn (length l1) (O ++ u :: rest ++ zero)) as FS. rewrite S1 in FS.
        assert (FL : length (firstn (length l1) (O ++ u :: rest ++ zero)) = length l1) by (apply firstn_length_le; lia).
        set (f := firstn (length l1) (O ++ u :: rest ++ zero)) in *. clearbody f.
        rewrite <- FS, <- app_assoc in H. simpl in H.
        destruct (app_len_inv f l1 (x :: r ++ z') (v :: l2) FL H) as [Q1 Q2].
        inversion Q2; subst. apply (Or l1 v r); auto.
      + assert (Hv : In v z').
        { pose proof (f_equal (skipn (length (O ++ u :: rest ++ zero))) H) as Q.
          rewrite skipn_app, skipn_all, Nat.sub_diag in Q. simpl in Q. rewrite Q.
          rewrite skipn_app. apply in_app_iff. right.
          replace (length (O ++ u :: rest ++ zero) - length l1) with 0 by lia. simpl. auto. }
        apply Z in Hv. destruct Hv as [H1 H2].
        assert (X : In p (O ++ [u])).
        { apply (npar_0 (O ++ [u]) v); auto. apply preds_in; auto. apply Hp. }
        pose proof (f_equal (firstn (length l1)) H) as Q.
        rewrite firstn_app, firstn_all2 in Q by auto.
        rewrite (firstn_app (length l1) l1), firstn_all, Nat.sub_diag in Q. simpl in Q. rewrite app_nil_r in Q.
        rewrite <- Q. apply in_app_iff. left. apply in_app_iff in X. apply in_app_iff. simpl in *. tauto.
  Qed.

  Lemma generation_ok : forall gen deg O zero, kinv deg O (gen ++ zero) ->
    exists deg' zero', kahn_generation n adj gen deg zero = Ok (deg', zero ++ zero') /\
      kinv deg' (O ++ gen) (zero ++ zero').
  Proof.
    induction gen as [|u gen IH]; intros deg O zero K; simpl.
    - exists deg, []. rewrite !app_nil_r. auto.
    - destruct (node_step deg O u gen zero K) as [d1 [z1 [E1 K1]]]. rewrite E1. simpl.
      rewrite app_assoc in K1. rewrite <- (app_assoc gen) in K1.
      destruct (IH d1 (O ++ [u]) (zero ++ z1) K1) as [d2 [z2 [E2 K2]]].
      exists d2, (z1 ++ z2). rewrite E2, <- !app_assoc. rewrite <- !app_assoc in K2. auto.
  Qed.

  Lemma kinv_bound : forall deg O W, kinv deg O W -> length (O ++ W) <= n.
  Proof.
    intros deg O W K. rewrite <- (seq_length n 0). apply NoDup_incl_length. apply K.
    intros c Hc. apply K in Hc. apply in_seq. lia.
  Qed.

  Lemma loop_ok : forall fuel zero deg O, kinv deg O zero -> n <= length O + fuel ->
    exists deg' O', kinv deg' O' [] /\
      kahn_loop fuel n adj zero deg O = match deg' with [] => Ok O' | _ => Err NetworkXUnfeasible end.
  Proof.
    induction fuel as [|f IH]; intros zero deg O K L.
    - assert (zero = []) as ->.
      { pose proof (kinv_bound _ _ _ K) as B. rewrite app_length in B. destruct zero; auto. simpl in B. lia. }
      exists deg, O. split; auto.
    - destruct zero as [|z zero]; [exists deg, O; split; auto|].
      destruct (generation_ok (z :: zero) deg O []) as [d1 [z1 [E1 K1]]]; [rewrite app_nil_r; auto|].
      cbn [kahn_loop]. rewrite E1. cbn [rbind fst snd app]. apply IH; auto.
      rewrite app_length. simpl. lia.
  Qed.

  Lemma init_kinv : kinv
    (map (fun v => (v, nx_in_degree n adj v)) (filter (fun v => negb (Nat.eqb (nx_in_degree n adj v) 0)) (seq 0 n)))
    [] (filter (fun v => Nat.eqb (nx_in_degree n adj v) 0) (seq 0 n)).
  Proof.
    set (P := fun v => negb (Nat.eqb (nx_in_degree n adj v) 0)).
    assert (KK : forall l, dkeys (map (fun v => (v, nx_in_degree n adj v)) l) = l).
    { intro l. unfold dkeys. rewrite map_map. simpl. apply map_id. }
    assert (I0 : forall c, In c (filter (fun v => Nat.eqb (nx_in_degree n adj v) 0) (seq 0 n)) <-> c < n /\ npar [] c = 0).
    { intro c. rewrite filter_In, in_seq, Nat.eqb_eq, npar_nil. split; intros; intuition lia. }
    constructor; simpl.
    - rewrite KK. apply NoDup_filter, seq_NoDup.
    - intro c. rewrite npar_nil.
      assert (ND : NoDup (filter P (seq 0 n))) by apply NoDup_filter, seq_NoDup.
      destruct (Nat.ltb_spec c n) as [L|L].
      + destruct (nx_in_degree n adj c) as [|k] eqn:Dg.
        * apply (dget_None_key Nat.eqb Neqb_spec). rewrite KK, filter_In. unfold P. rewrite Dg. simpl. intuition discriminate.
        * apply (In_dget Nat.eqb Neqb_spec). { rewrite KK. auto. }
          apply in_map_iff. exists c. rewrite Dg. split; auto. apply filter_In. split; [apply in_seq; lia|].
          unfold P. rewrite Dg. auto.
      + apply (dget_None_key Nat.eqb Neqb_spec). rewrite KK, filter_In, in_seq. lia.
    - apply NoDup_filter, seq_NoDup.
    - apply I0.
    - intros l1 v l2 H p Hp. assert (X : In v (l1 ++ v :: l2)) by (apply in_app_iff; simpl; auto).
      rewrite <- H in X. apply I0 in X. destruct X as [X1 X2]. exfalso.
      apply (proj1 (npar_0 [] v) X2 p). apply preds_in; auto.
  Qed.

  Definition topological (l : list nat) : Prop :=
    Permutation l (seq 0 n) /\ forall l1 v l2, l = l1 ++ v :: l2 -> forall p, E p v -> In p l1.

  Theorem topological_sort_ok :
    (acyclic E /\ exists l, nx_topological_sort n adj = Ok l /\ topological l) \/
    (~ acyclic E /\ nx_topological_sort n adj = Err NetworkXUnfeasible).
  Proof.
    unfold nx_topological_sort.
    destruct (loop_ok n _ _ _ init_kinv) as [deg [O [K H]]]; [lia|]. rewrite H.
    destruct K as [K D ND I Or]. rewrite app_nil_r in *. destruct deg as [|[c0 k0] deg].
    - left. assert (P : Permutation O (seq 0 n)).
      { apply NoDup_Permutation; auto. apply seq_NoDup. intro c. rewrite I, in_seq. split; [lia|].
        intros [_ Hc]. simpl in Hc. split; auto. specialize (D c). simpl in D. apply Nat.ltb_lt in Hc. rewrite Hc in D.
        destruct (npar O c); auto. discriminate. }
      assert (T : topological O) by (split; auto).
      split; [|exists O; auto].
      apply (rank_acyclic E (fun x => index_of x O)).
      intros u v Huv. destruct T as [_ T].
      assert (Hv : In v O). { apply (Permutation_in _ (Permutation_sym P)). apply in_seq. destruct Huv. lia. }
      destruct (in_split v O Hv) as [l1 [l2 Q]]. specialize (T l1 v l2 Q u Huv). rewrite Q.
      rewrite index_of_app. apply index_of_prefix; auto.
      rewrite Q in ND. apply NoDup_remove_2 in ND. intro X. apply ND. apply in_app_iff. auto.
    - right. split; auto. intro Ac.
      set (R := filter (fun c => negb (Nat.eqb (npar O c) 0)) (seq 0 n)).
      assert (InR : forall c, In c R <-> c < n /\ npar O c <> 0).
      { intro c. unfold R. rewrite filter_In, in_seq, negb_true_iff, Nat.eqb_neq. split; intros; intuition lia. }
      assert (Hc0 : In c0 R).
      { apply InR. specialize (D c0). simpl in D. rewrite Nat.eqb_refl in D.
        destruct (Nat.ltb_spec c0 n); [|discriminate]. split; auto. intro X. rewrite X in D. discriminate. }
      destruct (source_exists E E_dec R Ac) as [s [Hs Hp]]; [intro X; rewrite X in Hc0; destruct Hc0|].
      apply InR in Hs. destruct Hs as [Hs1 Hs2]. apply Hs2. apply npar_0. intros p Hpp.
      apply preds_in in Hpp; auto.
      apply I. split; [apply Hpp|]. destruct (Nat.eq_dec (npar O p) 0) as [Z|Z]; auto. exfalso. apply (Hp p); auto.
      apply InR. split; auto. apply Hpp.
  Qed.

  Theorem is_dag_ok : exists b, nx_is_dag n adj = Ok b /\ (b = true <-> acyclic E).
  Proof.
    unfold nx_is_dag. destruct topological_sort_ok as [[A [l [-> T]]]|[A ->]].
    - exists true. split; auto. split; auto.
    - exists false. split; auto. split; [discriminate|tauto].
  Qed.
End Kahn.
