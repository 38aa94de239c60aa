(** Correctness of topo_sort and is_acyclic. *)

From Coq Require Import List Arith Bool Lia.
From Verif Require Import Model.Py Model.Graph Model.DiGraph.
From Verif Require Import Spec.Digraphs.
From Verif Require Import Proofs.PyFacts Proofs.GraphFacts Proofs.DSepTheory Proofs.FinGraph Proofs.DiGraphFacts.
Import ListNotations.

Lemma NoDup_app_intro : forall {A} (l1 l2 : list A), NoDup l1 -> NoDup l2 ->
  (forall x, In x l1 -> ~ In x l2) -> NoDup (l1 ++ l2).
Proof.
  induction l1 as [|a l1 IH]; simpl; intros l2 H1 H2 H; auto. inversion H1; subst.
  constructor; auto. rewrite in_app_iff. intros [?|?]; auto. eapply H; eauto.
Qed.

Lemma NoDup_app_elim : forall {A} (l1 l2 : list A), NoDup (l1 ++ l2) ->
  NoDup l1 /\ NoDup l2 /\ forall x, In x l1 -> ~ In x l2.
Proof.
  induction l1 as [|a l1 IH]; simpl; intros l2 H. { split; [constructor|]. auto. }
  inversion H; subst. destruct (IH _ H3) as [N1 [N2 N3]]. split; [|split; auto].
  - constructor; auto. intro. apply H2. apply in_app_iff. auto.
  - intros x [<-|Hx]; auto. intro. apply H2. apply in_app_iff. auto.
Qed.

Section Topo.
  Variable g : graph.
  Hypothesis W : WF g.
  Hypothesis irr : forall u, ~ arc g u u.
  Notation V := (node_list g).

  Definition cnt (O : list nat) (c : nat) : nat := length (filter (fun p => memb p O) (parents g c)).

  Lemma in_degree_ok : forall u, In u V -> in_degree g u = Ok (length (parents g u)).
  Proof using W. intros u H. unfold in_degree. rewrite get_parents_ok by auto. reflexivity. Qed.

  Lemma filter_len_eq : forall {A} (f : A -> bool) l,
    length l = length (filter f l) <-> forall x, In x l -> f x = true.
  Proof using.
    induction l as [|a l IH]; simpl. { split; tauto. }
    pose proof (filter_len f l). destruct (f a) eqn:E; simpl.
    - split.
      + intros H0 x [<-|Hx]; auto. apply IH; auto. 
      + intro H0. f_equal. apply IH. auto.
    - split; [lia|]. intro H0. specialize (H0 a (or_introl eq_refl)). congruence.
  Qed.

  Lemma cnt_full : forall O c, length (parents g c) = cnt O c <-> (forall p, arc g p c -> In p O).
  Proof using W.
    intros. unfold cnt. rewrite filter_len_eq. split; intros H p Hp.
    - apply memb_In. apply H. apply in_parents; auto.
    - apply memb_In. apply H. apply in_parents in Hp; auto.
  Qed.

  Lemma cnt_snoc : forall O u c, ~ In u O ->
    cnt (O ++ [u]) c = cnt O c + (if memb c (children g u) then 1 else 0).
  Proof using W.
    intros O u c Hu. unfold cnt.
    assert (G : forall l, NoDup l -> length (filter (fun p => memb p (O ++ [u])) l) =
                length (filter (fun p => memb p O) l) + (if memb u l then 1 else 0)).
    { induction l as [|a l IH]; intro ND; auto. inversion ND; subst.
      specialize (IH H2). simpl. unfold memb at 1. rewrite existsb_app. simpl. fold (memb a O).
      destruct (Nat.eqb_spec a u).
      - subst. assert (Hf : memb u O = false) by (apply memb_false; auto). rewrite Hf. simpl.
        rewrite Nat.eqb_refl. simpl. rewrite IH.
        assert (memb u l = false) as -> by (apply memb_false; auto). lia.
      - rewrite (proj2 (Nat.eqb_neq u a)) by auto. rewrite !orb_false_r. simpl.
        destruct (memb a O); simpl; rewrite IH; lia. }
    rewrite G by (apply parents_NoDup; auto). f_equal.
    destruct (memb c (children g u)) eqn:E.
    - apply memb_In, in_children in E; auto. assert (memb u (parents g c) = true) as ->; auto.
      apply memb_In, in_parents; auto.
    - apply memb_false in E. rewrite in_children in E by auto.
      assert (memb u (parents g c) = false) as ->; auto.
      apply memb_false. rewrite in_parents by auto. auto.
  Qed.

  Lemma topo_children_ok : forall cs fp q v,
    NoDup cs -> incl cs V ->
    (forall c, In c V -> nget fp c <> None) ->
    (forall c, In c V -> nget v c <> None) ->
    exists new fp' v', topo_children g cs fp q v = Ok (fp', q ++ new, v') /\
      (forall c, nget fp' c = if memb c cs then option_map S (nget fp c) else nget fp c) /\
      length new + unvisited v' = unvisited v /\ NoDup new /\
      (forall c, In c new <-> In c cs /\ nget v c = Some false /\ nget fp' c = Some (length (parents g c))) /\
      (forall c, visited Nat.eqb v' c <-> visited Nat.eqb v c \/ In c new) /\
      (forall c, nget v' c <> None <-> nget v c <> None).
  Proof using W.
    induction cs as [|c cs IH]; intros fp q v ND Hi Hf Hv; simpl.
    - exists [], fp, v. rewrite app_nil_r. split; [reflexivity|]. simpl. split; [auto|]. split; [auto|]. split; [constructor|]. intuition.
    - inversion ND; subst. assert (Hc : In c V) by (apply Hi; simpl; auto).
      assert (Hi' : incl cs V) by (intros x Hx; apply Hi; simpl; auto).
      unfold dgetE at 1. destruct (nget fp c) as [f|] eqn:Ef; [|exfalso; apply (Hf c); auto].
      simpl. unfold dgetE at 1. destruct (nget v c) as [b|] eqn:Ev; [|exfalso; apply (Hv c); auto].
      simpl.
      assert (Hfp : forall c', nget (nset fp c (f + 1)) c' = if Nat.eqb c' c then Some (f + 1) else nget fp c').
      { intro c'. destruct (Nat.eqb_spec c' c).
        - subst. apply dget_dset_eq. apply Neqb_spec.
        - apply dget_dset_neq; auto. apply Neqb_spec. }
      assert (Hf' : forall c', In c' V -> nget (nset fp c (f + 1)) c' <> None).
      { intros c' H. rewrite Hfp. destruct (Nat.eqb c' c); auto. congruence. }
      set (push := match b with true => Ok false | false =>
         rbind (in_degree g c) (fun d => rbind (dgetE Nat.eqb (nset fp c (f + 1)) c)
           (fun f' => Ok (Nat.eqb d f'))) end).
      assert (Hp : push = Ok (negb b && Nat.eqb (length (parents g c)) (f + 1))%bool).
      { unfold push. destruct b; auto. rewrite in_degree_ok by auto. simpl. unfold dgetE.
        rewrite Hfp, Nat.eqb_refl. reflexivity. }
      replace (if b then Ok false else
         rbind (in_degree g c) (fun d => rbind (dgetE Nat.eqb (nset fp c (f + 1)) c)
           (fun f' => Ok (Nat.eqb d f')))) with push by (destruct b; auto).
      rewrite Hp. simpl.
      destruct (negb b && Nat.eqb (length (parents g c)) (f + 1))%bool eqn:Ep.
      + apply andb_true_iff in Ep. destruct Ep as [Eb Ed]. destruct b; [discriminate|].
        apply Nat.eqb_eq in Ed.
        assert (Hv1 : forall c', nget (nset v c true) c' = if Nat.eqb c' c then Some true else nget v c').
        { intro c'. destruct (Nat.eqb_spec c' c).
          - subst. apply dget_dset_eq. apply Neqb_spec.
          - apply dget_dset_neq; auto. apply Neqb_spec. }
        destruct (IH (nset fp c (f + 1)) (q ++ [c]) (nset v c true)) as [new [fp' [v' [R1 [R2 [R3 [R4 [R5 [R6 R7]]]]]]]]]; auto.
        { intros c' H. rewrite Hv1. destruct (Nat.eqb c' c); auto. congruence. }
        exists (c :: new), fp', v'. rewrite <- app_assoc in R1. simpl in R1.
        assert (Nc : ~ In c new) by (rewrite R5; tauto).
        assert (Hfc : nget fp' c = Some (length (parents g c))).
        { rewrite R2. assert (memb c cs = false) as -> by (apply memb_false; auto).
          rewrite Hfp, Nat.eqb_refl. congruence. }
        split; [exact R1|]. split.
        { intro c'. rewrite R2, Hfp. destruct (Nat.eqb_spec c' c).
          - subst. assert (memb c cs = false) as -> by (apply memb_false; auto).
            rewrite Ef. simpl. f_equal. lia.
          - simpl. destruct (memb c' cs); auto. }
        split. { pose proof (unvisited_dset Nat.eqb v c Ev). simpl. lia. }
        split. { constructor; auto. }
        split.
        { intro c'. simpl. rewrite R5, Hv1. destruct (Nat.eqb_spec c' c).
          - subst. split; auto.
          - split; [intros [?|?]; [congruence|tauto]|]. intros [[?|?] ?]; [congruence|tauto]. }
        split.
        { intro c'. simpl. rewrite R6. unfold visited. rewrite Hv1. destruct (Nat.eqb_spec c' c).
          - subst. intuition.
          - intuition congruence. }
        intro c'. rewrite R7, Hv1. destruct (Nat.eqb_spec c' c); [|tauto]. subst. rewrite Ev. split; congruence.
      + destruct (IH (nset fp c (f + 1)) q v) as [new [fp' [v' [R1 [R2 [R3 [R4 [R5 [R6 R7]]]]]]]]]; auto.
        exists new, fp', v'. split; [exact R1|]. split.
        { intro c'. rewrite R2, Hfp. destruct (Nat.eqb_spec c' c).
          - subst. assert (memb c cs = false) as -> by (apply memb_false; auto).
            rewrite Ef. simpl. f_equal. lia.
          - simpl. destruct (memb c' cs); auto. }
        split; [exact R3|]. split; [exact R4|]. split; [|split; [exact R6|exact R7]].
        intro c'. rewrite R5. simpl. split; [tauto|]. intros [[<-|?] [Hx Hy]]; [|tauto].
        exfalso. rewrite Ev in Hx. inversion Hx; subst. simpl in Ep.
        rewrite R2 in Hy. assert (memb c cs = false) as Q by (apply memb_false; auto). rewrite Q in Hy.
        rewrite Hfp, Nat.eqb_refl in Hy. inversion Hy. rewrite H0, Nat.eqb_refl in Ep. discriminate.
  Qed.

  (** A parents-first prefix. *)
  Definition pfirst (O : list nat) : Prop :=
    forall l1 u l2, O = l1 ++ u :: l2 -> forall p, arc g p u -> In p l1.

  Lemma pfirst_snoc : forall O u, pfirst O -> (forall p, arc g p u -> In p O) -> pfirst (O ++ [u]).
  Proof using.
    intros O u H Hu l1 w l2 E p Hp.
    destruct (destruct_last l2) as [->|[l3 [b ->]]].
    - apply app_inj_tail in E. destruct E; subst. auto.
    - rewrite app_comm_cons, app_assoc in E. apply app_inj_tail in E. destruct E; subst. eapply H; eauto.
  Qed.

  Lemma topo_loop_ok : forall fuel fp q v O,
    length q + unvisited v <= fuel ->
    NoDup (O ++ q) -> incl (O ++ q) V ->
    (forall c, In c V -> nget fp c = Some (cnt O c)) ->
    (forall c, nget v c <> None <-> In c V) ->
    (forall c, visited Nat.eqb v c <-> In c (O ++ q)) ->
    (forall c, In c V -> (In c (O ++ q) <-> forall p, arc g p c -> In p O)) ->
    pfirst O ->
    exists O', topo_loop g fuel fp q v O = Ok O' /\ NoDup O' /\ incl O' V /\ pfirst O' /\
      (forall c, In c V -> (In c O' <-> forall p, arc g p c -> In p O')).
  Proof using W irr.
    induction fuel as [|f IH]; intros fp q v O Hf ND Hi Hfp Hv Hvis Hq Hpf.
    - destruct q; [|simpl in Hf; lia]. simpl. rewrite app_nil_r in *. exists O. auto.
    - destruct q as [|u q]. { simpl. rewrite app_nil_r in *. exists O. auto. }
      cbn [topo_loop]. assert (Hu : In u V) by (apply Hi; apply in_app_iff; simpl; auto).
      rewrite get_children_ok by auto. cbn [rbind].
      assert (Hch : incl (children g u) V).
      { intros c Hc. apply in_children in Hc; auto. apply arc_nodes in Hc; tauto. }
      destruct (topo_children_ok (children g u) fp q v) as [new [fp' [v' [R1 [R2 [R3 [R4 [R5 [R6 R7]]]]]]]]]; auto.
      { apply children_NoDup; auto. }
      { intros c Hc. rewrite Hfp by auto. congruence. }
      { intros c Hc. apply Hv. auto. }
      rewrite R1. cbn [rbind].
      destruct (NoDup_app_elim _ _ ND) as [ND1 [ND2 ND3]]. inversion ND2; subst.
      assert (Hu' : ~ In u O) by (intro H; apply (ND3 u H); simpl; auto).
      assert (HuP : forall p, arc g p u -> In p O).
      { apply Hq; auto. apply in_app_iff. simpl. auto. }
      assert (Hfp' : forall c, In c V -> nget fp' c = Some (cnt (O ++ [u]) c)).
      { intros c Hc. rewrite R2, Hfp, cnt_snoc by auto.
        destruct (memb c (children g u)); simpl; f_equal; lia. }
      assert (Hnv : forall c, In c V -> (nget v c = Some false <-> ~ In c (O ++ u :: q))).
      { intros c Hc. rewrite <- Hvis. unfold visited. apply Hv in Hc. destruct (nget v c) as [[]|]; intuition congruence. }
      assert (Hnew : forall c, In c new -> In c V /\ ~ In c (O ++ u :: q)).
      { intros c Hc. apply R5 in Hc. destruct Hc as [Hc [Hf' _]]. assert (In c V) by auto.
        split; auto. apply Hnv; auto. }
      apply IH.
      + rewrite app_length. simpl in Hf. lia.
      + rewrite <- app_assoc. simpl. 
        change (NoDup (O ++ u :: q ++ new)). 
        replace (O ++ u :: q ++ new) with ((O ++ u :: q) ++ new) by (rewrite <- app_assoc; reflexivity).
        apply NoDup_app_intro; auto. intros x Hx Hn. apply Hnew in Hn. tauto.
      + intros c Hc. rewrite !in_app_iff in Hc. simpl in Hc.
        destruct Hc as [[Hc|[<-|[]]]|[Hc|Hc]]; auto.
        * apply Hi. apply in_app_iff. auto.
        * apply Hi. apply in_app_iff. simpl. auto.
        * apply Hnew. auto.
      + exact Hfp'.
      + intro c. rewrite R7. auto.
      + intro c. rewrite R6, Hvis, !in_app_iff. simpl. tauto.
      + intros c Hc. split.
        * intros Hin p Hp. rewrite !in_app_iff in Hin. simpl in Hin.
          destruct Hin as [[Hin|[<-|[]]]|[Hin|Hin]].
          -- apply in_app_iff. left. apply (Hq c Hc); auto. apply in_app_iff. auto.
          -- apply in_app_iff. left. auto.
          -- apply in_app_iff. left. apply (Hq c Hc); auto. apply in_app_iff. simpl. auto.
          -- apply R5 in Hin. destruct Hin as [_ [_ Hin]]. rewrite Hfp' in Hin by auto.
             inversion Hin as [Hin']. symmetry in Hin'. exact (proj1 (cnt_full _ _) Hin' p Hp).
        * intro Hall.
          destruct (in_dec Nat.eq_dec c (O ++ u :: q)) as [Hin|Hin].
          { rewrite !in_app_iff in *. simpl in *. tauto. }
          rewrite !in_app_iff. right. right. apply R5.
          assert (Huc : arc g u c).
          { destruct (arc_dec g u c); auto. exfalso. apply Hin. apply Hq; auto.
            intros p Hp. specialize (Hall p Hp). apply in_app_iff in Hall.
            destruct Hall as [?|[<-|[]]]; auto. tauto. }
          split; [apply in_children; auto|]. split; [apply Hnv; auto|].
          rewrite Hfp' by auto. f_equal. symmetry. apply (proj2 (cnt_full _ _)). auto.
      + apply pfirst_snoc; auto.
  Qed.

  Lemma topo_init_ok : forall l q v,
    NoDup l -> incl l V ->
    (forall c, In c l -> nget v c = Some false) ->
    exists new v', topo_init g l (map (fun n => (n, 0)) V) q v = Ok (q ++ new, v') /\
      length new + unvisited v' = unvisited v /\ NoDup new /\
      (forall c, In c new <-> In c l /\ parents g c = []) /\
      (forall c, visited Nat.eqb v' c <-> visited Nat.eqb v c \/ In c new) /\
      (forall c, nget v' c <> None <-> nget v c <> None).
  Proof using W.
    induction l as [|u l IH]; intros q v ND Hi Hv; simpl.
    - exists [], v. rewrite app_nil_r. simpl. intuition.
    - inversion ND; subst. assert (Hu : In u V) by (apply Hi; simpl; auto).
      assert (Hi' : incl l V) by (intros x Hx; apply Hi; simpl; auto).
      rewrite in_degree_ok by auto. simpl. unfold dgetE. rewrite dget_map_const.
      assert (memb u V = true) as -> by (apply memb_In; auto). simpl.
      assert (Eu : nget v u = Some false) by (apply Hv; simpl; auto).
      destruct (Nat.eqb_spec (length (parents g u)) 0) as [Ez|Ez].
      + apply length_zero_iff_nil in Ez.
        assert (Hv1 : forall c', nget (nset v u true) c' = if Nat.eqb c' u then Some true else nget v c').
        { intro c'. destruct (Nat.eqb_spec c' u).
          - subst. apply dget_dset_eq. apply Neqb_spec.
          - apply dget_dset_neq; auto. apply Neqb_spec. }
        destruct (IH (q ++ [u]) (nset v u true)) as [new [v' [R1 [R2 [R3 [R4 [R5 R6]]]]]]]; auto.
        { intros c Hc. rewrite Hv1. destruct (Nat.eqb_spec c u); [congruence|]. apply Hv. simpl; auto. }
        exists (u :: new), v'. rewrite <- app_assoc in R1. simpl in R1.
        assert (Nu : ~ In u new) by (rewrite R4; tauto).
        split; [exact R1|]. split. { pose proof (unvisited_dset Nat.eqb v u Eu). simpl. lia. }
        split; [constructor; auto|]. split.
        { intro c. simpl. rewrite R4. split; [intros [<-|?]; tauto|tauto]. }
        split.
        { intro c. simpl. rewrite R5. unfold visited. rewrite Hv1. destruct (Nat.eqb_spec c u).
          - subst. tauto.
          - intuition congruence. }
        intro c. rewrite R6, Hv1. destruct (Nat.eqb_spec c u); [|tauto]. subst. rewrite Eu. split; congruence.
      + destruct (IH q v) as [new [v' [R1 [R2 [R3 [R4 [R5 R6]]]]]]]; auto.
        { intros c Hc. apply Hv. simpl; auto. }
        exists new, v'. split; [exact R1|]. split; [exact R2|]. split; [exact R3|].
        split; [|split; auto].
        intro c. rewrite R4. simpl. split; [tauto|]. intros [[<-|?] He]; [|tauto].
        rewrite He in Ez. simpl in Ez. congruence.
  Qed.

  Theorem topo_sort_ok : exists O, topo_sort g = Ok O /\ NoDup O /\ incl O V /\ pfirst O /\
      (forall c, In c V -> (In c O <-> forall p, arc g p c -> In p O)).
  Proof using W irr.
    unfold topo_sort, nodes.
    destruct (topo_init_ok V [] (map (fun n => (n, false)) V)) as [new [v' [R1 [R2 [R3 [R4 [R5 R6]]]]]]].
    - apply W.
    - intros x Hx; auto.
    - intros c Hc. rewrite dget_map_const. apply memb_In in Hc. rewrite Hc. auto.
    - rewrite R1. cbn [rbind fst snd]. simpl app in *.
      assert (Hno : forall c, parents g c = [] <-> (forall p, arc g p c -> In p [])).
      { intro c. split.
        - intros H p Hp. apply in_parents in Hp; auto. rewrite H in Hp. auto.
        - intro H. destruct (parents g c) as [|p l] eqn:E; auto. exfalso. apply (H p).
          apply in_parents; auto. rewrite E. simpl. auto. }
      apply topo_loop_ok; simpl.
      + rewrite R2. unfold unvisited. etransitivity; [apply filter_len|].
        rewrite map_length. unfold number_of_nodes, nodes. lia.
      + auto.
      + intros c Hc. apply R4 in Hc. tauto.
      + intros c Hc. rewrite dget_map_const. apply memb_In in Hc. rewrite Hc. f_equal. unfold cnt.
        clear. induction (parents g c); auto.
      + intro c. rewrite R6, dget_map_const, <- memb_In. destruct (memb c V); split; congruence.
      + intro c. rewrite R5. unfold visited. rewrite dget_map_const. destruct (memb c V); intuition congruence.
      + intros c Hc. rewrite R4, Hno. simpl. tauto.
      + intros l1 u l2 E. destruct l1; discriminate.
  Qed.

  (** The result covers all nodes iff there is no directed cycle. *)
  Theorem topo_complete : forall O, topo_sort g = Ok O ->
    (length O = length V <-> acyclic (arc g)).
  Proof using W irr.
    intros O E. destruct topo_sort_ok as [O' [E' [ND [Hi [Hp Hc]]]]].
    rewrite E in E'. inversion E'; subst O'. clear E'.
    split.
    - intro L.
      assert (Hall : incl V O).
      { apply NoDup_length_incl; auto. rewrite L. lia. }
      apply rank_acyclic with (f := fun x => index_of x O). intros u v Huv.
      destruct (arc_nodes _ _ _ W Huv) as [Hu Hv]. apply Hall in Hu, Hv.
      destruct (in_split v O Hv) as [l1 [l2 ->]].
      assert (In u l1) by (eapply Hp; eauto).
      rewrite (index_of_app l1 v l2).
      + apply index_of_prefix. auto.
      + apply NoDup_remove_2 in ND. intro. apply ND. apply in_app_iff. auto.
    - intro Ac. apply Nat.le_antisymm.
      + apply NoDup_incl_length; auto.
      + apply NoDup_incl_length; [apply W|]. intros c Hcv.
        destruct (in_dec Nat.eq_dec c O) as [|Hn]; auto. exfalso.
        set (S := filter (fun x => negb (memb x O)) V).
        assert (HcS : In c S).
        { apply filter_In. split; auto. apply negb_true_iff, memb_false. auto. }
        destruct (source_exists (arc g) (arc_dec g) S Ac) as [s [Hs Hsp]].
        { intro Q. rewrite Q in HcS. destruct HcS. }
        apply filter_In in Hs. destruct Hs as [HsV Hs]. apply negb_true_iff, memb_false in Hs.
        apply Hs. apply Hc; auto. intros p Hpp. destruct (in_dec Nat.eq_dec p O) as [|Hpn]; auto.
        exfalso. apply (Hsp p); auto. apply filter_In. split.
        * apply arc_nodes in Hpp; tauto.
        * apply negb_true_iff, memb_false. auto.
  Qed.
End Topo.

Theorem is_acyclic_ok : forall g, WF g -> (forall u, ~ arc g u u) ->
  exists b, is_acyclic g = Ok b /\ (b = true <-> acyclic (arc g)).
Proof.
  intros g W irr. unfold is_acyclic. destruct (topo_sort_ok g W irr) as [O [E _]].
  pose proof (topo_complete g W irr O E) as T. rewrite E. simpl.
  eexists. split; [reflexivity|]. rewrite Nat.eqb_eq. exact T.
Qed.
