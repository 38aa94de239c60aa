(** Order independence, the d-separation oracle, and PC. *)

From Coq Require Import List Arith Bool Lia QArith Permutation.
From Verif Require Import Model.Py Model.Graph Model.DiGraph Model.PDAG Model.Independence Model.PC Spec.API Spec.Digraphs.
From Verif Require Import Proofs.PyFacts Proofs.GraphFacts Proofs.DSepTheory Proofs.RelExt Proofs.DiGraphFacts
  Proofs.HistoryFacts Proofs.FrameFacts Proofs.EdgeFacts Proofs.DagFacts
  Proofs.PDAGFacts Proofs.MeekFacts Proofs.CpdagFacts Proofs.SearchFacts.
Import ListNotations.
Open Scope nat_scope.

Definition seteq (z z' : list nat) : Prop := forall x, In x z <-> In x z'.

(* ---------- order independence ---------- *)
Section Order.
  Variable alpha : Q.
  Variables n1 n2 : list nat.
  Hypothesis nd1 : NoDup n1.
  Hypothesis perm : Permutation n1 n2.
  Variable tv : nat -> nat -> list nat -> Q.
  Hypothesis tset : forall u v z z', legal n1 u v z -> legal n1 u v z' -> seteq z z' -> tv u v z = tv u v z'.

  Let nd2 : NoDup n2 := Permutation_NoDup perm nd1.

  Lemma legal_perm : forall u v z, legal n1 u v z <-> legal n2 u v z.
  Proof using perm.
    intros u v z. assert (H : forall x, In x n1 <-> In x n2).
    { intro x. split; apply Permutation_in; auto. apply Permutation_sym. auto. }
    unfold legal, incl. rewrite !H. split; intros (A & B & C & D & E & F & G); repeat split; auto; intros x Hx; apply H; auto.
  Qed.

  Lemma level_transfer : forall g1 g2 k u v z, UG n1 g1 -> UG n2 g2 -> (forall x y, conp g1 x y <-> conp g2 x y) ->
    (acc_call alpha (level_calls n1 tv g1 k) u v z -> exists z', seteq z z' /\ acc_call alpha (level_calls n2 tv g2 k) u v z') /\
    (acc_call alpha (level_calls n2 tv g2 k) u v z -> exists z', seteq z z' /\ acc_call alpha (level_calls n1 tv g1 k) u v z').
  Proof using nd1 perm tset nd2.
    intros g1 g2 k u v z U1 U2 C.
    assert (F : forall a b s, In s (cand g1 k a b) -> exists s', seteq s s' /\ In s' (cand g2 k a b) /\ tv a b s = tv a b s').
    { intros a b s Hs. assert (Q := cand_legal n1 g1 k a b s U1 Hs). destruct Q as [Lg Cab].
      unfold cand in Hs. rewrite (proj2 (connb_p _ _ _) Cab) in Hs.
      assert (Hi := combinations_incl _ _ _ Hs). assert (Hl := combinations_length _ _ _ Hs).
      destruct (comb_find (adjm g2 a b) s) as [s' [H1 H2]].
      { apply adjm_NoDup. apply (ug_wf _ _ U2). } { apply Lg. }
      { intros x Hx. apply Hi in Hx. apply adjm_In in Hx; [|apply (ug_wf _ _ U1)]. apply adjm_In; [apply (ug_wf _ _ U2)|].
        rewrite <- C. auto. }
      exists s'. assert (SE : seteq s s') by (intro x; symmetry; apply H2). split; auto.
      assert (Hc : In s' (cand g2 k a b)).
      { unfold cand. rewrite (proj2 (connb_p _ _ _) (proj1 (C a b) Cab)). rewrite <- Hl. auto. }
      split; auto. apply tset; auto. apply legal_perm. apply (cand_legal n2 g2 k a b s' U2 Hc). }
    assert (F' : forall a b s, In s (cand g2 k a b) -> exists s', seteq s s' /\ In s' (cand g1 k a b) /\ tv a b s = tv a b s').
    { intros a b s Hs. assert (Q := cand_legal n2 g2 k a b s U2 Hs). destruct Q as [Lg Cab].
      unfold cand in Hs. rewrite (proj2 (connb_p _ _ _) Cab) in Hs.
      assert (Hi := combinations_incl _ _ _ Hs). assert (Hl := combinations_length _ _ _ Hs).
      destruct (comb_find (adjm g1 a b) s) as [s' [H1 H2]].
      { apply adjm_NoDup. apply (ug_wf _ _ U1). } { apply Lg. }
      { intros x Hx. apply Hi in Hx. apply adjm_In in Hx; [|apply (ug_wf _ _ U2)]. apply adjm_In; [apply (ug_wf _ _ U1)|].
        rewrite C. auto. }
      exists s'. assert (SE : seteq s s') by (intro x; symmetry; apply H2). split; auto.
      assert (Hc : In s' (cand g1 k a b)).
      { unfold cand. rewrite (proj2 (connb_p _ _ _) (proj2 (C a b) Cab)). rewrite <- Hl. auto. }
      split; auto. apply tset; auto; [apply legal_perm; auto|]. apply (cand_legal n1 g1 k a b s' U1 Hc). }
    split; intros [p [[H|H] L]]; apply level_calls_In in H; auto; destruct H as [H ->].
    - destruct (F _ _ _ H) as [s [E [Hs T]]]. exists s. split; auto. exists (tv u v z). split; auto.
      left. apply level_calls_In; auto.
    - destruct (F _ _ _ H) as [s [E [Hs T]]]. exists s. split; auto. exists (tv v u z). split; auto.
      right. apply level_calls_In; auto.
    - destruct (F' _ _ _ H) as [s [E [Hs T]]]. exists s. split; auto. exists (tv u v z). split; auto.
      left. apply level_calls_In; auto.
    - destruct (F' _ _ _ H) as [s [E [Hs T]]]. exists s. split; auto. exists (tv v u z). split; auto.
      right. apply level_calls_In; auto.
  Qed.

  Lemma stage_transfer : forall k g1 c1, stage alpha n1 tv k g1 c1 -> forall g2 c2, stage alpha n2 tv k g2 c2 ->
    (forall x y, conp g1 x y <-> conp g2 x y) /\
    (forall u v z, acc_call alpha c1 u v z -> exists z', seteq z z' /\ acc_call alpha c2 u v z') /\
    (forall u v z, acc_call alpha c2 u v z -> exists z', seteq z z' /\ acc_call alpha c1 u v z').
  Proof using nd1 perm tset nd2.
    intros k g1 c1 S1. induction S1 as [g1 U1 C1|k g1 c1 g1' S1 IH U1 C1]; intros g2 c2 S2.
    - inversion S2 as [g U2 C2|]; subst. split; [|split].
      + intros x y. rewrite C1, C2.
        assert (H : forall x, In x n1 <-> In x n2).
        { intro w. split; apply Permutation_in; auto. apply Permutation_sym. auto. }
        rewrite !H. tauto.
      + intros u v z [p [[[]|[]] _]].
      + intros u v z [p [[[]|[]] _]].
    - inversion S2 as [|k' g c g2' S2' U2 C2]; subst. destruct (IH _ _ S2') as [I1 [I2 I3]].
      assert (LT := fun u v z => level_transfer g1 g k u v z (stage_UG _ _ _ _ _ _ S1) (stage_UG _ _ _ _ _ _ S2') I1).
      split; [|split].
      + intros x y. rewrite C1, C2, I1. split; intros [H N]; split; auto; intros [z A]; apply N; apply LT in A;
          destruct A as [z' [_ A]]; exists z'; auto.
      + intros u v z A. apply acc_app in A. destruct A as [A|A].
        * destruct (I2 _ _ _ A) as [z' [E A']]. exists z'. split; auto. apply acc_app. auto.
        * apply LT in A. destruct A as [z' [E A']]. exists z'. split; auto. apply acc_app. auto.
      + intros u v z A. apply acc_app in A. destruct A as [A|A].
        * destruct (I3 _ _ _ A) as [z' [E A']]. exists z'. split; auto. apply acc_app. auto.
        * apply LT in A. destruct A as [z' [E A']]. exists z'. split; auto. apply acc_app. auto.
  Qed.
End Order.

(* ---------- the Dsep test ---------- *)
Lemma name_id_fold : forall l i d, NoDup l ->
  (forall x, ~ In x l -> nget (fold_left (fun d p => dset Nat.eqb d (snd p) (fst p)) (enumerate_from i l) d) x = nget d x) /\
  (forall j x, nth_error l j = Some x ->
     nget (fold_left (fun d p => dset Nat.eqb d (snd p) (fst p)) (enumerate_from i l) d) x = Some (i + j)).
Proof.
  induction l as [|a l IH]; intros i d ND; simpl.
  - split; auto. intros [|j] x H; discriminate.
  - inversion_clear ND as [|? ? Na ND']. destruct (IH (S i) (dset Nat.eqb d a i) ND') as [I1 I2]. split.
    + intros x H. rewrite I1 by tauto. apply (dget_dset_neq Nat.eqb Neqb_spec). intro Q. apply H. auto.
    + intros [|j] x H; simpl in H.
      * inversion H; subst. rewrite I1 by auto. rewrite (dget_dset_eq Nat.eqb Neqb_spec). f_equal. lia.
      * rewrite (I2 j x H). f_equal. lia.
Qed.

Lemma get_name_id_ok : forall names x, NoDup names -> In x names ->
  exists i, get_name_id names x = Ok i /\ name_of names i = Ok x.
Proof.
  intros names x ND H. apply In_nth_error in H. destruct H as [i H]. exists i.
  unfold get_name_id, name_id, name_of, dgetE. rewrite (proj2 (name_id_fold names 0 [] ND) i x H). rewrite H. auto.
Qed.

Lemma name_ids_ok : forall names z, NoDup names -> incl z names ->
  exists zi, mapE (get_name_id names) z = Ok zi /\ mapE (name_of names) zi = Ok z.
Proof.
  intros names z ND. induction z as [|x z IH]; intro H; simpl; eauto.
  destruct (get_name_id_ok names x ND (H x (or_introl eq_refl))) as [i [E1 E2]].
  destruct (IH (fun y Hy => H y (or_intror Hy))) as [zi [E3 E4]].
  exists (i :: zi). rewrite E1, E3. simpl. rewrite E2, E4. auto.
Qed.

Lemma dsep_test_ok : forall dag names u v z, DG dag -> NoDup names -> incl names (node_list dag) ->
  In u names -> In v names -> incl z names ->
  dsep_test dag names u v z = Ok (if sepb dag u v z then 1 else 0)%Q.
Proof.
  intros dag names u v z D ND Hn Hu Hv Hz. unfold dsep_test, dsep_cal_stats.
  destruct (get_name_id_ok names u ND Hu) as [i [E1 E2]]. destruct (get_name_id_ok names v ND Hv) as [j [E3 E4]].
  destruct (name_ids_ok names z ND Hz) as [zi [E5 E6]].
  rewrite E1, E3, E5. cbn [rbind]. rewrite E6, E2, E4. cbn [rbind].
  rewrite sepb_ok; auto. intros x Hx. auto.
Qed.

Section Oracle.
  Variable dag : graph.
  Hypothesis D : DG dag.
  Hypothesis Ac : acyclic (arc dag).
  Variable names : list nat.
  Hypothesis pn : Permutation names (node_list dag).
  Variable alpha : Q.
  Hypothesis a0 : (0 < alpha)%Q.
  Hypothesis a1 : (alpha <= 1)%Q.

  Definition otv (u v : nat) (z : list nat) : Q := if sepb dag u v z then 1%Q else 0%Q.

  Lemma names_iff : forall x, In x names <-> In x (node_list dag).
  Proof using pn. intro x. split; apply Permutation_in; auto. apply Permutation_sym. auto. Qed.
  Lemma names_nd : NoDup names.
  Proof using D pn. eapply Permutation_NoDup; [apply Permutation_sym; eauto|]. apply (wf_nodup dag (dg_wf dag D)). Qed.
  Lemma names_len : length names = length (node_list dag).
  Proof using pn. apply Permutation_length. auto. Qed.

  Lemma oracle_total : forall u v z, legal names u v z -> dsep_test dag names u v z = Ok (otv u v z).
  Proof using D pn.
    intros u v z (Hu & Hv & _ & _ & Hz & _). apply dsep_test_ok; auto; [apply names_nd|].
    intros x Hx. apply names_iff. auto.
  Qed.

  Lemma oracle_acc : forall u v z, legal names u v z -> ((alpha <= otv u v z)%Q <-> dsep (arc dag) (fun x => In x z) u v).
  Proof using D pn a0 a1.
    intros u v z (Hu & Hv & _ & _ & Hz & _). rewrite <- (sepb_iff dag D u v z).
    - unfold otv. destruct (sepb dag u v z); split; auto; intro H; [|discriminate].
      exfalso. apply (Qlt_not_le _ _ a0). auto.
    - apply names_iff. auto. - apply names_iff. auto. - intros x Hx. apply names_iff. auto.
  Qed.

  Lemma asymE' : forall u v, arc dag u v -> ~ arc dag v u.
  Proof using D. apply arc_asym. auto. Qed.

  Lemma acc_sep : forall calls u v z, sound_calls names otv calls -> acc_call alpha calls u v z ->
    legal names u v z /\ dsep (arc dag) (fun x => In x z) u v.
  Proof using D pn a0 a1.
    intros calls u v z S [p [[H|H] L]]; destruct (S _ _ _ _ H) as [Lg ->].
    - split; auto. apply oracle_acc; auto.
    - split; [unfold legal in *; intuition|]. apply dsep_sym. apply oracle_acc; auto.
  Qed.

  Lemma oracle_skeleton : forall g calls, outcome alpha names otv (length names - 1) g calls ->
    forall u v, conp g u v <-> adjacent (arc dag) u v.
  Proof using D Ac pn a0 a1.
    intros g calls [U S C F].
    assert (KEEP : forall u v, adjacent (arc dag) u v -> conp g u v).
    { intros u v A. apply C. split.
      - assert (H : In u (node_list dag) /\ In v (node_list dag)).
        { destruct A as [A|A]; destruct (arc_nodes dag _ _ (dg_wf dag D) A); auto. }
        rewrite !names_iff. split; [tauto|]. split; [tauto|]. intros ->. destruct A as [A|A]; apply (dg_loop dag D v); exact A.
      - intros [z Hz]. destruct (acc_sep _ _ _ _ S Hz) as [(_ & _ & _ & _ & _ & Nu & Nv) Ds].
        exact (adjacent_not_dsep (arc dag) asymE' (fun x => In x z) u v A Nu Nv Ds). }
    intros u v. split; auto. intro Cuv. destruct (ug_in _ _ _ _ U Cuv) as [Hu [Hv N]].
    assert (W := dg_wf dag D).
    apply arc_some; auto. intro M.
    destruct (nonadjacent_sep_arc dag u v D Ac (proj1 (names_iff u) Hu) (proj1 (names_iff v) Hv) N M) as [w [Hw [Ds [Nu Nv]]]].
    assert (Pn : forall x, In x (parents dag w) -> In x names).
    { intros x Hx. apply in_parents in Hx; auto. apply names_iff. apply (arc_nodes dag x w W). auto. }
    assert (Pd : NoDup (parents dag w)) by (apply NoDup_filter, nbrs_NoDup, W).
    assert (Ln : length (parents dag w) < length names - 1).
    { assert (H := len_avoid2 (parents dag w) names u v Pd names_nd Pn Hu Hv N Nu Nv).
      assert (2 <= length names).
      { assert (Q : NoDup [u; v]) by (constructor; [simpl; intuition|constructor; auto; constructor]).
        apply (NoDup_incl_length Q). intros x [<-|[<-|[]]]; auto. }
      lia. }
    assert (Pc : forall x, In x (parents dag w) -> conp g w x).
    { intros x Hx. apply KEEP. right. apply in_parents in Hx; auto. }
    assert (HF : exists z' p, (In (u, v, z', p) calls \/ In (v, u, z', p) calls) /\ forall x, In x z' <-> In x (parents dag w)).
    { destruct Hw as [->| ->].
      - apply (F u v); auto. intros x Hx. split; auto. intros ->. auto.
      - destruct (F v u (parents dag v)) as [z' [p [H1 H2]]]; auto.
        + apply conp_sym; auto. apply (ug_wf _ _ U).
        + intros x Hx. split; auto. intros ->. auto.
        + exists z', p. tauto. }
    destruct HF as [z' [p [Hc Hz]]].
    assert (Ds' : dsep (arc dag) (fun x => In x z') u v).
    { rewrite (dsep_Zext (arc dag) (fun x => In x z') (fun x => In x (parents dag w))); auto. }
    apply C in Cuv. destruct Cuv as [_ NA]. apply NA. exists z', p. split; auto.
    destruct Hc as [Hc|Hc]; destruct (S _ _ _ _ Hc) as [Lg ->]; apply oracle_acc; auto. apply dsep_sym. auto.
  Qed.

  Lemma oracle_sep : forall g sep calls, outcome alpha names otv (length names - 1) g calls ->
    sep_inv alpha names sep calls ->
    forall u v w, In u names -> In v names -> u <> v -> ~ adjacent (arc dag) u v -> adjacent (arc dag) u w -> adjacent (arc dag) v w ->
    exists s, sget sep (u, v) = Some s /\ (In w s <-> ~ (arc dag u w /\ arc dag v w)).
  Proof using D Ac pn a0 a1.
    intros g sep calls O I u v w Hu Hv N Na Au Av.
    destruct (I u v Hu Hv N) as [s [Es Hs]]. exists s. split; auto. rewrite Hs.
    assert (S := oc_sound _ _ _ _ _ _ O). split.
    - intros [z [A Hw]] [E1 E2]. destruct (acc_sep _ _ _ _ S A) as [(_ & _ & _ & _ & _ & Nu & Nv) Ds].
      exact (collider_not_in_sep (arc dag) asymE' (fun x => In x z) u v w N Na E1 E2 Nu Nv Ds Hw).
    - intro Nc. assert (HA : exists z, acc_call alpha calls u v z).
      { assert (Q := oracle_skeleton g calls O u v). rewrite (oc_con _ _ _ _ _ _ O) in Q.
        (* decidability: finitely many calls *)
        destruct (existsb (fun c : tcall => let '(a, b, z, p) := c in samepb a b u v && Qle_bool alpha p)%bool calls) eqn:X.
        - apply existsb_exists in X. destruct X as [[[[a b] z] p] [H1 H2]]. apply andb_true_iff in H2.
          destruct H2 as [H2 H3]. apply samepb_spec in H2. apply Qle_bool_iff in H3. exists z, p.
          destruct H2 as [[-> ->]|[-> ->]]; auto.
        - exfalso. apply Na. apply Q. split; auto. intros [z [p [H L]]].
          assert (T : existsb (fun c : tcall => let '(a, b, z, p) := c in samepb a b u v && Qle_bool alpha p)%bool calls = true).
          { apply existsb_exists. apply Qle_bool_iff in L. destruct H as [H|H].
            - exists (u, v, z, p). split; auto. rewrite L, andb_true_r. apply samepb_spec. left. auto.
            - exists (v, u, z, p). split; auto. rewrite L, andb_true_r. apply samepb_spec. right. auto. }
          congruence. }
      destruct HA as [z A]. exists z. split; auto. destruct (acc_sep _ _ _ _ S A) as [(_ & _ & _ & _ & _ & Nu & Nv) Ds].
      apply (noncollider_in_sep (arc dag) asymE' (fun x => In x z) u v w); auto.
      intro x. apply in_dec. apply Nat.eq_dec.
  Qed.

  Lemma oracle_pattern : forall g sep calls, outcome alpha names otv (length names - 1) g calls ->
    sep_inv alpha names sep calls ->
    exists p, rule0 sep g = (p, Ok tt) /\ pattern (arc dag) names p.
  Proof using D Ac pn a0 a1.
    intros g sep calls O I. assert (U := oc_ug _ _ _ _ _ _ O).
    apply (rule0_ok (arc dag) asymE' sep names names_nd).
    - intros u v H. destruct (arc_nodes dag u v (dg_wf dag D) H). rewrite !names_iff. auto.
    - intros u v w Huv Na A1 A2. destruct (in_comb2_In _ _ _ Huv) as [Hu Hv].
      eapply oracle_sep; eauto. eapply in_comb2_neq; eauto. apply names_nd.
    - apply arc_decP.
    - apply (ug_pg _ _ U).
    - apply (ug_nodes _ _ U).
    - apply (oracle_skeleton g calls O).
    - intros x y. apply (ug_und _ _ _ _ U).
  Qed.
End Oracle.

(* ---------- rule0 with arbitrary separating sets ---------- *)
Definition one_way (g : graph) : Prop := forall x y, conp g x y -> undp g x y \/ dirp g x y \/ dirp g y x.

Record kept (g g' : graph) : Prop := {
  kp_pg : PG g'; kp_nodes : node_list g' = node_list g;
  kp_con : forall x y, conp g' x y <-> conp g x y;
  kp_one : one_way g'
}.
Lemma kept_refl : forall g, PG g -> one_way g -> kept g g.
Proof. intros. constructor; auto. tauto. Qed.
Lemma kept_trans : forall a b c, kept a b -> kept b c -> kept a c.
Proof.
  intros a b c [] []. constructor; auto; [congruence|]. intros. rewrite kp_con1, kp_con0. tauto.
Qed.

Lemma kept_reorient : forall g a b, PG g -> one_way g -> conp g a b -> a <> b ->
  exists g', reorient a b g = (g', Ok tt) /\ kept g g'.
Proof.
  intros g a b P O C N. destruct (reorient_ok g a b P C N) as [g' [E Or]]. exists g'. split; auto.
  assert (C' := conp_sym _ _ _ (pg_wf _ P) C).
  constructor.
  - eapply orients_PG; eauto.
  - apply (or_nodes _ _ _ _ Or).
  - apply (orients_con _ _ _ _ Or C C').
  - intros x y Cx. apply (orients_con _ _ _ _ Or C C') in Cx.
    destruct (pair_cases a b x y) as [[-> ->]|[[-> ->]|[H1 H2]]].
    + right. left. apply (orients_dir _ _ _ _ Or N).
    + right. right. apply (orients_dir _ _ _ _ Or N).
    + unfold undp, dirp. rewrite !(orients_other _ _ _ _ Or) by tauto. apply O. auto.
Qed.

Lemma kept_forM : forall {X} (f : X -> M unit) l g, PG g -> one_way g ->
  (forall h x, kept g h -> In x l -> exists h', f x h = (h', Ok tt) /\ kept h h') ->
  exists g', forM l f g = (g', Ok tt) /\ kept g g'.
Proof.
  intros X f l g P O H.
  assert (G : forall m h, incl m l -> kept g h -> exists g', forM m f h = (g', Ok tt) /\ kept g g').
  { induction m as [|x m IH]; intros h Hm K; [exists h; auto|].
    destruct (H h x K (Hm x (or_introl eq_refl))) as [h1 [E1 K1]].
    destruct (IH h1 (fun y Hy => Hm y (or_intror Hy)) (kept_trans _ _ _ K K1)) as [h2 [E2 K2]].
    exists h2. split; auto. cbn [forM]. rewrite (bind_run _ _ _ _ _ E1). auto. }
  apply (G l g (incl_refl _)). apply kept_refl; auto.
Qed.

Lemma rule0_kept : forall sep g, PG g -> one_way g ->
  (forall x, ~ conp g x x) ->
  (forall u v, In (u, v) (comb2 (node_list g)) -> exists s, sget sep (u, v) = Some s) ->
  exists g', rule0 sep g = (g', Ok tt) /\ kept g g'.
Proof.
  intros sep g P O Dg S. unfold rule0, with_nodes at 1, nodes.
  apply kept_forM; auto. intros h [u v] K Huv. assert (Ph := kp_pg _ _ K). assert (Wh := pg_wf _ Ph).
  destruct (in_comb2_In _ _ _ Huv) as [Hu Hv]. rewrite <- (kp_nodes _ _ K) in Hu, Hv.
  rewrite (bind_run _ _ _ _ _ (conn_run h u v Wh Hu Hv)).
  destruct (connb h u v).
  { exists h. split; auto. apply kept_refl; auto. apply (kp_one _ _ K). }
  unfold with_nodes, nodes. apply kept_forM; auto; [apply (kp_one _ _ K)|].
  intros h1 w K1 Hw. assert (P1 := kp_pg _ _ K1). assert (W1 := pg_wf _ P1). assert (O1 := kp_one _ _ K1).
  assert (Hu1 : In u (node_list h1)) by (rewrite (kp_nodes _ _ K1); auto).
  assert (Hv1 : In v (node_list h1)) by (rewrite (kp_nodes _ _ K1); auto).
  assert (Hw1 : In w (node_list h1)) by (rewrite (kp_nodes _ _ K1); auto).
  assert (SK : kept h1 h1) by (apply kept_refl; auto).
  destruct (memb w [u; v]) eqn:Mw; [exists h1; auto|].
  rewrite (bind_run _ _ _ _ _ (and_run h1 _ _ _ _ (conn_run h1 u w W1 Hu1 Hw1) (conn_run h1 v w W1 Hv1 Hw1))).
  destruct (connb h1 u w && connb h1 v w)%bool eqn:C; cbn [negb]; [|exists h1; auto].
  apply andb_true_iff in C. destruct C as [C1 C2]. apply connb_p in C1, C2.
  destruct (S u v Huv) as [s Es].
  rewrite (bind_run _ _ h1 h1 s) by (unfold query, dgetE; rewrite Es; auto).
  destruct (memb w s); cbn [negb]; [exists h1; auto|].
  assert (Nn : u <> w /\ v <> w).
  { apply memb_false in Mw. simpl in Mw. intuition. }
  destruct (kept_reorient h1 u w P1 O1 C1 ltac:(tauto)) as [h2 [E2 K2]].
  destruct (kept_reorient h2 v w (kp_pg _ _ K2) (kp_one _ _ K2)) as [h3 [E3 K3]]; [apply (kp_con _ _ K2); auto|tauto|].
  exists h3. split; [rewrite (bind_run _ _ _ _ _ E2); auto|]. eapply kept_trans; eauto.
Qed.

Lemma meek_kept : forall g, PG g -> one_way g -> exists g', orient_by_meek_rules g = (g', Ok tt) /\ kept g g'.
Proof.
  intros g P O. destruct (meek_ok g P) as [g' [n [E [St Cl]]]]. exists g'. split; auto. constructor.
  - eapply osteps_PG; eauto.
  - apply (osteps_nodes _ _ _ _ St).
  - apply (osteps_con _ _ _ _ any_sound St).
  - intros x y. apply (osteps_und_dir g n g' P St O).
Qed.
