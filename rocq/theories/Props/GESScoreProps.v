(** C67, C68: the gains of the GES operators, and the score that the search
    reports, compared with the total scores of the DAGs that the PDAGs stand
    for. *)

From Coq Require Import List Arith Bool Lia ZArith QArith.
From Verif Require Import Model.Py Model.Graph Model.DiGraph Model.PDAG Model.Pdag2Dag Model.GES.
From Verif Require Import Spec.API Spec.Digraphs Spec.PDAGs Spec.GESSpec Spec.Totals Spec.SearchSpec.
From Verif Require Import Proofs.PyFacts Proofs.GraphFacts Proofs.DiGraphFacts Proofs.RelExt Proofs.HistoryFacts
  Proofs.DagFacts Proofs.PDAGFacts Proofs.MeekComplete Proofs.MeekFacts Proofs.CpdagFacts Proofs.Pdag2DagFacts
  Proofs.GESScan Proofs.GESFit Proofs.GESDiverge Proofs.TotalFacts Proofs.GESScore Proofs.GESSearch.
From Verif Require Import Props.Examples Props.CpdagProps Props.Pdag2DagProps Props.GESProps Props.DivergeProps.
Import ListNotations.
Open Scope nat_scope.

(* ------------------------------------------------------------------ C67 *)
(** [g] is the essential graph of the DAG [E] with total score [a].  A valid
    Insert can be applied, the result has a consistent extension, pdag2dag finds
    one, and the total score of every extension is [a] plus the gain. *)
Lemma insert_gain_true : forall n g E sf a max_p i j T q,
  reachable KPDAG g -> loop_free g -> nodes g = seq 0 n -> dag_over n E -> essential g E ->
  set_score sf -> score_equivalent sf n -> total_score sf n E a ->
  insert_op g max_p i j T -> insert_valid g i j T -> insert_gain sf g i j T q ->
  exists p d, run_on (Insert i j T) g = Ok p /\ pdag2dag n p = Ok d /\ extension p (directed d) /\
    total_score sf n (directed d) (a + q)%Q /\
    forall F b, extension p F -> total_score sf n F b -> (b == a + q)%Q.
Proof.
  intros n g E sf a max_p i j T q R L Nd DE Es SS SE Ta Op Va Ga.
  destruct (total_dec sf n E a (proj2 DE) Ta) as [Ed _].
  assert (G := ess_good n g E R L Nd Ed DE Es).
  destruct (insert_true n g E sf G Ed DE Es SS SE max_p i j T q Op Va Ga) as [p [Ep [Gp [Ex Tr]]]].
  destruct (extendable_runs n p Gp Ex) as [d [Pd [_ [_ [X Dd]]]]].
  exists p, d. split; auto. split; auto. split; auto.
  assert (All : forall F b, extension p F -> total_score sf n F b -> (b == a + q)%Q).
  { intros F b XF TF. rewrite <- (Tr F a b XF Ta TF). ring. }
  split; auto. assert (Td := total_exists sf n (directed d) (directed_dec d) (proj2 Dd)).
  assert (Eq := All _ _ X Td). destruct Td as [pa [H1 H2]]. exists pa. split; auto. rewrite <- Eq. auto.
Qed.

(** The same with the number that Insert_changed_score returns, whatever it has
    recorded before. *)
Theorem C67_insert_gain_is_score_difference : forall n g E sf ord m a max_p i j T,
  reachable KPDAG g -> loop_free g -> nodes g = seq 0 n -> dag_over n E -> essential g E ->
  set_score sf -> score_equivalent sf n -> total_score sf n E a -> set_order ord -> memo_history sf ord n m ->
  insert_op g max_p i j T -> insert_valid g i j T ->
  exists q m' p d, Insert_changed_score g i j T m sf = Ok (q, m') /\
    run_on (Insert i j T) g = Ok p /\ pdag2dag n p = Ok d /\ extension p (directed d) /\
    total_score sf n (directed d) (a + q)%Q /\
    forall F b, extension p F -> total_score sf n F b -> (b == a + q)%Q.
Proof.
  intros n g E sf ord m a max_p i j T R L Nd DE Es SS SE Ta Ho Hm Op Va.
  assert (V : vars g = n) by (unfold vars; rewrite Nd, seq_length; auto).
  assert (B : i < n /\ j < n) by (unfold insert_op in Op; rewrite V in Op; tauto). destruct B as [Bi Bj].
  destruct (C31_operator_scores_exact sf ord n m g i j T SS Ho Hm R V Bi Bj) as [[q [m' [C G]]] _].
  destruct (insert_gain_true n g E sf a max_p i j T q R L Nd DE Es SS SE Ta Op Va G) as [p [d X]].
  exists q, m', p, d. split; auto.
Qed.
Print Assumptions C67_insert_gain_is_score_difference.

(** The same for a valid Delete. *)
Lemma delete_gain_true : forall n g E sf a i j H q,
  reachable KPDAG g -> loop_free g -> nodes g = seq 0 n -> dag_over n E -> essential g E ->
  set_score sf -> score_equivalent sf n -> total_score sf n E a ->
  delete_op g i j H -> delete_valid g i j H -> delete_gain sf g i j H q ->
  exists p d, run_on (Delete i j H) g = Ok p /\ pdag2dag n p = Ok d /\ extension p (directed d) /\
    total_score sf n (directed d) (a + q)%Q /\
    forall F b, extension p F -> total_score sf n F b -> (b == a + q)%Q.
Proof.
  intros n g E sf a i j H q R L Nd DE Es SS SE Ta Op Va Ga.
  destruct (total_dec sf n E a (proj2 DE) Ta) as [Ed _].
  assert (G := ess_good n g E R L Nd Ed DE Es).
  destruct (delete_true n g E sf G Ed DE Es SS SE i j H q Op Va Ga) as [p [Ep [Gp [Ex Tr]]]].
  destruct (extendable_runs n p Gp Ex) as [d [Pd [_ [_ [X Dd]]]]].
  exists p, d. split; auto. split; auto. split; auto.
  assert (All : forall F b, extension p F -> total_score sf n F b -> (b == a + q)%Q).
  { intros F b XF TF. rewrite <- (Tr F a b XF Ta TF). ring. }
  split; auto. assert (Td := total_exists sf n (directed d) (directed_dec d) (proj2 Dd)).
  assert (Eq := All _ _ X Td). destruct Td as [pa [H1 H2]]. exists pa. split; auto. rewrite <- Eq. auto.
Qed.

(** The same with the number that Delete_changed_score returns, whatever it has
    recorded before. *)
Theorem C67_delete_gain_is_score_difference : forall n g E sf ord m a i j H,
  reachable KPDAG g -> loop_free g -> nodes g = seq 0 n -> dag_over n E -> essential g E ->
  set_score sf -> score_equivalent sf n -> total_score sf n E a -> set_order ord -> memo_history sf ord n m ->
  delete_op g i j H -> delete_valid g i j H ->
  exists q m' p d, Delete_changed_score ord g i j H m sf = Ok (q, m') /\
    run_on (Delete i j H) g = Ok p /\ pdag2dag n p = Ok d /\ extension p (directed d) /\
    total_score sf n (directed d) (a + q)%Q /\
    forall F b, extension p F -> total_score sf n F b -> (b == a + q)%Q.
Proof.
  intros n g E sf ord m a i j H R L Nd DE Es SS SE Ta Ho Hm Op Va.
  assert (V : vars g = n) by (unfold vars; rewrite Nd, seq_length; auto).
  assert (B : i < n /\ j < n) by (unfold delete_op in Op; rewrite V in Op; tauto). destruct B as [Bi Bj].
  destruct (C31_operator_scores_exact sf ord n m g i j H SS Ho Hm R V Bi Bj) as [_ [q [m' [C G]]]].
  destruct (delete_gain_true n g E sf a i j H q R L Nd DE Es SS SE Ta Op Va G) as [p [d X]].
  exists q, m', p, d. split; auto.
Qed.
Print Assumptions C67_delete_gain_is_score_difference.

(** The parents of [v] in a DAG, and its total score, by computation. *)
Definition dag_parents (d : graph) (n v : nat) : list nat :=
  filter (fun u => match is_fully_directed d u v with Ok b => b | Err _ => false end) (seq 0 n).
Definition dag_total (sf : lscore) (d : graph) (n : nat) : Q := sumQ (seq 0 n) (fun v => sf v (dag_parents d n v)).
Lemma dag_total_ok : forall sf d n q, dag_over n (directed d) -> (dag_total sf d n == q)%Q -> total_score sf n (directed d) q.
Proof.
  intros sf d n q [_ B] H. exists (dag_parents d n). split; [|symmetry; exact H].
  intros v _. split; [apply NoDup_filter, seq_NoDup|]. intro u. unfold dag_parents. rewrite filter_In, in_seq.
  unfold directed. split.
  - intros [_ X]. destruct (is_fully_directed d u v) as [[]|]; congruence.
  - intros X. rewrite X. destruct (B u v X). split; auto. lia.
Qed.

(** 0 -> 1 -> 2 and 3: the class 0 - 1 - 2.  Insert(3, 1, [0]) makes 0 -> 1 <- 3
    and gains 6, Delete(0, 1, []) loses 4. *)
Definition ex_path : graph := build KDiGraph [0; 1; 2; 3] [DEdge 0 1; DEdge 1 2].
Definition ex_class : graph := build KPDAG [0; 1; 2; 3] [Edge 0 1 Tail Tail; Edge 1 2 Tail Tail].
Lemma ex_path_reachable : reachable KDiGraph ex_path.
Proof. eapply build_reachable. reflexivity. Qed.
Lemma ex_class_reachable : reachable KPDAG ex_class.
Proof. eapply build_reachable. reflexivity. Qed.
Definition ex_path_score : lscore := table_score [0; 1; 2; 7; 0; 2; 5; 8; 1; 2; 4; 14; 1; 3; 6; 13]%Z.

Example C67_example : reachable KPDAG ex_class /\ loop_free ex_class /\ nodes ex_class = seq 0 4 /\
  dag_over 4 (directed ex_path) /\ essential ex_class (directed ex_path) /\
  set_score ex_path_score /\ score_equivalent ex_path_score 4 /\ total_score ex_path_score 4 (directed ex_path) 11 /\
  (insert_op ex_class 2 3 1 [0] /\ insert_valid ex_class 3 1 [0] /\
   exists q m', Insert_changed_score ex_class 3 1 [0] (repeat [] 4) ex_path_score = Ok (q, m') /\ (q == 6)%Q) /\
  (delete_op ex_class 0 1 [] /\ delete_valid ex_class 0 1 [] /\
   exists q m', Delete_changed_score (fun l => l) ex_class 0 1 [] (repeat [] 4) ex_path_score = Ok (q, m') /\ (q == -4)%Q) /\
  set_order (fun l => l) /\ memo_history ex_path_score (fun l => l) 4 (repeat [] 4).
Proof.
  assert (R := ex_class_reachable). split; auto.
  assert (L : loop_free ex_class) by (apply lfb_ok; [eapply reachable_WF; exact R|vm_compute; reflexivity]).
  split; auto. split; [reflexivity|].
  assert (Ac : acyclic (directed ex_path)) by (apply C09_aux; [apply ex_path_reachable|vm_compute; reflexivity]).
  destruct (table_score_ok [0; 1; 2; 7; 0; 2; 5; 8; 1; 2; 4; 14; 1; 3; 6; 13]%Z 4) as [SS SE].
  assert (D : dag_over 4 (directed ex_path)).
  { split; auto. intros u v H. apply (directed_in _ _ _ _ ex_path_reachable) in H.
    assert (B : forall x, In x (nodes ex_path) -> x < 4) by (intros x Hx; vm_compute in Hx; lia). split; apply B; tauto. }
  split; auto. split.
  { destruct (C15_essential_partial ex_path (list_order ex_path) ex_path_reachable Ac) as [c [E Es]].
    - apply (list_order_ok _ _ ex_path_reachable).
    - intros [a [b [x [y [_ [_ [_ [_ [_ [_ [A1 [A2 [A3 _]]]]]]]]]]]]].
      assert (HN : forall u v, adjacent (directed ex_path) u v -> In u (seq 0 4) /\ In v (seq 0 4)).
      { intros u v [Q|Q]; apply D in Q; rewrite !in_seq; lia. }
      destruct (HN _ _ A1) as [Ha Hb]. destruct (HN _ _ A2) as [_ Hx].
      assert (Q : forallb (fun a => forallb (fun b => forallb (fun x =>
        negb (adjt ex_path a b && adjt ex_path a x && adjt ex_path b x)) (seq 0 4)) (seq 0 4)) (seq 0 4) = true)
        by (vm_compute; reflexivity).
      rewrite forallb_forall in Q. specialize (Q a Ha). rewrite forallb_forall in Q. specialize (Q b Hb).
      rewrite forallb_forall in Q. specialize (Q x Hx). apply negb_true_iff in Q.
      rewrite (proj2 (adjt_iff ex_path a b) A1), (proj2 (adjt_iff ex_path a x) A2), (proj2 (adjt_iff ex_path b x) A3) in Q. discriminate.
    - assert (Ec : dag2cpdag ex_path (list_order ex_path) = Ok ex_class) by (vm_compute; reflexivity).
      rewrite Ec in E. inversion E; subst c. exact Es. }
  split; auto. split; auto. split; [apply dag_total_ok; auto; vm_compute; reflexivity|]. split; [|split].
  - destruct (C30_forward_scan_exact ex_class zero_score 2 (repeat [] 4) R L) as [s [Es [_ H]]].
    assert (I : In (3, 1, [0]) (scored (get_scan (Ok s)))) by (rewrite <- Es; vm_compute; tauto).
    apply H in I. destruct I as [I1 I2]. split; auto. split; auto.
    eexists. eexists. split; vm_compute; reflexivity.
  - destruct (C30_backward_scan_exact ex_class (fun l => l) zero_score (repeat [] 4) R L id_order) as [s [Es [_ H]]].
    assert (I : In (0, 1, []) (scored (get_scan (Ok s)))) by (rewrite <- Es; vm_compute; tauto).
    apply H in I. destruct I as [I1 I2]. split; auto. split; auto.
    eexists. eexists. split; vm_compute; reflexivity.
  - split; [apply id_order|constructor].
Qed.

(* ------------------------------------------------------------------ C68 *)
(** The conversion is right, or it directs an edge that is not compelled. *)
Lemma conversion_cases : forall order n d c, orders_ok order -> reachable KDiGraph d -> dag_over n (directed d) ->
  dag2cpdag d (order d) = Ok c ->
  essential c (directed d) \/ exists u v, directed c u v /\ ~ compelled (directed d) u v.
Proof.
  intros order n d c Ho R [Ac B] E.
  destruct (C15_essential_iff_sound_partial d (order d) R Ac) as [c' [E' I]]; [intros u v k; apply (Ho d u v k R)|].
  rewrite E in E'. inversion E'; subst c'.
  destruct (cpdag_out d (order d) R Ac) as [c' [E2 [P [_ [CI _]]]]]; [intros u v k; apply (Ho d u v k R)|].
  rewrite E in E2. inversion E2; subst c'.
  assert (CA : forall u v, directed c u v -> adjacent (directed d) u v).
  { intros u v D. apply CI. apply dirp_con. apply directed_p; auto. apply (pg_wf c P). }
  assert (EV : forall u v, directed d u v -> In u (seq 0 n) /\ In v (seq 0 n)).
  { intros u v H. destruct (B u v H). rewrite !in_seq. lia. }
  assert (MDc : forall a b, adjacent (directed d) a b -> (MD (directed d) a b <-> compelled (directed d) a b)).
  { intros a b A. apply (MD_iff_compelled (directed d) (seq 0 n)); auto using seq_NoDup, directed_dec. }
  assert (Dec := MD_or_not (directed d) (seq 0 n) (directed_dec d) EV Ac).
  destruct (pair_search (fun p => directed c (fst p) (snd p) /\ ~ MD (directed d) (fst p) (snd p)) (list_prod (seq 0 n) (seq 0 n)))
    as [[[u v] [_ [H1 H2]]]|No].
  - intros [u v]. simpl. destruct (directed_dec c u v) as [D|D]; [|right; tauto]. destruct (Dec u v); tauto.
  - right. exists u, v. simpl in H1, H2. split; auto. intro C. apply H2. apply MDc; auto. 
  - left. apply I. intros u v N D. assert (A := CA u v D). apply MDc; auto.
    destruct (Dec u v) as [M|M]; auto. exfalso. apply (No (u, v)); auto.
    assert (Huv : In u (seq 0 n) /\ In v (seq 0 n)) by (destruct A as [A|A]; destruct (EV _ _ A); auto).
    apply in_prod; tauto.
Qed.

Lemma step_dag_fun : forall app_op n s d d', step_dag app_op n s d -> step_dag app_op n s d' -> d = d'.
Proof.
  unfold step_dag. intros app_op n s d d'. destruct (st_op s) as [[i j] T]. intros [p [H1 H2]] [p' [H1' H2']]. congruence.
Qed.

(** The whole search, with an arbitrary description [Bad] of wrong conversions. *)
Lemma search_cases : forall fuel order ord sf max_p n (Bad : graph -> graph -> Prop),
  set_score sf -> score_equivalent sf n -> orders_ok order -> set_order ord -> n <= fuel ->
  (forall d c, reachable KDiGraph d -> nodes d = seq 0 n -> dag_over n (directed d) ->
     dag2cpdag d (order d) = Ok c -> essential c (directed d) \/ Bad d c) ->
  let bad (s1 s2 : list step) := Exists (bad_step n Insert Bad) s1 \/ Exists (bad_step n Delete Bad) s2 in
  (exists g s tr1 tr2, ges_fit fuel order ord sf max_p n = Ok (g, s, tr1, tr2) /\
     (bad tr1 tr2 \/
      ((exists F, dag_over n F /\ essential g F /\ extension g F /\ total_score sf n F s) /\
       (forall F b, extension g F -> total_score sf n F b -> (b == s)%Q) /\ Forall (true_gain sf n) (tr1 ++ tr2)))) \/
  (ges_fit fuel order ord sf max_p n = Err OutOfFuel /\
   exists g0 g1 h tr1 tr2, (forall x y, ~ connected g0 x y) /\ chain g0 tr1 g1 /\ chain g1 tr2 h /\
     Forall (best_insert sf max_p) tr1 /\ Forall (best_delete sf) tr2 /\ bad tr1 tr2).
Proof.
  intros fuel order ord sf max_p n Bad SS SE Ho Hord Hf Conv bad.
  destruct (fit_ok n fuel order ord sf max_p Ho Hord Hf (memo_ok sf n) (insert_gain sf) (delete_gain sf))
    as [[g0 [g1 [g2 [s1 [s2 [tr1 [tr2 H]]]]]]]|[E [h [i [j [T [p [Gh [_ [Gp [Nx [Op [g0 [g1 [tr1 [tr2 H]]]]]]]]]]]]]]]].
  - apply memo_start.
  - intros h i j T m G Hi Hj HM. assert (Ev := good_vars n h G).
    rewrite <- Ev in HM |- *. apply insert_score_ok; auto; try (rewrite Ev; auto). apply (gd_pg n h G).
  - intros h i j T m G Hi Hj HM. assert (Ev := good_vars n h G).
    rewrite <- Ev in HM |- *. apply delete_score_ok; auto; try (rewrite Ev; auto). apply (gd_pg n h G).
  - left. destruct H as [E [G0 [G [V [C0 [Ch1 [Ch2 [L1 [L2 [Es1 [Es2 [F1 [F2 _]]]]]]]]]]]]].
    exists g2, s2, tr1, tr2. split; auto.
    edestruct (chain_scored n fuel order sf Hf SE Insert) with (tr := tr1) (Bad := Bad) as [[Sc1 Tg1]|B];
      [|exact Conv|exact Ch1|exact F1|exact (empty_scored sf n g0 G0 C0)| |left; left; exact B].
    { intros g E' Ed G' D Es i j T q [X1 X2] X3. exact (insert_true n g E' sf G' Ed D Es SS SE max_p i j T q X1 X2 X3). }
    edestruct (chain_scored n fuel order sf Hf SE Delete) with (tr := tr2) (Bad := Bad) as [[Sc2 Tg2]|B];
      [|exact Conv|exact Ch2|exact F2|exact Sc1| |left; right; exact B].
    { intros g E' Ed G' D Es i j T q [X1 X2] X3. exact (delete_true n g E' sf G' Ed D Es SS SE i j T q X1 X2 X3). }
    right. rewrite <- Es1, <- Es2 in Sc2. split; [|split].
    + destruct Sc2 as [F [Fd [D [Es Ts]]]]. exists F. split; auto. split; auto. split; auto.
      apply essential_extension; auto. apply (proj1 D).
    + intros F b. apply (scored_all sf n g2 s2 F b); auto.
    + apply Forall_app. auto.
  - right. split; auto. destruct H as [G0 [C0 [Ch1 [Ch2 [F1 F2]]]]]. exists g0, g1, h, tr1, tr2.
    split; [intros x y; rewrite (good_con n g0 G0); auto|]. split; auto. split; auto. split; [|split].
    + eapply Forall_impl; [|exact F1]. intros st [S1 S2 _ S3 S4 S5]. red. destruct (st_op st) as [[i' j'] T'].
      destruct S3 as [[Op' Va] [Ga _]]. split; auto. split; auto. split; auto. split; auto.
      intros i'' j'' T'' q X1 X2 X3. destruct (S5 i'' j'' T'' (conj X1 X2)) as [q' [Q1 Q2]].
      rewrite (insert_gain_fun _ _ _ _ _ _ _ SS X3 Q1). auto.
    + eapply Forall_impl; [|exact F2]. intros st [S1 S2 _ S3 S4 S5]. red. destruct (st_op st) as [[i' j'] T'].
      destruct S3 as [[Op' Va] [Ga _]]. split; auto. split; auto. split; auto. split; auto.
      intros i'' j'' T'' q X1 X2 X3. destruct (S5 i'' j'' T'' (conj X1 X2)) as [q' [Q1 Q2]].
      rewrite (delete_gain_fun _ _ _ _ _ _ _ SS X3 Q1). auto.
    + edestruct (chain_scored n fuel order sf Hf SE Insert) with (tr := tr1) (Bad := Bad) as [[Sc1 Tg1]|B];
        [|exact Conv|exact Ch1|exact F1|exact (empty_scored sf n g0 G0 C0)| |left; exact B].
      { intros g E' Ed G' D Es i' j' T' q [X1 X2] X3. exact (insert_true n g E' sf G' Ed D Es SS SE max_p i' j' T' q X1 X2 X3). }
      edestruct (chain_scored n fuel order sf Hf SE Delete) with (tr := tr2) (Bad := Bad) as [[Sc2 Tg2]|B];
        [|exact Conv|exact Ch2|exact F2|exact Sc1| |right; exact B].
      { intros g E' Ed G' D Es i' j' T' q [X1 X2] X3. exact (delete_true n g E' sf G' Ed D Es SS SE i' j' T' q X1 X2 X3). }
      exfalso. apply Nx. destruct Sc2 as [F [Fd [D [Es Ts]]]]. destruct Op as [[[O1 O2] Ep]|[[O1 O2] Ep]].
      * destruct (insert_extends n h F Gh Fd D Es max_p i j T O1 O2) as [p' [F' [_ [Ep' [_ [_ [_ [_ [X _]]]]]]]]].
        rewrite Ep in Ep'. inversion Ep'; subst. eauto.
      * destruct (delete_extends n h F Gh Fd D Es i j T O1 O2) as [p' [F' [_ [Ep' [_ [_ [_ [_ [X _]]]]]]]]].
        rewrite Ep in Ep'. inversion Ep'; subst. eauto.
Qed.

(** The search returns the essential graph of a DAG whose total score is the
    reported one, and every gain is a difference of total scores, unless one of
    the conversions to an essential graph went wrong on the way. *)
Theorem C68_reported_score_is_total_partial : forall fuel order ord sf max_p n g s tr1 tr2,
  set_score sf -> score_equivalent sf n -> orders_ok order -> set_order ord -> n <= fuel ->
  ges_fit fuel order ord sf max_p n = Ok (g, s, tr1, tr2) ->
  Exists (wrong_step Insert n) tr1 \/ Exists (wrong_step Delete n) tr2 \/
  ((exists F, dag_over n F /\ essential g F /\ extension g F /\ total_score sf n F s) /\
   (forall F b, extension g F -> total_score sf n F b -> (b == s)%Q) /\ Forall (true_gain sf n) (tr1 ++ tr2)).
Proof.
  intros fuel order ord sf max_p n g s tr1 tr2 SS SE Ho Hord Hf E.
  destruct (search_cases fuel order ord sf max_p n (fun d c => exists u v, directed c u v /\ ~ compelled (directed d) u v)
    SS SE Ho Hord Hf) as [[g' [s' [t1 [t2 [E' H]]]]]|[E' _]]; [|rewrite E in E'; inversion E'; subst g' s' t1 t2|congruence].
  { intros d c R _ D Ec. eapply conversion_cases; eauto. }
  assert (B : forall op l, Exists (bad_step n op (fun d c => exists u v, directed c u v /\ ~ compelled (directed d) u v)) l ->
    Exists (wrong_step op n) l).
  { intros op l X. eapply Exists_impl; [|exact X]. intros st [d [S [u [v [D C]]]]]. exists d, u, v. auto. }
  destruct H as [[H|H]|H]; auto.
Qed.
Print Assumptions C68_reported_score_is_total_partial.

(** When the search does not return, a conversion went wrong before. *)
Theorem C68_stuck_after_wrong_conversion : forall fuel order ord sf max_p n,
  set_score sf -> score_equivalent sf n -> orders_ok order -> set_order ord -> n <= fuel ->
  ges_fit fuel order ord sf max_p n = Err OutOfFuel ->
  exists g0 g1 h tr1 tr2, (forall x y, ~ connected g0 x y) /\ chain g0 tr1 g1 /\ chain g1 tr2 h /\
    Forall (best_insert sf max_p) tr1 /\ Forall (best_delete sf) tr2 /\
    (Exists (wrong_step Insert n) tr1 \/ Exists (wrong_step Delete n) tr2).
Proof.
  intros fuel order ord sf max_p n SS SE Ho Hord Hf E.
  destruct (search_cases fuel order ord sf max_p n (fun d c => exists u v, directed c u v /\ ~ compelled (directed d) u v)
    SS SE Ho Hord Hf) as [[g' [s' [t1 [t2 [E' H]]]]]|[_ [g0 [g1 [h [tr1 [tr2 H]]]]]]]; [|congruence|].
  { intros d c R _ D Ec. eapply conversion_cases; eauto. }
  exists g0, g1, h, tr1, tr2. destruct H as [H1 [H2 [H3 [H4 [H5 B]]]]]. do 5 (split; auto).
  assert (Bi : forall op l, Exists (bad_step n op (fun d c => exists u v, directed c u v /\ ~ compelled (directed d) u v)) l ->
    Exists (wrong_step op n) l).
  { intros op l X. eapply Exists_impl; [|exact X]. intros st [d [S [u [v [D C]]]]]. exists d, u, v. auto. }
  destruct B; auto.
Qed.
Print Assumptions C68_stuck_after_wrong_conversion.

(** With three variables or fewer no conversion goes wrong: the search returns,
    and its score is exact. *)
Theorem C68_three_variables : forall fuel order ord sf max_p n, n <= 3 ->
  set_score sf -> score_equivalent sf n -> orders_ok order -> set_order ord -> n <= fuel ->
  exists g s tr1 tr2, ges_fit fuel order ord sf max_p n = Ok (g, s, tr1, tr2) /\
    (exists F, dag_over n F /\ essential g F /\ extension g F /\ total_score sf n F s) /\
    (forall F b, extension g F -> total_score sf n F b -> (b == s)%Q) /\ Forall (true_gain sf n) (tr1 ++ tr2).
Proof.
  intros fuel order ord sf max_p n H3 SS SE Ho Hord Hf.
  assert (NE : forall op l, ~ Exists (bad_step n op (fun _ _ => False)) l).
  { intros op l X. apply Exists_exists in X. destruct X as [st [_ [d [_ []]]]]. }
  destruct (search_cases fuel order ord sf max_p n (fun _ _ => False) SS SE Ho Hord Hf)
    as [[g [s [t1 [t2 [E [[B|B]|H]]]]]]|[_ [g0 [g1 [h [tr1 [tr2 [_ [_ [_ [_ [_ [B|B]]]]]]]]]]]]]; try (exfalso; eapply NE; eauto; fail).
  - intros d c R Nd [Ac B] Ec. left.
    destruct (C15_essential_partial d (order d) R Ac) as [c' [E' I]].
    + intros u v k. apply (Ho d u v k R).
    + intros [a [b [x [y [N1 [N2 [N3 [N4 [N5 [N6 [A1 [A2 [A3 [A4 A5]]]]]]]]]]]]]].
      assert (Lt : forall u v, adjacent (directed d) u v -> u < n /\ v < n) by (intros u v [Q|Q]; destruct (B _ _ Q); auto).
      destruct (Lt _ _ A1), (Lt _ _ A2), (Lt _ _ A4). lia.
    + rewrite Ec in E'. inversion E'; subst. auto.
  - exists g, s, t1, t2. auto.
Qed.
Print Assumptions C68_three_variables.

(** Three variables, 0 -> 1 <- 2: two insertions, score 25.  The
    runs of [hang_score] (C32_termination_refuted) and [wrong_score] (below) meet
    the hypotheses of the first two theorems. *)
Definition ex_collider_score : lscore := table_score [0; 0; 0; 10; 0; 0; 8; 25]%Z.
Definition ex_collider_fit : graph * Q * list step * list step :=
  match ges_fit 3 list_order (fun l => l) ex_collider_score (default_max_p 3) 3 with Ok r => r | Err _ => (ex_vee, 0%Q, [], []) end.
Example C68_example : set_score ex_collider_score /\ score_equivalent ex_collider_score 3 /\ orders_ok list_order /\ set_order (fun l => l) /\
  ges_fit 3 list_order (fun l => l) ex_collider_score (default_max_p 3) 3 = Ok ex_collider_fit /\
  (let '(g, s, tr1, tr2) := ex_collider_fit in
   edges g = Ok [Edge 0 1 Tail Arrow; Edge 1 2 Arrow Tail] /\ (s == 25)%Q /\ map st_op tr1 = [(0, 1, []); (2, 1, [0])] /\ tr2 = []) /\
  set_score hang_score /\ score_equivalent hang_score 7 /\
  ges_fit 7 list_order (fun l => l) hang_score (default_max_p 7) 7 = Err OutOfFuel.
Proof.
  split; [apply (table_score_ok _ 3)|]. split; [apply (table_score_ok _ 3)|]. split; [apply list_orders|]. split; [apply id_order|].
  split; [vm_compute; reflexivity|]. split; [|split; [apply (table_score_ok _ 7)|split; [apply (table_score_ok _ 7)|exact hang_7]]].
  vm_compute. repeat split; reflexivity.
Qed.

(** Six variables: 4 -> 3 -> 1 -> 2 -> 0 and 5 is a parent of 3, 1, 2 and 0.  The
    table is built as the one of C32_termination_refuted, with factor 5.  Eight
    insertions find the eight edges; the conversion after the eighth reverses
    the path 1 -> 2 -> 0; on the wrong graph another insertion looks like a gain
    of 14, and the result has 3 -> 0 -> 2 -> 1. *)
Definition wrong_table : list Z :=
  [0; -30; -24; -43; -18; -29; -28; -38; -12; -37; -24; -39; -23; -29; -27; -33;
  0; -29; -20; -37; -16; -23; -23; -31; -4; -28; -15; -31; -14; -21; -18; -25;
  0; -28; -24; -37; -17; -19; -26; -29; -13; -27; -15; -29; -16; -19; -18; -22;
  -1; -20; -15; -29; -9; -12; -18; -22; -3; -19; -6; -22; -7; -11; -10; -15]%Z.
Definition wrong_score : lscore := table_score wrong_table.
Definition wrong_fit : graph * Q * list step * list step :=
  match ges_fit 6 list_order (fun l => l) wrong_score (default_max_p 6) 6 with Ok r => r | Err _ => (ex_vee, 0%Q, [], []) end.
Lemma wrong_fit_ok : ges_fit 6 list_order (fun l => l) wrong_score (default_max_p 6) 6 = Ok wrong_fit.
Proof. vm_compute. reflexivity. Qed.

Lemma fit_good : forall fuel order ord sf max_p n g s tr1 tr2, orders_ok order -> set_order ord -> n <= fuel ->
  ges_fit fuel order ord sf max_p n = Ok (g, s, tr1, tr2) -> good n g.
Proof.
  intros fuel order ord sf max_p n g s tr1 tr2 Ho Hord Hf E.
  destruct (fit_ok n fuel order ord sf max_p Ho Hord Hf (fun _ => True) (fun _ _ _ _ _ => True) (fun _ _ _ _ _ => True))
    as [[g0 [g1 [g2 [s1 [s2 [t1 [t2 H]]]]]]]|[E' _]]; auto; [| | |congruence].
  - intros h i j T m G Hi Hj _. assert (Ev := good_vars n h G).
    destruct (insert_score_total h (gd_pg n h G) sf i j T m) as [[q m'] E']; try (rewrite Ev; auto). exists q, m'. auto.
  - intros h i j T m G Hi Hj _. assert (Ev := good_vars n h G).
    destruct (delete_score_total h (gd_pg n h G) sf ord i j T m) as [[q m'] E']; try (rewrite Ev; auto). exists q, m'. auto.
  - destruct H as [E' [_ [G _]]]. rewrite E in E'. inversion E'; subst. auto.
Qed.

(** The full statement is false: for a score that does not tell equivalent DAGs
    apart, the default bound on the number of parents and six variables, the
    search returns a graph and a score that none of the DAGs that the graph
    stands for has. *)
Theorem C68_reported_score_refuted : exists order ord sf n g s tr1 tr2 t, orders_ok order /\ set_order ord /\
  set_score sf /\ score_equivalent sf n /\
  ges_fit n order ord sf (default_max_p n) n = Ok (g, s, tr1, tr2) /\
  (exists F, extension g F /\ total_score sf n F t) /\
  (forall F b, extension g F -> total_score sf n F b -> (b == t)%Q) /\ (t < s)%Q.
Proof.
  destruct wrong_fit as [[[g s] tr1] tr2] eqn:Ew. assert (E := wrong_fit_ok). rewrite Ew in E.
  assert (G := fit_good 6 _ _ _ _ 6 g s tr1 tr2 list_orders id_order (le_n 6) E).
  destruct (table_score_ok wrong_table 6) as [SS SE].
  set (W := fst (fst (fst wrong_fit))). assert (Eg : g = W) by (unfold W; rewrite Ew; auto).
  assert (P : exists d, pdag2dag 6 W = Ok d /\ (dag_total wrong_score d 6 == -9)%Q).
  { eexists. split; [vm_compute; reflexivity|]. vm_compute. reflexivity. }
  destruct P as [d [Pd Td]]. rewrite <- Eg in Pd. destruct (returned_extension 6 6 g d G Pd) as [_ [_ [X D]]].
  assert (Ts := dag_total_ok wrong_score d 6 _ D Td).
  exists list_order, (fun l => l), wrong_score, 6, g, s, tr1, tr2, (-9)%Q.
  split; [apply list_orders|]. split; [apply id_order|]. split; auto. split; auto. split; auto.
  split; [exists (directed d); auto|]. split.
  - intros F b XF TF. apply (SE F (directed d) b (-9)%Q); auto.
    + eapply extension_over; eauto.
    + apply (extensions_equiv g); auto.
  - assert (Q : (-9 < snd (fst (fst wrong_fit)))%Q) by (vm_compute; reflexivity). rewrite Ew in Q. exact Q.
Qed.
Print Assumptions C68_reported_score_refuted.
