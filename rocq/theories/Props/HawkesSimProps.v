(** C101: the simulated tables of events. *)

From Coq Require Import List Arith Bool ZArith QArith Qcanon Reals Lia Permutation Sorted.
From Verif Require Import Model.Py Model.Graph Model.Simulators Model.SHPTable Model.HawkesSim Spec.EventSpec
  Proofs.SHPTableFacts Proofs.HawkesSimFacts Props.SimulatorProps Props.SHPTableProps.
Import ListNotations.
Open Scope nat_scope.

(** The time of an event in the table: as simulated, or on the grid. *)
Definition put (d : option Qc) (t : Qc) : Qc := match d with None => t | Some d => binned d t end.

Lemma data_is : forall n NE stamps d table events, (forall w, d = Some w -> 0 < w)%Qc -> artificial_data n NE stamps d = Ok (table, events) ->
  table = map (fun e => Ev (ev_seq e) (put d (ev_time e)) (ev_type e)) (hawkes_rows NE n stamps) /\ events = hawkes_events table.
Proof.
  intros n NE stamps d table events D H. unfold artificial_data in H. destruct (Nat.eqb NE 0); [discriminate|]. cbn [rbind] in H. destruct d as [w|].
  - destruct (Qc_eq_dec w 0) as [->|]; [exfalso; exact (Qclt_not_eq _ _ (D _ eq_refl) eq_refl)|]. inversion H; subst. auto.
  - inversion H; subst. split; auto. rewrite <- (map_id (hawkes_rows NE n stamps)) at 1. apply map_ext. intros []; reflexivity.
Qed.
Lemma table_of_pair : forall d rows s y,
  map ev_time (filter (fun e => Nat.eqb (ev_type e) y && Nat.eqb (ev_seq e) s) (map (fun e => Ev (ev_seq e) (put d (ev_time e)) (ev_type e)) rows))
  = map (fun e => put d (ev_time e)) (filter (fun e => Nat.eqb (ev_type e) y && Nat.eqb (ev_seq e) s) rows).
Proof. intros d rows s y. induction rows as [|e l IH]; auto. cbn [map filter ev_type ev_seq]. destruct (Nat.eqb (ev_type e) y && Nat.eqb (ev_seq e) s); cbn [map ev_time]; rewrite ?IH; auto. Qed.

(** C101.  The table has one row for every simulated time, with the sequence, the time (as it is, or on the grid) and the type,
    and no other rows. *)
Theorem C101_table : forall n NE stamps d table events, (forall w, d = Some w -> 0 < w)%Qc -> artificial_data n NE stamps d = Ok (table, events) ->
  (forall e, In e table -> ev_seq e < NE /\ ev_type e < n)
  /\ forall s y, s < NE -> y < n -> exists times, map ev_time (filter (fun e => Nat.eqb (ev_type e) y && Nat.eqb (ev_seq e) s) table) = times
       /\ Forall2 (stamped d) (stamps s y) times.
Proof.
  intros n NE stamps d table events D H. destruct (data_is _ _ _ _ _ _ D H) as [-> _]. split.
  - intros e He. apply in_map_iff in He. destruct He as [a [<- Ha]]. apply rows_in in Ha. cbn. tauto.
  - intros s y Hs Hy. eexists. split; [reflexivity|]. rewrite table_of_pair, rows_of. apply Nat.ltb_lt in Hs, Hy. rewrite Hs, Hy. cbn [andb]. rewrite map_map. cbn [ev_time].
    induction (stamps s y) as [|t l IH]; simpl; constructor; auto. destruct d as [w|]; cbn; auto. apply binned_on_grid. auto.
Qed.
Print Assumptions C101_table.

(** C101.  The nested lists have one entry for each sequence with an event and, in it, one for each type with an event in some
    sequence, both in order; the other sequences and types are left out. *)
Theorem C101_events : forall n NE stamps d table events, (forall w, d = Some w -> 0 < w)%Qc -> artificial_data n NE stamps d = Ok (table, events) ->
  exists ids names,
    StronglySorted lt ids /\ (forall s, In s ids <-> s < NE /\ exists y, y < n /\ stamps s y <> [])
    /\ StronglySorted lt names /\ (forall y, In y names <-> y < n /\ exists s, s < NE /\ stamps s y <> [])
    /\ Forall2 (fun s row => Forall2 (fun y times => Forall2 (stamped d) (stamps s y) times) names row) ids events.
Proof.
  intros n NE stamps d table events D H. destruct (data_is _ _ _ _ _ _ D H) as [ET EE]. set (rows := hawkes_rows NE n stamps) in *.
  assert (map ev_seq table = map ev_seq rows) as ES by (rewrite ET, map_map; reflexivity). assert (map ev_type table = map ev_type rows) as EY by (rewrite ET, map_map; reflexivity).
  assert (forall s, In s (map ev_seq rows) <-> s < NE /\ exists y, y < n /\ stamps s y <> []) as IS.
  { intro s. rewrite in_map_iff. split.
    - intros [e [<- He]]. apply rows_in in He. destruct He as [A [B C]]. split; auto. exists (ev_type e). split; auto. intro Z. rewrite Z in C. destruct C.
    - intros [A [y [B C]]]. destruct (stamps s y) as [|t l] eqn:E; [contradiction|]. exists (Ev s t y). split; auto. apply rows_in. cbn. rewrite E. simpl. auto. }
  assert (forall y, In y (map ev_type rows) <-> y < n /\ exists s, s < NE /\ stamps s y <> []) as IY.
  { intro y. rewrite in_map_iff. split.
    - intros [e [<- He]]. apply rows_in in He. destruct He as [A [B C]]. split; auto. exists (ev_seq e). split; auto. intro Z. rewrite Z in C. destruct C.
    - intros [A [s [B C]]]. destruct (stamps s y) as [|t l] eqn:E; [contradiction|]. exists (Ev s t y). split; auto. apply rows_in. cbn. rewrite E. simpl. auto. }
  exists (first_seen (map ev_seq rows)), (unique (map ev_type rows)). destruct (unique_spec (map ev_type rows)) as [US UI].
  split; [apply first_seen_sorted, rows_sorted|]. split; [intro s; rewrite first_seen_in; auto|]. split; auto. split; [intro y; rewrite UI; auto|].
  rewrite EE. unfold hawkes_events. rewrite ES, EY.
  assert (forall s, In s (first_seen (map ev_seq rows)) -> s < NE) as LS by (intros s Hs; apply first_seen_in, IS in Hs; tauto).
  assert (forall y, In y (unique (map ev_type rows)) -> y < n) as LY by (intros y Hy; apply UI, IY in Hy; tauto).
  destruct (C101_table _ _ _ _ _ _ D H) as [_ CT]. clear - LS LY CT. induction (first_seen (map ev_seq rows)) as [|s ids IH]; cbn [map]; constructor.
  - assert (s < NE) as Hs by (apply LS; simpl; auto). clear IH LS. induction (unique (map ev_type rows)) as [|y names IH]; cbn [map]; constructor.
    + destruct (CT s y Hs) as [ts [<- F]]; [apply LY; simpl; auto|]. exact F.
    + apply IH. intros; apply LY; simpl; auto.
  - apply IH. intros; apply LS; simpl; auto.
Qed.
Print Assumptions C101_events.

Lemma Forall2_len : forall A B (Q : A -> B -> Prop) l r, Forall2 Q l r -> length l = length r.
Proof. induction 1; simpl; auto. Qed.
(** C101.  If every sequence and every type has an event, the positions are the numbers of the sequences and types. *)
Theorem C101_positions : forall n NE stamps d table events, (forall w, d = Some w -> 0 < w)%Qc -> artificial_data n NE stamps d = Ok (table, events) ->
  (forall s, s < NE -> exists y, y < n /\ stamps s y <> []) -> (forall y, y < n -> exists s, s < NE /\ stamps s y <> []) ->
  length events = NE /\ forall s y, s < NE -> y < n -> length (nth s events []) = n /\ Forall2 (stamped d) (stamps s y) (nth y (nth s events []) []).
Proof.
  intros n NE stamps d table events D H HS HY. destruct (C101_events _ _ _ _ _ _ D H) as [ids [names [SI [II [SN [IN F]]]]]].
  assert (forall m l, StronglySorted lt l -> (forall x, In x l <-> x < m) -> l = seq 0 m) as SQ.
  { intros m l S I. apply (sorted_unique lt Nat.lt_irrefl Nat.lt_trans); auto; [|intro x; rewrite I, in_seq; lia]. clear. generalize 0. induction m as [|m IH]; intro k; simpl; constructor; auto. apply Forall_forall. intros x Hx. apply in_seq in Hx. lia. }
  assert (ids = seq 0 NE) as -> by (apply SQ; auto; intro x; rewrite II; split; [tauto|intro; split; auto]).
  assert (names = seq 0 n) as -> by (apply SQ; auto; intro x; rewrite IN; split; [tauto|intro; split; auto]). clear II IN SI SN SQ HS HY.
  assert (forall A B (Q : A -> B -> Prop) a b l r, Forall2 Q l r -> forall i, i < length l -> Q (nth i l a) (nth i r b)) as NT.
  { intros A B Q a b l r FF. induction FF; intros i Hi; simpl in Hi; [lia|]. destruct i; simpl; auto. apply IHFF. lia. }
  assert (length events = NE) as L by (rewrite <- (seq_length NE 0); symmetry; apply (Forall2_len _ _ _ _ _ F)). split; auto.
  intros s y Hs Hy. pose proof (NT _ _ _ 0 [] _ _ F s) as Q. rewrite seq_length in Q. specialize (Q Hs). rewrite seq_nth in Q by auto. cbn [Nat.add] in Q.
  split; [rewrite <- (seq_length n 0); symmetry; apply (Forall2_len _ _ _ _ _ Q)|]. pose proof (NT _ _ _ 0 [] _ _ Q y) as Q2. rewrite seq_length in Q2. specialize (Q2 Hy). rewrite seq_nth in Q2 by auto. exact Q2.
Qed.
Print Assumptions C101_positions.

(** C101, refuted: in general they are not.  With two sequences, the first without an event, the only entry belongs to the second;
    and with two types, the first without an event, SHP's first type is the second. *)
Theorem C101_positions_refuted : exists n NE stamps table events,
  artificial_data n NE stamps None = Ok (table, events) /\ length events <> NE /\ stamps 0 1 = [] /\ nth 0 events [] = [stamps 1 1]
  /\ forall decay P, shp_init Ints Floats Ints table decay (Some (1%Qc, Ints)) None true = Ok P -> length (p_names P) <> n /\ nth 0 (p_names P) 0 = 1.
Proof.
  exists 2, 2, (fun s y => match s, y with 1, 1 => [1%Qc] | _, _ => [] end). eexists. eexists. split; [reflexivity|]. split; [discriminate|]. split; [reflexivity|]. split; [reflexivity|].
  intros decay P R. destruct (shp_ok _ _ _ _ _ _ _ _ _ R) as [_ [-> _]]. split; [discriminate|reflexivity].
Qed.
Print Assumptions C101_positions_refuted.

(** C101.  The simulation with an interval returns what get_interval_events makes of the table of the simulation without;
    get_interval_events changes nothing in a table of this interval. *)
Theorem C101_interval : forall n NE stamps d table events, d <> 0%Qc -> artificial_data n NE stamps None = Ok (table, events) ->
  artificial_data n NE stamps (Some d) = Ok (get_interval_events d table)
  /\ get_interval_events d (fst (get_interval_events d table)) = get_interval_events d table.
Proof.
  intros n NE stamps d table events D H. unfold artificial_data in *. destruct (Nat.eqb NE 0); [discriminate|]. cbn [rbind] in *. destruct (Qc_eq_dec d 0) as [|_]; [contradiction|].
  inversion H; subst table events. split; [reflexivity|]. unfold get_interval_events at 1 3. cbn [fst]. unfold get_interval_events. cbn [fst].
  assert (forall t, binned d (binned d t) = binned d t) as B.
  { intro t. unfold binned. f_equal. f_equal. f_equal. replace (Q2Qc (inject_Z (truncated (t / d))) * d / d)%Qc with (Q2Qc (inject_Z (truncated (t / d)))) by (field; auto).
    generalize (truncated (t / d)). intro z. unfold truncated, Q2Qc. cbn [this]. rewrite Qred_identity by apply Z.gcd_1_r. cbn. apply Z.quot_1_r. }
  rewrite map_map. cbn [ev_seq ev_time ev_type]. replace (map (fun x => Ev (ev_seq x) (binned d (binned d (ev_time x))) (ev_type x)) (hawkes_rows NE n stamps))
    with (map (fun e => Ev (ev_seq e) (binned d (ev_time e)) (ev_type e)) (hawkes_rows NE n stamps)); auto. apply map_ext. intro e. rewrite B. reflexivity.
Qed.
Print Assumptions C101_interval.

(** C101.  The process that is simulated has an effect of type i on type j exactly if the matrix of edges has the edge from i to
    j and the strength drawn for it is not 0, and then with this strength; each effect is set once; effects go from smaller to
    larger numbers, so that no type acts on itself, directly or through others. *)
Theorem C101_kernels : forall n edges k u, Permutation edges (hawkes_pairs n) ->
  let D := hawkes_edges n edges k in
  let alpha := hawkes_alpha D u in
  (forall i j, (mat_get D i j = 1%Z -> alpha i j = u i j) /\ (mat_get D i j <> 1%Z -> alpha i j = 0%Qc))
  /\ (forall i j a, In (j, i, a) (hawkes_kernels n alpha) <-> mat_get D i j = 1%Z /\ a = u i j /\ u i j <> 0%Qc)
  /\ NoDup (map fst (hawkes_kernels n alpha))
  /\ (forall i j a, In (j, i, a) (hawkes_kernels n alpha) -> i < j < n).
Proof.
  intros n edges k u P D alpha. destruct (C39_hawkes_edges n edges k P) as [_ [Z01 [UP _]]]. fold D in Z01, UP.
  assert (forall i j, (mat_get D i j = 1%Z -> alpha i j = u i j) /\ (mat_get D i j <> 1%Z -> alpha i j = 0%Qc)) as A.
  { intros i j. unfold alpha, hawkes_alpha. split; [intros ->; change (Q2Qc (inject_Z 1)) with 1%Qc; ring|]. intro N. destruct (Z01 i j) as [E|E]; [|contradiction]. rewrite E. change (Q2Qc (inject_Z 0)) with 0%Qc. ring. }
  assert (forall i j a, In (j, i, a) (hawkes_kernels n alpha) <-> mat_get D i j = 1%Z /\ a = u i j /\ u i j <> 0%Qc) as K.
  { intros i j a. unfold hawkes_kernels. rewrite in_flat_map. split.
    - intros [i' [Hi H]]. apply in_flat_map in H. destruct H as [j' [Hj H]]. destruct (Qc_eq_dec (alpha i' j') 0) as [|N]; [destruct H|]. destruct H as [H|[]]. inversion H; subst i' j' a.
      destruct (A i j) as [A1 A0]. destruct (Z01 i j) as [E|E]; [exfalso; apply N, A0; rewrite E; discriminate|]. rewrite (A1 E) in *. auto.
    - intros [E [-> N]]. assert (i < j < n) as L by (apply UP; rewrite E; discriminate). exists i. split; [apply in_seq; lia|]. apply in_flat_map. exists j. split; [apply in_seq; lia|].
      destruct (A i j) as [A1 _]. rewrite (A1 E). destruct (Qc_eq_dec (u i j) 0) as [|_]; [contradiction|]. simpl. auto. }
  split; auto. split; auto. split.
  - unfold hawkes_kernels. clear. assert (forall l m, NoDup l -> NoDup m -> NoDup (map fst (flat_map (fun i => flat_map (fun j => if Qc_eq_dec (alpha i j) 0 then [] else [(j, i, alpha i j)]) m) l))) as G.
    { intros l m Nl Nm. induction Nl as [|i l Ni Nl IH]; [constructor|]. cbn [flat_map]. rewrite map_app.
      assert (forall q, In q (map fst (flat_map (fun j => if Qc_eq_dec (alpha i j) 0 then [] else [(j, i, alpha i j)]) m)) -> snd q = i /\ In (fst q) m) as I1.
      { intros q Hq. apply in_map_iff in Hq. destruct Hq as [[[a b] c] [<- Hq]]. apply in_flat_map in Hq. destruct Hq as [j [Hj Hq]]. destruct (Qc_eq_dec (alpha i j) 0); [destruct Hq|]. destruct Hq as [Hq|[]]. inversion Hq; subst. auto. }
      assert (NoDup (map fst (flat_map (fun j => if Qc_eq_dec (alpha i j) 0 then [] else [(j, i, alpha i j)]) m))) as N1.
      { clear IH I1. induction Nm as [|j m Nj Nm IHm]; [constructor|]. cbn [flat_map]. destruct (Qc_eq_dec (alpha i j) 0); [exact IHm|]. cbn [app map fst]. constructor; auto.
        intro H. apply in_map_iff in H. destruct H as [[[a b] c] [E H]]. cbn in E. inversion E; subst a b. apply in_flat_map in H. destruct H as [j' [Hj H]]. destruct (Qc_eq_dec (alpha i j') 0); [destruct H|]. destruct H as [H|[]]. inversion H; subst. contradiction. }
      revert N1 I1. generalize (map fst (flat_map (fun j => if Qc_eq_dec (alpha i j) 0 then [] else [(j, i, alpha i j)]) m)). intros L N1 I1. induction N1 as [|q L Nq N1 IH1]; [exact IH|]. cbn [app]. constructor.
      - intro H. apply in_app_or in H. destruct H as [H|H]; [contradiction|]. destruct (I1 q) as [E _]; [simpl; auto|]. apply in_map_iff in H. destruct H as [[[a b] c] [<- H]]. cbn in E. subst b.
        apply in_flat_map in H. destruct H as [i' [Hi H]]. apply in_flat_map in H. destruct H as [j [_ H]]. destruct (Qc_eq_dec (alpha i' j) 0); [destruct H|]. destruct H as [H|[]]. inversion H; subst. contradiction.
      - apply IH1. intros; apply I1; simpl; auto. }
    apply G; apply seq_NoDup.
  - intros i j a H. apply K in H. destruct H as [E _]. apply UP. rewrite E. discriminate.
Qed.
Print Assumptions C101_kernels.

(** C101.  When the simulation raises, apart from tick: without sequences, and with an interval of 0 if there is an event. *)
Theorem C101_raises : forall n NE stamps d,
  (NE = 0 -> artificial_data n NE stamps d = Err ZeroDivisionError)
  /\ (NE <> 0 -> d = Some 0%Qc -> (exists s y, s < NE /\ y < n /\ stamps s y <> []) -> artificial_data n NE stamps d = Err ValueError)
  /\ (NE <> 0 -> d <> Some 0%Qc -> exists r, artificial_data n NE stamps d = Ok r).
Proof.
  intros n NE stamps d. unfold artificial_data. split; [intros ->; reflexivity|]. split; intros N.
  - intros -> [s [y [Hs [Hy E]]]]. apply Nat.eqb_neq in N. rewrite N. cbn [rbind]. destruct (Qc_eq_dec 0 0) as [_|]; [|contradiction].
    destruct (stamps s y) as [|t l] eqn:Q; [contradiction|]. assert (In (Ev s t y) (hawkes_rows NE n stamps)) as I by (apply rows_in; cbn; rewrite Q; simpl; auto).
    destruct (hawkes_rows NE n stamps); [destruct I|reflexivity].
  - intro D. apply Nat.eqb_neq in N. rewrite N. cbn [rbind]. destruct d as [w|]; [|eauto]. destruct (Qc_eq_dec w 0) as [->|]; [contradiction|eauto].
Qed.
Print Assumptions C101_raises.

(** C101.  The table cannot go into SHP as it is: its numbers are floats.  With an interval that is an integer, there or in the
    simulation, it can; SHP's types are then those with an event, in order. *)
Theorem C101_learn : forall n NE stamps d table events decay, (forall w, d = Some w -> 0 < w)%Qc -> artificial_data n NE stamps d = Ok (table, events) ->
  (forall dt, dt = None \/ (exists w, dt = Some (w, Floats) /\ w <> 0%Qc) -> shp_init Ints Floats Ints table decay dt None true = Err TypeError)
  /\ (forall kt dt, (dt = None /\ kt = Ints \/ exists w, dt = Some (w, Ints) /\ w <> 0%Qc) ->
       exists P, shp_init Ints kt Ints table decay dt None true = Ok P
         /\ StronglySorted lt (p_names P) /\ forall y, In y (p_names P) <-> y < n /\ exists s, s < NE /\ stamps s y <> []).
Proof.
  intros n NE stamps d table events decay D H. split.
  - intros dt E. destruct (proj2 (C99_raises Ints Floats Ints table decay dt None true)) as [_ [_ Q]].
    { intros w k ->. destruct E as [E|[w' [E N]]]; [discriminate|]. inversion E; subst. auto. }
    destruct (Q eq_refl) as [Q1 _]; [discriminate|]. apply Q1. split; [discriminate|]. split; [discriminate|]. destruct E as [->|[w [-> _]]]; eauto.
  - intros kt dt E. destruct (proj2 (C99_raises Ints kt Ints table decay dt None true)) as [_ [_ Q]].
    { intros w k ->. destruct E as [[E _]|[w' [E N]]]; [discriminate|]. inversion E; subst. auto. }
    destruct (Q eq_refl) as [_ Q1]; [discriminate|]. destruct Q1 as [P [R _]]; [right; right; split; auto; split; auto; destruct E as [E|[w [-> _]]]; eauto|].
    exists P. split; auto. destruct (names_spec _ _ _ _ _ _ _ _ _ R) as [S M]. split; auto. intro y. rewrite M. destruct (data_is _ _ _ _ _ _ D H) as [-> _]. split.
    + intros [e [He <-]]. apply in_map_iff in He. destruct He as [a [<- Ha]]. apply rows_in in Ha. cbn. destruct Ha as [A [B C]]. split; auto. exists (ev_seq a). split; auto. intro Z. rewrite Z in C. destruct C.
    + intros [Hy [s [Hs N]]]. destruct (stamps s y) as [|t l] eqn:Q2; [contradiction|]. exists (Ev s (put d t) y). split; auto. apply in_map_iff. exists (Ev s t y). split; auto. apply rows_in. cbn. rewrite Q2. simpl. auto.
Qed.
Print Assumptions C101_learn.

Definition moment (t : nat) : Qc := Q2Qc (inject_Z (Z.of_nat t)).
Lemma moment_inj : forall a b, moment a = moment b -> a = b.
Proof. intros a b H. unfold moment in H. apply Q2Qc_eq_iff in H. unfold Qeq in H. cbn in H. lia. Qed.
Lemma insem_count : forall size c y t z, t < size -> how_many (at_time ev_time 0 (moment t) z) (insem_rows size c y) = if Nat.eqb y z then c t else 0.
Proof.
  intros size c y t z Ht. unfold how_many, insem_rows. rewrite filter_flat_map.
  assert (forall s m, filter (at_time ev_time 0 (moment t) z) (repeat (Ev 0 (moment s) y) m) = if Nat.eqb s t && Nat.eqb y z then repeat (Ev 0 (moment s) y) m else []) as K.
  { intros s m. assert (at_time ev_time 0 (moment t) z (Ev 0 (moment s) y) = Nat.eqb s t && Nat.eqb y z) as E.
    { unfold at_time, same. cbn [ev_seq ev_time ev_type Nat.eqb andb]. destruct (Qc_eq_dec (moment s) (moment t)) as [Q|Q]; destruct (Nat.eqb_spec s t) as [->|N]; auto; [apply moment_inj in Q; contradiction|contradiction]. }
    induction m as [|m IH]; [destruct (Nat.eqb s t && Nat.eqb y z); reflexivity|]. cbn [repeat filter]. rewrite E, IH. destruct (Nat.eqb s t && Nat.eqb y z); reflexivity. }
  rewrite (flat_map_one _ _ t size).
  - assert (Nat.ltb t size = true) as -> by (apply Nat.ltb_lt; auto). change (Q2Qc (inject_Z (Z.of_nat t))) with (moment t). rewrite K, Nat.eqb_refl. cbn [andb]. destruct (Nat.eqb y z); auto. apply repeat_length.
  - intros s _ N. change (Q2Qc (inject_Z (Z.of_nat s))) with (moment s). rewrite K. destruct (Nat.eqb_spec s t); [contradiction|reflexivity].
Qed.
Lemma insem_in : forall size c y e, In e (insem_rows size c y) <-> exists t, t < size /\ e = Ev 0 (moment t) y /\ 0 < c t.
Proof.
  intros size c y e. unfold insem_rows. rewrite in_flat_map. split.
  - intros [t [Ht H]]. apply in_seq in Ht. exists t. split; [lia|]. pose proof (repeat_spec _ _ _ H) as E. split; auto. destruct (c t); [destruct H|lia].
  - intros [t [Ht [-> C]]]. exists t. split; [apply in_seq; lia|]. destruct (c t); [lia|]. simpl. auto.
Qed.

(** C101.  INSEM_data: one sequence; at each time t from 0 on, as many events of type 0 as drawn, and as many of type 1 as of
    these were kept, plus those drawn independently.  It raises exactly if there is no event at all. *)
Theorem C101_insem : forall size x e b,
  (forall df, insem_data size x e b = Ok df ->
     (forall r, In r df -> ev_seq r = 0 /\ (exists t, t < size /\ ev_time r = moment t) /\ (ev_type r = 0 \/ ev_type r = 1))
     /\ forall t, t < size ->
          how_many (at_time ev_time 0 (moment t) 0) df = x t
          /\ how_many (at_time ev_time 0 (moment t) 1) df = list_sum (map (b t) (seq 0 (x t))) + e t)
  /\ ((exists t, t < size /\ 0 < x t + e t) -> exists df, insem_data size x e b = Ok df)
  /\ ((forall t, t < size -> x t + e t = 0) -> insem_data size x e b = Err ValueError).
Proof.
  intros size x e b. unfold insem_data. set (y := insem_y x e b). split; [|split].
  - intros df H. assert (df = insem_rows size x 0 ++ insem_rows size y 1) as -> by (destruct (insem_rows size x 0 ++ insem_rows size y 1); [discriminate|inversion H; auto]). split.
    + intros r Hr. apply in_app_or in Hr. destruct Hr as [Hr|Hr]; apply insem_in in Hr; destruct Hr as [t [Ht [-> _]]]; cbn [ev_seq ev_time ev_type]; (split; [auto|]; split; [exists t; auto|auto]).
    + intros t Ht. assert (forall (p : event -> bool) l r, how_many p (l ++ r) = how_many p l + how_many p r) as HA by (intros; unfold how_many; rewrite filter_app; apply app_length). rewrite !HA, !(insem_count size) by auto. cbn [Nat.eqb]. split; [lia|reflexivity].
  - intros [t [Ht C]]. assert (In (Ev 0 (moment t) 0) (insem_rows size x 0) \/ In (Ev 0 (moment t) 1) (insem_rows size y 1)) as I.
    { rewrite !insem_in. destruct (x t) eqn:E; [right|left]; exists t; split; auto; split; auto; [unfold y, insem_y|]; lia. }
    destruct (insem_rows size x 0 ++ insem_rows size y 1) eqn:E; [|eauto]. apply app_eq_nil in E. destruct E as [E1 E2]. rewrite E1, E2 in I. destruct I as [[]|[]].
  - intros Z. destruct (insem_rows size x 0 ++ insem_rows size y 1) as [|r l] eqn:E; auto. exfalso. assert (In r (insem_rows size x 0 ++ insem_rows size y 1)) as I by (rewrite E; simpl; auto).
    apply in_app_or in I. destruct I as [I|I]; apply insem_in in I; destruct I as [t [Ht [_ C]]]; specialize (Z t Ht); [lia|]. unfold y, insem_y in C. assert (x t = 0) as X by lia. rewrite X in C. cbn in C. lia.
Qed.
Print Assumptions C101_insem.

(** Cases: two sequences, two types and an interval of 1; three types with all pairs; two samples. *)
Example C101_example :
  (exists table events, artificial_data 2 2 (fun s y => match s, y with 0, 0 => [Q2Qc (3 # 2); Q2Qc 2] | 1, 0 => [Q2Qc (1 # 2)] | _, 1 => [Q2Qc (5 # 2)] | _, _ => [] end) (Some 1%Qc) = Ok (table, events)
     /\ map ev_seq table = [0; 0; 0; 1; 1] /\ map ev_type table = [0; 0; 1; 0; 1] /\ map (fun e => this (ev_time e)) table = [1; 2; 2; 0; 2]%Q
     /\ map (map (map this)) events = [[[1; 2]; [2]]; [[0]; [2]]]%Q)
  /\ hawkes_kernels 3 (hawkes_alpha (hawkes_edges 3 [(1, 2); (0, 2); (0, 1)] 2) (fun _ _ => Q2Qc 7)) = [(2, 0, Q2Qc 7); (2, 1, Q2Qc 7)]
  /\ Permutation [(1, 2); (0, 2); (0, 1)] (hawkes_pairs 3)
  /\ (exists df, insem_data 2 (fun t => match t with 0 => 2 | _ => 0 end) (fun t => t) (fun _ k => match k with 0 => 0 | _ => 1 end) = Ok df
        /\ map ev_type df = [0; 0; 1; 1] /\ map (fun e => this (ev_time e)) df = [0; 0; 0; 1]%Q)
  /\ insem_data 5 (fun _ => 0) (fun _ => 0) (fun _ _ => 1) = Err ValueError.
Proof.
  split; [eexists; eexists; split; [reflexivity|]; vm_compute; auto|]. split.
  { assert (forall a b : Qc, Qeq a b -> a = b) as QE by (intros; apply Qc_is_canon; auto). vm_compute. repeat f_equal. }
  split; [|split; [eexists; split; [reflexivity|]; vm_compute; auto|reflexivity]].
  apply NoDup_Permutation.
  - repeat constructor; simpl; intuition discriminate.
  - unfold hawkes_pairs. apply NoDup_filter. vm_compute. repeat constructor; simpl; intuition discriminate.
  - intros [a b]. vm_compute. intuition.
Qed.
