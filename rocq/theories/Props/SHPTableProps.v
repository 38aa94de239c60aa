(** C99: the tables that SHP prepares from the events. *)

From Coq Require Import List Arith Bool ZArith QArith Qcanon Reals Qreals Lra Lia Permutation Sorted.
From Verif Require Import Model.Py Model.SHPTable Spec.EventSpec Proofs.SHPTableFacts.
Import ListNotations.
Open Scope nat_scope.

Lemma calendar_stamp : forall grid evs stamp f g, calendar grid evs stamp f g ->
  (forall e, In e evs -> stamp e = stamp_of grid e)
  /\ (forall s, occurs evs s -> first_time evs (stamp_of grid) s (f s)) /\ (forall s, occurs evs s -> last_time evs (stamp_of grid) s (g s)).
Proof.
  intros grid evs stamp f g [D [S [F L]]].
  assert (forall e, In e evs -> stamp e = stamp_of grid e) as K.
  { intros e He. apply (stamped_unique grid (ev_time e)); auto. pose proof (stamped_of grid (ev_time e) D (ev_type e) (ev_seq e)) as Q. destruct e. exact Q. }
  split; auto. split; intros s O; [apply (first_time_ext evs stamp)|apply (last_time_ext evs stamp)]; auto.
Qed.

Section Props.
  Variables (ks kt ky : kind) (evs : list event) (decay : R) (dt : option (Qc * kind)) (init : option (list (list Z))) (pen : bool) (P : prepared).
  Variables (stamp : event -> Qc) (f g : nat -> Qc).
  Hypothesis cal : calendar (option_map fst dt) evs stamp f g.
  Hypothesis run : shp_init ks kt ky evs decay dt init pen = Ok P.

  Let K := calendar_stamp _ _ _ _ _ cal.

  Lemma run_names : p_names P = unique (map ev_type evs).
  Proof using run. destruct (shp_ok _ _ _ _ _ _ _ _ _ run) as [_ [-> _]]. apply names_of. Qed.
  Lemma run_table : p_table P = table_of evs (stamp_of (option_map fst dt)) f g.
  Proof using K run. destruct (shp_ok _ _ _ _ _ _ _ _ _ run) as [-> _]. apply table_is; apply K. Qed.
  Lemma run_X : p_X P = X_rows (length (unique (map ev_type evs))) (table_of evs (stamp_of (option_map fst dt)) f g).
  Proof using K run.
    destruct (shp_ok _ _ _ _ _ _ _ _ _ run) as [_ [_ [_ [-> _]]]]. rewrite names_of. f_equal. apply table_is; apply K.
  Qed.
  Lemma same_count : forall s u y, how_many (at_time stamp s u y) evs = how_many (at_time (stamp_of (option_map fst dt)) s u y) evs.
  Proof using K.
    intros s u y. apply INR_eq. rewrite <- !total_how_many. apply total_ext. intros e He. unfold at_time. destruct K as [E _]. rewrite (E e He). auto.
  Qed.

  Lemma names_spec : StronglySorted lt (p_names P) /\ (forall y, In y (p_names P) <-> exists e, In e evs /\ ev_type e = y).
  Proof using run.
    rewrite run_names. destruct (unique_spec (map ev_type evs)) as [S I]. split; auto. intro y. rewrite I, in_map_iff. split; intros [e [A B]]; eauto.
  Qed.

  Lemma table_spec : StronglySorted row_before (p_table P)
    /\ (forall e, In e evs -> exists r, In r (p_table P) /\ r_seq r = ev_seq e /\ (r_time r = stamp e - f (ev_seq e))%Qc /\ r_type r = ev_type e)
    /\ (forall r, In r (p_table P) -> exists u, (r_time r = u - f (r_seq r))%Qc /\ 0 < r_times r
          /\ r_times r = how_many (at_time stamp (r_seq r) u (r_type r)) evs
          /\ nth_error (p_names P) (r_ind r) = Some (r_type r) /\ (r_max r = g (r_seq r) - f (r_seq r))%Qc).
  Proof using K run.
    rewrite run_table, run_names. destruct K as [ES _]. split; [|split].
    - unfold table_of. destruct (groupby_spec (map (key_of (stamp_of (option_map fst dt))) evs)) as [S _]. revert S.
      generalize (groupby_count (map (key_of (stamp_of (option_map fst dt))) evs)). intro l. revert l.
      assert (forall l, StronglySorted klt (map fst l) -> StronglySorted (fun a b : key * nat => klt (fst a) (fst b)) l) as Q.
      { induction l as [|a l IH]; intro S; cbn [map] in S; inversion_clear S as [|? ? S1 F]; constructor; auto. apply Forall_forall. intros b Hb.
        rewrite Forall_forall in F. apply F. apply in_map. auto. }
      intros l S. apply (sorted_map _ _ _ (fun a b : key * nat => klt (fst a) (fst b))); auto. intros [[[s t] y] c] [[[s' t'] y'] c'] _ _. unfold klt, row_before. simpl.
      intros [L|[-> [L|[-> L]]]]; auto. right. split; auto. left. apply Qcminus_lt. auto.
    - intros e He. destruct (occurs_counted evs (option_map fst dt) e He) as [c Hc]. rewrite (ES e He). eexists. split; [apply in_map; exact Hc|]. cbn. auto.
    - intros r Hr. apply in_map_iff in Hr. destruct Hr as [[[[s t] y] c] [<- Hk]]. cbn. exists t. split; auto. pose proof (groupby_count_of _ _ _ Hk) as C.
      apply counted_occurs in Hk. destruct Hk as [e [He [E1 [E2 E3]]]].
      assert (c = how_many (at_time stamp s t y) evs) as EC.
      { rewrite same_count, C. apply INR_eq. rewrite <- !total_how_many, total_map. apply total_ext. intros e' He'. unfold at_time, key_of, kc_eqb.
        rewrite (Nat.eqb_sym s), (Nat.eqb_sym y). unfold same. destruct (Qc_eq_dec t (stamp_of (option_map fst dt) e')); destruct (Qc_eq_dec (stamp_of (option_map fst dt) e') t); auto; congruence. }
      split; [|split; [exact EC|split; auto]].
      + rewrite EC. unfold how_many. assert (In e (filter (at_time stamp s t y) evs)) as X.
        { apply filter_In. split; auto. unfold at_time, same. rewrite (ES e He), E1, E2, E3, !Nat.eqb_refl. destruct (Qc_eq_dec t t); auto. }
        destruct (filter (at_time stamp s t y) evs); [destruct X|simpl; lia].
      + assert (In y (unique (map ev_type evs))) as I by (apply unique_spec, in_map_iff; eauto). destruct (code_nth _ y 0 I) as [N L].
        rewrite (nth_error_nth' _ 0 L), N. auto.
  Qed.

  Lemma X_spec : StronglySorted earlier (map fst (p_X P))
    /\ (forall s t, In (s, t) (map fst (p_X P)) <-> exists e, In e evs /\ ev_seq e = s /\ (stamp e - f s)%Qc = t)
    /\ (forall s u row, In ((s, u - f s)%Qc, row) (p_X P) -> length row = length (p_names P)
          /\ forall j, j < length (p_names P) -> nth j row 0 = how_many (at_time stamp s u (nth j (p_names P) 0)) evs).
  Proof using K run.
    rewrite run_X, run_names. destruct K as [ES _]. split; [apply X_sorted|]. split.
    - intros s t. rewrite X_keys. split; intros [e [He [E1 E2]]]; exists e; (split; [auto|split; auto]); [rewrite ES by auto|rewrite <- ES by auto]; auto.
    - intros s u row H. split; [apply (X_lengths _ _ _ _ _ _ H)|]. intros j L. rewrite same_count. apply (X_entry evs (option_map fst dt) f g s u row j H L).
  Qed.

  Lemma S_spec : forall r s u j, nth_error (map fst (p_X P)) r = Some (s, u - f s)%Qc -> j < length (p_names P) ->
    p_S P r j = total evs (fun e => if Nat.eqb (ev_seq e) s && Nat.eqb (ev_type e) (nth j (p_names P) 0%nat) then felt decay u (stamp e) else 0%R).
  Proof using K run.
    intros r s u j E L. destruct (shp_ok _ _ _ _ _ _ _ _ _ run) as [_ [_ [_ [_ [-> _]]]]]. rewrite run_names in *. rewrite run_X in *.
    rewrite (S_entry evs (option_map fst dt) f g decay r s u j E L). apply total_ext. intros e He. destruct K as [ES _]. rewrite (ES e He). auto.
  Qed.

  Lemma D_spec : decay <> 0%R -> length (p_D P) = length (p_X P) /\ forall r s u j d v, nth_error (map fst (p_X P)) r = Some (s, u - f s)%Qc -> j < length (p_names P) ->
    nth_error (p_D P) r = Some d -> accumulated decay u (g s) v -> d j = (INR (how_many (at_time stamp s u (nth j (p_names P) 0%nat)) evs) * v)%R.
  Proof using K run.
    intro ND. destruct (shp_ok _ _ _ _ _ _ _ _ _ run) as [E0 [_ [_ [_ [_ ED]]]]]. cbn zeta in ED. rewrite <- E0 in ED. rewrite ED. unfold decay_effect_integral_to_T. split; [apply map_length|].
    intros r s u j d v E L Hd A. rewrite nth_error_map in E, Hd. destruct (nth_error (p_X P) r) as [[[s' t] row]|] eqn:EX; [|discriminate]. cbn [option_map fst] in E, Hd.
    pose proof (f_equal (fun o => match o with Some k => k | None => (s, u - f s)%Qc end) E) as E'. cbn beta iota in E'. clear E.
    pose proof (f_equal fst E') as Es. pose proof (f_equal snd E') as Et. cbn [fst snd] in Es, Et. subst s' t. clear E'.
    pose proof (f_equal (fun o => match o with Some k => k j | None => 0%R end) Hd) as Hd'. cbn beta iota in Hd'. rewrite <- Hd'. clear Hd Hd'.
    apply nth_error_In in EX. destruct X_spec as [_ [XK XE]].
    destruct (proj1 (XK s (u - f s)%Qc)) as [e [He [Es Et]]]; [apply (in_map fst) in EX; auto|].
    assert (stamp e = u) as Eu by (replace u with (u - f s + f s)%Qc by ring; rewrite <- Et; ring).
    destruct (XE s u row EX) as [_ XN]. rewrite (XN j L).
    assert (occurs evs s) as O by (exists e; auto). rewrite run_table. rewrite (T_each_is evs (option_map fst dt) f g (proj2 (proj2 K)) s O).
    apply f_equal. destruct K as [ES [_ LT]]. apply (accumulated_unique decay u (g s)); auto.
    - destruct (LT s O) as [_ M]. rewrite <- Eu, (ES e He). apply M; auto.
    - unfold Qc2R. rewrite !q2r_minus. replace (Q2R (g s) - Q2R (f s) - (Q2R u - Q2R (f s)))%R with (Q2R (g s) - Q2R u)%R by ring. apply accumulated_is. auto.
  Qed.

  Lemma T_spec : forall ids, NoDup ids -> (forall s, In s ids <-> occurs evs s) -> p_T P = fold_right Qcplus 0%Qc (map (fun s => g s - f s)%Qc ids).
  Proof using K run.
    intros ids N I. destruct (shp_ok _ _ _ _ _ _ _ _ _ run) as [E0 [_ [ET _]]]. cbn zeta in ET. rewrite <- E0 in ET. rewrite ET. unfold T_total. rewrite run_table, seqs_is.
    destruct (unique_spec (map ev_seq evs)) as [S U]. pose proof (sorted_nodup lt Nat.lt_irrefl _ S) as N'.
    assert (forall s, In s (unique (map ev_seq evs)) <-> occurs evs s) as U' by (intro s; rewrite U, in_map_iff; split; intros [e [A B]]; exists e; auto).
    rewrite (map_ext_in _ (fun s => g s - f s)%Qc); [|intros s Hs; apply (T_each_is evs (option_map fst dt) f g (proj2 (proj2 K))); apply U'; auto].
    assert (Permutation (unique (map ev_seq evs)) ids) as PP by (apply NoDup_Permutation; auto; intro s; rewrite U', I; tauto).
    clear - PP. induction PP; cbn [map fold_right]; auto; [rewrite IHPP; auto|ring|congruence].
  Qed.
End Props.

(** C99.  The table of the object: a row for each sequence, time and type that occurs, in this order, with the time counted
    from the first event of the sequence, the number of events, the position of the type in the sorted list of types and the
    length of the sequence. *)
Theorem C99_table : forall ks kt ky evs decay dt init pen P stamp f g, calendar (option_map fst dt) evs stamp f g ->
  shp_init ks kt ky evs decay dt init pen = Ok P ->
  StronglySorted lt (p_names P) /\ (forall y, In y (p_names P) <-> exists e, In e evs /\ ev_type e = y)
  /\ StronglySorted row_before (p_table P)
  /\ (forall e, In e evs -> exists r, In r (p_table P) /\ r_seq r = ev_seq e /\ (r_time r = stamp e - f (ev_seq e))%Qc /\ r_type r = ev_type e)
  /\ (forall r, In r (p_table P) -> exists u, (r_time r = u - f (r_seq r))%Qc /\ 0 < r_times r
        /\ r_times r = how_many (at_time stamp (r_seq r) u (r_type r)) evs
        /\ nth_error (p_names P) (r_ind r) = Some (r_type r) /\ (r_max r = g (r_seq r) - f (r_seq r))%Qc).
Proof.
  intros ks kt ky evs decay dt init pen P stamp f g C R. destruct (names_spec ks kt ky evs decay dt init pen P R) as [A B]. split; auto. split; auto.
  apply (table_spec ks kt ky evs decay dt init pen P stamp f g C R).
Qed.
Print Assumptions C99_table.

(** C99.  The matrix X: a row for each sequence and time at which there are events, in this order; in its columns the numbers
    of events of each type. *)
Theorem C99_counts : forall ks kt ky evs decay dt init pen P stamp f g, calendar (option_map fst dt) evs stamp f g ->
  shp_init ks kt ky evs decay dt init pen = Ok P ->
  StronglySorted earlier (map fst (p_X P))
  /\ (forall s t, In (s, t) (map fst (p_X P)) <-> exists e, In e evs /\ ev_seq e = s /\ (stamp e - f s)%Qc = t)
  /\ (forall s u row, In ((s, u - f s)%Qc, row) (p_X P) -> length row = length (p_names P)
        /\ forall j, j < length (p_names P) -> nth j row 0 = how_many (at_time stamp s u (nth j (p_names P) 0)) evs).
Proof. exact X_spec. Qed.
Print Assumptions C99_counts.

(** C99.  What the events of a type have left at the time of row r of X: the sum, over all events of this type in the same
    sequence that are not later, those at the same time included, of the decayed effect, without those below 1/10000. *)
Theorem C99_influence : forall ks kt ky evs decay dt init pen P stamp f g, calendar (option_map fst dt) evs stamp f g ->
  shp_init ks kt ky evs decay dt init pen = Ok P ->
  forall r s u j, nth_error (map fst (p_X P)) r = Some (s, u - f s)%Qc -> j < length (p_names P) ->
  p_S P r j = total evs (fun e => if Nat.eqb (ev_seq e) s && Nat.eqb (ev_type e) (nth j (p_names P) 0%nat) then felt decay u (stamp e) else 0%R).
Proof. exact S_spec. Qed.
Print Assumptions C99_influence.

(** C99.  The integrals: for each row of X and each type, the number of events times the integral of the decaying effect to
    the end of the sequence. *)
Theorem C99_integral : forall ks kt ky evs decay dt init pen P stamp f g, calendar (option_map fst dt) evs stamp f g ->
  shp_init ks kt ky evs decay dt init pen = Ok P -> decay <> 0%R ->
  length (p_D P) = length (p_X P)
  /\ forall r s u j d v, nth_error (map fst (p_X P)) r = Some (s, u - f s)%Qc -> j < length (p_names P) ->
       nth_error (p_D P) r = Some d -> accumulated decay u (g s) v -> d j = (INR (how_many (at_time stamp s u (nth j (p_names P) 0%nat)) evs) * v)%R.
Proof. exact D_spec. Qed.
Print Assumptions C99_integral.

(** C99.  The total time: the sum over the sequences of the time from the first event to the last. *)
Theorem C99_span : forall ks kt ky evs decay dt init pen P stamp f g, calendar (option_map fst dt) evs stamp f g ->
  shp_init ks kt ky evs decay dt init pen = Ok P ->
  forall ids, NoDup ids -> (forall s, In s ids <-> occurs evs s) -> p_T P = fold_right Qcplus 0%Qc (map (fun s => g s - f s)%Qc ids).
Proof. exact T_spec. Qed.
Print Assumptions C99_span.

(** A calendar always exists, so the theorems above speak about every table. *)
Theorem C99_calendar : forall grid evs, (forall d, grid = Some d -> 0 < d)%Qc -> exists stamp f g, calendar grid evs stamp f g.
Proof.
  intros grid evs D. destruct (firsts evs (stamp_of grid)) as [f Hf]. destruct (lasts evs (stamp_of grid)) as [g Hg].
  exists (stamp_of grid), f, g. split; auto. split; auto. intros [s t y] _. apply stamped_of. auto.
Qed.
Print Assumptions C99_calendar.

(** C99.  The order of the rows of the table of events has no effect. *)
Theorem C99_order : forall ks kt ky evs evs' decay dt init pen, Permutation evs evs' ->
  shp_init ks kt ky evs decay dt init pen = shp_init ks kt ky evs' decay dt init pen.
Proof. intros. apply shp_same_table; apply reordered; auto. Qed.
Print Assumptions C99_order.

(** C99.  Without an interval, starting the clock of each sequence at another time has no effect ... *)
Theorem C99_clock : forall ks kt ky evs decay init pen (c : nat -> Qc),
  shp_init ks kt ky (map (fun e => Ev (ev_seq e) (ev_time e + c (ev_seq e))%Qc (ev_type e)) evs) decay None init pen
  = shp_init ks kt ky evs decay None init pen.
Proof. intros. apply shp_same_table; apply (moved None evs _ c); intros e He; cbn; auto. Qed.
Print Assumptions C99_clock.

(** ... and with an interval neither, if the clock is moved by multiples of the interval and no time is negative ... *)
Theorem C99_clock_grid : forall ks kt ky evs decay d k init pen (c : nat -> Z), (0 < d)%Qc ->
  (forall e, In e evs -> 0 <= ev_time e /\ 0 <= ev_time e + Q2Qc (inject_Z (c (ev_seq e))) * d)%Qc ->
  shp_init ks kt ky (map (fun e => Ev (ev_seq e) (ev_time e + Q2Qc (inject_Z (c (ev_seq e))) * d)%Qc (ev_type e)) evs) decay (Some (d, k)) init pen
  = shp_init ks kt ky evs decay (Some (d, k)) init pen.
Proof.
  intros ks kt ky evs decay d k init pen c D H. apply shp_same_table; apply (moved (Some d) evs _ (fun s => Q2Qc (inject_Z (c s)) * d)%Qc); intros e He; (split; [auto|split; [auto|]]);
    cbn [stamp_of ev_time ev_seq]; destruct (H e He) as [H1 H2]; apply (on_grid_unique d (ev_time e + Q2Qc (inject_Z (c (ev_seq e))) * d)%Qc); auto using binned_on_grid;
    destruct (binned_on_grid d (ev_time e) D) as [[m ->] [Q _]]; destruct (Q H1) as [Q1 Q2]; clear Q; (split; [exists (m + c (ev_seq e))%Z|split]).
  1, 4: apply q2r_inj; rewrite q2r_plus, !q2r_mult, !q2r_int, plus_IZR; ring.
  1, 3: intros _; rewrite !q2r_le, !q2r_lt, !q2r_plus, !q2r_mult, !q2r_int in *; lra.
  all: intro H3; rewrite !q2r_le, !q2r_lt, q2r_minus, !q2r_plus, !q2r_mult, !q2r_int, ?q2r_0 in *;
    assert (IZR m * Q2R d + IZR (c (ev_seq e)) * Q2R d = 0)%R as Z; [|lra];
    assert (IZR (m + c (ev_seq e)) < 1 /\ -1 < IZR (m + c (ev_seq e)))%R as [Z1 Z2] by (rewrite plus_IZR; split; apply (Rmult_lt_reg_r (Q2R d)); lra);
    apply lt_IZR in Z1; apply lt_IZR in Z2; assert (m + c (ev_seq e) = 0)%Z as Z by lia; rewrite <- Rmult_plus_distr_r, <- plus_IZR, Z; ring.
Qed.
Print Assumptions C99_clock_grid.

(** ... but not in general: [astype('int')] cuts off towards 0, so that 5 before and 5 after 0 fall into one interval of
    length 10, while 5 and 15 do not. *)
Theorem C99_clock_refuted : exists evs d (c : Z) P P', (0 < d)%Qc
  /\ shp_init Ints Ints Ints evs 1 (Some (d, Ints)) None true = Ok P
  /\ shp_init Ints Ints Ints (map (fun e => Ev (ev_seq e) (ev_time e + Q2Qc (inject_Z c) * d)%Qc (ev_type e)) evs) 1 (Some (d, Ints)) None true = Ok P'
  /\ length (p_X P) = 1 /\ length (p_X P') = 2.
Proof.
  exists [Ev 0 (Q2Qc (-5)) 0; Ev 0 (Q2Qc 5) 1], (Q2Qc 10), 1%Z. eexists. eexists. split; [reflexivity|].
  unfold shp_init. destruct (Qc_eq_dec (Q2Qc 10) 0) as [E|_]; [discriminate E|]. cbn [rbind option_map fst get_event_table].
  split; [reflexivity|]. split; [reflexivity|]. cbn [p_X]. split; vm_compute; reflexivity.
Qed.
Print Assumptions C99_clock_refuted.

(** C99.  When the constructor raises: for an interval of 0; for an unknown penalty; for an initial structure with entries
    other than 0 and 1; and, whatever the events are, if the ids of the sequences and the types are numbers and the times
    (or the interval) are floats, because the positions of the types are then floats, too, and no index of a list. *)
Theorem C99_raises : forall ks kt ky evs decay dt init pen,
  (forall k, dt = Some (0%Qc, k) -> shp_init ks kt ky evs decay dt init pen = Err ValueError)
  /\ ((forall d k, dt = Some (d, k) -> d <> 0%Qc) ->
      (pen = false -> shp_init ks kt ky evs decay dt init pen = Err PyException)
      /\ (pen = true -> forall m, init = Some m ->
            (exists row x, In row m /\ In x row /\ x <> 0%Z /\ x <> 1%Z) -> shp_init ks kt ky evs decay dt init pen = Err ValueError)
      /\ (pen = true -> (forall m row x, init = Some m -> In row m -> In x row -> x = 0%Z \/ x = 1%Z) ->
            ((ks <> Objects /\ ky <> Objects /\ (dt = None /\ kt = Floats \/ exists d, dt = Some (d, Floats)) -> shp_init ks kt ky evs decay dt init pen = Err TypeError)
             /\ ((ks = Objects \/ ky = Objects \/ ks = Ints /\ ky = Ints /\ (dt = None /\ kt = Ints \/ exists d, dt = Some (d, Ints))) ->
                 exists P, shp_init ks kt ky evs decay dt init pen = Ok P
                   /\ (forall m, init = Some m -> p_init P = m)
                   /\ (init = None -> p_init P = repeat (repeat 0%Z (length (p_names P))) (length (p_names P))))))).
Proof.
  intros ks kt ky evs decay dt init pen. split.
  { intros k ->. unfold shp_init. destruct (Qc_eq_dec 0 0) as [_|N]; [reflexivity|contradiction]. }
  intro H. unfold shp_init.
  assert (match dt with Some (d, _) => if Qc_eq_dec d 0 then Err ValueError else Ok tt | None => Ok tt end = Ok tt) as ->.
  { destruct dt as [[d k]|]; auto. destruct (Qc_eq_dec d 0) as [E|_]; auto. exfalso. exact (H d k eq_refl E). }
  cbn [rbind]. destruct (get_event_table (option_map fst dt) evs) as [table names]. split; [intros ->; reflexivity|]. split.
  - intros -> m -> [row [x [H1 [H2 [H3 H4]]]]]. cbn [rbind].
    assert (forallb (forallb (fun x => Z.eqb x 0 || Z.eqb x 1)) m = false) as ->; [|reflexivity].
    destruct (forallb (forallb (fun x => Z.eqb x 0 || Z.eqb x 1)) m) eqn:E; auto. exfalso. rewrite forallb_forall in E. specialize (E row H1). rewrite forallb_forall in E.
    specialize (E x H2). apply orb_true_iff in E. rewrite !Z.eqb_eq in E. tauto.
  - intros -> Hi. cbn [rbind].
    assert (exists m, match init with None => Ok (repeat (repeat 0%Z (length names)) (length names))
              | Some m => if forallb (forallb (fun x => Z.eqb x 0 || Z.eqb x 1)) m then Ok m else Err ValueError end = Ok m
            /\ (forall m', init = Some m' -> m = m') /\ (init = None -> m = repeat (repeat 0%Z (length names)) (length names))) as [m [-> [M1 M2]]].
    { destruct init as [m|]; [|eexists; split; [reflexivity|split; [discriminate|auto]]]. exists m. split; [|split; [congruence|discriminate]].
      assert (forallb (forallb (fun x => Z.eqb x 0 || Z.eqb x 1)) m = true) as ->; auto. apply forallb_forall. intros row H1. apply forallb_forall. intros x H2.
      apply orb_true_iff. rewrite !Z.eqb_eq. eapply Hi; eauto. }
    cbn [rbind]. split.
    + intros [N1 [N2 [[-> ->]|[d ->]]]]; destruct ks, ky; try contradiction; reflexivity.
    + intro Hk. assert (values_kind ks kt ky dt <> Floats) as V.
      { destruct Hk as [Hk|[Hk|[Hk1 [Hk2 [[Hk3 Hk4]|[d Hk3]]]]]]; subst; try discriminate. unfold values_kind. destruct ks; try discriminate. }
      destruct (values_kind ks kt ky dt); try contradiction; eexists; (split; [reflexivity|]); cbn [p_init p_names]; auto.
Qed.
Print Assumptions C99_raises.

(** C99.  get_interval_events writes the times on the grid into the caller's table, and returns, for each sequence in the
    order of first occurrence and for each type in order, the times of these events in the order of the table. *)
Theorem C99_interval_events : forall d evs stamp, (0 < d)%Qc -> (forall e, In e evs -> on_grid d (ev_time e) (stamp e)) ->
  exists ids names, in_order_of_occurrence ids evs /\ StronglySorted lt names /\ (forall y, In y names <-> exists e, In e evs /\ ev_type e = y)
    /\ get_interval_events d evs
       = (map (fun e => Ev (ev_seq e) (stamp e) (ev_type e)) evs,
          map (fun s => map (fun y => map stamp (filter (fun e => Nat.eqb (ev_type e) y && Nat.eqb (ev_seq e) s) evs)) names) ids).
Proof.
  intros d evs stamp D H.
  assert (map (fun e => Ev (ev_seq e) (binned d (ev_time e)) (ev_type e)) evs = map (fun e => Ev (ev_seq e) (stamp e) (ev_type e)) evs) as ET.
  { apply map_ext_in. intros e He. rewrite (on_grid_unique d (ev_time e) (binned d (ev_time e)) (stamp e)); auto using binned_on_grid. }
  set (ids := fold_left (fun seen j => if existsb (Nat.eqb j) seen then seen else seen ++ [j]) (map ev_seq evs) []).
  exists ids, (unique (map ev_type evs)). split; [|split; [|split]].
  - unfold ids. clear. set (F := fun (l : list event) => fold_left (fun seen j => if existsb (Nat.eqb j) seen then seen else seen ++ [j]) (map ev_seq l) []).
    change (in_order_of_occurrence (F evs) evs).
    assert (forall l e, F (l ++ [e]) = if existsb (Nat.eqb (ev_seq e)) (F l) then F l else F l ++ [ev_seq e]) as FS by (intros l e; unfold F; rewrite map_app, fold_left_app; auto).
    assert (forall l s, existsb (Nat.eqb s) l = true <-> In s l) as EX.
    { intros l s. rewrite existsb_exists. split; [intros [x [Hx E]]; apply Nat.eqb_eq in E; subst; auto|intro Hs; exists s; split; auto; apply Nat.eqb_refl]. }
    assert (forall l s, In s (F l) <-> occurs l s) as M.
    { induction l as [|e l IH] using rev_ind; intro s; [split; [intros []|intros [e [[] _]]]|]. rewrite FS.
      assert (occurs (l ++ [e]) s <-> occurs l s \/ s = ev_seq e) as ->.
      { split; [intros [x [Hx E]]; apply in_app_or in Hx; destruct Hx as [Hx|[<-|[]]]; [left; exists x|right]; auto|
                intros [[x [Hx E]]| ->]; [exists x|exists e]; split; auto; apply in_or_app; simpl; auto]. }
      rewrite <- IH. destruct (existsb (Nat.eqb (ev_seq e)) (F l)) eqn:E; [apply EX in E; split; auto; intros [| ->]; auto|]. rewrite in_app_iff. simpl. intuition. }
    split; auto. intros l1 e l2 -> N. revert N. induction l2 as [|e2 l2 IH] using rev_ind; intro N.
    + exists (F l1), []. rewrite FS. destruct (existsb (Nat.eqb (ev_seq e)) (F l1)) eqn:E; [apply EX, M in E; contradiction|]. split; auto. split; [rewrite M; auto|]. split; [simpl; auto|apply M].
    + destruct (IH N) as [i1 [i2 [E [N1 [N2 O]]]]]. replace (l1 ++ e :: l2 ++ [e2]) with ((l1 ++ e :: l2) ++ [e2]) by (rewrite <- app_assoc; auto). rewrite FS.
      destruct (existsb (Nat.eqb (ev_seq e2)) (F (l1 ++ e :: l2))) eqn:Q; [exists i1, i2; auto|]. exists i1, (i2 ++ [ev_seq e2]). rewrite E, <- app_assoc. split; auto. split; auto. split; auto.
      intro Hi. apply in_app_or in Hi. destruct Hi as [Hi|[Hi|[]]]; auto. rewrite <- Bool.not_true_iff_false, EX, E, in_app_iff in Q. apply Q. simpl. auto.
  - apply unique_spec.
  - intro y. etransitivity; [apply unique_spec|]. rewrite in_map_iff. split; intros [e [A B]]; eauto.
  - unfold get_interval_events. rewrite ET. rewrite !map_map. cbn [ev_type ev_seq]. f_equal. fold ids. apply map_ext. intro s. apply map_ext. intro y.
    clear. induction evs as [|e l IH]; auto. cbn [map filter ev_type ev_seq]. destruct (Nat.eqb (ev_type e) y && Nat.eqb (ev_seq e) s); cbn [map ev_time]; rewrite ?IH; auto.
Qed.
Print Assumptions C99_interval_events.

Lemma same_rows : forall l r : list ((nat * Qc) * list nat),
  map (fun kr => (fst (fst kr), this (snd (fst kr)), snd kr)) l = map (fun kr => (fst (fst kr), this (snd (fst kr)), snd kr)) r -> l = r.
Proof.
  induction l as [|[[s t] row] l IH]; intros [|[[s' t'] row'] r] H; try discriminate; auto. cbn [map fst snd] in H.
  pose proof (f_equal (@tl _) H) as H2. pose proof (f_equal (hd (0, this 0%Qc, [])) H) as H1. cbn [tl hd] in H1, H2.
  pose proof (f_equal (fun x => fst (fst x)) H1) as A. pose proof (f_equal (fun x => snd (fst x)) H1) as B. pose proof (f_equal snd H1) as D. cbn [fst snd] in A, B, D.
  assert (t = t') as -> by (apply Qc_is_canon; rewrite B; apply Qeq_refl). subst. f_equal. apply IH. auto.
Qed.

(** Two sequences.  In the first, two events of type 7 and one of type 3 at time 1, and one of type 3 at time 3; in the
    second, one of type 3 at time 5 and one of type 7 at time 6.  With decay 1. *)
Definition example_events : list event :=
  [Ev 1 (Q2Qc 6) 7; Ev 0 (Q2Qc 1) 7; Ev 0 (Q2Qc 3) 3; Ev 1 (Q2Qc 5) 3; Ev 0 (Q2Qc 1) 7; Ev 0 (Q2Qc 1) 3].
Example C99_example : exists P,
  shp_init Ints Ints Ints example_events 1 None None true = Ok P
  /\ calendar None example_events ev_time (fun s => match s with 0 => Q2Qc 1 | _ => Q2Qc 5 end) (fun s => match s with 0 => Q2Qc 3 | _ => Q2Qc 6 end)
  /\ p_names P = [3; 7]
  /\ p_X P = [((0, Q2Qc 0), [1; 2]); ((0, Q2Qc 2), [1; 0]); ((1, Q2Qc 0), [1; 0]); ((1, Q2Qc 1), [0; 1])]
  /\ p_T P = Q2Qc 3
  /\ p_S P 0 1 = 2%R /\ p_S P 1 1 = (2 * exp (-2))%R /\ p_S P 1 0 = (1 + exp (-2))%R /\ p_S P 2 1 = 0%R
  /\ exists P', shp_init Ints Ints Ints example_events 1 (Some (Q2Qc 4, Ints)) None true = Ok P'
       /\ p_X P' = [((0, Q2Qc 0), [2; 2]); ((1, Q2Qc 0), [1; 1])].
Proof.
  assert (calendar None example_events ev_time (fun s => match s with 0 => Q2Qc 1 | _ => Q2Qc 5 end) (fun s => match s with 0 => Q2Qc 3 | _ => Q2Qc 6 end)) as C.
  { split; [discriminate|]. split; [intros; reflexivity|]. assert (forall s, occurs example_events s -> s = 0 \/ s = 1) as O.
    { intros s [e [He <-]]. simpl in He. repeat destruct He as [<-|He]; simpl; auto; destruct He. }
    split; intros s Os; apply O in Os; destruct Os as [Os|Os]; subst s; (split; [|intros e He; simpl in He; repeat destruct He as [<-|He]; simpl; intro; try discriminate; try contradiction; apply q2r_le; unfold Q2R; simpl; lra]).
    - exists (Ev 0 (Q2Qc 1) 7). simpl. auto 10.
    - exists (Ev 1 (Q2Qc 5) 3). simpl. auto 10.
    - exists (Ev 0 (Q2Qc 3) 3). simpl. auto 10.
    - exists (Ev 1 (Q2Qc 6) 7). simpl. auto 10. }
  destruct (proj2 (C99_raises Ints Ints Ints example_events 1 None None true)) as [_ [_ Q0]]; [discriminate|].
  destruct (Q0 eq_refl) as [_ Q1]; [discriminate|]. destruct Q1 as [P [E _]]; [auto 10|]. clear Q0.
  destruct (shp_ok _ _ _ _ _ _ _ _ _ E) as [_ [EN [ET [EX _]]]]. cbn zeta in EN, ET, EX. exists P. split; auto. split; auto.
  assert (p_names P = [3; 7]) as N by (rewrite EN; vm_compute; reflexivity).
  assert (p_X P = [((0, Q2Qc 0), [1; 2]); ((0, Q2Qc 2), [1; 0]); ((1, Q2Qc 0), [1; 0]); ((1, Q2Qc 1), [0; 1])]) as X.
  { apply same_rows. rewrite EX. vm_compute. reflexivity. }
  split; auto. split; auto.
  assert (forall a b : Qc, Qeq a b -> a = b) as QE by (intros; apply Qc_is_canon; auto).
  assert (1 / 10000 <= exp (-2))%R as B.
  { replace (-2)%R with (- (1 + 1))%R by ring. rewrite exp_Ropp, exp_plus. pose proof exp_le_3. pose proof (exp_pos 1). apply (Rmult_le_reg_r (exp 1 * exp 1)); [nra|]. rewrite Rinv_l by nra. nra. }
  assert (forall (a b : Qc) x, Q2R a - Q2R b = x -> 0 <= x -> 1 / 10000 <= exp (- x) -> felt 1 a b = exp (- x))%R as FE.
  { intros a b x Ex P0 P1. unfold felt. rewrite Ex. destruct (Qclt_le_dec a b) as [L|_]; [apply q2r_lt in L; lra|]. replace (1 * x)%R with x by ring. destruct (Rlt_dec (exp (- x)) (1 / 10000)); auto. lra. }
  assert (forall a b : Qc, Q2R a < Q2R b -> felt 1 a b = 0)%R as F0.
  { intros a b L. unfold felt. destruct (Qclt_le_dec a b) as [_|L']; auto. apply q2r_le in L'. lra. }
  assert (exp (- 0) = 1)%R as E0 by (rewrite Ropp_0; apply exp_0).
  assert (exp (- (2)) = exp (-2))%R as E2 by (f_equal; ring).
  assert (Q2R (Q2Qc 3) - Q2R (Q2Qc 1) = 2)%R as D31 by (unfold Q2R; simpl; lra). assert (Q2R (Q2Qc 5) < Q2R (Q2Qc 6))%R as L56 by (unfold Q2R; simpl; lra).
  pose proof (C99_influence Ints Ints Ints example_events 1 None None true P ev_time _ _ C E) as S. rewrite N, X in S. split; [apply QE; rewrite ET; vm_compute; reflexivity|].
  split; [|split; [|split; [|split]]].
  - rewrite (S 0 0 (Q2Qc 1) 1); [|cbn [map fst nth_error]; do 2 f_equal; apply QE; vm_compute; reflexivity|simpl; lia].
    cbn -[felt Q2Qc]. rewrite !(FE (Q2Qc 1) (Q2Qc 1) 0%R); try lra.
  - rewrite (S 1 0 (Q2Qc 3) 1); [|cbn [map fst nth_error]; do 2 f_equal; apply QE; vm_compute; reflexivity|simpl; lia].
    cbn -[felt Q2Qc]. rewrite !(FE (Q2Qc 3) (Q2Qc 1) 2%R); try lra.
  - rewrite (S 1 0 (Q2Qc 3) 0); [|cbn [map fst nth_error]; do 2 f_equal; apply QE; vm_compute; reflexivity|simpl; lia].
    cbn -[felt Q2Qc]. rewrite !(FE (Q2Qc 3) (Q2Qc 1) 2%R), !(FE (Q2Qc 3) (Q2Qc 3) 0%R); try lra.
  - rewrite (S 2 1 (Q2Qc 5) 1); [|cbn [map fst nth_error]; do 2 f_equal; apply QE; vm_compute; reflexivity|simpl; lia].
    cbn -[felt Q2Qc]. rewrite !(F0 (Q2Qc 5) (Q2Qc 6)); try lra.
  - destruct (proj2 (C99_raises Ints Ints Ints example_events 1 (Some (Q2Qc 4, Ints)) None true)) as [_ [_ Q0]].
    { intros d k Q. assert (d = Q2Qc 4) as -> by congruence. discriminate. }
    destruct (Q0 eq_refl) as [_ Q2]; [discriminate|]. destruct Q2 as [P' [E' _]]; [eauto 10|]. clear Q0.
    exists P'. split; auto. apply same_rows. destruct (shp_ok _ _ _ _ _ _ _ _ _ E') as [_ [_ [_ [EX' _]]]]. rewrite EX'. vm_compute. reflexivity.
Qed.
