(** C100: the estimation of the rates and strengths of a Hawkes process. *)

From Coq Require Import List Arith Bool ZArith QArith Qcanon Reals Qreals Lra Lia.
From Verif Require Import Model.Py Model.LocalScore Model.SHPTable Model.SHPEM Spec.Scores Spec.EventSpec Spec.HawkesSpec
  Proofs.PyFacts Proofs.BicFacts Proofs.PopulationFacts Proofs.EqualScales Proofs.SHPTableFacts Proofs.SHPEMFacts Props.SHPTableProps.
Import ListNotations.
Open Scope R_scope.

(** The number of events of type [y]. *)
Definition count_of (evs : list event) (y : nat) : R := INR (how_many (fun e => Nat.eqb (ev_type e) y) evs).
(** The sum over the events of type [y] of the integral of the unit effect to the end of the sequence. *)
Definition mass_to_end (evs : list event) (decay : R) (stamp : event -> Qc) (last : nat -> Qc) (y : nat) : R :=
  total evs (fun e => if Nat.eqb (ev_type e) y then (1 - exp (- decay * (Q2R (last (ev_seq e)) - Q2R (stamp e)))) / decay else 0).

Lemma sumRn_total : forall A (X : list A) (H : A -> R), sumRn (length X) (fun r => match nth_error X r with Some a => H a | None => 0 end) = total X H.
Proof.
  intros A X H. rewrite <- total_seq. unfold sumRn. induction (seq 0 (length X)) as [|r l IH]; auto. cbn [sumR]. rewrite IH. reflexivity.
Qed.
Lemma total_nonneg : forall A (l : list A) f, (forall a, In a l -> 0 <= f a) -> 0 <= total l f.
Proof. intros A l f H. induction l as [|a l IH]; [simpl; lra|]. unfold total in *. cbn [fold_right]. assert (0 <= f a) by (apply H; simpl; auto). assert (0 <= fold_right (fun a x => f a + x) 0 l) by (apply IH; intros; apply H; simpl; auto). lra. Qed.
Lemma total_pos : forall A (l : list A) f b, (forall a, In a l -> 0 <= f a) -> In b l -> 0 < f b -> 0 < total l f.
Proof.
  intros A l f b H. induction l as [|a l IH]; intros [] P; unfold total in *; cbn [fold_right].
  - subst a. assert (0 <= fold_right (fun a x => f a + x) 0 l) by (apply (total_nonneg A l f); intros; apply H; simpl; auto). lra.
  - assert (0 <= f a) by (apply H; simpl; auto). assert (0 < fold_right (fun a x => f a + x) 0 l) by (apply IH; auto; intros; apply H; simpl; auto). lra.
Qed.

Section Data.
  Variables (ks kt ky : kind) (evs : list event) (decay : R) (dt : option (Qc * kind)) (init : option (list (list Z))) (pen : bool) (P : prepared).
  Variables (stamp : event -> Qc) (f g : nat -> Qc).
  Hypothesis cal : calendar (option_map fst dt) evs stamp f g.
  Hypothesis run : shp_init ks kt ky evs decay dt init pen = Ok P.
  Let d := em_data_of P decay dt.
  Let name j := nth j (p_names P) 0%nat.

  Lemma key_stamp : forall s t, In (s, t) (map fst (p_X P)) -> exists u, t = (u - f s)%Qc /\ exists e, In e evs /\ ev_seq e = s /\ stamp e = u.
  Proof using cal run.
    intros s t H. destruct (X_spec _ _ _ _ _ _ _ _ _ _ _ _ cal run) as [_ [K _]]. apply K in H. destruct H as [e [He [E1 E2]]]. exists (stamp e). split; eauto.
  Qed.
  Lemma seen_total : forall j, (j < length (p_names P))%nat -> sumRn (e_rows d) (seen d j) = count_of evs (name j).
  Proof using cal run.
    intros j Hj. unfold d, em_data_of, seen. cbn [e_rows e_X].
    rewrite (sum_ext _ _ (fun r => match nth_error (p_X P) r with Some a => INR (nth j (snd a) 0%nat) * 1 | None => 0 end)).
    2: { intros r _. destruct (nth_error (p_X P) r) as [[k row]|]; cbn [snd]; ring. }
    rewrite (sumRn_total _ (p_X P) (fun a => INR (nth j (snd a) 0%nat) * 1)). rewrite (run_X _ _ _ _ _ _ _ _ _ _ _ _ cal run).
    unfold name in *. rewrite (run_names _ _ _ _ _ _ _ _ _ run) in *.
    rewrite (X_total evs (option_map fst dt) f g (fun _ => 1) j Hj). unfold count_of. rewrite <- total_how_many. auto.
  Qed.
  Lemma data_X : forall r j, 0 <= e_X d r j.
  Proof using. intros r j. unfold d, em_data_of. cbn [e_X]. destruct (nth_error (p_X P) r) as [[k row]|]; [apply pos_INR|lra]. Qed.
  Lemma data_S : forall r j, (r < e_rows d)%nat -> (j < e_n d)%nat -> 0 <= e_S d r j.
  Proof using cal run.
    unfold d, em_data_of. cbn [e_rows e_n e_S]. intros r j Hr Hj. destruct (nth_error (map fst (p_X P)) r) as [[s t]|] eqn:E.
    - destruct (key_stamp s t (nth_error_In _ _ E)) as [u [-> _]]. rewrite (S_spec _ _ _ _ _ _ _ _ _ _ _ _ cal run r s u j E Hj).
      apply total_nonneg. intros e _. destruct (Nat.eqb (ev_seq e) s && Nat.eqb (ev_type e) (nth j (p_names P) 0%nat)); [|lra].
      unfold felt. destruct (Qclt_le_dec u (stamp e)); [lra|]. destruct (Rlt_dec (exp (- (decay * (Q2R u - Q2R (stamp e))))) (1 / 10000)); [lra|]. left. apply exp_pos.
    - exfalso. apply nth_error_None in E. rewrite map_length in E. lia.
  Qed.
  Lemma data_D : forall j, decay <> 0 -> (j < length (p_names P))%nat -> sumRn (e_rows d) (fun r => e_D d r j) = mass_to_end evs decay stamp g (name j).
  Proof using cal run.
    intros j ND Hj. unfold d, em_data_of. cbn [e_rows e_D].
    destruct (shp_ok _ _ _ _ _ _ _ _ _ run) as [E0 [_ [_ [_ [_ ED]]]]]. cbn zeta in ED. rewrite <- E0 in ED. rewrite ED. unfold decay_effect_integral_to_T.
    set (F := fun k : nat * Qc => (1 - exp (- decay * (Qc2R (T_each_seq (p_table P) (fst k)) - Qc2R (snd k)))) / decay).
    rewrite (sum_ext _ _ (fun r => match nth_error (p_X P) r with Some a => INR (nth j (snd a) 0%nat) * F (fst a) | None => 0 end)).
    2: { intros r _. rewrite nth_error_map. destruct (nth_error (p_X P) r) as [[[s t] row]|]; auto. }
    rewrite (sumRn_total _ (p_X P) (fun a => INR (nth j (snd a) 0%nat) * F (fst a))). rewrite (run_X _ _ _ _ _ _ _ _ _ _ _ _ cal run).
    unfold name in *. rewrite (run_names _ _ _ _ _ _ _ _ _ run) in *. rewrite (X_total evs (option_map fst dt) f g F j Hj).
    unfold mass_to_end. apply total_ext. intros e He. destruct (Nat.eqb (ev_type e) (nth j (unique (map ev_type evs)) 0%nat)); auto. unfold F. cbn [fst snd].
    destruct (calendar_stamp _ _ _ _ _ cal) as [ES [_ LT]]. rewrite (run_table _ _ _ _ _ _ _ _ _ _ _ _ cal run).
    rewrite (T_each_is evs (option_map fst dt) f g LT) by (exists e; auto). unfold Qc2R. rewrite !q2r_minus, (ES e He). do 2 f_equal. f_equal. f_equal. ring.
  Qed.
  Lemma mass_nonneg : decay <> 0 -> forall e, In e evs -> 0 <= (1 - exp (- decay * (Q2R (g (ev_seq e)) - Q2R (stamp e)))) / decay.
  Proof using cal.
    intros ND e He. destruct cal as [_ [_ [_ L]]]. destruct (L (ev_seq e)) as [_ M]; [exists e; auto|]. specialize (M e He eq_refl). apply q2r_le in M.
    set (t := Q2R (g (ev_seq e)) - Q2R (stamp e)). assert (0 <= t) as Ht by (unfold t; lra). clearbody t. destruct (Rtotal_order decay 0) as [N|[N|N]]; [|contradiction|].
    - assert (1 <= exp (- decay * t)).
      { destruct Ht as [Ht|<-]; [|rewrite Rmult_0_r, exp_0; lra]. rewrite <- exp_0. left. apply exp_increasing. assert (0 < (- decay) * t) by (apply Rmult_lt_0_compat; lra). lra. }
      unfold Rdiv. replace ((1 - exp (- decay * t)) * / decay) with ((exp (- decay * t) - 1) * / - decay) by (field; lra). apply Rmult_le_pos; [lra|]. left. apply Rinv_0_lt_compat. lra.
    - assert (exp (- decay * t) <= 1).
      { destruct Ht as [Ht|<-]; [|rewrite Rmult_0_r, exp_0; lra]. rewrite <- exp_0. left. apply exp_increasing. assert (0 < decay * t) by (apply Rmult_lt_0_compat; lra). lra. }
      apply Rmult_le_pos; [lra|]. left. apply Rinv_0_lt_compat. lra.
  Qed.
  Lemma mass_positive : 0 < decay -> forall y e, In e evs -> ev_type e = y -> (stamp e < g (ev_seq e))%Qc -> 0 < mass_to_end evs decay stamp g y.
  Proof using cal.
    intros DP y e He E L. unfold mass_to_end. assert (decay <> 0) as ND by lra. apply (total_pos _ evs _ e); auto.
    - intros a Ha. destruct (Nat.eqb (ev_type a) y); [apply mass_nonneg; auto|lra].
    - rewrite E, Nat.eqb_refl. apply q2r_lt in L. apply Rdiv_lt_0_compat; auto. assert (exp (- decay * (Q2R (g (ev_seq e)) - Q2R (stamp e))) < 1); [|lra].
      rewrite <- exp_0. apply exp_increasing. assert (0 < decay * (Q2R (g (ev_seq e)) - Q2R (stamp e))) by (apply Rmult_lt_0_compat; lra). lra.
  Qed.
  Lemma count_positive : forall j, (j < length (p_names P))%nat -> 0 < count_of evs (name j).
  Proof using run.
    intros j Hj. unfold count_of. rewrite <- total_how_many. destruct (names_spec _ _ _ _ _ _ _ _ _ run) as [_ N]. destruct (proj1 (N (name j))) as [e [He E]]; [apply nth_In; auto|].
    apply (total_pos _ evs _ e); auto; [intros a _; destruct (Nat.eqb (ev_type a) (name j)); lra|]. rewrite E, Nat.eqb_refl. lra.
  Qed.
End Data.

(** C100.  The estimation for a type of events, with or without causes, returns (C100_ends: it ends) a positive base rate,
    strengths that are not negative, and 0 for the types that are no causes.  It reports the log likelihood in which each event
    of a cause has its whole effect.  The likelihood that it does not lower is another one: that of the process observed to the
    end of each sequence, with the masses of the effects multiplied by the interval.  In this one the expected number of events
    is the number of events seen. *)
Theorem C100_run : forall ks kt ky evs decay w k init pen P stamp f g, calendar (Some w) evs stamp f g ->
  shp_init ks kt ky evs decay (Some (w, k)) init pen = Ok P -> 0 < decay -> (0 < p_T P)%Qc ->
  forall i Pa rand fuel L alpha mu, (i < length (p_names P))%nat -> NoDup Pa ->
  (forall j, In j Pa -> (j < length (p_names P))%nat /\ exists e, In e evs /\ ev_type e = nth j (p_names P) 0%nat /\ (stamp e < g (ev_seq e))%Qc) ->
  (forall j, 0 <= rand j) ->
  let d := em_data_of P decay (Some (w, k)) in
  let name j := nth j (p_names P) 0%nat in
  let lik mass := loglik (length (p_X P)) (length (p_names P)) (fun r => e_X d r i) (p_S P) mass (Q2R (p_T P)) in
  let to_end j := mass_to_end evs decay stamp g (name j) * Q2R w in
  em_type fuel d rand i Pa = Ok (L, alpha, mu) ->
  0 < mu /\ (forall j, (j < length (p_names P))%nat -> 0 <= alpha j) /\ (forall j, ~ In j Pa -> alpha j = 0)
  /\ L = lik (fun j => count_of evs (name j) / decay) alpha mu
  /\ lik to_end (fun j => if memb j Pa then rand j else 0) 1 <= lik to_end alpha mu
  /\ expected (length (p_names P)) to_end (Q2R (p_T P)) alpha mu = count_of evs (name i).
Proof.
  intros ks kt ky evs decay w k init pen P stamp f g C HR D T i Pa rand fuel L alpha mu Hi ND HP Hr d name lik to_end H.
  assert (decay <> 0) as DN by lra. assert (0 < Q2R w) as W by (destruct C as [C _]; specialize (C w eq_refl); apply q2r_lt in C; rewrite q2r_0 in C; auto).
  assert (forall j, (j < length (p_names P))%nat -> mass_used d (Q2R w) j = to_end j) as MU.
  { intros j Hj. unfold mass_used, to_end. f_equal. apply (data_D _ _ _ _ _ (Some (w, k)) _ _ _ _ f _ C HR); auto. }
  assert (forall mass mass' a m, (forall j, (j < length (p_names P))%nat -> mass j = mass' j) -> lik mass a m = lik mass' a m) as LE.
  { intros mass mass' a m E. unfold lik, loglik, expected. f_equal. f_equal. apply sum_ext. intros j Hj. rewrite E; auto. }
  apply q2r_lt in T. rewrite q2r_0 in T. unfold em_type in H.
  destruct (loop_run d i Pa (Q2R w)) with (fuel := fuel) (Li := @None R) (alpha := fun j => if memb j Pa then rand j else 0) (mu := 1) (L := L) (alpha' := alpha) (mu' := mu) as [[A0 [AZ M0]] [LL [As Ex]]]; auto.
  - intros r _. apply data_X.
  - apply (data_S _ _ _ _ _ (Some (w, k)) _ _ _ _ f _ C HR).
  - unfold d. rewrite (seen_total _ _ _ _ _ (Some (w, k)) _ _ _ _ f _ C HR) by auto. apply (count_positive _ _ _ _ _ _ _ _ _ HR). auto.
  - intros j Hj. destruct (HP j Hj) as [Hj1 [e [He [E1 E2]]]]. split; auto. rewrite (MU j Hj1). unfold to_end. apply Rmult_lt_0_compat; auto.
    apply (mass_positive evs decay (Some (w, k)) stamp f g C D _ e); auto.
  - split; [|split; [|lra]]; intros j Hj; cbn beta; [destruct (memb j Pa); auto; lra|]. destruct (memb j Pa) eqn:E; auto. apply memb_In in E. contradiction.
  - split; auto. split; auto. split; auto. split; [|split].
    + rewrite LL. apply LE. intros j Hj. unfold mass_reported. f_equal. apply (seen_total _ _ _ _ _ (Some (w, k)) _ _ _ _ f _ C HR). auto.
    + rewrite !(LE to_end (mass_used d (Q2R w))) by (intros; symmetry; auto). exact As.
    + pose proof (seen_total _ _ _ _ _ (Some (w, k)) _ _ _ _ f _ C HR i Hi) as ST. transitivity (sumRn (e_rows d) (seen d i)); [|exact ST].
      rewrite <- (Ex (or_introl eq_refl)). unfold expected. f_equal. apply sum_ext. intros j Hj. rewrite MU; auto.
Qed.
Print Assumptions C100_run.

(** C100.  From every start the estimation ends: a round that does not end it raises the reported likelihood by 85/10000, and
    this likelihood is bounded. *)
Theorem C100_ends : forall ks kt ky evs decay w k init pen P stamp f g, calendar (Some w) evs stamp f g ->
  shp_init ks kt ky evs decay (Some (w, k)) init pen = Ok P -> 0 < decay -> (0 < p_T P)%Qc ->
  forall i Pa rand, (i < length (p_names P))%nat -> NoDup Pa ->
  (forall j, In j Pa -> (j < length (p_names P))%nat /\ exists e, In e evs /\ ev_type e = nth j (p_names P) 0%nat /\ (stamp e < g (ev_seq e))%Qc) ->
  (forall j, 0 <= rand j) ->
  exists rounds, forall fuel, (rounds <= fuel)%nat ->
  exists L alpha mu, em_type fuel (em_data_of P decay (Some (w, k))) rand i Pa = Ok (L, alpha, mu).
Proof.
  intros ks kt ky evs decay w k init pen P stamp f g C HR D T i Pa rand Hi ND HP Hr. set (d := em_data_of P decay (Some (w, k))).
  assert (decay <> 0) as DN by lra. assert (0 < Q2R w) as W by (destruct C as [C _]; specialize (C w eq_refl); apply q2r_lt in C; rewrite q2r_0 in C; auto).
  apply q2r_lt in T. rewrite q2r_0 in T. unfold em_type.
  assert (forall j, (j < length (p_names P))%nat -> 0 < sumRn (e_rows d) (seen d j)) as CP.
  { intros j Hj. unfold d. rewrite (seen_total _ _ _ _ _ (Some (w, k)) _ _ _ _ f _ C HR) by auto. apply (count_positive _ _ _ _ _ _ _ _ _ HR). auto. }
  destruct (loop_ends d i Pa (Q2R w)) with (alpha := fun j => if memb j Pa then rand j else 0) (mu := 1) as [rounds K]; auto.
  - intros r _. apply data_X.
  - apply (data_S _ _ _ _ _ (Some (w, k)) _ _ _ _ f _ C HR).
  - intros j Hj. destruct (HP j Hj) as [Hj1 [e [He [E1 E2]]]]. split; auto. unfold mass_used. apply Rmult_lt_0_compat; auto.
    unfold d. rewrite (data_D _ _ _ _ _ (Some (w, k)) _ _ _ _ f _ C HR) by auto. apply (mass_positive evs decay (Some (w, k)) stamp f g C D _ e); auto.
  - intros j Hj. unfold mass_reported. apply Rdiv_lt_0_compat; [apply (CP j Hj)|exact D].
  - split; [|split; [|lra]]; intros j Hj; cbn beta; [destruct (memb j Pa); auto; lra|]. destruct (memb j Pa) eqn:E; auto. apply memb_In in E. contradiction.
  - exists rounds. intros fuel Hf. destruct (K fuel Hf) as [[[L a] m] E]. eauto.
Qed.
Print Assumptions C100_ends.

(** C100.  Where a round of the estimation changes nothing, and all causes have an effect, that likelihood is at its maximum. *)
Theorem C100_best : forall d i Pa dt alpha mu alpha',
  (forall r, (r < e_rows d)%nat -> 0 <= e_X d r i) -> (forall r j, (r < e_rows d)%nat -> (j < e_n d)%nat -> 0 <= e_S d r j) -> 0 < e_T d ->
  e_interval d = Some dt -> NoDup Pa -> (forall j, In j Pa -> (j < e_n d)%nat /\ 0 < sumRn (e_rows d) (fun r => e_D d r j) * dt) ->
  (forall j, (j < e_n d)%nat -> 0 <= alpha j) -> (forall j, ~ In j Pa -> alpha j = 0) -> 0 < mu -> (forall j, In j Pa -> 0 < alpha j) ->
  update_alpha d i Pa (lambda_for d alpha mu) alpha = Ok alpha' -> (forall j, In j Pa -> alpha' j = alpha j) -> update_mu d i (lambda_for d alpha mu) mu = mu ->
  forall beta nu, (forall j, (j < e_n d)%nat -> 0 <= beta j) -> (forall j, ~ In j Pa -> beta j = 0) -> 0 < nu ->
  let lik := loglik (e_rows d) (e_n d) (fun r => e_X d r i) (e_S d) (fun j => sumRn (e_rows d) (fun r => e_D d r j) * dt) (e_T d) in
  lik beta nu <= lik alpha mu.
Proof.
  intros d i Pa dt alpha mu alpha' X0 S0 T0 I ND PN A0 AZ M0 AP U UA UM beta nu B0 BZ V0 lik.
  assert (forall r, (r < e_rows d)%nat -> 0 < intensity (e_n d) (e_S d) alpha mu r) as LP.
  { intros r Hr. unfold intensity. assert (0 <= sumRn (e_n d) (fun j => alpha j * e_S d r j)) by (apply sum_nonneg; intros j Hj; apply Rmult_le_pos; auto). lra. }
  apply (fixed_best _ _ _ _ _ _ Pa); auto.
  - intros j Hj. split; auto. destruct (update_alpha_is d i dt (lambda_for d alpha mu) Pa alpha I ND) as [a [E [_ K]]]. rewrite E in U. inversion U; subst a. clear U E.
    specialize (K j Hj). rewrite (UA j Hj) in K. destruct (PN j Hj) as [Hn Hu]. unfold mass_used in K. destruct (Req_EM_T (sumRn (e_rows d) (fun r => e_D d r j) * dt) 0); [lra|].
    set (m := sumRn (e_rows d) (fun r => e_D d r j) * dt) in *. specialize (AP j Hj).
    rewrite (sum_ext _ _ (fun r => alpha j * (e_S d r j / intensity (e_n d) (e_S d) alpha mu r * e_X d r i))) in K by (intros r Hr; rewrite lambda_is; unfold Rdiv; ring).
    rewrite sum_scal in K. set (q := sumRn (e_rows d) (fun r => e_S d r j / intensity (e_n d) (e_S d) alpha mu r * e_X d r i)) in *.
    apply (Rmult_eq_reg_l (alpha j)); [|lra]. rewrite K at 1. field. lra.
  - assert (e_T d <> 0) as TN by lra. pose proof (update_mu_is d i alpha mu TN) as E. rewrite UM in E. apply (Rmult_eq_reg_l mu); [|lra]. rewrite E, <- sum_scal. apply sum_ext. intros r Hr. unfold seen, Rdiv. ring.
Qed.
Print Assumptions C100_best.

(** A case of C100_best: one type that is its own cause, two rows with one event each, the effects 1 and 3; the strength 1 and
    the rate 1 stay. *)
Example C100_best_example :
  let d := EMData 1 2 (fun _ _ => 1) (fun r _ => match r with O => 1 | _ => 3 end) (fun r _ => match r with O => 5 / 4 | _ => 0 end) 1 (3 / 4) (Some 1) in
  let one := fun j => match j with O => 1 | _ => 0 end in
  exists alpha', update_alpha d 0 [0%nat] (lambda_for d one 1) one = Ok alpha' /\ alpha' 0%nat = 1 /\ update_mu d 0 (lambda_for d one 1) 1 = 1
    /\ 0 < sumRn (e_rows d) (fun r => e_D d r 0%nat) * 1.
Proof.
  cbv zeta. unfold update_alpha, update_mu, lambda_for. cbn [fold_left rbind e_interval e_rows e_n e_X e_S e_D e_T]. eexists. split; [reflexivity|]. cbn [Nat.eqb].
  rewrite !rsumn_sumR. unfold sumRn. cbn [seq sumR]. rewrite !rsumn_sumR. unfold sumRn. cbn [seq sumR]. destruct (Req_EM_T ((5 / 4 + (0 + 0)) * 1) 0) as [E|_]; [lra|].
  split; [field|]. split; [field|lra].
Qed.

(** C100.  For a type without causes the estimation ends in its third round at the latest, with the number of events in the unit
    of time, and this is the maximum of the reported likelihood. *)
Theorem C100_root : forall ks kt ky evs decay dt init pen P stamp f g, calendar (option_map fst dt) evs stamp f g ->
  shp_init ks kt ky evs decay dt init pen = Ok P -> (0 < p_T P)%Qc ->
  forall i rand fuel, (i < length (p_names P))%nat -> (3 <= fuel)%nat ->
  let N := count_of evs (nth i (p_names P) 0%nat) in
  let T := Q2R (p_T P) in
  0 < N /\ em_type fuel (em_data_of P decay dt) rand i [] = Ok (N * ln (N / T) - N, fun _ => 0, N / T)
  /\ forall nu, 0 < nu -> N * ln nu - nu * T <= N * ln (N / T) - N.
Proof.
  intros ks kt ky evs decay dt init pen P stamp f g C HR TP i rand fuel Hi Hf N T. apply q2r_lt in TP. rewrite q2r_0 in TP. fold T in TP.
  pose proof (count_positive _ _ _ _ _ _ _ _ _ HR i Hi) as NP. fold N in NP. split; auto. split.
  - unfold em_type. cbn [memb existsb]. pose proof (loop_root (em_data_of P decay dt) i (fun _ => 0) fuel) as K. rewrite (seen_total _ _ _ _ _ _ _ _ _ _ f _ C HR i Hi) in K. apply K; auto.
  - intros nu V. pose proof (gibbs N (nu * T) (Rlt_le _ _ NP)) as G. assert (0 < nu * T) as VT by (apply Rmult_lt_0_compat; auto). specialize (G VT).
    unfold Rdiv in *. rewrite !ln_mult, ln_Rinv in *; auto using Rinv_0_lt_compat. rewrite ln_mult in G; auto. lra.
Qed.
Print Assumptions C100_root.

Lemma inverse_e : 1 / 3 <= exp (-1) <= 1 / 2.
Proof.
  replace (-1) with (- (1)) by ring. rewrite exp_Ropp. pose proof exp_le_3. pose proof (exp_pos 1). assert (1 + 1 < exp 1) by (apply exp_ineq1; lra).
  split; [apply (Rmult_le_reg_r (exp 1))|apply (Rmult_le_reg_r (exp 1))]; auto; rewrite Rinv_l by lra; lra.
Qed.
Lemma drop : forall d q, 1 / 3 <= q <= 1 / 2 -> e_n d = 2%nat -> e_rows d = 2%nat -> e_X d 0 0 = 1 -> e_X d 0 1 = 0 -> e_X d 1 0 = 0 -> e_X d 1 1 = 1 ->
  e_S d 1 0 = q -> e_D d 0 0 = 1 - q -> e_D d 1 0 = 0 -> e_decay d = 1 -> e_T d = 1 -> e_interval d = Some (1 / 100) ->
  exists L alpha mu, em_type 2 d (fun _ => 1 / 2) 1 [0%nat] = Ok (L, alpha, mu) /\ L <= new_Li d 1 (fun j => if memb j [0%nat] then 1 / 2 else 0) 1 - 12 /\ L <= -12 /\ 0 < alpha 0%nat.
Proof.
  intros d q [Q1 Q2] En Er X00 X01 X10 X11 S10 D00 D10 Ed ET EI. unfold em_type.
  set (a0 := fun j => if memb j [0%nat] then 1 / 2 else 0). assert (a0 0%nat = 1 / 2) as A0 by reflexivity. assert (a0 1%nat = 0) as A1 by reflexivity. clearbody a0.
  assert (forall f : nat -> R, rsumn 2 f = f 0%nat + f 1%nat) as R2 by (intro f; rewrite rsumn_sumR; unfold sumRn; simpl; ring).
  assert (forall alpha mu, alpha 1%nat = 0 -> new_Li d 1 alpha mu = ln (q * alpha 0%nat + mu) - alpha 0%nat - mu) as NL.
  { intros alpha mu Z. unfold new_Li, lambda_for. rewrite En, Er, !R2, X00, X01, X10, X11, S10, Ed, ET, Z. replace (q * alpha 0%nat + e_S d 1 1 * 0 + mu) with (q * alpha 0%nat + mu) by ring. field. }
  assert (lambda_for d a0 1 1%nat = q / 2 + 1) as LAM by (unfold lambda_for; rewrite En, R2, S10, A0, A1; field).
  set (a1 := q / 2 / (q / 2 + 1) * 100 / (1 - q)). set (m1 := 1 / (q / 2 + 1)).
  assert (update_mu d 1 (lambda_for d a0 1) 1 = m1) as UM by (unfold update_mu, m1; rewrite Er, R2, X01, X11, LAM, ET; unfold Rdiv; rewrite Rinv_1; ring).
  assert (exists alpha, update_alpha d 1 [0%nat] (lambda_for d a0 1) a0 = Ok alpha /\ alpha 0%nat = a1 /\ alpha 1%nat = 0) as [alpha [UA [AL0 AL1]]].
  { unfold update_alpha. cbn [fold_left rbind]. rewrite EI. eexists. split; [reflexivity|]. cbn [Nat.eqb]. split; auto. rewrite Er, !R2, D00, D10.
    destruct (Req_EM_T ((1 - q + 0) * (1 / 100)) 0) as [E|_]; [lra|]. rewrite X01, X11, S10, A0, LAM. unfold a1. unfold Rdiv at 1. rewrite Rmult_0_r. field. lra. }
  pose proof (NL a0 1 A1) as N0. rewrite A0 in N0. pose proof (NL alpha m1 AL1) as N1. rewrite AL0 in N1.
  assert (0 < m1 <= 1) as M1.
  { unfold m1. assert (0 < / (q / 2 + 1)) by (apply Rinv_0_lt_compat; lra). split; [lra|]. apply (Rmult_le_reg_r (q / 2 + 1)); [lra|]. unfold Rdiv. rewrite Rmult_assoc, Rinv_l; lra. }
  assert (13 <= a1 * (1 - q)) as B1.
  { replace (a1 * (1 - q)) with (50 * q * m1) by (unfold a1, m1; field; lra). unfold m1. apply (Rmult_le_reg_r (q / 2 + 1)); [lra|]. replace (50 * q * (1 / (q / 2 + 1)) * (q / 2 + 1)) with (50 * q) by (field; lra). lra. }
  assert (0 < a1) as A1P by (destruct (Rle_dec a1 0); [|lra]; assert (0 <= (- a1) * (1 - q)) by (apply Rmult_le_pos; lra); lra).
  assert (0 < q * a1) by (apply Rmult_lt_0_compat; lra). destruct (ln_le (q * a1 + m1)) as [LL _]; [lra|].
  assert (0 <= ln (q * (1 / 2) + 1)) by (rewrite <- ln_1; left; apply ln_increasing; lra).
  assert (new_Li d 1 alpha m1 <= new_Li d 1 a0 1 - 12) as DR by (rewrite N0, N1; lra).
  destruct (ln_le (q * (1 / 2) + 1)) as [LU _]; [lra|]. assert (new_Li d 1 alpha m1 <= -12) as DR' by (rewrite N0 in DR; lra).
  exists (new_Li d 1 alpha m1), alpha, m1. split; [|rewrite AL0; auto]. cbn [em_loop]. rewrite UA. cbn [rbind]. rewrite UM.
  destruct (Rlt_dec (new_Li d 1 alpha m1 - new_Li d 1 a0 1) (85 / 10000)); auto. lra.
Qed.

Definition two_events : list event := [Ev 0 (Q2Qc 0) 0; Ev 0 (Q2Qc 1) 1].
(** One sequence with an event of type 0 at time 0 and one of type 1 at time 1; decay 1 and the interval 1/100. *)
Lemma two_prepared : exists P, shp_init Objects Floats Ints two_events 1 (Some (Q2Qc (1 # 100), Floats)) None true = Ok P
  /\ calendar (Some (Q2Qc (1 # 100))) two_events ev_time (fun _ => Q2Qc 0) (fun _ => Q2Qc 1)
  /\ p_names P = [0; 1]%nat /\ p_X P = [((0%nat, Q2Qc 0), [1; 0]%nat); ((0%nat, Q2Qc 1), [0; 1]%nat)] /\ p_T P = Q2Qc 1
  /\ p_S P 1 0 = exp (-1) /\ let d := em_data_of P 1 (Some (Q2Qc (1 # 100), Floats)) in e_D d 0 0 = 1 - exp (-1) /\ e_D d 1 0 = 0.
Proof.
  assert (forall a b : Qc, Qeq a b -> a = b) as QE by (intros; apply Qc_is_canon; auto).
  assert (calendar (Some (Q2Qc (1 # 100))) two_events ev_time (fun _ => Q2Qc 0) (fun _ => Q2Qc 1)) as C.
  { split; [intros d E; inversion E; subst; reflexivity|]. split.
    - intros e [<-|[<-|[]]]; (split; [|split; intro; (split; [discriminate|]) || (split; [reflexivity|])]).
      + exists 0%Z. apply QE. vm_compute. reflexivity.
      + reflexivity.
      + discriminate.
      + exists 100%Z. apply QE. vm_compute. reflexivity.
      + reflexivity.
      + discriminate.
    - split; intros s [e [He <-]]; simpl in He; (split; [|intros a [<-|[<-|[]]] _; simpl; discriminate]).
      + exists (Ev 0 (Q2Qc 0) 0). simpl. destruct He as [<-|[<-|[]]]; simpl; auto.
      + exists (Ev 0 (Q2Qc 1) 1). simpl. destruct He as [<-|[<-|[]]]; simpl; auto. }
  destruct (proj2 (C99_raises Objects Floats Ints two_events 1 (Some (Q2Qc (1 # 100), Floats)) None true)) as [_ [_ Q0]]; [intros d k E; inversion E; subst; discriminate|].
  destruct (Q0 eq_refl) as [_ Q1]; [discriminate|]. destruct Q1 as [P [E _]]; [auto 10|]. clear Q0.
  destruct (shp_ok _ _ _ _ _ _ _ _ _ E) as [_ [EN [ET [EX [_ ED]]]]]. cbn zeta in EN, ET, EX, ED. exists P. split; auto. split; auto.
  assert (p_names P = [0; 1]%nat) as N by (rewrite EN; vm_compute; reflexivity).
  assert (p_X P = [((0%nat, Q2Qc 0), [1; 0]%nat); ((0%nat, Q2Qc 1), [0; 1]%nat)]) as X.
  { apply same_rows. rewrite EX. vm_compute. reflexivity. }
  split; auto. split; auto. split; [apply QE; rewrite ET; vm_compute; reflexivity|].
  assert (Q2R (Q2Qc 0) = 0) as R0 by (unfold Q2R; simpl; lra). assert (Q2R (Q2Qc 1) = 1) as R1 by (unfold Q2R; simpl; lra). pose proof inverse_e as IE.
  assert (exp (- (1)) = exp (-1)) as E1 by (f_equal; ring). split.
  - rewrite (C99_influence _ _ _ _ _ (Some (Q2Qc (1 # 100), Floats)) _ _ P ev_time _ _ C E 1%nat 0%nat (Q2Qc 1) 0%nat); [|rewrite X; cbn [map fst nth_error]; do 2 f_equal; apply QE; vm_compute; reflexivity|rewrite N; simpl; lia].
    rewrite N. cbn -[felt Q2Qc]. unfold felt. destruct (Qclt_le_dec (Q2Qc 1) (Q2Qc 0)) as [L|_]; [apply q2r_lt in L; lra|].
    rewrite R0, R1. replace (- (1 * (1 - 0))) with (-1) by ring. destruct (Rlt_dec (exp (-1)) (1 / 10000)); lra.
  - assert (T_each_seq (start_at_zero (fst (get_event_table (option_map fst (Some (Q2Qc (1 # 100), Floats))) two_events))) 0 = Q2Qc 1) as T0 by (apply QE; vm_compute; reflexivity).
    cbv zeta. unfold em_data_of. cbn [e_D]. rewrite ED, X. unfold decay_effect_integral_to_T. cbn -[Q2Qc T_each_seq start_at_zero get_event_table exp].
    cbn [option_map fst] in T0. rewrite T0. unfold Qc2R. rewrite R0, R1. replace (- (1) * (1 - 0)) with (-1) by ring. split; field.
Qed.

(** C100, refuted: a round does not raise the likelihood that is reported.  With two events the estimation stops after one
    round because the reported likelihood has fallen, by more than 12, and returns the strengths of the lower likelihood. *)
Theorem C100_reported_refuted : exists evs decay dt P rand i Pa fuel L alpha mu,
  shp_init Objects Floats Ints evs decay dt None true = Ok P /\ em_type fuel (em_data_of P decay dt) rand i Pa = Ok (L, alpha, mu)
  /\ (forall j, 0 <= rand j <= 1)
  /\ let name j := nth j (p_names P) 0%nat in
     let lik := loglik (length (p_X P)) (length (p_names P)) (fun r => e_X (em_data_of P decay dt) r i) (p_S P) (fun j => count_of evs (name j) / decay) (Q2R (p_T P)) in
     L = lik alpha mu /\ lik alpha mu < lik (fun j => if memb j Pa then rand j else 0) 1 - 11.
Proof.
  destruct two_prepared as [P [E [C [N [X [T [S10 [D00 D10]]]]]]]]. set (dt := Some (Q2Qc (1 # 100), Floats)) in *. set (d := em_data_of P 1 dt) in *.
  assert (Q2R (p_T P) = 1) as T1 by (rewrite T; unfold Q2R; simpl; lra).
  assert (e_interval d = Some (1 / 100)) as EI by (unfold d, em_data_of, dt; cbn [e_interval option_map fst]; f_equal; unfold Qc2R, Q2R; simpl; lra).
  destruct (drop d (exp (-1)) inverse_e) as [L [alpha [mu [R0 [LE _]]]]]; auto; try (unfold d, em_data_of; cbn [e_n e_rows e_X]; rewrite ?N, ?X; reflexivity).
  exists two_events, 1, dt, P, (fun _ => 1 / 2), 1%nat, [0%nat], 2%nat, L, alpha, mu. split; auto. split; auto. split; [intros; lra|]. cbv zeta.
  assert (L = loglik (length (p_X P)) (length (p_names P)) (fun r => e_X d r 1%nat) (p_S P) (fun j => count_of two_events (nth j (p_names P) 0%nat) / 1) (Q2R (p_T P)) alpha mu) as EL.
  { refine (proj1 (proj2 (proj2 (proj2 (C100_run _ _ _ _ _ _ _ _ _ P ev_time _ _ C E _ _ 1%nat [0%nat] (fun _ => 1 / 2) 2%nat L alpha mu _ _ _ _ R0))))).
    - lra.
    - rewrite T. apply Qclt_alt. reflexivity.
    - rewrite N. cbn [length]. lia.
    - constructor; [intros []|constructor].
    - intros j [<-|[]]. rewrite N. split; [simpl; lia|]. exists (Ev 0 (Q2Qc 0) 0). simpl. split; auto. split; auto. reflexivity.
    - intros; lra. }
  split; [exact EL|]. apply Rle_lt_trans with L; [right; symmetry; exact EL|]. rewrite new_Li_is in LE. eapply Rle_lt_trans; [exact LE|].
  match goal with |- ?a - 12 < ?b - 11 => assert (a = b) as ->; [|lra] end.
  unfold loglik, expected. f_equal. f_equal. apply sum_ext. intros j Hj. f_equal. unfold mass_reported. f_equal.
  apply (seen_total _ _ _ _ _ dt _ _ _ _ _ _ C E j Hj).
Qed.
Print Assumptions C100_reported_refuted.

(** A case: the two events of the refutation meet what C100_run asks for, and the type without causes gets the rate 1. *)
Example C100_example : exists P, shp_init Objects Floats Ints two_events 1 (Some (Q2Qc (1 # 100), Floats)) None true = Ok P
  /\ calendar (Some (Q2Qc (1 # 100))) two_events ev_time (fun _ => Q2Qc 0) (fun _ => Q2Qc 1) /\ (0 < p_T P)%Qc
  /\ p_names P = [0; 1]%nat
  /\ (exists e, In e two_events /\ ev_type e = nth 0 (p_names P) 0%nat /\ (ev_time e < Q2Qc 1)%Qc)
  /\ (exists L alpha mu, em_type 2 (em_data_of P 1 (Some (Q2Qc (1 # 100), Floats))) (fun _ => 1 / 2) 1 [0%nat] = Ok (L, alpha, mu)
        /\ L <= -12 /\ 0 < alpha 0%nat)
  /\ em_type 3 (em_data_of P 1 (Some (Q2Qc (1 # 100), Floats))) (fun _ => 1 / 2) 1 [] = Ok (-1, fun _ => 0, 1).
Proof.
  destruct two_prepared as [P [E [C [N [X [T [S10 [D00 D10]]]]]]]]. exists P. split; auto. split; auto. split; [rewrite T; reflexivity|]. split; auto.
  set (dt := Some (Q2Qc (1 # 100), Floats)) in *. set (d := em_data_of P 1 dt) in *.
  assert (Q2R (p_T P) = 1) as T1 by (rewrite T; unfold Q2R; simpl; lra).
  assert (e_interval d = Some (1 / 100)) as EI by (unfold d, em_data_of, dt; cbn [e_interval option_map fst]; f_equal; unfold Qc2R, Q2R; simpl; lra).
  split; [exists (Ev 0 (Q2Qc 0) 0); rewrite N; split; [left; reflexivity|]; split; reflexivity|]. split.
  - destruct (drop d (exp (-1)) inverse_e) as [L [alpha [mu [R0 [_ [LE A]]]]]]; auto; try (unfold d, em_data_of; cbn [e_n e_rows e_X]; rewrite ?N, ?X; reflexivity).
    exists L, alpha, mu. auto.
  - destruct (C100_root _ _ _ _ _ dt _ _ P ev_time _ _ C E) with (i := 1%nat) (rand := fun _ : nat => 1 / 2) (fuel := 3%nat) as [_ [R0 _]]; [rewrite T; reflexivity|rewrite N; simpl; lia|lia|].
    unfold d. rewrite R0, T1, N. unfold count_of. cbn [how_many filter two_events nth ev_type Nat.eqb length INR]. replace (INR (how_many (fun e => Nat.eqb (ev_type e) 1) two_events)) with 1 by reflexivity.
    replace (1 / 1) with 1 by field. rewrite ln_1. do 2 f_equal. f_equal. ring.
Qed.
