(** Facts about Model/SHPGraph.v. *)

From Coq Require Import List Arith Bool ZArith QArith Qcanon Reals Lra Lia Permutation.
From Verif Require Import Model.Py Model.Graph Model.LocalScore Model.SHPTable Model.SHPEM Model.SHPGraph Spec.Scores Spec.EventSpec Spec.HawkesSpec Spec.MatrixGraph
  Proofs.PyFacts Proofs.BicFacts Proofs.PopulationFacts Proofs.SHPTableFacts Proofs.SHPEMFacts.
From Verif Require Model.SHP.
Import ListNotations.
Open Scope R_scope.

(** EM's loop is the one of Model/SHPEM.v. *)
Lemma fit_loop_EM : forall fuel d i Pa Li alpha mu, fit_loop ends_EM fuel d i Pa Li alpha mu = em_loop fuel d i Pa Li alpha mu.
Proof.
  induction fuel as [|fuel IH]; intros; auto. cbn [fit_loop em_loop]. unfold ends_EM at 1.
  destruct (match Li with None => false | Some l => if Rlt_dec (new_Li d i alpha mu - l) (85 / 10000) then true else false end); auto.
  destruct (update_alpha d i Pa (lambda_for d alpha mu) alpha); cbn [rbind]; auto.
Qed.

Section Fit.
  Variables (ends : R -> bool) (d : em_data) (i : nat) (Pa : list nat) (dt : R).
  Hypothesis E0 : forall x, x < 85 / 10000 -> ends x = true.
  Hypothesis X0 : forall r, (r < e_rows d)%nat -> 0 <= e_X d r i.
  Hypothesis S0 : forall r j, (r < e_rows d)%nat -> (j < e_n d)%nat -> 0 <= e_S d r j.
  Hypothesis T0 : 0 < e_T d.
  Hypothesis N0 : 0 < sumRn (e_rows d) (seen d i).
  Hypothesis I : e_interval d = Some dt.
  Hypothesis ND : NoDup Pa.
  Hypothesis PN : forall j, In j Pa -> (j < e_n d)%nat /\ 0 < mass_used d dt j.
  Hypothesis MR : forall j, (j < e_n d)%nat -> 0 < mass_reported d j.

  Lemma fit_run : forall fuel Li alpha mu L alpha' mu', fit_state d Pa alpha mu -> fit_loop ends fuel d i Pa Li alpha mu = Ok (L, alpha', mu') ->
    fit_state d Pa alpha' mu' /\ L = loglik (e_rows d) (e_n d) (seen d i) (e_S d) (mass_reported d) (e_T d) alpha' mu'
    /\ (Li = None \/ expected (e_n d) (mass_used d dt) (e_T d) alpha mu = sumRn (e_rows d) (seen d i) -> expected (e_n d) (mass_used d dt) (e_T d) alpha' mu' = sumRn (e_rows d) (seen d i)).
  Proof using X0 S0 T0 N0 I ND PN.
    induction fuel as [|fuel IH]; intros Li alpha mu L alpha' mu' St H; [discriminate|]. cbn [fit_loop] in H.
    destruct (match Li with None => false | Some l => ends (new_Li d i alpha mu - l) end) eqn:B.
    - inversion H; subst. split; auto. split; [apply new_Li_is|]. intros [->|]; auto. discriminate.
    - destruct (round d i Pa dt X0 S0 T0 N0 I ND PN alpha mu St) as [a1 [E [St1 [Ex _]]]]. rewrite E in H. cbn [rbind] in H. destruct (IH _ _ _ _ _ _ St1 H) as [R1 [R2 R3]].
      split; auto.
  Qed.

  Lemma fit_ends : forall alpha mu, fit_state d Pa alpha mu -> exists fuel0, forall fuel, (fuel0 <= fuel)%nat -> exists r, fit_loop ends fuel d i Pa None alpha mu = Ok r.
  Proof using E0 X0 S0 T0 N0 I ND PN MR.
    intros alpha mu St. destruct (loglik_bounded (e_rows d) (e_n d) (seen d i) (e_S d) (mass_reported d) (e_T d) X0 N0 S0 MR T0) as [B HB].
    assert (forall a m, fit_state d Pa a m -> new_Li d i a m <= B) as LB by (intros a m [A0 [_ M0]]; rewrite new_Li_is; apply HB; auto).
    assert (forall k fuel a m l, fit_state d Pa a m -> (k < fuel)%nat -> B - l <= INR k * (85 / 10000) / 2 -> exists r, fit_loop ends fuel d i Pa (Some l) a m = Ok r) as LP.
    { induction k as [|k IH]; intros fuel a m l F Hf H; (destruct fuel as [|fuel]; [lia|]); cbn [fit_loop]; destruct (ends (new_Li d i a m - l)) eqn:Q; eauto.
      - exfalso. rewrite E0 in Q; [discriminate|]. specialize (LB a m F). cbn [INR] in H. lra.
      - destruct (round d i Pa dt X0 S0 T0 N0 I ND PN a m F) as [a' [E [F' _]]]. rewrite E. cbn [rbind]. apply IH; auto; [lia|].
        assert (~ new_Li d i a m - l < 85 / 10000) by (intro Z; rewrite (E0 _ Z) in Q; discriminate). rewrite S_INR in H. lra. }
    destruct (round d i Pa dt X0 S0 T0 N0 I ND PN alpha mu St) as [a' [E [F' _]]].
    destruct (archimed ((B - new_Li d i alpha mu) / (85 / 20000))) as [AR _]. set (k := Z.to_nat (up ((B - new_Li d i alpha mu) / (85 / 20000)))).
    assert ((B - new_Li d i alpha mu) / (85 / 20000) <= INR k) as K.
    { destruct (Z_lt_le_dec (up ((B - new_Li d i alpha mu) / (85 / 20000))) 0) as [L|L].
      - apply IZR_lt in L. pose proof (pos_INR k). lra.
      - unfold k. rewrite INR_IZR_INZ, Z2Nat.id by auto. lra. }
    exists (S (S k)). intros fuel Hf. destruct fuel as [|fuel]; [lia|]. cbn [fit_loop]. rewrite E. cbn [rbind]. apply (LP k); auto; [lia|].
    apply (Rmult_le_compat_r (85 / 20000)) in K; [|lra]. unfold Rdiv at 1 in K. rewrite Rmult_assoc, Rinv_l in K by lra. lra.
  Qed.
End Fit.

(** The table. *)
Lemma key_eqb_eq : forall a b, SHP.key_eqb a b = true <-> a = b.
Proof.
  intros [i l] [j m]. unfold SHP.key_eqb. simpl. rewrite andb_true_iff, Nat.eqb_eq. destruct (list_eq_dec Nat.eq_dec l m) as [->|N]; split.
  - intros [-> _]. auto.
  - intros H. inversion H. auto.
  - intros [_ H]. discriminate.
  - intros H. inversion H. contradiction.
Qed.

Lemma update_alpha_out : forall d i lam Pa alpha alpha', update_alpha d i Pa lam alpha = Ok alpha' -> forall k, ~ In k Pa -> alpha' k = alpha k.
Proof.
  intros d i lam Pa. induction Pa as [|j Pa IH]; intros alpha alpha' H k Hk; unfold update_alpha in H; cbn [fold_left rbind] in H; [inversion H; auto|].
  destruct (e_interval d) as [dt|] eqn:EI.
  - unfold update_alpha in IH. rewrite EI in IH. rewrite (IH _ _ H k) by (intro; apply Hk; right; auto). cbn beta. destruct (Nat.eqb_spec k j) as [->|]; auto. exfalso. apply Hk. left. auto.
  - exfalso. clear -H. induction Pa as [|x Pa IH]; cbn [fold_left rbind] in H; [discriminate|auto].
Qed.
Lemma fit_loop_out : forall ends fuel d i Pa Li alpha mu L alpha' mu', fit_loop ends fuel d i Pa Li alpha mu = Ok (L, alpha', mu') -> forall k, ~ In k Pa -> alpha' k = alpha k.
Proof.
  intros ends. induction fuel as [|fuel IH]; intros d i Pa Li alpha mu L alpha' mu' H k Hk; [discriminate|]. cbn [fit_loop] in H.
  destruct (match Li with None => false | Some l => ends (new_Li d i alpha mu - l) end); [inversion H; auto|].
  destruct (update_alpha d i Pa (lambda_for d alpha mu) alpha) as [a1|] eqn:E; [|discriminate]. cbn [rbind] in H. rewrite (IH _ _ _ _ _ _ _ _ _ H k Hk). exact (update_alpha_out _ _ _ _ _ _ E k Hk).
Qed.

Lemma recall_out : forall al Pa start k, ~ In k Pa -> recall al Pa start k = start k.
Proof.
  intros al. unfold recall. induction Pa as [|j Pa IH]; intros start k H; auto. cbn [fold_left]. rewrite IH by (intro; apply H; right; auto). cbn beta.
  destruct (Nat.eqb_spec k j) as [->|]; auto. exfalso. apply H. left. auto.
Qed.
Lemma recall_in : forall al Pa start k x, In k Pa -> dget Nat.eqb al k = Some x -> recall al Pa start k = x.
Proof.
  intros al Pa start k x H D. unfold recall. revert start. induction Pa as [|j Pa IH]; intros start; [destruct H|]. cbn [fold_left].
  destruct (in_dec Nat.eq_dec k Pa) as [K|K]; [apply IH; auto|]. destruct H as [->|H]; [|contradiction].
  fold (recall al Pa (fun k0 => if Nat.eqb k0 k then match dget Nat.eqb al k with Some y => y | None => start k0 end else start k0)).
  rewrite recall_out, Nat.eqb_refl, D by auto. auto.
Qed.

Lemma dget_map : forall (alpha : nat -> R) Pa j, In j Pa -> dget Nat.eqb (map (fun k => (k, alpha k)) Pa) j = Some (alpha j).
Proof.
  intros alpha. induction Pa as [|x Pa IH]; intros j H; [destruct H|]. cbn [map dget]. destruct (Nat.eqb_spec j x) as [->|N]; auto. apply IH. destruct H; auto. congruence.
Qed.

Definition hist_ok (t : hist) : Prop :=
  forall i Pa Li al mu, dget SHP.key_eqb t (i, Pa) = Some (Li, al, mu) -> forall j, In j Pa -> exists x, dget Nat.eqb al j = Some x.

(** The entry of the table for a result. *)
Definition stored (t : hist) (i : nat) (Pa : list nat) (start : nat -> R) (r : R * (nat -> R) * R) : Prop :=
  exists al, dget SHP.key_eqb t (i, Pa) = Some (fst (fst r), al, snd r)
    /\ (forall j, In j Pa -> dget Nat.eqb al j = Some (snd (fst r) j)) /\ (forall j, ~ In j Pa -> snd (fst r) j = start j).

Lemma fit_node_stored : forall ends fuel d start Pa t i t' r, hist_ok t -> fit_node ends fuel d start Pa t i = Ok (t', r) ->
  hist_ok t' /\ (forall k, fst k <> i -> dget SHP.key_eqb t' k = dget SHP.key_eqb t k) /\ stored t' i Pa start r.
Proof.
  intros ends fuel d start Pa t i t' r HO H. unfold fit_node in H. destruct (dget SHP.key_eqb t (i, Pa)) as [[[Li al] mu]|] eqn:D.
  - inversion H; subst. split; auto. split; auto. exists al. cbn [fst snd]. split; auto. split.
    + intros j Hj. destruct (HO _ _ _ _ _ D j Hj) as [x Hx]. rewrite Hx, (recall_in al Pa start j x); auto.
    + intros j Hj. apply recall_out. auto.
  - destruct (fit_loop ends fuel d i Pa None start 1) as [[[Li alpha] mu]|] eqn:F; [|discriminate]. cbn [rbind] in H. inversion H; subst.
    split; [|split].
    + intros i' Pa' Li' al' mu' D' j Hj. destruct (SHP.key_eqb (i, Pa) (i', Pa')) eqn:K.
      * apply key_eqb_eq in K. inversion K; subst. rewrite (dget_dset_eq _ key_eqb_eq) in D'. inversion D'; subst. exists (alpha j). apply dget_map. auto.
      * rewrite (dget_dset_neq _ key_eqb_eq) in D'; [exact (HO _ _ _ _ _ D' j Hj)|]. intro Q. apply key_eqb_eq in Q. congruence.
    + intros k Hk. apply (dget_dset_neq _ key_eqb_eq). intros <-. apply Hk. auto.
    + exists (map (fun j => (j, alpha j)) Pa). cbn [fst snd]. split; [apply (dget_dset_eq _ key_eqb_eq)|]. split; [intros j Hj; apply dget_map; auto|].
      intros j Hj. exact (fit_loop_out _ _ _ _ _ _ _ _ _ _ _ F j Hj).
Qed.

Lemma fit_nodes_stored : forall ends fuel d rand m causes is t t' rs, NoDup is -> hist_ok t -> fit_nodes ends fuel d rand m causes t is = Ok (t', rs) ->
  hist_ok t' /\ (forall k, ~ In (fst k) is -> dget SHP.key_eqb t' k = dget SHP.key_eqb t k)
  /\ Forall2 (fun i r => stored t' i (causes i) (fun j => rand j i * IZR (mat_get m j i)) r) is rs.
Proof.
  intros ends fuel d rand m causes. induction is as [|i is IH]; intros t t' rs N HO H; cbn [fit_nodes] in H.
  - inversion H; subst. split; auto.
  - destruct (fit_node ends fuel d (fun j => rand j i * IZR (mat_get m j i)) (causes i) t i) as [[t1 r]|] eqn:F; [|discriminate]. cbn [rbind fst snd] in H.
    destruct (fit_nodes ends fuel d rand m causes t1 is) as [[t2 rs2]|] eqn:G; [|discriminate]. cbn [rbind fst snd] in H. inversion H; subst. inversion_clear N as [|? ? NI N'].
    destruct (fit_node_stored _ _ _ _ _ _ _ _ _ HO F) as [HO1 [K1 S1]]. destruct (IH _ _ _ N' HO1 G) as [HO2 [K2 S2]]. split; auto. split.
    + intros k Hk. rewrite K2 by (intro; apply Hk; right; auto). apply K1. intro Q. apply Hk. left. auto.
    + constructor; auto. destruct S1 as [al [A B]]. exists al. split; auto. rewrite K2; auto.
Qed.

Lemma fit_nodes_again : forall ends fuel d rand m causes t is old rs, Forall2 (fun i r => stored t i (causes i) (old i) r) is rs ->
  exists rs', fit_nodes ends fuel d rand m causes t is = Ok (t, rs')
  /\ map (fun r => fst (fst r)) rs' = map (fun r => fst (fst r)) rs /\ map snd rs' = map snd rs
  /\ Forall2 (fun i rr => (forall j, In j (causes i) -> snd (fst (fst rr)) j = snd (fst (snd rr)) j)
        /\ (forall j, ~ In j (causes i) -> snd (fst (fst rr)) j = rand j i * IZR (mat_get m j i) /\ snd (fst (snd rr)) j = old i j)) is (combine rs' rs).
Proof.
  intros ends fuel d rand m causes t is old rs F. induction F as [|i r is rs [al [A [B C]]] F IH].
  - exists []. repeat split; constructor.
  - destruct IH as [rs' [H1 [H2 [H3 H4]]]]. destruct r as [[Li alpha] mu]. cbn [fst snd] in *.
    exists ((Li, recall al (causes i) (fun j => rand j i * IZR (mat_get m j i)), mu) :: rs'). cbn [fit_nodes]. unfold fit_node at 1. rewrite A. cbn [rbind fst snd]. rewrite H1. cbn [rbind fst snd].
    split; auto. cbn [map fst snd combine]. split; [congruence|]. split; [congruence|]. constructor; auto. cbn [fst snd]. split.
    + intros j Hj. apply (recall_in al); auto.
    + intros j Hj. split; [apply recall_out; auto|apply C; auto].
Qed.

Lemma fit_nodes_fresh : forall ends fuel d rand m causes is t, NoDup is -> (forall i, In i is -> dget SHP.key_eqb t (i, causes i) = None) ->
  (forall i, In i is -> exists r, fit_loop ends fuel d i (causes i) None (fun j => rand j i * IZR (mat_get m j i)) 1 = Ok r) ->
  exists t' rs, fit_nodes ends fuel d rand m causes t is = Ok (t', rs)
  /\ Forall2 (fun i r => fit_loop ends fuel d i (causes i) None (fun j => rand j i * IZR (mat_get m j i)) 1 = Ok r) is rs.
Proof.
  intros ends fuel d rand m causes. induction is as [|i is IH]; intros t N D H; cbn [fit_nodes]; [exists t, []; auto|]. inversion_clear N as [|? ? NI N'].
  destruct (H i (or_introl eq_refl)) as [[[Li alpha] mu] E]. unfold fit_node at 1. rewrite (D i (or_introl eq_refl)), E. cbn [rbind fst snd].
  destruct (IH (dset SHP.key_eqb t (i, causes i) (Li, map (fun j => (j, alpha j)) (causes i), mu)) N') as [t' [rs [E2 F]]].
  - intros k Hk. rewrite (dget_dset_neq _ key_eqb_eq); [apply D; right; auto|]. intros Q. inversion Q; subst. contradiction.
  - intros k Hk. apply H. right. auto.
  - rewrite E2. cbn [rbind fst snd]. exists t', ((Li, alpha, mu) :: rs). split; auto.
Qed.

(** The sum of the matrix of a graph. *)
Lemma zero_one_get : forall n m i j, zero_one n m -> mat_get m i j = 0%Z \/ mat_get m i j = 1%Z.
Proof.
  intros n m i j [L H]. unfold mat_get. destruct (nth_in_or_default i m []) as [Hi|E]; [|rewrite E; left; destruct j; auto].
  destruct (nth_in_or_default j (nth i m []) 0%Z) as [Hj|E]; [|rewrite E; auto]. exact (proj2 (H _ Hi) _ Hj).
Qed.

Lemma fold_zadd : forall l a, fold_left Z.add l a = (a + fold_left Z.add l 0)%Z.
Proof. induction l as [|x l IH]; intros a; cbn [fold_left]; [lia|]. rewrite IH, (IH (0 + x)%Z). lia. Qed.
Lemma as_map : forall A (l : list A) (x : A), l = map (fun k => nth k l x) (seq 0 (length l)).
Proof.
  intros A l x. induction l as [|a l IH]; auto. cbn [length seq map nth]. f_equal. rewrite <- seq_shift, map_map. exact IH.
Qed.
Lemma row_sum : forall r, (forall z, In z r -> z = 0%Z \/ z = 1%Z) -> fold_left Z.add r 0%Z = Z.of_nat (length (filter (fun z => Z.eqb z 1) r)).
Proof.
  induction r as [|z r IH]; intros H; auto. cbn [fold_left filter]. rewrite fold_zadd, IH by (intros; apply H; right; auto). destruct (H z (or_introl eq_refl)) as [->| ->]; cbn [Z.eqb Pos.eqb length]; lia.
Qed.
Lemma filter_len_map : forall A B (f : A -> B) g l, length (filter g (map f l)) = length (filter (fun a => g (f a)) l).
Proof. intros A B f g l. induction l as [|a l IH]; auto. cbn [map filter]. destruct (g (f a)); cbn [length]; auto. Qed.
Lemma mat_sum_edges : forall n m, zero_one n m -> SHP.mat_sum m = Z.of_nat (edge_count n m).
Proof.
  intros n m [L H]. unfold SHP.mat_sum, edge_count.
  assert (K : forall (is : list nat) (rows : list (list Z)), rows = map (fun i => nth i m []) is -> (forall r, In r rows -> length r = n /\ forall z, In z r -> z = 0%Z \/ z = 1%Z) ->
    fold_left Z.add (concat rows) 0%Z = Z.of_nat (length (filter (fun p => Z.eqb (mat_get m (fst p) (snd p)) 1) (list_prod is (seq 0 n))))).
  { induction is as [|i is IH]; intros rows -> HR; auto. cbn [map concat list_prod]. rewrite fold_left_app, fold_zadd, filter_app, app_length, (IH _ eq_refl) by (intros r Hr; apply HR; right; auto).
    destruct (HR _ (or_introl eq_refl)) as [LR ZR]. rewrite row_sum by exact ZR. rewrite Nat2Z.inj_add. f_equal. f_equal.
    rewrite filter_len_map. cbn [fst snd]. rewrite (as_map _ (nth i m []) 0%Z) at 1. rewrite LR, filter_len_map. unfold mat_get. auto. }
  apply K; [|exact H]. rewrite <- L. apply as_map.
Qed.

Lemma Pa_of_in : forall n m i j, zero_one n m -> In j (SHP.Pa_of m i) <-> (j < n)%nat /\ mat_get m j i = 1%Z.
Proof. intros n m i j [L _]. unfold SHP.Pa_of. rewrite filter_In, in_seq, Z.eqb_eq, L. split; intros [H1 H2]; split; auto; lia. Qed.
Lemma Pa_of_nodup : forall m i, NoDup (SHP.Pa_of m i).
Proof. intros m i. apply NoDup_filter, seq_NoDup. Qed.

Lemma rsum_Forall2 : forall (F : nat -> R) n rs, Forall2 (fun i r => r = F i) (seq 0 n) rs -> rsum rs = sumRn n F.
Proof.
  intros F n rs H. assert (rs = map F (seq 0 n)) as -> by (clear -H; induction H; cbn [map]; f_equal; auto).
  change (rsum (map F (seq 0 n))) with (rsumn n F). apply rsumn_sumR.
Qed.
Lemma Forall2_nth_seq : forall A (Q : nat -> A -> Prop) x n l, Forall2 Q (seq 0 n) l -> forall i, (i < n)%nat -> Q i (nth i l x).
Proof.
  intros A Q x n l. assert (K : forall s, Forall2 Q (seq s n) l -> forall i, (i < n)%nat -> Q (s + i)%nat (nth i l x)).
  { revert l. induction n as [|n IH]; intros l s F i Hi; [lia|]. cbn [seq] in F. inversion F; subst. destruct i as [|i]; [rewrite Nat.add_0_r; auto|].
    cbn [nth]. replace (s + S i)%nat with (S s + i)%nat by lia. apply IH; auto. lia. }
  intros F i Hi. apply (K 0%nat); auto.
Qed.
Lemma Forall2_map_r : forall A B C (Q : A -> C -> Prop) (f : B -> C) l m, Forall2 (fun a b => Q a (f b)) l m -> Forall2 Q l (map f m).
Proof. intros A B C Q f l m H. induction H; constructor; auto. Qed.

Lemma times_sum_is : forall ks kt ky evs decay dt init pen P, shp_init ks kt ky evs decay dt init pen = Ok P -> times_sum P = length evs.
Proof.
  intros ks kt ky evs decay dt init pen P H. destruct (shp_ok _ _ _ _ _ _ _ _ _ H) as [E _]. unfold times_sum. rewrite E. clear E H.
  assert (K1 : forall l0 l, fold_right (fun r s => r_times r + s)%nat 0%nat (map (fun r => let first := qc_min (times_of r_time (r_seq r) l0) in
                Row (r_seq r) (r_time r - first)%Qc (r_type r) (r_times r) (r_ind r) (r_max r - first)%Qc) l) = fold_right (fun r s => r_times r + s)%nat 0%nat l).
  { intros l0 l. induction l as [|a l IH]; auto. cbn [map fold_right r_times]. f_equal. exact IH. }
  unfold start_at_zero. rewrite K1. unfold get_event_table. cbn [fst].
  set (keys := map _ evs). set (rows := map _ (groupby_count keys)).
  assert (K2 : forall l, fold_right (fun r s => r_times r + s)%nat 0%nat (map (fun r => Row (r_seq r) (r_time r) (r_type r) (r_times r) (r_ind r) (qc_max (times_of r_time (r_seq r) rows))) l)
            = fold_right (fun r s => r_times r + s)%nat 0%nat l).
  { intros l. induction l as [|a l IH]; auto. cbn [map fold_right r_times]. f_equal. exact IH. }
  rewrite K2. unfold rows. apply INR_eq. transitivity (total (groupby_count keys) (fun kc => INR (snd kc) * (fun _ => 1) (fst kc))%R).
  - generalize (unique (map (fun kc => snd (fst kc)) (groupby_count keys))) as names. intros names. clear rows K2. induction (groupby_count keys) as [|[[[s t] y] c] l IH]; auto.
    cbn [map fold_right r_times total snd fst]. rewrite plus_INR, IH. unfold total. ring.
  - rewrite (groupby_total keys (fun _ => 1)). unfold keys. clear.
    assert (K : forall A (l : list A), total l (fun _ => 1) = INR (length l)) by (intros A l; induction l as [|e l IH]; auto; cbn [length]; rewrite S_INR, <- IH; unfold total; cbn [fold_right]; ring).
    rewrite K, map_length. auto.
Qed.
