(** C103: the estimation of a whole graph of a Hawkes process, with and without the search, and the table that the two share. *)

From Coq Require Import List Arith Bool ZArith QArith Qcanon Reals Qreals Lra Lia Permutation.
From Verif Require Import Model.Py Model.Graph Model.LocalScore Model.SHPTable Model.SHPEM Model.SHPGraph Spec.Scores Spec.EventSpec Spec.HawkesSpec Spec.MatrixGraph
  Proofs.PyFacts Proofs.BicFacts Proofs.PopulationFacts Proofs.SHPTableFacts Proofs.SHPEMFacts Proofs.SHPGraphFacts Props.SHPTableProps Props.SHPEMProps.
From Verif Require Model.SHP.
Import ListNotations.
Open Scope R_scope.

(** The strengths of the effects on type [i] and its base rate in a result. *)
Definition strengths (r : fitted) (i j : nat) : R := nth i (snd (fst r)) (fun _ => 0) j.
Definition base_rate (r : fitted) (i : nat) : R := nth i (snd r) 0.
(** What an edge or a type costs. *)
Definition price (pen : penalty) (reg : R) (evs : list event) : R := match pen with AIC => reg | BIC => ln (INR (length evs)) * reg end.

Lemma rounds_all : forall (Q : nat -> nat -> Prop) n, (forall i, (i < n)%nat -> exists k, forall fuel, (k <= fuel)%nat -> Q i fuel) ->
  exists k, forall fuel, (k <= fuel)%nat -> forall i, (i < n)%nat -> Q i fuel.
Proof.
  intros Q n H. induction n as [|n IH]; [exists 0%nat; intros; lia|]. destruct IH as [k K]; [intros; apply H; lia|]. destruct (H n) as [k' K']; [lia|].
  exists (k + k')%nat. intros fuel Hf i Hi. destruct (Nat.eq_dec i n) as [->|]; [apply K'; lia|apply K; lia].
Qed.

Lemma Forall2_imp_in : forall A B (Q Q' : A -> B -> Prop) l m, (forall a b, In a l -> Q a b -> Q' a b) -> Forall2 Q l m -> Forall2 Q' l m.
Proof. intros A B Q Q' l m H F. induction F; constructor; [apply H; [left|]; auto|apply IHF; intros; apply H; [right|]; auto]. Qed.

Lemma self_nth : forall A (l : list A) x, Forall2 (fun i r => r = nth i l x) (seq 0 (length l)) l.
Proof.
  intros A l x. assert (K : forall is, Forall2 (fun i r => r = nth i l x) is (map (fun i => nth i l x) is)) by (induction is; cbn [map]; constructor; auto).
  pose proof (K (seq 0 (length l))) as H. rewrite <- as_map in H. exact H.
Qed.

(** The estimation of all types, with either test. *)
Lemma fit_graph : forall ends ks kt ky evs decay w k init pk P stamp f g, (forall x, x < 85 / 10000 -> ends x = true) -> calendar (Some w) evs stamp f g ->
  shp_init ks kt ky evs decay (Some (w, k)) init pk = Ok P -> 0 < decay -> (0 < p_T P)%Qc ->
  let d := em_data_of P decay (Some (w, k)) in
  let n := length (p_names P) in
  let name j := nth j (p_names P) 0%nat in
  forall m ord rand, zero_one n m -> (forall l, Permutation (ord l) l) -> (forall j i, 0 <= rand j i) ->
  (forall j i, mat_get m j i = 1%Z -> exists e, In e evs /\ ev_type e = name j /\ (stamp e < g (ev_seq e))%Qc) ->
  exists rounds, forall fuel, (rounds <= fuel)%nat -> exists t rs, fit_nodes ends fuel d rand m (fun i => ord (SHP.Pa_of m i)) [] (seq 0 n) = Ok (t, rs)
    /\ length rs = n
    /\ let r := (@None R, map (fun r => snd (fst r)) rs, map snd rs) in
    (forall i, (i < n)%nat -> 0 < base_rate r i /\ (forall j, (j < n)%nat -> 0 <= strengths r i j) /\ (forall j, (j < n)%nat -> mat_get m j i = 0%Z -> strengths r i j = 0)
          /\ expected n (fun j => mass_to_end evs decay stamp g (name j) * Q2R w) (Q2R (p_T P)) (strengths r i) (base_rate r i) = count_of evs (name i))
    /\ rsum (map (fun r => fst (fst r)) rs) = sumRn n (fun i => loglik (length (p_X P)) n (fun x => e_X d x i) (p_S P) (fun j => count_of evs (name j) / decay) (Q2R (p_T P)) (strengths r i) (base_rate r i)).
Proof.
  intros ends ks kt ky evs decay w k init pk P stamp f g E0 C HR D T d n name m ord rand Z1 O Hr Hm.
  assert (decay <> 0) as DN by lra. assert (0 < Q2R w) as W by (destruct C as [C _]; specialize (C w eq_refl); apply q2r_lt in C; rewrite q2r_0 in C; auto).
  apply q2r_lt in T. rewrite q2r_0 in T.
  set (to_end := fun j => mass_to_end evs decay stamp g (name j) * Q2R w).
  assert (forall j, (j < n)%nat -> mass_used d (Q2R w) j = to_end j) as MU.
  { intros j Hj. unfold mass_used, to_end. f_equal. apply (data_D _ _ _ _ _ (Some (w, k)) _ _ _ _ f _ C HR); auto. }
  assert (forall j, (j < n)%nat -> sumRn (e_rows d) (seen d j) = count_of evs (name j)) as ST by (intros j Hj; apply (seen_total _ _ _ _ _ (Some (w, k)) _ _ _ _ f _ C HR); auto).
  assert (forall j, (j < n)%nat -> 0 < count_of evs (name j)) as CP by (intros j Hj; apply (count_positive _ _ _ _ _ _ _ _ _ HR); auto).
  assert (forall i j, In j (ord (SHP.Pa_of m i)) <-> (j < n)%nat /\ mat_get m j i = 1%Z) as PI.
  { intros i j. rewrite <- (Pa_of_in n m i j Z1). split; apply Permutation_in; [|symmetry]; apply O. }
  assert (forall i, NoDup (ord (SHP.Pa_of m i))) as PD by (intros i; apply (Permutation_NoDup (Permutation_sym (O _))), Pa_of_nodup).
  assert (forall r i, (r < e_rows d)%nat -> 0 <= e_X d r i) as X0 by (intros r i _; apply data_X).
  assert (forall r j, (r < e_rows d)%nat -> (j < e_n d)%nat -> 0 <= e_S d r j) as S0 by (apply (data_S _ _ _ _ _ (Some (w, k)) _ _ _ _ f _ C HR)).
  assert (forall i j, In j (ord (SHP.Pa_of m i)) -> (j < e_n d)%nat /\ 0 < mass_used d (Q2R w) j) as PN.
  { intros i j Hj. apply PI in Hj. destruct Hj as [Hj1 Hj2]. split; auto. rewrite MU by auto. destruct (Hm j i Hj2) as [e [He [E1 E2]]]. apply Rmult_lt_0_compat; auto.
    apply (mass_positive evs decay (Some (w, k)) stamp f g C D _ e); auto. }
  assert (forall j, (j < e_n d)%nat -> 0 < mass_reported d j) as MR by (intros j Hj; unfold mass_reported; apply Rdiv_lt_0_compat; [change (0 < sumRn (e_rows d) (seen d j)); rewrite ST; auto|exact D]).
  assert (forall i, fit_state d (ord (SHP.Pa_of m i)) (fun j => rand j i * IZR (mat_get m j i)) 1) as F0.
  { intros i. split; [|split; [|lra]].
    - intros j _. apply Rmult_le_pos; auto. destruct (zero_one_get n m j i Z1) as [-> | ->]; lra.
    - intros j Hj. destruct (zero_one_get n m j i Z1) as [E|E]; [rewrite E; lra|]. exfalso. apply Hj. apply PI. split; auto.
      destruct (le_lt_dec n j) as [L|L]; auto. exfalso. unfold mat_get in E. destruct Z1 as [Z1 _]. rewrite (nth_overflow m) in E by lia. destruct i; discriminate. }
  destruct (rounds_all (fun i fuel => exists r, fit_loop ends fuel d i (ord (SHP.Pa_of m i)) None (fun j => rand j i * IZR (mat_get m j i)) 1 = Ok r) n) as [rounds K].
  { intros i Hi. apply (fit_ends ends d i (ord (SHP.Pa_of m i)) (Q2R w)); auto; [rewrite ST; auto|exact (PN i)]. }
  exists rounds. intros fuel Hf.
  destruct (fit_nodes_fresh ends fuel d rand m (fun i => ord (SHP.Pa_of m i)) (seq 0 n) [] (seq_NoDup n 0)) as [t [rs [E FA]]]; [auto|intros i Hi; apply in_seq in Hi; apply K; auto; lia|].
  exists t, rs. split; [exact E|].
  assert (length rs = n) as LR by (clear -FA; rewrite <- (seq_length n 0); induction FA; cbn [length]; congruence).
  split; [exact LR|]. cbv zeta.
  assert (B : forall i, (i < n)%nat -> nth i (map (fun r => snd (fst r)) rs) (fun _ => 0) = snd (fst (nth i rs (0, (fun _ => 0), 0))) /\ nth i (map snd rs) 0 = snd (nth i rs (0, (fun _ => 0), 0))
     /\ fit_state d (ord (SHP.Pa_of m i)) (snd (fst (nth i rs (0, (fun _ => 0), 0)))) (snd (nth i rs (0, (fun _ => 0), 0)))
     /\ expected n (mass_used d (Q2R w)) (e_T d) (snd (fst (nth i rs (0, (fun _ => 0), 0)))) (snd (nth i rs (0, (fun _ => 0), 0))) = sumRn (e_rows d) (seen d i)).
  { intros i Hi. split; [apply (map_nth (fun r : R * (nat -> R) * R => snd (fst r)) rs (0, (fun _ => 0), 0))|]. split; [apply (map_nth (fun r : R * (nat -> R) * R => snd r) rs (0, (fun _ => 0), 0))|].
    pose proof (Forall2_nth_seq _ _ (0, (fun _ => 0), 0) _ _ FA i Hi) as Fi. cbn beta in Fi. destruct (nth i rs (0, (fun _ : nat => 0), 0)) as [[Li alpha] mu]. cbn [fst snd].
    destruct (fit_run ends d i (ord (SHP.Pa_of m i)) (Q2R w)) with (fuel := fuel) (Li := @None R) (alpha := fun j => rand j i * IZR (mat_get m j i)) (mu := 1) (L := Li) (alpha' := alpha) (mu' := mu) as [A1 [A2 A3]]; auto; [rewrite ST; auto|exact (PN i)]. }
  unfold strengths, base_rate. cbn [fst snd]. split.
  - intros i Hi. destruct (B i Hi) as [B1 [B2 [[A0 [AZ M0]] EX]]]. rewrite B1, B2. split; auto. split; auto. split.
    + intros j Hj Q. apply AZ. intros F. apply PI in F. destruct F as [_ F]. rewrite Q in F. discriminate.
    + fold to_end. rewrite <- (ST i Hi). rewrite <- EX. unfold expected. f_equal. apply sum_ext. intros j Hj. rewrite MU; auto.
  - apply rsum_Forall2. apply Forall2_map_r.
    assert (FB : Forall2 (fun i r => r = nth i rs (0, (fun _ => 0), 0)) (seq 0 n) rs).
    { rewrite <- LR. apply self_nth. }
    eapply Forall2_imp_in; [|exact FB]. intros i r Hi ->. apply in_seq in Hi. assert (i < n)%nat as Hi' by lia. destruct (B i Hi') as [B1 [B2 _]]. rewrite B1, B2.
    pose proof (Forall2_nth_seq _ _ (0, (fun _ => 0), 0) _ _ FA i Hi') as Fi. cbn beta in Fi. destruct (nth i rs (0, (fun _ : nat => 0), 0)) as [[Li alpha] mu]. cbn [fst snd] in *.
    destruct (fit_run ends d i (ord (SHP.Pa_of m i)) (Q2R w)) with (fuel := fuel) (Li := @None R) (alpha := fun j => rand j i * IZR (mat_get m j i)) (mu := 1) (L := Li) (alpha' := alpha) (mu' := mu) as [A1 [A2 A3]]; auto.
    + rewrite ST; auto.
    + exact (PN i).
    + rewrite A2. unfold loglik, expected. f_equal. f_equal. apply sum_ext. intros j Hj. unfold mass_reported. f_equal. f_equal. exact (ST j Hj).
Qed.

(** C103.  EM_not_HC on a fresh object, for any graph, also one with cycles or with edges from a type to itself: it ends; base rates
    are positive, strengths not negative and 0 where there is no edge; the expected numbers of events are those seen; and the score is
    the log likelihood of the whole process less the price of the types and the edges. *)
Theorem C103_fit : forall ks kt ky evs decay w k init pk P stamp f g, calendar (Some w) evs stamp f g ->
  shp_init ks kt ky evs decay (Some (w, k)) init pk = Ok P -> 0 < decay -> (0 < p_T P)%Qc ->
  let d := em_data_of P decay (Some (w, k)) in
  let n := length (p_names P) in
  let name j := nth j (p_names P) 0%nat in
  forall m pen reg ord rand, zero_one n m -> (forall l, Permutation (ord l) l) -> (forall j i, 0 <= rand j i) ->
  (forall j i, mat_get m j i = 1%Z -> exists e, In e evs /\ ev_type e = name j /\ (stamp e < g (ev_seq e))%Qc) ->
  exists rounds, forall fuel, (rounds <= fuel)%nat -> exists t score r, EM_not_HC fuel d pen reg (INR (times_sum P)) ord rand m [] = Ok (t, r)
    /\ fst (fst r) = Some score /\ length (snd (fst r)) = n /\ length (snd r) = n
    /\ (forall i, (i < n)%nat -> 0 < base_rate r i /\ (forall j, (j < n)%nat -> 0 <= strengths r i j) /\ (forall j, (j < n)%nat -> mat_get m j i = 0%Z -> strengths r i j = 0)
          /\ expected n (fun j => mass_to_end evs decay stamp g (name j) * Q2R w) (Q2R (p_T P)) (strengths r i) (base_rate r i) = count_of evs (name i))
    /\ score = sumRn n (fun i => loglik (length (p_X P)) n (fun x => e_X d x i) (p_S P) (fun j => count_of evs (name j) / decay) (Q2R (p_T P)) (strengths r i) (base_rate r i))
               - (INR n + INR (edge_count n m)) * price pen reg evs.
Proof.
  intros ks kt ky evs decay w k init pk P stamp f g C HR D T d n name m pen reg ord rand Z1 O Hr Hm.
  destruct (fit_graph ends_not_HC ks kt ky evs decay w k init pk P stamp f g) with (m := m) (ord := ord) (rand := rand) as [rounds K]; auto.
  { intros x Hx. unfold ends_not_HC. destruct (Rle_dec x (85 / 10000)); auto. lra. }
  exists rounds. intros fuel Hf. destruct (K fuel Hf) as [t [rs [E [LR [B L]]]]]. unfold EM_not_HC. replace (e_n d) with n by reflexivity.
  change (fit_nodes ends_not_HC fuel d rand m (fun i => ord (SHP.Pa_of m i)) [] (seq 0 n) = Ok (t, rs)) in E. rewrite E.
  cbn [rbind fst snd]. eexists t, _, _. split; [reflexivity|]. cbn [fst snd]. split; [reflexivity|]. split; [rewrite map_length; auto|]. split; [rewrite map_length; auto|]. split; [exact B|].
  rewrite L, (mat_sum_edges n m Z1), <- INR_IZR_INZ, (times_sum_is _ _ _ _ _ _ _ _ _ HR). unfold price. destruct pen; match goal with |- ?a - _ = ?b - _ => change b with a; ring end.
Qed.
Print Assumptions C103_fit.

(** C103.  The same for EM on a graph without a cycle; here an edge costs 1 under AIC. *)
Theorem C103_fit_EM : forall ks kt ky evs decay w k init pk P stamp f g, calendar (Some w) evs stamp f g ->
  shp_init ks kt ky evs decay (Some (w, k)) init pk = Ok P -> 0 < decay -> (0 < p_T P)%Qc ->
  let d := em_data_of P decay (Some (w, k)) in
  let n := length (p_names P) in
  let name j := nth j (p_names P) 0%nat in
  forall m pen reg rand, zero_one n m -> SHP.check_DAG m = Ok true -> (forall j i, 0 <= rand j i) ->
  (forall j i, mat_get m j i = 1%Z -> exists e, In e evs /\ ev_type e = name j /\ (stamp e < g (ev_seq e))%Qc) ->
  exists rounds, forall fuel, (rounds <= fuel)%nat -> exists t score r, EM fuel d pen reg (INR (times_sum P)) rand m [] = Ok (t, r)
    /\ fst (fst r) = Some score /\ length (snd (fst r)) = n /\ length (snd r) = n
    /\ (forall i, (i < n)%nat -> 0 < base_rate r i /\ (forall j, (j < n)%nat -> 0 <= strengths r i j) /\ (forall j, (j < n)%nat -> mat_get m j i = 0%Z -> strengths r i j = 0)
          /\ expected n (fun j => mass_to_end evs decay stamp g (name j) * Q2R w) (Q2R (p_T P)) (strengths r i) (base_rate r i) = count_of evs (name i))
    /\ score = sumRn n (fun i => loglik (length (p_X P)) n (fun x => e_X d x i) (p_S P) (fun j => count_of evs (name j) / decay) (Q2R (p_T P)) (strengths r i) (base_rate r i))
               - (INR n + INR (edge_count n m)) * match pen with AIC => 1 | BIC => ln (INR (length evs)) * reg end.
Proof.
  intros ks kt ky evs decay w k init pk P stamp f g C HR D T d n name m pen reg rand Z1 DG Hr Hm.
  destruct (fit_graph ends_EM ks kt ky evs decay w k init pk P stamp f g) with (m := m) (ord := fun l : list nat => l) (rand := rand) as [rounds K]; auto.
  { intros x Hx. unfold ends_EM. destruct (Rlt_dec x (85 / 10000)); auto. }
  exists rounds. intros fuel Hf. destruct (K fuel Hf) as [t [rs [E [LR [B L]]]]]. unfold EM. rewrite DG. cbn [rbind]. replace (e_n d) with n by reflexivity.
  change (fit_nodes ends_EM fuel d rand m (SHP.Pa_of m) [] (seq 0 n) = Ok (t, rs)) in E. rewrite E.
  cbn [rbind fst snd]. eexists t, _, _. split; [reflexivity|]. cbn [fst snd]. split; [reflexivity|]. split; [rewrite map_length; auto|]. split; [rewrite map_length; auto|]. split; [exact B|].
  rewrite L, (mat_sum_edges n m Z1), <- INR_IZR_INZ, (times_sum_is _ _ _ _ _ _ _ _ _ HR). destruct pen; match goal with |- ?a - _ = ?b - _ => change b with a; ring end.
Qed.
Print Assumptions C103_fit_EM.

(** The tables of an object on which the two functions have been called in any order with any graphs. *)
Inductive called (d : em_data) (pen : penalty) (reg times : R) (ord : list nat -> list nat) : hist -> Prop :=
| called_none : called d pen reg times ord []
| called_EM : forall t fuel rand m t' r, called d pen reg times ord t -> EM fuel d pen reg times rand m t = Ok (t', r) -> called d pen reg times ord t'
| called_not_HC : forall t fuel rand m t' r, called d pen reg times ord t -> EM_not_HC fuel d pen reg times ord rand m t = Ok (t', r) -> called d pen reg times ord t'.

Lemma called_ok : forall d pen reg times ord t, called d pen reg times ord t -> hist_ok t.
Proof.
  intros d pen reg times ord t H. induction H as [|t fuel rand m t' r H IH E|t fuel rand m t' r H IH E].
  - intros i Pa Li al mu E. discriminate.
  - unfold EM in E. destruct (SHP.check_DAG m) as [[|]|]; cbn [rbind] in E; [|inversion E; subst; auto|discriminate].
    destruct (fit_nodes ends_EM fuel d rand m (SHP.Pa_of m) t (seq 0 (e_n d))) as [[t1 rs]|] eqn:F; [|discriminate]. cbn [rbind fst snd] in E. inversion E; subst.
    apply (fit_nodes_stored _ _ _ _ _ _ _ _ _ _ (seq_NoDup _ _) IH F).
  - unfold EM_not_HC in E. destruct (fit_nodes ends_not_HC fuel d rand m (fun i => ord (SHP.Pa_of m i)) t (seq 0 (e_n d))) as [[t1 rs]|] eqn:F; [|discriminate]. cbn [rbind fst snd] in E. inversion E; subst.
    apply (fit_nodes_stored _ _ _ _ _ _ _ _ _ _ (seq_NoDup _ _) IH F).
Qed.

Lemma nth_combine_alpha : forall rs rs' : list (R * (nat -> R) * R), length rs = length rs' -> forall i j,
  nth i (map (fun r => snd (fst r)) rs) (fun _ => 0) j = snd (fst (fst (nth i (combine rs rs') ((0, (fun _ => 0), 0), (0, (fun _ => 0), 0))))) j
  /\ nth i (map (fun r => snd (fst r)) rs') (fun _ => 0) j = snd (fst (snd (nth i (combine rs rs') ((0, (fun _ => 0), 0), (0, (fun _ => 0), 0))))) j.
Proof.
  intros rs rs' L i j. rewrite combine_nth by auto. cbn [fst snd]. split.
  - rewrite (map_nth (fun r : R * (nat -> R) * R => snd (fst r)) rs (0, (fun _ => 0), 0)). auto.
  - rewrite (map_nth (fun r : R * (nat -> R) * R => snd (fst r)) rs' (0, (fun _ => 0), 0)). auto.
Qed.

(** Both functions read the same entries. *)
Lemma replay : forall ends ends' fuel fuel' d rand rand' m causes t t' rs, zero_one (e_n d) m -> (forall i j, In j (causes i) <-> (j < e_n d)%nat /\ mat_get m j i = 1%Z) -> hist_ok t ->
  fit_nodes ends fuel d rand m causes t (seq 0 (e_n d)) = Ok (t', rs) ->
  exists rs', fit_nodes ends' fuel' d rand' m causes t' (seq 0 (e_n d)) = Ok (t', rs')
  /\ map (fun r => fst (fst r)) rs' = map (fun r => fst (fst r)) rs /\ map snd rs' = map snd rs
  /\ forall i j, (i < e_n d)%nat -> (j < e_n d)%nat -> nth i (map (fun r => snd (fst r)) rs') (fun _ => 0) j = nth i (map (fun r => snd (fst r)) rs) (fun _ => 0) j.
Proof.
  intros ends ends' fuel fuel' d rand rand' m causes t t' rs Z1 CI HO F.
  destruct (fit_nodes_stored _ _ _ _ _ _ _ _ _ _ (seq_NoDup _ _) HO F) as [_ [_ S]].
  destruct (fit_nodes_again ends' fuel' d rand' m causes t' (seq 0 (e_n d)) (fun i j => rand j i * IZR (mat_get m j i)) rs S) as [rs' [A [B [C D]]]].
  exists rs'. split; auto. split; auto. split; auto. intros i j Hi Hj.
  assert (L : length rs' = length rs) by (rewrite <- (map_length snd rs'), C, map_length; auto).
  destruct (nth_combine_alpha rs' rs L i j) as [-> ->].
  pose proof (Forall2_nth_seq _ _ ((0, (fun _ => 0), 0), (0, (fun _ => 0), 0)) _ _ D i Hi) as [Q1 Q2].
  destruct (in_dec Nat.eq_dec j (causes i)) as [K|K]; [apply Q1; auto|]. destruct (Q2 j K) as [-> ->].
  destruct (zero_one_get _ m j i Z1) as [E|E]; [rewrite E; lra|]. exfalso. apply K. apply CI. auto.
Qed.

(** C103.  Calling EM_not_HC again with the same graph estimates nothing: whatever the random numbers, it returns the same score,
    strengths and base rates, without one round. *)
Theorem C103_again : forall d pen reg times ord t m fuel rand t' r, called d pen reg times ord t -> zero_one (e_n d) m -> (forall l, Permutation (ord l) l) ->
  EM_not_HC fuel d pen reg times ord rand m t = Ok (t', r) ->
  forall rand', exists r', EM_not_HC 0 d pen reg times ord rand' m t' = Ok (t', r')
  /\ fst (fst r') = fst (fst r) /\ snd r' = snd r /\ forall i j, (i < e_n d)%nat -> (j < e_n d)%nat -> strengths r' i j = strengths r i j.
Proof.
  intros d pen reg times ord t m fuel rand t' r CA Z1 O H rand'. unfold EM_not_HC in H.
  destruct (fit_nodes ends_not_HC fuel d rand m (fun i => ord (SHP.Pa_of m i)) t (seq 0 (e_n d))) as [[t1 rs]|] eqn:F; [|discriminate]. cbn [rbind fst snd] in H. inversion H; subst. clear H.
  destruct (replay ends_not_HC ends_not_HC fuel 0 d rand rand' m (fun i => ord (SHP.Pa_of m i)) t t' rs Z1) as [rs' [A [B [C D]]]]; auto.
  - intros i j. rewrite <- (Pa_of_in _ m i j Z1). split; apply Permutation_in; [|symmetry]; apply O.
  - exact (called_ok _ _ _ _ _ _ CA).
  - unfold EM_not_HC. rewrite A. cbn [rbind fst snd]. rewrite B, C. eexists. split; [reflexivity|]. cbn [fst snd]. split; auto.
Qed.
Print Assumptions C103_again.

(** C103.  EM after EM_not_HC on the same graph: minus infinity if it has a cycle.  If it has none, and sets of causes are run
    through in ascending order, EM returns the strengths and base rates that are in the table; its score is the same under BIC,
    and under AIC, where EM leaves out [reg], another one unless [reg] is 1. *)
Theorem C103_shared : forall d pen reg times ord t m fuel rand t' r score, called d pen reg times ord t -> zero_one (e_n d) m -> (forall i, ord (SHP.Pa_of m i) = SHP.Pa_of m i) ->
  EM_not_HC fuel d pen reg times ord rand m t = Ok (t', r) -> fst (fst r) = Some score ->
  forall rand', (SHP.check_DAG m = Ok false -> exists r', EM 0 d pen reg times rand' m t' = Ok (t', r') /\ fst (fst r') = None)
  /\ (SHP.check_DAG m = Ok true -> exists r' score', EM 0 d pen reg times rand' m t' = Ok (t', r') /\ fst (fst r') = Some score'
        /\ score' = score + match pen with AIC => (INR (e_n d) + INR (edge_count (e_n d) m)) * (reg - 1) | BIC => 0 end
        /\ snd r' = snd r /\ forall i j, (i < e_n d)%nat -> (j < e_n d)%nat -> strengths r' i j = strengths r i j).
Proof.
  intros d pen reg times ord t m fuel rand t' r score CA Z1 O H HS rand'. unfold EM_not_HC in H.
  destruct (fit_nodes ends_not_HC fuel d rand m (fun i => ord (SHP.Pa_of m i)) t (seq 0 (e_n d))) as [[t1 rs]|] eqn:F; [|discriminate]. cbn [rbind fst snd] in H. inversion H; subst. clear H.
  cbn [fst snd] in HS. inversion HS; subst. clear HS.
  assert (F' : fit_nodes ends_not_HC fuel d rand m (SHP.Pa_of m) t (seq 0 (e_n d)) = Ok (t', rs)).
  { rewrite <- F. clear -O. revert t. induction (seq 0 (e_n d)) as [|i is IH]; intros t; auto. cbn [fit_nodes]. rewrite O.
    destruct (fit_node ends_not_HC fuel d (fun j => rand j i * IZR (mat_get m j i)) (SHP.Pa_of m i) t i) as [[t1 r1]|]; auto. cbn [rbind fst snd]. rewrite IH. auto. }
  split; intros DG; unfold EM; rewrite DG; cbn [rbind].
  - eexists. split; [reflexivity|]. auto.
  - destruct (replay ends_not_HC ends_EM fuel 0 d rand rand' m (SHP.Pa_of m) t t' rs Z1) as [rs' [A [B [C D]]]]; auto.
    + intros i j. apply (Pa_of_in _ m i j Z1).
    + exact (called_ok _ _ _ _ _ _ CA).
    + rewrite A. cbn [rbind fst snd]. rewrite B, C. eexists _, _. split; [reflexivity|]. cbn [fst snd]. split; [reflexivity|]. split; [|split; auto].
      rewrite (mat_sum_edges _ m Z1), <- INR_IZR_INZ. destruct pen; ring.
Qed.
Print Assumptions C103_shared.

(** The process of three events, types 0, 1 and 0 at the times 0, 1 and 2, with the graph 0 -> 1, 1 -> 0. *)
Definition three_events : list event := [Ev 0 (Q2Qc 0) 0; Ev 0 (Q2Qc 1) 1; Ev 0 (Q2Qc 2) 0].
Definition both_ways : list (list Z) := [[0; 1]; [1; 0]]%Z.
Lemma three_prepared : exists P, shp_init Objects Floats Ints three_events 1 (Some (Q2Qc 1, Ints)) None true = Ok P
  /\ calendar (Some (Q2Qc 1)) three_events ev_time (fun _ => Q2Qc 0) (fun _ => Q2Qc 2) /\ p_names P = [0; 1]%nat /\ (0 < p_T P)%Qc.
Proof.
  assert (forall a b : Qc, Qeq a b -> a = b) as QE by (intros; apply Qc_is_canon; auto).
  destruct (proj2 (C99_raises Objects Floats Ints three_events 1 (Some (Q2Qc 1, Ints)) None true)) as [_ [_ Q0]]; [intros d k E; inversion E; subst; discriminate|].
  destruct (Q0 eq_refl) as [_ Q1]; [discriminate|]. destruct Q1 as [P [E _]]; [auto 10|]. clear Q0.
  destruct (shp_ok _ _ _ _ _ _ _ _ _ E) as [_ [EN [ET _]]]. cbn zeta in EN, ET. exists P. split; auto. split; [|split].
  - split; [intros d E'; inversion E'; subst; reflexivity|]. split.
    + intros e [<-|[<-|[<-|[]]]]; (split; [|split; intro; (split; [discriminate|]) || (split; [reflexivity|])]).
      * exists 0%Z. apply QE. vm_compute. reflexivity.
      * reflexivity.
      * discriminate.
      * exists 1%Z. apply QE. vm_compute. reflexivity.
      * reflexivity.
      * discriminate.
      * exists 2%Z. apply QE. vm_compute. reflexivity.
      * reflexivity.
      * discriminate.
    + split; intros s [e [He <-]]; simpl in He; (split; [|intros a [<-|[<-|[<-|[]]]] _; simpl; discriminate]).
      * exists (Ev 0 (Q2Qc 0) 0). simpl. destruct He as [<-|[<-|[<-|[]]]]; simpl; auto.
      * exists (Ev 0 (Q2Qc 2) 0). simpl. destruct He as [<-|[<-|[<-|[]]]]; simpl; auto.
  - rewrite EN. vm_compute. reflexivity.
  - rewrite ET. vm_compute. reflexivity.
Qed.

(** A case for C103_fit, C103_again and the first part of C103_shared; [SHP.check_DAG] of a graph without edges is for the second. *)
Example C103_example : exists P t r, shp_init Objects Floats Ints three_events 1 (Some (Q2Qc 1, Ints)) None true = Ok P /\ zero_one 2 both_ways
  /\ (forall i, In i [0; 1]%nat -> exists e, In e three_events /\ ev_type e = nth i (p_names P) 0%nat /\ (ev_time e < Q2Qc 2)%Qc)
  /\ called (em_data_of P 1 (Some (Q2Qc 1, Ints))) BIC 1 3 (fun l => l) t
  /\ (exists fuel, EM_not_HC fuel (em_data_of P 1 (Some (Q2Qc 1, Ints))) BIC 1 3 (fun l => l) (fun _ _ => 1 / 2) both_ways [] = Ok (t, r)) /\ fst (fst r) <> None
  /\ SHP.check_DAG both_ways = Ok false /\ SHP.check_DAG [[0; 1]; [0; 0]]%Z = Ok true.
Proof.
  destruct three_prepared as [P [E [C [N T]]]].
  assert (Z1 : zero_one 2 both_ways) by (split; [reflexivity|]; intros r' [<-|[<-|[]]]; (split; [reflexivity|]); intros z [<-|[<-|[]]]; auto).
  assert (HE : forall i, In i [0; 1]%nat -> exists e, In e three_events /\ ev_type e = nth i (p_names P) 0%nat /\ (ev_time e < Q2Qc 2)%Qc).
  { intros i [<-|[<-|[]]]; rewrite N; [exists (Ev 0 (Q2Qc 0) 0)|exists (Ev 0 (Q2Qc 1) 1)]; (split; [simpl; auto|]); split; reflexivity. }
  destruct (C103_fit Objects Floats Ints three_events 1 (Q2Qc 1) Ints None true P ev_time (fun _ => Q2Qc 0) (fun _ => Q2Qc 2) C E) with (m := both_ways) (pen := BIC) (reg := 1) (ord := fun l : list nat => l) (rand := fun _ _ : nat => 1 / 2) as [rounds K].
  - lra.
  - exact T.
  - rewrite N. exact Z1.
  - intros l. apply Permutation_refl.
  - intros _ _. lra.
  - intros j i M. apply HE. destruct j as [|[|j]]; simpl; auto. exfalso. unfold mat_get, both_ways in M. rewrite (nth_overflow [_; _]) in M by (simpl; lia). destruct i; discriminate.
  - destruct (K rounds (le_n _)) as [t [score [r [H1 [H2 _]]]]]. rewrite (times_sum_is _ _ _ _ _ _ _ _ _ E) in H1.
    replace (INR (length three_events)) with 3 in H1 by (simpl; ring).
    exists P, t, r. split; auto. split; auto. split; auto. split; [eapply called_not_HC; [apply called_none|exact H1]|].
    split; [exists rounds; exact H1|]. split; [rewrite H2; discriminate|]. split; vm_compute; reflexivity.
Qed.
