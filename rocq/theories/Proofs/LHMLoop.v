(** The main loop: what a round can do, when it makes progress, and when it
    repeats for ever. *)

From Coq Require Import List Arith Bool Lia Permutation Relations.
From Verif Require Import Model.Py Model.LHS Model.LHM Spec.Clusters Spec.Hierarchy Spec.LHMRun.
From Verif Require Import Proofs.PyFacts Proofs.MergeFacts Proofs.LHSFacts Proofs.FindFacts Proofs.LHMMerge Proofs.LHMRound Proofs.LHMStep.
Import ListNotations.
Open Scope nat_scope.
Open Scope res_scope.

Lemma concat_length_ge : forall k (Ls : list (list nat)), (forall C, In C Ls -> k <= length C) -> k * length Ls <= length (concat Ls).
Proof.
  induction Ls as [|C Ls IH]; simpl; intros H; [lia|]. rewrite app_length. pose proof (H C (or_introl eq_refl)).
  assert (k * length Ls <= length (concat Ls)) by (apply IH; intros; apply H; auto). nia.
Qed.

(** What the loop of MergeCausalCluster returns only grows; if nothing is merged, introduced
    or learned then the index is unchanged and no cluster is pure. *)
Record quiet (pure : list (list nat)) (Cs : list (list nat)) (m m' : merged) : Prop := {
  q_len : length (m_merge m) <= length (m_merge m') /\ length (m_erem m) <= length (m_erem m') /\ length (m_pure m) <= length (m_pure m');
  q_same : length (m_merge m') = length (m_merge m) -> length (m_erem m') = length (m_erem m) -> length (m_pure m') = length (m_pure m) ->
    m_latent m' = m_latent m /\ forall C, In C Cs -> set_contains C pure = false
}.

Lemma early_updates_quiet : forall ord inner outer TH m q, early_updates ord inner outer TH m = Ok q ->
  m_merge (fst q) = m_merge m /\ length (m_erem m) <= length (m_erem (fst q)) /\ m_pure (fst q) = m_pure m.
Proof.
  intros ord inner outer. induction TH as [|C TH IH]; cbn [early_updates]; intros m q E.
  - inversion E; subst. auto.
  - destruct (early_latent inner outer C) as [L|].
    + destruct (update_latent ord L C (m_latent m)) as [lat|e]; [|discriminate]. cbn [rbind] in E.
      destruct (early_updates ord inner outer TH _) as [q'|e] eqn:E'; [|discriminate]. cbn [rbind] in E. apply IH in E'. simpl in E'.
      inversion E; subst. simpl. rewrite app_length in E'. simpl in E'. destruct E' as [A [B C']]. repeat split; auto. lia.
    + destruct (early_updates ord inner outer TH m) as [q'|e] eqn:E'; [|discriminate]. cbn [rbind] in E. apply IH in E'. inversion E; subst. auto.
Qed.

Lemma merge_loop_quiet : forall G d pure impure inner outer fuel Ls m m',
  merge_loop fuel G d pure impure inner outer Ls m = Ok m' -> quiet pure Ls m m'.
Proof.
  intros G d pure impure inner outer. induction fuel as [|f IH]; intros Ls m m' E.
  - destruct Ls; cbn in E; inversion E; subst. constructor; auto. intros _ _ _. split; auto. intros C [].
  - destruct Ls as [|C0 Ls0]; [cbn in E; inversion E; subst; constructor; auto; intros _ _ _; split; auto; intros C []|].
    cbn [merge_loop] in E.
    assert (SP : C0 :: Ls0 = removelast (C0 :: Ls0) ++ [last (C0 :: Ls0) []]) by (apply app_removelast_last; discriminate).
    set (Ls := C0 :: Ls0) in *. set (C1 := last Ls []) in *. set (rest := removelast Ls) in *.
    destruct (hope_to_merge G d pure impure C1 rest) as [H|e]; cbn [rbind] in E; [|discriminate].
    destruct H as [|h H].
    + destruct (single (g_ord G) inner outer pure impure C1 m) as [m1|e] eqn:ES; cbn [rbind] in E; [|discriminate].
      apply IH in E. destruct E as [[A1 [A2 A3]] B]. unfold single in ES.
      destruct (early_by_dic C1 inner) as [L|].
      { destruct (memb L C1); [|discriminate]. destruct (update_latent _ _ _ _) as [lat|e]; [|discriminate]. cbn [rbind] in ES.
        inversion ES; subst m1. simpl in *. rewrite app_length in A2. simpl in A2. constructor; [lia|]. intros; exfalso; lia. }
      destruct (early_by_dic C1 outer) as [L|].
      { destruct (update_latent _ _ _ _) as [lat|e]; [|discriminate]. cbn [rbind] in ES.
        inversion ES; subst m1. simpl in *. rewrite app_length in A2. simpl in A2. constructor; [lia|]. intros; exfalso; lia. }
      destruct (set_contains C1 pure) eqn:SC.
      { inversion ES; subst m1. simpl in *. rewrite app_length in A3. simpl in A3. constructor; [lia|]. intros; exfalso; lia. }
      assert (FA : m_merge m1 = m_merge m /\ m_erem m1 = m_erem m /\ m_pure m1 = m_pure m /\ m_latent m1 = m_latent m)
        by (destruct (set_contains C1 impure); inversion ES; subst m1; auto).
      destruct FA as [F1 [F2 [F3 F4]]]. rewrite F1, F2, F3, F4 in *. constructor; auto.
      intros Z1 Z2 Z3. destruct (B Z1 Z2 Z3) as [B1 B2]. split; auto. intros C HC. rewrite SP in HC. apply in_app_iff in HC.
      destruct HC as [HC|[<-|[]]]; auto.
    + destruct (early_updates (g_ord G) inner outer (C1 :: h :: H) m) as [q|e] eqn:EU; cbn [rbind] in E; [|discriminate].
      apply early_updates_quiet in EU. destruct EU as [U1 [U2 U3]]. apply IH in E. destruct E as [[A1 [A2 A3]] B]. simpl in A1, A2, A3.
      rewrite U1, app_length in A1. simpl in A1. rewrite U3 in A3. constructor; [lia|]. intros; exfalso; lia.
Qed.

(** A round that goes on: the next state is fine, and either there are fewer
    active variables or nothing has been merged, introduced or learned. *)
Record advanced (G : setting) (s s' : state) : Prop := {
  a_inv : inv G s';
  a_less : length (columns (s_data s')) < length (columns (s_data s)) \/
    (Permutation (columns (s_data s)) (columns (s_data s')) /\ s_latent s' = s_latent s /\ s_num s' = s_num s)
}.

Lemma round_ok : forall G s, setting_ok G -> inv G s -> pairwise_disjoint (found G s) ->
  (exists s', lhm_round G s = Ok (false, s') /\ advanced G s s') \/
  (exists s' d', lhm_round G s = Ok (true, s') /\
     inv G (State d' (s_pure s') (s_impure s') (s_latent s') (s_num s')) /\ incl (columns d') (columns (s_data s'))) \/
  lhm_round G s = Err SystemExit \/
  (lhm_round G s = Err IndexError /\ bad_latent s (pure_now G s)).
Proof.
  intros G s SO IV DJ. destruct (found_ok G s SO (i_data _ _ IV)) as [P [I [pairs [EF [HF HS]]]]].
  assert (PN : pure_now G s = s_pure s ++ P) by (unfold pure_now; rewrite EF; auto).
  assert (PU : forall C, In C (s_pure s ++ P) -> NoDup C /\ 2 <= length C).
  { intros C HC. apply in_app_iff in HC. destruct HC as [HC|HC]; [apply (i_pure _ _ IV); auto|].
    destruct (HF C) as [A [B _]]; auto. apply HS. auto. }
  unfold lhm_round. rewrite EF. cbn [rbind].
  destruct (merge_effect G s (found G s) (s_pure s ++ P) (s_impure s ++ I) SO IV DJ HF PU) as [[m [impure' [E [EFF HPU]]]]|[E B]].
  2: { right. right. right. rewrite E, PN. auto. }
  rewrite E. cbn [rbind].
  assert (KL : dkeys (m_latent m) = dkeys (s_latent s)) by apply (e_grew _ _ _ _ _ _ EFF).
  destruct (update_data_full (g_ord G) (g_lname G) (m_merge m) (m_erem m) (m_pure m) (s_num s) (m_latent m) (s_data s)) as [d' [rest [EU [HR [NR CD]]]]].
  { exact (g_ord_ok _ SO). }
  { exact (g_name_inj _ SO). }
  { intros j Hj F. rewrite KL in F. apply (i_names _ _ IV) in F. destruct F as [j' [Hj' E']]. apply (g_name_inj _ SO) in E'. lia. }
  { intros C HC. apply (e_ers _ _ _ _ _ _ EFF). auto. }
  { intros C HC. split.
    - intro F. pose proof (e_two _ _ _ _ _ _ EFF C HC) as T. rewrite F in T. simpl in T. lia.
    - intros x Hx. apply (e_cols _ _ _ _ _ _ EFF). apply in_app_iff. right. apply in_concat. eauto. }
  rewrite EU. cbn [rbind].
  destruct (effect_inv G s _ _ _ _ (s_pure s ++ P) impure' d' rest SO IV EFF PU HR NR CD) as [IV' PM].
  set (go := Ok (Nat.leb (g_rows G) 1, State d' (s_pure s ++ P) impure'
    (m_latent m ++ combine (map (g_lname G) (seq (s_num s) (length (m_merge m ++ m_pure m)))) (m_merge m ++ m_pure m)) (s_num s + length (m_merge m ++ m_pure m)))).
  assert (GO : (exists s', go = Ok (false, s') /\ advanced G s s') \/
    (exists s' d', go = Ok (true, s') /\
     inv G (State d' (s_pure s') (s_impure s') (s_latent s') (s_num s')) /\ incl (columns d') (columns (s_data s')))).
  { unfold go. destruct (Nat.leb (g_rows G) 1).
    - right. eexists _, d'. split; [reflexivity|]. simpl. split; [exact IV'|apply incl_refl].
    - left. eexists. split; [reflexivity|]. constructor; [exact IV'|]. simpl.
      pose proof (Permutation_length PM) as PL. rewrite !app_length in PL. rewrite CD, app_length, map_length, seq_length.
      pose proof (concat_length_ge 2 (m_merge m ++ m_pure m) (e_two _ _ _ _ _ _ EFF)) as G2.
      assert (G1 : 1 * length (map (@tl nat) (m_erem m)) <= length (concat (map (@tl nat) (m_erem m)))).
      { apply concat_length_ge. intros C HC. apply in_map_iff in HC. destruct HC as [e [<- He]]. apply (e_ers _ _ _ _ _ _ EFF). auto. }
      rewrite map_length in G1.
      destruct (m_merge m ++ m_pure m) as [|g gs] eqn:EG; [|left; simpl in *; lia].
      destruct (m_erem m) as [|e es] eqn:EE; [|left; simpl in *; lia].
      right. simpl. simpl in PM. rewrite !app_nil_r. split; auto. split; [|auto].
      apply app_eq_nil in EG. destruct EG as [EG1 EG2]. unfold merge_causal_cluster in E.
      destruct (early_dicts _ _ _ _ _ _ _ _ _) as [ds|]; cbn [rbind] in E; [|discriminate].
      destruct (merge_loop _ _ _ _ _ _ _ _ _) as [m0|] eqn:EM; cbn [rbind] in E; [|discriminate]. inversion E; subst m0.
      apply merge_loop_quiet in EM. apply (q_same _ _ _ _ EM); simpl; rewrite ?EG1, ?EG2, ?EE; auto. }
  destruct (Nat.eqb_spec (length (m_merge m)) 0) as [Z1|Z1]; cbn [andb]; [|tauto].
  destruct (Nat.eqb_spec (length (m_pure m)) 0) as [Z2|Z2]; cbn [andb]; [|tauto].
  destruct (Nat.eqb (length (m_rem m)) 0 && negb (Nat.eqb (length (m_eimp m)) 0)); [auto|].
  destruct (Nat.leb (length (m_rem m)) 3); [|tauto].
  right. left. eexists _, d'. split; [reflexivity|]. simpl.
  apply length_zero_iff_nil in Z1. apply length_zero_iff_nil in Z2. rewrite Z1, Z2 in *. simpl in IV', CD. rewrite app_nil_r in IV', CD. rewrite Nat.add_0_r in IV'.
  split; auto. intros x Hx. rewrite CD in Hx. apply HR in Hx. tauto.
Qed.

(* ---------- states that can be reached ---------- *)
Lemma reached_inv : forall G, setting_ok G -> always_disjoint G -> forall s, reached G s -> inv G s.
Proof.
  intros G SO AD s R. induction R as [|s s' R IH E]; [apply start_inv; auto|].
  destruct (round_ok G s SO IH (AD s R)) as [[t [E' A]]|[[t [d' [E' _]]]|[E'|[E' _]]]]; rewrite E in E'; inversion E'; subst. apply A.
Qed.

(* ---------- a round that changes nothing is repeated for ever ---------- *)
Lemma split_pure_shift : forall judge Ls P I, split_pure judge Ls P I = (q <-? split_pure judge Ls [] [] ;; Ok (P ++ fst q, I ++ snd q)).
Proof.
  intros judge. induction Ls as [|C Ls IH]; intros P I; cbn [split_pure].
  - cbn. rewrite !app_nil_r. auto.
  - assert (A : split_pure judge Ls (P ++ [C]) I = (q <-? split_pure judge Ls ([] ++ [C]) [] ;; Ok (P ++ fst q, I ++ snd q))).
    { rewrite (IH (P ++ [C]) I), (IH ([] ++ [C]) []). destruct (split_pure judge Ls [] []) as [q|e]; cbn; auto. rewrite <- app_assoc. auto. }
    assert (B : split_pure judge Ls P (I ++ [C]) = (q <-? split_pure judge Ls [] ([] ++ [C]) ;; Ok (P ++ fst q, I ++ snd q))).
    { rewrite (IH P (I ++ [C])), (IH [] ([] ++ [C])). destruct (split_pure judge Ls [] []) as [q|e]; cbn; auto. rewrite <- app_assoc. auto. }
    destruct (Nat.ltb 2 (length C)); [exact A|]. destruct (judge C) as [b|e]; cbn [rbind]; auto. destruct b; [exact A|exact B].
Qed.

Lemma find_sized_shift : forall check Ss Ls I B, find_sized check Ss Ls I B =
  (q <-? find_sized check Ss Ls [] B ;; Ok (fst (fst q), I ++ snd (fst q), snd q)).
Proof.
  intros check. induction Ss as [|C Ss IH]; intros Ls I B; cbn [find_sized].
  - cbn. rewrite app_nil_r. auto.
  - destruct (check C) as [b|e]; cbn [rbind]; auto. destruct b; [|apply IH].
    rewrite (IH _ (I ++ [C])), (IH _ ([] ++ [C])). destruct (find_sized check Ss (Ls ++ [C]) [] (set_minus B C)) as [q|e]; cbn; auto.
    rewrite <- app_assoc. auto.
Qed.

Lemma find_larger_shift : forall ord check n fuel len Ls I B, find_larger fuel ord check n len Ls I B =
  (q <-? find_larger fuel ord check n len Ls [] B ;; Ok (fst q, I ++ snd q)).
Proof.
  intros ord check n. induction fuel as [|f IH]; intros len Ls I B; cbn [find_larger]; destruct (Nat.leb len (length B) && Nat.ltb (len + 2) n);
    try (cbn; rewrite app_nil_r; reflexivity); try reflexivity.
  rewrite find_sized_shift. destruct (find_sized check (combinations (ord B) len) Ls [] B) as [q|e]; cbn [rbind fst snd]; auto.
  rewrite (IH _ _ (I ++ _)), (IH _ _ (snd (fst q))). destruct (find_larger f ord check n (S len) _ [] _) as [q2|e]; cbn; auto.
  rewrite <- app_assoc. auto.
Qed.

Lemma find_shift : forall ord vt d, exists r, forall pure impure, find_causal_cluster ord vt d pure impure =
  (q <-? r ;; match q with (Ls, P, Im, pairs) => Ok (Ls, pure ++ P, impure ++ Im, pairs) end).
Proof.
  intros ord vt d. exists (find_causal_cluster ord vt d [] []). intros pure impure. unfold find_causal_cluster.
  destruct (find_pairs _ _ _) as [p|e]; cbn [rbind]; auto. destruct (merge_list ord (fst p)) as [Ls|e]; cbn [rbind]; auto.
  rewrite split_pure_shift. destruct (split_pure _ Ls [] []) as [q|e]; cbn [rbind fst snd]; auto.
  rewrite (find_larger_shift _ _ _ _ _ _ (impure ++ snd q)), (find_larger_shift _ _ _ _ _ _ (snd q)).
  destruct (find_larger _ _ _ _ _ _ _ _) as [r|e]; cbn [rbind fst snd]; auto. rewrite <- app_assoc. auto.
Qed.

(** Two lists of impure clusters with the same sets. *)
Definition same_sets (i1 i2 : list (list nat)) : Prop := forall C, set_contains C i1 = set_contains C i2.

Lemma set_contains_app : forall C a b, set_contains C (a ++ b) = set_contains C a || set_contains C b.
Proof. intros C a b. unfold set_contains. apply existsb_app. Qed.

Section Same.
  Variables (G : setting) (d : frame) (pure i1 i2 : list (list nat)).
  Hypothesis SS : same_sets i1 i2.

  Lemma early_dicts_same : forall rem latent Cs inner outer,
    early_dicts G Cs rem d latent pure i1 inner outer = early_dicts G Cs rem d latent pure i2 inner outer.
  Proof.
    intros rem latent. induction Cs as [|C Cs IH]; intros inner outer; cbn [early_dicts]; auto. rewrite (SS C).
    destruct (if set_contains C i2 then outer_early G rem C d latent pure else Ok None) as [o|e]; cbn [rbind]; auto.
    destruct o; auto. destruct (inner_early G C d latent pure) as [o|e]; cbn [rbind]; auto. destruct o; auto.
  Qed.

  Lemma hope_same : forall C1 Cs, hope_to_merge G d pure i1 C1 Cs = hope_to_merge G d pure i2 C1 Cs.
  Proof.
    intros C1. induction Cs as [|C Cs IH]; cbn [hope_to_merge]; auto. unfold merge_test. rewrite (SS C), (SS C1), IH. auto.
  Qed.

  Lemma merge_loop_same : forall inner outer fuel Ls m,
    merge_loop fuel G d pure i1 inner outer Ls m = merge_loop fuel G d pure i2 inner outer Ls m.
  Proof.
    intros inner outer. induction fuel as [|f IH]; intros Ls m; cbn [merge_loop]; auto.
    destruct Ls as [|C Ls]; auto. rewrite hope_same. destruct (hope_to_merge _ _ _ _ _ _) as [H|e]; cbn [rbind]; auto.
    destruct H as [|h H].
    - unfold single. rewrite (SS (last (C :: Ls) [])).
      match goal with |- rbind ?x _ = _ => destruct x as [m'|e]; cbn [rbind]; auto end.
    - destruct (early_updates _ _ _ _ _) as [q|e]; cbn [rbind]; auto.
  Qed.
End Same.

(** A round that goes on and gives back the same data repeats for ever. *)
Lemma idle_round : forall G s s', setting_ok G -> inv G s -> pairwise_disjoint (found G s) ->
  lhm_round G s = Ok (false, s') -> s_data s' = s_data s ->
  s_pure s' = s_pure s /\ s_latent s' = s_latent s /\ s_num s' = s_num s /\
  (forall t, s_data t = s_data s -> s_pure t = s_pure s -> s_latent t = s_latent s -> s_num t = s_num s -> same_sets (s_impure t) (s_impure s') ->
     exists t', lhm_round G t = Ok (false, t') /\ s_data t' = s_data s /\ s_pure t' = s_pure s /\ s_latent t' = s_latent s /\ s_num t' = s_num s /\
       same_sets (s_impure t') (s_impure s')).
Proof.
  intros G s s' SO IV DJ ER ED.
  destruct (found_ok G s SO (i_data _ _ IV)) as [P [I [pairs [EF [HF HS]]]]].
  destruct (find_shift (g_ord G) (g_vt G) (s_data s)) as [r FS].
  assert (ESH : forall pure impure, find_causal_cluster (g_ord G) (g_vt G) (s_data s) pure impure = Ok (found G s, pure ++ P, impure ++ I, pairs)).
  { intros pure impure. pose proof (FS (s_pure s) (s_impure s)) as F0. rewrite EF in F0. rewrite (FS pure impure).
    destruct r as [[[[a b] c] e]|e]; cbn [rbind] in *; [|discriminate]. inversion F0 as [[H1 H2 H3 H4]].
    apply app_inv_head in H2. apply app_inv_head in H3. subst. auto. }
  assert (PU : forall C, In C (s_pure s ++ P) -> NoDup C /\ 2 <= length C).
  { intros C HC. apply in_app_iff in HC. destruct HC as [HC|HC]; [apply (i_pure _ _ IV); auto|].
    destruct (HF C) as [A [B _]]; auto. apply HS. auto. }
  pose proof ER as ER0.
  unfold lhm_round in ER. rewrite EF in ER. cbn [rbind] in ER.
  destruct (merge_effect G s (found G s) (s_pure s ++ P) (s_impure s ++ I) SO IV DJ HF PU) as [[m [impure' [E [EFF HPU]]]]|[E B]].
  2: { rewrite E in ER. discriminate. }
  rewrite E in ER. cbn [rbind] in ER.
  assert (KL : dkeys (m_latent m) = dkeys (s_latent s)) by apply (e_grew _ _ _ _ _ _ EFF).
  destruct (update_data_full (g_ord G) (g_lname G) (m_merge m) (m_erem m) (m_pure m) (s_num s) (m_latent m) (s_data s)) as [d' [rest [EU [HR [NR CD]]]]].
  { exact (g_ord_ok _ SO). }
  { exact (g_name_inj _ SO). }
  { intros j Hj F. rewrite KL in F. apply (i_names _ _ IV) in F. destruct F as [j' [Hj' E']]. apply (g_name_inj _ SO) in E'. lia. }
  { intros C HC. apply (e_ers _ _ _ _ _ _ EFF). auto. }
  { intros C HC. split.
    - intro F. pose proof (e_two _ _ _ _ _ _ EFF C HC) as T. rewrite F in T. simpl in T. lia.
    - intros x Hx. apply (e_cols _ _ _ _ _ _ EFF). apply in_app_iff. right. apply in_concat. eauto. }
  rewrite EU in ER. cbn [rbind] in ER.
  destruct (effect_inv G s _ _ _ _ (s_pure s ++ P) impure' d' rest SO IV EFF PU HR NR CD) as [_ PM].
  set (fin := State d' (s_pure s ++ P) impure' (m_latent m ++ combine (map (g_lname G) (seq (s_num s) (length (m_merge m ++ m_pure m)))) (m_merge m ++ m_pure m)) (s_num s + length (m_merge m ++ m_pure m))) in ER.
  assert (SF : s' = fin /\ Nat.leb (g_rows G) 1 = false).
  { destruct (Nat.eqb (length (m_merge m)) 0 && Nat.eqb (length (m_pure m)) 0); [|inversion ER; auto].
    destruct (Nat.eqb (length (m_rem m)) 0 && negb (Nat.eqb (length (m_eimp m)) 0)); [discriminate|].
    destruct (Nat.leb (length (m_rem m)) 3); inversion ER; auto. }
  destruct SF as [SF RB]. rewrite SF in ED. simpl in ED.
  (* nothing happened *)
  pose proof (Permutation_length PM) as PL. rewrite !app_length in PL.
  assert (CE : columns d' = columns (s_data s)) by (rewrite ED; auto).
  rewrite CD in CE. apply (f_equal (@length nat)) in CE. rewrite app_length, map_length, seq_length in CE.
  pose proof (concat_length_ge 2 (m_merge m ++ m_pure m) (e_two _ _ _ _ _ _ EFF)) as G2.
  assert (G1 : 1 * length (map (@tl nat) (m_erem m)) <= length (concat (map (@tl nat) (m_erem m)))).
  { apply concat_length_ge. intros C HC. apply in_map_iff in HC. destruct HC as [e [<- He]]. apply (e_ers _ _ _ _ _ _ EFF). auto. }
  rewrite map_length in G1.
  assert (Z0 : m_merge m ++ m_pure m = []) by (apply length_zero_iff_nil; lia).
  assert (Z1 : m_merge m = []) by (apply app_eq_nil in Z0; tauto).
  assert (Z2 : m_pure m = []) by (apply app_eq_nil in Z0; tauto).
  assert (Z3 : m_erem m = []) by (apply length_zero_iff_nil; rewrite Z0 in *; simpl in *; lia).
  pose proof E as E0. unfold merge_causal_cluster in E0.
  set (i0 := match found G s with [] => (s_impure s ++ I) ++ [columns (s_data s)] | _ => s_impure s ++ I end) in E0.
  destruct (early_dicts G (found G s) (remaining (s_data s) (found G s)) (s_data s) (s_latent s) (s_pure s ++ P) i0 [] []) as [ds|e] eqn:EDS; cbn [rbind] in E0; [|discriminate].
  destruct (merge_loop (length (found G s)) G (s_data s) (s_pure s ++ P) i0 (fst ds) (snd ds) (found G s) (Merged [] [] [] [] (remaining (s_data s) (found G s)) (s_latent s))) as [m0|e] eqn:EM; cbn [rbind] in E0; [|discriminate].
  inversion E0; subst m0. clear E0.
  pose proof (merge_loop_quiet _ _ _ _ _ _ _ _ _ _ EM) as [_ Q]. simpl in Q. rewrite Z1, Z2, Z3 in Q. destruct (Q eq_refl eq_refl eq_refl) as [QL QP]. clear Q.
  assert (PN : P = []).
  { destruct P as [|C P']; auto. exfalso. assert (HC : In C (found G s)) by (apply HS; left; left; auto). apply QP in HC.
    rewrite set_contains_app in HC. apply orb_false_iff in HC. destruct HC as [_ HC]. simpl in HC.
    assert (set_eqb C C = true); [|rewrite H in HC; discriminate].
    unfold set_eqb. assert (set_leb C C = true) by (apply set_leb_spec; apply incl_refl). rewrite H. auto. }
  subst P. rewrite app_nil_r in *. subst s'. unfold fin. simpl. rewrite Z0. simpl. rewrite QL, !app_nil_r, Nat.add_0_r.
  split; auto. split; auto. split; auto.
  intros t T1 T2 T3 T4 T5.
  assert (NF : found G s <> []).
  { intro F. rewrite F in EM. cbn in EM. inversion EM; subst m. simpl in *. unfold lhm_round in ER0. rewrite EF in ER0. cbn [rbind] in ER0. rewrite E in ER0. cbn in ER0.
    discriminate. }
  assert (I0 : i0 = s_impure s ++ I) by (unfold i0; destruct (found G s); [congruence|auto]).
  assert (SI : same_sets (s_impure t ++ I) (s_impure s ++ I)).
  { intro C. specialize (T5 C). subst i0 impure'. rewrite I0 in T5. rewrite !set_contains_app in *. rewrite T5.
    destruct (set_contains C (s_impure s)), (set_contains C I); auto. }
  assert (ET : merge_causal_cluster G (found G s) (s_pure s) (s_impure t ++ I) (s_latent s) (s_data s) = Ok (m, s_impure t ++ I)).
  { unfold merge_causal_cluster. destruct (found G s) as [|C0 Cs0] eqn:EFo; [congruence|]. rewrite <- EFo in *.
    rewrite (early_dicts_same G (s_data s) (s_pure s) (s_impure t ++ I) i0) by (rewrite I0; exact SI). rewrite EDS. cbn [rbind].
    rewrite (merge_loop_same G (s_data s) (s_pure s) (s_impure t ++ I) i0) by (rewrite I0; exact SI). rewrite EM. cbn [rbind]. auto. }
  exists (State d' (s_pure s) (s_impure t ++ I) (s_latent s) (s_num s)). simpl.
  split; [|repeat split; auto; intro C; subst impure'; rewrite I0; apply SI].
  unfold lhm_round. rewrite T1, T2, T3, T4, ESH. cbn [rbind]. rewrite app_nil_r, ET. cbn [rbind].
  rewrite EU. cbn [rbind]. rewrite Z0. simpl combine. simpl length. rewrite QL, app_nil_r, Nat.add_0_r, RB.
  rewrite Z1, Z2 in ER |- *. simpl in ER |- *.
  destruct (Nat.eqb (length (m_rem m)) 0 && negb (Nat.eqb (length (m_eimp m)) 0)); [discriminate|].
  destruct (Nat.leb (length (m_rem m)) 3); [discriminate|auto].
Qed.

Lemma idle_forever : forall G s s', setting_ok G -> inv G s -> pairwise_disjoint (found G s) ->
  lhm_round G s = Ok (false, s') -> s_data s' = s_data s -> forall fuel, lhm_loop fuel G s = Err OutOfFuel.
Proof.
  intros G s s' SO IV DJ ER ED. destruct (idle_round G s s' SO IV DJ ER ED) as [A1 [A2 [A3 AG]]].
  assert (Gen : forall fuel t, s_data t = s_data s -> s_pure t = s_pure s -> s_latent t = s_latent s -> s_num t = s_num s ->
    same_sets (s_impure t) (s_impure s') -> lhm_loop fuel G t = Err OutOfFuel).
  { induction fuel as [|f IH]; intros t T1 T2 T3 T4 T5; cbn [lhm_loop]; auto.
    destruct (AG t T1 T2 T3 T4 T5) as [t' [E [U1 [U2 [U3 [U4 U5]]]]]]. rewrite E. cbn [rbind fst snd]. auto. }
  intros [|fuel]; cbn [lhm_loop]; auto. rewrite ER. cbn [rbind fst snd]. apply Gen; auto. intro C. auto.
Qed.

(* ---------- the loop ends, or a round keeps the number of active variables ---------- *)
Lemma loop_outcome : forall G, setting_ok G -> always_disjoint G -> forall n s fuel, reached G s ->
  length (columns (s_data s)) < n -> n <= fuel ->
  (exists s' d', lhm_loop fuel G s = Ok s' /\
     inv G (State d' (s_pure s') (s_impure s') (s_latent s') (s_num s')) /\ incl (columns d') (columns (s_data s'))) \/
  lhm_loop fuel G s = Err SystemExit \/
  (lhm_loop fuel G s = Err IndexError /\ exists t, reached G t /\ bad_latent t (pure_now G t)) \/
  (exists t t', reached G t /\ lhm_round G t = Ok (false, t') /\ Permutation (columns (s_data t)) (columns (s_data t')) /\
     s_latent t' = s_latent t /\ s_num t' = s_num t).
Proof.
  intros G SO AD. induction n as [|n IH]; intros s fuel R HL HF; [lia|]. destruct fuel as [|f]; [lia|]. cbn [lhm_loop].
  pose proof (reached_inv G SO AD s R) as IV.
  destruct (round_ok G s SO IV (AD s R)) as [[t [E A]]|[[t [d' [E [B1 B2]]]]|[E|[E B]]]]; rewrite E; cbn [rbind fst snd].
  - destruct (a_less _ _ _ A) as [LT|SAME].
    + apply IH; [eapply reached_next; eauto|lia|lia].
    + right. right. right. exists s, t. auto.
  - left. eauto.
  - auto.
  - right. right. left. split; auto. exists s. auto.
Qed.

Lemma loop_errors : forall G, setting_ok G -> always_disjoint G -> forall fuel s, reached G s ->
  (exists s' t d', lhm_loop fuel G s = Ok s' /\ reached G t /\ lhm_round G t = Ok (true, s') /\
     inv G (State d' (s_pure s') (s_impure s') (s_latent s') (s_num s')) /\ incl (columns d') (columns (s_data s'))) \/
  lhm_loop fuel G s = Err SystemExit \/
  (lhm_loop fuel G s = Err IndexError /\ exists t, reached G t /\ bad_latent t (pure_now G t)) \/
  lhm_loop fuel G s = Err OutOfFuel.
Proof.
  intros G SO AD. induction fuel as [|f IH]; intros s R; cbn [lhm_loop]; [auto|].
  destruct (round_ok G s SO (reached_inv G SO AD s R) (AD s R)) as [[t [E A]]|[[t [d' [E [B1 B2]]]]|[E|[E B]]]]; rewrite E; cbn [rbind fst snd].
  - apply IH. eapply reached_next; eauto.
  - left. exists t, s, d'. auto.
  - auto.
  - right. right. left. split; auto. exists s. auto.
Qed.

Lemma reached_loop : forall G s, reached G s -> (forall fuel, lhm_loop fuel G s = Err OutOfFuel) -> forall fuel, lhm_loop fuel G (start G) = Err OutOfFuel.
Proof.
  intros G s R. induction R as [|s s' R IH E]; intros H; auto. apply IH.
  intros [|f]; cbn [lhm_loop]; auto. rewrite E. cbn [rbind fst snd]. auto.
Qed.

(** The states of a run, to check finite examples. *)
Fixpoint run_states (fuel : nat) (G : setting) (s : state) : list state :=
  s :: match fuel with
       | 0 => []
       | S f => match lhm_round G s with Ok (false, s') => run_states f G s' | _ => [] end
       end.

Lemma run_states_reached : forall fuel G s, lhm_loop fuel G s <> Err OutOfFuel ->
  forall t, In t (run_states fuel G s) -> forall t', lhm_round G t = Ok (false, t') -> In t' (run_states fuel G s).
Proof.
  induction fuel as [|f IH]; intros G s H t Ht t' E; [cbn in H; congruence|]. cbn [run_states] in *. cbn [lhm_loop] in H.
  destruct Ht as [<-|Ht].
  - rewrite E in *. cbn [rbind fst snd] in H. right. destruct f; left; auto.
  - destruct (lhm_round G s) as [[[] s1]|e]; cbn [rbind fst snd] in H; try (destruct Ht; fail). right. apply (IH G s1 H t Ht t' E).
Qed.

Lemma reached_run : forall fuel G, lhm_loop fuel G (start G) <> Err OutOfFuel -> forall s, reached G s -> In s (run_states fuel G (start G)).
Proof.
  intros fuel G H s R. induction R as [|s s' R IH E]; [destruct fuel; left; auto|]. eapply run_states_reached; eauto.
Qed.

Fixpoint nodupb (l : list nat) : bool := match l with [] => true | x :: r => negb (memb x r) && nodupb r end.
Lemma nodupb_ok : forall l, nodupb l = true -> NoDup l.
Proof.
  induction l as [|x l IH]; simpl; intros H; constructor; apply andb_true_iff in H; destruct H as [H1 H2]; auto.
  apply negb_true_iff, memb_false in H1. auto.
Qed.
Definition disjointb (Ls : list (list nat)) : bool := nodupb (concat Ls).

Lemma disjointb_ok : forall Ls, disjointb Ls = true -> pairwise_disjoint Ls.
Proof.
  unfold disjointb. intros Ls N i j x NE Hi Hj. apply nodupb_ok in N.
  assert (LI : i < length Ls) by (destruct (Nat.lt_ge_cases i (length Ls)); auto; rewrite nth_overflow in Hi; [destruct Hi|auto]).
  assert (LJ : j < length Ls) by (destruct (Nat.lt_ge_cases j (length Ls)); auto; rewrite nth_overflow in Hj; [destruct Hj|auto]).
  apply NE. eapply NoDup_concat_two; eauto.
Qed.

Lemma always_disjoint_run : forall fuel G, lhm_loop fuel G (start G) <> Err OutOfFuel ->
  forallb (fun s => disjointb (found G s)) (run_states fuel G (start G)) = true -> always_disjoint G.
Proof.
  intros fuel G H F s R. apply disjointb_ok. rewrite forallb_forall in F. apply F. apply (reached_run fuel); auto.
Qed.

(* ---------- every variable has one root ---------- *)
Lemma inv_root : forall G s, inv G s -> forall v, In v (columns (g_ora G)) \/ In v (dkeys (s_latent s)) ->
  exists r, In r (columns (s_data s)) /\ under (s_latent s) r v.
Proof.
  intros G s IV. destruct (i_rank _ _ IV) as [rank [K [RK RR]]].
  assert (Gen : forall n v, K - rank v <= n -> In v (columns (g_ora G)) \/ In v (dkeys (s_latent s)) ->
    exists r, In r (columns (s_data s)) /\ under (s_latent s) r v).
  { induction n as [|n IH]; intros v HN HV; [specialize (RK v); lia|].
    destruct (in_dec Nat.eq_dec v (columns (s_data s))) as [A|A]; [exists v; split; [auto|apply rt_refl]|].
    assert (EX : exists p, In p (s_latent s) /\ In v (snd p)).
    { destruct (existsb (fun p => memb v (snd p)) (s_latent s)) eqn:EB.
      - apply existsb_exists in EB. destruct EB as [p [Hp Hv]]. apply memb_In in Hv. eauto.
      - exfalso. apply A. apply (i_roots _ _ IV). split; auto. intros L C E HC. apply (dget_In _ Neqb_spec) in E.
        assert (T : existsb (fun p => memb v (snd p)) (s_latent s) = true); [|congruence].
        apply existsb_exists. exists (L, C). split; auto. apply memb_In. auto. }
    destruct EX as [[L C] [HP HC]]. simpl in HC.
    assert (E : dget Nat.eqb (s_latent s) L = Some C) by (apply In_dget; auto using Neqb_spec; apply IV).
    pose proof (RR _ _ _ E HC). pose proof (RK L).
    destruct (IH L) as [r [R1 R2]]; [lia|right; apply (dget_Some_key _ Neqb_spec); congruence|].
    exists r. split; auto. eapply rt_trans; [exact R2|]. apply rt_step. exists C. auto. }
  intros v. apply (Gen (K - rank v)). auto.
Qed.

Lemma forest_root_unique : forall obs active E, forest obs active E -> forall v r r', In r active -> In r' active ->
  under E r v -> under E r' v -> r = r'.
Proof.
  intros obs active E F v r r' A A' U. revert r' A'. apply clos_rt_rtn1 in U. induction U as [|u v B U IH]; intros r' A' U'.
  - apply clos_rt_rtn1 in U'. destruct U' as [|w v B _]; auto. apply (f_roots _ _ _ F) in A. destruct A as [_ A]. destruct (A _ B).
  - apply clos_rt_rtn1 in U'. destruct U' as [|w v B' U'].
    + apply (f_roots _ _ _ F) in A'. destruct A' as [_ A']. destruct (A' _ B).
    + assert (w = u) by (eapply f_once; eauto). subst w. apply IH; auto. apply clos_rtn1_rt. auto.
Qed.

(* ---------- the edges of the drawn graph ---------- *)
Section Edges.
  Variable ord : list nat -> list nat.
  Hypothesis O : ord_ok ord.

  Lemma dset_dget : forall (E : list (nat * list nat)) k v k', dget Nat.eqb (dset Nat.eqb E k v) k' = if Nat.eqb k' k then Some v else dget Nat.eqb E k'.
  Proof.
    induction E as [|[a b] E IH]; simpl; intros k v k'.
    - destruct (Nat.eqb k' k); auto.
    - destruct (Nat.eqb_spec k a) as [->|N]; simpl.
      + destruct (Nat.eqb_spec k' a); auto.
      + rewrite IH. destruct (Nat.eqb_spec k' a) as [->|N']; auto. destruct (Nat.eqb_spec a k); auto. congruence.
  Qed.

  Lemma dset_keys : forall (E : list (nat * list nat)) k v, In k (dkeys E) -> dkeys (dset Nat.eqb E k v) = dkeys E.
  Proof.
    induction E as [|[a b] E IH]; simpl; intros k v H; [tauto|]. destruct (Nat.eqb_spec k a) as [->|N]; simpl; auto.
    f_equal. apply IH. destruct H; [congruence|auto].
  Qed.

  Lemma add_later_ok : forall L js E, In L (dkeys E) -> NoDup (dkeys E) ->
    dkeys (add_later ord L E js) = dkeys E /\
    forall L' v, below (add_later ord L E js) L' v <-> below E L' v \/ (L' = L /\ In v js).
  Proof.
    intros L. induction js as [|j js IH]; intros E HL ND.
    - simpl. split; auto. intros. split; auto. intros [H|[_ []]]; auto.
    - unfold add_later. cbn [fold_left]. destruct (dget Nat.eqb E L) as [C|] eqn:EC; [|apply (dget_None_key _ Neqb_spec) in EC; tauto].
      destruct (memb j C) eqn:M.
      + destruct (IH E HL ND) as [A B]. split; [exact A|]. intros L' v. unfold add_later in B. rewrite B. simpl.
        split; [intros [H|[H1 H2]]; auto|]. intros [H|[-> [<-|H]]]; auto.
        left. apply below_dget; auto. exists C. split; auto. apply memb_In. auto.
      + set (E1 := dset Nat.eqb E L (ord (set_union (py_set C) [j]))).
        assert (K1 : dkeys E1 = dkeys E) by (apply dset_keys; auto).
        destruct (IH E1) as [A B]; [rewrite K1; auto|rewrite K1; auto|]. split; [rewrite <- K1; exact A|]. intros L' v. unfold add_later in B. rewrite B. simpl.
        assert (B1 : below E1 L' v <-> below E L' v \/ (L' = L /\ v = j)).
        { rewrite !below_dget; [|auto|rewrite K1; auto]. unfold E1. rewrite dset_dget. destruct (Nat.eqb_spec L' L) as [->|N].
          - split.
            + intros [C' [EQ HV]]. inversion EQ; subst. apply (proj1 (ord_In _ _ _ O)) in HV. apply set_union_In in HV. rewrite py_set_In in HV.
              destruct HV as [HV|[<-|[]]]; auto. left. eauto.
            + intros H. eexists. split; [reflexivity|]. apply (proj2 (ord_In _ _ _ O)). apply set_union_In. rewrite py_set_In.
              destruct H as [[C' [EQ HV]]|[_ ->]]; [rewrite EC in EQ; inversion EQ; subst; auto|right; left; auto].
          - split; [intros H; auto|intros [H|[H _]]; [auto|congruence]]. }
        rewrite B1. split; [intros [[H|[H1 H2]]|[H1 H2]]; auto|intros [H|[H1 [H2|H2]]]; auto].
  Qed.

  Lemma before_cons : forall x C a b, before (x :: C) a b <-> (a = x /\ In b C) \/ before C a b.
  Proof.
    intros x C a b. split.
    - intros [l1 [l2 [l3 E]]]. destruct l1 as [|y l1]; simpl in E; inversion E; subst.
      + left. split; auto. apply in_app_iff. right. left. auto.
      + right. exists l1, l2, l3. auto.
    - intros [[-> H]|[l1 [l2 [l3 E]]]].
      + apply in_split in H. destruct H as [l2 [l3 ->]]. exists [], l2, l3. auto.
      + exists (x :: l1), l2, l3. rewrite E. auto.
  Qed.

  Lemma tran_cluster_ok : forall C E, NoDup (dkeys E) -> dkeys (tran_cluster ord C E) = dkeys E /\
    forall L v, below (tran_cluster ord C E) L v <-> below E L v \/ (In L (dkeys E) /\ before C L v).
  Proof.
    induction C as [|x C IH]; intros E ND; cbn [tran_cluster].
    - split; auto. intros L v. split; auto. intros [H|[_ [a [b [c F]]]]]; auto. destruct a; discriminate.
    - destruct (memb x (dkeys E)) eqn:M.
      + apply memb_In in M. destruct (add_later_ok x C E M ND) as [K B]. destruct (IH (add_later ord x E C)) as [K2 B2]; [rewrite K; auto|].
        split; [congruence|]. intros L v. rewrite B2, B, K, before_cons. split.
        * intros [[H|[-> H]]|[H1 H2]]; auto.
        * intros [H|[H1 [[-> H2]|H2]]]; auto.
      + apply memb_false in M. destruct (IH E ND) as [K2 B2]. split; auto. intros L v. rewrite B2, before_cons. split.
        * intros [H|[H1 H2]]; auto.
        * intros [H|[H1 [[-> H2]|H2]]]; auto. tauto.
  Qed.

  Lemma tran_impure_ok : forall Cs E, NoDup (dkeys E) -> dkeys (tran_impure ord E Cs) = dkeys E /\
    forall L v, below (tran_impure ord E Cs) L v <-> below E L v \/ (In L (dkeys E) /\ exists C, In C Cs /\ before C L v).
  Proof.
    induction Cs as [|C Cs IH]; intros E ND; unfold tran_impure; cbn [fold_left].
    - split; auto. intros L v. split; auto. intros [H|[_ [C [[] _]]]]. auto.
    - destruct (tran_cluster_ok C E ND) as [K B]. destruct (IH (tran_cluster ord C E)) as [K2 B2]; [rewrite K; auto|].
      unfold tran_impure in *. split; [congruence|]. intros L v. rewrite B2, B, K. split.
      + intros [[H|[H1 H2]]|[H1 [C' [H2 H3]]]]; auto.
        * right. split; auto. exists C. split; [left|]; auto.
        * right. split; auto. exists C'. split; [right|]; auto.
      + intros [H|[H1 [C' [[<-|H2] H3]]]]; auto. right. split; auto. eauto.
  Qed.
End Edges.
