(** Facts about UpdataData.py, Infer_Causal_Order.py and FindCausalCluster.py. *)

From Coq Require Import List Arith Bool Lia Permutation Sorting.Sorted QArith.
From Verif Require Import Model.Py Model.LHS Proofs.PyFacts Proofs.MergeFacts Spec.Clusters.
Import ListNotations.
Open Scope nat_scope.

(* ---------- UpdataData ---------- *)
Lemma select_ok : forall d ns f, select d ns = Ok f ->
  length f = length ns /\ forall i, i < length ns -> dget Nat.eqb d (nth i ns 0) = Some (nth i (map snd f) 0).
Proof.
  induction ns as [|v ns IH]; simpl; intros f H.
  - inversion H; subst. split; auto. intros; simpl in *; lia.
  - unfold col, dgetE in H. destruct (dget Nat.eqb d v) as [c|] eqn:E; [|discriminate]. cbn [rbind] in H.
    destruct (select d ns) as [g|] eqn:S; [|discriminate]. inversion H; subst.
    destruct (IH g eq_refl) as [L N]. split; [simpl; lia|]. intros [|i] Hi; simpl; auto. apply N. lia.
Qed.

Lemma select_total : forall d ns, incl ns (columns d) -> exists f, select d ns = Ok f.
Proof.
  induction ns as [|v ns IH]; simpl; intros H; [eauto|].
  unfold col, dgetE. destruct (dget Nat.eqb d v) as [c|] eqn:E.
  - destruct IH as [f ->]; [intros a Ha; apply H; right; auto|]. simpl. eauto.
  - exfalso. apply (dget_None_key _ Neqb_spec) in E. apply E. apply H. left. auto.
Qed.

Lemma introduce_ok : forall lname Cs k latent sur names indexs k' latent' sur' names' indexs',
  introduce lname Cs k latent sur names indexs = Ok (k', latent', sur', names', indexs') ->
  (forall C, In C Cs -> C <> []) /\
  k' = k + length Cs /\ sur' = sur ++ map (hd 0) Cs /\ names' = names ++ map lname (seq k (length Cs)) /\
  (forall x, In x indexs' <-> In x indexs /\ forall C, In C Cs -> ~ In x C) /\
  (NoDup indexs -> NoDup indexs').
Proof.
  induction Cs as [|C Cs IH]; simpl; intros k latent sur names indexs k' latent' sur' names' indexs' H.
  - inversion H; subst. rewrite !app_nil_r. split; [intros C []|]. repeat split; auto; try tauto.
  - destruct C as [|x r] eqn:EC; [discriminate|]. rewrite <- EC in *. apply IH in H.
    destruct H as [H1 [-> [-> [-> [H2 H3]]]]]. rewrite <- !app_assoc. simpl.
    split; [intros D [<-|HD]; [rewrite EC; discriminate|auto]|]. split; [lia|]. split; [rewrite EC; auto|].
    split; [rewrite Nat.add_1_r; auto|]. split.
    + intro y. rewrite H2, set_minus_In. split.
      * intros [[A B] D]. split; auto. intros E [<-|HE]; auto.
      * intros [A B]. split; [split|]; auto.
    + intro N. apply H3. apply NoDup_filter. auto.
Qed.

Lemma introduce_total : forall lname Cs k latent sur names indexs,
  (forall C, In C Cs -> C <> []) ->
  exists k' latent' sur' names' indexs', introduce lname Cs k latent sur names indexs = Ok (k', latent', sur', names', indexs').
Proof.
  induction Cs as [|C Cs IH]; simpl; intros; [do 5 eexists; reflexivity|].
  destruct C as [|x r]; [exfalso; apply (H []); auto|]. apply IH. intros; apply H; auto.
Qed.

Lemma removed_acc : forall Cs acc r,
  fold_left (fun acc C => rbind acc (fun r => match C with [] => Err IndexError | _ :: rest => Ok (r ++ rest) end)) Cs acc = Ok r ->
  exists r0, acc = Ok r0 /\ (forall C, In C Cs -> C <> []) /\ r = r0 ++ concat (map (@tl nat) Cs).
Proof.
  induction Cs as [|C Cs IH]; simpl; intros acc r H.
  - exists r. split; auto. split; [intros C []|rewrite app_nil_r; auto].
  - apply IH in H. destruct H as [r0 [E [N ->]]]. destruct acc as [a|]; [|discriminate]. cbn [rbind] in E.
    destruct C as [|x C]; [discriminate|]. inversion E; subst. exists a. split; auto.
    split; [intros D [<-|HD]; [discriminate|auto]|]. simpl. rewrite app_assoc. auto.
Qed.

Lemma removed_ok : forall Cs r, removed Cs = Ok r ->
  (forall C, In C Cs -> C <> []) /\ r = concat (map (@tl nat) Cs).
Proof.
  intros Cs r H. apply removed_acc in H. destruct H as [r0 [E [N ->]]]. inversion E; subst. auto.
Qed.

Lemma removed_total : forall Cs, (forall C, In C Cs -> C <> []) -> removed Cs = Ok (concat (map (@tl nat) Cs)).
Proof.
  intros Cs. unfold removed.
  assert (G : forall Cs r0, (forall C, In C Cs -> C <> []) ->
    fold_left (fun acc C => rbind acc (fun r => match C with [] => Err IndexError | _ :: rest => Ok (r ++ rest) end)) Cs (Ok r0)
    = Ok (r0 ++ concat (map (@tl nat) Cs))).
  { induction Cs0 as [|C Cs0 IH]; simpl; intros r0 H; [rewrite app_nil_r; auto|].
    destruct C as [|x C]; [exfalso; apply (H []); auto|]. cbn [rbind]. rewrite IH by (intros; apply H; auto).
    simpl. rewrite app_assoc. auto. }
  intro H. exact (G Cs [] H).
Qed.

(** The names and the data of the updated frame. *)
Lemma update_data_layout : forall ord lname merge early pure k latent data d' k' latent',
  ord_ok ord ->
  update_data ord lname merge early pure k latent data = Ok (d', k', latent') ->
  exists rest,
    (forall v, In v rest <-> In v (columns data) /\ (forall C, In C early -> ~ In v (tl C)) /\ (forall C, In C (merge ++ pure) -> ~ In v C)) /\
    NoDup rest /\
    k' = k + length (merge ++ pure) /\
    columns d' = rest ++ map lname (seq k (length (merge ++ pure))) /\
    length d' = length (merge ++ pure) + length rest /\
    (forall i, i < length d' ->
       dget Nat.eqb data (nth i (map (hd 0) (merge ++ pure) ++ rest) 0) = Some (nth i (map snd d') 0)) /\
    (forall C, In C (merge ++ pure) -> C <> []).
Proof.
  intros ord lname merge early pure k latent data d' k' latent' O H. unfold update_data in H.
  destruct (removed early) as [rm|] eqn:R; [|discriminate]. cbn [rbind] in H.
  apply removed_ok in R. destruct R as [_ ->].
  set (ix := set_minus (py_set (columns data)) (concat (map (@tl nat) early))) in *.
  destruct (introduce lname (merge ++ pure) k latent [] [] ix) as [[[[[a b] c] e] f]|] eqn:I; [|discriminate].
  cbn [rbind] in H. apply introduce_ok in I. destruct I as [NE [-> [-> [-> [HI HN]]]]]. simpl app in *.
  set (sur := map (hd 0) (merge ++ pure)) in *.
  destruct (select data sur) as [t|] eqn:T; [|discriminate]. cbn [rbind] in H.
  destruct (select data (ord f)) as [t2|] eqn:T2; [|discriminate]. cbn [rbind] in H. inversion H; subst. clear H.
  apply select_ok in T. apply select_ok in T2. destruct T as [L1 N1], T2 as [L2 N2].
  assert (Ls : length sur = length (merge ++ pure)) by (unfold sur; apply map_length).
  set (nm := map lname (seq k (length (merge ++ pure)))) in *.
  assert (Ln : length nm = length (merge ++ pure)) by (unfold nm; rewrite map_length, seq_length; auto).
  assert (LL : length (ord f ++ nm) = length (map snd (t ++ t2))) by (rewrite map_length, !app_length; lia).
  assert (Fst : forall (l1 l2 : list nat), length l1 = length l2 -> map fst (combine l1 l2) = l1 /\ map snd (combine l1 l2) = l2).
  { induction l1; intros [|y l2] Hl; simpl in *; try discriminate; auto. destruct (IHl1 l2); [lia|]. split; f_equal; auto. }
  destruct (Fst _ _ LL) as [F1 F2].
  exists (ord f). split; [|split; [|split; [|split; [|split; [|split]]]]]; auto.
  - intro v. rewrite ord_In by auto. rewrite HI. unfold ix. rewrite set_minus_In, py_set_In, in_concat. split.
    + intros [[A B] D]. split; auto. split; auto. intros C HC Hv. apply B. exists (tl C). split; auto. apply in_map. auto.
    + intros [A [B D]]. split; [split; auto|auto]. intros [l [Hl Hv]]. apply in_map_iff in Hl. destruct Hl as [C [<- HC]]. exact (B C HC Hv).
  - apply Permutation_NoDup with f; [apply Permutation_sym; auto|]. apply HN. apply NoDup_filter. apply py_set_NoDup.
  - rewrite combine_length, LL, Nat.min_id, map_length, app_length. lia.
  - intros i Hi. rewrite F2. rewrite combine_length, LL, Nat.min_id, map_length, app_length in Hi.
    rewrite map_app. destruct (Nat.lt_ge_cases i (length sur)).
    + rewrite !app_nth1 by (rewrite ?map_length; lia). apply N1. auto.
    + rewrite !app_nth2 by (rewrite ?map_length; lia). rewrite map_length, L1. apply N2. lia.
Qed.

(** [dget] at the first position of a name. *)
Lemma dget_first : forall (d : frame) i, i < length d -> (forall j, j < i -> nth j (dkeys d) 0 <> nth i (dkeys d) 0) ->
  dget Nat.eqb d (nth i (dkeys d) 0) = Some (nth i (map snd d) 0).
Proof.
  induction d as [|[a b] d IH]; simpl; intros i Hi F; [lia|].
  destruct i as [|i]; [rewrite Nat.eqb_refl; auto|].
  destruct (Nat.eqb_spec (nth i (dkeys d) 0) a).
  - exfalso. apply (F 0); simpl; auto; lia.
  - apply IH; [lia|]. intros j Hj. apply (F (S j)). lia.
Qed.

Lemma dget_inj : forall (d : frame) u v c, NoDup (map snd d) ->
  dget Nat.eqb d u = Some c -> dget Nat.eqb d v = Some c -> u = v.
Proof.
  intros d u v c ND Hu Hv.
  assert (I : forall w, dget Nat.eqb d w = Some c -> In (w, c) d).
  { clear. induction d as [|[a b] d IH]; simpl; intros w H; [discriminate|].
    destruct (Nat.eqb_spec w a); [inversion H; subst; auto|auto]. }
  apply I in Hu. apply I in Hv. clear I. induction d as [|[a b] d IH]; simpl in *; [tauto|].
  inversion ND; subst. destruct Hu as [Hu|Hu], Hv as [Hv|Hv].
  - congruence.
  - inversion Hu; subst. exfalso. apply H1. apply in_map_iff. exists (v, c). auto.
  - inversion Hv; subst. exfalso. apply H1. apply in_map_iff. exists (u, c). auto.
  - auto.
Qed.

(* ---------- GetObservedForLatent ---------- *)
Lemma get_observed_step : forall f latent obs L x r,
  dget Nat.eqb latent L = Some (x :: r) -> get_observed (S f) latent obs L = get_observed f latent obs x.
Proof. intros. simpl. rewrite H. auto. Qed.

(* ---------- Infer_Causal_Order ---------- *)
Lemma remove_cluster_ok : forall x l r, remove_cluster x l = Ok r -> Permutation l (x :: r).
Proof.
  induction l as [|y l IH]; simpl; intros r H; [discriminate|].
  unfold cluster_eqb in H. destruct (list_eq_dec Nat.eq_dec x y).
  - inversion H; subst. auto.
  - destruct (remove_cluster x l) as [r'|]; [|discriminate]. cbn [rbind] in H. inversion H; subst.
    rewrite (IH r' eq_refl). apply perm_swap.
Qed.

Lemma remove_cluster_total : forall x l, In x l -> exists r, remove_cluster x l = Ok r.
Proof.
  induction l as [|y l IH]; simpl; intros H; [tauto|].
  unfold cluster_eqb. destruct (list_eq_dec Nat.eq_dec x y); [eauto|].
  destruct H as [<-|H]; [congruence|]. destruct IH as [r ->]; auto. simpl. eauto.
Qed.

Lemma candidate_scores_length : forall mi cands all K l, candidate_scores mi cands all K = Ok l -> length l = length cands.
Proof.
  induction cands as [|c cands IH]; simpl; intros all K l H; [inversion H; auto|].
  destruct (remove_cluster c all) as [o|]; [|discriminate]. cbn [rbind] in H.
  destruct (candidate_score mi c o K 0%Q); [|discriminate]. cbn [rbind] in H.
  destruct (candidate_scores mi cands all K) eqn:E; [|discriminate]. cbn [rbind] in H. inversion H; subst.
  simpl. f_equal. eauto.
Qed.

Lemma argmin_bound : forall l best bi i, bi < i -> argmin best bi i l < i + length l.
Proof.
  induction l as [|x l IH]; simpl; intros; [lia|].
  destruct (negb (Qle_bool best x)); rewrite Nat.add_succ_r; apply (IH _ _ (S i)); lia.
Qed.

Lemma find_root_In : forall mi cl K r, find_root mi cl K = Ok r -> In r cl.
Proof.
  intros mi cl K r H. unfold find_root in H. destruct (Nat.eqb_spec (length cl) 1).
  - inversion H; subst. apply nth_In. lia.
  - destruct (candidate_scores mi cl cl K) as [[|x l]|] eqn:E; cbn [rbind] in H; try discriminate.
    apply candidate_scores_length in E. inversion H; subst. apply nth_In. rewrite <- E. simpl.
    apply (argmin_bound l x 0 1). lia.
Qed.

Lemma order_loop_perm : forall fuel mi cl K out, order_loop fuel mi cl K = Ok out -> Permutation out (K ++ cl).
Proof.
  induction fuel as [|fuel IH]; intros mi cl K out H.
  - destruct cl; simpl in H; [|discriminate]. inversion H; subst. rewrite app_nil_r. auto.
  - destruct cl as [|c cl]; cbn [order_loop] in H; [inversion H; subst; rewrite app_nil_r; auto|].
    destruct (find_root mi (c :: cl) K) as [root|] eqn:E; [|discriminate]. cbn [rbind] in H.
    destruct (remove_cluster root (c :: cl)) as [rest|] eqn:R; [|discriminate]. cbn [rbind] in H.
    apply IH in H. apply remove_cluster_ok in R. rewrite H, <- app_assoc. simpl.
    apply Permutation_app_head. symmetry. auto.
Qed.

Lemma candidate_score_total : forall mi clu K others acc, order_Z clu K <> [] -> exists q, candidate_score mi clu others K acc = Ok q.
Proof.
  induction others as [|o others IH]; simpl; intros acc H; [eauto|].
  unfold gin_mi. destruct (order_Z clu K) as [|z zs] eqn:E; [congruence|]. cbn [rbind]. apply IH. auto.
Qed.

Lemma candidate_scores_total : forall mi K all cands, incl cands all ->
  (forall c, In c cands -> order_Z c K <> []) -> exists l, candidate_scores mi cands all K = Ok l.
Proof.
  induction cands as [|c cands IH]; simpl; intros I H; [eauto|].
  destruct (remove_cluster_total c all) as [o ->]; [apply I; left; auto|]. cbn [rbind].
  destruct (candidate_score_total mi c K o 0%Q) as [q ->]; [apply H; auto|]. cbn [rbind].
  destruct IH as [l ->]; [intros a Ha; apply I; right; auto|intros; apply H; auto|]. simpl. eauto.
Qed.

Lemma second_half_nonempty : forall c, 2 <= length c -> second_half c <> [].
Proof.
  intros c H E. apply (f_equal (@length nat)) in E. unfold second_half in E. rewrite skipn_length in E. change (length (@nil nat)) with 0 in E.
  assert ((length c + 1) / 2 < length c); [|lia]. apply Nat.div_lt_upper_bound; lia.
Qed.

Lemma second_half_empty : forall c, length c <= 1 -> second_half c = [].
Proof.
  intros [|a [|b c]] H; auto. simpl in H. exfalso. lia.
Qed.

Lemma find_root_total : forall mi cl K, cl <> [] -> (forall c, In c cl -> order_Z c K <> []) -> exists r, find_root mi cl K = Ok r.
Proof.
  intros mi cl K N H. unfold find_root. destruct (Nat.eqb_spec (length cl) 1); [eauto|].
  destruct (candidate_scores_total mi K cl cl (incl_refl _) H) as [l E]. rewrite E. cbn [rbind].
  apply candidate_scores_length in E. destruct l; [|eauto]. destruct cl; [congruence|discriminate].
Qed.

Lemma order_loop_total : forall fuel mi cl K, length cl <= fuel ->
  (forall c, In c cl -> 2 <= length c) -> exists out, order_loop fuel mi cl K = Ok out.
Proof.
  induction fuel as [|fuel IH]; intros mi cl K F H.
  - destruct cl; [simpl; eauto|simpl in F; lia].
  - destruct cl as [|c cl]; cbn [order_loop]; [eauto|].
    destruct (find_root_total mi (c :: cl) K) as [r E]; [discriminate| |].
    { intros a Ha Z. unfold order_Z in Z. apply app_eq_nil in Z. destruct Z as [Z _].
      exact (second_half_nonempty a (H a Ha) Z). }
    rewrite E. cbn [rbind]. apply find_root_In in E. destruct (remove_cluster_total _ _ E) as [rest R].
    rewrite R. cbn [rbind]. apply remove_cluster_ok in R. apply IH.
    + apply Permutation_length in R. simpl in *. lia.
    + intros a Ha. apply H. apply Permutation_in with (r :: rest); [symmetry; auto|right; auto].
Qed.

Lemma candidate_scores_fail : forall mi all cands c, In c cands -> length c <= 1 -> 2 <= length all -> incl cands all ->
  exists e, candidate_scores mi cands all [] = Err e.
Proof.
  induction cands as [|a cands IH]; simpl; intros c H L A I; [tauto|].
  destruct (remove_cluster_total a all) as [o R]; [apply I; left; auto|]. rewrite R. cbn [rbind].
  apply remove_cluster_ok in R. apply Permutation_length in R. simpl in R.
  destruct H as [->|H].
  - destruct o as [|o1 o]; [simpl in R; lia|]. cbn [candidate_score].
    unfold order_Z. rewrite second_half_empty by auto. simpl. eauto.
  - destruct (candidate_score mi a o [] 0%Q); cbn [rbind]; [|eauto].
    destruct (IH c H L A) as [e E]; [intros b Hb; apply I; right; auto|]. rewrite E. simpl. eauto.
Qed.

(** The minimum. *)
Lemma argmin_min : forall l best bi i pre,
  length pre = i -> bi < i -> nth bi pre 0%Q = best ->
  (forall j, j < i -> (best <= nth j pre 0%Q)%Q) -> (forall j, j < bi -> (best < nth j pre 0%Q)%Q) ->
  let r := argmin best bi i l in
  (forall j, j < i + length l -> (nth r (pre ++ l) 0%Q <= nth j (pre ++ l) 0%Q)%Q) /\
  (forall j, j < r -> (nth r (pre ++ l) 0%Q < nth j (pre ++ l) 0%Q)%Q).
Proof.
  induction l as [|x l IH]; intros best bi i pre L B N M SS; simpl.
  - rewrite app_nil_r, Nat.add_0_r, N. auto.
  - assert (Hx : nth i (pre ++ [x]) 0%Q = x) by (rewrite app_nth2 by lia; replace (i - length pre) with 0 by lia; auto).
    assert (Hl : forall j, j < i -> nth j (pre ++ [x]) 0%Q = nth j pre 0%Q) by (intros; apply app_nth1; lia).
    replace (pre ++ x :: l) with ((pre ++ [x]) ++ l) by (rewrite <- app_assoc; auto).
    rewrite Nat.add_succ_r. change (S (i + length l)) with (S i + length l).
    destruct (Qle_bool best x) eqn:Q; simpl negb; cbv iota.
    + apply Qle_bool_iff in Q. apply (IH best bi (S i) (pre ++ [x])).
      * rewrite app_length; simpl; lia.
      * lia.
      * rewrite Hl; auto.
      * intros j Hj. destruct (Nat.eq_dec j i) as [->|]; [rewrite Hx; auto|]. rewrite Hl by lia. apply M. lia.
      * intros j Hj. rewrite Hl by lia. auto.
    + assert (QX : (x < best)%Q).
      { apply Qnot_le_lt. intro H. apply Qle_bool_iff in H. congruence. }
      apply (IH x i (S i) (pre ++ [x])).
      * rewrite app_length; simpl; lia.
      * lia.
      * auto.
      * intros j Hj. destruct (Nat.eq_dec j i) as [->|]; [rewrite Hx; apply Qle_refl|].
        rewrite Hl by lia. apply Qle_trans with best; [apply Qlt_le_weak; auto|apply M; lia].
      * intros j Hj. rewrite Hl by lia. apply Qlt_le_trans with best; auto.
Qed.

(** Scores of the candidates as sums. *)
Lemma filter_absent : forall x l, ~ In x l -> filter (fun o => negb (cluster_eqb x o)) l = l.
Proof.
  induction l as [|y l IH]; simpl; intros H; auto. unfold cluster_eqb at 1.
  destruct (list_eq_dec Nat.eq_dec x y) as [->|N]; [exfalso; auto|]. simpl. f_equal. auto.
Qed.

Lemma remove_cluster_filter : forall x l r, NoDup l -> remove_cluster x l = Ok r ->
  r = filter (fun o => negb (cluster_eqb x o)) l.
Proof.
  induction l as [|y l IH]; simpl; intros r ND H; [discriminate|]. inversion ND; subst.
  destruct (cluster_eqb x y) eqn:E; simpl.
  - inversion H; subst. unfold cluster_eqb in E. destruct (list_eq_dec Nat.eq_dec x y); [|discriminate]. subst.
    symmetry. apply filter_absent. auto.
  - destruct (remove_cluster x l) as [r'|] eqn:R; [|discriminate]. cbn [rbind] in H. inversion H; subst.
    f_equal. apply IH; auto.
Qed.

Lemma candidate_score_sum : forall mi c K others acc q, candidate_score mi c others K acc = Ok q ->
  q = fold_left (fun s o => (s + mi (order_X c o K) (order_Z c K))%Q) others acc.
Proof.
  induction others as [|o others IH]; simpl; intros acc q H; [inversion H; auto|].
  unfold gin_mi in H. destruct (order_Z c K) eqn:Z; [discriminate|]. cbn [rbind] in H. apply IH in H. auto.
Qed.

Lemma candidate_scores_nth : forall mi K all cands l, candidate_scores mi cands all K = Ok l ->
  forall i, i < length cands -> exists others, remove_cluster (nth i cands []) all = Ok others /\
    candidate_score mi (nth i cands []) others K 0%Q = Ok (nth i l 0%Q).
Proof.
  induction cands as [|c cands IH]; simpl; intros l H i Hi; [lia|].
  destruct (remove_cluster c all) as [o|] eqn:R; [|discriminate]. cbn [rbind] in H.
  destruct (candidate_score mi c o K 0%Q) as [q|] eqn:S; [|discriminate]. cbn [rbind] in H.
  destruct (candidate_scores mi cands all K) as [qs|] eqn:Q; [|discriminate]. cbn [rbind] in H. inversion H; subst.
  destruct i as [|i]; simpl; [eauto|]. apply IH; auto. lia.
Qed.
