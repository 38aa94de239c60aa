(** The score table and the hill climbing of SHP. *)

From Coq Require Import List Arith Bool Lia ZArith QArith.
From Verif Require Import Model.Py Model.Graph Model.Networkx Model.SHP Spec.Digraphs.
From Verif Require Import Proofs.PyFacts Proofs.RelExt Proofs.NumpyFacts Proofs.NxFacts.
Import ListNotations.
Open Scope nat_scope.

(* ---------- matrices ---------- *)
Definition zero_one (n : nat) (m : list (list Z)) : Prop :=
  shape n m /\ forall i j, mat_get m i j = 0%Z \/ mat_get m i j = 1%Z.

Definition edge (m : list (list Z)) (u v : nat) : Prop := u <> v /\ mat_get m u v <> 0%Z.

Lemma mat_get_out : forall n m i j, shape n m -> n <= i \/ n <= j -> mat_get m i j = 0%Z.
Proof.
  intros n m i j [L R] H. unfold mat_get. destruct (Nat.lt_ge_cases i n).
  - apply nth_overflow. rewrite (R (nth i m [])); [lia|]. apply nth_In. lia.
  - rewrite (nth_overflow m) by lia. destruct j; auto.
Qed.

Lemma check_DAG_ok : forall n m, shape n m ->
  exists b, check_DAG m = Ok b /\ (b = true <-> acyclic (edge m)).
Proof.
  intros n m Sh. unfold check_DAG. destruct Sh as [L R]. rewrite L.
  destruct (is_dag_ok n (off_diagonal m)) as [b [E1 E2]]. exists b. split; auto. rewrite E2.
  apply acyclic_ext. intros u v. unfold E, edge, off_diagonal.
  assert (O : n <= u \/ n <= v -> mat_get m u v = 0%Z) by (intro; apply (mat_get_out n); auto; split; auto).
  destruct (Nat.eqb_spec u v).
  - subst v. rewrite Z.sub_diag. simpl. intuition discriminate.
  - rewrite Z.sub_0_r, negb_true_iff, Z.eqb_neq. split; [tauto|]. intros [_ H].
    destruct (Nat.lt_ge_cases u n); [|exfalso; auto]. destruct (Nat.lt_ge_cases v n); [|exfalso; auto]. auto.
Qed.

Lemma zero_one_set : forall n m i j x, zero_one n m -> i < n -> j < n -> (x = 0%Z \/ x = 1%Z) -> zero_one n (mat_set m i j x).
Proof.
  intros n m i j x [S Z] Hi Hj Hx. split; [apply shape_mat_set; auto|].
  intros a b. rewrite (mat_get_set n) by auto. destruct (_ && _)%bool; auto.
Qed.

Lemma zero_one_step : forall n m j i t, zero_one n m -> j < n -> i < n -> zero_one n (one_step_change m (j, i, t)).
Proof.
  intros n m j i t Z Hj Hi. unfold one_step_change. destruct (Nat.eqb j i); auto.
  destruct t as [|[|t]]; repeat apply zero_one_set; auto.
Qed.

Lemma zero_one_ext : forall n a b, shape n a -> shape n b -> (forall i j, i < n -> j < n -> mat_get a i j = mat_get b i j) -> a = b.
Proof.
  intros n a b [La Ra] [Lb Rb] H. apply (nth_ext _ _ [] []); [congruence|].
  intros i Hi. assert (Ha := Ra (nth i a []) (nth_In _ _ Hi)). rewrite La in Hi.
  assert (Hb : length (nth i b []) = n) by (apply Rb, nth_In; lia).
  apply (nth_ext _ _ 0%Z 0%Z); [congruence|]. intros j Hj. apply (H i j); lia.
Qed.

Lemma in_iterator : forall n m m', In m' (one_step_change_iterator n m) <->
  exists j i t, j < n /\ i < n /\ t < 3 /\ m' = one_step_change m (j, i, t).
Proof.
  intros n m m'. unfold one_step_change_iterator. rewrite in_map_iff. split.
  - intros [e [<- H]]. apply in_flat_map in H. destruct H as [j [Hj H]].
    apply in_flat_map in H. destruct H as [i [Hi H]]. apply in_map_iff in H. destruct H as [t [<- Ht]].
    apply in_seq in Hj, Hi, Ht. exists j, i, t. repeat split; auto; lia.
  - intros [j [i [t [Hj [Hi [Ht ->]]]]]]. exists (j, i, t). split; auto.
    apply in_flat_map. exists j. split; [apply in_seq; lia|].
    apply in_flat_map. exists i. split; [apply in_seq; lia|].
    apply in_map_iff. exists t. split; auto. apply in_seq. lia.
Qed.

(* ---------- the table ---------- *)
Lemma key_eqb_spec : forall a b, key_eqb a b = true <-> a = b.
Proof.
  intros [a1 a2] [b1 b2]. unfold key_eqb. simpl. rewrite andb_true_iff, Nat.eqb_eq.
  destruct (list_eq_dec Nat.eq_dec a2 b2); split; intro H; try (destruct H; subst; auto; discriminate); inversion H; auto; congruence.
Qed.

Definition tab : Type := list ((nat * list nat) * entry).
Definition lookup (t : tab) (i : nat) (Pa : list nat) : option entry := dget key_eqb t (i, Pa).
Definition ext (t t' : tab) : Prop := forall k e, dget key_eqb t k = Some e -> dget key_eqb t' k = Some e.

Lemma ext_refl : forall t, ext t t.
Proof. intros t k e H. auto. Qed.
Lemma ext_trans : forall a b c, ext a b -> ext b c -> ext a c.
Proof. intros a b c H1 H2 k e H. auto. Qed.

Definition Lof (t : tab) (m : list (list Z)) (i : nat) : Q :=
  match lookup t i (Pa_of m i) with Some (L, _, _) => L | None => 0%Q end.

(** All local scores of [m] are in the table. *)
Definition present (n : nat) (t : tab) (m : list (list Z)) : Prop :=
  check_DAG m = Ok true -> forall i, i < n -> lookup t i (Pa_of m i) <> None.

(** The score that the table gives to [m]. *)
Definition sc_of (o : shp) (t : tab) (m : list (list Z)) : option Q :=
  match check_DAG m with
  | Ok true => Some (qsum (map (Lof t m) (seq 0 (sh_n o))) - inject_Z (Z.of_nat (sh_n o) + mat_sum m) * sh_factor o)%Q
  | _ => None
  end.

Lemma sc_of_ext : forall o t t' m, ext t t' -> present (sh_n o) t m -> present (sh_n o) t' m /\ sc_of o t' m = sc_of o t m.
Proof.
  intros o t t' m X P. split.
  - intros D i Hi. specialize (P D i Hi). unfold lookup in *. destruct (dget key_eqb t (i, Pa_of m i)) as [e|] eqn:G; [|congruence].
    rewrite (X _ _ G). discriminate.
  - unfold sc_of. destruct (check_DAG m) as [[|]|] eqn:D; auto. f_equal. f_equal. f_equal.
    apply map_ext_in. intros i Hi. apply in_seq in Hi. unfold Lof.
    specialize (P D i). unfold lookup in *. destruct (dget key_eqb t (i, Pa_of m i)) as [e|] eqn:G; [|exfalso; apply P; auto; lia].
    rewrite (X _ _ G). auto.
Qed.

(* ---------- one column ---------- *)
Lemma update_alpha_out : forall o i Pa lam col col' j, update_alpha o i Pa lam col = Ok col' -> ~ In j Pa ->
  nth j col' 0%Q = nth j col 0%Q.
Proof.
  intros o i Pa lam. unfold update_alpha. induction Pa as [|a Pa IH]; intros col col' j H Hj; simpl in H.
  - inversion H; auto.
  - destruct (sh_interval o) as [dt|].
    + rewrite (IH _ _ j H) by (simpl in Hj; tauto).
      assert (a <> j) by (simpl in Hj; tauto).
      destruct (Nat.lt_ge_cases a (length col)).
      * rewrite nth_set_nth by auto. destruct (Nat.eqb_spec a j); congruence.
      * assert (G : forall {A} k (x : A) l, length l <= k -> set_nth k x l = l).
        { intros A k x l. revert k. induction l as [|b l IHl]; intros [|k] Hk; simpl in *; auto; try lia. f_equal. apply IHl. lia. }
        rewrite G by auto. auto.
    + exfalso. clear - H. induction Pa; simpl in H; [discriminate|auto].
Qed.

Lemma em_loop_out : forall fuel o i Pa Li col mu L col' mu' j,
  em_loop fuel o i Pa Li col mu = Ok (L, col', mu') -> ~ In j Pa -> nth j col' 0%Q = nth j col 0%Q.
Proof.
  induction fuel as [|f IH]; intros o i Pa Li col mu L col' mu' j H Hj; [discriminate|]. cbn [em_loop] in H.
  destruct (match Li with None => false | Some l => _ end).
  - inversion H; auto.
  - destruct (update_alpha o i Pa (lambda_for o col mu) col) as [c|] eqn:U; [|discriminate]. cbn [rbind] in H.
    rewrite (IH _ _ _ _ _ _ _ _ _ j H Hj). eapply update_alpha_out; eauto.
Qed.

Lemma nth_set_nth_neq : forall {A} (d : A) i j x l, i <> j -> nth j (set_nth i x l) d = nth j l d.
Proof.
  intros A d i j x l. revert i j. induction l as [|a l IH]; intros [|i] [|j] N; simpl; auto; congruence.
Qed.

Lemma fold_set_out : forall (f : nat -> Q) Pa col j, ~ In j Pa ->
  nth j (fold_left (fun col j => set_nth j (f j) col) Pa col) 0%Q = nth j col 0%Q.
Proof.
  induction Pa as [|a Pa IH]; intros col j Hj; simpl; auto. simpl in Hj.
  rewrite IH by tauto. apply nth_set_nth_neq. tauto.
Qed.

Lemma start_col_out : forall n o k m i j, zero_one n m -> ~ In j (Pa_of m i) -> (nth j (start_col o k m i) 0 == 0)%Q.
Proof.
  intros n o k m i j [[Ln Sh] Z] H. unfold start_col.
  destruct (Nat.lt_ge_cases j (sh_n o)) as [L|L].
  - rewrite nth_indep with (d' := (sh_rand o k 0 i * inject_Z (mat_get m 0 i))%Q) by (rewrite map_length, seq_length; auto).
    rewrite (map_nth (fun j => (sh_rand o k j i * inject_Z (mat_get m j i))%Q) (seq 0 (sh_n o)) 0), seq_nth by auto. simpl.
    assert (mat_get m j i = 0%Z) as ->.
    { destruct (Z j i) as [Q|Q]; auto. exfalso. apply H. unfold Pa_of. apply filter_In. split.
      - apply in_seq. destruct (Nat.lt_ge_cases j (length m)); [lia|].
        unfold mat_get in Q. rewrite (nth_overflow m) in Q by auto. destruct i; discriminate.
      - rewrite Q. auto. }
    ring.
  - rewrite nth_overflow by (rewrite map_length, seq_length; auto). reflexivity.
Qed.

(* ---------- EM ---------- *)
Definition supp (m : list (list Z)) (i : nat) (col : list Q) : Prop :=
  forall j, ~ (nth j col 0 == 0)%Q -> mat_get m j i = 1%Z.

Lemma em_node_ok : forall n fuel o k m t i t' L col mu, zero_one n m ->
  em_node fuel o k m t i = Ok (t', (L, col, mu)) ->
  ext t t' /\ (exists al, lookup t' i (Pa_of m i) = Some (L, al, mu)) /\ supp m i col.
Proof.
  intros n fuel o k m t i t' L col mu Z H. unfold em_node in H.
  assert (SP : forall c, (forall j, ~ In j (Pa_of m i) -> nth j c 0%Q = nth j (start_col o k m i) 0%Q) -> supp m i c).
  { intros c Hc j Hj. destruct (in_dec Nat.eq_dec j (Pa_of m i)) as [X|X].
    - unfold Pa_of in X. apply filter_In in X. destruct X as [_ X]. apply Z.eqb_eq in X. auto.
    - exfalso. apply Hj. rewrite (Hc j X). eapply start_col_out; eauto. }
  destruct (dget key_eqb t (i, Pa_of m i)) as [[[L0 al] mu0]|] eqn:G.
  - inversion H; subst. split; [apply ext_refl|]. split; [exists al; auto|]. apply SP. intros j Hj. apply fold_set_out. auto.
  - destruct (em_loop _ _ _ _ _ _ _) as [[[L0 c0] mu0]|] eqn:Lp; [|discriminate]. cbn [rbind] in H. inversion H; subst. split.
    + intros k0 e He. destruct (key_eqb (i, Pa_of m i) k0) eqn:Q.
      * apply key_eqb_spec in Q. subst k0. congruence.
      * rewrite (dget_dset_neq key_eqb key_eqb_spec); auto. intro X. apply key_eqb_spec in X. congruence.
    + split; [eexists; apply (dget_dset_eq key_eqb key_eqb_spec)|]. apply SP. intros j Hj. eapply em_loop_out; eauto.
Qed.

Lemma em_nodes_ok : forall n fuel o k m is t t' rs, zero_one n m ->
  em_nodes fuel o k m t is = Ok (t', rs) ->
  ext t t' /\ map (fun r => fst (fst r)) rs = map (Lof t' m) is /\ (forall i, In i is -> lookup t' i (Pa_of m i) <> None) /\
  Forall2 (fun i r => supp m i (snd (fst r))) is rs.
Proof.
  intros n fuel o k m is. induction is as [|i is IH]; intros t t' rs Z H; cbn [em_nodes] in H.
  - inversion H; subst. split; [apply ext_refl|]. split; [auto|]. split; [intros i []|constructor].
  - destruct (em_node fuel o k m t i) as [[t1 [[L c] mu]]|] eqn:E1; [|discriminate]. cbn [rbind fst snd] in H.
    destruct (em_nodes fuel o k m t1 is) as [[t2 rs2]|] eqn:E2; [|discriminate]. cbn [rbind fst snd] in H.
    inversion H; subst. destruct (em_node_ok n _ _ _ _ _ _ _ _ _ _ Z E1) as [X1 [[al X2] X3]].
    destruct (IH _ _ _ Z E2) as [Y1 [Y2 [Y3 Y4]]].
    assert (G : lookup t' i (Pa_of m i) = Some (L, al, mu)) by (apply Y1; auto).
    split; [eapply ext_trans; eauto|]. split; [|split].
    + simpl. f_equal; auto. unfold Lof. rewrite G. auto.
    + intros i' [<-|Hi]; auto. rewrite G. discriminate.
    + constructor; auto.
Qed.

Definition alpha_ok (m : list (list Z)) (alpha : list (list Q)) : Prop :=
  forall i j, ~ (nth j (nth i alpha []) 0 == 0)%Q -> mat_get m j i = 1%Z.

Lemma EM_ok : forall fuel o s m s' r, zero_one (sh_n o) m -> EM fuel o s m = Ok (s', r) ->
  ext (table s) (table s') /\ present (sh_n o) (table s') m /\ fst (fst r) = sc_of o (table s') m /\ alpha_ok m (snd (fst r)).
Proof.
  intros fuel o s m s' r Z H. unfold EM in H.
  destruct (check_DAG_ok (sh_n o) m (proj1 Z)) as [b [D _]]. rewrite D in H. cbn [rbind] in H. unfold present, sc_of. rewrite D.
  destruct b.
  - destruct (em_nodes _ _ _ _ _ _) as [[t rs]|] eqn:E1; [|discriminate]. cbn [rbind fst snd] in H. inversion H; subst. cbn [table fst snd].
    destruct (em_nodes_ok _ _ _ _ _ _ _ _ _ Z E1) as [X1 [X2 [X3 X4]]]. split; auto. split; [|split].
    + intros _ i Hi. apply X3. apply in_seq. lia.
    + rewrite X2. auto.
    + intros i j Hj.
      assert (G : forall is rs0 k, Forall2 (fun i r => supp m i (snd (fst r))) is rs0 ->
                is = seq k (length is) -> forall i, ~ (nth j (nth i (map (fun r : Q * list Q * Q => snd (fst r)) rs0) []) 0 == 0)%Q -> mat_get m j (k + i) = 1%Z).
      { clear. intros is rs0 k F. revert k. induction F as [|a r is rs0 Hs F IH]; intros k Q i Hi.
        - exfalso. apply Hi. simpl. destruct i, j; reflexivity.
        - simpl in Q. inversion Q; subst. destruct i as [|i]; simpl in Hi.
          + rewrite Nat.add_0_r. apply Hs. auto.
          + replace (k + S i) with (S k + i) by lia. apply IH; auto. }
      apply (G _ _ 0 X4); auto. rewrite seq_length. auto.
  - inversion H; subst. cbn [fst snd]. split; [apply ext_refl|]. split; [congruence|]. split; auto.
    intros i j Hj. exfalso. apply Hj.
    destruct (Nat.lt_ge_cases i (sh_n o)).
    + rewrite (nth_indep _ [] (repeat 0%Q (sh_n o))) by (rewrite repeat_length; auto).
      rewrite nth_repeat', nth_repeat'. reflexivity.
    + rewrite (nth_overflow (repeat _ _)) by (rewrite repeat_length; auto). destruct j; reflexivity.
Qed.

(* ---------- the order on scores ---------- *)
Lemma better_spec : forall x y, better (Some x) (Some y) = true <-> (y < x)%Q.
Proof.
  intros. simpl. rewrite negb_true_iff. destruct (Qle_bool x y) eqn:E; split; intro H; auto; try discriminate.
  - apply Qle_bool_iff in E. exfalso. apply (Qlt_not_le _ _ H E).
  - apply Qnot_le_lt. intro X. apply Qle_bool_iff in X. congruence.
Qed.
Lemma better_false : forall x y, better (Some x) (Some y) = false <-> (x <= y)%Q.
Proof.
  intros. destruct (better (Some x) (Some y)) eqn:E.
  - apply better_spec in E. split; [discriminate|]. intro H. exfalso. apply (Qlt_not_le _ _ E H).
  - split; auto. intros _. apply Qnot_lt_le. intro X. apply better_spec in X. congruence.
Qed.
Lemma better_trans : forall a b c, better a b = true -> better b c = true -> better a c = true.
Proof.
  intros [a|] [b|] [c|] H1 H2; auto; try discriminate.
  apply better_spec in H1, H2. apply better_spec. eapply Qlt_trans; eauto.
Qed.
Lemma better_irrefl : forall a, better a a = false.
Proof. intros [a|]; auto. apply better_false. apply Qle_refl. Qed.
Lemma better_false_trans : forall a b c, better a b = false -> better c b = true -> better a c = false.
Proof.
  intros [a|] [b|] [c|] H1 H2; auto; try discriminate.
  apply better_false in H1. apply better_spec in H2. apply better_false.
  apply Qle_trans with b; auto. apply Qlt_le_weak. auto.
Qed.

(* ---------- one round ---------- *)
Definition cur_ok (o : shp) (t : tab) (c : current) : Prop :=
  zero_one (sh_n o) (fst c) /\ present (sh_n o) t (fst c) /\ fst (fst (snd c)) = sc_of o t (fst c) /\ alpha_ok (fst c) (snd (fst (snd c))).

Lemma cur_ok_ext : forall o t t' c, ext t t' -> cur_ok o t c -> cur_ok o t' c.
Proof.
  intros o t t' c X [H1 [H2 [H3 H4]]]. destruct (sc_of_ext o t t' _ X H2) as [H5 H6]. split; [|split; [|split]]; auto. congruence.
Qed.

Lemma climb_round_ok : forall fuel o ms s c stop s' c' stop',
  climb_round fuel o ms s c stop = Ok (s', c', stop') ->
  (forall m, In m ms -> zero_one (sh_n o) m) -> cur_ok o (table s) c ->
  ext (table s) (table s') /\ cur_ok o (table s') c' /\
  (forall m, In m ms -> present (sh_n o) (table s') m /\ better (sc_of o (table s') m) (sc_of o (table s') (fst c')) = false) /\
  ((c' = c /\ stop' = stop) \/
   (stop' = false /\ In (fst c') ms /\ better (sc_of o (table s') (fst c')) (sc_of o (table s') (fst c)) = true)).
Proof.
  intros fuel o ms. induction ms as [|m ms IH]; intros s c stop s' c' stop' H Z C; cbn [climb_round] in H.
  - inversion H; subst. split; [apply ext_refl|]. split; auto. split; [intros m []|]. auto.
  - destruct (EM fuel o s m) as [[s1 r]|] eqn:E1; [|discriminate]. cbn [rbind fst snd] in H.
    destruct (EM_ok _ _ _ _ _ _ (Z m (or_introl eq_refl)) E1) as [X1 [X2 [X3 X4]]].
    assert (C1 := cur_ok_ext _ _ _ _ X1 C). assert (C1' := C1). destruct C1' as [Z1 [P1 [S1 A1]]].
    assert (Zms : forall m0, In m0 ms -> zero_one (sh_n o) m0) by (intros; apply Z; simpl; auto).
    destruct (better (fst (fst r)) (fst (fst (snd c)))) eqn:B.
    + destruct (IH _ _ _ _ _ _ H Zms) as [Y1 [Y2 [Y3 Y4]]].
      { split; [apply Z; simpl; auto|]. split; auto. }
      destruct (sc_of_ext _ _ _ _ Y1 X2) as [X2' X5]. destruct (sc_of_ext _ _ _ _ Y1 P1) as [P2 S2].
      assert (B' : better (sc_of o (table s') m) (sc_of o (table s') (fst c)) = true) by congruence.
      split; [eapply ext_trans; eauto|]. split; auto. split.
      * intros m0 [<-|Hm]; [|auto]. split; auto. destruct Y4 as [[-> _]|[_ [_ Y4]]].
        -- apply better_irrefl.
        -- cbn [fst] in Y4. eapply better_false_trans; [apply better_irrefl|exact Y4].
      * right. destruct Y4 as [[-> ->]|[-> [Y5 Y4]]].
        -- split; auto. split; [simpl; auto|]. auto.
        -- split; auto. split; [simpl; auto|]. cbn [fst] in Y4. eapply better_trans; eauto.
    + destruct (IH _ _ _ _ _ _ H Zms C1) as [Y1 [Y2 [Y3 Y4]]].
      destruct (sc_of_ext _ _ _ _ Y1 X2) as [X2' X5]. destruct (sc_of_ext _ _ _ _ Y1 P1) as [P2 S2].
      assert (B' : better (sc_of o (table s') m) (sc_of o (table s') (fst c)) = false) by congruence.
      split; [eapply ext_trans; eauto|]. split; auto. split.
      * intros m0 [<-|Hm]; [|auto]. split; auto. destruct Y4 as [[-> _]|[_ [_ Y4]]]; auto.
        eapply better_false_trans; eauto.
      * destruct Y4 as [Y4|[-> [Y5 Y4]]]; [left; auto|]. right. split; auto. split; [simpl; auto|auto].
Qed.

(* ---------- all rounds ---------- *)
(** [b] is a best neighbour of [a] and better than [a]. *)
Definition move (o : shp) (t : tab) (a b : list (list Z)) : Prop :=
  In b (one_step_change_iterator (sh_n o) a) /\ better (sc_of o t b) (sc_of o t a) = true /\
  forall c, In c (one_step_change_iterator (sh_n o) a) -> present (sh_n o) t c /\ better (sc_of o t c) (sc_of o t b) = false.

Inductive climbs (o : shp) (t : tab) : list (list Z) -> list (list (list Z)) -> list (list Z) -> Prop :=
| climbs_nil : forall a, climbs o t a [] a
| climbs_cons : forall a b l c, move o t a b -> climbs o t b l c -> climbs o t a (b :: l) c.

Lemma move_ext : forall o t t' a b, ext t t' -> present (sh_n o) t a -> move o t a b -> move o t' a b.
Proof.
  intros o t t' a b X P [H1 [H2 H3]].
  destruct (sc_of_ext _ _ _ _ X P) as [Pa Sa]. destruct (sc_of_ext _ _ _ _ X (proj1 (H3 b H1))) as [Pb Sb].
  split; auto. split; [congruence|]. intros c Hc. destruct (H3 c Hc) as [H4 H5].
  destruct (sc_of_ext _ _ _ _ X H4) as [Pc Sc]. split; auto. congruence.
Qed.

Lemma iterator_zero_one : forall n m c, zero_one n m -> In c (one_step_change_iterator n m) -> zero_one n c.
Proof. intros n m c Z H. apply in_iterator in H. destruct H as [j [i [t [Hj [Hi [_ ->]]]]]]. apply zero_one_step; auto. Qed.

Lemma climb_ok : forall rounds fuel o s c s' c',
  climb rounds fuel o s c = Ok (s', c') -> cur_ok o (table s) c ->
  ext (table s) (table s') /\ cur_ok o (table s') c' /\
  (exists l, climbs o (table s') (fst c) l (fst c') /\ length l < rounds) /\
  (forall m, In m (one_step_change_iterator (sh_n o) (fst c')) ->
     present (sh_n o) (table s') m /\ better (sc_of o (table s') m) (sc_of o (table s') (fst c')) = false).
Proof.
  induction rounds as [|k IH]; intros fuel o s c s' c' H C; [discriminate|]. cbn [climb] in H.
  destruct (climb_round _ _ _ _ _ _) as [[[s1 c1] stop]|] eqn:R; [|discriminate]. cbn [rbind] in H.
  destruct (climb_round_ok _ _ _ _ _ _ _ _ _ R) as [X1 [X2 [X3 X4]]]; auto.
  { intros m Hm. eapply iterator_zero_one; eauto. apply C. }
  assert (P0 := proj1 (proj2 (cur_ok_ext _ _ _ _ X1 C))).
  destruct stop.
  - inversion H; subst. destruct X4 as [[-> _]|[? _]]; [|discriminate].
    split; auto. split; auto. split; auto. exists []. split; [constructor|simpl; lia].
  - destruct X4 as [[_ ?]|[_ [X5 X6]]]; [discriminate|].
    destruct (IH _ _ _ _ _ _ H X2) as [Y1 [Y2 [[l [Y3 Y4]] Y5]]].
    split; [eapply ext_trans; eauto|]. split; auto. split; auto.
    exists (fst c1 :: l). split; [|simpl; lia]. econstructor; eauto.
    eapply move_ext; eauto. split; auto.
Qed.

Lemma Hill_Climb_ok : forall rounds fuel o s s' c,
  zero_one (sh_n o) (sh_init o) -> Hill_Climb rounds fuel o s = Ok (s', c) ->
  ext (table s) (table s') /\ cur_ok o (table s') c /\ present (sh_n o) (table s') (sh_init o) /\
  (exists l, climbs o (table s') (sh_init o) l (fst c) /\ length l < rounds) /\
  (forall m, In m (one_step_change_iterator (sh_n o) (fst c)) ->
     present (sh_n o) (table s') m /\ better (sc_of o (table s') m) (sc_of o (table s') (fst c)) = false).
Proof.
  intros rounds fuel o s s' c Z H. unfold Hill_Climb in H.
  destruct (EM fuel o s (sh_init o)) as [[s1 r]|] eqn:E1; [|discriminate]. cbn [rbind fst snd] in H.
  destruct (EM_ok _ _ _ _ _ _ Z E1) as [X1 [X2 [X3 X4]]].
  destruct (climb_ok _ _ _ _ _ _ _ H) as [Y1 [Y2 [Y3 Y4]]]. { split; auto. }
  split; [eapply ext_trans; eauto|]. split; auto. split; auto. apply (sc_of_ext _ _ _ _ Y1 X2).
Qed.
