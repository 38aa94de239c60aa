(** Packing parameters into one vector and back. *)

From Coq Require Import List Arith Bool Lia QArith Qabs Lqa.
From Verif Require Import Model.Py Model.SHP Model.Matrix Model.Notears Model.NotearsNet Spec.Packing.
Import ListNotations.
Open Scope nat_scope.

Definition sizes (ps : list param) : list nat := map numel ps.
(** The bounds of a parameter, one for each entry. *)
Definition bounds_of (p : param) : list bound := match p_bounds p with Some b => b | None => repeat (None, None) (numel p) end.
Definition wf (ps : list param) : Prop := forall p, In p ps -> length (bounds_of p) = numel p.

Lemma total_sum : forall ps, total_numel ps = list_sum (sizes ps).
Proof.
  intro ps. unfold total_numel. rewrite <- (Nat.add_0_l (list_sum _)). generalize 0 as s.
  induction ps as [|p ps IH]; intro s; simpl; [lia|]. rewrite IH. simpl. lia.
Qed.

Lemma gather_bounds_concat : forall ps, gather_bounds ps = concat (map bounds_of ps).
Proof.
  intro ps. unfold gather_bounds. rewrite <- (app_nil_l (concat _)). generalize (@nil bound) as s.
  induction ps as [|p ps IH]; intro s; simpl; [rewrite app_nil_r; auto|]. rewrite IH, app_assoc. auto.
Qed.

Lemma concat_len : forall {X} (f : param -> list X) ps, (forall p, In p ps -> length (f p) = numel p) ->
  length (concat (map f ps)) = list_sum (sizes ps).
Proof.
  intros X f ps. induction ps as [|p ps IH]; intro H; simpl; auto.
  rewrite app_length, IH by (intros; apply H; simpl; auto). rewrite (H p) by (simpl; auto). auto.
Qed.

Lemma gather_len : forall ps, length (gather_params ps) = list_sum (sizes ps).
Proof. intro. apply (concat_len p_data). auto. Qed.

Lemma concat_nth : forall {X} (f : param -> list X) (z : X) ps k i, (forall p, In p ps -> length (f p) = numel p) ->
  k < length ps -> i < numel (par ps k) -> nth (start (sizes ps) k + i) (concat (map f ps)) z = nth i (f (par ps k)) z.
Proof.
  intros X f z ps. induction ps as [|p ps IH]; intros k i H Hk Hi; [simpl in Hk; lia|].
  destruct k as [|k]; simpl in *.
  - unfold start. simpl. unfold par in *. simpl in *. rewrite app_nth1; auto. rewrite H; auto.
  - unfold start. simpl. rewrite app_nth2 by (rewrite H by auto; lia). rewrite (H p) by auto.
    replace (numel p + list_sum (firstn k (sizes ps)) + i - numel p) with (start (sizes ps) k + i) by (unfold start; lia).
    unfold par in *. simpl in *. apply IH; auto. lia.
Qed.

Lemma skipn_skipn' : forall {X} (l : list X) a b, skipn a (skipn b l) = skipn (b + a) l.
Proof. intros X l a b. revert l. induction b as [|b IH]; intros [|y l]; simpl; auto. destruct a; auto. Qed.

Lemma slice_len : forall l o n, o + n <= length l -> length (slice l o n) = n.
Proof. intros. unfold slice. rewrite firstn_length, skipn_length. lia. Qed.

Lemma slice_app : forall l o a b, slice l o (a + b) = slice l o a ++ slice l (o + a) b.
Proof.
  intros. unfold slice. rewrite <- (skipn_skipn' l a o). generalize (skipn o l) as m. clear. induction a as [|a IH]; intros m; simpl; auto.
  destruct m as [|x m]; simpl; [rewrite firstn_nil; auto|]. rewrite IH. auto.
Qed.

Lemma distribute_loop_ok : forall ps flat o, o + list_sum (sizes ps) <= length flat ->
  exists ps', distribute_loop ps flat o = Ok (ps', o + list_sum (sizes ps)) /\
    gather_params ps' = slice flat o (list_sum (sizes ps)) /\ sizes ps' = sizes ps /\ map p_bounds ps' = map p_bounds ps.
Proof.
  induction ps as [|p ps IH]; intros flat o H; simpl.
  - exists []. rewrite Nat.add_0_r. auto.
  - simpl in H. rewrite slice_len by lia. rewrite Nat.eqb_refl.
    destruct (IH flat (o + numel p)) as [ps' [E [G [S B]]]]; [lia|]. rewrite E. simpl.
    exists (Param (slice flat o (numel p)) (p_bounds p) :: ps'). split; [|split; [|split]].
    + unfold sizes. rewrite Nat.add_assoc. auto.
    + rewrite slice_app, <- G. reflexivity.
    + simpl. rewrite S. f_equal. unfold numel at 1. simpl. apply slice_len. lia.
    + simpl. rewrite B. auto.
Qed.

Lemma distribute_ok : forall ps flat, length flat = list_sum (sizes ps) ->
  exists ps', distribute ps flat = Ok ps' /\ gather_params ps' = flat /\ sizes ps' = sizes ps /\ map p_bounds ps' = map p_bounds ps.
Proof.
  intros ps flat H. unfold distribute. destruct (distribute_loop_ok ps flat 0) as [ps' [E [G [S B]]]]; [lia|].
  rewrite E. simpl. rewrite total_sum, Nat.eqb_refl. exists ps'. split; auto. split; auto.
  rewrite G. unfold slice. simpl. rewrite <- H. apply firstn_all.
Qed.

Lemma par_numel : forall ps k, numel (par ps k) = nth k (sizes ps) 0.
Proof. intros. unfold sizes, par. change 0 with (numel (Param [] None)). symmetry. apply map_nth. Qed.

Lemma gather_nth : forall ps k i, k < length ps -> i < numel (par ps k) -> nth (start (sizes ps) k + i) (gather_params ps) 0%Q = entry (par ps k) i.
Proof. intros. unfold gather_params, entry. apply (concat_nth p_data); auto. Qed.

Lemma bounds_of_same : forall p q, numel q = numel p -> p_bounds q = p_bounds p -> bounds_of q = bounds_of p.
Proof. intros p q H1 H2. unfold bounds_of. rewrite H1, H2. auto. Qed.

Lemma same_layout : forall ps ps', sizes ps' = sizes ps -> map p_bounds ps' = map p_bounds ps -> map bounds_of ps' = map bounds_of ps.
Proof.
  induction ps as [|p ps IH]; intros [|p' ps'] S B; simpl in *; auto; try discriminate. inversion S. inversion B. f_equal; auto.
  apply bounds_of_same; auto.
Qed.

Lemma wf_same : forall ps ps', sizes ps' = sizes ps -> map p_bounds ps' = map p_bounds ps -> wf ps -> wf ps'.
Proof.
  intros ps ps' S B W. pose proof (same_layout _ _ S B) as L. intros p Hp.
  apply (In_nth _ _ (Param [] None)) in Hp. destruct Hp as [k [Hk <-]]. change (length (bounds_of (par ps' k)) = numel (par ps' k)).
  assert (length ps' = length ps) as Len by (unfold sizes in S; rewrite <- (map_length numel ps'), S, map_length; auto).
  rewrite (par_numel ps'), S, <- par_numel.
  replace (bounds_of (par ps' k)) with (bounds_of (par ps k)).
  - apply W. apply nth_In. lia.
  - unfold par. rewrite <- !(map_nth bounds_of), L. auto.
Qed.

(** All entries are within their bounds. *)
Definition in_bounds (ps : list param) : Prop :=
  forall k i, k < length ps -> i < numel (par ps k) -> between (nth i (bounds_of (par ps k)) (None, None)) (entry (par ps k) i).

Definition layout (ps ps' : list param) : Prop := sizes ps' = sizes ps /\ map p_bounds ps' = map p_bounds ps.

Lemma layout_refl : forall ps, layout ps ps. Proof. split; auto. Qed.
Lemma layout_trans : forall a b c, layout a b -> layout b c -> layout a c.
Proof. intros a b c [H1 H2] [H3 H4]. split; congruence. Qed.
Lemma layout_len : forall a b, layout a b -> length b = length a.
Proof. intros a b [H _]. unfold sizes in H. rewrite <- (map_length numel b), H, map_length. auto. Qed.
Lemma layout_bounds : forall a b k, layout a b -> bounds_of (par b k) = bounds_of (par a k).
Proof. intros a b k [S B]. unfold par. rewrite <- !(map_nth bounds_of), (same_layout _ _ S B). auto. Qed.

(** The bounds can be met. *)
Definition feas (ps : list param) : Prop := forall k b, In b (bounds_of (par ps k)) -> feasible b.
Lemma feas_layout : forall a b, layout a b -> (feas a <-> feas b).
Proof. intros a b L. split; intros F k c H; [rewrite (layout_bounds a b k L) in H|rewrite <- (layout_bounds a b k L) in H]; eapply F; eauto. Qed.

Lemma feas_In : forall ps, (forall p b, In p ps -> In b (bounds_of p) -> feasible b) -> feas ps.
Proof.
  intros ps H k b Hb. destruct (Nat.lt_ge_cases k (length ps)) as [L|G]; [apply (H (par ps k)); auto; apply nth_In; auto|].
  unfold par in Hb. rewrite nth_overflow in Hb by auto. destruct Hb.
Qed.

Lemma feas_gather : forall ps, feas ps -> forall b, In b (gather_bounds ps) -> feasible b.
Proof.
  intros ps F b H. rewrite gather_bounds_concat in H. apply in_concat in H. destruct H as [l [Hl Hb]].
  apply in_map_iff in Hl. destruct Hl as [p [<- Hp]]. apply (In_nth _ _ (Param [] None)) in Hp. destruct Hp as [k [_ <-]]. apply (F k). auto.
Qed.

Lemma step_ok : forall m ps, wf ps -> (forall bs x0, length bs = length x0 -> length (m bs x0) = length x0) ->
  exists ps', step m ps = Ok ps' /\ layout ps ps' /\ (within_bounds m -> feas ps -> in_bounds ps').
Proof.
  intros m ps W L. unfold step.
  assert (length (gather_bounds ps) = length (gather_params ps)) as E.
  { rewrite gather_bounds_concat, gather_len. apply concat_len. auto. }
  rewrite E, Nat.eqb_refl. destruct (distribute_ok ps (m (gather_bounds ps) (gather_params ps))) as [ps' [D [G [S B]]]].
  { rewrite L by auto. apply gather_len. }
  exists ps'. split; auto. split; [split; auto|]. intros WB FS k i Hk Hi. destruct (WB _ _ E) as [_ WB']. specialize (WB' (feas_gather ps FS)).
  assert (LY : layout ps ps') by (split; auto).
  assert (k < length ps) as Hk' by (rewrite <- (layout_len _ _ LY); auto).
  assert (i < numel (par ps k)) as Hi' by (rewrite par_numel, <- S, <- par_numel; auto).
  rewrite (layout_bounds ps ps' k LY), <- (gather_nth ps' k i Hk Hi), G, S.
  rewrite <- (concat_nth bounds_of (None, None) ps k i W Hk' Hi'), <- gather_bounds_concat. apply WB'. rewrite gather_len.
  clear -Hk' Hi'. revert k Hk' Hi'. induction ps as [|p ps IH]; intros k Hk Hi; [simpl in Hk; lia|]. destruct k as [|k].
  - unfold start. simpl. unfold par in Hi. simpl in Hi. lia.
  - unfold start. simpl. unfold par in Hi. simpl in *. specialize (IH k ltac:(lia) Hi). unfold start in IH. lia.
Qed.

(* ---------- the training loop ---------- *)
Section Train.
  Variables (m : Q -> Q -> list bound -> list Q -> list Q) (hf : list param -> Q) (h_tol rho_max : Q).
  Hypothesis Lm : forall r a bs x0, length bs = length x0 -> length (m r a bs x0) = length x0.
  Let good (ps : list param) : Prop := (forall r a, within_bounds (m r a)) -> feas ps -> in_bounds ps.

  Lemma loop_ok : forall fuel alpha h rho ps last, wf ps ->
    (rho_max <= rho * inject_Z (2 ^ Z.of_nat fuel))%Q -> (0 < rho)%Q -> (last <> None -> good ps) ->
    exists rho' ps' o, ascent_loop fuel m hf rho_max alpha h rho ps last = Ok (rho', ps', o) /\ (rho <= rho')%Q /\ layout ps ps' /\
      (o <> None -> good ps') /\ (forall v, o = Some v -> last = None \/ ~ (rho_max <= rho)%Q -> v = hf ps') /\
      (~ (rho_max <= rho)%Q -> o <> None) /\ ((rho_max <= rho)%Q -> o = last).
  Proof using Lm.
    induction fuel as [|f IH]; intros alpha h rho ps last W F P HL.
    - assert (L : (rho_max <= rho)%Q) by (change (2 ^ Z.of_nat 0)%Z with 1%Z in F; change (inject_Z 1) with 1%Q in F; lra).
      exists rho, ps, last. cbn [ascent_loop]. pose proof L as B. apply Qle_bool_iff in B. rewrite B. simpl.
      split; auto. split; [apply Qle_refl|]. split; [apply layout_refl|]. split; auto. split; [|tauto].
      intros v -> [K|K]; [discriminate|contradiction].
    - cbn [ascent_loop]. destruct (Qle_bool rho_max rho) eqn:B.
      + simpl. apply Qle_bool_iff in B. exists rho, ps, last. split; auto. split; [apply Qle_refl|]. split; [apply layout_refl|].
        split; auto. split; [|tauto]. intros v -> [K|K]; [discriminate|contradiction].
      + assert (NB : ~ (rho_max <= rho)%Q) by (intro C; apply Qle_bool_iff in C; congruence). simpl negb. cbn iota.
        destruct (step_ok (m rho alpha) ps W) as [ps1 [E1 [LY1 G1]]]; [apply Lm|]. rewrite E1. cbn [rbind].
        assert (W1 : wf ps1) by (destruct LY1; eapply wf_same; eauto).
        assert (good ps1) as GP1 by (intros K FS; apply G1; [apply K|apply (feas_layout _ _ LY1); auto]).
        destruct (insufficient (hf ps1) h) eqn:I.
        * destruct (IH alpha h (rho * 10)%Q ps1 (Some (hf ps1)) W1) as [rho' [ps' [o [E [L [LY [H1 [H2 [H3 H4]]]]]]]]]; auto.
          { rewrite Nat2Z.inj_succ, Z.pow_succ_r in F by lia. rewrite inject_Z_mult in F.
            assert (0 < inject_Z (2 ^ Z.of_nat f))%Q.
            { change 0%Q with (inject_Z 0). rewrite <- Zlt_Qlt. apply Z.pow_pos_nonneg; lia. }
            change (inject_Z 2) with 2%Q in F. nra. }
          { lra. }
          rewrite E. exists rho', ps', o. split; auto. split; [lra|]. split; [eapply layout_trans; eauto|]. split; auto.
          destruct (Qlt_le_dec (rho * 10) rho_max) as [Lt|Ge].
          -- split; [|split; [|tauto]]; intros; [apply H2; auto; right; lra|apply H3; lra].
          -- assert (ps' = ps1) as ->.
             { destruct f; cbn [ascent_loop] in E; apply Qle_bool_iff in Ge; rewrite Ge in E; simpl in E; inversion E; auto. }
             rewrite (H4 Ge). split; [|split; [|tauto]]; [intros v K _; inversion K; auto|discriminate].
        * exists rho, ps1, (Some (hf ps1)). split; auto. split; [apply Qle_refl|]. split; auto. split; auto. split; [|split; [|tauto]].
          -- intros v K _. inversion K; auto.
          -- discriminate.
  Qed.

  Lemma ascent_ok : forall iters rho alpha h ps, wf ps -> (1 <= rho)%Q -> ~ (rho_max <= rho)%Q ->
    (forall r, (1 <= r)%Q -> (rho_max <= r * inject_Z (2 ^ Z.of_nat (inner_fuel rho_max)))%Q) ->
    exists ps', ascent iters m hf h_tol rho_max rho alpha h ps = Ok ps' /\ layout ps ps' /\ (0 < iters -> good ps') /\ (iters = 0 -> ps' = ps).
  Proof using Lm.
    induction iters as [|k IH]; intros rho alpha h ps W Hr NB FO.
    - exists ps. split; auto. split; [apply layout_refl|]. split; auto. lia.
    - cbn [ascent]. unfold dual_ascent_step.
      destruct (loop_ok (inner_fuel rho_max) alpha h rho ps None W) as [rho' [ps1 [o [E [L [LY [H1 [H2 [H3 _]]]]]]]]]; auto; [lra|tauto|].
      rewrite E. cbn [rbind]. specialize (H3 NB). destruct o as [v|]; [|tauto]. cbn [rbind].
      assert (W1 : wf ps1) by (destruct LY; eapply wf_same; eauto).
      assert (good ps1) as G1 by (apply H1; discriminate).
      destruct (Qle_bool v h_tol || Qle_bool rho_max rho') eqn:B.
      + exists ps1. split; auto. split; auto. split; auto. lia.
      + apply orb_false_iff in B. destruct B as [_ B2].
        destruct (IH rho' (alpha + rho' * v)%Q (Some v) ps1 W1) as [ps' [E' [LY' [G' Z]]]]; auto.
        { lra. } { intro C. apply Qle_bool_iff in C. congruence. }
        exists ps'. split; auto. split; [eapply layout_trans; eauto|]. split; [|lia]. intros _.
        destruct k as [|k]; [rewrite Z; auto|apply G'; lia].
  Qed.
End Train.
