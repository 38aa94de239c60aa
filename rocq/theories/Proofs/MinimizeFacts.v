(** The optimiser [minimize]: brackets, progress, evaluations. *)

From Coq Require Import List Arith Lia Bool Reals Lra.
From Verif Require Import Model.Py Model.Minimize Spec.MinimizeSpec.
Import ListNotations.
Open Scope R_scope.

Lemma gt_true : forall a b, gt a b = true <-> b < a.
Proof. intros. unfold gt. destruct (Rlt_dec b a); split; auto; intro; try discriminate; try contradiction. Qed.
Lemma gt_false : forall a b, gt a b = false <-> a <= b.
Proof. intros. unfold gt. destruct (Rlt_dec b a); split; auto; intro; try discriminate; lra. Qed.

Section Facts.
  Variables (f : vec -> option (R * vec)) (slope : vec -> vec -> R).

  Definition on_ray (X s : vec) (l : list vec) : Prop := forall P, In P l -> exists y, 0 < y /\ P = move X s y.

  Lemma attempt_spec : forall X s M x3 M' x r t, attempt f X s x3 M = (M', x, r, t) -> 0 < x3 ->
    0 < x /\ (M' + length t = M)%nat /\ ((0 < M)%nat -> (M' < M)%nat) /\ on_ray X s t /\
    match r with Some p => f (move X s x) = Some p /\ In (move X s x) t | None => M' = 0%nat end.
  Proof using.
    intros X s. induction M as [|m IH]; intros x3 M' x r t H Hx; cbn [attempt] in H.
    - injection H as <- <- <- <-. split; auto. split; auto. split; [lia|]. split; [intros P []|auto].
    - destruct (f (move X s x3)) as [p|] eqn:E.
      + injection H as <- <- <- <-. split; auto. split; [simpl; lia|]. split; [lia|]. split; [|split; [auto|left; auto]].
        intros P [<-|[]]. exists x3. auto.
      + destruct (attempt f X s ((0 + x3) / 2) m) as [[[m' x'] r'] t'] eqn:A. injection H as <- <- <- <-.
        assert (0 < (0 + x3) / 2) as Hh by lra. destruct (IH _ _ _ _ _ A Hh) as (H1 & H2 & H3 & H4 & H5). split; auto. split; [simpl; lia|]. split; [lia|]. split.
        * intros P [<-|I]; [exists x3; auto|auto].
        * destruct r'; auto. destruct H5 as [H5 H6]. split; auto. right. auto.
  Qed.

  Definition good (f0 : R) (pts : list vec) (b : best) : Prop := let '(P, v, g) := b in f P = Some (v, g) /\ In P pts /\ v <= f0.
  Lemma good_more : forall f0 l l' b, (forall P, In P l -> In P l') -> good f0 l b -> good f0 l' b.
  Proof using. intros f0 l l' [[P v] g] H (H1 & H2 & H3). split; auto. Qed.
  Lemma keep_good : forall f0 pts b P v g, f P = Some (v, g) -> In P pts -> good f0 pts b -> good f0 pts (keep b P v g).
  Proof using. intros f0 pts [[Q w] h] P v g H1 H2 H. unfold keep. destruct (Rlt_dec v w); auto. destruct H as (_ & _ & H). split; auto. split; auto. lra. Qed.
  Lemma keep_same : forall f0 pts b P g, good f0 pts b -> keep b P f0 g = b.
  Proof using. intros f0 pts [[Q w] h] P g (_ & _ & H). unfold keep. destruct (Rlt_dec f0 w); auto. lra. Qed.

  Lemma outside_pos : forall x o, 0 < x -> 0 < outside 0 x o.
  Proof using.
    intros x o Hx. unfold outside, c_EXT, c_INT. destruct o as [y|]; [|lra]. destruct (Rlt_dec y 0); [lra|]. destruct (Rlt_dec (x * 3) y); [lra|].
    destruct (Rlt_dec y (x + / 10 * (x - 0))); lra.
  Qed.

  (** The value held for a step is the objective there, or that of the starting point. *)
  Definition held (X s : vec) (f0 : R) (df0 : vec) (pts : list vec) (x v : R) (g : vec) : Prop :=
    (v = f0 /\ g = df0) \/ (f (move X s x) = Some (v, g) /\ In (move X s x) pts).
  Lemma held_more : forall X s f0 df0 l l' x v g, (forall P, In P l -> In P l') -> held X s f0 df0 l x v g -> held X s f0 df0 l' x v g.
  Proof using. intros X s f0 df0 l l' x v g H [E|[E I]]; [left; auto|right; auto]. Qed.

  Lemma extrapolate_spec : forall X s f0 df0 d0 pre fuel M b x3 t, (M <= fuel)%nat -> (0 < M)%nat -> 0 < x3 -> good f0 (pre ++ t) b ->
    exists M' x v g d b' t', extrapolate f slope fuel X s f0 df0 d0 b x3 M t = Ok (M', x, v, g, d, b', t ++ t') /\
      0 < x /\ (M' + length t' = M)%nat /\ (M' < M)%nat /\ on_ray X s t' /\ good f0 (pre ++ t ++ t') b' /\ held X s f0 df0 (t ++ t') x v g /\ d = slope g s /\
      ((0 < M')%nat -> c_SIG * d0 < d \/ f0 + x * c_RHO * d0 < v).
  Proof using.
    intros X s f0 df0 d0 pre. induction fuel as [|k IH]; intros M b x3 t Hf HM Hx Hb; [lia|]. cbn [extrapolate].
    destruct (attempt f X s x3 M) as [[[M' x] r] pts] eqn:A. destruct (attempt_spec _ _ _ _ _ _ _ _ A Hx) as (Px & HL & HD & HR & Hr). specialize (HD HM).
    set (p := match r with Some p => p | None => (f0, df0) end). destruct p as [f3 df3] eqn:Ep.
    assert (good f0 (pre ++ t ++ pts) (keep b (move X s x) f3 df3)) as Hg.
    { destruct r as [p0|]; unfold p in Ep; subst.
      - apply keep_good; [tauto| |]. { apply in_or_app; right; apply in_or_app; right; tauto. } eapply good_more; [|exact Hb]. intros P I. apply in_app_or in I. apply in_or_app. destruct I; auto. right. apply in_or_app. auto.
      - injection Ep as <- <-. rewrite (keep_same f0 (pre ++ t)) by auto. eapply good_more; [|exact Hb]. intros P I. apply in_app_or in I. apply in_or_app. destruct I; auto. right. apply in_or_app. auto. }
    assert (held X s f0 df0 (t ++ pts) x f3 df3) as Hh.
    { destruct r as [p0|]; unfold p in Ep; subst; [right; split; [tauto|apply in_or_app; right; tauto]|left; injection Ep as <- <-; auto]. }
    destruct (gt (slope df3 s) (c_SIG * d0) || gt f3 (f0 + x * c_RHO * d0) || Nat.eqb M' 0) eqn:C.
    - exists M', x, f3, df3, (slope df3 s), (keep b (move X s x) f3 df3), pts. repeat (split; auto). intro PM. apply orb_true_iff in C. destruct C as [C|C]; [|apply Nat.eqb_eq in C; lia].
      apply orb_true_iff in C. destruct C as [C|C]; apply gt_true in C; auto.
    - apply orb_false_iff in C. destruct C as [C C3]. apply Nat.eqb_neq in C3.
      assert (good f0 (pre ++ (t ++ pts)) (keep b (move X s x) f3 df3)) as Hg' by exact Hg.
      destruct (IH M' _ (outside 0 x (cubic_out 0 f0 d0 x f3 (slope df3 s))) (t ++ pts) ltac:(lia) ltac:(lia) (outside_pos _ _ Px) Hg') as (M2 & x2 & v2 & g2 & d2 & b2 & t2 & E & H1 & H2 & H3 & H4 & H5 & H6 & H7 & H8).
      exists M2, x2, v2, g2, d2, b2, (pts ++ t2). rewrite <- !app_assoc in *. split; auto. split; auto. split; [rewrite app_length; lia|]. split; [lia|]. split.
      { intros P I. apply in_app_or in I. destruct I; auto. }
      split; auto.
  Qed.

  Lemma inside_range : forall x2 x4 o, x2 < x4 -> x2 < inside x2 x4 o < x4.
  Proof using.
    intros x2 x4 o H. unfold inside, c_INT. set (y := match o with None => (x2 + x4) / 2 | Some x => x end).
    pose proof (Rmax_l (Rmin y (x4 - / 10 * (x4 - x2))) (x2 + / 10 * (x4 - x2))). pose proof (Rmax_r (Rmin y (x4 - / 10 * (x4 - x2))) (x2 + / 10 * (x4 - x2))).
    assert (Rmax (Rmin y (x4 - / 10 * (x4 - x2))) (x2 + / 10 * (x4 - x2)) <= x4 - / 10 * (x4 - x2)) by (apply Rmax_lub; [apply Rmin_r|lra]). lra.
  Qed.

  Lemma interpolate_spec : forall X s f0 df0 d0 pre M b x2 f2 d2 x3 f3 df3 d3 p4 t,
    0 <= x2 -> x2 < x3 -> d3 = slope df3 s ->
    ((0 < M)%nat -> (c_SIG * d0 < d3 \/ f0 + x3 * c_RHO * d0 < f3) \/ exists x4 f4 d4, p4 = Some (x4, f4, d4) /\ x3 < x4) ->
    good f0 (pre ++ t) b -> held X s f0 df0 t x3 f3 df3 ->
    (exists P, interpolate f slope M X s f0 d0 b x2 f2 d2 x3 f3 df3 d3 p4 t = Err PyException /\ f P = None /\ exists y, 0 < y /\ P = move X s y) \/
    exists x v g d b' q t', interpolate f slope M X s f0 d0 b x2 f2 d2 x3 f3 df3 d3 p4 t = Ok (x, v, g, d, b', q, t ++ t') /\
      0 < x /\ (length t' <= M)%nat /\ on_ray X s t' /\ good f0 (pre ++ t ++ t') b' /\ held X s f0 df0 (t ++ t') x v g /\ d = slope g s.
  Proof using.
    intros X s f0 df0 d0 pre. induction M as [|m IH]; intros b x2 f2 d2 x3 f3 df3 d3 p4 t H2 H3 Hd HI Hb Hh; cbn [interpolate].
    - right. exists x3, f3, df3, d3, b, p4, []. rewrite app_nil_r. split; auto. split; [lra|]. split; auto. split; [intros P []|]. auto.
    - destruct (gt (Rabs d3) (- c_SIG * d0) || gt f3 (f0 + x3 * c_RHO * d0)) eqn:W.
      2:{ right. exists x3, f3, df3, d3, b, p4, []. rewrite app_nil_r. split; auto. split; [lra|]. split; [simpl; lia|]. split; [intros P []|]. auto. }
      set (high := gt d3 0 || gt f3 (f0 + x3 * c_RHO * d0)).
      assert (exists x4 f4 d4 y2 g2 e2, (if high then Some (x3, f3, d3) else p4) = Some (x4, f4, d4) /\ (if high then (x2, f2, d2) else (x3, f3, d3)) = (y2, g2, e2) /\ 0 <= y2 /\ y2 < x4) as (x4 & f4 & d4 & y2 & g2 & e2 & -> & -> & Y0 & Y4).
      { destruct high eqn:Eh.
        - exists x3, f3, d3, x2, f2, d2. repeat split; auto.
        - unfold high in Eh. apply orb_false_iff in Eh. destruct Eh as [E1 E2]. apply gt_false in E1. apply gt_false in E2.
          destruct (HI ltac:(lia)) as [[C|C]|(x4 & f4 & d4 & E & L)].
          + exfalso. rewrite (proj2 (gt_false _ _) E2), orb_false_r in W. apply gt_true in W. rewrite Rabs_left1 in W by lra. lra.
          + exfalso. lra.
          + exists x4, f4, d4, x3, f3, d3. repeat split; auto. lra. }
      set (y3 := inside y2 x4 (between f0 y2 g2 e2 x4 f4 d4)). destruct (inside_range y2 x4 (between f0 y2 g2 e2 x4 f4 d4) Y4) as [I1 I2]. fold y3 in I1, I2.
      destruct (f (move X s y3)) as [[v g]|] eqn:E.
      + destruct (IH (keep b (move X s y3) v g) y2 g2 e2 y3 v g (slope g s) (Some (x4, f4, d4)) (t ++ [move X s y3]) Y0 I1 eq_refl) as [(P & EP & HP)|(x & w & h & d & b' & q & t' & E1 & P1 & P2 & P3 & P4 & P5 & P6)].
        * intros _. right. exists x4, f4, d4. auto.
        * apply keep_good; auto; [apply in_or_app; right; apply in_or_app; right; left; auto|]. eapply good_more; [|exact Hb]. intros P I. apply in_app_or in I. apply in_or_app. destruct I; auto. right. apply in_or_app. auto.
        * right. split; auto. apply in_or_app. right. left. auto.
        * left. exists P. auto.
        * right. exists x, w, h, d, b', q, (move X s y3 :: t'). rewrite <- !app_assoc in *. cbn [app] in *. split; auto. split; auto. split; [simpl; lia|]. split; [|auto].
          intros P [<-|I]; auto. exists y3. split; auto. lra.
      + left. exists (move X s y3). split; auto. split; auto. exists y3. split; auto. lra.
  Qed.

  Definition value_list (pts : list vec) (l : list R) : Prop := forall v, In v l -> exists P, In P pts /\ has_value f P v.
  Lemma decreasing_snoc : forall l a b, decreasing (l ++ [a]) -> b < a -> decreasing ((l ++ [a]) ++ [b]).
  Proof using. induction l as [|c l IH]; intros a b H L; [simpl; auto|]. destruct l as [|e l]; cbn [app decreasing] in *; [tauto|]. destruct H as [H1 H2]. split; auto. apply (IH a b); auto. Qed.

  Record ok_state (lines : bool) (n : nat) (v0 : R) (st : mstate) : Prop := mkOk {
    ok_value : f (m_X st) = Some (m_f0 st, m_df0 st);
    ok_in : In (m_X st) (m_points st);
    ok_slope : m_d0 st <= 0;
    ok_step : 0 < m_x3 st;
    ok_low : m_f0 st <= v0;
    ok_count : if lines then (length (m_points st) <= 1 + 20 * m_i st)%nat else m_i st = length (m_points st);
    ok_i : (m_i st <= n)%nat;
    ok_fX : exists l a, m_fX st = l ++ [a] /\ decreasing (l ++ [a]) /\ m_f0 st <= a;
    ok_first : exists l, m_fX st = v0 :: l;
    ok_values : value_list (m_points st) (m_fX st)
  }.
  Definition ok_result (lines : bool) (n : nat) (v0 : R) (r : vec * list R * nat * list vec) : Prop :=
    let '(Y, fX, i, pts) := r in
    (exists v, has_value f Y v /\ In Y pts /\ v <= v0 /\ forall w, In w fX -> v <= w) /\ decreasing fX /\ (exists l, fX = v0 :: l) /\ value_list pts fX /\
    (i <= n)%nat /\ if lines then (length pts <= 1 + 20 * i)%nat else i = length pts.

  Lemma last_least : forall l a w, decreasing (l ++ [a]) -> In w (l ++ [a]) -> a <= w.
  Proof using.
    induction l as [|c l IH]; intros a w H I.
    - destruct I as [<-|[]]. lra.
    - destruct l as [|e l].
      + cbn [app decreasing] in H. destruct I as [<-|[<-|[]]]; lra.
      + cbn [app] in H, I. destruct H as [H1 H2]. destruct I as [<-|I]; [|apply IH; auto]. specialize (IH a e H2 (or_introl eq_refl)). lra.
  Qed.

  Variable cg : vec -> vec -> vec -> vec.
  Hypothesis slope_nonneg : forall s, 0 <= slope s s.

  Lemma loop_spec : forall lines n v0 fuel st, ok_state lines n v0 st -> (n - m_i st < fuel)%nat ->
    (exists P, minimize_loop f slope cg fuel lines n st = Err PyException /\ f P = None) \/
    exists r, minimize_loop f slope cg fuel lines n st = Ok r /\ ok_result lines n v0 r.
  Proof using slope_nonneg.
    intros lines n v0. induction fuel as [|k IH]; intros st Hs Hf; [lia|]. cbn [minimize_loop]. destruct Hs as [Hv Hin Hd Hx Hl Hc Hi HfX Hfirst Hvals].
    destruct (Nat.ltb (m_i st) n) eqn:L.
    2:{ right. eexists. split; [reflexivity|]. unfold ok_result. destruct HfX as (l & a & E & D & La). split.
        { exists (m_f0 st). split; [exists (m_df0 st); auto|]. split; auto. split; auto. intros w I. rewrite E in I. pose proof (last_least l a w D I). lra. }
        split; [rewrite E; auto|]. split; auto. }
    apply Nat.ltb_lt in L. set (i0 := (m_i st + (if lines then 1 else 0))%nat). set (M := if lines then c_MAX else Nat.min c_MAX (n - i0)).
    assert (0 < M)%nat as PM by (unfold M, i0, c_MAX; destruct lines; lia).
    assert (good (m_f0 st) (m_points st ++ []) (m_X st, m_f0 st, m_df0 st)) as G0 by (rewrite app_nil_r; split; auto; split; auto; lra).
    destruct (extrapolate_spec (m_X st) (m_s st) (m_f0 st) (m_df0 st) (m_d0 st) (m_points st) M M _ (m_x3 st) [] (le_n _) PM Hx G0) as (M1 & x3 & f3 & df3 & d3 & b1 & t1 & E1 & P1 & P2 & P3 & P4 & P5 & P6 & P7 & P8).
    cbn [app] in *. rewrite E1. cbn [rbind].
    destruct (interpolate_spec (m_X st) (m_s st) (m_f0 st) (m_df0 st) (m_d0 st) (m_points st) M1 b1 0 (m_f0 st) (m_d0 st) x3 f3 df3 d3 (m_p4 st) t1 (Rle_refl 0) P1 P7 ltac:(auto) P5 P6) as [(P & EP & FP & _)|(x & v & dv & d & b2 & p4 & t2 & E2 & Q1 & Q2 & Q3 & Q4 & Q5 & Q6)].
    { left. exists P. rewrite EP. auto. }
    rewrite E2. cbn [rbind]. set (t12 := t1 ++ t2) in *. set (i1 := (i0 + (if lines then 0 else length t12))%nat).
    assert (length t12 = length t1 + length t2)%nat as Lt by apply app_length.
    assert (length t12 <= M)%nat as LM by lia. assert (0 < length t12)%nat as L0 by lia.
    assert (i1 <= n)%nat as I1 by (unfold i1, i0, M, c_MAX in *; destruct lines; lia). assert (m_i st < i1)%nat as I2 by (unfold i1, i0; destruct lines; lia).
    assert (if lines then (length (m_points st ++ t12) <= 1 + 20 * i1)%nat else i1 = length (m_points st ++ t12)) as Hc'.
    { rewrite app_length. unfold i1, i0, M, c_MAX in *. destruct lines; lia. }
    assert (value_list (m_points st ++ t12) (m_fX st)) as Hvals' by (intros w I; destruct (Hvals w I) as (P & IP & V); exists P; split; auto; apply in_or_app; auto).
    destruct ((if Rlt_dec (Rabs d) (- c_SIG * m_d0 st) then true else false) && (if Rlt_dec v (m_f0 st + x * c_RHO * m_d0 st) then true else false)) eqn:C.
    - apply andb_true_iff in C. destruct C as [C1 C2]. destruct (Rlt_dec (Rabs d) (- c_SIG * m_d0 st)) as [C1'|]; [|discriminate]. destruct (Rlt_dec v (m_f0 st + x * c_RHO * m_d0 st)) as [C2'|]; [|discriminate]. clear C1 C2.
      assert (m_d0 st < 0) as Dn by (pose proof (Rabs_pos d); unfold c_SIG in *; lra).
      assert (v < m_f0 st) as Vl by (unfold c_RHO, c_SIG in *; nra).
      assert (f (move (m_X st) (m_s st) x) = Some (v, dv) /\ In (move (m_X st) (m_s st) x) t12) as [Fv Iv] by (destruct Q5 as [[E _]|H]; [lra|auto]).
      assert (exists s2 d2, (if gt (slope dv (cg (m_df0 st) dv (m_s st))) 0 then (vneg dv, - slope (vneg dv) (vneg dv)) else (cg (m_df0 st) dv (m_s st), slope dv (cg (m_df0 st) dv (m_s st)))) = (s2, d2) /\ d2 <= 0) as (s2 & d2 & Es & Hd2).
      { destruct (gt (slope dv (cg (m_df0 st) dv (m_s st))) 0) eqn:G; eexists; eexists; split; try reflexivity; [specialize (slope_nonneg (vneg dv)); lra|apply gt_false in G; auto]. }
      rewrite Es. apply IH; cbn [m_i]; [|lia]. constructor; cbn [m_X m_f0 m_df0 m_s m_d0 m_x3 m_i m_failed m_fX m_p4 m_points]; auto.
      + apply in_or_app. auto.
      + apply Rmult_lt_0_compat; auto. assert (0 < float_min) as Pt by (unfold float_min; apply Rinv_0_lt_compat, pow_lt; lra).
        apply Rmin_glb_lt; [unfold c_RATIO; lra|]. replace (m_d0 st / (d2 - float_min)) with ((- m_d0 st) / (float_min - d2)) by (field; lra). apply Rdiv_lt_0_compat; lra.
      + lra.
      + destruct HfX as (l & a & E & D & La). exists (l ++ [a]), v. rewrite E. split; auto. split; [apply decreasing_snoc; auto; lra|lra].
      + destruct Hfirst as [l ->]. exists (l ++ [v]). auto.
      + intros w I. apply in_app_or in I. destruct I as [I|[<-|[]]]; [auto|]. exists (move (m_X st) (m_s st) x). split; [apply in_or_app; auto|exists dv; auto].
    - destruct b2 as [[X0 F0] dF0]. destruct Q4 as (G1 & G2 & G3). destruct (m_failed st || Nat.ltb n i1) eqn:B.
      + right. eexists. split; [reflexivity|]. unfold ok_result. destruct HfX as (l & a & E & D & La). split.
        { exists F0. split; [exists dF0; auto|]. split; auto. split; [lra|]. intros w I. rewrite E in I. pose proof (last_least l a w D I). lra. }
        split; [rewrite E; auto|]. split; auto.
      + apply IH; cbn [m_i]; [|lia]. constructor; cbn [m_X m_f0 m_df0 m_s m_d0 m_x3 m_i m_failed m_fX m_p4 m_points]; auto.
        * specialize (slope_nonneg (vneg dF0)). lra.
        * specialize (slope_nonneg (vneg dF0)). apply Rdiv_lt_0_compat; lra.
        * lra.
        * destruct HfX as (l & a & E & D & La). exists l, a. split; auto. split; auto. lra.
  Qed.

  Lemma minimize_spec : forall X v0 g0 lines n, f X = Some (v0, g0) -> (lines = false -> (0 < n)%nat) ->
    (exists P, minimize f slope cg X lines n = Err PyException /\ f P = None) \/
    exists r, minimize f slope cg X lines n = Ok r /\ ok_result lines n v0 r.
  Proof using slope_nonneg.
    intros X v0 g0 lines n E Hn. unfold minimize. rewrite E. apply loop_spec; [|cbn [m_i]; destruct lines; lia]. pose proof (slope_nonneg (vneg g0)) as S0.
    constructor; cbn [m_X m_f0 m_df0 m_s m_d0 m_x3 m_i m_failed m_fX m_p4 m_points]; auto.
    - left. auto.
    - lra.
    - apply Rdiv_lt_0_compat; lra.
    - lra.
    - destruct lines; simpl; lia.
    - destruct lines; [lia|]. apply Hn. auto.
    - exists [], v0. simpl. split; auto. split; auto. lra.
    - exists []. auto.
    - intros w [<-|[]]. exists X. split; [left; auto|exists g0; auto].
  Qed.

  (** Objectives whose derivatives vanish in the coordinates [J], which are all that [slope]
      looks at. *)
  Variable J : nat -> Prop.
  Definition flat (s : vec) : Prop := forall j, J j -> s j = 0.
  Hypothesis derivatives_flat : forall P v g, f P = Some (v, g) -> flat g.
  Hypothesis slope_flat : forall s t, flat s -> flat t -> slope s t = 0.
  Definition agrees (X : vec) (l : list vec) : Prop := forall P j, In P l -> J j -> P j = X j.

  Lemma flat_neg : forall s, flat s -> flat (vneg s).
  Proof using. intros s H j Hj. unfold vneg. rewrite (H j Hj). lra. Qed.
  Lemma ray_agrees : forall X Z s l, flat s -> (forall j, J j -> X j = Z j) -> on_ray X s l -> agrees Z l.
  Proof using. intros X Z s l H E R P j I Hj. destruct (R P I) as (y & _ & ->). unfold move. rewrite (H j Hj), (E j Hj). ring. Qed.

  Lemma stuck_loop : forall lines n v0 Z fuel st r, ok_state lines n v0 st -> flat (m_s st) -> agrees Z (m_points st) -> m_d0 st = 0 ->
    minimize_loop f slope cg fuel lines n st = Ok r ->
    let '(Y, fX, i, pts) := r in fX = m_fX st /\ agrees Z pts /\ (length pts <= length (m_points st) + (if m_failed st then 20 else 40))%nat.
  Proof using slope_nonneg derivatives_flat slope_flat.
    intros lines n v0 Z. induction fuel as [|k IH]; intros st r Hs Fs Az D0 Hr; [discriminate|]. cbn [minimize_loop] in Hr. destruct Hs as [Hv Hin Hd Hx Hl Hc Hi HfX Hfirst Hvals].
    destruct (Nat.ltb (m_i st) n) eqn:L.
    2:{ injection Hr as <-. split; auto. split; auto. lia. }
    apply Nat.ltb_lt in L. set (i0 := (m_i st + (if lines then 1 else 0))%nat) in *. set (M := if lines then c_MAX else Nat.min c_MAX (n - i0)) in *.
    assert (0 < M)%nat as PM by (unfold M, i0, c_MAX; destruct lines; lia). assert (M <= 20)%nat as PL by (unfold M, c_MAX; destruct lines; lia).
    assert (good (m_f0 st) (m_points st ++ []) (m_X st, m_f0 st, m_df0 st)) as G0 by (rewrite app_nil_r; split; auto; split; auto; lra).
    destruct (extrapolate_spec (m_X st) (m_s st) (m_f0 st) (m_df0 st) (m_d0 st) (m_points st) M M _ (m_x3 st) [] (le_n _) PM Hx G0) as (M1 & x3 & f3 & df3 & d3 & b1 & t1 & E1 & P1 & P2 & P3 & P4 & P5 & P6 & P7 & P8).
    cbn [app] in *. rewrite E1 in Hr. cbn [rbind] in Hr.
    destruct (interpolate_spec (m_X st) (m_s st) (m_f0 st) (m_df0 st) (m_d0 st) (m_points st) M1 b1 0 (m_f0 st) (m_d0 st) x3 f3 df3 d3 (m_p4 st) t1 (Rle_refl 0) P1 P7 ltac:(auto) P5 P6) as [(P & EP & FP & _)|(x & v & dv & d & b2 & p4 & t2 & E2 & Q1 & Q2 & Q3 & Q4 & Q5 & Q6)].
    { rewrite EP in Hr. discriminate. }
    rewrite E2 in Hr. cbn [rbind] in Hr. set (t12 := t1 ++ t2) in *. set (i1 := (i0 + (if lines then 0 else length t12))%nat) in *.
    assert (length t12 = length t1 + length t2)%nat as Lt by apply app_length.
    assert (length t12 <= M)%nat as LM by lia. assert (0 < length t12)%nat as L0 by lia.
    assert (on_ray (m_X st) (m_s st) t12) as R12 by (intros P I; apply in_app_or in I; destruct I; auto).
    assert (agrees Z (m_points st ++ t12)) as Az'.
    { intros P j I Hj. apply in_app_or in I. destruct I as [I|I]; [auto|]. apply (ray_agrees (m_X st) Z (m_s st) t12); auto. }
    assert (i1 <= n)%nat as I1 by (unfold i1, i0, M, c_MAX in *; destruct lines; lia).
    destruct (Rlt_dec (Rabs d) (- c_SIG * m_d0 st)) as [C|C]; [rewrite D0 in C; pose proof (Rabs_pos d); lra|]. cbn [andb] in Hr.
    destruct b2 as [[X0 F0] dF0]. destruct Q4 as (G1 & G2 & G3).
    destruct (m_failed st) eqn:Fa; cbn [orb] in Hr.
    - injection Hr as <-. split; auto. split; auto. rewrite app_length. lia.
    - destruct (Nat.ltb n i1) eqn:B; [injection Hr as <-; split; auto; split; auto; rewrite app_length; lia|].
      assert (flat (vneg dF0)) as Fn by (apply flat_neg; eapply derivatives_flat; exact G1). assert (slope (vneg dF0) (vneg dF0) = 0) as S0 by auto.
      apply IH in Hr; cbn [m_X m_f0 m_df0 m_s m_d0 m_x3 m_i m_failed m_fX m_p4 m_points]; auto; [| |rewrite S0; lra].
      + cbn [m_X m_f0 m_df0 m_s m_d0 m_x3 m_i m_failed m_fX m_p4 m_points] in Hr. destruct r as [[[Y fX] i] pts]. destruct Hr as (R1 & R2 & R3). split; auto. split; auto. rewrite app_length in R3. lia.
      + constructor; cbn [m_X m_f0 m_df0 m_s m_d0 m_x3 m_i m_failed m_fX m_p4 m_points]; auto.
        * rewrite S0. lra.
        * rewrite S0. apply Rdiv_lt_0_compat; lra.
        * lra.
        * rewrite app_length. unfold i1, i0, M, c_MAX in *. destruct lines; lia.
        * destruct HfX as (l & a & E & D & La). exists l, a. split; auto. split; auto. lra.
        * intros w I. destruct (Hvals w I) as (P & IP & V). exists P. split; auto. apply in_or_app. auto.
  Qed.

  Lemma stuck : forall X v0 g0 lines n Y fX i pts, f X = Some (v0, g0) -> (lines = false -> (0 < n)%nat) -> minimize f slope cg X lines n = Ok (Y, fX, i, pts) ->
    fX = [v0] /\ agrees X pts /\ (length pts <= 41)%nat.
  Proof using slope_nonneg derivatives_flat slope_flat.
    intros X v0 g0 lines n Y fX i pts E Hn H. unfold minimize in H. rewrite E in H. assert (flat (vneg g0)) as Fn by (apply flat_neg; eapply derivatives_flat; exact E). assert (slope (vneg g0) (vneg g0) = 0) as S0 by auto.
    apply (stuck_loop lines n v0 X) in H; cbn [m_X m_f0 m_df0 m_s m_d0 m_x3 m_i m_failed m_fX m_p4 m_points] in *; auto.
    - constructor; cbn [m_X m_f0 m_df0 m_s m_d0 m_x3 m_i m_failed m_fX m_p4 m_points]; auto.
      + left. auto.
      + rewrite S0. lra.
      + rewrite S0. apply Rdiv_lt_0_compat; lra.
      + lra.
      + destruct lines; simpl; lia.
      + destruct lines; [lia|]. apply Hn. auto.
      + exists [], v0. simpl. split; auto. split; auto. lra.
      + exists []. auto.
      + intros w [<-|[]]. exists X. split; [left; auto|exists g0; auto].
    - intros P j [<-|[]] _. auto.
    - rewrite S0. lra.
  Qed.
End Facts.
