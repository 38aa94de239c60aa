(** The BIC score of the code on a matrix of correlations. *)

From Coq Require Import List Arith Lia Bool Permutation Reals Lra.
From Verif Require Import Model.Py Model.LocalScore Spec.Digraphs Spec.Scores Proofs.FinGraph Proofs.ScoreFacts.
Import ListNotations.
Open Scope nat_scope.

Lemma rsumn_sumR : forall n f, rsumn n f = sumRn n f.
Proof. intros n f. unfold rsumn, rsum, sumRn. induction (seq 0 n); simpl; [lra|]. rewrite IHl. auto. Qed.

Lemma sum_positions : forall P f, sumRn (length P) (fun a => f (nth a P O)) = sumR P f.
Proof.
  unfold sumRn. induction P as [|p P IH]; intro f; [reflexivity|]. cbn [length seq sumR nth].
  rewrite <- seq_shift. rewrite <- IH.
  assert (forall l, sumR (map S l) (fun a => f (nth a (p :: P) 0)) = sumR l (fun a => f (nth a P O))) as Q.
  { induction l as [|a l IHl]; simpl; auto. rewrite <- IHl. auto. }
  rewrite Q. auto.
Qed.

Lemma sum_delta : forall l f j, NoDup l -> In j l -> sumR l (fun a => (if Nat.eqb a j then 1 else 0) * f a)%R = f j.
Proof.
  induction l as [|a l IH]; intros f j ND H; [destruct H|]. inversion ND; subst. simpl. destruct H as [->|H].
  - rewrite Nat.eqb_refl. rewrite sumR_zero; [lra|]. intros b Hb. destruct (Nat.eqb_spec b j); [subst; contradiction|lra].
  - destruct (Nat.eqb_spec a j); [subst; contradiction|]. rewrite IH; auto. lra.
Qed.

Lemma nth_index : forall P p, In p P -> nth (index_of p P) P O = p.
Proof.
  induction P as [|a P IH]; intros p H; [destruct H|]. simpl. destruct (Nat.eq_dec p a); [congruence|]. simpl. apply IH. destruct H; congruence.
Qed.

Section Cov.
  Variable C : nat -> nat -> R.
  Variable n : nat.
  Hypothesis HC : correlations n C.
  Notation good := (good n).

  Lemma C_sym : forall i j, i < n -> j < n -> C i j = C j i.
  Proof using HC. apply HC. Qed.

  (** Normal equations: [b] are the coefficients of the regression on [P] with
      right-hand side [r]. *)
  Definition solves (P : list nat) (r b : nat -> R) : Prop :=
    forall q, In q P -> sumR P (fun p => b p * C p q)%R = r q.
  (** What the regression of [i] leaves unexplained. *)
  Definition rest (P : list nat) (b : nat -> R) (i j : nat) : R := (C i j - sumR P (fun p => b p * C p j))%R.

  Lemma cross : forall P b b' i j, good P -> i < n -> j < n -> solves P (C i) b -> solves P (C j) b' ->
    sumR P (fun p => b p * C p j)%R = sumR P (fun p => b' p * C p i)%R.
  Proof using HC.
    intros P b b' i j [ND L] Li Lj S S'.
    transitivity (sumR P (fun p => sumR P (fun q => b p * b' q * C q p)%R)).
    - apply sumR_ext. intros p Hp. rewrite (C_sym p j) by auto. rewrite <- (S' p Hp).
      rewrite <- sumR_scal. apply sumR_ext. intros; ring.
    - rewrite sumR_swap. apply sumR_ext. intros q Hq. rewrite (C_sym q i) by auto. rewrite <- (S q Hq).
      rewrite <- sumR_scal. apply sumR_ext. intros p Hp. rewrite (C_sym q p) by auto. ring.
  Qed.

  Lemma rest_sym : forall P b b' i j, good P -> i < n -> j < n -> solves P (C i) b -> solves P (C j) b' -> rest P b i j = rest P b' j i.
  Proof using HC. intros. unfold rest. rewrite (C_sym i j) by auto. rewrite (cross P b b' i j); auto. Qed.

  Lemma rest_pos : forall P b i, good P -> i < n -> ~ In i P -> solves P (C i) b -> (0 < rest P b i i)%R.
  Proof using HC.
    intros P b i [ND L] Li NI S.
    set (w := fun a => if Nat.eqb a i then 1%R else if existsb (Nat.eqb a) P then (- b a)%R else 0%R).
    assert (forall a, existsb (Nat.eqb a) P = true <-> In a P) as EX.
    { intro a. rewrite existsb_exists. split; [intros [x [Hx Ex]]; apply Nat.eqb_eq in Ex; subst; auto|].
      intro. exists a. split; auto. apply Nat.eqb_refl. }
    assert (w i = 1%R) as Wi by (unfold w; rewrite Nat.eqb_refl; auto).
    assert (forall p, In p P -> w p = (- b p)%R) as Wp.
    { intros p Hp. unfold w. destruct (Nat.eqb_spec p i); [subst; contradiction|]. rewrite (proj2 (EX p) Hp). auto. }
    assert (forall a, ~ In a (i :: P) -> w a = 0%R) as W0.
    { intros a Ha. unfold w. destruct (Nat.eqb_spec a i); [subst; exfalso; apply Ha; left; auto|].
      destruct (existsb (Nat.eqb a) P) eqn:Q; auto. apply EX in Q. exfalso. apply Ha. right. auto. }
    destruct HC as [Sym [_ Pos]]. specialize (Pos w). unfold sumRn in Pos.
    assert (NoDup (i :: P)) as ND2 by (constructor; auto).
    assert (incl (i :: P) (seq 0 n)) as I2. { intros a [<-|Ha]; apply in_seq; [lia|]. specialize (L a Ha). lia. }
    assert (sumR (seq 0 n) (fun a => sumR (seq 0 n) (fun c => w a * C a c * w c)%R) = rest P b i i) as K.
    { rewrite (sumR_support (seq 0 n) (i :: P)); auto using seq_NoDup.
      2: { intros a _ Ha. apply sumR_zero. intros c _. rewrite (W0 a Ha). ring. }
      rewrite (sumR_ext (i :: P) _ (fun a => w a * sumR (i :: P) (fun c => C a c * w c))%R).
      2: { intros a Ha. rewrite (sumR_support (seq 0 n) (i :: P)); auto using seq_NoDup.
           - rewrite <- sumR_scal. apply sumR_ext. intros; ring.
           - intros c _ Hc. rewrite (W0 c Hc). ring. }
      cbn [sumR]. rewrite Wi.
      assert (forall a, sumR P (fun c => C a c * w c)%R = (- sumR P (fun c => b c * C a c))%R) as E1.
      { intro a. rewrite (sumR_ext P _ (fun c => (-1) * (b c * C a c))%R); [rewrite sumR_scal; ring|].
        intros c Hc. rewrite (Wp c Hc). ring. }
      rewrite E1.
      rewrite (sumR_ext P (fun a => w a * _)%R (fun a => 0)%R).
      2: { intros a Ha. rewrite (Wp a Ha), E1.
           assert (sumR P (fun c => b c * C a c)%R = C i a) as E2.
           { rewrite <- (S a Ha). apply sumR_ext. intros c Hc. rewrite (Sym a c); auto. }
           rewrite E2, (Sym a i); auto. ring. }
      rewrite (sumR_zero P (fun _ => 0%R)); auto. unfold rest.
      rewrite (sumR_ext P (fun c => b c * C i c)%R (fun p => b p * C p i)%R); [lra|].
      intros c Hc. rewrite (Sym i c); auto. }
    rewrite K in Pos. apply Pos. exists i. split; auto. rewrite Wi. lra.
  Qed.

  (** Solutions for one more variable. *)
  Lemma solve_cons : forall P i bi r br, good P -> i < n -> ~ In i P -> solves P (C i) bi -> solves P r br ->
    let t := ((r i - sumR P (fun p => br p * C p i)) / rest P bi i i)%R in
    let b := fun p => if Nat.eqb p i then t else (br p - t * bi p)%R in
    solves (i :: P) r b /\ forall j, sumR (i :: P) (fun p => b p * C p j)%R = (sumR P (fun p => br p * C p j) + t * rest P bi i j)%R.
  Proof using HC.
    intros P i bi r br G Li NI Si Sr t b.
    assert (forall j, sumR (i :: P) (fun p => b p * C p j)%R = (sumR P (fun p => br p * C p j) + t * rest P bi i j)%R) as K.
    { intro j. cbn [sumR]. unfold b at 1. rewrite Nat.eqb_refl.
      rewrite (sumR_ext P _ (fun p => br p * C p j - t * (bi p * C p j))%R).
      - rewrite sumR_minus, sumR_scal. unfold rest. ring.
      - intros p Hp. unfold b. destruct (Nat.eqb_spec p i); [subst; contradiction|]. ring. }
    split; auto. intros q [<-|Hq]; rewrite K.
    - unfold t. pose proof (rest_pos P bi i G Li NI Si). field. lra.
    - rewrite (Sr q Hq). unfold rest. rewrite (Si q Hq). ring.
  Qed.

  (** A solution, by recursion on the list. *)
  Fixpoint solution (P : list nat) (r : nat -> R) : nat -> R :=
    match P with
    | [] => fun _ => 0%R
    | i :: P' =>
        let bi := solution P' (C i) in
        let br := solution P' r in
        let t := ((r i - sumR P' (fun p => br p * C p i)) / rest P' bi i i)%R in
        fun p => if Nat.eqb p i then t else (br p - t * bi p)%R
    end.

  Lemma solution_ok : forall P, good P -> forall r, solves P r (solution P r).
  Proof using HC.
    induction P as [|i P IH]; intros [ND L] r; [intros q []|].
    inversion ND; subst. assert (good P) as G by (split; auto; intros; apply L; right; auto).
    assert (i < n) as Li by (apply L; left; auto).
    apply (solve_cons P i (solution P (C i)) r (solution P r) G Li H1 (IH G (C i)) (IH G r)).
  Qed.
  Lemma solvable : forall P, good P -> forall r, exists b, solves P r b.
  Proof using HC. intros P G r. exists (solution P r). apply solution_ok. auto. Qed.

  Definition sub (P : list nat) : nat -> nat -> R := fun a b => C (nth a P O) (nth b P O).

  Definition inverse (P : list nat) : nat -> nat -> R :=
    fun j a => solution P (fun q => if Nat.eqb (nth j P O) q then 1%R else 0%R) (nth a P O).

  Lemma inverse_ok : forall P, good P -> inverse_of (length P) (sub P) (inverse P).
  Proof using HC.
    intros P G. destruct G as [ND L]. set (k := length P). set (B := inverse P).
    assert (forall a, a < k -> nth a P O < n) as Ln by (intros a Ha; apply L, nth_In; auto).
    assert (forall j, j < k -> forall l, l < k -> sumRn k (fun a => B j a * sub P a l)%R = (if Nat.eqb j l then 1 else 0)%R) as HB.
    { intros j Hj l Hl. unfold B, inverse, sub, k.
      rewrite (sum_positions P (fun p => solution P (fun q => if Nat.eqb (nth j P O) q then 1%R else 0%R) p * C p (nth l P O))%R).
      rewrite (solution_ok P (conj ND L)) by (apply nth_In; auto).
      destruct (Nat.eqb_spec j l) as [->|D]; [rewrite Nat.eqb_refl; auto|].
      destruct (Nat.eqb_spec (nth j P O) (nth l P O)) as [E|]; auto. exfalso. apply D. eapply NoDup_nth; eauto. }
    assert (forall a b, a < k -> b < k -> sub P a b = sub P b a) as SS by (intros; apply C_sym; auto).
    assert (forall i j, i < k -> j < k -> B i j = B j i) as BS.
    { (* B = B A B^T = B^T *)
      intros i j Hi Hj.
      assert (sumRn k (fun l => sumRn k (fun a => B i a * sub P a l) * B j l)%R = B j i) as E1.
      { unfold sumRn at 1. rewrite (sumR_ext _ _ (fun l => (if Nat.eqb l i then 1 else 0) * B j l)%R).
        - apply (sum_delta (seq 0 k) (B j) i); [apply seq_NoDup|apply in_seq; lia].
        - intros l Hl. apply in_seq in Hl. rewrite HB by lia. rewrite Nat.eqb_sym. auto. }
      assert (sumRn k (fun l => sumRn k (fun a => B i a * sub P a l) * B j l)%R = B i j) as E2.
      { unfold sumRn. rewrite (sumR_ext _ _ (fun l => sumR (seq 0 k) (fun a => B i a * (B j l * sub P l a))%R)).
        - rewrite sumR_swap. rewrite (sumR_ext _ _ (fun a => (if Nat.eqb a j then 1 else 0) * B i a)%R).
          + apply (sum_delta (seq 0 k) (B i) j); [apply seq_NoDup|apply in_seq; lia].
          + intros a Ha. apply in_seq in Ha. rewrite sumR_scal. pose proof (HB j Hj a ltac:(lia)) as Q. unfold sumRn in Q. rewrite Q.
            rewrite Nat.eqb_sym. ring.
        - intros l Hl. apply in_seq in Hl. rewrite <- sumR_scalr. apply sumR_ext. intros a Ha. apply in_seq in Ha. rewrite (SS l a) by lia. ring. }
      congruence. }
    intros i j Hi Hj. split; [|apply HB; auto]. fold k. fold k in Hi, Hj.
    rewrite Nat.eqb_sym. rewrite <- (HB j Hj i Hi). unfold sumRn. apply sumR_ext. intros a Ha. apply in_seq in Ha.
    rewrite (BS a j), (SS i a) by lia. ring.
  Qed.

  (** A principal submatrix of a matrix of correlations is one. *)
  Lemma sub_correlations : forall P, good P -> correlations (length P) (sub P).
  Proof using HC.
    intros P [ND L]. set (k := length P). assert (forall a, a < k -> nth a P O < n) as Ln by (intros a Ha; apply L, nth_In; auto).
    destruct HC as [Sym [Dg Pos]]. unfold sub. split; [|split].
    - intros; apply Sym; auto.
    - intros; apply Dg; auto.
    - intros w [i0 [Hi0 Hw]].
      set (W := fun p => sumR (seq 0 k) (fun a => (if Nat.eqb a (index_of p P) then 1 else 0) * (if in_dec Nat.eq_dec p P then w a else 0))%R).
      assert (forall a, a < k -> W (nth a P O) = w a) as Wn.
      { intros a Ha. unfold W. assert (In (nth a P O) P) as I by (apply nth_In; auto).
        rewrite (sum_delta (seq 0 k) (fun b => if in_dec Nat.eq_dec (nth a P O) P then w b else 0%R) (index_of (nth a P O) P)).
        - destruct (in_dec Nat.eq_dec (nth a P O) P); [|contradiction]. f_equal.
          apply (proj1 (NoDup_nth P O) ND); auto; [apply index_of_lt; auto|]. apply nth_index. auto.
        - apply seq_NoDup.
        - apply in_seq. split; [lia|]. simpl. apply index_of_lt. auto. }
      assert (forall p, ~ In p P -> W p = 0%R) as W0.
      { intros p Hp. unfold W. apply sumR_zero. intros a _. destruct (in_dec Nat.eq_dec p P); [contradiction|]. ring. }
      assert (incl P (seq 0 n)) as I2 by (intros p Hp; apply in_seq; specialize (L p Hp); lia).
      specialize (Pos W). unfold sumRn in Pos.
      assert (sumR (seq 0 n) (fun i => sumR (seq 0 n) (fun j => W i * C i j * W j)%R) = sumRn k (fun a => sumRn k (fun b => w a * C (nth a P O) (nth b P O) * w b)%R)) as K.
      { rewrite (sumR_support (seq 0 n) P); auto using seq_NoDup.
        2: { intros a _ Ha. apply sumR_zero. intros c _. rewrite (W0 a Ha). ring. }
        rewrite <- (sum_positions P). fold k. unfold sumRn. apply sumR_ext. intros a Ha. apply in_seq in Ha.
        rewrite (sumR_support (seq 0 n) P); auto using seq_NoDup.
        2: { intros c _ Hc. rewrite (W0 c Hc). ring. }
        rewrite <- (sum_positions P). fold k. unfold sumRn. apply sumR_ext. intros b Hb. apply in_seq in Hb.
        rewrite !Wn by lia. auto. }
      rewrite K in Pos. apply Pos. exists (nth i0 P O). split; [auto|]. rewrite Wn; auto.
  Qed.

  (* ---------- the code's quadratic form ---------- *)
  Variable inv : nat -> rmat -> res rmat.
  (** numpy's inverse is right on matrices of correlations. *)
  Hypothesis inv_ok : forall k A, correlations k A -> exists B, inv k A = Ok B /\ inverse_of k A B.
  Variable m : nat.          (* the sample count *)
  Variable lambda : R.

  Definition bic_value (P : list nat) (v : R) : R := (- (INR m * ln v + ln (INR m) * INR (length P) * lambda))%R.

  Lemma bic_val : forall P i b, good P -> i < n -> ~ In i P -> solves P (C i) b ->
    bic_local inv C m lambda i P = Ok (bic_value P (rest P b i i)).
  Proof using HC inv_ok.
    intros P i b G Li NI S. unfold bic_local. destruct P as [|p0 P0].
    - simpl. unfold bic_value, rest. simpl. destruct HC as [_ [D _]]. rewrite (D i Li). rewrite Rminus_0_r, ln_1. f_equal. ring.
    - set (P := p0 :: P0) in *. assert (Nat.eqb (length P) 0 = false) as -> by auto.
      destruct (inv_ok (length P) (sub P) (sub_correlations P G)) as [B [EB I]].
      change (inv (length P) (fun a b0 : nat => C (nth a P O) (nth b0 P O))) with (inv (length P) (sub P)). rewrite EB. unfold rbind. f_equal. unfold bic_value. do 4 f_equal. unfold rest. f_equal.
      destruct G as [ND L]. set (k := length P) in *.
      assert (forall a, a < k -> nth a P O < n) as Ln by (intros a Ha; apply L, nth_In; auto).
      rewrite rsumn_sumR. rewrite <- (sum_positions P (fun p => b p * C p i)%R). fold k. unfold sumRn.
      apply sumR_ext. intros c Hc. apply in_seq in Hc. rewrite rsumn_sumR. rewrite (C_sym i (nth c P O)) by (auto; apply Ln; lia). f_equal.
      (* y B = b since y = b A *)
      unfold sumRn.
      rewrite (sumR_ext _ _ (fun a => sumR (seq 0 k) (fun d => b (nth d P O) * (C (nth d P O) (nth a P O) * B a c))%R)).
      + rewrite sumR_swap. rewrite (sumR_ext _ _ (fun d => (if Nat.eqb d c then 1 else 0) * b (nth d P O))%R).
        * apply (sum_delta (seq 0 k) (fun d => b (nth d P O)) c); [apply seq_NoDup|apply in_seq; lia].
        * intros d Hd. apply in_seq in Hd. rewrite sumR_scal. destruct (I d c) as [I1 _]; try lia. unfold sumRn, sub in I1. fold k in I1. rewrite I1. ring.
      + intros a Ha. apply in_seq in Ha. rewrite <- (S (nth a P O)) by (apply nth_In; fold k; lia).
        rewrite <- (sum_positions P (fun p => b p * C p (nth a P O))%R). fold k. unfold sumRn. rewrite <- sumR_scalr.
        apply sumR_ext. intros; ring.
  Qed.

  Definition bic_total (i : nat) (P : list nat) : R := match bic_local inv C m lambda i P with Ok v => v | Err _ => 0%R end.

  Lemma bic_ok : forall P i, good P -> i < n -> ~ In i P -> bic_local inv C m lambda i P = Ok (bic_total i P).
  Proof using HC inv_ok.
    intros P i G Li NI. destruct (solvable P G (C i)) as [b S]. unfold bic_total. rewrite (bic_val P i b); auto.
  Qed.

  Lemma bic_set : forall v P P', v < n -> good P -> good P' -> ~ In v P -> (forall u, In u P <-> In u P') -> bic_total v P = bic_total v P'.
  Proof using HC inv_ok.
    intros v P P' Lv G G' NI E. destruct (solvable P G (C v)) as [b S].
    assert (Permutation P P') as Pm by (destruct G, G'; apply nodup_perm; auto).
    assert (solves P' (C v) b) as S'. { intros q Hq. rewrite <- (sumR_perm _ _ _ Pm). apply S. apply E. auto. }
    unfold bic_total. rewrite (bic_val P v b), (bic_val P' v b); auto; [|rewrite <- E; auto].
    unfold bic_value, rest. rewrite (sumR_perm _ _ _ Pm), (Permutation_length Pm). auto.
  Qed.

  Lemma bic_turn : forall x y P, x < n -> y < n -> x <> y -> good P -> ~ In x P -> ~ In y P ->
    (bic_total x P + bic_total y (x :: P) = bic_total y P + bic_total x (y :: P))%R.
  Proof using HC inv_ok.
    assert (forall x y P bx by', x < n -> y < n -> x <> y -> good P -> ~ In x P -> ~ In y P -> solves P (C x) bx -> solves P (C y) by' ->
      (bic_total x P + bic_total y (x :: P) =
       - (INR m * ln (rest P bx x x * rest P by' y y - rest P bx x y * rest P by' y x) + ln (INR m) * (INR (length P) + (INR (length P) + 1)) * lambda))%R) as K.
    { intros x y P bx by' Lx Ly D G Nx Ny Sx Sy.
      destruct (solve_cons P x bx (C y) by' G Lx Nx Sx Sy) as [S2 V2].
      set (t := ((C y x - sumR P (fun p => by' p * C p x)) / rest P bx x x)%R) in *.
      set (b2 := fun p => if p =? x then t else (by' p - t * bx p)%R) in *.
      assert (good (x :: P)) as G2. { destruct G. split; [constructor; auto|]. intros p [<-|Hp]; auto. }
      assert (~ In y (x :: P)) as Ny2 by (intros [Q|Q]; auto).
      pose proof (rest_pos P bx x G Lx Nx Sx) as Px. pose proof (rest_pos (x :: P) b2 y G2 Ly Ny2 S2) as Py.
      unfold bic_total. rewrite (bic_val P x bx), (bic_val (x :: P) y b2); auto. unfold bic_value.
      assert (rest P bx x x * rest P by' y y - rest P bx x y * rest P by' y x = rest P bx x x * rest (x :: P) b2 y y)%R as ->.
      { unfold rest at 6. rewrite V2.
        assert (t * rest P bx x x = rest P by' y x)%R as Et. { unfold t. fold (rest P by' y x). field. lra. }
        transitivity (rest P bx x x * (C y y - sumR P (fun p => by' p * C p y)) - rest P bx x y * (t * rest P bx x x))%R; [rewrite Et; unfold rest at 2; ring|ring]. }
      rewrite ln_mult by auto. cbn [length]. rewrite S_INR. ring. }
    intros x y P Lx Ly D G Nx Ny. destruct (solvable P G (C x)) as [bx Sx]. destruct (solvable P G (C y)) as [by' Sy].
    rewrite (K x y P bx by'), (K y x P by' bx); auto.
    replace (rest P by' y y * rest P bx x x - rest P by' y x * rest P bx x y)%R with (rest P bx x x * rest P by' y y - rest P bx x y * rest P by' y x)%R by ring. auto.
  Qed.

  Lemma dag_score_sum : forall (local : nat -> list nat -> res R) (s : nat -> list nat -> R) pa vs, (forall v, In v vs -> local v (pa v) = Ok (s v (pa v))) ->
    dag_score local pa vs = Ok (sumR vs (fun v => s v (pa v))).
  Proof using.
    intros local s pa vs. induction vs as [|v vs IH]; intro H; simpl; auto.
    rewrite (H v) by (left; auto). simpl. rewrite IH by (intros; apply H; right; auto). simpl. auto.
  Qed.
End Cov.

(** A correct inverse, for the examples. *)
Definition spd_inv (k : nat) (A : rmat) : res rmat := Ok (inverse A (seq 0 k)).
Lemma spd_inv_ok : forall k A, correlations k A -> exists B, spd_inv k A = Ok B /\ inverse_of k A B.
Proof.
  intros k A H. eexists. split; [reflexivity|].
  assert (good k (seq 0 k)) as G by (split; [apply seq_NoDup|intros p Hp; apply in_seq in Hp; lia]).
  pose proof (inverse_ok A k H (seq 0 k) G) as Q. rewrite seq_length in Q. intros i j Hi Hj. destruct (Q i j Hi Hj) as [Q1 Q2].
  unfold sub, sumRn in *. split; [rewrite <- Q1|rewrite <- Q2]; apply sumR_ext; intros a Ha; apply in_seq in Ha; rewrite !seq_nth by lia; auto.
Qed.
