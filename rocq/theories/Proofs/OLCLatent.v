(** The third stage of the one-component learner: what it keeps invariant. *)

From Coq Require Import List Arith Lia Bool Permutation.
From Verif Require Import Model.Py Model.OLC Spec.OLCSpec Proofs.OLCPairs.
Import ListNotations.
Open Scope nat_scope.
Open Scope res_scope.

(** Edges and arcs between observed variables. *)
Definition wf_edges (n : nat) (u g : list (nat * nat)) : Prop :=
  (forall q, In q u -> fst q < snd q < n) /\
  (forall a b, a < n -> b < n -> In (a, b) g -> a <> b /\ has_edge u a b = false /\ ~ In (b, a) g).

Lemma has_false : forall u a b, has_edge u a b = false <-> ~ has_edge u a b = true.
Proof. intros. destruct (has_edge u a b); split; intro H; try congruence; exfalso; auto. Qed.

Lemma wf_remove : forall n u g x y, wf_edges n u g -> wf_edges n (remove_edge u x y) g.
Proof.
  intros n u g x y [U G]. split.
  - intros q I. apply remove_in in I. apply U. tauto.
  - intros a b Ha Hb I. destruct (G a b Ha Hb I) as (N & E & F). split; auto. split; auto. apply has_false. rewrite has_remove. intros [H _]. congruence.
Qed.

Lemma wf_orient : forall n u g x y, wf_edges n u g -> x <> y -> has_edge u x y = true -> x < n -> y < n ->
  wf_edges n (remove_edge u x y) (add_arc g x y).
Proof.
  intros n u g x y W N H Hx Hy. pose proof (wf_remove n u g x y W) as [U G]. destruct W as [U0 G0]. split; auto.
  assert (~ In (x, y) g /\ ~ In (y, x) g) as [F1 F2].
  { split; intro I; apply G0 in I; auto; destruct I as (_ & E & _); [|rewrite has_edge_sym in E]; congruence. }
  intros a b Ha Hb I. apply add_in in I. destruct I as [I|I].
  - destruct (G a b Ha Hb I) as (N' & E & F). split; auto. split; auto. rewrite add_in. intros [J|J]; auto. inversion J; subst. contradiction.
  - inversion I; subst. split; auto. split; [apply has_false; rewrite has_remove; tauto|]. rewrite add_in. intros [J|J]; auto. inversion J; subst. auto.
Qed.

Lemma wf_latent_arc : forall n u g l x, n <= l -> wf_edges n u g -> wf_edges n u (add_arc g l x).
Proof.
  intros n u g l x Hl [U G]. split; auto. intros a b Ha Hb I. apply add_in in I. destruct I as [I|I]; [|inversion I; subst; lia].
  destruct (G a b Ha Hb I) as (N & E & F). split; auto. split; auto. rewrite add_in. intros [J|J]; auto. inversion J; subst. lia.
Qed.

Definition three (n : nat) (g : list (nat * nat)) (l : nat) : Prop :=
  exists a b c, a < n /\ b < n /\ c < n /\ a <> b /\ a <> c /\ b <> c /\ In (l, a) g /\ In (l, b) g /\ In (l, c) g.
Lemma three_add : forall n g l x y, three n g l -> three n (add_arc g x y) l.
Proof. intros n g l x y (a & b & c & A & B & C & N1 & N2 & N3 & I1 & I2 & I3). exists a, b, c. rewrite !add_in. tauto. Qed.

Section Latent.
  Variable D : olc_num.
  Variable n : nat.
  Variable ord : list nat -> list nat.
  Variable data : nat -> col D.
  Variable g0 : list (nat * nat).

  (** Invariant of a round that works on latent number [L], began with [m] edges,
      among them only pairs of [u0]; the arcs [g0] stay. *)
  Record inv (u0 : list (nat * nat)) (L m : nat) (s : lat D) : Prop := {
    i_wf : wf_edges n (l_udg s) (l_cg s);
    i_range : forall a b, In (a, b) (l_cg s) -> b < n /\ (a < n \/ n <= a < L \/ (a = L /\ l_latent s = true));
    i_three : forall l, n <= l -> l < L \/ (l = L /\ l_latent s = true) -> three n (l_cg s) l;
    i_sub : forall a b, has_edge (l_udg s) a b = true -> has_edge u0 a b = true;
    i_A : forall i j, i <> j -> j < n -> has_edge u0 i j = false -> l_A s i j = nzero D;
    i_len : length (l_udg s) <= m;
    i_less : l_orient s || l_latent s = true -> length (l_udg s) < m;
    i_cap : l_latent s = true -> L < 2 * n;
    i_keep : forall q, In q g0 -> In q (l_cg s)
  }.

  Lemma set_ent_other : forall {C} (A : nat -> nat -> C) x y c i j, (i <> x \/ j <> y) -> set_ent A x y c i j = A i j.
  Proof. intros. unfold set_ent. destruct (Nat.eqb_spec i x), (Nat.eqb_spec j y); simpl; auto. exfalso; tauto. Qed.

  (** Entries that only an edge of [u0] allows to be written. *)
  Definition clean (u0 : list (nat * nat)) (A : nat -> nat -> num D) : Prop :=
    forall i j, i <> j -> j < n -> has_edge u0 i j = false -> A i j = nzero D.
  Lemma clean_diag : forall u0 A x c, clean u0 A -> clean u0 (set_ent A x x c).
  Proof. intros u0 A x c H i j N Hj E. rewrite set_ent_other by (destruct (Nat.eq_dec i x); [right|left]; lia). auto. Qed.
  Lemma clean_latent : forall u0 A x l c, n <= l -> clean u0 A -> clean u0 (set_ent A x l c).
  Proof. intros u0 A x l c Hl H i j N Hj E. rewrite set_ent_other by (right; lia). auto. Qed.
  Lemma clean_edge : forall u0 A x y c, has_edge u0 x y = true -> clean u0 A -> clean u0 (set_ent A y x c).
  Proof.
    intros u0 A x y c HE H i j N Hj E. rewrite set_ent_other; auto.
    destruct (Nat.eq_dec i y) as [->|]; [|auto]. destruct (Nat.eq_dec j x) as [->|]; [|auto]. rewrite has_edge_sym in E. congruence.
  Qed.

  Lemma orient_inv : forall u0 L m cs ce k x y s s' x' y', n <= L -> x <> y -> x < n -> y < n -> has_edge (l_udg s) x y = true -> inv u0 L m s ->
    orient D data k cs ce x y s = (s', x', y') -> inv u0 L m s' /\ x' <> y' /\ x' < n /\ y' < n.
  Proof.
    intros u0 L m cs ce k. induction k as [|k IH]; intros x y s s' x' y' HL N Hx Hy HE I E; cbn [orient] in E; [inversion E; subst; auto|].
    destruct I as [W RG T SB CA LN LS CP KP].
    assert (has_edge u0 x y = true) as H0 by auto.
    set (A1 := if small D (l_A s x x) then _ else _) in E.
    assert (clean u0 A1) as C1 by (unfold A1; destruct (small D (l_A s x x)); [apply clean_diag|]; exact CA).
    set (A2 := if small D (A1 y x) then _ else _) in E.
    assert (clean u0 A2) as C2 by (unfold A2; destruct (small D (A1 y x)); [apply clean_edge|]; auto).
    destruct (ge_beta D (sur_pval D data A2 (x :: y :: cs) (ce ++ [x]) x)).
    - inversion E; subst. split; [|auto]. constructor; cbn [l_udg l_cg l_sur l_exo l_A l_orient l_latent].
      + apply wf_orient; auto.
      + intros a b Ia. apply add_in in Ia. destruct Ia as [Ia|Ia]; [auto|]. inversion Ia; subst. auto.
      + intros l Hl Hc. apply three_add. auto.
      + intros a b Hab. apply has_remove in Hab. apply SB. tauto.
      + exact C2.
      + pose proof (remove_len (l_udg s) x' y'). lia.
      + intros _. pose proof (remove_less (l_udg s) x' y' HE). lia.
      + auto.
      + intros q Iq. apply add_in. auto.
    - apply IH in E; auto. { rewrite has_edge_sym. auto. }
      constructor; cbn [l_udg l_cg l_sur l_exo l_A l_orient l_latent]; auto.
      set (A3 := if small D (l_A s x x) then set_ent A2 x x (nzero D) else A2).
      assert (clean u0 A3) as C3 by (unfold A3; destruct (small D (l_A s x x)); [apply clean_diag|]; exact C2).
      fold (clean u0 (if small D (A1 y x) then set_ent A3 y x (nzero D) else A3)).
      destruct (small D (A1 y x)); [apply clean_edge|]; auto.
  Qed.

  Lemma try_inv : forall u0 L m x y z s, n <= L -> x <> y -> z <> x -> z <> y -> x < n -> y < n -> z < n ->
    has_edge (l_udg s) x z = true \/ has_edge (l_udg s) y z = true -> inv u0 L m s ->
    match try_latent D n ord data L x y z s with Ok q => inv u0 L m (fst q) | Err e => e = IndexError /\ 2 * n <= L end.
  Proof.
    intros u0 L m x y z s HL N1 N2 N3 Hx Hy Hz HE [W RG T SB CA LN LS CP KP]. unfold try_latent.
    destruct (Nat.leb_spec (2 * n) L) as [|LT]; [auto|].
    set (cs := shared ord (l_sur s) x y z). set (ce := shared ord (l_exo s) x y z).
    set (e_z := match cs with [] => data z | _ => _ end).
    set (A1 := if small D (l_A s z L) then set_ent (l_A s) z L _ else l_A s).
    assert (clean u0 A1) as C1 by (unfold A1; destruct (small D (l_A s z L)); [apply clean_latent; auto|]; exact CA).
    set (A2 := if small D (A1 x L) then set_ent A1 x L _ else A1).
    assert (clean u0 A2) as C2 by (unfold A2; destruct (small D (A1 x L)); [apply clean_latent; auto|]; exact C1).
    set (A3 := if small D (A2 y L) then set_ent A2 y L _ else A2).
    assert (clean u0 A3) as C3 by (unfold A3; destruct (small D (A2 y L)); [apply clean_latent; auto|]; exact C2).
    destruct (ge_beta D (sur_pval D data A3 (cs ++ [x; y]) (ce ++ [L]) z)); cbn [fst].
    - constructor; cbn [l_udg l_cg l_sur l_exo l_A l_orient l_latent].
      + repeat apply wf_latent_arc; auto. repeat apply wf_remove. auto.
      + intros a b I. rewrite !add_in in I. destruct I as [[[I|I]|I]|I].
        * destruct (RG a b I) as [P Q]. split; auto. destruct Q as [Q|[Q|[Q _]]]; auto.
        * inversion I; subst. auto.
        * inversion I; subst. auto.
        * inversion I; subst. auto.
      + intros l Hl [Hc|[-> _]]; [repeat apply three_add; apply T; auto|].
        exists x, y, z. rewrite !add_in. repeat split; auto.
      + intros a b H. apply has_remove in H. destruct H as [H _]. apply has_remove in H. apply SB. tauto.
      + exact C3.
      + pose proof (remove_len (l_udg s) x z). pose proof (remove_len (remove_edge (l_udg s) x z) y z). lia.
      + intros _. destruct HE as [HE|HE].
        * pose proof (remove_less (l_udg s) x z HE). pose proof (remove_len (remove_edge (l_udg s) x z) y z). lia.
        * assert (has_edge (remove_edge (l_udg s) x z) y z = true) as HE' by (apply has_remove; split; auto; lia).
          pose proof (remove_less _ y z HE'). pose proof (remove_len (l_udg s) x z). lia.
      + auto.
      + intros q Iq. rewrite !add_in. auto.
    - constructor; cbn [l_udg l_cg l_sur l_exo l_A l_orient l_latent]; auto.
      set (A4 := if small D (A1 x L) then set_ent A3 x L (nzero D) else A3).
      assert (clean u0 A4) as C4 by (unfold A4; destruct (small D (A1 x L)); [apply clean_latent; auto|]; exact C3).
      set (A5 := if small D (A2 y L) then set_ent A4 y L (nzero D) else A4).
      assert (clean u0 A5) as C5 by (unfold A5; destruct (small D (A2 y L)); [apply clean_latent; auto|]; exact C4).
      fold (clean u0 (if small D (l_A s z L) then set_ent A5 z L (nzero D) else A5)).
      destruct (small D (l_A s z L)); [apply clean_latent; auto|]; auto.
  Qed.

  Definition fine (u0 : list (nat * nat)) (L m : nat) (r : res (lat D)) : Prop :=
    match r with Ok s => inv u0 L m s | Err e => e = IndexError /\ 2 * n <= L end.

  Lemma latents_inv : forall u0 L m x y zs s, n <= L -> x <> y -> x < n -> y < n -> (forall z, In z zs -> z < n) -> inv u0 L m s ->
    fine u0 L m (latents D n ord data L x y zs s).
  Proof.
    intros u0 L m x y zs. induction zs as [|z zs IH]; intros s HL N Hx Hy HZ I; cbn [latents]; [exact I|].
    assert (forall w, In w zs -> w < n) as HZ' by (intros w Hw; apply HZ; right; auto).
    destruct (Nat.eqb_spec z x) as [|N1]; cbn [orb]; [apply IH; auto|]. destruct (Nat.eqb_spec z y) as [|N2]; [apply IH; auto|].
    destruct (has_edge (l_udg s) x z) eqn:E1, (has_edge (l_udg s) y z) eqn:E2; cbn [negb andb]; try (apply IH; auto; fail).
    all: pose proof (try_inv u0 L m x y z s HL N N1 N2 Hx Hy (HZ z (or_introl eq_refl)) ltac:(rewrite E1, E2; auto) I) as TI;
      destruct (try_latent D n ord data L x y z s) as [[s' b]|e]; cbn [rbind fst snd] in *; [|exact TI];
      destruct b; [exact TI|apply IH; auto].
  Qed.

  Lemma step3_inv : forall u0 L m po s p, n <= L -> (forall z, In z po -> z < n) -> fst p <> snd p -> fst p < n -> snd p < n -> inv u0 L m s ->
    fine u0 L m (step3 D n ord data po L s p).
  Proof.
    intros u0 L m po s [x y] HL HP N Hx Hy I. cbn [fst snd] in *. unfold step3. destruct (has_edge (l_udg s) x y) eqn:HE; [|exact I]. cbn [negb].
    set (cs := ord (inter (l_sur s x) (l_sur s y))). set (ce := ord (inter (l_exo s x) (l_exo s y))).
    set (s1 := if ge_beta D (sur_pval D data (l_A s) (x :: cs) ce y) then _ else _).
    assert (inv u0 L m s1) as I1.
    { unfold s1. destruct (ge_beta D (sur_pval D data (l_A s) (x :: cs) ce y)); auto.
      destruct I as [W RG T SB CA LN LS CP KP]. constructor; cbn [l_udg l_cg l_sur l_exo l_A l_orient l_latent]; auto.
      - apply wf_remove. auto.
      - intros a b H. apply has_remove in H. apply SB. tauto.
      - pose proof (remove_len (l_udg s) x y). lia.
      - intro F. pose proof (remove_len (l_udg s) x y). specialize (LS F). lia. }
    destruct (has_edge (l_udg s1) x y && negb match cs with [] => true | _ => false end) eqn:C.
    - destruct (orient D data 2 cs ce x y s1) as [[s2 x'] y'] eqn:E. apply andb_true_iff in C. destruct C as [C _].
      destruct (orient_inv u0 L m cs ce 2 x y s1 s2 x' y' HL N Hx Hy C I1 E) as (I2 & N' & Hx' & Hy'). apply latents_inv; auto.
    - apply latents_inv; auto.
  Qed.

  Lemma round3_inv : forall u0 L m po ps s, n <= L -> (forall z, In z po -> z < n) ->
    (forall p, In p ps -> fst p <> snd p /\ fst p < n /\ snd p < n) -> inv u0 L m s -> fine u0 L m (round3 D n ord data po L ps s).
  Proof.
    intros u0 L m po ps. induction ps as [|p ps IH]; intros s HL HP H I; cbn [round3]; [exact I|].
    destruct (H p (or_introl eq_refl)) as (N & Hx & Hy). pose proof (step3_inv u0 L m po s p HL HP N Hx Hy I) as F.
    destruct (step3 D n ord data po L s p) as [s'|e]; cbn [rbind fine] in *; auto. apply IH; auto. intros q Hq. apply H. right. auto.
  Qed.

  Lemma round3_idle : forall po L ps s, l_udg s = [] -> round3 D n ord data po L ps s = Ok s.
  Proof.
    intros po L ps s H. induction ps as [|[x y] ps IH]; cbn [round3]; auto. unfold step3 at 1. rewrite H. cbn [has_edge pmem existsb negb rbind]. auto.
  Qed.

  (** Between rounds. *)
  Record rest_inv (u0 : list (nat * nat)) (id m : nat) (s : lat D) : Prop := {
    r_wf : wf_edges n (l_udg s) (l_cg s);
    r_range : forall a b, In (a, b) (l_cg s) -> b < n /\ a < id + n;
    r_three : forall l, n <= l < id + n -> three n (l_cg s) l;
    r_sub : forall a b, has_edge (l_udg s) a b = true -> has_edge u0 a b = true;
    r_A : clean u0 (l_A s);
    r_len : id + length (l_udg s) <= m;
    r_cap : id <= n;
    r_keep : forall q, In q g0 -> In q (l_cg s)
  }.

  Lemma stage3_inv : forall u0 m po fuel id s, (forall z, In z po -> z < n) -> NoDup po -> length (l_udg s) < fuel -> rest_inv u0 id m s ->
    match stage3 D n ord data fuel po id s with
    | Ok (id', s') => rest_inv u0 id' m s'
    | Err e => e = IndexError /\ n < m
    end.
  Proof.
    intros u0 m po fuel. induction fuel as [|fuel IH]; intros id s HP ND HF [W RG T SB CA LN CP KP]; [lia|]. cbn [stage3].
    set (s0 := Lat (l_udg s) (l_cg s) (l_sur s) (l_exo s) (l_A s) false false).
    assert (inv u0 (id + n) (length (l_udg s)) s0) as I0.
    { constructor; cbn [s0 l_udg l_cg l_sur l_exo l_A l_orient l_latent]; auto; try discriminate.
      - intros a b Ia. destruct (RG a b Ia) as [Hb Ha]. split; auto. lia.
      - intros l Hl [Hc|[_ Hc]]; [|discriminate]. apply T. lia. }
    assert (forall p, In p (combos2 po) -> fst p <> snd p /\ fst p < n /\ snd p < n) as HC.
    { intros [x y] Ip. cbn [fst snd]. pose proof (combos_in _ _ _ Ip) as [Ix Iy]. split; [eapply combos_ne; eauto|]. auto. }
    pose proof (round3_inv u0 (id + n) _ po (combos2 po) s0 ltac:(lia) HP HC I0) as F.
    destruct (round3 D n ord data po (id + n) (combos2 po) s0) as [s'|e] eqn:ER; cbn [rbind fine] in *.
    - destruct F as [W' RG' T' SB' CA' LN' LS' CP' KP'].
      destruct (l_latent s') eqn:EL; cbn [orb] in *.
      + specialize (CP' eq_refl). assert (length (l_udg s') < length (l_udg s)) as LL by (apply LS'; apply orb_true_r).
        apply IH; auto; [lia|]. constructor; auto; try lia.
        * intros a b Ia. destruct (RG' a b Ia) as [Hb Ha]. split; auto. lia.
        * intros l Hl. apply T'; [lia|]. destruct (Nat.eq_dec l (id + n)); [right; auto|left; lia].
      + assert (rest_inv u0 id m s') as R'.
        { constructor; auto; try lia.
          - intros a b Ia. destruct (RG' a b Ia) as [Hb Ha]. split; auto. destruct Ha as [Ha|[Ha|[_ Ha]]]; [lia|lia|discriminate].
          - intros l Hl. apply T'; [lia|]. left. lia. }
        destruct (l_orient s') eqn:EO; [|exact R']. apply IH; auto. specialize (LS' eq_refl). lia.
    - destruct F as [-> LE]. split; auto. destruct (l_udg s) as [|q u] eqn:EU.
      + rewrite round3_idle in ER by (cbn; auto). discriminate.
      + cbn [length] in LN. lia.
  Qed.
End Latent.

(* ---------- the first two stages keep the edges well formed ---------- *)
Section Early.
  Variable D : olc_num.
  Variable n : nat.
  Definition early (m : nat) (s : stage D) : Prop :=
    wf_edges n (s_udg s) (s_cg s) /\ (forall a b, In (a, b) (s_cg s) -> a < n /\ b < n) /\
    length (s_udg s) <= m /\ (s_changed s = true -> length (s_udg s) < m).

  Lemma step1_early : forall m s p, In p (perms2 n) -> early m s -> early m (step1 D s p).
  Proof.
    intros m s [x y] I (W & RG & LN & LS). apply perms_in in I. destruct I as (Hx & Hy & N). unfold step1.
    destruct (has_edge (s_udg s) x y) eqn:HE; cbn [negb]; [|exact (conj W (conj RG (conj LN LS)))].
    destruct (ge_alpha D _); [|split; auto].
    pose proof (remove_less (s_udg s) x y HE) as RL.
    split; [|split; [|split]]; cbn [s_udg s_cg s_changed].
    - assert (upair x y = upair y x) as E by apply upair_sym.
      assert (remove_edge (s_udg s) x y = remove_edge (s_udg s) y x) as -> by (unfold remove_edge; rewrite E; auto).
      apply wf_orient; auto. rewrite has_edge_sym. auto.
    - intros a b Ia. apply add_in in Ia. destruct Ia as [Ia|Ia]; [auto|]. inversion Ia; subst. auto.
    - lia.
    - intros _. lia.
  Qed.

  Lemma fold_early : forall {B} (f : stage D -> B -> stage D) (P : B -> Prop) m l s, (forall s b, P b -> early m s -> early m (f s b)) ->
    (forall b, In b l -> P b) -> early m s -> early m (fold_left f l s).
  Proof. intros B f P m l. induction l as [|b l IH]; intros s H HP E; cbn [fold_left]; auto. apply IH; auto; [intros c Hc; apply HP; right; auto|]. apply H; auto. apply HP. left. auto. Qed.

  Lemma step2_early : forall m s x, x < n -> early m s -> early m (step2 D n s x).
  Proof.
    intros m s x Hx (W & RG & LN & LS). unfold step2. destruct (neighbors n (s_udg s) x) as [|y0 adj] eqn:EA; [split; auto|].
    destruct (ge_alpha D _); [|split; auto].
    assert (forall y, In y (y0 :: adj) -> y < n /\ x <> y /\ has_edge (s_udg s) x y = true) as HA.
    { intros y Iy. rewrite <- EA in Iy. apply filter_In in Iy. destruct Iy as [Iy H]. apply in_seq in Iy. split; [lia|]. split; auto.
      intro; subst. apply has_edge_in in H. apply W in H. unfold upair in H. rewrite Nat.leb_refl in H. simpl in H. lia. }
    assert (NoDup (y0 :: adj)) as ND by (rewrite <- EA; apply NoDup_filter, seq_NoDup).
    assert (forall l u g, NoDup l -> (forall y, In y l -> y < n /\ x <> y /\ has_edge u x y = true) -> wf_edges n u g -> (forall a b, In (a, b) g -> a < n /\ b < n) ->
      wf_edges n (fold_left (fun u y => remove_edge u x y) l u) (fold_left (fun g y => add_arc g y x) l g) /\
      (forall a b, In (a, b) (fold_left (fun g y => add_arc g y x) l g) -> a < n /\ b < n) /\
      length (fold_left (fun u y => remove_edge u x y) l u) <= length u /\
      (l <> [] -> length (fold_left (fun u y => remove_edge u x y) l u) < length u)) as K.
    { induction l as [|y l IH]; intros u g NDl HH WW RR; cbn [fold_left]; [repeat split; auto; try apply WW; try (apply (RR a b); auto); congruence|].
      inversion NDl; subst. destruct (HH y (or_introl eq_refl)) as (Hy & Nxy & He).
      assert (wf_edges n (remove_edge u x y) (add_arc g y x)) as W'.
      { assert (remove_edge u x y = remove_edge u y x) as -> by (unfold remove_edge; rewrite upair_sym; auto).
        apply wf_orient; auto. rewrite has_edge_sym. auto. }
      destruct (IH (remove_edge u x y) (add_arc g y x)) as (A & B & C & _); auto.
      - intros z Iz. destruct (HH z (or_intror Iz)) as (Hz & Nz & Ez). split; auto. split; auto. apply has_remove. split; auto.
        intros [[_ ->]|[-> _]]; contradiction.
      - intros a b Ia. apply add_in in Ia. destruct Ia as [Ia|Ia]; auto. inversion Ia; subst. auto.
      - pose proof (remove_less u x y He). split; [exact A|]. split; [exact B|]. split; [lia|]. intros _. lia. }
    destruct (K (y0 :: adj) (s_udg s) (s_cg s) ND HA W RG) as (A & B & C & E).
    specialize (E ltac:(discriminate)). split; [exact A|]. split; [exact B|]. cbn [s_udg s_changed]. split; [lia|]. intros _. lia.
  Qed.

  Lemma clear_early : forall m s, early m s -> early (length (s_udg s)) (clear D s).
  Proof. intros m s (W & RG & LN & LS). split; [exact W|]. split; [exact RG|]. cbn. split; [auto|discriminate]. Qed.
  Lemma weaken : forall m m' s, m <= m' -> early m s -> early m' s.
  Proof. intros m m' s L (W & RG & LN & LS). split; auto. split; auto. split; [lia|]. intro C. specialize (LS C). lia. Qed.

  Lemma stage1_early : forall fuel m s, length (s_udg s) < fuel -> early m s -> exists s', stage1 D n fuel s = Ok s' /\ early m s'.
  Proof.
    induction fuel as [|fuel IH]; intros m s HF E; [lia|]. cbn [stage1].
    assert (early (length (s_udg s)) (fold_left (step1 D) (perms2 n) (clear D s))) as E'.
    { apply (fold_early (step1 D) (fun p => In p (perms2 n))); auto; [intros; apply step1_early; auto|]. eapply clear_early; eauto. }
    pose proof E as (_ & _ & LN & _).
    destruct (s_changed _) eqn:C; [|eexists; split; [reflexivity|]; eapply weaken; eauto].
    assert (length (s_udg (fold_left (step1 D) (perms2 n) (clear D s))) < fuel) as LT by (destruct E' as (_ & _ & _ & LS); specialize (LS C); lia).
    destruct (IH (length (s_udg s)) _ LT E') as [s' [A B]].
    exists s'. split; auto. eapply weaken; eauto.
  Qed.
  Lemma stage2_early : forall fuel m s, n <> 1 -> length (s_udg s) < fuel -> early m s -> exists s', stage2 D n fuel s = Ok s' /\ early m s'.
  Proof.
    induction fuel as [|fuel IH]; intros m s N HF E; [lia|]. cbn [stage2]. destruct (Nat.eqb_spec n 1); [contradiction|].
    assert (early (length (s_udg s)) (fold_left (step2 D n) (seq 0 n) (clear D s))) as E'.
    { apply (fold_early (step2 D n) (fun x => x < n)); [intros; apply step2_early; auto|intros x Hx; apply in_seq in Hx; lia|]. eapply clear_early; eauto. }
    pose proof E as (_ & _ & LN & _).
    destruct (s_changed _) eqn:C; [|eexists; split; [reflexivity|]; eapply weaken; eauto].
    assert (length (s_udg (fold_left (step2 D n) (seq 0 n) (clear D s))) < fuel) as LT by (destruct E' as (_ & _ & _ & LS); specialize (LS C); lia).
    destruct (IH (length (s_udg s)) _ N LT E') as [s' [A B]].
    exists s'. split; auto. eapply weaken; eauto.
  Qed.

  Lemma start_early : forall data, early (length (combos2 (seq 0 n))) (clear D (start1 D n data)).
  Proof.
    intro data. split; [|split; [|split]]; cbn; auto; try tauto; try discriminate. split; [|cbn; tauto].
    intros [x y] I. apply combos_seq in I. simpl. lia.
  Qed.

  Lemma pairs_early : forall fuel data, n <> 1 -> n * n < fuel -> exists s, olc_pairs D n fuel data = Ok s /\ early (length (combos2 (seq 0 n))) s.
  Proof.
    intros fuel data N HF. pose proof (combos_len (seq 0 n)) as CL. rewrite seq_length in CL. unfold olc_pairs.
    destruct (stage1_early fuel _ (clear D (start1 D n data)) ltac:(cbn; lia) (start_early data)) as [s1 [E1 H1]].
    assert (stage1 D n fuel (start1 D n data) = Ok s1) as E1' by (rewrite <- E1; destruct fuel; auto).
    rewrite E1'. cbn [rbind]. apply stage2_early; auto. destruct H1 as (_ & _ & L & _). lia.
  Qed.
End Early.
