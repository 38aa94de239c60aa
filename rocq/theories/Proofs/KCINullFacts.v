(** The spectral null distributions of the kernel tests. *)

From Coq Require Import List Arith Lia Bool Permutation Reals Lra FunctionalExtensionality.
From Verif Require Import Model.Py Model.LocalScore Model.KCI Model.HSIC Model.Expm Model.CVScore Model.CKCI Model.KCINull
  Spec.Scores Spec.KernelSpec Spec.KCISpec Spec.CVSpec Spec.CKCISpec Spec.KCINullSpec
  Proofs.BicFacts Proofs.KCIFacts Proofs.GaussianFacts Proofs.FrechetFacts Proofs.ExpmFacts Proofs.CholeskyFacts Proofs.CVFacts Proofs.CKCIFacts Proofs.CKCICore Proofs.CKCIEdge.
Import ListNotations.
Open Scope R_scope.

(* ---------- moments of a weighted sum ---------- *)
Lemma rsum_nthR : forall l f, rsumn (length l) (fun c => f (nth c l 0)) = rsum (map f l).
Proof. induction l as [|a l IH]; intro f; [reflexivity|]. cbn [length map]. rewrite rs_head. cbn [nth]. rewrite IH. reflexivity. Qed.
Section Expectation.
  Variable E : ((nat -> R) -> R) -> R.
  Hypothesis HE : expectation E.
  Lemma expect_zero : E (fun _ => 0) = 0.
  Proof using HE. destruct HE as [L _]. pose proof (L 0 0 (fun _ => 0) (fun _ => 0)) as Q. assert (X : (fun f : nat -> R => 0 * 0 + 0 * 0) = (fun _ => 0)) by (apply functional_extensionality; intro; ring). cbv beta in Q. rewrite X in Q. rewrite Q. ring. Qed.
  Lemma expect_plus : forall F G, E (fun f => F f + G f) = E F + E G.
  Proof using HE.
    destruct HE as [L _]. intros F G. rewrite <- (Rmult_1_l (E F)), <- (Rmult_1_l (E G)), <- L. f_equal. apply functional_extensionality. intro. ring.
  Qed.
  Lemma expect_scal : forall a F, E (fun f => a * F f) = a * E F.
  Proof using HE.
    destruct HE as [L _]. intros a F. pose proof (L a 0 F F) as Q. replace (a * E F) with (a * E F + 0 * E F) by ring. rewrite <- Q. f_equal. apply functional_extensionality. intro. ring.
  Qed.
  Lemma expect_sum : forall m (g : nat -> (nat -> R) -> R), E (fun f => rsumn m (fun k => g k f)) = rsumn m (fun k => E (g k)).
  Proof using HE.
    induction m as [|m IH]; intro g; [apply expect_zero|]. rewrite rs_S, <- IH, <- expect_plus. f_equal. apply functional_extensionality. intro. apply rs_S.
  Qed.
  Lemma mean_weighted : forall ws, chi_squares E (length ws) -> E (weighted ws) = rsum ws.
  Proof using HE.
    intros ws [M _]. unfold weighted. change (fun f => rsumn (length ws) (fun k => nth k ws 0 * f k)) with (fun f : nat -> R => rsumn (length ws) (fun k => (fun k f => nth k ws 0 * f k) k f)).
    rewrite expect_sum. transitivity (rsum (map (fun x => x) ws)); [|rewrite map_id; auto]. rewrite <- (rsum_nthR ws (fun x => x)). apply rs_ext. intros k Hk.
    rewrite expect_scal, M by auto. ring.
  Qed.
  Lemma second_weighted : forall ws, chi_squares E (length ws) -> E (fun f => weighted ws f * weighted ws f) = rsum ws * rsum ws + 2 * rsum (map Rsqr ws).
  Proof using HE.
    intros ws [_ M]. set (m := length ws) in *. set (a := fun k => nth k ws 0).
    assert (E1 : (fun f => weighted ws f * weighted ws f) = fun f => rsumn m (fun k => (fun k f => rsumn m (fun l => a k * a l * (f k * f l))) k f)).
    { apply functional_extensionality. intro f. unfold weighted. fold m. rewrite <- rs_scalr. apply rs_ext. intros k Hk. rewrite <- rs_scal. apply rs_ext. intros. unfold a. ring. }
    rewrite E1, expect_sum.
    assert (S : rsum ws = rsumn m a). { rewrite <- (map_id ws), <- (rsum_nthR ws (fun x => x)). reflexivity. }
    rewrite S, <- (rsum_nthR ws Rsqr). fold m. rewrite <- rs_scalr, <- rs_scal, <- rs_plus. apply rs_ext. intros k Hk.
    change (fun f : nat -> R => rsumn m (fun l => a k * a l * (f k * f l))) with (fun f : nat -> R => rsumn m (fun l => (fun l f => a k * a l * (f k * f l)) l f)).
    rewrite expect_sum. rewrite (rs_ext m _ (fun l => a k * a l + (if Nat.eqb k l then 1 else 0) * (2 * (a k * a l)))).
    - rewrite rs_plus, rs_scal. rewrite (rs_delta m k (fun l => 2 * (a k * a l))) by auto. unfold Rsqr, a. ring.
    - intros l Hl. rewrite expect_scal, M by auto. destruct (Nat.eqb k l); ring.
  Qed.
  Lemma variance_scaled : forall c ws, chi_squares E (length ws) -> variance E (fun f => c * weighted ws f) = c * c * (2 * rsum (map Rsqr ws)).
  Proof using HE.
    intros c ws H. unfold variance. rewrite expect_scal, mean_weighted by auto.
    assert (E1 : (fun f => Rsqr (c * weighted ws f - c * rsum ws)) = fun f => c * c * (weighted ws f * weighted ws f) + (- (2 * c * c * rsum ws) * weighted ws f + c * c * (rsum ws * rsum ws) * 1)).
    { apply functional_extensionality. intro f. unfold Rsqr. ring. }
    rewrite E1. rewrite (expect_plus (fun f => c * c * (weighted ws f * weighted ws f))), (expect_plus (fun f => - (2 * c * c * rsum ws) * weighted ws f)).
    rewrite (expect_scal (c * c) (fun f => weighted ws f * weighted ws f)), (expect_scal _ (weighted ws)), (expect_scal _ (fun _ => 1)).
    rewrite second_weighted, mean_weighted by auto. destruct HE as [_ ->]. ring.
  Qed.
End Expectation.

(* ---------- cutting off small weights ---------- *)
Definition keeps (T : R) (x : R) : bool := if Rlt_dec T x then true else false.
Lemma rsum_nonneg : forall l, (forall x, In x l -> 0 <= x) -> 0 <= rsum l.
Proof. induction l as [|a l IH]; intro H; [apply Rle_refl|]. change (rsum (a :: l)) with (a + rsum l). apply Rplus_le_le_0_compat; [apply H; left; auto|apply IH; intros; apply H; right; auto]. Qed.
Lemma rsum_ge : forall l x, (forall x, In x l -> 0 <= x) -> In x l -> x <= rsum l.
Proof.
  induction l as [|a l IH]; intros x H I; [destruct I|]. change (rsum (a :: l)) with (a + rsum l).
  assert (0 <= rsum l) by (apply rsum_nonneg; intros; apply H; right; auto). assert (0 <= a) by (apply H; left; auto).
  destruct I as [->|I]; [lra|]. assert (x <= rsum l) by (apply IH; auto; intros; apply H; right; auto). lra.
Qed.
Lemma cut_sum : forall T l, 0 <= T -> (forall x, In x l -> 0 <= x) -> rsum (filter (keeps T) l) <= rsum l <= rsum (filter (keeps T) l) + T * INR (length l).
Proof.
  intros T l HT. induction l as [|a l IH]; intro H; [simpl; lra|]. assert (0 <= a) by (apply H; left; auto).
  specialize (IH ltac:(intros; apply H; right; auto)). change (rsum (a :: l)) with (a + rsum l). cbn [length filter]. rewrite S_INR.
  destruct (keeps T a) eqn:K; unfold keeps in K; destruct (Rlt_dec T a); try discriminate; [change (rsum (a :: filter (keeps T) l)) with (a + rsum (filter (keeps T) l)); nra|]. nra.
Qed.
Lemma cut_squares : forall T l, rsum (map Rsqr (filter (keeps T) l)) <= rsum (map Rsqr l).
Proof.
  intros T l. induction l as [|a l IH]; [apply Rle_refl|]. cbn [filter]. change (rsum (map Rsqr (a :: l))) with (Rsqr a + rsum (map Rsqr l)). pose proof (Rle_0_sqr a).
  unfold keeps at 1. destruct (Rlt_dec T a); [change (rsum (map Rsqr (a :: filter (keeps T) l))) with (Rsqr a + rsum (map Rsqr (filter (keeps T) l)))|]; lra.
Qed.
Lemma cut_nothing : forall l, (forall x, In x l -> 0 <= x) -> rsum (filter (keeps 0) l) = rsum l /\ rsum (map Rsqr (filter (keeps 0) l)) = rsum (map Rsqr l).
Proof.
  induction l as [|a l IH]; intro H; [split; reflexivity|]. assert (0 <= a) as A by (apply H; left; auto). destruct IH as [I1 I2]; [intros; apply H; right; auto|].
  cbn [filter]. change (rsum (a :: l)) with (a + rsum l). change (rsum (map Rsqr (a :: l))) with (Rsqr a + rsum (map Rsqr l)). destruct (keeps 0 a) eqn:K; unfold keeps in K; destruct (Rlt_dec 0 a); try discriminate.
  - change (rsum (a :: filter (keeps 0) l)) with (a + rsum (filter (keeps 0) l)). change (rsum (map Rsqr (a :: filter (keeps 0) l))) with (Rsqr a + rsum (map Rsqr (filter (keeps 0) l))). rewrite I1, I2. auto.
  - replace a with 0 by lra. rewrite Rsqr_0, I1, I2. split; ring.
Qed.

Lemma list_max_in : forall l, l <> [] -> In (list_max l) l.
Proof.
  intros l H. unfold list_max. assert (forall d m, In (fold_right Rmax d m) (d :: m)) as K.
  { intros d. induction m as [|a m IH]; [left; auto|]. cbn [fold_right]. unfold Rmax at 1. destruct (Rle_dec a (fold_right Rmax d m)); [|right; left; auto]. destruct IH as [<-|I]; [left; auto|right; right; auto]. }
  destruct (K (hd 0 l) l) as [E|I]; [|auto]. destruct l as [|a l]; [congruence|]. rewrite <- E. left. auto.
Qed.
Lemma list_max_ge : forall l x, In x l -> x <= list_max l.
Proof.
  intros l x. unfold list_max. generalize (hd 0 l). intro d. induction l as [|a l IH]; [intros []|]. cbn [fold_right].
  intros [->|I]; [apply Rmax_l|]. eapply Rle_trans; [apply IH; auto|apply Rmax_r].
Qed.
Lemma above_spec : forall t l ws, keep_above t l = Ok ws -> above_part t l ws.
Proof.
  intros t l ws E. destruct l as [|a l]; [discriminate|]. cbn [keep_above] in E. injection E as <-. exists (list_max (a :: l)). split; [left; apply list_max_in; discriminate|].
  split; [intros; apply list_max_ge; auto|]. rewrite (Rmult_comm t). reflexivity.
Qed.
(** Numbers that are 0 do not matter. *)
Lemma above_positive : forall t l ws, 0 <= t -> (forall x, In x l -> 0 <= x) -> keep_above t l = Ok ws -> above_part t (filter (keeps 0) l) ws.
Proof.
  intros t l ws Ht H E. assert (NE : l <> []) by (destruct l; discriminate). apply above_spec in E. destruct E as [top [I [Mx ->]]]. destruct I as [I|I]; [|congruence].
  assert (F : forall T, 0 <= T -> filter (fun x => if Rlt_dec T x then true else false) (filter (keeps 0) l) = filter (fun x => if Rlt_dec T x then true else false) l).
  { intros T HT. clear - HT. induction l as [|a l IH]; auto. cbn [filter]. unfold keeps at 1. destruct (Rlt_dec 0 a).
    - cbn [filter]. rewrite IH. auto.
    - destruct (Rlt_dec T a); [lra|auto]. }
  pose proof (H top I) as T0. exists top. split; [|split].
  - destruct (Rlt_dec 0 top) as [P|P].
    + left. apply filter_In. split; auto. unfold keeps. destruct (Rlt_dec 0 top); auto.
    + right. assert (Z : forall x, In x l -> x = 0) by (intros x Hx; pose proof (H x Hx); pose proof (Mx x Hx); lra). clear - Z. induction l as [|a l IH]; auto.
      cbn [filter]. unfold keeps at 1. rewrite (Z a (or_introl eq_refl)). destruct (Rlt_dec 0 0); [lra|]. apply IH. intros; apply Z; right; auto.
  - intros x Hx. apply filter_In in Hx. apply Mx. tauto.
  - rewrite F; auto. apply Rmult_le_pos; auto.
Qed.
Lemma above_part_unique : forall t l ws ws', above_part t l ws -> above_part t l ws' -> ws = ws'.
Proof.
  intros t l ws ws' [a [Ia [Ma ->]]] [b [Ib [Mb ->]]]. destruct Ia as [Ia| ->]; [|reflexivity]. destruct Ib as [Ib| ->]; [|reflexivity].
  replace b with a; auto. apply Rle_antisym; auto.
Qed.

(* ---------- sums of eigenvalues ---------- *)
Section Thin.
  Variables (n m : nat) (K : rmat) (w : nat -> R) (V : rmat).
  Hypothesis DO : forall c c', (c < m)%nat -> (c' < m)%nat -> rsumn n (fun i => V i c * V i c') = if Nat.eqb c c' then 1 else 0.
  Hypothesis DK : forall i j, (i < n)%nat -> (j < n)%nat -> K i j = rsumn m (fun c => w c * V i c * V j c).
  Lemma thin_trace : rsumn n (fun i => K i i) = rsumn m w.
  Proof using DO DK.
    rewrite (rs_ext n _ (fun i => rsumn m (fun c => w c * V i c * V i c))) by (intros; apply DK; auto). rewrite rs_swap. apply rs_ext. intros c Hc.
    rewrite (rs_ext n _ (fun i => w c * (V i c * V i c))) by (intros; ring). rewrite rs_scal, DO, Nat.eqb_refl by auto. ring.
  Qed.
  Lemma thin_vec : forall i c, (i < n)%nat -> (c < m)%nat -> rsumn n (fun j => K i j * V j c) = w c * V i c.
  Proof using DO DK.
    intros i c Hi Hc. rewrite (rs_ext n _ (fun j => rsumn m (fun d => w d * V i d * (V j d * V j c)))).
    - rewrite rs_swap. rewrite (rs_ext m _ (fun d => (if Nat.eqb c d then 1 else 0) * (w d * V i d))); [apply (rs_delta m c (fun d => w d * V i d)); auto|].
      intros d Hd. rewrite rs_scal, DO by auto. rewrite (Nat.eqb_sym d c). ring.
    - intros j Hj. rewrite DK by auto. rewrite <- rs_scalr. apply rs_ext. intros. ring.
  Qed.
  Lemma thin_squares : rsumn n (fun i => rsumn n (fun j => K i j * K i j)) = rsumn m (fun c => w c * w c).
  Proof using DO DK.
    transitivity (rsumn n (fun i => rsumn m (fun c => w c * V i c * (w c * V i c)))).
    - apply rs_ext. intros i Hi. rewrite (rs_ext n _ (fun j => rsumn m (fun c => w c * V i c * (K i j * V j c)))).
      + rewrite rs_swap. apply rs_ext. intros c Hc. rewrite rs_scal, thin_vec by auto. auto.
      + intros j Hj. rewrite DK at 2 by auto. rewrite <- rs_scal. apply rs_ext. intros. ring.
    - rewrite rs_swap. apply rs_ext. intros c Hc. rewrite (rs_ext n _ (fun i => w c * w c * (V i c * V i c))) by (intros; ring). rewrite rs_scal, DO, Nat.eqb_refl by auto. ring.
  Qed.
End Thin.

Lemma desc_unique : forall m (w u : nat -> R), (forall c c', (c <= c')%nat -> (c' < m)%nat -> w c' <= w c) -> (forall c c', (c <= c')%nat -> (c' < m)%nat -> u c' <= u c) ->
  (forall f, rsumn m (fun c => f (w c)) = rsumn m (fun c => f (u c))) -> forall c, (c < m)%nat -> w c = u c.
Proof.
  assert (ST : forall m (w u : nat -> R), (forall c c', (c <= c')%nat -> (c' < m)%nat -> w c' <= w c) -> (forall c c', (c <= c')%nat -> (c' < m)%nat -> u c' <= u c) ->
    (forall f, rsumn m (fun c => f (w c)) = rsumn m (fun c => f (u c))) -> forall c, (c < m)%nat -> w c <= u c).
  { intros m w u Dw Du C c Hc. destruct (Rle_lt_dec (w c) (u c)) as [L|L]; auto. exfalso.
    specialize (C (fun x => if Rle_dec (w c) x then 1 else 0)). cbv beta in C. replace m with (S c + (m - S c))%nat in C by lia. rewrite !rs_split in C.
    rewrite (rs_ext (S c) (fun i => if Rle_dec (w c) (w i) then 1 else 0) (fun _ => 1)) in C by (intros i Hi; destruct (Rle_dec (w c) (w i)) as [|N]; auto; exfalso; apply N, Dw; lia).
    rewrite (rs_zero (m - S c) (fun k => if Rle_dec (w c) (u (S c + k)%nat) then 1 else 0)) in C
      by (intros i Hi; destruct (Rle_dec (w c) (u (S c + i)%nat)) as [N|]; auto; pose proof (Du c (S c + i)%nat ltac:(lia) ltac:(lia)); lra).
    rewrite (rs_S c (fun i => if Rle_dec (w c) (u i) then 1 else 0)) in C. destruct (Rle_dec (w c) (u c)) as [N|_]; [lra|].
    assert (rsumn c (fun i => if Rle_dec (w c) (u i) then 1 else 0) <= rsumn c (fun _ => 1)) as B1 by (apply rs_le; intros i Hi; destruct (Rle_dec (w c) (u i)); lra).
    rewrite rs_const in *. rewrite S_INR in C.
    assert (0 <= rsumn (m - S c) (fun k => if Rle_dec (w c) (w (S c + k)%nat) then 1 else 0)) by (apply rs_nonneg; intros i Hi; destruct (Rle_dec (w c) (w (S c + i)%nat)); lra). lra. }
  intros m w u Dw Du C c Hc. apply Rle_antisym; apply (ST m); auto.
Qed.
(** Two eigenvalue solvers agree on the sorted eigenvalues. *)
Lemma sorted_unique : forall n K w V u U, sym n K -> eigendecomposition n K w V -> eigendecomposition n K u U ->
  (forall c c', (c <= c')%nat -> (c' < n)%nat -> w c' <= w c) -> (forall c c', (c <= c')%nat -> (c' < n)%nat -> u c' <= u c) -> forall c, (c < n)%nat -> w c = u c.
Proof.
  intros n K w V u U S DV DU Dw Du. apply desc_unique; auto. intro f.
  assert (T : forall w V, eigendecomposition n K w V -> rsumn n (fun c => f (w c)) = rsumn n (fun i => rsumn n (fun c => f (w c) * V i c * V i c))).
  { intros w0 V0 [_ [D2 _]]. rewrite rs_swap. apply rs_ext. intros c Hc. rewrite (rs_ext n _ (fun i => f (w0 c) * (V0 i c * V0 i c))) by (intros; ring).
    rewrite rs_scal, rsumn_sumR, D2, Nat.eqb_refl by auto. ring. }
  rewrite (T w V DV), (T u U DU). apply rs_ext. intros i Hi. apply (calculus n K w u V U S DV DU f i i Hi Hi).
Qed.

(** Two lists of the positive eigenvalues agree. *)
Section Two.
  Variables (n m m' : nat) (K : rmat) (w u : nat -> R) (V U : rmat).
  Hypothesis S : sym n K.
  Hypothesis OV : forall c c', (c < m)%nat -> (c' < m)%nat -> rsumn n (fun i => V i c * V i c') = if Nat.eqb c c' then 1 else 0.
  Hypothesis KV : forall i j, (i < n)%nat -> (j < n)%nat -> K i j = rsumn m (fun c => w c * V i c * V j c).
  Hypothesis OU : forall c c', (c < m')%nat -> (c' < m')%nat -> rsumn n (fun i => U i c * U i c') = if Nat.eqb c c' then 1 else 0.
  Hypothesis KU : forall i j, (i < n)%nat -> (j < n)%nat -> K i j = rsumn m' (fun c => u c * U i c * U j c).
  Hypothesis PW : forall c, (c < m)%nat -> 0 < w c.
  Let P c d := rsumn n (fun i => V i c * U i d).
  Lemma thin_cross : forall c d, (c < m)%nat -> (d < m')%nat -> P c d <> 0 -> w c = u d.
  Proof using S OV KV OU KU.
    intros c d Hc Hd NZ. apply (Rmult_eq_reg_r (P c d)); auto. unfold P. rewrite <- !rs_scal.
    transitivity (rsumn n (fun i => rsumn n (fun j => K i j * V j c * U i d))).
    - apply rs_ext. intros i Hi. rewrite rs_scalr, (thin_vec n m K w V OV KV) by auto. ring.
    - rewrite rs_swap. apply rs_ext. intros j Hj. rewrite (rs_ext n _ (fun i => V j c * (K j i * U i d))) by (intros i Hi; rewrite (S i j) by auto; ring).
      rewrite rs_scal, (thin_vec n m' K u U OU KU) by auto. ring.
  Qed.
  Lemma thin_expand : forall i c, (i < n)%nat -> (c < m)%nat -> rsumn m' (fun d => U i d * P c d) = V i c.
  Proof using S OV KV OU KU PW.
    intros i c Hi Hc. apply (Rmult_eq_reg_l (w c)); [|pose proof (PW c Hc); lra]. rewrite <- (thin_vec n m K w V OV KV i c Hi Hc).
    rewrite (rs_ext n _ (fun j => rsumn m' (fun d => u d * U i d * (V j c * U j d)))).
    - rewrite rs_swap, <- rs_scal. apply rs_ext. intros d Hd. rewrite rs_scal. fold (P c d). destruct (Req_dec (P c d) 0) as [->|NZ]; [ring|]. rewrite (thin_cross c d) by auto. ring.
    - intros j Hj. rewrite KU by auto. rewrite <- rs_scalr. apply rs_ext. intros. ring.
  Qed.
  Lemma thin_count : forall f, rsumn m (fun c => f (w c)) = rsumn m (fun c => rsumn m' (fun d => f (u d) * (P c d * P c d))).
  Proof using S OV KV OU KU PW.
    intro f. apply rs_ext. intros c Hc. transitivity (f (w c) * rsumn n (fun i => V i c * V i c)); [rewrite OV, Nat.eqb_refl by auto; ring|].
    rewrite (rs_ext n _ (fun i => rsumn m' (fun d => P c d * (V i c * U i d)))).
    - rewrite rs_swap, <- rs_scal. apply rs_ext. intros d Hd. rewrite rs_scal. fold (P c d). destruct (Req_dec (P c d) 0) as [->|NZ]; [ring|]. rewrite (thin_cross c d) by auto. ring.
    - intros i Hi. rewrite <- (thin_expand i c Hi Hc) at 2. rewrite <- rs_scal. apply rs_ext. intros. ring.
  Qed.
End Two.
Lemma positive_unique : forall n K ws ws', sym n K -> positive_eigenvalues n K ws -> positive_eigenvalues n K ws' -> ws = ws'.
Proof.
  intros n K ws ws' S (V & PW & DW & OV & KV) (U & PU & DU & OU & KU).
  assert (C : forall f, rsumn (length ws) (fun c => f (nth c ws 0)) = rsumn (length ws') (fun c => f (nth c ws' 0))).
  { intro f. assert (OV' : forall c c', (c < length ws)%nat -> (c' < length ws)%nat -> rsumn n (fun i => V i c * V i c') = if Nat.eqb c c' then 1 else 0) by (intros; rewrite rsumn_sumR; auto).
    assert (OU' : forall c c', (c < length ws')%nat -> (c' < length ws')%nat -> rsumn n (fun i => U i c * U i c') = if Nat.eqb c c' then 1 else 0) by (intros; rewrite rsumn_sumR; auto).
    assert (KV' : forall i j, (i < n)%nat -> (j < n)%nat -> K i j = rsumn (length ws) (fun c => nth c ws 0 * V i c * V j c)) by (intros; rewrite rsumn_sumR; auto).
    assert (KU' : forall i j, (i < n)%nat -> (j < n)%nat -> K i j = rsumn (length ws') (fun c => nth c ws' 0 * U i c * U j c)) by (intros; rewrite rsumn_sumR; auto).
    rewrite (thin_count n _ _ K _ _ V U S OV' KV' OU' KU' PW f), (thin_count n _ _ K _ _ U V S OU' KU' OV' KV' PU f).
    rewrite rs_swap. apply rs_ext. intros d Hd. apply rs_ext. intros c Hc.
    rewrite (rs_ext n (fun i => U i d * V i c) (fun i => V i c * U i d)) by (intros; ring).
    set (p := rsumn n (fun i => V i c * U i d)). destruct (Req_dec p 0) as [->|NZ]; [ring|].
    rewrite (thin_cross n _ _ K _ _ V U S OV' KV' OU' KU' c d Hc Hd NZ). auto. }
  assert (L : length ws = length ws'). { specialize (C (fun _ => 1)). cbv beta in C. rewrite !rs_const in C. apply INR_eq. lra. }
  apply (nth_ext _ _ 0 0 L). apply (desc_unique (length ws)); auto; [rewrite L; auto|]. intro f. rewrite C, L. auto.
Qed.

(* ---------- the positive eigenvalues of u u^T ---------- *)
Lemma rsum_nth_map : forall (w : nat -> R) (idx : list nat) (f : R -> nat -> R),
  rsumn (length (map w idx)) (fun c => f (nth c (map w idx) 0) (nth c idx 0%nat)) = fold_right Rplus 0 (map (fun k => f (w k) k) idx).
Proof.
  intros w idx f. rewrite map_length, <- (rsum_nth idx (fun k => f (w k) k)). apply rs_ext. intros c Hc.
  rewrite (nth_indep (map w idx) 0 (w 0%nat)) by (rewrite map_length; auto). rewrite map_nth. auto.
Qed.
Lemma filter_map_keeps : forall (w : nat -> R) l, filter (keeps 0) (map w l) = map w (filter (fun c => keeps 0 (w c)) l).
Proof. intros w l. induction l as [|a l IH]; auto. cbn [map filter]. destruct (keeps 0 (w a)); cbn [map]; rewrite IH; auto. Qed.
(** In a list without repetitions a filter of [seq] is increasing. *)
Lemma filter_seq_mono : forall p s m c c', (c <= c')%nat -> (c' < length (filter p (seq s m)))%nat -> (nth c (filter p (seq s m)) 0%nat <= nth c' (filter p (seq s m)) 0%nat < s + m)%nat /\ (s <= nth c (filter p (seq s m)) 0%nat)%nat.
Proof.
  intros p s m. revert s. induction m as [|m IH]; intros s c c' L Hc'; [simpl in Hc'; lia|]. cbn [seq filter] in *. destruct (p s).
  - cbn [length nth] in *. destruct c as [|c], c' as [|c']; try lia.
    + pose proof (IH (Datatypes.S s) c' c' ltac:(lia) ltac:(lia)). lia.
    + pose proof (IH (Datatypes.S s) c c' ltac:(lia) ltac:(lia)). lia.
  - pose proof (IH (Datatypes.S s) c c' L Hc'). lia.
Qed.
(** [u] is n x m; [w], [V] diagonalise u^T u. *)
Lemma gram_positive : forall n m (u : rmat) w V, eigendecomposition m (fun c c' => rsumn n (fun a => u a c * u a c')) w V ->
  (forall c c', (c <= c')%nat -> (c' < m)%nat -> w c' <= w c) ->
  positive_eigenvalues n (fun a b => rsumn m (fun c => u a c * u b c)) (filter (keeps 0) (map w (seq 0 m))).
Proof.
  intros n m u w V D Ds. rewrite filter_map_keeps. set (idx := filter (fun c => keeps 0 (w c)) (seq 0 m)).
  assert (IN : forall c, (c < length idx)%nat -> (nth c idx 0%nat < m)%nat /\ 0 < w (nth c idx 0%nat)).
  { intros c Hc. pose proof (nth_In idx 0%nat Hc) as I. unfold idx in I at 2. apply filter_In in I. destruct I as [I1 I2]. apply in_seq in I1.
    unfold keeps in I2. destruct (Rlt_dec 0 (w (nth c idx 0%nat))); [|discriminate]. split; auto. lia. }
  assert (NW : forall c, (c < length idx)%nat -> nth c (map w idx) 0 = w (nth c idx 0%nat)).
  { intros c Hc. rewrite (nth_indep (map w idx) 0 (w 0%nat)) by (rewrite map_length; auto). apply map_nth. }
  set (y := fun a c => rsumn m (fun k => u a k * V k c)).
  assert (YY : forall c d, (c < m)%nat -> (d < m)%nat -> rsumn n (fun a => y a c * y a d) = if Nat.eqb c d then w c else 0).
  { intros c d Hc Hd. unfold y. rewrite (rs_ext n _ (fun a => rsumn m (fun k => rsumn m (fun l => V k c * (u a k * u a l * V l d))))).
    - rewrite rs_swap. rewrite (rs_ext m _ (fun k => V k c * (w d * V k d))).
      + rewrite (rs_ext m _ (fun k => w d * (V k c * V k d))) by (intros; ring). rewrite rs_scal. destruct D as [_ [D2 _]]. rewrite rsumn_sumR, D2 by auto. destruct (Nat.eqb_spec c d) as [->|]; ring.
      + intros k Hk. rewrite <- (eig_vec m _ w V D k d Hk Hd). rewrite rs_swap, <- rs_scal. apply rs_ext. intros l Hl. rewrite <- rs_scalr, <- rs_scal. apply rs_ext. intros. ring.
    - intros a Ha. rewrite <- rs_scalr. apply rs_ext. intros k Hk. rewrite <- rs_scal. apply rs_ext. intros. ring. }
  exists (fun a c => y a (nth c idx 0%nat) / sqrt (w (nth c idx 0%nat))). split; [|split; [|split]].
  - rewrite map_length. intros c Hc. rewrite NW by auto. apply IN; auto.
  - rewrite map_length. intros c c' L Hc'. rewrite !NW by lia. apply Ds; [|apply IN; auto]. apply (filter_seq_mono (fun c => keeps 0 (w c)) 0 m c c' L Hc').
  - rewrite map_length. intros c c' Hc Hc'. rewrite <- rsumn_sumR. destruct (IN c Hc) as [I1 P1]. destruct (IN c' Hc') as [I2 P2].
    rewrite (rs_ext n _ (fun a => y a (nth c idx 0%nat) * y a (nth c' idx 0%nat) * (/ sqrt (w (nth c idx 0%nat)) * / sqrt (w (nth c' idx 0%nat))))) by (intros; unfold Rdiv; ring).
    rewrite rs_scalr, YY by auto. destruct (Nat.eqb_spec c c') as [<-|NE].
    + rewrite Nat.eqb_refl. pose proof (sqrt_lt_R0 _ P1). rewrite <- (sqrt_sqrt (w (nth c idx 0%nat))) at 1 by lra. field. lra.
    + destruct (Nat.eqb_spec (nth c idx 0%nat) (nth c' idx 0%nat)) as [E|_]; [|ring]. exfalso. apply NE.
      assert (ND : NoDup idx) by (apply NoDup_filter, seq_NoDup). apply (proj1 (NoDup_nth idx 0%nat) ND c c' Hc Hc' E).
  - intros a b Ha Hb. rewrite <- rsumn_sumR.
    rewrite (rsum_nth_map w idx (fun x k => x * (y a k / sqrt (w k)) * (y b k / sqrt (w k)))). unfold idx. rewrite rsum_filter.
    transitivity (rsumn m (fun c => y a c * y b c)).
    + unfold y. destruct D as [_ [_ D3]].
      rewrite (rs_ext m (fun c => rsumn m (fun k => u a k * V k c) * rsumn m (fun k => u b k * V k c)) (fun c => rsumn m (fun k => rsumn m (fun l => u a k * u b l * (V k c * V l c))))).
      * rewrite rs_swap. apply rs_ext. intros k Hk. rewrite rs_swap. rewrite (rs_ext m _ (fun l => (if Nat.eqb k l then 1 else 0) * (u a k * u b l))); [rewrite (rs_delta m k (fun l => u a k * u b l)) by auto; auto|].
        intros l Hl. rewrite rs_scal, rsumn_sumR, D3 by auto. ring.
      * intros c Hc. rewrite <- rs_scalr. apply rs_ext. intros k Hk. rewrite <- rs_scal. apply rs_ext. intros. ring.
    + apply rs_ext. intros c Hc. unfold keeps. destruct (Rlt_dec 0 (w c)) as [P|P].
      * pose proof (sqrt_lt_R0 _ P). rewrite <- (sqrt_sqrt (w c)) at 1 by lra. field. lra.
      * assert (Z : forall a, (a < n)%nat -> y a c = 0).
        { intros e He. apply Rsqr_0_uniq. assert (w c = 0) as W0.
          { pose proof (YY c c Hc Hc) as Q. rewrite Nat.eqb_refl in Q. assert (0 <= w c) by (rewrite <- Q; apply rs_nonneg; intros; apply Rle_0_sqr). lra. }
          apply (rs_nonneg_zero n (fun a => y a c * y a c) (fun a _ => Rle_0_sqr _)); auto. rewrite YY, Nat.eqb_refl by auto. auto. }
        rewrite (Z a Ha). ring.
Qed.
