(** The unconditional kernel test: symmetry and invariance. *)

From Coq Require Import List Arith Lia Bool Permutation Reals Lra.
From Verif Require Import Model.LocalScore Model.KCI Spec.Scores Proofs.ScoreFacts Proofs.BicFacts.
Import ListNotations.
Open Scope nat_scope.

Lemma rsumn_ext : forall n f g, (forall i, i < n -> f i = g i) -> rsumn n f = rsumn n g.
Proof. intros n f g H. rewrite !rsumn_sumR. unfold sumRn. apply sumR_ext. intros a Ha. apply in_seq in Ha. apply H. lia. Qed.

Definition agree (n d : nat) (A B : rmat) : Prop := forall i j, i < n -> j < d -> A i j = B i j.

Lemma sq_dists_ext : forall n d A B, agree n d A B -> agree n n (sq_dists d A) (sq_dists d B).
Proof. intros n d A B H i j Hi Hj. unfold sq_dists. apply rsumn_ext. intros c Hc. rewrite !H; auto. Qed.
Lemma gaussian_ext : forall n d A B, agree n n (sq_dists d A) (sq_dists d B) -> agree n n (gaussian_kernel d A) (gaussian_kernel d B).
Proof. intros n d A B H i j Hi Hj. unfold gaussian_kernel. rewrite H; auto. Qed.
Lemma rdot_ext : forall n A A' B B', agree n n A A' -> agree n n B B' -> agree n n (rdot n A B) (rdot n A' B').
Proof. intros n A A' B B' H H' i j Hi Hj. unfold rdot. apply rsumn_ext. intros k Hk. rewrite H, H'; auto. Qed.
Lemma centered_ext : forall n A B, agree n n A B -> agree n n (centered n A) (centered n B).
Proof. intros n A B H. unfold centered. apply rdot_ext; [apply rdot_ext; auto|]; intros i j _ _; auto. Qed.
Lemma sum_prod_ext : forall n A A' B B', agree n n A A' -> agree n n B B' -> sum_prod n A B = sum_prod n A' B'.
Proof. intros n A A' B B' H H'. unfold sum_prod. apply rsumn_ext. intros i Hi. apply rsumn_ext. intros j Hj. rewrite H, H'; auto. Qed.
Lemma rtrace_ext : forall n A B, agree n n A B -> rtrace n A = rtrace n B.
Proof. intros n A B H. unfold rtrace. apply rsumn_ext. auto. Qed.

Lemma sum_prod_comm : forall n A B, sum_prod n A B = sum_prod n B A.
Proof. intros. unfold sum_prod. apply rsumn_ext. intros. apply rsumn_ext. intros. ring. Qed.

Lemma gamma_pvalue_ext : forall gcdf n A A' B B' s, agree n n A A' -> agree n n B B' -> gamma_pvalue gcdf n A B s = gamma_pvalue gcdf n A' B' s.
Proof. intros gcdf n A A' B B' s H H'. unfold gamma_pvalue. rewrite (rtrace_ext n A A'), (rtrace_ext n B B'), (sum_prod_ext n A A' A A'), (sum_prod_ext n B B' B B') by auto. auto. Qed.

Lemma gamma_pvalue_comm : forall gcdf n A B s, gamma_pvalue gcdf n A B s = gamma_pvalue gcdf n B A s.
Proof.
  intros. unfold gamma_pvalue. rewrite (Rmult_comm (rtrace n B)).
  replace (2 * sum_prod n B B * sum_prod n A A)%R with (2 * sum_prod n A A * sum_prod n B B)%R by ring. auto.
Qed.

Lemma kci_symmetric : forall gcdf n dx X dy Y, kci_test gcdf n dx X dy Y = kci_test gcdf n dy Y dx X.
Proof. intros. unfold kci_test. rewrite sum_prod_comm. rewrite gamma_pvalue_comm. auto. Qed.

(** Only the distances after standardisation matter. *)
Lemma kci_dists : forall gcdf n dx X X' dy Y, agree n n (sq_dists dx (zscore n X)) (sq_dists dx (zscore n X')) ->
  kci_test gcdf n dx X dy Y = kci_test gcdf n dx X' dy Y.
Proof.
  intros gcdf n dx X X' dy Y H. unfold kci_test.
  assert (agree n n (centered n (gaussian_kernel dx (zscore n X))) (centered n (gaussian_kernel dx (zscore n X')))) as K by (apply centered_ext, gaussian_ext, H).
  assert (forall A, agree n n A A) as Rf by (intros A i j _ _; auto).
  rewrite (sum_prod_ext n _ _ _ _ K (Rf (centered n (gaussian_kernel dy (zscore n Y))))).
  rewrite (gamma_pvalue_ext gcdf n _ _ _ _ _ K (Rf (centered n (gaussian_kernel dy (zscore n Y))))). auto.
Qed.

Lemma rsumn_scal : forall n c f, rsumn n (fun i => c * f i)%R = (c * rsumn n f)%R.
Proof. intros. rewrite !rsumn_sumR. unfold sumRn. apply sumR_scal. Qed.
Lemma rsumn_plus : forall n f g, rsumn n (fun i => f i + g i)%R = (rsumn n f + rsumn n g)%R.
Proof. intros. rewrite !rsumn_sumR. unfold sumRn. apply sumR_plus. Qed.
Lemma rsumn_const : forall n c, rsumn n (fun _ => c) = (INR n * c)%R.
Proof.
  intros n c. rewrite rsumn_sumR. unfold sumRn. rewrite <- (seq_length n 0) at 2.
  induction (seq 0 n) as [|a l IH]; [simpl; ring|]. cbn [sumR length]. rewrite IH, S_INR. ring.
Qed.
Lemma rsumn_nonneg : forall n f, (forall i, i < n -> (0 <= f i)%R) -> (0 <= rsumn n f)%R.
Proof.
  intros n f H. rewrite rsumn_sumR. unfold sumRn. assert (forall a, In a (seq 0 n) -> (0 <= f a)%R) as K by (intros a Ha; apply in_seq in Ha; apply H; lia).
  revert K. induction (seq 0 n) as [|a l IH]; intro K; simpl; [lra|].
  specialize (IH (fun b Hb => K b (or_intror Hb))). specialize (K a (or_introl eq_refl)). lra.
Qed.

Section Affine.
  Variable n : nat.
  Hypothesis Hn : 0 < n.
  Variables X X' : rmat.
  Variables a b : R.
  Variable c : nat.
  Hypothesis Ha : (a <> 0)%R.
  Hypothesis HX : forall i, i < n -> X' i c = (a * X i c + b)%R.

  Lemma mean_affine : col_mean n X' c = (a * col_mean n X c + b)%R.
  Proof using Hn HX.
    unfold col_mean. rewrite (rsumn_ext n _ (fun i => a * X i c + b)%R) by auto.
    rewrite rsumn_plus, rsumn_scal, rsumn_const. field. apply not_0_INR. lia.
  Qed.

  Lemma std_affine : col_std n X' c = (Rabs a * col_std n X c)%R.
  Proof using Hn HX.
    unfold col_std. rewrite mean_affine.
    rewrite (rsumn_ext n _ (fun i => (a * a) * ((X i c - col_mean n X c) * (X i c - col_mean n X c)))%R) by (intros i Hi; rewrite HX by auto; ring).
    rewrite rsumn_scal. unfold Rdiv. rewrite Rmult_assoc. rewrite sqrt_mult_alt by apply Rle_0_sqr.
    f_equal. apply sqrt_Rsqr_abs.
  Qed.

  Lemma zscore_affine : exists s, (s = 1 \/ s = -1)%R /\ forall i, i < n -> zscore n X' i c = (s * zscore n X i c)%R.
  Proof using Hn HX Ha.
    assert (0 < Rabs a)%R as Pa by (apply Rabs_pos_lt; auto).
    exists (a / Rabs a)%R. split.
    - unfold Rabs. destruct (Rcase_abs a); [right|left]; field; lra.
    - intros i Hi. unfold zscore. rewrite std_affine, mean_affine.
      destruct (Req_EM_T (col_std n X c) 0) as [E|E].
      + rewrite E, Rmult_0_r. destruct (Req_EM_T 0 0); [ring|lra].
      + destruct (Req_EM_T (Rabs a * col_std n X c) 0) as [E2|E2].
        * apply Rmult_integral in E2. lra.
        * rewrite HX by auto. field. split; lra.
  Qed.
End Affine.

Lemma kci_affine : forall gcdf n dx X X' dy Y a b, (forall c, c < dx -> (a c <> 0)%R) ->
  (forall i c, i < n -> c < dx -> X' i c = (a c * X i c + b c)%R) ->
  kci_test gcdf n dx X' dy Y = kci_test gcdf n dx X dy Y.
Proof.
  intros gcdf n dx X X' dy Y a b Ha HX. apply kci_dists. intros i j Hi Hj. unfold sq_dists. apply rsumn_ext. intros c Hc.
  destruct (zscore_affine n ltac:(lia) X X' (a c) (b c) c (Ha c Hc)) as [s [Hs Z]]; [intros; apply HX; auto|].
  rewrite !Z by auto. destruct Hs as [-> | ->]; ring.
Qed.

(** A column without variation. *)
Lemma zscore_flat : forall n X c, col_std n X c = 0%R -> forall i, zscore n X i c = 0%R.
Proof. intros n X c H i. unfold zscore. destruct (Req_EM_T (col_std n X c) 0); [auto|contradiction]. Qed.

Lemma centered_ones : forall n K i j, 0 < n -> i < n -> (forall a b, a < n -> b < n -> K a b = 1%R) -> centered n K i j = 0%R.
Proof.
  intros n K i j Hn Hi H. unfold centered, rdot.
  rewrite (rsumn_ext n _ (fun k => 0 * centering n k j)%R).
  - rewrite rsumn_scal. ring.
  - intros k Hk. f_equal. rewrite (rsumn_ext n _ (fun l => (if Nat.eqb l i then 1 else 0) + (- / INR n)))%R.
    + rewrite rsumn_plus, rsumn_const. rewrite rsumn_sumR. unfold sumRn.
      rewrite (sumR_ext _ _ (fun l => (if Nat.eqb l i then 1 else 0) * 1)%R) by (intros; ring).
      rewrite (sum_delta (seq 0 n) (fun _ => 1%R) i); [|apply seq_NoDup|apply in_seq; lia]. field. apply not_0_INR. lia.
    + intros l Hl. rewrite H by auto. unfold centering. rewrite Nat.eqb_sym. field. apply not_0_INR. lia.
Qed.

Lemma kci_flat : forall gcdf n dx X dy Y, 0 < n -> (forall c, c < dx -> col_std n X c = 0%R) ->
  kci_test gcdf n dx X dy Y = (None, 0%R).
Proof.
  intros gcdf n dx X dy Y Hn F. unfold kci_test.
  set (Ky := centered n (gaussian_kernel dy (zscore n Y))). set (Kx := centered n (gaussian_kernel dx (zscore n X))).
  assert (agree n n Kx (fun _ _ => 0%R)) as Z.
  { intros i j Hi Hj. unfold Kx. apply centered_ones; auto. intros a b Ha Hb. unfold gaussian_kernel, sq_dists.
    rewrite (rsumn_ext dx _ (fun _ => 0%R)) by (intros c Hc; rewrite !zscore_flat by auto; ring).
    rewrite rsumn_const, !Rmult_0_r. apply exp_0. }
  assert (rtrace n Kx = 0%R) as T by (rewrite (rtrace_ext n _ _ Z); unfold rtrace; rewrite rsumn_const; ring).
  f_equal.
  - unfold gamma_pvalue. rewrite T. destruct (Req_EM_T (0 * rtrace n Ky / INR n) 0) as [|N]; auto. exfalso. apply N. unfold Rdiv. ring.
  - rewrite (sum_prod_ext n Kx (fun _ _ => 0%R) Ky Ky Z) by (intros i j _ _; auto). unfold sum_prod.
    rewrite (rsumn_ext n _ (fun _ => 0%R)); [rewrite rsumn_const; ring|]. intros i Hi.
    rewrite (rsumn_ext n _ (fun _ => 0%R)); [rewrite rsumn_const; ring|]. intros; ring.
Qed.

(* ---------- permuting the rows ---------- *)
Section Rows.
  Variable n : nat.
  Variable p : nat -> nat.
  Hypothesis Hp : Permutation (map p (seq 0 n)) (seq 0 n).

  Lemma p_lt : forall i, i < n -> p i < n.
  Proof using Hp.
    intros i Hi. assert (In (p i) (seq 0 n)) as I; [|apply in_seq in I; lia].
    eapply Permutation_in; [exact Hp|]. apply in_map. apply in_seq. lia.
  Qed.
  Lemma p_inj : forall i j, i < n -> j < n -> p i = p j -> i = j.
  Proof using Hp.
    intros i j Hi Hj E. assert (NoDup (map p (seq 0 n))) as ND by (eapply Permutation_NoDup; [apply Permutation_sym; exact Hp|apply seq_NoDup]).
    assert (forall l, NoDup (map p l) -> In i l -> In j l -> i = j) as K.
    { induction l as [|a l IH]; intros N I J; [destruct I|]. simpl in N. inversion N; subst.
      destruct I as [->|I], J as [->|J]; auto; exfalso; apply H1; [rewrite E|rewrite <- E]; apply in_map; auto. }
    apply (K (seq 0 n)); auto; apply in_seq; lia.
  Qed.
  Lemma rsumn_perm : forall f, rsumn n (fun i => f (p i)) = rsumn n f.
  Proof using Hp.
    intro f. rewrite !rsumn_sumR. unfold sumRn. rewrite <- (sumR_perm _ _ f Hp). clear Hp.
    induction (seq 0 n) as [|a l IH]; simpl; auto. rewrite IH. auto.
  Qed.

  Definition rows (X : rmat) : rmat := fun i c => X (p i) c.
  Definition both (K : rmat) : rmat := fun i j => K (p i) (p j).

  Lemma mean_rows : forall X c, col_mean n (rows X) c = col_mean n X c.
  Proof using Hp. intros. unfold col_mean, rows. rewrite (rsumn_perm (fun i => X i c)). auto. Qed.
  Lemma std_rows : forall X c, col_std n (rows X) c = col_std n X c.
  Proof using Hp.
    intros. unfold col_std. rewrite mean_rows. unfold rows.
    rewrite (rsumn_perm (fun i => ((X i c - col_mean n X c) * (X i c - col_mean n X c))%R)). auto.
  Qed.
  Lemma zscore_rows : forall X i c, zscore n (rows X) i c = zscore n X (p i) c.
  Proof using Hp. intros. unfold zscore. rewrite std_rows, mean_rows. reflexivity. Qed.
  Lemma kernel_rows : forall d X i j, gaussian_kernel d (zscore n (rows X)) i j = both (gaussian_kernel d (zscore n X)) i j.
  Proof using Hp.
    intros. unfold both, gaussian_kernel, sq_dists. do 2 f_equal. apply rsumn_ext. intros c _. rewrite !zscore_rows. auto.
  Qed.
  Lemma centering_rows : forall i j, i < n -> j < n -> centering n (p i) (p j) = centering n i j.
  Proof using Hp.
    intros i j Hi Hj. unfold centering. destruct (Nat.eqb_spec i j) as [->|D]; [rewrite Nat.eqb_refl; auto|].
    destruct (Nat.eqb_spec (p i) (p j)) as [E|]; auto. exfalso. apply D. apply p_inj; auto.
  Qed.
  Lemma centered_rows : forall K, agree n n (centered n (both K)) (both (centered n K)).
  Proof using Hp.
    intros K i j Hi Hj. unfold centered, rdot, both.
    rewrite <- (rsumn_perm (fun k => (rsumn n (fun k0 => centering n (p i) k0 * K k0 k) * centering n k (p j))%R)).
    apply rsumn_ext. intros k Hk. rewrite centering_rows by auto. f_equal.
    rewrite <- (rsumn_perm (fun k0 => (centering n (p i) k0 * K k0 (p k))%R)). apply rsumn_ext. intros l Hl. rewrite centering_rows by auto. auto.
  Qed.
  Lemma sum_prod_rows : forall A B, sum_prod n (both A) (both B) = sum_prod n A B.
  Proof using Hp.
    intros A B. unfold sum_prod, both. rewrite <- (rsumn_perm (fun i => rsumn n (fun j => (A i j * B i j)%R))).
    apply rsumn_ext. intros i Hi. apply (rsumn_perm (fun j => (A (p i) j * B (p i) j)%R)).
  Qed.

  Lemma kci_rows : forall gcdf dx X dy Y, kci_test gcdf n dx (rows X) dy (rows Y) = kci_test gcdf n dx X dy Y.
  Proof using Hp.
    intros gcdf dx X dy Y. unfold kci_test.
    assert (forall d Z, agree n n (centered n (gaussian_kernel d (zscore n (rows Z)))) (both (centered n (gaussian_kernel d (zscore n Z))))) as K.
    { intros d Z i j Hi Hj. rewrite <- centered_rows by auto. apply centered_ext; auto. intros a b _ _. apply kernel_rows. }
    set (Kx := centered n (gaussian_kernel dx (zscore n X))) in *. set (Ky := centered n (gaussian_kernel dy (zscore n Y))) in *.
    rewrite (sum_prod_ext n _ _ _ _ (K dx X) (K dy Y)), (gamma_pvalue_ext gcdf n _ _ _ _ _ (K dx X) (K dy Y)).
    fold Kx Ky. rewrite sum_prod_rows. f_equal. unfold gamma_pvalue. rewrite !sum_prod_rows.
    assert (forall A, rtrace n (both A) = rtrace n A) as T by (intro A; unfold rtrace, both; apply (rsumn_perm (fun i => A i i))).
    rewrite !T. auto.
  Qed.
End Rows.
