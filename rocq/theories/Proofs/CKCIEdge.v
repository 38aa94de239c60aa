(** Constant variables, few samples and a small example for the conditional kernel test. *)

From Coq Require Import List Arith Lia Bool Permutation Reals Lra.
From Verif Require Import Model.Py Model.LocalScore Model.KCI Model.HSIC Model.Expm Model.CVScore Model.CKCI
  Spec.Scores Spec.KernelSpec Spec.KCISpec Spec.CVSpec Spec.CKCISpec
  Proofs.BicFacts Proofs.KCIFacts Proofs.GaussianFacts Proofs.ExpmFacts Proofs.CholeskyFacts Proofs.CVFacts Proofs.CKCIFacts Proofs.CKCICore.
Import ListNotations.
Open Scope R_scope.

(* ---------- constant variables ---------- *)
Lemma constant_gram : forall n data l, (0 < n)%nat -> constant_data n (length l) (columns data l) ->
  forall i j, (i < n)%nat -> (j < n)%nat -> gram (length l) (zscore n (select data l)) i j = 0.
Proof.
  intros n data l Hn HC i j Hi Hj. unfold gram. apply rs_zero. intros c Hc. rewrite zscore_flat; [ring|].
  apply (proj2 (std_zero n (select data l) c Hn)). intros a b Ha Hb. exact (HC a b c Ha Hb Hc).
Qed.
Lemma flat_dists : forall d D n, (forall i j, (i < n)%nat -> (j < n)%nat -> gram d D i j = 0) -> forall i j, (i < n)%nat -> (j < n)%nat -> sq_dists d D i j = 0.
Proof. intros d D n G i j Hi Hj. rewrite sq_dists_gram, !G by auto. ring. Qed.
Lemma centered_const : forall n K c, (0 < n)%nat -> (forall i j, (i < n)%nat -> (j < n)%nat -> K i j = c) -> forall i j, (i < n)%nat -> (j < n)%nat -> center_real n K i j = 0.
Proof.
  intros n K c Hn H i j Hi Hj. unfold center_real. pose proof (N_nz n Hn) as NZ.
  assert (C : forall j, (j < n)%nat -> rsumn n (fun k => K k j) = INR n * c) by (intros k Hk; rewrite (rs_ext n _ (fun _ => c)) by (intros; apply H; auto); apply rs_const).
  rewrite !C, H by auto. rewrite (rs_ext n _ (fun _ => INR n * c)) by (intros; apply C; auto). rewrite rs_const. field. auto.
Qed.
Lemma flat_centered : forall pm k n d D K, (0 < n)%nat -> kernel_matrix pm k n d D = Some K -> (forall i j, (i < n)%nat -> (j < n)%nat -> gram d D i j = 0) ->
  forall i j, (i < n)%nat -> (j < n)%nat -> center_real n K i j = 0.
Proof.
  intros pm k n d D K Hn E G. destruct k as [|g c|rule]; cbn [kernel_matrix] in E.
  - injection E as <-. apply (centered_const n _ 0); auto.
  - injection E as <-. apply (centered_const n _ ((c + 0) ^ g)); auto. intros i j Hi Hj. rewrite <- (G i j Hi Hj). reflexivity.
  - destruct (kernel_width pm rule n d D) as [w|]; [|discriminate]. injection E as <-. apply (centered_const n _ 1); auto.
    intros i j Hi Hj. rewrite (flat_dists d D n G) by auto. rewrite <- exp_0. f_equal. ring.
Qed.
Lemma kernel_defined : forall pm k n d D, k <> Gaussian MedianRule -> exists K, kernel_matrix pm k n d D = Some K.
Proof. intros pm [|g c|[w| | |]] n d D H; cbn; eauto. congruence. Qed.

(** The eigenvalues of 0 are 0. *)
Lemma zero_values : forall n K w V, eigendecomposition n K w V -> (forall i j, (i < n)%nat -> (j < n)%nat -> K i j = 0) -> forall c, (c < n)%nat -> w c = 0.
Proof.
  intros n K w V D Z c Hc. assert (forall i, (i < n)%nat -> w c * V i c = 0) as Q.
  { intros i Hi. rewrite <- (eig_vec n K w V D) by auto. apply rs_zero. intros j Hj. rewrite Z by auto. ring. }
  destruct D as [_ [D2 _]]. specialize (D2 c c Hc Hc). rewrite Nat.eqb_refl, <- rsumn_sumR in D2.
  rewrite <- (Rmult_1_r (w c)), <- D2, <- rs_scal. apply rs_zero. intros i Hi. rewrite <- Rmult_assoc, Q by auto. ring.
Qed.
Lemma sandwich_zero : forall n Rm K, (forall i j, (i < n)%nat -> (j < n)%nat -> K i j = 0) -> forall i j, (i < n)%nat -> (j < n)%nat -> sandwich n Rm K i j = 0.
Proof. intros n Rm K Z i j Hi Hj. unfold sandwich. rewrite <- rsumn_sumR. apply rs_zero. intros a Ha. rewrite <- rsumn_sumR. apply rs_zero. intros b Hb. rewrite Z by auto. ring. Qed.
Lemma answer_zero : forall gcdf n t Kx Ky Kzx Kzy ex ey q s, (forall i j, (i < n)%nat -> (j < n)%nat -> Ky i j = 0) ->
  kci_answer gcdf n t Kx Ky Kzx Kzy ex ey q s -> q = None /\ s = 0.
Proof.
  intros gcdf n t Kx Ky Kzx Kzy ex ey q s Z (Rx & Ry & A & B & _ & _ & -> & _ & (w & V & top & D & _ & _ & EB) & Q & _).
  assert (S := sandwich_zero n Ry Ky Z). split.
  - apply Q. unfold cond_mean. rewrite <- rsumn_sumR. apply rs_zero. intros i Hi. rewrite EB by auto. rewrite <- rsumn_sumR.
    rewrite rs_zero; [ring|]. intros c Hc. rewrite (zero_values n _ w V D S c Hc). destruct (Rlt_dec (t * top) 0); ring.
  - rewrite <- rsumn_sumR. apply rs_zero. intros i Hi. rewrite <- rsumn_sumR. apply rs_zero. intros j Hj. rewrite S by auto. ring.
Qed.

(** Nothing to regress on: nothing is taken away. *)
Lemma no_regression : forall n K e Rm, (forall i j, (i < n)%nat -> (j < n)%nat -> K i j = 0) -> residual_maker n K e Rm -> meq n Rm rident.
Proof.
  intros n K e Rm Z H i j Hi Hj. destruct (H (fun k => if Nat.eqb j k then 1 else 0)) as [a [_ A]]. specialize (A i Hi).
  rewrite <- !rsumn_sumR in A. rewrite (rs_ext n _ (fun k => (if Nat.eqb j k then 1 else 0) * Rm i k)) in A by (intros; ring).
  rewrite (rs_delta n j (fun k => Rm i k)) in A by auto. rewrite A. rewrite rs_zero by (intros; rewrite Z by auto; ring).
  unfold rident. rewrite Nat.eqb_sym. ring.
Qed.
Lemma sandwich_id : forall n Rm K, meq n Rm rident -> agree n n (sandwich n Rm K) K.
Proof.
  intros n Rm K H i j Hi Hj. rewrite <- rdot_sandwich by auto.
  assert (meq n (rdot n Rm (rdot n K Rm)) K) as Q by (rewrite H, dot_id_r, dot_id_l; reflexivity). apply Q; auto.
Qed.
Lemma answer_no_regression : forall gcdf n t Kx Ky Kz ex ey q s, (forall i j, (i < n)%nat -> (j < n)%nat -> Kz i j = 0) ->
  kci_answer gcdf n t Kx Ky Kz Kz ex ey q s -> s = sumRn n (fun i => sumRn n (fun j => Kx i j * Ky i j)).
Proof.
  intros gcdf n t Kx Ky Kz ex ey q s Z (Rx & Ry & A & B & RX & RY & -> & _). rewrite <- !sum_prod_sum. apply sum_prod_ext; apply sandwich_id; eapply no_regression; eauto.
Qed.

(* ---------- the Gaussian process ---------- *)
Lemma process_cases : forall eigs gp t wz n K Z, (4 <= n)%nat -> (exists r, kernel_matrix_for_z eigs gp t wz n K Z = Ok r) \/ kernel_matrix_for_z eigs gp t wz n K Z = Err IndexError.
Proof.
  intros eigs gp t wz n K Z Hn. unfold kernel_matrix_for_z. destruct (eigs n _) as [w v].
  assert (1 <= n / 4)%nat by (apply Nat.div_le_lower_bound; lia).
  destruct (Nat.eqb_spec (Nat.min 400 (n / 4)) 0) as [E|_]; [lia|]. destruct (kept (Nat.min 400 (n / 4)) t w) as [|f l]; eauto.
Qed.
Lemma half_sum : forall n K, sym n K -> agree n n (rscale (/ 2) (radd K (rtranspose K))) K.
Proof. intros n K S i j Hi Hj. unfold rscale, radd, rtranspose. rewrite (S j i) by auto. field. Qed.
Lemma process_top : forall eigs gp t wz n K Z, (4 <= n)%nat -> eigensolver eigs -> sym n K ->
  exists w V, eigendecomposition n K w V /\ (forall c c', (c <= c')%nat -> (c' < n)%nat -> w c' <= w c) /\
    (t * w 0%nat < w 0%nat -> exists r, kernel_matrix_for_z eigs gp t wz n K Z = Ok r) /\
    (~ t * w 0%nat < w 0%nat -> (forall c, (c < n)%nat -> w c = w 0%nat) -> kernel_matrix_for_z eigs gp t wz n K Z = Err IndexError).
Proof.
  intros eigs gp t wz n K Z Hn He S. unfold kernel_matrix_for_z. set (H := rscale (/ 2) (radd K (rtranspose K))).
  assert (HK : agree n n H K) by (apply half_sum; auto).
  destruct (He n H) as [De Ds]. { intros i j Hi Hj. rewrite !HK by auto. auto. }
  destruct (eigs n H) as [w V]. cbn [fst snd] in De, Ds. exists w, V. split; [destruct De as [D1 D23]; split; auto; intros i j Hi Hj; rewrite <- HK by auto; auto|]. split; [auto|].
  assert (1 <= n / 4)%nat by (apply Nat.div_le_lower_bound; lia).
  assert (n / 4 <= n)%nat by (apply Nat.div_le_upper_bound; lia).
  destruct (Nat.eqb_spec (Nat.min 400 (n / 4)) 0) as [E|_]; [lia|]. set (T := Nat.min 400 (n / 4)) in *. assert (T <= n)%nat by (unfold T; lia). assert (0 < T)%nat as HT by (unfold T; lia).
  destruct (kept_prefix T t w HT) as [_ [m [Hm [-> Em]]]]; [intros; apply Ds; lia|]. specialize (Em 0%nat HT). split; intros L.
  - destruct m as [|m]; [destruct Em as [_ Em]; specialize (Em L); lia|]. cbn [seq]. eauto.
  - intros _. destruct m as [|m]; [reflexivity|]. exfalso. apply L, Em. lia.
Qed.
Lemma process_flat : forall eigs gp t wz n K Z, (4 <= n)%nat -> eigensolver eigs -> (forall i j, (i < n)%nat -> (j < n)%nat -> K i j = 0) ->
  kernel_matrix_for_z eigs gp t wz n K Z = Err IndexError.
Proof.
  intros eigs gp t wz n K Z Hn He H. destruct (process_top eigs gp t wz n K Z Hn He) as (w & V & D & _ & _ & N); [intros i j Hi Hj; rewrite !H by auto; auto|].
  pose proof (zero_values n K w V D H) as Q. apply N; [rewrite (Q 0%nat) by lia; lra|]. intros c Hc. rewrite !Q by lia. auto.
Qed.
Lemma process_returns : forall eigs gp t wz n K Z, (4 <= n)%nat -> eigensolver eigs -> 0 <= t < 1 -> sym n K -> psd n K ->
  ~ (forall i j, (i < n)%nat -> (j < n)%nat -> K i j = 0) -> exists r, kernel_matrix_for_z eigs gp t wz n K Z = Ok r.
Proof.
  intros eigs gp t wz n K Z Hn He Ht S P NZ. destruct (process_top eigs gp t wz n K Z Hn He S) as (w & V & D & Ds & Y & _). apply Y.
  assert (0 <= w 0%nat) as W0 by (apply (eig_nonneg n K w V D P); lia). destruct W0 as [W0|W0]; [nra|]. exfalso. apply NZ. intros i j Hi Hj.
  destruct D as [D1 D23]. rewrite D1, <- rsumn_sumR by auto. apply rs_zero. intros c Hc.
  assert (w c = 0) as ->; [|ring]. apply Rle_antisym; [rewrite W0; apply Ds; lia|apply (eig_nonneg n K w V (conj D1 D23) P); auto].
Qed.

(** A centred kernel that vanishes tells no two points apart. *)
Lemma centred_apart : forall pm k n d D K, k = Linear \/ (exists w, 0 < w /\ k = Gaussian (Manual w)) -> kernel_matrix pm k n d D = Some K ->
  (forall i j, (i < n)%nat -> (j < n)%nat -> center_real n K i j = 0) -> forall i j, (i < n)%nat -> (j < n)%nat -> sq_dists d D i j = 0.
Proof.
  intros pm k n d D K Hk E Z i j Hi Hj. pose proof (kernel_sym _ _ _ _ _ _ E) as S.
  assert (Q : K i i + K j j - 2 * K i j = 0).
  { pose proof (Z i i Hi Hi) as A. pose proof (Z j j Hj Hj) as B. pose proof (Z i j Hi Hj) as C. unfold center_real in *. lra. }
  destruct Hk as [->|[w [Hw ->]]]; cbn in E; injection E as <-.
  - rewrite sq_dists_gram. exact Q.
  - assert (SD : forall i, sq_dists d D i i = 0) by (intro; rewrite sq_dists_gram; ring). rewrite !SD in Q.
    replace (- / 2 * 0 * w) with 0 in Q by ring. rewrite exp_0 in Q. assert (exp (- / 2 * sq_dists d D i j * w) = exp 0) as X by (rewrite exp_0; lra).
    apply exp_inv in X. assert (w * sq_dists d D i j = 0) as W by lra. apply Rmult_integral in W. destruct W; lra.
Qed.
Lemma dists_nonneg : forall d D i j, 0 <= sq_dists d D i j.
Proof. intros. apply rs_nonneg. intros. apply Rle_0_sqr. Qed.
Lemma dists_constant : forall n data l, (0 < n)%nat -> (forall i j, (i < n)%nat -> (j < n)%nat -> sq_dists (length l) (zscore n (select data l)) i j = 0) ->
  constant_data n (length l) (columns data l).
Proof.
  intros n data l Hn H i j c Hi Hj Hc. specialize (H i j Hi Hj). change (columns data l) with (select data l). unfold sq_dists in H.
  pose proof (rs_nonneg_zero (length l) (fun c => (zscore n (select data l) i c - zscore n (select data l) j c) * (zscore n (select data l) i c - zscore n (select data l) j c)) (fun c _ => Rle_0_sqr _) H c Hc) as Q. cbv beta in Q.
  apply Rsqr_0_uniq in Q. unfold zscore in Q. destruct (Req_EM_T (col_std n (select data l) c) 0) as [E|NE].
  - apply (proj1 (std_zero n (select data l) c Hn) E); auto.
  - apply (Rmult_eq_reg_r (/ col_std n (select data l) c)); [unfold Rdiv in Q; lra|]. apply Rinv_neq_0_compat. auto.
Qed.

(* ---------- an example ---------- *)
Definition triple : rmat := fun i c =>
  match c, i with
  | 0%nat, 0%nat => -1 | 0%nat, 1%nat => 0 | 0%nat, _ => 1
  | 1%nat, 0%nat => 1 | 1%nat, 1%nat => -1 | 1%nat, _ => 0
  | _, 0%nat => -3/7 | _, 1%nat => -5/7 | _, _ => 8/7
  end.
Definition rest3 : rmat := fun i j => rident i j - triple i 2%nat * triple j 2%nat / 3.
Definition single (c : nat) : rmat := fun i j => triple i c * triple j c.
Definition pair3 (c : nat) : rmat := fun i j => triple i c * triple j c + / 4 * (triple i 2%nat * triple j 2%nat).
Lemma sum3 : forall f, rsumn 3 f = f 0%nat + f 1%nat + f 2%nat.
Proof. intro f. unfold rsumn, rsum. simpl. ring. Qed.
Lemma triple_zscore : forall c i, (c < 3)%nat -> zscore 3 (select triple [c]) i 0%nat = triple i c.
Proof.
  intros c i Hc. assert (M : col_mean 3 (select triple [c]) 0%nat = 0).
  { unfold col_mean, select. rewrite sum3. cbn [nth]. destruct c as [|[|[|c]]]; [| | |lia]; cbn [triple]; simpl INR; field. }
  assert (S : col_std 3 (select triple [c]) 0%nat = 1).
  { unfold col_std. rewrite M, sum3. unfold select. cbn [nth]. transitivity (sqrt 1); [f_equal|apply sqrt_1]. destruct c as [|[|[|c]]]; [| | |lia]; cbn [triple]; simpl INR; field. }
  unfold zscore. rewrite S, M. destruct (Req_EM_T 1 0); [lra|]. unfold select. cbn [nth]. field.
Qed.
Lemma centred3 : forall K, (forall j, (j < 3)%nat -> K 0%nat j + K 1%nat j + K 2%nat j = 0) -> agree 3 3 (center_real 3 K) K.
Proof.
  intros K H i j Hi Hj. unfold center_real. rewrite !sum3. rewrite !H by lia. simpl INR. field.
Qed.
Lemma less3 : forall i, (i < 3)%nat -> i = 0%nat \/ i = 1%nat \/ i = 2%nat.
Proof. lia. Qed.
Lemma rest3_maker : residual_maker 3 (single 2) 1 rest3.
Proof.
  intro v. exists (fun i => rsumn 3 (fun j => rest3 i j * v j)). split; intros i Hi; rewrite <- !rsumn_sumR, !sum3; unfold rest3, single, rident; destruct (less3 i Hi) as [-> | [-> | ->]]; cbn [triple Nat.eqb]; field.
Qed.
Definition value3 (c d : nat) : R := sum_prod 3 (sandwich 3 rest3 (pair3 c)) (sandwich 3 rest3 (single d)).
Lemma single_psd : psd 3 (single 2) /\ sym 3 (single 2).
Proof.
  split; [|intros i j _ _; unfold single; ring]. apply psd_quad. intro v. unfold quad, single. rewrite (rs_ext 3 _ (fun i => v i * triple i 2%nat * rsumn 3 (fun j => v j * triple j 2%nat))).
  - rewrite rs_scalr. apply Rle_0_sqr.
  - intros i Hi. rewrite <- rs_scal. apply rs_ext. intros. ring.
Qed.
Lemma triple_answer : forall c d gcdf t q s, (c < 2)%nat -> (d < 2)%nat ->
  kci_answer gcdf 3 t (center_real 3 (fun i j => rsumn (length [c] + length [2%nat]) (fun k => concat_half (length [c]) (zscore 3 (select triple [c])) (zscore 3 (select triple [2%nat])) i k * concat_half (length [c]) (zscore 3 (select triple [c])) (zscore 3 (select triple [2%nat])) j k)))
    (center_real 3 (fun i j => rsumn (length [d]) (fun k => zscore 3 (select triple [d]) i k * zscore 3 (select triple [d]) j k)))
    (center_real 3 (fun i j => rsumn (length [2%nat]) (fun k => zscore 3 (select triple [2%nat]) i k * zscore 3 (select triple [2%nat]) j k)))
    (center_real 3 (fun i j => rsumn (length [2%nat]) (fun k => zscore 3 (select triple [2%nat]) i k * zscore 3 (select triple [2%nat]) j k))) 1 1 q s -> s = value3 c d.
Proof.
  intros c d gcdf t q s Hc Hd H.
  assert (S1 : forall c, (c < 3)%nat -> agree 3 3 (center_real 3 (fun i j => rsumn (length [c]) (fun k => zscore 3 (select triple [c]) i k * zscore 3 (select triple [c]) j k))) (single c)).
  { intros e He i j Hi Hj. assert (R1 : forall i j, rsumn (length [e]) (fun k => zscore 3 (select triple [e]) i k * zscore 3 (select triple [e]) j k) = single e i j).
    { intros a b. unfold rsumn, rsum. simpl. rewrite !triple_zscore by auto. unfold single. ring. }
    rewrite centred3; [|intros k Hk; rewrite !R1; unfold single; destruct e as [|[|[|e]]]; [| | |lia]; cbn [triple]; field|auto|auto]. apply R1. }
  assert (S2 : agree 3 3 (center_real 3 (fun i j => rsumn (length [c] + length [2%nat]) (fun k => concat_half (length [c]) (zscore 3 (select triple [c])) (zscore 3 (select triple [2%nat])) i k * concat_half (length [c]) (zscore 3 (select triple [c])) (zscore 3 (select triple [2%nat])) j k))) (pair3 c)).
  { intros i j Hi Hj. assert (R1 : forall i j, rsumn (length [c] + length [2%nat]) (fun k => concat_half (length [c]) (zscore 3 (select triple [c])) (zscore 3 (select triple [2%nat])) i k * concat_half (length [c]) (zscore 3 (select triple [c])) (zscore 3 (select triple [2%nat])) j k) = pair3 c i j).
    { intros a b. change (gram (length [c] + length [2%nat]) (concat_half (length [c]) (zscore 3 (select triple [c])) (zscore 3 (select triple [2%nat]))) a b = pair3 c a b). rewrite gram_concat. unfold gram, rsumn, rsum. simpl. rewrite !triple_zscore by lia. unfold pair3. ring. }
    rewrite centred3; [|intros k Hk; rewrite !R1; unfold pair3; destruct c as [|[|c]]; [| |lia]; cbn [triple]; field|auto|auto]. apply R1. }
  apply (answer_ext gcdf 3 t _ _ _ _ (pair3 c) (single d) (single 2) (single 2)) in H; [|exact S2|apply S1; lia|apply S1; lia|apply S1; lia].
  destruct H as (Rx & Ry & A & B & RX & RY & -> & _). destruct single_psd as [P S].
  assert (UX := residual_unique 3 _ 1 Rx rest3 ltac:(lra) S P RX rest3_maker). assert (UY := residual_unique 3 _ 1 Ry rest3 ltac:(lra) S P RY rest3_maker).
  rewrite <- sum_prod_sum. unfold value3. apply sum_prod_ext; apply sandwich_ext; auto; intros i j _ _; auto.
Qed.
Lemma rest3_image : forall c i, (i < 3)%nat -> rsumn 3 (fun j => rest3 i j * triple j c) = triple i c - triple i 2%nat * rsumn 3 (fun j => triple j 2%nat * triple j c) / 3.
Proof. intros c i Hi. rewrite !sum3. unfold rest3, rident. destruct (less3 i Hi) as [-> | [-> | ->]]; cbn [Nat.eqb]; field. Qed.
Lemma triple_apart : value3 0 1 <> value3 1 0.
Proof.
  assert (S : forall c i j, (i < 3)%nat -> (j < 3)%nat -> sandwich 3 rest3 (single c) i j = rsumn 3 (fun k => rest3 i k * triple k c) * rsumn 3 (fun k => rest3 j k * triple k c)).
  { intros c i j Hi Hj. unfold sandwich. rewrite <- !rsumn_sumR, !sum3, <- !rsumn_sumR, !sum3. unfold single.
    assert (rest3 0%nat j = rest3 j 0%nat /\ rest3 1%nat j = rest3 j 1%nat /\ rest3 2%nat j = rest3 j 2%nat) as [E0 [E1 E2]] by (unfold rest3, rident; rewrite !(Nat.eqb_sym j); repeat split; field).
    rewrite E0, E1, E2. ring. }
  assert (P : forall c i j, (i < 3)%nat -> (j < 3)%nat -> sandwich 3 rest3 (pair3 c) i j = sandwich 3 rest3 (single c) i j + / 4 * sandwich 3 rest3 (single 2) i j).
  { intros c i j Hi Hj. unfold sandwich. rewrite <- !rsumn_sumR, !sum3, <- !rsumn_sumR, !sum3. unfold pair3, single. ring. }
  assert (V1 : value3 0 1 = 279890 / 194481) by (unfold value3, sum_prod; rewrite !sum3, !P, !S, !rest3_image by lia; rewrite !sum3; cbn [triple]; lra).
  assert (V2 : value3 1 0 = 1125293 / 777924) by (unfold value3, sum_prod; rewrite !sum3, !P, !S, !rest3_image by lia; rewrite !sum3; cbn [triple]; lra).
  rewrite V1, V2. lra.
Qed.
