(** C45, C46, C48, C60: kernels. *)

From Coq Require Import List Arith Bool Lia ZArith QArith Lqa.
From Verif Require Import Model.Py Model.SHP Model.Matrix Model.Kernel Spec.Sums.
From Verif Require Import Proofs.PyFacts Proofs.SimFacts Proofs.MatrixFacts Proofs.KernelFacts.
Import ListNotations.
Open Scope nat_scope.

(* ---------- C45: centering ---------- *)
(** The centering matrix [H = I - 1/n] and the double centering [H K H]. *)
Definition Hmat (n : nat) : qmat := fun i j => ((if Nat.eqb i j then 1 else 0) - 1 / inject_Z (Z.of_nat n))%Q.
Definition hkh (n : nat) (K : qmat) : qmat :=
  fun i j => sumQ n (fun a => Hmat n i a * sumQ n (fun b => K a b * Hmat n b j))%Q.

Lemma sumQ_delta_l : forall n i f, i < n -> (sumQ n (fun a => (if Nat.eqb i a then 1 else 0) * f a) == f i)%Q.
Proof.
  intros n i f Hi. rewrite (sumQ_ext n _ (fun a => if Nat.eqb a i then f i else 0%Q)); [apply sumQ_single; auto|].
  intros a Ha. rewrite (Nat.eqb_sym i a). destruct (Nat.eqb_spec a i); [subst; ring|ring].
Qed.

Lemma hkh_entry : forall n K i j, i < n -> j < n ->
  (hkh n K i j == K i j - sumQ n (fun b => K i b) / inject_Z (Z.of_nat n) - sumQ n (fun a => K a j) / inject_Z (Z.of_nat n)
     + sumQ n (fun a => sumQ n (fun b => K a b)) / (inject_Z (Z.of_nat n) * inject_Z (Z.of_nat n)))%Q.
Proof.
  intros n K i j Hi Hj. assert (NZ : ~ (inject_Z (Z.of_nat n) == 0)%Q) by (apply nq_nonzero; lia).
  set (nq := inject_Z (Z.of_nat n)) in *. unfold hkh.
  assert (R : forall a, (sumQ n (fun b => K a b * Hmat n b j) == K a j - sumQ n (fun b => K a b) / nq)%Q).
  { intro a. rewrite (sumQ_ext n _ (fun b => (if Nat.eqb j b then 1 else 0) * K a b - K a b / nq)%Q).
    - rewrite sumQ_sub, sumQ_delta_l by auto. rewrite sumQ_div. reflexivity.
    - intros b Hb. unfold Hmat. fold nq. rewrite (Nat.eqb_sym b j). destruct (Nat.eqb j b); field; exact NZ. }
  rewrite (sumQ_ext n _ (fun a => (if Nat.eqb i a then 1 else 0) * (K a j - sumQ n (fun b => K a b) / nq)
     - (K a j / nq - sumQ n (fun b => K a b) / (nq * nq)))%Q).
  - rewrite sumQ_sub, sumQ_delta_l by auto. rewrite sumQ_sub, !sumQ_div. ring.
  - intros a Ha. rewrite R. unfold Hmat. fold nq. destruct (Nat.eqb i a); field; exact NZ.
Qed.

(** [center_kernel_matrix] is the double centering exactly when every row sum
    equals the column sum of the same index. *)
Theorem C45_center_iff : forall n K, 0 < n ->
  (meq n (center_kernel_matrix n K) (hkh n K) <-> forall i, i < n -> (sumQ n (fun b => K i b) == sumQ n (fun a => K a i))%Q).
Proof.
  intros n K Hn. assert (NZ := nq_nonzero n Hn). set (nq := inject_Z (Z.of_nat n)) in *.
  assert (D : forall i j, i < n -> j < n -> (center_kernel_matrix n K i j - hkh n K i j == (sumQ n (fun b => K i b) - sumQ n (fun a => K a i)) / nq)%Q).
  { intros i j Hi Hj. rewrite center_entry, hkh_entry by auto. fold nq.
    rewrite (sumQ_swap n n (fun a b => K b a)). field. exact NZ. }
  split.
  - intros E i Hi. specialize (D i 0 Hi Hn). rewrite (E i 0 Hi Hn) in D.
    assert (Z : ((sumQ n (fun b => K i b) - sumQ n (fun a => K a i)) / nq == 0)%Q) by (rewrite <- D; ring).
    assert (W : (sumQ n (fun b => K i b) - sumQ n (fun a => K a i) == 0)%Q).
    { setoid_replace (sumQ n (fun b => K i b) - sumQ n (fun a => K a i))%Q with ((sumQ n (fun b => K i b) - sumQ n (fun a => K a i)) / nq * nq)%Q by (field; exact NZ).
      rewrite Z. ring. }
    lra.
  - intros S i j Hi Hj. specialize (D i j Hi Hj). rewrite (S i Hi) in D.
    assert (Z : (center_kernel_matrix n K i j - hkh n K i j == 0)%Q) by (rewrite D; field; exact NZ). lra.
Qed.
Print Assumptions C45_center_iff.

(** For a symmetric kernel matrix: it is [H K H], it is symmetric, and all its
    row and column sums are zero. *)
Theorem C45_symmetric : forall n K, 0 < n -> (forall i j, i < n -> j < n -> (K i j == K j i)%Q) ->
  meq n (center_kernel_matrix n K) (hkh n K) /\
  (forall i j, i < n -> j < n -> (center_kernel_matrix n K i j == center_kernel_matrix n K j i)%Q) /\
  (forall i, i < n -> (sumQ n (fun j => center_kernel_matrix n K i j) == 0)%Q) /\
  (forall j, j < n -> (sumQ n (fun i => center_kernel_matrix n K i j) == 0)%Q).
Proof.
  intros n K Hn S. assert (NZ := nq_nonzero n Hn).
  assert (Sy : forall i j, i < n -> j < n -> (center_kernel_matrix n K i j == center_kernel_matrix n K j i)%Q).
  { intros i j Hi Hj. rewrite !center_entry, (S i j Hi Hj). field. exact NZ. }
  assert (C : forall j, j < n -> (sumQ n (fun i => center_kernel_matrix n K i j) == 0)%Q).
  { intros j Hj. set (nq := inject_Z (Z.of_nat n)) in *.
    rewrite (sumQ_ext n _ (fun i => (K i j - (sumQ n (fun l => K l j) / nq + sumQ n (fun l => K l i) / nq)) + sumQ n (fun j => sumQ n (fun l => K l j)) / (nq * nq))%Q).
    2:{ intros i Hi. rewrite center_entry. fold nq. field. exact NZ. }
    rewrite sumQ_add, sumQ_sub, sumQ_add, !sumQ_const, sumQ_div. fold nq. field. exact NZ. }
  split; [|split; [exact Sy|split; [|exact C]]].
  - apply C45_center_iff; auto. intros i Hi. apply sumQ_ext. intros j Hj. apply S; auto.
  - intros i Hi. rewrite (sumQ_ext n _ (fun j => center_kernel_matrix n K j i)); auto.
Qed.
Print Assumptions C45_symmetric.

(** For other matrices it is not, and the row sums need not vanish. *)
Theorem C45_nonsymmetric_refuted : exists n K, 0 < n /\
  ~ meq n (center_kernel_matrix n K) (hkh n K) /\
  exists i, i < n /\ ~ (sumQ n (fun j => center_kernel_matrix n K i j) == 0)%Q.
Proof.
  exists 2, (fun i j => if Nat.eqb i 0 && Nat.eqb j 1 then 1%Q else 0%Q). split; [lia|]. split.
  - intro E. specialize (E 0 0 ltac:(lia) ltac:(lia)). vm_compute in E. discriminate.
  - exists 0. split; [lia|]. vm_compute. discriminate.
Qed.
Print Assumptions C45_nonsymmetric_refuted.

Definition ex_K : qmat := fun i j => inject_Z (Z.of_nat ((i + 1) * (j + 1))).
Example C45_case : (forall i j, i < 3 -> j < 3 -> (ex_K i j == ex_K j i)%Q) /\ (center_kernel_matrix 3 ex_K 0%nat 2%nat == -1)%Q.
Proof. split; [|reflexivity]. intros i j _ _. unfold ex_K. rewrite Nat.mul_comm. reflexivity. Qed.

(* ---------- C46: squared distances ---------- *)
(** Squared Euclidean distance of two rows of width [m]. *)
Definition sqdist (m : nat) (u v : nat -> Q) : Q := sumQ m (fun k => (u k - v k) * (u k - v k))%Q.

Theorem C46_dist2 : forall x c,
  (cols x <> cols c -> dist2 x c = Err PyException) /\
  (cols x = cols c -> exists d, dist2 x c = Ok d /\ rows d = rows x /\ cols d = rows c /\
     forall i j, (val d i j == sqdist (cols x) (val x i) (val c j))%Q).
Proof.
  intros x c. unfold dist2. split; intro E.
  - apply Nat.eqb_neq in E. rewrite E. reflexivity.
  - pose proof E as E'. apply Nat.eqb_eq in E'. rewrite E'. simpl negb. cbn iota. eexists. split; [reflexivity|]. split; [reflexivity|]. split; [reflexivity|].
    intros i j. cbn [val]. unfold sqdist. rewrite clamp_nonneg; [apply dist2_expand; auto|].
    rewrite dist2_expand by auto. apply sumQ_nonneg. intros. apply sq_nonneg.
Qed.
Print Assumptions C46_dist2.

(** The clamp never changes a value: the unclamped expression is already the
    squared distance. *)
Theorem C46_clamp_inactive : forall x c i j, cols x = cols c ->
  let e := fun i j => (row_squares x i + row_squares c j - 2 * msum (cols x) (fun k => val x i k * val c j k))%Q in
  clamp e i j = e i j.
Proof.
  intros x c i j E e. apply clamp_nonneg. unfold e. rewrite dist2_expand by auto. apply sumQ_nonneg. intros. apply sq_nonneg.
Qed.
Print Assumptions C46_clamp_inactive.

Definition ex_x : arr := mkArr 2 2 (fun i j => inject_Z (Z.of_nat (i + 2 * j))).
Definition ex_c : arr := mkArr 1 2 (fun _ j => inject_Z (Z.of_nat (5 * j))).
Example C46_case : exists d, dist2 ex_x ex_c = Ok d /\ (val d 0%nat 0%nat == 9)%Q /\ (val d 1%nat 0%nat == 5)%Q.
Proof. eexists. split; [reflexivity|]. split; reflexivity. Qed.

(** The copy in score_utils: right for [numpy.matrix] arguments, and for arrays
    with a single column. *)
Theorem C60_score_dist2 : forall x c is_matrix, cols x = cols c -> is_matrix = true \/ cols x = 1 ->
  exists d, score_dist2 is_matrix x c = Ok d /\ rows d = rows x /\ cols d = rows c /\
    forall i j, i < rows x -> j < rows c -> (val d i j == sqdist (cols x) (val x i) (val c j))%Q.
Proof.
  intros x c b E H. unfold score_dist2. pose proof E as E'. apply Nat.eqb_eq in E'. rewrite E'. simpl negb. cbn iota zeta.
  assert (P : exists p, (if b then Ok (mkArr (rows x) (rows c) (fun i j => msum (cols x) (fun k => val x i k * val c j k)%Q))
             else elementwise Qmult x (transpose c)) = Ok p /\ rows p = rows x /\ cols p = rows c /\
             forall i j, i < rows x -> j < rows c -> (val p i j == msum (cols x) (fun k => val x i k * val c j k))%Q).
  { destruct H as [->|H1].
    - eexists. split; [reflexivity|]. split; [reflexivity|]. split; [reflexivity|]. reflexivity.
    - destruct b; [eexists; split; [reflexivity|]; split; [reflexivity|]; split; [reflexivity|]; reflexivity|].
      assert (C1 : cols c = 1) by congruence.
      unfold elementwise, transpose. cbn [rows cols val]. rewrite C1, H1.
      assert (B1 : broadcast (rows x) 1 = Some (rows x)).
      { unfold broadcast. destruct (Nat.eqb_spec (rows x) 1) as [->|]; auto. }
      assert (B2 : broadcast 1 (rows c) = Some (rows c)).
      { unfold broadcast. destruct (Nat.eqb_spec 1 (rows c)) as [<-|]; auto. }
      rewrite B1, B2. eexists. split; [reflexivity|]. cbn [rows cols val]. split; [reflexivity|]. split; [reflexivity|].
      intros i j Hi Hj. rewrite msum_sumQ. cbn [sumQ]. unfold mT.
      assert (X : forall n i, i < n -> bidx n i = i) by (intros n k Hk; unfold bidx; destruct (Nat.eqb_spec n 1); lia).
      rewrite (X _ _ Hi), (X _ _ Hj). unfold bidx. simpl. ring. }
  destruct P as [p [Ep [R1 [R2 V]]]]. rewrite Ep. cbn [rbind]. unfold elementwise. cbn [rows cols val]. rewrite R1, R2.
  assert (B : forall n, broadcast n n = Some n) by (intro n; unfold broadcast; rewrite Nat.eqb_refl; reflexivity).
  rewrite !B. cbn [rbind]. eexists. split; [reflexivity|]. cbn [rows cols val]. split; [reflexivity|]. split; [reflexivity|].
  intros i j Hi Hj.
  assert (X : forall n i, i < n -> bidx n i = i) by (intros n k Hk; unfold bidx; destruct (Nat.eqb_spec n 1); lia).
  set (A := fun i0 j0 : nat => _). assert (EA : (A i j == sqdist (cols x) (val x i) (val c j))%Q).
  { unfold A, sqdist. rewrite <- (dist2_expand x c i j E). rewrite (X _ _ Hi), (X _ _ Hj), (V i j Hi Hj). reflexivity. }
  rewrite clamp_nonneg; [exact EA|]. rewrite EA. apply sumQ_nonneg. intros. apply sq_nonneg.
Qed.
Print Assumptions C60_score_dist2.

(** For ordinary arrays with more columns it is wrong (square arguments) or
    raises (other shapes). *)
Theorem C60_ndarray_refuted :
  (exists x d, rows x = 2 /\ cols x = 2 /\ score_dist2 false x x = Ok d /\ ~ (val d 0%nat 0%nat == sqdist 2 (val x 0%nat) (val x 0%nat))%Q) /\
  (forall x c, cols x = cols c -> 1 < cols x -> 1 < rows x -> rows x <> cols x -> score_dist2 false x c = Err ValueError).
Proof.
  split.
  - exists ex_x. eexists. split; [reflexivity|]. split; [reflexivity|]. split; [reflexivity|]. vm_compute. discriminate.
  - intros x c E Hc Hr N. unfold score_dist2. pose proof E as E'. apply Nat.eqb_eq in E'. rewrite E'. cbn [negb].
    unfold elementwise, transpose. cbn [rows cols val]. rewrite <- E.
    assert (B : broadcast (rows x) (cols x) = None).
    { unfold broadcast. destruct (Nat.eqb_spec (rows x) (cols x)), (Nat.eqb_spec (rows x) 1), (Nat.eqb_spec (cols x) 1); try lia; reflexivity. }
    rewrite B. reflexivity.
Qed.
Print Assumptions C60_ndarray_refuted.

(* ---------- C48: the cache ---------- *)
(** Two arrays print alike when they have the same shape, more than 1000
    elements, and agree in the first three and last three rows and columns. *)
Definition corner (n i : nat) : Prop := n <= 6 \/ i < 3 \/ n - 3 <= i.
Definition print_alike (a b : arr) : Prop :=
  rows a = rows b /\ cols a = cols b /\ 1000 < rows a * cols a /\
  forall i j, i < rows a -> j < cols a -> corner (rows a) i -> corner (cols a) j -> val a i j = val b i j.

Lemma shown_corner : forall n i, In i (shown true n) -> i < n /\ corner n i.
Proof.
  intros n i H. unfold shown in H. destruct (Nat.ltb_spec 6 n) as [L|L]; simpl in H.
  - unfold corner. destruct H as [<-|[<-|[<-|[<-|[<-|[<-|[]]]]]]]; lia.
  - apply in_seq in H. unfold corner. lia.
Qed.

Lemma print_alike_entries : forall a b, print_alike a b -> shown_entries a = shown_entries b.
Proof.
  intros a b [R [C [S V]]]. unfold shown_entries. rewrite <- R, <- C. apply Nat.ltb_lt in S. rewrite S.
  apply map_ext_in. intros i Hi. apply map_ext_in. intros j Hj.
  destruct (shown_corner _ _ Hi) as [I1 I2], (shown_corner _ _ Hj) as [J1 J2]. apply V; auto.
Qed.

Lemma key_alike : forall text a b c d e, print_alike a b -> print_alike c d -> cache_key text a c e = cache_key text b d e.
Proof.
  intros text a b c d e H1 H2. unfold cache_key. rewrite (print_alike_entries a b H1), (print_alike_entries c d H2).
  destruct H1 as [-> [-> _]], H2 as [-> [-> _]]. reflexivity.
Qed.

Lemma kernel_call_hit : forall key c f g, snd (kernel_call key (fst (kernel_call key c f)) g) = snd (kernel_call key c f).
Proof.
  intros key c f g. unfold kernel_call. destruct (dget Z.eqb c key) eqn:E; simpl; [rewrite E; reflexivity|].
  rewrite (dget_dset_eq Z.eqb Zeqb_ok). reflexivity.
Qed.

(** The second call gets the matrix of the first pair of arrays: for every
    formatting and hash function, every kernel and every earlier history. *)
Theorem C48_stale_matrix : forall text exp width degree const c a b, print_alike a b ->
  snd (linear_call text (fst (linear_call text c a a)) b b) = snd (linear_call text c a a) /\
  snd (polynomial_call text degree const (fst (polynomial_call text degree const c a a)) b b) = snd (polynomial_call text degree const c a a) /\
  snd (gaussian_call text exp width (fst (gaussian_call text exp width c a a)) b b) = snd (gaussian_call text exp width c a a).
Proof.
  intros. unfold linear_call, polynomial_call, gaussian_call. rewrite !(key_alike text a b a b _ H H).
  repeat split; apply kernel_call_hit.
Qed.
Print Assumptions C48_stale_matrix.

(** A witness: 1001 samples of one variable, changed in the sample 500.  On a
    new kernel object the answer to the second call is wrong. *)
Definition ones : arr := mkArr 1001 1 (fun _ _ => 1%Q).
Definition ones' : arr := mkArr 1001 1 (fun i _ => if Nat.eqb i 500 then 2%Q else 1%Q).
Theorem C48_refuted : exists a b, print_alike a b /\ forall text,
  ~ (snd (linear_call text (fst (linear_call text [] a a)) b b) 500%nat 500%nat == linear_kernel b b 500%nat 500%nat)%Q.
Proof.
  assert (P : print_alike ones ones').
  { unfold print_alike. split; [reflexivity|]. split; [reflexivity|]. split; [apply Nat.ltb_lt; vm_compute; reflexivity|].
    intros i j Hi Hj Ci _. unfold ones, ones' in *. cbn [rows cols val] in *. destruct (Nat.eqb_spec i 500); auto.
    exfalso. unfold corner in Ci. lia. }
  exists ones, ones'. split; [exact P|]. intro text.
  destruct (C48_stale_matrix text (fun q => q) 1 1 1 [] ones ones' P) as [E _]. rewrite E. cbn. vm_compute. discriminate.
Qed.
Print Assumptions C48_refuted.

(** A history of calls of one kernel object whose arguments are told apart by
    the key returns the kernel matrix every time. *)
Fixpoint run_linear (text : text_fun) (c : kcache) (h : list (arr * arr)) : list qmat :=
  match h with
  | [] => []
  | (x, y) :: r => let p := linear_call text c x y in snd p :: run_linear text (fst p) r
  end.
Theorem C48_transparent : forall text h,
  (forall p q, In p h -> In q h -> cache_key text (fst p) (snd p) [] = cache_key text (fst q) (snd q) [] -> p = q) ->
  run_linear text [] h = map (fun p => linear_kernel (fst p) (snd p)) h.
Proof.
  intros text h0 Inj.
  assert (G : forall h c, incl h h0 -> (forall k m, dget Z.eqb c k = Some m -> exists p, In p h0 /\ k = cache_key text (fst p) (snd p) [] /\ m = linear_kernel (fst p) (snd p)) ->
    run_linear text c h = map (fun p => linear_kernel (fst p) (snd p)) h).
  { induction h as [|[x y] h IH]; intros c I Inv; simpl; auto.
    assert (In (x, y) h0) as Hin by (apply I; left; auto).
    unfold linear_call, kernel_call. destruct (dget Z.eqb c (cache_key text x y [])) as [m|] eqn:E; simpl.
    - destruct (Inv _ _ E) as [p [Hp [K M]]]. assert (Q : (x, y) = p) by (apply Inj; auto).
      subst p. simpl in M. rewrite M. f_equal. apply IH; [intros q Hq; apply I; right; auto|auto].
    - f_equal. apply IH; [intros q Hq; apply I; right; auto|]. intros k m Hk.
      destruct (Z.eq_dec k (cache_key text x y [])) as [->|N].
      + rewrite (dget_dset_eq Z.eqb Zeqb_ok) in Hk. injection Hk as <-. exists (x, y). auto.
      + rewrite (dget_dset_neq Z.eqb Zeqb_ok) in Hk by auto. apply Inv. auto. }
  apply G; [intros p Hp; auto|]. intros k m H. simpl in H. discriminate.
Qed.
Print Assumptions C48_transparent.
(** A text function that tells the two arrays apart, and a repeated call. *)
Definition ex_text : text_fun := fun _ e _ _ x => (Qnum (nth 0 (nth 0 e []) 0%Q) + 10 * Qnum (nth 0 x 0%Q))%Z.
Definition ex_y : arr := mkArr 2 2 (fun i j => inject_Z (Z.of_nat (i + 2 * j + 1))).
Example C48_transparent_case :
  (forall p q, In p [(ex_x, ex_x); (ex_y, ex_y); (ex_x, ex_x)] -> In q [(ex_x, ex_x); (ex_y, ex_y); (ex_x, ex_x)] ->
     cache_key ex_text (fst p) (snd p) [] = cache_key ex_text (fst q) (snd q) [] -> p = q) /\
  ~ (linear_kernel ex_x ex_x 1%nat 1%nat == linear_kernel ex_y ex_y 1%nat 1%nat)%Q.
Proof.
  split; [|vm_compute; discriminate].
  intros p q [<-|[<-|[<-|[]]]] [<-|[<-|[<-|[]]]] H; try reflexivity; vm_compute in H; discriminate.
Qed.

(** Changing the degree of a polynomial kernel object after a call has no
    effect on the same arrays, whatever their size. *)
Theorem C48_polynomial_stale : forall text c d1 c1 d2 c2 x y,
  snd (polynomial_call text d2 c2 (fst (polynomial_call text d1 c1 c x y)) x y) = snd (polynomial_call text d1 c1 c x y).
Proof. intros. apply kernel_call_hit. Qed.
Print Assumptions C48_polynomial_stale.
Example C48_polynomial_case : ~ (polynomial_kernel 2 1 ex_x ex_x 1%nat 1%nat == polynomial_kernel 3 1 ex_x ex_x 1%nat 1%nat)%Q.
Proof. vm_compute. discriminate. Qed.

(** The Gaussian kernel puts the width in its key; with keys that determine the
    width a change of width is noticed. *)
Theorem C48_gaussian_width : forall text exp w1 w2 x y, cache_key text x y [w1] <> cache_key text x y [w2] ->
  snd (gaussian_call text exp w2 (fst (gaussian_call text exp w1 [] x y)) x y) = gaussian_kernel exp w2 x y.
Proof.
  intros text exp w1 w2 x y N. unfold gaussian_call, kernel_call. simpl dget. cbn [fst].
  change (dset Z.eqb [] (cache_key text x y [w1]) (gaussian_kernel exp w1 x y)) with [(cache_key text x y [w1], gaussian_kernel exp w1 x y)].
  cbn [dget]. destruct (Z.eqb_spec (cache_key text x y [w1]) (cache_key text x y [w2])); [contradiction|].
  destruct (Z.eqb_spec (cache_key text x y [w2]) (cache_key text x y [w1])); [congruence|]. reflexivity.
Qed.
Print Assumptions C48_gaussian_width.
Example C48_gaussian_case : cache_key ex_text ex_x ex_x [1%Q] <> cache_key ex_text ex_x ex_x [2%Q].
Proof. vm_compute. discriminate. Qed.

(* ---------- C61: the statistic with linear kernels ---------- *)
(** Sample cross moments of the centered columns. *)
Definition cross (x y : arr) (a b : nat) : Q :=
  let mean (z : arr) k := (sumQ (rows z) (fun l => val z l k) / inject_Z (Z.of_nat (rows z)))%Q in
  sumQ (rows x) (fun i => (val x i a - mean x a) * (val y i b - mean y b))%Q.

(** The kernel statistic is the sum of the squared cross moments; so it is not
    negative, symmetric in its arguments, and zero exactly when no column of
    [x] is correlated with a column of [y]. *)
Theorem C61_linear_statistic : forall x y, rows x = rows y -> 0 < rows x ->
  (kci_stat linear_kernel x y == sumQ (cols x) (fun a => sumQ (cols y) (fun b => cross x y a b * cross x y a b)))%Q /\
  (0 <= kci_stat linear_kernel x y)%Q /\
  (kci_stat linear_kernel x y == kci_stat linear_kernel y x)%Q /\
  ((kci_stat linear_kernel x y == 0)%Q <-> forall a b, a < cols x -> b < cols y -> (cross x y a b == 0)%Q).
Proof.
  intros x y E Hn.
  assert (F : (kci_stat linear_kernel x y == sumQ (cols x) (fun a => sumQ (cols y) (fun b => cross x y a b * cross x y a b)))%Q) by (apply (hsic_linear x y E Hn)).
  split; [exact F|]. split; [|split].
  - rewrite F. apply sumQ_nonneg. intros. apply sumQ_nonneg. intros. apply sq_nonneg.
  - unfold kci_stat, hsic_stat. rewrite <- E, !msum_sumQ. apply sumQ_ext. intros i Hi. rewrite !msum_sumQ. apply sumQ_ext. intros j Hj. ring.
  - rewrite F. split.
    + intros Z a b Ha Hb.
      assert (Z1 : (sumQ (cols y) (fun b => cross x y a b * cross x y a b) == 0)%Q).
      { apply (sumQ_zero_terms (cols x) (fun a => sumQ (cols y) (fun b => cross x y a b * cross x y a b))%Q); auto.
        intros. apply sumQ_nonneg. intros. apply sq_nonneg. }
      assert (Z2 : (cross x y a b * cross x y a b == 0)%Q).
      { apply (sumQ_zero_terms (cols y) (fun b => cross x y a b * cross x y a b)%Q); auto. intros. apply sq_nonneg. }
      destruct (Qmult_integral _ _ Z2); auto.
    + intro Z. rewrite (sumQ_ext (cols x) _ (fun _ => 0%Q)); [apply sumQ_zero|]. intros a Ha.
      rewrite (sumQ_ext (cols y) _ (fun _ => 0%Q)); [apply sumQ_zero|]. intros b Hb. rewrite (Z a b Ha Hb). ring.
Qed.
Print Assumptions C61_linear_statistic.
Example C61_case : (kci_stat linear_kernel ex_x (mkArr 2 1 (fun i _ => inject_Z (Z.of_nat i))) == 1 # 2)%Q.
Proof. reflexivity. Qed.
