(** Model of the HSIC tests.
    - /repo/cdmir/utils/independence/functional/HSIC.py ("HSIC.py"); the files HSIC.py
      in discovery/funtional_based/LearningHierarchicalStructure and in its indTest are
      copies;
    - /repo/cdmir/discovery/funtional_based/anm/ANM.py ("ANM.py");
    - HSICTestObject.py, HSICPermutationTestObject.py and HSICSpectralTestObject.py in
      /repo/cdmir/discovery/funtional_based/LearningHierarchicalStructure/indTest.

    Numbers are exact reals; [None] is a number that is not finite.  Data with n rows
    and d columns are matrices [X i c]. *)

From Coq Require Import List Arith Bool Reals.
From Verif Require Import Model.Py Model.Graph Model.LocalScore Model.KCI.
Import ListNotations.
Open Scope nat_scope.
Open Scope res_scope.

(* ---------- the median ---------- *)
(** Sorting in np.median (HSIC.py:63, ANM.py:38). *)
Fixpoint rinsert (x : R) (l : list R) : list R :=
  match l with [] => [x] | y :: r => if Rle_dec x y then x :: l else y :: rinsert x r end.
(** The same. *)
Definition rsort (l : list R) : list R := fold_right rinsert [] l.
(** np.median (HSIC.py:63, ANM.py:38): NaN for no numbers, the mean of the two middle
    ones for an even number. *)
Definition median (l : list R) : option R :=
  let k := length l in
  if Nat.eqb k 0 then None
  else Some (if Nat.even k then (nth (k / 2 - 1) (rsort l) 0 + nth (k / 2) (rsort l) 0) / 2 else nth (k / 2) (rsort l) 0)%R.

(* ---------- Gaussian kernels ---------- *)
(** HSIC.py:31-37, 55-59, ANM.py:33-35: the matrix of squared distances as it is computed. *)
Definition dist2 (d : nat) (X : rmat) : rmat := fun i j =>
  (rsumn d (fun c => X i c * X i c) + rsumn d (fun c => X j c * X j c) - 2 * rsumn d (fun c => X i c * X j c))%R.
(** HSIC.py:60-61, ANM.py:37: [D - np.tril(D)], row by row. *)
Definition upper (n : nat) (D : rmat) : list R :=
  flat_map (fun i => map (fun j => (D i j - (if Nat.leb j i then D i j else 0))%R) (seq 0 n)) (seq 0 n).
(** HSIC.py:63, ANM.py:38: [dists[dists > 0]]. *)
Definition positives (l : list R) : list R := filter (fun x => if Rlt_dec 0 x then true else false) l.
(** HSIC.py:63, ANM.py:38: [np.sqrt(0.5 * np.median(...))]. *)
Definition median_width (n d : nat) (X : rmat) : option R :=
  match median (positives (upper n (dist2 d X))) with None => None | Some m => Some (sqrt (/ 2 * m)) end.
(** HSIC.py:39, ANM.py:39: [np.exp(-D / 2 / (deg ** 2))]. *)
Definition rbf (d : nat) (X : rmat) (deg : R) : rmat := fun i j => exp (- dist2 d X i j / 2 / (deg * deg))%R.
(** HSIC.py:83-84, ANM.py:59-60: the kernel matrix with the
    median width; NaN without a width. *)
Definition median_kernel (n d : nat) (X : rmat) : option rmat :=
  match median_width n d X with None => None | Some w => Some (rbf d X w) end.
(** HSIC.py:80-91, ANM.py:57-65: the statistic of two kernel matrices.  ANM.py
    multiplies the centring matrices in the other order. *)
Definition hsic_stat (n : nat) (K L : rmat) : R := (sum_prod n (fun i j => centered n K j i) (centered n L) / INR n)%R.

(* ---------- HSIC.py ---------- *)
(** HSIC.py:93-97 for n other than 1, 2, 3, where the denominators are 0. *)
Definition var_hsic (n : nat) (K L : rmat) : R :=
  let v := fun i j => (let x := centered n K i j * centered n L i j / 6 in x * x)%R in
  let N := INR n in
  ((rsumn n (fun i => rsumn n (fun j => v i j)) - rtrace n v) / N / (N - 1)
   * 72 * (N - 4) * (N - 5) / N / (N - 1) / (N - 2) / (N - 3))%R.
(** HSIC.py:99-103: the mean of the entries off the diagonal. *)
Definition off_mean (n : nat) (K : rmat) : R :=
  (rsumn n (fun i => rsumn n (fun j => if Nat.eqb i j then K i j - K i j else K i j)) / INR n / (INR n - 1))%R.
(** HSIC.py:105. *)
Definition mean_hsic (n : nat) (K L : rmat) : R :=
  let muX := off_mean n K in let muY := off_mean n L in ((1 + muX * muY - muX - muY) / INR n)%R.

(** HSIC.py:44-114 (hsic_gam): statistic and threshold; [ppf q a scale] is scipy's
    gamma.ppf.  It returns NaN unless
    both parameters are positive.  For n up to 3 the variance is divided by 0, and al is
    0 or NaN.  For variance 0 (n = 4, 5) bet is 0.  The unused pval of line 110 is left out. *)
Definition hsic_gam (ppf : R -> R -> R -> R) (n dx : nat) (X : rmat) (dy : nat) (Y : rmat) (alph : R) : option R * option R :=
  match median_kernel n dx X, median_kernel n dy Y with
  | Some K, Some L =>
      let testStat := hsic_stat n K L in
      let v := var_hsic n K L in
      let m := mean_hsic n K L in
      (Some testStat,
       if Nat.leb n 3 then None else if Req_EM_T v 0 then None else if Req_EM_T m 0 then None
       else Some (ppf (1 - alph) (m * m / v) (v * INR n / m))%R)
  | _, _ => (None, None)
  end.

(** HSIC.py:117-126 (test) for two columns: [None] is the None returned when neither
    comparison holds, in particular when a number is NaN. *)
Definition hsic_test (ppf : R -> R -> R -> R) (n : nat) (x y : nat -> R) (alpha : R) : option bool :=
  match hsic_gam ppf n 1 (fun i _ => x i) 1 (fun i _ => y i) alpha with
  | (Some s, Some t) => if Rlt_dec s t then Some true else if Rlt_dec t s then Some false else None
  | _ => None
  end.

(* ---------- ANM.py ---------- *)
(** ANM.py:48: [np.floor(np.r_[0:m:float(m - 1) / (maxpnt - 1)])]: the multiples of the
    step below m, rounded down, in exact arithmetic. *)
Definition subsample (m maxpnt : nat) : list nat :=
  let len := (m * (maxpnt - 1) + (m - 1) - 1) / (m - 1) in
  map (fun k => k * (m - 1) / (maxpnt - 1)) (seq 0 len).

(** ANM.py:44-69 (FastHsicTestGamma) with the default [sig]; a statistic that is not
    finite becomes 0. *)
Definition fast_hsic (m dx : nat) (X : rmat) (dy : nat) (Y : rmat) (maxpnt : nat) : R :=
  let idx := if Nat.ltb maxpnt m then subsample m maxpnt else seq 0 m in
  let n := length idx in
  let Xm := fun i c => X (nth i idx 0) c in
  let Ym := fun i c => Y (nth i idx 0) c in
  match median_kernel n dx Xm, median_kernel n dy Ym with
  | Some K, Some L => hsic_stat n K L
  | _, _ => 0%R
  end.

(** [np.mean] over all entries (ANM.py:73-74). *)
Definition mean_all (n d : nat) (X : rmat) : R := (rsumn n (fun i => rsumn d (fun c => X i c)) / (INR n * INR d))%R.
(** [np.std] over all entries (ANM.py:73-74). *)
Definition std_all (n d : nat) (X : rmat) : R :=
  let m := mean_all n d X in
  sqrt (rsumn n (fun i => rsumn d (fun c => (X i c - m) * (X i c - m))) / (INR n * INR d))%R.

(** ANM.py:72-77 (normalized_hsic): with deviation 0 every entry is NaN, and the
    statistic becomes 0. *)
Definition normalized_hsic (n dx : nat) (X : rmat) (dy : nat) (Y : rmat) : R :=
  if Req_EM_T (std_all n dx X) 0 then 0%R
  else if Req_EM_T (std_all n dy Y) 0 then 0%R
  else fast_hsic n dx (fun i c => (X i c - mean_all n dx X) / std_all n dx X)%R
                 dy (fun i c => (Y i c - mean_all n dy Y) / std_all n dy Y)%R 2000.

(** sklearn.preprocessing.scale (ANM.py:92-93): a deviation of 0 is replaced by 1. *)
Definition sk_scale (n : nat) (x : nat -> R) : nat -> R := fun i =>
  let m := mean_all n 1 (fun i _ => x i) in
  let s := std_all n 1 (fun i _ => x i) in
  ((x i - m) / (if Req_EM_T s 0 then 1 else s))%R.

(** ANM.py:101-106 (anm_score); [gp x y] are the predictions of the Gaussian process.
    For the column [y] older versions of scikit-learn return a column; newer ones
    return an array with one dimension ([flat]), and then [y_predict - y] is, by
    broadcasting, the matrix of all differences. *)
Definition anm_score (flat : bool) (gp : nat -> (nat -> R) -> (nat -> R) -> nat -> R) (n : nat) (x y : nat -> R) : R :=
  let p := gp n x y in
  if flat then normalized_hsic n n (fun i j => p j - y i)%R 1 (fun i _ => x i)
  else normalized_hsic n 1 (fun i _ => p i - y i)%R 1 (fun i _ => x i).

(** ANM.py:86-99 (cause_or_effect). *)
Definition cause_or_effect (flat : bool) (gp : nat -> (nat -> R) -> (nat -> R) -> nat -> R) (n : nat) (x y : nat -> R) : R * R :=
  let x := sk_scale n x in
  let y := sk_scale n y in
  (anm_score flat gp n x y, anm_score flat gp n y x).

(* ---------- indTest ---------- *)
(** HSICTestObject.py:51-52: [fill_diagonal(K, 0.)]. *)
Definition zero_diag (K : rmat) : rmat := fun i j => if Nat.eqb i j then 0%R else K i j.
(** HSICTestObject.py:55, 57: [np.sum]. *)
Definition sum_all (m : nat) (K : rmat) : R := rsumn m (fun i => rsumn m (fun j => K i j)).
(** HSICTestObject.py:48-58 (HSIC_U_statistic); for m up to 3 a denominator is 0. *)
Definition hsic_u (m : nat) (Kx Ky : rmat) : option R :=
  if Nat.leb m 3 then None
  else
    let Kx := zero_diag Kx in
    let Ky := zero_diag Ky in
    let K := rdot m Kx Ky in
    let M := INR m in
    Some (rtrace m K / (M * (M - 3)) + sum_all m Kx * sum_all m Ky / (M * (M - 3) * (M - 1) * (M - 2))
          - 2 * sum_all m K / (M * (M - 3) * (M - 2)))%R.
(** kernel/_base.py:29-33 (center_kernel_matrix), which HSICTestObject.py:61-62 calls. *)
Definition center_real (n : nat) (K : rmat) : rmat := fun i j =>
  let col j := rsumn n (fun k => K k j) in
  (K i j - (col j + col i) / INR n + rsumn n col / (INR n * INR n))%R.
(** HSICTestObject.py:60-64 (HSIC_V_statistic). *)
Definition hsic_v (m : nat) (Kx Ky : rmat) : option R :=
  if Nat.eqb m 0 then None else Some (sum_prod m (center_real m Kx) (center_real m Ky)).
(** HSICTestObject.py:66-72 (HSIC_V_statistic_rff) for m rows of [dx] and [dy] features. *)
Definition hsic_v_rff (m dx : nat) (phix : rmat) (dy : nat) (phiy : rmat) : option R :=
  if Nat.eqb m 0 then None
  else
    let c d (phi : rmat) := fun i a => (phi i a - rsumn m (fun k => phi k a) / INR m)%R in
    Some (rsumn dx (fun a => rsumn dy (fun b =>
      let f := (rsumn m (fun i => c dx phix i a * c dy phiy i b) / INR m)%R in f * f)))%R.

(** The matrices of HSICTestObject.py:131-134, 164-167: kernel matrices, or random features when
    [rff] or [induce_set] is set. *)
Inductive representation : Type := Kernels (Kx Ky : rmat) | Features (dx : nat) (phix : rmat) (dy : nat) (phiy : rmat).

(** HSICTestObject.py:136-139, 169-172: the statistic; HSIC_U_statistic_rff does not exist. *)
Definition statistic (m : nat) (unbiased : bool) (r : representation) : res (option R) :=
  match r with
  | Kernels Kx Ky => Ok (if unbiased then hsic_u m Kx Ky else hsic_v m Kx Ky)
  | Features dx phix dy phiy => if unbiased then Err AttributeError else Ok (hsic_v_rff m dx phix dy phiy)
  end.
(** HSICTestObject.py:142-143, 175-179: the second variable in the order of the permutation. *)
Definition shuffled (p : nat -> nat) (r : representation) : representation :=
  match r with
  | Kernels Kx Ky => Kernels Kx (fun i j => Ky (p i) (p j))
  | Features dx phix dy phiy => Features dx phix dy (fun i c => phiy (p i) c)
  end.

(** HSICPermutationTestObject.py:41, HSICSpectralTestObject.py:52: [(1 + sum(null > s)) / float(1 + len(null))];
    comparisons with NaN are false. *)
Definition exceeds (s v : option R) : bool :=
  match s, v with Some a, Some b => if Rlt_dec a b then true else false | _, _ => false end.
(** The same. *)
Definition mc_pvalue (s : option R) (null : list (option R)) : R :=
  (INR (1 + length (filter (exceeds s) null)) / INR (1 + length null))%R.

(** HSICPermutationTestObject.py:23-43 (compute_pvalue_with_time_tracking) with the drawn permutations. *)
Definition permutation_pvalue (m : nat) (unbiased : bool) (r : representation) (perms : list (nat -> nat)) : res R :=
  s <-? statistic m unbiased r ;;
  null <-? mapE (fun p => statistic m unbiased (shuffled p r)) perms ;;
  Ok (mc_pvalue s null).

(** HSICSpectralTestObject.py:25-35 (get_null_samples_with_spectral_approach): one simulated value
    from the eigenvalues; [z] are the squared normal draws. *)
Definition spectral_null (unbiased : bool) (lx ly : list R) (z : nat -> nat -> R) : R :=
  rsumn (length lx) (fun a => nth a lx 0 * rsumn (length ly) (fun b => (z a b - (if unbiased then 1 else 0)) * nth b ly 0))%R.
(** HSICSpectralTestObject.py:37-53 (compute_pvalue_with_time_tracking); [eig r] are the eigenvalues
    of both variables (HSICTestObject.py:186-199). *)
Definition spectral_pvalue (eig : representation -> list R * list R) (num_samples m : nat) (unbiased : bool) (r : representation)
    (zs : list (nat -> nat -> R)) : res R :=
  s <-? statistic m unbiased r ;;
  let (lx, ly) := eig r in
  Ok (mc_pvalue (match s with None => None | Some a => Some (INR num_samples * a)%R end)
        (map (fun z => Some (spectral_null unbiased lx ly z)) zs)).
