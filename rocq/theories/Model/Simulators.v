(** Model of /repo/cdmir/datasets/simlulators.py and /repo/cdmir/datasets/utils.py.
    "sim.py" and "utils.py" abbreviate these files.

    Numbers are exact rationals; rounding is not modelled.  Random draws and the
    transcendental functions (tanh, sigmoid, exp, sin, cos) are function
    arguments, so that a theorem about the model holds for every draw.  Data
    matrices are lists of rows. *)

From Coq Require Import List Arith Bool ZArith QArith.
From Verif Require Import Model.Py Model.Graph Model.Networkx Model.SHP.
Import ListNotations.
Open Scope nat_scope.
Open Scope res_scope.

(** A loop that collects results and stops at the first exception
    (sim.py:408-410, 475-478). *)
Fixpoint rmap {A B} (f : A -> res B) (l : list A) : res (list B) :=
  match l with
  | [] => Ok []
  | a :: r => b <-? f a ;; bs <-? rmap f r ;; Ok (b :: bs)
  end.

(** Entry (i, j) of a matrix of rationals. *)
Definition qget (m : list (list Q)) (i j : nat) : Q := nth j (nth i m []) 0%Q.

(** [X[:, j] = values] (sim.py:130, 213, 291): assign a column. *)
Definition set_col (X : list (list Q)) (j : nat) (vs : list Q) : list (list Q) :=
  map (fun p => set_nth j (snd p) (fst p)) (combine X vs).

(** [X[:, idx]] (sim.py:130, 213, 292): select columns. *)
Definition get_cols (X : list (list Q)) (idx : list nat) : list (list Q) :=
  map (fun r => map (fun i => nth i r 0%Q) idx) X.

(** [a @ b] for two vectors. *)
Definition qdot (a b : list Q) : Q := qsum (map (fun p => (fst p * snd p)%Q) (combine a b)).

(** [np.zeros([n_samples, n_nodes])] (sim.py:127, 210, 288). *)
Definition qzeros (ns n : nat) : list (list Q) := repeat (repeat 0%Q n) ns.

(** The noise types of sim.py:48-62, 97, 185, 260; [Unknown] is any other string. *)
Inductive noise : Type := Gauss | Exponential | Gumbel | Uniform | Laplace | Logistic | Poisson | Unknown.

(** sim.py:49-61: the types that _gen_noise accepts. *)
Definition plain_noise (t : noise) : bool :=
  match t with Gauss | Exponential | Gumbel | Uniform | Laplace => true | _ => false end.

(** The random draws: [d_noise j k] is the k-th standard draw for variable [j];
    [d_binomial j k p] and [d_poisson j k m] are the draws of np.random.binomial
    and np.random.poisson for the given mean. *)
Record draws : Type := Draws {
  d_noise : nat -> nat -> Q;
  d_binomial : nat -> nat -> Q -> Q;
  d_poisson : nat -> nat -> Q -> Q;
  d_sigmoid : Q -> Q;
  d_exp : Q -> Q
}.

(** sim.py:48-62 (_gen_noise) for [size = n_samples] and a scalar scale. *)
Definition gen_noise (d : draws) (j ns : nat) (t : noise) (scale : Q) : res (list Q) :=
  if plain_noise t then Ok (map (fun k => (d_noise d j k * scale)%Q) (seq 0 ns)) else Err ValueError.

(** sim.py:70-79 (_simulate_single_value_linear_anm). *)
Definition single_linear (d : draws) (j ns : nat) (parents : list (list Q)) (weights : list Q) (t : noise) (scale : Q) :
    res (list Q) :=
  let lin := map (fun r => qdot r weights) parents in
  match t with
  | Logistic => Ok (map (fun p => d_binomial d j (fst p) (d_sigmoid d (snd p))) (combine (seq 0 ns) lin))
  | Poisson => Ok (map (fun p => d_poisson d j (fst p) (d_exp d (snd p))) (combine (seq 0 ns) lin))
  | _ =>
      e <-? gen_noise d j ns t scale ;;
      Ok (map (fun p => (fst p + snd p)%Q) (combine lin e))
  end.

(** sim.py:104-112, 194-202, 272-280: a scalar (None is 1.0) or a list as long
    as the number of variables.  The isinstance test of the members is not
    modelled: they are numbers. *)
Inductive scale_arg : Type := ScaleNone | ScaleScalar (q : Q) | ScaleList (l : list Q).
Definition scale_vec (n : nat) (a : scale_arg) : res (list Q) :=
  match a with
  | ScaleNone => Ok (repeat 1%Q n)
  | ScaleScalar q => Ok (repeat q n)
  | ScaleList l => if Nat.eqb (length l) n then Ok l else Err ValueError
  end.

(** sim.py:114 (np2nx): nonzero entries are edges. *)
Definition nonzero (m : list (list Q)) (u v : nat) : bool := negb (Qeq_bool (qget m u v) 0).

(** sim.py:128-132, 211-214, 289-298: [for j in topo_order: X[:, j] = f(j, X[:, pare_idx])]. *)
Fixpoint fill (f : nat -> list (list Q) -> res (list Q)) (pred : nat -> list nat) (order : list nat) (X : list (list Q)) :
    res (list (list Q)) :=
  match order with
  | [] => Ok X
  | j :: r =>
      vs <-? f j (get_cols X (pred j)) ;;
      fill f pred r (set_col X j vs)
  end.

(** sim.py:114-116, 125-133, 204-215, 282-299: the common part of the three
    simulators. *)
Definition simulate_dag (f : nat -> list (list Q) -> res (list Q)) (W : list (list Q)) (ns : nat) : res (list (list Q)) :=
  let n := length W in
  b <-? nx_is_dag n (nonzero W) ;;
  if negb b then Err ValueError
  else
    order <-? nx_topological_sort n (nonzero W) ;;
    _ <-? rassert (Nat.eqb (length order) n) ;;
    fill f (nx_predecessors n (nonzero W)) order (qzeros ns n).

(** sim.py:81-133 (IIDSimulator.simulate_linear_anm) for a finite number of
    samples; the population branch of lines 117-123 (n_samples=None) is
    [linear_anm_inf] in Model/EntSim.v. *)
Definition simulate_linear_anm (d : draws) (W : list (list Q)) (ns : nat) (t : noise) (a : scale_arg) : res (list (list Q)) :=
  _ <-? rassert (match t with Unknown => false | _ => true end) ;;
  sv <-? scale_vec (length W) a ;;
  simulate_dag (fun j parents =>
      let pare_idx := nx_predecessors (length W) (nonzero W) j in
      single_linear d j ns parents (map (fun i => qget W i j) pare_idx) t (nth j sv 0%Q)) W ns.

(** The function types of sim.py:142-165. *)
Inductive anm_func : Type := Mlp | Mim | OtherFunc.

(** The random weights of sim.py:144-155 for variable [j]: [w1 j a b], [w2 j b]
    of the 'mlp' branch and the three vectors of the 'mim' branch, and the
    functions tanh, cos and sin. *)
Record anm_draws : Type := AnmDraws {
  a_w1 : nat -> nat -> nat -> Q; a_w2 : nat -> nat -> Q;
  a_v1 : nat -> nat -> Q; a_v2 : nat -> nat -> Q; a_v3 : nat -> nat -> Q;
  a_tanh : Q -> Q; a_cos : Q -> Q; a_sin : Q -> Q
}.

(** sim.py:148: [sigmoid(parents @ W1) @ W2] for one sample. *)
Definition mlp_value (d : draws) (w : anm_draws) (j hidden : nat) (r : list Q) : Q :=
  qdot (map (fun b => d_sigmoid d (qdot r (map (fun a => a_w1 w j a b) (seq 0 (length r))))) (seq 0 hidden))
       (map (a_w2 w j) (seq 0 hidden)).

(** sim.py:156: the 'mim' value for one sample. *)
Definition mim_value (w : anm_draws) (j : nat) (r : list Q) : Q :=
  let dot v := qdot r (map (v j) (seq 0 (length r))) in
  (a_tanh w (dot (a_v1 w)) + a_cos w (dot (a_v2 w)) + a_sin w (dot (a_v3 w)))%Q.

(** sim.py:135-166 (_simulate_single_value_nonlinear_anm); [npar] is the
    number of parents ([parents.shape[1]]). *)
Definition single_nonlinear (d : draws) (w : anm_draws) (j ns npar : nat) (parents : list (list Q)) (t : noise) (scale : Q)
    (func_type : anm_func) (hidden : option nat) : res (list Q) :=
  e <-? gen_noise d j ns t scale ;;
  if Nat.eqb npar 0 then Ok e
  else match func_type with
       | Mlp => let h := match hidden with None => 100 | Some h => h end in
                Ok (map (fun p => (mlp_value d w j h (fst p) + snd p)%Q) (combine parents e))
       | Mim => Ok (map (fun p => (mim_value w j (fst p) + snd p)%Q) (combine parents e))
       | OtherFunc => Err ValueError
       end.

(** sim.py:168-215 (IIDSimulator.simulate_nonlinear_anm).  Line 213 does not
    pass func_type on: the default 'mlp' is used.  Line 192 replaces the matrix
    by 0/1 entries, which does not change its nonzero pattern. *)
Definition simulate_nonlinear_anm (d : draws) (w : anm_draws) (W : list (list Q)) (ns : nat) (t : noise) (a : scale_arg)
    (func_type : anm_func) (hidden : option nat) : res (list (list Q)) :=
  _ <-? rassert (plain_noise t) ;;
  _ <-? rassert (match func_type with OtherFunc => false | _ => true end) ;;
  sv <-? scale_vec (length W) a ;;
  simulate_dag (fun j parents =>
      single_nonlinear d w j ns (length (nx_predecessors (length W) (nonzero W) j)) parents t (nth j sv 0%Q) Mlp hidden) W ns.

(* ---------- post-nonlinear ---------- *)
(** A two-dimensional array with its width, which numpy keeps also for arrays
    without rows. *)
Record arr : Type := Arr { width : nat; rows : list (list Q) }.

(** The layer types of sim.py:19-29, 262; [Sin] is implemented but not in the
    list of accepted names, [Cos] is accepted but not implemented. *)
Inductive layer : Type := Tanh | LeakyRelu | Sin | Cos | Linear | OtherLayer.

(** str or list of str (sim.py:33, 242). *)
Inductive layers : Type := One (l : layer) | Many (ls : list layer).

(** The functions behind the layers: np.tanh, np.sin, and the weights of the
    random linear maps; [p_w c a b] is entry (a, b) of the c-th matrix drawn. *)
Record pnl_draws : Type := PnlDraws { p_tanh : Q -> Q; p_sin : Q -> Q; p_w : nat -> nat -> nat -> Q }.

(** Elementwise application. *)
Definition arr_map (f : Q -> Q) (x : arr) : arr := Arr (width x) (map (map f) (rows x)).

(** utils.py:30-34 (leaky_relu); [assert neg_slope > 0], and np.vectorize
    raises ValueError on an array without elements. *)
Definition leaky_relu (slope : Q) (x : arr) : res arr :=
  if Qle_bool slope 0 then Err AssertionError
  else if Nat.eqb (width x) 0 || Nat.eqb (length (rows x)) 0 then Err ValueError
  else Ok (arr_map (fun v => if Qle_bool v 0 then (v * slope)%Q else v) x).

(** sim.py:27-29: [x @ W1] with a d_in x d_out matrix; numpy raises ValueError
    when the widths do not fit. *)
Definition matmul (din dout : nat) (w : nat -> nat -> Q) (x : arr) : res arr :=
  if Nat.eqb (width x) din
  then Ok (Arr dout (map (fun r => map (fun b => qdot r (map (fun a => w a b) (seq 0 din))) (seq 0 dout)) (rows x)))
  else Err ValueError.

(** sim.py:19-29 (_pnl_func).  [c] numbers the matrix drawn in the last branch. *)
Definition pnl_func (p : pnl_draws) (c : nat) (l : layer) (din dout : nat) (slope : Q) (x : arr) : res arr :=
  match l with
  | Tanh => Ok (arr_map (p_tanh p) x)
  | LeakyRelu => leaky_relu slope x
  | Sin => Ok (arr_map (p_sin p) x)
  | _ => matmul din dout (p_w p c) x
  end.

(** Is 'linear' in the list? *)
Definition has_linear (ls : list layer) : bool :=
  existsb (fun l => match l with Linear => true | _ => false end) ls.

(** sim.py:36-45, the list case of _pnl_func_sequential.  The layers draw their
    matrices in order, numbered from [c]. *)
Fixpoint pnl_seq (p : pnl_draws) (c : nat) (ls : list layer) (din dout : nat) (slope : Q) (hidden : nat) (x : arr) : res arr :=
  match ls with
  | [] => Ok x
  | l :: r =>
      let last_linear := match l with Linear => negb (has_linear r) | _ => false end in
      let hidden' := if has_linear r then hidden else dout in
      let layer_d := if last_linear then dout else hidden' in
      y <-? pnl_func p c l din layer_d slope x ;;
      pnl_seq p (S c) r layer_d dout slope hidden' y
  end.

(** sim.py:32-45 (_pnl_func_sequential). *)
Definition pnl_func_sequential (p : pnl_draws) (c : nat) (ls : layers) (din dout : nat) (slope : Q) (hidden : nat) (x : arr) : res arr :=
  match ls with
  | One l => pnl_func p c l din dout slope x
  | Many l => pnl_seq p c l din dout slope hidden x
  end.

(** The number of matrices that _pnl_func_sequential may draw; used only to
    number the draws. *)
Definition layer_count (ls : layers) : nat := match ls with One _ => 1 | Many l => length l end.

(** sim.py:235: [func1(parents) + noise], with numpy's broadcasting of a width
    of one. *)
Definition arr_add (x e : arr) : res arr :=
  if Nat.eqb (width x) (width e)
  then Ok (Arr (width x) (map (fun p => map (fun q => (fst q + snd q)%Q) (combine (fst p) (snd p))) (combine (rows x) (rows e))))
  else if Nat.eqb (width x) 1
  then Ok (Arr (width e) (map (fun p => map (fun q => (nth 0%nat (fst p) 0 + q)%Q) (snd p)) (combine (rows x) (rows e))))
  else if Nat.eqb (width e) 1
  then Ok (Arr (width x) (map (fun p => map (fun q => (q + nth 0%nat (snd p) 0)%Q) (fst p)) (combine (rows x) (rows e))))
  else Err ValueError.

(** [np.sum(x)] over the whole array (sim.py:235). *)
Definition arr_sum (x : arr) : Q := qsum (concat (rows x)).

(** Is the name 'linear' (a string), or a list containing it?  The Python
    expression is ['linear' not in f or ..]: for strings it is a substring
    test, which for the accepted names means equality. *)
Definition mentions_linear (ls : layers) : bool :=
  match ls with One Linear => true | One _ => false | Many l => has_linear l end.
Definition is_linear (ls : layers) : bool := match ls with One Linear => true | _ => false end.

(** sim.py:224-227, 541-544: the condition that raises ValueError. *)
Definition hidden_rejected (f1 f2 : layers) : bool :=
  (negb (mentions_linear f1) || negb (mentions_linear f2)) && (negb (is_linear f1) || negb (is_linear f2)).

(** sim.py:217-236 (_simulate_single_value_pnl).  The result is a vector for a
    variable without parents and a single number, which numpy broadcasts over
    the column, otherwise.  [e j k b] is the noise. *)
Definition single_pnl (p : nat -> pnl_draws) (e : nat -> nat -> nat -> Q) (j ns npar : nat) (parents : list (list Q))
    (t : noise) (scale : Q) (f1 f2 : layers) (slope : Q) (hidden : option nat) : res (list Q) :=
  h <-? match hidden with
        | None => Ok npar
        | Some h => if negb (Nat.eqb h npar) && hidden_rejected f1 f2 then Err ValueError else Ok h
        end ;;
  if negb (plain_noise t) then Err ValueError
  else if Nat.eqb npar 0
  then Ok (map (fun k => (e j k 0%nat * scale)%Q) (seq 0 ns))
  else
    let noise := Arr h (map (fun k => map (fun b => (e j k b * scale)%Q) (seq 0 h)) (seq 0 ns)) in
    x1 <-? pnl_func_sequential (p j) 0 f1 npar h slope h (Arr npar parents) ;;
    x2 <-? arr_add x1 noise ;;
    x3 <-? pnl_func_sequential (p j) (layer_count f1) f2 h npar slope h x2 ;;
    Ok (repeat (arr_sum x3) ns).

(** sim.py:262-267: the accepted names. *)
Definition accepted (ls : layers) : bool :=
  let ok l := match l with Tanh | LeakyRelu | Cos | Linear => true | _ => false end in
  match ls with One l => ok l | Many l => forallb ok l end.

(** sim.py:238-299 (IIDSimulator.simulate_pnl). *)
Definition simulate_pnl (p : nat -> pnl_draws) (e : nat -> nat -> nat -> Q) (W : list (list Q)) (ns : nat) (t : noise)
    (a : scale_arg) (f1 f2 : layers) (slope : Q) (hidden : option nat) : res (list (list Q)) :=
  _ <-? rassert (plain_noise t) ;;
  _ <-? rassert (accepted f1 && accepted f2) ;;
  sv <-? scale_vec (length W) a ;;
  simulate_dag (fun j parents =>
      single_pnl p e j ns (length (nx_predecessors (length W) (nonzero W) j)) parents t (nth j sv 0%Q) f1 f2 slope hidden) W ns.

(* ---------- time series ---------- *)
(** [v @ M] for a row vector and an n x n matrix (sim.py:312). *)
Definition vec_mat (n : nat) (v : list Q) (M : list (list Q)) : list Q :=
  map (fun j => qdot v (map (fun i => qget M i j) (seq 0 n))) (seq 0 n).

(** Elementwise sum of vectors (sim.py:312, 320). *)
Definition vadd (a b : list Q) : list Q := map (fun p => (fst p + snd p)%Q) (combine a b).

(** sim.py:307-323 (_simulate_single_time_linear_anm) at step [t]; the Boolean
    says that the noise type is 'logistic'.  [X_lags] has one row per lag, the
    oldest first. *)
Definition step_linear (d : draws) (n : nat) (t : nat) (value_lags : list (list Q)) (Ws : list (list (list Q))) (max_lag : nat)
    (logistic : bool) (scale : list Q) : list (list Q) * list Q :=
  let v := fold_left (fun v lag => vadd v (vec_mat n (nth lag value_lags []) (nth lag Ws []))) (seq 0 max_lag) (repeat 0%Q n) in
  let value_t :=
    if logistic then map (fun p => d_binomial d t (fst p) (d_sigmoid d (snd p))) (combine (seq 0 n) v)
    else vadd v (map (fun j => (d_noise d t j * nth j scale 0)%Q) (seq 0 n)) in
  (tl (value_lags ++ [value_t]), value_t).

(** sim.py:366-369: [for t in range(length): ..]. *)
Fixpoint run_linear (d : draws) (n : nat) (t len : nat) (lags : list (list Q)) (Ws : list (list (list Q))) (max_lag : nat)
    (logistic : bool) (scale : list Q) (Xt : list (list Q)) : list (list Q) :=
  match len with
  | 0 => Xt
  | S len' =>
      let (lags', x) := step_linear d n t lags Ws max_lag logistic scale in
      run_linear d n (S t) len' lags' Ws max_lag logistic scale (Xt ++ [x])
  end.

(** sim.py:325-372 (TimeLagSimulator.simulate_linear_anm); [init lag j] is the
    standard noise of the initial rows, [length] = None is 5000. *)
Definition timelag_linear (d : draws) (init : nat -> nat -> Q) (n : nat) (Ws : list (list (list Q))) (max_lag : option nat)
    (len : option nat) (t : noise) (a : scale_arg) : res (list (list Q)) :=
  _ <-? rassert (plain_noise t || match t with Logistic => true | _ => false end) ;;
  let len := match len with None => 5000 | Some l => l end in
  ml <-? match max_lag with
         | None => Ok (length Ws)
         | Some l => if Nat.eqb l (length Ws) then Ok l else Err ValueError
         end ;;
  sv <-? scale_vec n a ;;
  let lags := map (fun lag => map (fun j => (init lag j * nth j sv 0)%Q) (seq 0 n)) (seq 0 ml) in
  Ok (run_linear d n 0 len lags Ws ml (match t with Logistic => true | _ => false end) sv lags).

(** [np.multiply(value_lags, adj_mats[:, :, j])] (sim.py:410): the rows of the
    window, masked by the parents of [j] at each lag. *)
Definition masked (n : nat) (value_lags : list (list Q)) (As : list (list (list Q))) (j : nat) : list (list Q) :=
  map (fun p => map (fun i => (nth i (fst p) 0 * qget (snd p) i j)%Q) (seq 0 n)) (combine value_lags As).

(** sim.py:374-399 (TimeLagSimulator._simulate_single_value_nonlinear_anm) for
    variable [j] at the time whose random weights are [w].  [pare_size] is the
    number of variables, not of parents. *)
Definition single_time_nonlinear (d : draws) (w : anm_draws) (j n : nat) (pare_lags : list (list Q)) (func_type : anm_func)
    (hidden : option nat) : res Q :=
  if Nat.eqb n 0 then Ok 0%Q
  else match func_type with
       | Mlp =>
           let h := match hidden with None => 100 | Some h => h end in
           let pre b := qsum (map (fun r => qdot r (map (fun a => a_w1 w j a b) (seq 0 n))) pare_lags) in
           Ok (qdot (map (fun b => d_sigmoid d (pre b)) (seq 0 h)) (map (a_w2 w j) (seq 0 h)))
       | Mim =>
           let tot v := qsum (map (fun r => qdot r (map (v j) (seq 0 n))) pare_lags) in
           Ok (a_tanh w (tot (a_v1 w)) + a_cos w (tot (a_v2 w)) + a_sin w (tot (a_v3 w)))%Q
       | OtherFunc => Err ValueError
       end.

(** sim.py:402-414 (_simulate_single_time_nonlinear_anm) at step [t]; the
    weights [ws t] are drawn in each step. *)
Definition step_nonlinear (d : draws) (ws : nat -> anm_draws) (n t : nat) (value_lags : list (list Q)) (As : list (list (list Q)))
    (scale : list Q) (func_type : anm_func) (hidden : option nat) : res (list (list Q) * list Q) :=
  v <-? rmap (fun j => single_time_nonlinear d (ws t) j n (masked n value_lags As j) func_type hidden) (seq 0 n) ;;
  let value_t := vadd v (map (fun j => (d_noise d t j * nth j scale 0)%Q) (seq 0 n)) in
  Ok (tl (value_lags ++ [value_t]), value_t).

(** sim.py:460-463: the loop over time. *)
Fixpoint run_nonlinear (d : draws) (ws : nat -> anm_draws) (n t len : nat) (lags : list (list Q)) (As : list (list (list Q)))
    (scale : list Q) (func_type : anm_func) (hidden : option nat) (Xt : list (list Q)) : res (list (list Q)) :=
  match len with
  | 0 => Ok Xt
  | S len' =>
      st <-? step_nonlinear d ws n t lags As scale func_type hidden ;;
      run_nonlinear d ws n (S t) len' (fst st) As scale func_type hidden (Xt ++ [snd st])
  end.

(** sim.py:416-467 (TimeLagSimulator.simulate_nonlinear_anm).  Line 462 passes
    noise_scale instead of scale_vec: a scalar multiplies every draw, a list
    is scale_vec itself, so that the scales are the same. *)
Definition timelag_nonlinear (d : draws) (ws : nat -> anm_draws) (init : nat -> nat -> Q) (n : nat) (As : list (list (list Q)))
    (max_lag len : option nat) (t : noise) (a : scale_arg) (func_type : anm_func) (hidden : option nat) : res (list (list Q)) :=
  _ <-? rassert (plain_noise t) ;;
  _ <-? rassert (match func_type with OtherFunc => false | _ => true end) ;;
  let len := match len with None => 5000 | Some l => l end in
  ml <-? match max_lag with
         | None => Ok (length As)
         | Some l => if Nat.eqb l (length As) then Ok l else Err ValueError
         end ;;
  sv <-? scale_vec n a ;;
  let lags := map (fun lag => map (fun j => (init lag j * nth j sv 0)%Q) (seq 0 n)) (seq 0 ml) in
  run_nonlinear d ws n 0 len lags As sv func_type hidden lags.

(** [np.sum(x, axis=0)] (sim.py:478): a vector, here an array with one row. *)
Definition arr_sum0 (x : arr) : arr := Arr (width x) [map (fun b => qsum (map (fun r => nth b r 0%Q) (rows x))) (seq 0 (width x))].

(** sim.py:469-481 (_simulate_single_time_pnl) at step [t]; the functions of
    variable [j] are fixed by [p j].  [e t b j] is entry (b, j) of the noise. *)
Definition step_pnl (p : nat -> pnl_draws) (e : nat -> nat -> nat -> Q) (n t : nat) (value_lags : list (list Q))
    (As : list (list (list Q))) (f1 f2 : layers) (slope : Q) (scale : list Q) (hidden : nat) : res (list (list Q) * list Q) :=
  value_t <-? rmap (fun j =>
      x1 <-? pnl_func_sequential (p j) 0 f1 n hidden slope hidden (Arr n (masked n value_lags As j)) ;;
      x2 <-? arr_add (arr_sum0 x1) (Arr hidden [map (fun b => (e t b j * nth j scale 0)%Q) (seq 0 hidden)]) ;;
      x3 <-? pnl_func_sequential (p j) (layer_count f1) f2 hidden 1 slope hidden x2 ;;
      Ok (arr_sum x3)) (seq 0 n) ;;
  Ok (tl (value_lags ++ [value_t]), value_t).

(** sim.py:549-552: the loop over time. *)
Fixpoint run_pnl (p : nat -> pnl_draws) (e : nat -> nat -> nat -> Q) (n t len : nat) (lags : list (list Q)) (As : list (list (list Q)))
    (f1 f2 : layers) (slope : Q) (scale : list Q) (hidden : nat) (Xt : list (list Q)) : res (list (list Q)) :=
  match len with
  | 0 => Ok Xt
  | S len' =>
      st <-? step_pnl p e n t lags As f1 f2 slope scale hidden ;;
      run_pnl p e n (S t) len' (fst st) As f1 f2 slope scale hidden (Xt ++ [snd st])
  end.

(** sim.py:483-556 (TimeLagSimulator.simulate_pnl).  [length] has no default
    value here: [range(None)] raises TypeError. *)
Definition timelag_pnl (p : nat -> pnl_draws) (e : nat -> nat -> nat -> Q) (init : nat -> nat -> Q) (n : nat)
    (As : list (list (list Q))) (max_lag len : option nat) (t : noise) (a : scale_arg) (f1 f2 : layers) (slope : Q)
    (hidden : option nat) : res (list (list Q)) :=
  _ <-? rassert (plain_noise t) ;;
  _ <-? rassert (accepted f1 && accepted f2) ;;
  ml <-? match max_lag with
         | None => Ok (length As)
         | Some l => if Nat.eqb l (length As) then Ok l else Err ValueError
         end ;;
  sv <-? scale_vec n a ;;
  let lags := map (fun lag => map (fun j => (init lag j * nth j sv 0)%Q) (seq 0 n)) (seq 0 ml) in
  h <-? match hidden with
        | None => Ok n
        | Some h => if negb (Nat.eqb h n) && hidden_rejected f1 f2 then Err ValueError else Ok h
        end ;;
  match len with
  | None => Err TypeError
  | Some len => run_pnl p e n 0 len lags As f1 f2 slope sv h lags
  end.

(* ---------- random graphs ---------- *)
(** Row [s] of [np.eye(n)] (utils.py:39). *)
Definition unit_row (n s : nat) : list Z := map (fun j => if Nat.eqb j s then 1%Z else 0%Z) (seq 0 n).

(** [a @ b] for integer matrices (utils.py:40). *)
Definition zmatmul (n : nat) (a b : list (list Z)) : list (list Z) :=
  map (fun i => map (fun j => fold_left Z.add (map (fun k => (mat_get a i k * mat_get b k j)%Z) (seq 0 n)) 0%Z) (seq 0 n)) (seq 0 n).

(** utils.py:37-40 (_random_permutation); [s] is the order in which
    np.random.permutation puts the rows of the identity. *)
Definition random_permutation (s : list nat) (m : list (list Z)) : list (list Z) :=
  let n := length m in
  let P := map (unit_row n) s in
  zmatmul n (zmatmul n (transpose n P) m) P.

(** [np.tril(m, k=-1)] (utils.py:44). *)
Definition tril (m : list (list Z)) : list (list Z) :=
  map (fun i => map (fun j => if Nat.ltb j i then mat_get m i j else 0%Z) (seq 0 (length m))) (seq 0 (length m)).

(** utils.py:43-46 (_random_acyclic_orientation). *)
Definition random_acyclic_orientation (s1 s2 : list nat) (g : list (list Z)) : list (list Z) :=
  random_permutation s2 (tril (random_permutation s1 g)).

(** utils.py:49-53 (_adj2weights); [u i j] is the uniform draw with its sign. *)
Definition adj2weights (n : nat) (m : list (list Z)) (u : nat -> nat -> Q) : list (list Q) :=
  map (fun i => map (fun j => if Z.eqb (mat_get m i j) 0 then (0 * u i j)%Q else (1 * u i j)%Q) (seq 0 n)) (seq 0 n).

(** utils.py:10-15 (set_random_seed): torch.manual_seed starts with
    [int(seed)], which raises TypeError for None. *)
Definition set_random_seed (seed : option Z) : res unit :=
  match seed with None => Err TypeError | Some _ => Ok tt end.

(** utils.py:64-77 (erdos_renyi).  [g] is the matrix of the undirected graph
    drawn by networkx in lines 70-71 and [u] the weight draws; the result has
    integer entries when no weight range is given. *)
Definition erdos_renyi (n : nat) (g : list (list Z)) (s1 s2 : list nat) (u : option (nat -> nat -> Q)) (seed : option Z) :
    res (list (list Z) + list (list Q)) :=
  _ <-? rassert (Nat.ltb 0 n) ;;
  _ <-? set_random_seed seed ;;
  let dag := random_acyclic_orientation s1 s2 g in
  match u with None => Ok (inl dag) | Some w => Ok (inr (adj2weights n dag w)) end.

(** sim.py:573-577 (HawkesSimulator.get_artificial_data): [edges] is the
    shuffled list of the pairs i < j, [k] is round(out_degree_rate * n). *)
Definition hawkes_edges (n : nat) (edges : list (nat * nat)) (k : nat) : list (list Z) :=
  fold_left (fun m (e : nat * nat) => mat_set m (fst e) (snd e) 1%Z) (firstn k edges) (zeros n).

(** sim.py:574: the pairs before shuffling. *)
Definition hawkes_pairs (n : nat) : list (nat * nat) :=
  filter (fun p => Nat.ltb (fst p) (snd p)) (list_prod (seq 0 n) (seq 0 n)).
