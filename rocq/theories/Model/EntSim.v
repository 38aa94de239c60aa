(** Model of the simulators in
    /repo/cdmir/discovery/score_based/entropy_based/entropy_based_discovery/utils.py
    ("utils.py" below), and of the branch for an infinite number of samples that
    they share with /repo/cdmir/datasets/simlulators.py.

    Numbers are exact: rationals for finite samples, reals for the population
    branch, which has a square root.  Random draws, transcendental functions,
    igraph's topological sorting and numpy's matrix inverse are function arguments.
    Data matrices are lists of rows, as in Model/Simulators.v. *)

From Coq Require Import List Arith Bool ZArith QArith Qreals Reals.
From Verif Require Import Model.Py Model.Graph Model.Networkx Model.SHP Model.Simulators Model.LocalScore Model.KCI.
Import ListNotations.
Open Scope nat_scope.
Open Scope res_scope.

(* ---------- random graphs ---------- *)
(** The graph types of utils.py:47-61 with the matrix drawn by igraph: undirected
    for 'ER' (lines 49-50), directed for 'SF' (54-55) and 'BP' (59-60). *)
Inductive graph_draw : Type := DrawER (g : list (list Z)) | DrawSF (g : list (list Z)) | DrawBP (g : list (list Z)) | DrawOther.

(** utils.py:24-65 (simulate_dag); [s1] and [s2] are the permutations drawn in lines
    51 and 63, by the same code as in datasets/utils.py. *)
Definition simulate_graph (t : graph_draw) (s1 s2 : list nat) : res (list (list Z)) :=
  B <-? match t with
        | DrawER g => Ok (tril (random_permutation s1 g))
        | DrawSF g | DrawBP g => Ok g
        | DrawOther => Err ValueError
        end ;;
  let B_perm := random_permutation s2 B in
  b <-? nx_is_dag (length B_perm) (fun u v => negb (Z.eqb (mat_get B_perm u v) 0)) ;;
  _ <-? rassert b ;;
  Ok B_perm.

(** utils.py:80-82: one round for each of the ranges, of which [i] is the number;
    [S] are the range numbers drawn in line 79 and [U i] the draws of line 81. *)
Fixpoint param_loop (n i : nat) (ranges : list (Q * Q)) (S : nat -> nat -> nat) (U : nat -> nat -> nat -> Q) (B : list (list Z))
    (W : nat -> nat -> Q) : nat -> nat -> Q :=
  match ranges with
  | [] => W
  | _ :: r =>
      param_loop n (1 + i) r S U B (fun a b => (W a b + inject_Z (mat_get B a b) * (if Nat.eqb (S a b) i then 1 else 0) * U i a b)%Q)
  end.

(** utils.py:68-83 (simulate_parameter): np.random.randint raises ValueError when
    there are no ranges. *)
Definition simulate_parameter (ranges : list (Q * Q)) (S : nat -> nat -> nat) (U : nat -> nat -> nat -> Q) (B : list (list Z)) :
    res (list (list Q)) :=
  let n := length B in
  if Nat.eqb (length ranges) 0 then Err ValueError
  else Ok (map (fun a => map (fun b => param_loop n 0 ranges S U B (fun _ _ => 0%Q) a b) (seq 0 n)) (seq 0 n)).

(* ---------- linear models ---------- *)
(** The types of utils.py:103-122 and, but for the last two names, of 244-254;
    [SemOther] is any other string. *)
Inductive sem : Type := SemGauss | SemExp | SemGumbel | SemUniform | SemLogistic | SemPoisson | SemOther.

(** utils.py:101-124 (_simulate_single_equation) for variable [j].  The scale of the
    standard draws [d_noise] is 1; np.random.normal and np.random.exponential raise
    ValueError for a negative scale. *)
Definition single_equation (d : draws) (j ns : nat) (X : list (list Q)) (w : list Q) (t : sem) (scale : Q) : res (list Q) :=
  let lin := map (fun r => qdot r w) X in
  let z := map (fun k => (d_noise d j k * scale)%Q) (seq 0 ns) in
  let x := map (fun p => (fst p + snd p)%Q) (combine lin z) in
  match t with
  | SemGauss | SemExp => if Qle_bool 0 scale then Ok x else Err ValueError
  | SemGumbel | SemUniform => Ok x
  | SemLogistic => Ok (map (fun p => d_binomial d j (fst p) (d_sigmoid d (snd p))) (combine (seq 0 ns) lin))
  | SemPoisson => Ok (map (fun p => d_poisson d j (fst p) (d_exp d (snd p))) (combine (seq 0 ns) lin))
  | SemOther => Err ValueError
  end.

(** utils.py:19-21 (is_dag): igraph's test, for which the algorithm of networkx is
    used. *)
Definition is_dag_w (W : list (list Q)) : res bool := nx_is_dag (length W) (nonzero W).

(** utils.py:145-152, 215-222, 306-313: the loop over igraph's order [order]. *)
Definition fill_in (f : nat -> list (list Q) -> res (list Q)) (W : list (list Q)) (ns : nat) (order : list nat) : res (list (list Q)) :=
  _ <-? rassert (Nat.eqb (length order) (length W)) ;;
  fill f (nx_predecessors (length W) (nonzero W)) order (qzeros ns (length W)).

(** utils.py:86-152 (simulate_linear_sem) for a finite [n]; [topo] is igraph's
    topological_sorting, which raises an exception for a cyclic graph. *)
Definition simulate_linear_sem (topo : nat -> (nat -> nat -> bool) -> res (list nat)) (d : draws) (W : list (list Q)) (ns : nat)
    (t : sem) (a : scale_arg) : res (list (list Q)) :=
  sv <-? scale_vec (length W) a ;;
  b <-? is_dag_w W ;;
  if negb b then Err ValueError
  else
    order <-? topo (length W) (nonzero W) ;;
    fill_in (fun j parents =>
        single_equation d j ns parents (map (fun i => qget W i j) (nx_predecessors (length W) (nonzero W) j)) t (nth j sv 0%Q))
      W ns order.

(** utils.py:155-222 (simulate_linear_sem_variable_scale): [u j] are the scales drawn
    in line 195; the rest is the same code. *)
Definition simulate_variable_scale (topo : nat -> (nat -> nat -> bool) -> res (list nat)) (d : draws) (u : nat -> Q) (W : list (list Q))
    (ns : nat) (t : sem) : res (list (list Q)) :=
  simulate_linear_sem topo d W ns t (ScaleList (map u (seq 0 (length W)))).

(* ---------- infinitely many samples ---------- *)
(** [np.eye(d) - W] for the matrix of real numbers (utils.py:140). *)
Definition eye_minus (W : rmat) : rmat := fun i j => ((if Nat.eqb i j then 1 else 0) - W i j)%R.

(** The same numbers as reals (utils.py:140). *)
Definition real_mat (W : list (list Q)) : rmat := fun i j => Q2R (qget W i j).

(** utils.py:137-143, 207-213 and datasets/simlulators.py:117-123: the matrix for an
    infinite number of samples; [rdot] is the product of matrices; [inv] is numpy.linalg.inv with LinAlgError as
    PyException, [sv] the vector of scales. *)
Definition population (inv : nat -> rmat -> res rmat) (W : list (list Q)) (sv : list Q) : res rmat :=
  let d := length W in
  M <-? inv d (eye_minus (real_mat W)) ;;
  Ok (rdot d (fun i j => sqrt (INR d) * (if Nat.eqb i j then Q2R (nth i sv 0%Q) else 0))%R M).

(** utils.py:86-143 (simulate_linear_sem) for [n = inf]. *)
Definition linear_sem_inf (inv : nat -> rmat -> res rmat) (W : list (list Q)) (t : sem) (a : scale_arg) : res rmat :=
  sv <-? scale_vec (length W) a ;;
  b <-? is_dag_w W ;;
  if negb b then Err ValueError
  else match t with SemGauss => population inv W sv | _ => Err ValueError end.

(** datasets/simlulators.py:81-123 (IIDSimulator.simulate_linear_anm) for
    [n_samples = None]. *)
Definition linear_anm_inf (inv : nat -> rmat -> res rmat) (W : list (list Q)) (t : noise) (a : scale_arg) : res rmat :=
  _ <-? rassert (match t with Unknown => false | _ => true end) ;;
  sv <-? scale_vec (length W) a ;;
  b <-? nx_is_dag (length W) (nonzero W) ;;
  if negb b then Err ValueError
  else match t with Gauss => population inv W sv | _ => Err ValueError end.

(* ---------- nonlinear models ---------- *)
(** The function types of utils.py:260-299. *)
Inductive nl_sem : Type := NlMlp | NlMim | NlGp | NlGpAdd | NlPow2 | NlPow3 | NlOther.

(** utils.py:244-254: the accepted noise distributions. *)
Definition known_dist (t : sem) : bool := match t with SemGauss | SemExp | SemGumbel | SemUniform => true | _ => false end.

(** utils.py:284-297: [np.power(X @ W1, e) @ W2] for one sample, with 10 hidden units. *)
Definition pow_value (w : anm_draws) (j e : nat) (r : list Q) : Q :=
  qdot (map (fun b => Qpower (qdot r (map (fun a => a_w1 w j a b) (seq 0 (length r)))) (Z.of_nat e)) (seq 0 10))
       (map (a_w2 w j) (seq 0 10)).

(** utils.py:279-283: the sum over the parents of one draw of a Gaussian process for
    each; [gp j i X] is the draw for variable [j] and the i-th parent, at the points
    of which [X] is the list. *)
Definition gp_add (gp : nat -> nat -> list (list Q) -> nat -> Q) (j npar : nat) (X : list (list Q)) (k : nat) : Q :=
  qsum (map (fun i => gp j i (map (fun r => [nth i r 0%Q]) X) k) (seq 0 npar)).

(** utils.py:260-299: the function of the parents of variable [j] in sample [k]. *)
Definition nl_value (d : draws) (w : anm_draws) (gp : nat -> nat -> list (list Q) -> nat -> Q) (j npar : nat) (X : list (list Q))
    (t : nl_sem) (k : nat) : res Q :=
  let r := nth k X [] in
  match t with
  | NlMlp => Ok (mlp_value d w j 100 r)
  | NlMim => Ok (mim_value w j r)
  | NlGp => Ok (gp j 0 X k)
  | NlGpAdd => Ok (gp_add gp j npar X k)
  | NlPow2 => Ok (pow_value w j 2 r)
  | NlPow3 => Ok (pow_value w j 3 r)
  | NlOther => Err ValueError
  end.

(** utils.py:239-300 (_simulate_single_equation of the nonlinear simulator). *)
Definition single_nl (d : draws) (w : anm_draws) (gp : nat -> nat -> list (list Q) -> nat -> Q) (j ns npar : nat) (X : list (list Q))
    (t : nl_sem) (dist : sem) (scale : Q) : res (list Q) :=
  if negb (known_dist dist) then Err ValueError
  else
    let z := map (fun k => (d_noise d j k * scale)%Q) (seq 0 ns) in
    if Nat.eqb npar 0 then Ok z
    else
      match t with
      | NlOther => Err ValueError
      | _ => rmap (fun k => v <-? nl_value d w gp j npar X t k ;; Ok (v + nth k z 0)%Q) (seq 0 ns)
      end.

(** utils.py:305, 312: [scale_vec[j]] where scale_vec is the argument itself: a
    number cannot be subscripted, and a list may be too short. *)
Definition nl_scale (a : scale_arg) (j : nat) : res Q :=
  match a with
  | ScaleNone => Ok 1%Q
  | ScaleScalar _ => Err TypeError
  | ScaleList l => match nth_error l j with Some q => Ok q | None => Err IndexError end
  end.

(** utils.py:225-313 (simulate_nonlinear_sem) for a matrix of zeros and ones.  There
    is no test for cycles; [topo] raises an exception for a cyclic graph, and where an
    older igraph returns a partial order the assertion fails. *)
Definition simulate_nonlinear_sem (topo : nat -> (nat -> nat -> bool) -> res (list nat)) (d : draws) (w : anm_draws)
    (gp : nat -> nat -> list (list Q) -> nat -> Q) (B : list (list Q)) (ns : nat) (t : nl_sem) (dist : sem) (a : scale_arg) :
    res (list (list Q)) :=
  order <-? topo (length B) (nonzero B) ;;
  fill_in (fun j parents =>
      sc <-? nl_scale a j ;;
      single_nl d w gp j ns (length (nx_predecessors (length B) (nonzero B) j)) parents t dist sc) B ns order.

(* ---------- two variables ---------- *)
(** utils.py:394-441 (simulate_pariwise): [e0] and [e1] are the draws of lines 408-427,
    [known] says that the distribution is one of the six names, [g] is
    [tanh + cos + sin] of line 435. *)
Definition simulate_pairwise (e0 e1 : nat -> Q) (known : bool) (g : Q -> Q) (weight : Q) (ns : nat) (linear : bool) (direct : Z) :
    res (list (list Q)) :=
  if negb known then Err ValueError
  else
    let X := map (fun k => [e0 k; (e1 k + (if linear then weight * e0 k else g (e0 k)))%Q]) (seq 0 ns) in
    Ok (if Z.eqb direct 1 then map (fun r => [nth 1 r 0%Q; nth 0 r 0%Q]) X else X).
