(** Model of /repo/cdmir/discovery/point_process/SHP.py: the acyclicity test,
    the EM score with its cache, and the hill climbing.

    Numbers are exact rationals; rounding, NaN and infinities other than the
    score [__MIN__] are not modelled, and x / 0 is 0.  [np.log] is a function
    argument.  The edge matrix holds integers (it is a 0/1 matrix, lines 70-75).
    The preprocessing of the event table (lines 15-20, 43-67, 77-139) is not
    modelled: its results are the fields of [shp]. *)

From Coq Require Import List Arith Bool ZArith QArith.
From Verif Require Import Model.Py Model.Graph Model.Networkx.
Import ListNotations.
Open Scope nat_scope.
Open Scope res_scope.

(** SHP.py:24: the directed graph of [edge_mat - np.diag(np.diag(edge_mat))]. *)
Definition off_diagonal (m : list (list Z)) (u v : nat) : bool :=
  negb (Z.eqb (mat_get m u v - (if Nat.eqb u v then mat_get m u u else 0%Z)) 0).

(** SHP.py:23-25 (check_DAG). *)
Definition check_DAG (m : list (list Z)) : res bool :=
  nx_is_dag (length m) (off_diagonal m).

(** SHP.py:29-85: the attributes of the object that the search reads. *)
Record shp : Type := Shp {
  sh_n : nat;                       (* len(self.event_names) *)
  sh_X : list (list Q);             (* self.X, one row per time stamp *)
  sh_S : list (list Q);             (* self.sum_t_X_kappa *)
  sh_D : list Q;                    (* self.decay_effect_integral_to_T.sum(0) *)
  sh_decay : Q;                     (* self.decay *)
  sh_T : Q;                         (* self.T *)
  sh_interval : option Q;           (* self.time_interval; None is Python's None *)
  sh_factor : Q;                    (* 1 for 'AIC', np.log(times.sum()) * self.reg for 'BIC' *)
  sh_log : Q -> Q;                  (* np.log *)
  sh_rand : nat -> nat -> nat -> Q; (* entry (j, i) of the k-th draw of self.random_state *)
  sh_init : list (list Z)           (* self.init_structure *)
}.

(** SHP.py:187: an entry of the likelihood table, (Li, Pa_i_alpha, mu[i]). *)
Definition entry : Type := (Q * list (nat * Q) * Q)%type.

(** SHP.py:54-57, 187 and 39: the mutable part of the object.  The nested
    dictionary hist_likelihood[i][Pa_i] is kept as one dictionary with the keys
    (i, Pa_i); [draws] counts the draws made from the random state. *)
Record shp_state : Type := St { table : list ((nat * list nat) * entry); draws : nat }.

(** Equality of the keys (i, Pa_i): tuples of indices (SHP.py:161). *)
Definition key_eqb (a b : nat * list nat) : bool :=
  Nat.eqb (fst a) (fst b) && (if list_eq_dec Nat.eq_dec (snd a) (snd b) then true else false).

(** [.sum()] of a vector (SHP.py:171-174, 192-196). *)
Definition qsum (l : list Q) : Q := fold_left Qplus l 0%Q.

(** Column [j] of a matrix with rows (SHP.py:173, 195). *)
Definition qcol (m : list (list Q)) (j : nat) : list Q := map (fun r => nth j r 0%Q) m.

(** SHP.py:171: [(self.sum_t_X_kappa * alpha[:, i]).sum(1) + mu[i]], one value
    per time stamp. *)
Definition lambda_for (o : shp) (col : list Q) (mu : Q) : list Q :=
  map (fun r => (qsum (map (fun p => fst p * snd p) (combine r col)) + mu)%Q) (sh_S o).

(** SHP.py:171-177: the log likelihood of event type [i]. *)
Definition new_Li (o : shp) (i : nat) (col : list Q) (mu : Q) : Q :=
  let lam := lambda_for o col mu in
  let X_log_lambda := qsum (map (fun p => fst p * sh_log o (snd p))%Q (combine (qcol (sh_X o) i) lam)) in
  let sums := map (fun j => qsum (map (fun x => (1 / sh_decay o) * x)%Q (qcol (sh_X o) j))) (seq 0 (sh_n o)) in
  let lambda_i_sum := (qsum (map (fun p => fst p * snd p) (combine sums col)) + mu * sh_T o)%Q in
  (- lambda_i_sum + X_log_lambda)%Q.

(** SHP.py:192. *)
Definition update_mu (o : shp) (i : nat) (lam : list Q) (mu : Q) : Q :=
  (qsum (map (fun p => (mu / fst p) * snd p)%Q (combine lam (qcol (sh_X o) i))) / sh_T o)%Q.

(** SHP.py:194-202: [for j in Pa_i: ..].  [lower] multiplies by time_interval,
    which raises TypeError when time_interval is None. *)
Definition update_alpha (o : shp) (i : nat) (Pa : list nat) (lam : list Q) (col : list Q) : res (list Q) :=
  fold_left (fun (c : res (list Q)) j =>
    col <-? c ;;
    match sh_interval o with
    | None => Err TypeError
    | Some dt =>
        let aj := nth j col 0%Q in
        let upper := qsum (map (fun p => (aj * fst (fst p) / snd (fst p)) * snd p)%Q
                       (combine (combine (qcol (sh_S o) j) lam) (qcol (sh_X o) i))) in
        let lower := (nth j (sh_D o) 0%Q * dt)%Q in
        Ok (set_nth j (if Qeq_bool lower 0 then 0%Q else (upper / lower)%Q) col)
    end) Pa (Ok col).

(** SHP.py:169-202: [while 1: ..].  The threshold 0.0085 is the exact decimal.
    [Li = None] stands for [__MIN__]; the gain over it is infinite. *)
Fixpoint em_loop (fuel : nat) (o : shp) (i : nat) (Pa : list nat) (Li : option Q)
    (col : list Q) (mu : Q) : res (Q * list Q * Q) :=
  match fuel with
  | 0 => Err OutOfFuel
  | S f =>
      let nl := new_Li o i col mu in
      if match Li with None => false | Some l => negb (Qle_bool (85 # 10000) (nl - l)) end
      then Ok (nl, col, mu)
      else
        let lam := lambda_for o col mu in
        col' <-? update_alpha o i Pa lam col ;;
        em_loop f o i Pa (Some nl) col' (update_mu o i lam mu)
  end.

(** SHP.py:158: [tuple(np.where(edge_mat[:, i] == 1)[0])]. *)
Definition Pa_of (m : list (list Z)) (i : nat) : list nat :=
  filter (fun j => Z.eqb (mat_get m j i) 1) (seq 0 (length m)).

(** SHP.py:151-152: column [i] of [alpha * edge_mat]. *)
Definition start_col (o : shp) (k : nat) (m : list (list Z)) (i : nat) : list Q :=
  map (fun j => (sh_rand o k j i * inject_Z (mat_get m j i))%Q) (seq 0 (sh_n o)).

(** SHP.py:157-204: the body of the loop over the event types.  It touches
    only column [i] of alpha and mu[i], so it returns these two with Li. *)
Definition em_node (fuel : nat) (o : shp) (k : nat) (m : list (list Z)) (t : list ((nat * list nat) * entry)) (i : nat) :
    res (list ((nat * list nat) * entry) * (Q * list Q * Q)) :=
  let Pa := Pa_of m i in
  match dget key_eqb t (i, Pa) with
  | Some (Li, al, mu) =>
      Ok (t, (Li, fold_left (fun col j => set_nth j (match dget Nat.eqb al j with Some a => a | None => 0%Q end) col)
                    Pa (start_col o k m i), mu))
  | None =>
      r <-? em_loop fuel o i Pa None (start_col o k m i) 1%Q ;;
      let '(Li, col, mu) := r in
      Ok (dset key_eqb t (i, Pa) (Li, map (fun j => (j, nth j col 0%Q)) Pa, mu), (Li, col, mu))
  end.

(** SHP.py:157: the loop over all event types. *)
Fixpoint em_nodes (fuel : nat) (o : shp) (k : nat) (m : list (list Z)) (t : list ((nat * list nat) * entry))
    (is : list nat) : res (list ((nat * list nat) * entry) * list (Q * list Q * Q)) :=
  match is with
  | [] => Ok (t, [])
  | i :: r =>
      p <-? em_node fuel o k m t i ;;
      q <-? em_nodes fuel o k m (fst p) r ;;
      Ok (fst q, snd p :: snd q)
  end.

(** [edge_mat.sum()] (SHP.py:206-208). *)
Definition mat_sum (m : list (list Z)) : Z := fold_left Z.add (concat m) 0%Z.

(** The value returned by EM: (score, alpha, mu); the score [None] is
    [__MIN__] = -inf; alpha is kept by columns. *)
Definition em_result : Type := (option Q * list (list Q) * list Q)%type.

(** SHP.py:142-209 (EM). *)
Definition EM (fuel : nat) (o : shp) (s : shp_state) (m : list (list Z)) : res (shp_state * em_result) :=
  d <-? check_DAG m ;;
  if d then
    p <-? em_nodes fuel o (draws s) m (table s) (seq 0 (sh_n o)) ;;
    let L := qsum (map (fun r => fst (fst r)) (snd p)) in
    Ok (St (fst p) (S (draws s)),
        (Some (L - inject_Z (Z.of_nat (sh_n o) + mat_sum m) * sh_factor o)%Q,
         map (fun r => snd (fst r)) (snd p), map snd (snd p)))
  else
    Ok (s, (None, repeat (repeat 0%Q (sh_n o)) (sh_n o), repeat 0%Q (sh_n o))).

(** SHP.py:282-298 (one_step_change). *)
Definition one_step_change (m : list (list Z)) (e : nat * nat * nat) : list (list Z) :=
  let '(j, i, t) := e in
  if Nat.eqb j i then m
  else match t with
       | 0 => mat_set (mat_set m j i 0%Z) i j 0%Z
       | 1 => mat_set (mat_set m j i 1%Z) i j 0%Z
       | _ => mat_set (mat_set m j i 0%Z) i j 1%Z
       end.

(** SHP.py:277-280 (one_step_change_iterator), as the list of line 308. *)
Definition one_step_change_iterator (n : nat) (m : list (list Z)) : list (list (list Z)) :=
  map (one_step_change m)
      (flat_map (fun j => flat_map (fun i => map (fun t => (j, i, t)) (seq 0 3)) (seq 0 n)) (seq 0 n)).

(** [new_L > L] on scores with -inf (SHP.py:312). *)
Definition better (a b : option Q) : bool :=
  match a, b with
  | None, _ => false
  | Some _, None => true
  | Some x, Some y => negb (Qle_bool x y)
  end.

(** The local variables of Hill_Climb: edge_mat and result; [L] is always
    [result[0]] (SHP.py:302-305, 313-317). *)
Definition current : Type := (list (list Z) * em_result)%type.

(** SHP.py:308-317: the loop over the neighbours; the Boolean is [stop_tag]. *)
Fixpoint climb_round (fuel : nat) (o : shp) (ms : list (list (list Z))) (s : shp_state) (c : current) (stop : bool) :
    res (shp_state * current * bool) :=
  match ms with
  | [] => Ok (s, c, stop)
  | m :: r =>
      p <-? EM fuel o s m ;;
      if better (fst (fst (snd p))) (fst (fst (snd c)))
      then climb_round fuel o r (fst p) (m, snd p) false
      else climb_round fuel o r (fst p) c stop
  end.

(** SHP.py:306-320: [while 1: ..].  [rounds] bounds the rounds, [fuel] the
    inner EM iterations. *)
Fixpoint climb (rounds fuel : nat) (o : shp) (s : shp_state) (c : current) : res (shp_state * current) :=
  match rounds with
  | 0 => Err OutOfFuel
  | S k =>
      p <-? climb_round fuel o (one_step_change_iterator (sh_n o) (fst c)) s c true ;;
      let '(s', c', stop) := p in
      if stop then Ok (s', c') else climb k fuel o s' c'
  end.

(** SHP.py:300-320 (Hill_Climb).  The Python method returns only [result]; the
    model also returns the final object state and [edge_mat]. *)
Definition Hill_Climb (rounds fuel : nat) (o : shp) (s : shp_state) : res (shp_state * current) :=
  p <-? EM fuel o s (sh_init o) ;;
  climb rounds fuel o (fst p) (sh_init o, snd p).
