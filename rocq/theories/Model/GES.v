(** Model of /repo/cdmir/discovery/score_based/greedy_equivalence_search.py
    (GES).  "ges.py" abbreviates that file in the comments below.

    Scores are rational numbers: rounding, infinities and NaN are not modelled.
    A local score [sf j ps] is a function of the variable index and of the
    list of parent indices in the order in which the code passes them; a score
    that raises is not modelled.  The cache inside BaseLocalScoreFunction is
    part of that function. *)

From Coq Require Import List Arith Bool ZArith QArith.
From Verif Require Import Model.Py Model.Graph Model.DiGraph Model.PDAG Model.Pdag2Dag.
Import ListNotations.
Open Scope nat_scope.
Open Scope res_scope.

(** A [for] loop whose body may raise: [for x in l: s = body(s, x)]. *)
Fixpoint foldE {X S} (f : S -> X -> res S) (s : S) (l : list X) : res S :=
  match l with
  | [] => Ok s
  | x :: r => s' <-? f s x ;; foldE f s' r
  end.

(** The type of local score functions, [score_func(j, parents)]. *)
Definition lscore : Type := nat -> list nat -> Q.

(** ges.py:27-41 (Combinatorial): the list of subsets. *)
Definition Combinatorial (T0 : list nat) : list (list nat) :=
  match T0 with
  | [] => [[]]
  | [_] => [[]; T0]
  | _ => flat_map (combinations T0) (seq 0 (length T0 + 1))
  end.

(** ges.py:44-55 (Score_G).  The parents are collected by name. *)
Definition Score_G (g : graph) (sf : lscore) : res Q :=
  foldE (fun score (p : nat * nat) =>
    let (i, node) := p in
    ns <-? get_neighbours g node ;;
    pa <-? filterE (fun v => is_arrow g v node) ns ;;
    Ok (score + sf i pa)%Q) 0%Q (enumerate_from 0 (node_list g)).

(** ges.py:65, 101, 178, 251, 264, 442, 494: [np.where([G.is_connected(Xi, k)])]. *)
Definition adjacent_at (g : graph) (i : nat) : res (list nat) :=
  np_where (number_of_nodes g) (fun k => at_nodes is_connected g i k).

(** ges.py:180, 266, 440: the indices of the parents of Xj. *)
Definition parents_at (g : graph) (j : nat) : res (list nat) :=
  np_where (number_of_nodes g) (fun k => at_nodes is_arrow g k j).

(** ges.py:64-66, 100-102, 177-179, 250-252, 263-265, 493-495: the neighbours
    of Xj that are adjacent to Xi.  [tails_at] (Model/Pdag2Dag.v) is the same
    numpy expression as the one for [Tj]. *)
Definition na_yx (g : graph) (i j : nat) : res (list nat) :=
  tj <-? tails_at g j ;; ti <-? adjacent_at g i ;; Ok (np_intersect1d tj ti).

(** [l.index(x)], ValueError when absent (ges.py:78-79). *)
Fixpoint py_index (x : nat) (l : list nat) : res nat :=
  match l with
  | [] => Err ValueError
  | y :: r => if Nat.eqb x y then Ok 0 else i <-? py_index x r ;; Ok (S i)
  end.

(** ges.py:76-79: the matrix of mark values. *)
Definition mark_matrix (g : graph) : res (list (list Z)) :=
  es <-? edges g ;;
  foldE (fun m e =>
    iu <-? py_index (node_u e) (node_list g) ;;
    iv <-? py_index (node_v e) (node_list g) ;;
    Ok (mat_set (mat_set m iu iv (mark_value (mark_u e))) iv iu (mark_value (mark_v e))))
    (zeros (number_of_nodes g)) es.

(** ges.py:80, [Gs[np.ix_(subnode, subnode)]]. *)
Definition np_ix (n : nat) (m : list (list Z)) (s : list nat) : res (list (list Z)) :=
  if forallb (fun a => Nat.ltb a n) s
  then Ok (map (fun a => map (fun b => mat_get m a b) s) s) else Err IndexError.

(** All index pairs of an n x n matrix, row by row. *)
Definition cells (n : nat) : list (nat * nat) := list_prod (seq 0 n) (seq 0 n).

(** ges.py:86-88: every 1 becomes -1 together with its mirror entry. *)
Definition drop_direction (ns : nat) (m : list (list Z)) : list (list Z) :=
  let rc := filter (fun p => Z.eqb (mat_get m (fst p) (snd p)) 1) (cells ns) in
  let m1 := fold_left (fun a p => mat_set a (fst p) (snd p) (-1)%Z) rc m in
  fold_left (fun a p => mat_set a (snd p) (fst p) (-1)%Z) rc m1.

(** ges.py:71-93 (check_clique); [true] stands for 1. *)
Definition check_clique (g : graph) (subnode : list nat) : res bool :=
  m <-? mark_matrix g ;;
  gs <-? np_ix (number_of_nodes g) m subnode ;;
  let ns := length subnode in
  if Nat.eqb ns 0 then Ok true
  else let gs' := drop_direction ns gs in
       Ok (forallb (fun p => Z.eqb (mat_get gs' (fst p) (snd p))
                               (if Nat.eqb (fst p) (snd p) then 0 else -1)) (cells ns)).

(** ges.py:58-68 (Insert_validity_test1). *)
Definition Insert_validity_test1 (g : graph) (i j : nat) (T : list nat) : res bool :=
  na <-? na_yx g i j ;; check_clique g (np_union1d na T).

(** ges.py:140-141: the nodes reached by one step from the node with index x. *)
Definition semi_children (g : graph) (x : nat) : res (list nat) :=
  a <-? np_where (number_of_nodes g) (fun k => at_nodes is_arrow g x k) ;;
  t <-? tails_at g x ;;
  Ok (a ++ t).

(** ges.py:122-157: one iteration of the [while] loop.  A stack entry
    [{'value': x, 'pa': ..}] is the pair of [x] and the list of the values met
    when following 'pa' (nearest first); the inner [while True] loops (128-135,
    146-153) walk that list.  [inl] = next stack, [inr] = the returned sign. *)
Definition path_step (g : graph) (target : nat) (NAT : list nat) (stack : list (nat * list nat))
    : res (list (nat * list nat) + bool) :=
  match stack with
  | [] => Ok (inr true)
  | (x, pa) :: st =>
      if Nat.eqb x target then
        if existsb (fun y => memb y NAT) pa then Ok (inl st) else Ok (inr false)
      else
        cs <-? semi_children g x ;;
        Ok (inl (fold_left (fun st c => (c, x :: pa) :: st)
                           (filter (fun c => negb (memb c pa)) cs) st))
  end.

(** Up to 2^d iterations of a loop body (fuel in binary, so that the bound of
    the next definition stays small). *)
Fixpoint iterate {A B} (d : nat) (step : A -> res (A + B)) (a : A) : res (A + B) :=
  match d with
  | 0 => step a
  | S d' => r <-? iterate d' step a ;;
            match r with inl a' => iterate d' step a' | inr b => Ok (inr b) end
  end.

(** ges.py:113-158 (Insert_vC2_new); the loop runs at most 2^((n+1)*(n+1))
    times, which is shown to be enough. *)
Definition Insert_vC2_new (g : graph) (j i : nat) (NAT : list nat) : res bool :=
  let n := number_of_nodes g in
  r <-? iterate (S n * S n) (path_step g i NAT) [(j, [])] ;;
  match r with inl _ => Err OutOfFuel | inr b => Ok b end.

(** ges.py:96-110 (Insert_validity_test2). *)
Definition Insert_validity_test2 (g : graph) (i j : nat) (T : list nat) : res bool :=
  na <-? na_yx g i j ;; Insert_vC2_new g j i (np_union1d na T).

(** ges.py:161-172 (find_subset_include); [true] stands for 1. *)
Definition find_subset_include (s0 : list nat) (sub : list (list nat)) : list bool :=
  if (Nat.eqb (length s0) 0 || Nat.eqb (length sub) 0)%bool then repeat true (length sub)
  else map (fun si =>
    let tmp := filter (fun x => memb x si) (py_set s0) in
    (Nat.ltb 0 (length tmp) && forallb (fun x => memb x tmp) s0 && forallb (fun x => memb x s0) tmp)%bool) sub.

(** One row of [record_local_score]: a list of numbers whose last element is a
    score; the other elements are parent indices, or the single marker -1. *)
Definition entry : Type := (list Z * Q)%type.
Definition memo : Type := list (list entry).

(** Membership in a list of integers. *)
Definition zmem (x : Z) (l : list Z) : bool := existsb (Z.eqb x) l.
(** [not np.setxor1d(a, b).size] and equality of Python sets of integers. *)
Definition same_set (a b : list Z) : bool :=
  (forallb (fun x => zmem x b) a && forallb (fun x => zmem x a) b)%bool.
Definition zs (l : list nat) : list Z := map Z.of_nat l.

(** ges.py:192-207 and 278-292: the search for two recorded scores. *)
Fixpoint find_scores (m1 m2 : list Z -> bool) (r : list entry) (a b : option Q) : option Q * option Q :=
  match r with
  | [] => (a, b)
  | (ps, s) :: r' =>
      let a' := if m1 ps then Some s else a in
      let b' := if m2 ps then Some s else b in
      match a', b' with Some _, Some _ => (a', b') | _, _ => find_scores m1 m2 r' a' b' end
  end.

(** [record_local_score[j].append(e)]. *)
Definition memo_add (m : memo) (j : nat) (e : entry) : memo := set_nth j (nth j m [] ++ [e]) m.

(** ges.py:188-225 and 274-309: the two scores from the table or from the
    score function.  [l1], [l2] are the parent lists passed to the score. *)
Definition changed_score (sf : lscore) (m : memo) (j : nat) (l1 l2 : list nat) : Q * memo :=
  let m1 ps := same_set ps (zs l1) in
  let m2 ps := (same_set ps (zs l2) || (same_set ps [(-1)%Z] && Nat.eqb (length l2) 0))%bool in
  let (f1, f2) := find_scores m1 m2 (nth j m []) None None in
  let (s1, ma) := match f1 with
                  | Some s => (s, m)
                  | None => (sf j l1, memo_add m j (zs l1, sf j l1))
                  end in
  let (s2, mb) := match f2 with
                  | Some s => (s, ma)
                  | None => (sf j l2, memo_add ma j (if Nat.eqb (length l2) 0 then [(-1)%Z] else zs l2, sf j l2))
                  end in
  ((s1 - s2)%Q, mb).

(** ges.py:175-227 (Insert_changed_score). *)
Definition Insert_changed_score (g : graph) (i j : nat) (T : list nat) (m : memo) (sf : lscore) : res (Q * memo) :=
  na <-? na_yx g i j ;;
  paj <-? parents_at g j ;;
  let tmp1 := np_union1d na T in
  let tmp2 := np_union1d tmp1 paj in
  let tmp3 := np_union1d tmp2 [i] in
  Ok (changed_score sf m j tmp3 tmp2).

(** ges.py:244-258 (Delete_validity_test).  [ord s] is the iteration order of
    the Python set [s] (line 253, [list(set(NA) - set(H))]). *)
Definition Delete_validity_test (ord : list nat -> list nat) (g : graph) (i j : nat) (H : list nat) : res bool :=
  na <-? na_yx g i j ;;
  check_clique g (ord (filter (fun x => negb (memb x H)) (py_set na))).

(** ges.py:261-311 (Delete_changed_score). *)
Definition Delete_changed_score (ord : list nat -> list nat) (g : graph) (i j : nat) (H : list nat)
    (m : memo) (sf : lscore) : res (Q * memo) :=
  na <-? na_yx g i j ;;
  pa <-? parents_at g j ;;
  let paj := np_union1d pa [i] in
  let tmp1 := filter (fun x => negb (memb x H)) (py_set na) in
  let tmp2 := set_union tmp1 (py_set paj) in
  let tmp3 := filter (fun x => negb (Nat.eqb x i)) tmp2 in
  Ok (changed_score sf m j (ord tmp3) (ord tmp2)).

(** The state of one scan: [record_local_score], [max_chscore], [max_ac], and
    the list of evaluated operators with their scores (not part of the code;
    it records the calls of the two _changed_score functions). *)
Record scan : Type := mkScan
  { sc_memo : memo; sc_max : Q; sc_ac : option (nat * nat * list nat);
    sc_evals : list (nat * nat * list nat * Q) }.

(** ges.py:463-467 and 512-516: compare with the best operator so far. *)
Definition consider (s : scan) (i j : nat) (T : list nat) (r : Q * memo) : scan :=
  let (ch, m) := r in
  let ev := sc_evals s ++ [(i, j, T, ch)] in
  if negb (Qle_bool ch (sc_max s)) then mkScan m ch (Some (i, j, T)) ev
  else mkScan m (sc_max s) (sc_ac s) ev.

(** ges.py:462, 470, 507: [S[np.where(Idx == 1)] = x]. *)
Fixpoint set_where (idx : list bool) (x : nat) (s : list nat) : list nat :=
  match idx, s with
  | b :: idx', y :: s' => (if b : bool then x else y) :: set_where idx' x s'
  | _, _ => s
  end.

(** ges.py:452-470: the body of the loop over the subsets, for subset number k. *)
Definition forward_subset (sf : lscore) (g : graph) (i j : nat) (sub : list (list nat))
    (st : list nat * scan) (k : nat) : res (list nat * scan) :=
  let (tab, s) := st in
  let T := nth k sub [] in
  if Nat.ltb (nth k tab 0) 2 then
    v1 <-? Insert_validity_test1 g i j T ;;
    if v1 : bool then
      v2 <-? (if Nat.eqb (nth k tab 0) 0 then Insert_validity_test2 g i j T else Ok true) ;;
      if v2 : bool then
        let tab' := set_where (find_subset_include T sub) 1 tab in
        r <-? Insert_changed_score g i j T (sc_memo s) sf ;;
        Ok (tab', consider s i j T r)
      else Ok (tab, s)
    else Ok (set_where (find_subset_include T sub) 2 tab, s)
  else Ok (tab, s).

(** ges.py:440-470: one pair of the forward phase. *)
Definition forward_pair (sf : lscore) (max_p : Q) (g : graph) (n : nat) (s : scan) (p : nat * nat) : res scan :=
  let (i, j) := p in
  c <-? at_nodes is_connected g i j ;;
  pa <-? parents_at g j ;;
  if (negb c && negb (Nat.eqb i j) && Qle_bool (inject_Z (Z.of_nat (length pa))) max_p)%bool then
    tj <-? tails_at g j ;;
    ti <-? adjacent_at g i ;;
    let nti := filter (fun x => negb (memb x ti)) (seq 0 n) in
    let t0 := np_intersect1d tj nti in
    let sub := Combinatorial t0 in
    r <-? foldE (forward_subset sf g i j sub) (repeat 0 (length sub), s) (seq 0 (length sub)) ;;
    Ok (snd r)
  else Ok s.

(** ges.py:501-516: the body of the loop over the subsets in the backward phase. *)
Definition backward_subset (ord : list nat -> list nat) (sf : lscore) (g : graph) (i j : nat)
    (sub : list (list nat)) (st : list nat * scan) (k : nat) : res (list nat * scan) :=
  let (tab, s) := st in
  let H := nth k sub [] in
  vt <-? (if Nat.eqb (nth k tab 0) 1 then
            v <-? Delete_validity_test ord g i j H ;;
            Ok (v, if v : bool then set_where (find_subset_include H sub) 2 tab else tab)
          else Ok (true, tab)) ;;
  let (v, tab') := vt in
  if v : bool then
    r <-? Delete_changed_score ord g i j H (sc_memo s) sf ;;
    Ok (tab', consider s i j H r)
  else Ok (tab', s).

(** ges.py:492-516: one pair of the backward phase. *)
Definition backward_pair (ord : list nat -> list nat) (sf : lscore) (g : graph) (s : scan) (p : nat * nat) : res scan :=
  let (i, j) := p in
  t1 <-? at_nodes is_tail g j i ;;
  t2 <-? at_nodes is_tail g i j ;;
  a <-? at_nodes is_arrow g i j ;;
  if ((t1 && t2) || a)%bool then
    h0 <-? na_yx g i j ;;
    let sub := Combinatorial h0 in
    r <-? foldE (backward_subset ord sf g i j sub) (repeat 1 (length sub), s) (seq 0 (length sub)) ;;
    Ok (snd r)
  else Ok s.

(** ges.py:436-437 and 488-489: the state in which a scan starts. *)
Definition start_scan (m : memo) : scan := mkScan m (inject_Z (-10000000)) None [].

(** ges.py:436-470 and 488-516: one scan over all ordered pairs. *)
Definition forward_scan (sf : lscore) (max_p : Q) (g : graph) (n : nat) (m : memo) : res scan :=
  foldE (forward_pair sf max_p g n) (start_scan m) (cells n).
Definition backward_scan (ord : list nat -> list nat) (sf : lscore) (g : graph) (n : nat) (m : memo) : res scan :=
  foldE (backward_pair ord sf g) (start_scan m) (cells n).

Open Scope meth_scope.

(** ges.py:230-241 (Insert). *)
Definition Insert (i j : nat) (T : list nat) : M unit :=
  xi <- query (fun g => node_at g i) ;;
  xj <- query (fun g => node_at g j) ;;
  add_edge (Edge xi xj Tail Arrow) true ;;;
  forM T (fun k =>
    t <- query (fun g => node_at g k) ;;
    e <- query (fun g => get_edge g t xj) ;;
    (match e with Some _ => remove_edge t xj | None => ret tt end) ;;;
    add_edge (Edge t xj Tail Arrow) true).

(** ges.py:314-327 (Delete). *)
Definition Delete (i j : nat) (H : list nat) : M unit :=
  xi <- query (fun g => node_at g i) ;;
  xj <- query (fun g => node_at g j) ;;
  e <- query (fun g => get_edge g xi xj) ;;
  (match e with Some _ => remove_edge xi xj | None => ret tt end) ;;;
  forM H (fun k =>
    h <- query (fun g => node_at g k) ;;
    e1 <- query (fun g => get_edge g xj h) ;;
    (match e1 with Some _ => remove_edge xj h | None => ret tt end) ;;;
    e2 <- query (fun g => get_edge g xi h) ;;
    (match e2 with Some _ => remove_edge xi h | None => ret tt end) ;;;
    add_edge (Edge xj h Tail Arrow) true ;;;
    add_edge (Edge xi h Tail Arrow) true).

Open Scope res_scope.

(** ges.py:423-424, 477-478, 523-524: [dag2cpdag(pdag2dag(G))].  [fuel] bounds
    the loop of pdag2dag; [order d] is the set iteration order inside dag2cpdag. *)
Definition rebuild (fuel : nat) (order : graph -> nat -> nat -> nat -> list nat) (g : graph) : res graph :=
  d <-? pdag2dag fuel g ;; dag2cpdag d (order d).

(** An accepted step of the search (a record kept by the model only): the graph
    before the step, the operator, its score, the graph after the step. *)
Record step : Type := mkStep
  { st_graph : graph; st_op : nat * nat * list nat; st_gain : Q; st_next : graph }.

(** ges.py:433-481 (with [ins] = true) and 486-528 ([ins] = false): a greedy
    phase.  The value is the last graph, [score], the table and the record of
    accepted steps. *)
Fixpoint greedy (rounds fuel : nat) (order : graph -> nat -> nat -> nat -> list nat)
    (do_scan : graph -> memo -> res scan) (apply : nat -> nat -> list nat -> M unit)
    (g : graph) (score : Q) (m : memo) : res (graph * Q * memo * list step) :=
  match rounds with
  | 0 => Err OutOfFuel
  | S r =>
      s <-? do_scan g m ;;
      match sc_ac s with
      | None => Ok (g, score, sc_memo s, [])
      | Some (i, j, T) =>
          let score_new := (score + sc_max s)%Q in
          if Qle_bool (score_new - score)%Q 0 then Ok (g, score, sc_memo s, [])
          else
            g1 <-? run_on (apply i j T) g ;;
            g2 <-? rebuild fuel order g1 ;;
            q <-? greedy r fuel order do_scan apply g2 score_new (sc_memo s) ;;
            let '(g', score', m', tr) := q in
            Ok (g', score', m', mkStep g (i, j, T) (sc_max s) g2 :: tr)
      end
  end.

(** ges.py:404-531 (GES.fit).  The node names "x0", "x1", ... are represented
    by 0, 1, ...  The value is the causal graph, the score, and the records of
    both phases. *)
Definition ges_fit (fuel : nat) (order : graph -> nat -> nat -> nat -> list nat) (ord : list nat -> list nat)
    (sf : lscore) (max_p : Q) (n : nat) : res (graph * Q * list step * list step) :=
  g <-? new_graph KPDAG (seq 0 n) ;;
  score <-? Score_G g sf ;;
  g0 <-? rebuild fuel order g ;;
  f <-? greedy (S (n * n)) fuel order (fun g m => forward_scan sf max_p g n m) Insert g0 score (repeat [] n) ;;
  let '(g1, score1, m1, tr1) := f in
  b <-? greedy (S (n * n)) fuel order (fun g m => backward_scan ord sf g n m) Delete g1 score1 m1 ;;
  let '(g2, score2, _, tr2) := b in
  Ok (g2, score2, tr1, tr2).

(** ges.py:388-390: the default bound on the number of parents. *)
Definition default_max_p (n : nat) : Q := (inject_Z (Z.of_nat n) / 2)%Q.
