(** Model of /repo/cdmir/discovery/constraint/adjacency_search.py and pc.py.
    Log messages are not modelled. *)

From Coq Require Import List Arith Bool QArith.
From Verif Require Import Model.Py Model.Graph Model.DiGraph Model.PDAG.
Import ListNotations.
Open Scope meth_scope.

(** A call [indep_test.test(u, v, z)[0]]: a p-value or an exception.  p-values
    and alpha are rationals; NaN is not modelled. *)
Definition citest : Type := nat -> nat -> list nat -> res Q.

(** The record of calls made to the test object (what a wrapper around the
    test would see): first node, second node, conditioning tuple, p-value. *)
Definition tcall : Type := nat * nat * list nat * Q.

(** Loop-carried variables of adjacency_search: [remove_edges], [sep_set] and
    the record of calls. *)
Record search : Type := mkSearch
  { s_remove : list (nat * nat); s_sep : seps; s_calls : list tcall }.

(** adjacency_search.py:43-44 and 90-91: the two updates of [sep_set]. *)
Definition sep_both (sep : seps) (u v : nat) (z : list nat) : res seps :=
  (s1 <-? sep_add sep u v z ;; sep_add s1 v u z)%res.

(** adjacency_search.py:38-44. *)
Definition try_z (t : citest) (alpha : Q) (u v : nat) (st : search) (z : list nat) : M search :=
  p <- query (fun _ => t u v z) ;;
  let calls := s_calls st ++ [(u, v, z, p)] in
  if Qle_bool alpha p then
    sep <- query (fun _ => sep_both (s_sep st) u v z) ;;
    ret (mkSearch (s_remove st ++ [(u, v)]) sep calls)
  else ret (mkSearch (s_remove st) (s_sep st) calls).

(** adjacency_search.py:32-44: one ordered pair. *)
Definition try_pair (t : citest) (alpha : Q) (k : nat) (st : search) (p : nat * nat) : M search :=
  let (u, v) := p in
  c <- connectedM u v ;;
  if negb c then ret st else
  adj_u <- query (fun g => get_neighbours g u) ;;
  let adj_u := if memb v adj_u then lremove v adj_u else adj_u in
  foldM (try_z t alpha u v) st (combinations adj_u k).

(** adjacency_search.py:30-50: one conditioning size. *)
Definition search_level (t : citest) (alpha : Q) (names : list nat) (st : search) (k : nat) : M search :=
  st' <- foldM (try_pair t alpha k) (mkSearch [] (s_sep st) (s_calls st)) (perm2 names) ;;
  forM (s_remove st') (fun (p : nat * nat) =>
    let (u, v) := p in
    c <- connectedM u v ;; if c : bool then remove_edge u v else ret tt) ;;;
  ret st'.

(** adjacency_search.py:7-52 (adjacency_search): the graph, [sep_set] and the
    record of calls. *)
Definition adjacency_search (t : citest) (names : list nat) (alpha : Q) : res (graph * seps * list tcall) :=
  match new_graph KPDAG names with
  | Err e => Err e
  | Ok g0 =>
      match (create_complete_undirected_graph ;;;
             with_nodes (fun ns =>
               foldM (search_level t alpha names) (mkSearch [] (empty_seps ns) [])
                     (seq 0 (length names - 1)))) g0 with
      | (g, Ok st) => Ok (g, s_sep st, s_calls st)
      | (_, Err e) => Err e
      end
  end.

(** adjacency_search.py:82-92 (sep_search): [sep_result] holds only the third
    component, the first two are always [node_u, node_v].  The argument [adj]
    is consumed by [combinations] before the first test. *)
Definition fast_try (t : citest) (alpha : Q) (u v : nat) (s : option (list nat) * seps * list tcall)
    (z : list nat) : M (option (list nat) * seps * list tcall) :=
  let '(r, sep, calls) := s in
  p <- query (fun _ => t u v z) ;;
  let calls := calls ++ [(u, v, z, p)] in
  if Qle_bool alpha p then
    let r' := match r with None => py_set z | Some q => set_union q (py_set z) end in
    sep' <- query (fun _ => sep_both sep u v z) ;;
    ret (Some r', sep', calls)
  else ret (r, sep, calls).

(** adjacency_search.py:78-105: one pair of the live edge listing.  Lines
    99-100 zip two generators over [g.edges]; both look at the same pair in the
    same state, so a pair is handled when it is connected at that moment. *)
Definition fast_pair (t : citest) (alpha : Q) (k : nat) (s : seps * list tcall) (p : nat * nat)
    : M (seps * list tcall) :=
  let (u, v) := p in
  e <- query (fun g => get_edge g u v) ;;
  match e with
  | None => ret s
  | Some _ =>
      adj_u <- query (fun g => get_neighbours g u) ;;
      s1 <- foldM (fast_try t alpha u v) (None, fst s, snd s)
              (combinations (filter (fun x => negb (Nat.eqb x v)) adj_u) k) ;;
      adj_v <- query (fun g => get_neighbours g v) ;;
      s2 <- foldM (fast_try t alpha u v) s1
              (combinations (filter (fun x => negb (Nat.eqb x u)) adj_v) k) ;;
      let '(r, sep, calls) := s2 in
      match r with
      | None => ret (sep, calls)
      | Some q => remove_edge u v ;;;
                  sep' <- query (fun _ => sep_add sep u v q) ;;
                  ret (sep', calls)
      end
  end.

(** adjacency_search.py:55-106 (fast_adjacency_search). *)
Definition fast_adjacency_search (t : citest) (names : list nat) (alpha : Q) : res (graph * seps * list tcall) :=
  match new_graph KPDAG names with
  | Err e => Err e
  | Ok g0 =>
      match (create_complete_undirected_graph ;;;
             with_nodes (fun ns =>
               foldM (fun s k => with_nodes (fun ns' => foldM (fast_pair t alpha k) s (comb2 ns')))
                     (empty_seps ns, []) (seq 0 (length names - 1)))) g0 with
      | (g, Ok (sep, calls)) => Ok (g, sep, calls)
      | (_, Err e) => Err e
      end
  end.

(** pc.py:43-47 (PC.fit after the test object has been built): the skeleton,
    the causal graph and [sep_set]. *)
Definition pc_fit (adj_search : citest -> list nat -> Q -> res (graph * seps * list tcall))
    (t : citest) (names : list nat) (alpha : Q) : res (graph * graph * seps) :=
  match adj_search t names alpha with
  | Err e => Err e
  | Ok (g, sep, _) =>
      match run_on (rule0 sep ;;; orient_by_meek_rules) g with
      | Err e => Err e
      | Ok cg => Ok (g, cg, sep)
      end
  end.
