(** Model of /repo/cdmir/discovery/funtional_based/LearningHierarchicalStructure:
    Overlap_Merge.py, Utils.py, TetradMethod.py, FindCausalCluster.py,
    UpdataData.py and Infer_Causal_Order.py.

    Variable names are natural numbers.  The order in which Python iterates over
    a set is not specified; it is the function argument [ord], which returns
    some listing of the set.  Statistical tests are function arguments. *)

From Coq Require Import List Arith Bool QArith.
From Verif Require Import Model.Py.
Import ListNotations.
Open Scope nat_scope.
Open Scope res_scope.

(* ---------- Overlap_Merge.py ---------- *)
(** [sorted(s)] for a set of names (Overlap_Merge.py:28, 31). *)
Fixpoint insert_sorted (x : nat) (l : list nat) : list nat :=
  match l with
  | [] => [x]
  | y :: r => if Nat.leb x y then x :: l else y :: insert_sorted x r
  end.
Definition py_sorted (l : list nat) : list nat := fold_right insert_sorted [] l.

(** [s.intersection(t)] is not empty (Overlap_Merge.py:18). *)
Definition intersects (s t : list nat) : bool := existsb (fun x => memb x t) s.

(** [result.setdefault(k, set()).add(v)] (Overlap_Merge.py:58-59). *)
Definition add_neighbour (g : list (nat * list nat)) (k v : nat) : list (nat * list nat) :=
  match dget Nat.eqb g k with
  | None => dset Nat.eqb g k [v]
  | Some s => dset Nat.eqb g k (if memb v s then s else s ++ [v])
  end.

(** Overlap_Merge.py:55-60 (graph). *)
Definition om_graph (edges : list (nat * nat)) : list (nat * list nat) :=
  fold_left (fun g (e : nat * nat) => add_neighbour (add_neighbour g (fst e) (snd e)) (snd e) (fst e)) edges [].

(** [s - t] for sets. *)
Definition set_minus (s t : list nat) : list nat := filter (fun x => negb (memb x t)) s.

(** Overlap_Merge.py:36-43 (bfs); the loop runs on fuel. *)
Fixpoint om_bfs (fuel : nat) (ord : list nat -> list nat) (g : list (nat * list nat)) (visited queue : list nat) : res (list nat) :=
  match queue with
  | [] => Ok visited
  | v :: q =>
      match fuel with
      | 0 => Err OutOfFuel
      | S f =>
          if memb v visited then om_bfs f ord g visited q
          else
            let visited' := visited ++ [v] in
            nb <-? dgetE Nat.eqb g v ;;
            om_bfs f ord g visited' (q ++ ord (set_minus nb visited'))
      end
  end.

(** Enough fuel for [om_bfs]: one more than the number of adjacencies. *)
Definition om_fuel (g : list (nat * list nat)) : nat := S (list_sum (map (fun p => length (snd p)) g)).

(** Overlap_Merge.py:46-52 (connected_components). *)
Fixpoint om_components (ord : list nat -> list nat) (g : list (nat * list nat)) (keys seen : list nat) : res (list (list nat)) :=
  match keys with
  | [] => Ok []
  | v :: r =>
      if memb v seen then om_components ord g r seen
      else
        c <-? om_bfs (om_fuel g) ord g [] [v] ;;
        cs <-? om_components ord g r (set_union seen c) ;;
        Ok (c :: cs)
  end.

(** Overlap_Merge.py:11-33 (merge_list). *)
Definition merge_list (ord : list nat -> list nat) (L2 : list (list nat)) : res (list (list nat)) :=
  let s := map py_set L2 in
  let n := length s in
  let edges := filter (fun p : nat * nat => intersects (nth (fst p) s []) (nth (snd p) s [])) (comb2 (seq 0 n)) in
  let G := om_graph edges in
  cs <-? om_components ord G (dkeys G) [] ;;
  let unions := map (fun c => py_sorted (py_set (concat (map (fun i => nth i s []) c)))) cs in
  let unassigned := fold_left (fun u c => filter (fun i => negb (memb i c)) u) cs (seq 0 n) in
  Ok (unions ++ map (fun i => py_sorted (nth i s [])) unassigned).

(* ---------- data frames ---------- *)
(** A pandas data frame: the column names with the data behind them.  A column
    of data is represented by a number that identifies it.  Duplicate names are
    not modelled: a lookup returns the first column of the name. *)
Definition frame : Type := list (nat * nat).

(** [data[v]]; KeyError for an unknown name. *)
Definition col (d : frame) (v : nat) : res nat := dgetE Nat.eqb d v.

(** [list(data.columns)]. *)
Definition columns (d : frame) : list nat := dkeys d.

(** [data[names]]: the selected columns. *)
Fixpoint select (d : frame) (names : list nat) : res frame :=
  match names with
  | [] => Ok []
  | v :: r => c <-? col d v ;; cs <-? select d r ;; Ok ((v, c) :: cs)
  end.

(* ---------- TetradMethod.py ---------- *)
(** A loop that stops at the first false (TetradMethod.py:33-54) or the first
    true (79-89) result. *)
Fixpoint all_res {A} (f : A -> res bool) (l : list A) : res bool :=
  match l with
  | [] => Ok true
  | a :: r => b <-? f a ;; if b then all_res f r else Ok false
  end.
Fixpoint any_res {A} (f : A -> res bool) (l : list A) : res bool :=
  match l with
  | [] => Ok false
  | a :: r => b <-? f a ;; if b then Ok true else any_res f r
  end.

(** [VT.vanishes(data[a], data[b], data[c], data[d], alpha)] (VanishedTest.py:20-25);
    [vt] is the test on the columns. *)
Definition vanishes (vt : nat -> nat -> nat -> nat -> bool) (d : frame) (a b c e : nat) : res bool :=
  xa <-? col d a ;; xb <-? col d b ;; xc <-? col d c ;; xe <-? col d e ;; Ok (vt xa xb xc xe).

(** TetradMethod.py:33-54 (CheckCausalCluster). *)
Definition check_cluster (ord : list nat -> list nat) (vt : nat -> nat -> nat -> nat -> bool) (C : list nat) (d : frame) : res bool :=
  let indexs := set_minus (py_set (columns d)) C in
  if Nat.ltb (length indexs) 2 then Ok false
  else all_res (fun s : nat * nat => all_res (fun s2 : nat * nat => vanishes vt d (fst s) (snd s) (fst s2) (snd s2)) (comb2 (ord indexs))) (comb2 C).

(** TetradMethod.py:73-89 (JudgePureCluster). *)
Definition judge_pure (ord : list nat -> list nat) (vt : nat -> nat -> nat -> nat -> bool) (C : list nat) (d : frame) : res bool :=
  match C with
  | vi :: vj :: _ =>
      let indexs := set_minus (py_set (columns d)) C in
      any_res (fun s : nat * nat => vanishes vt d vi (fst s) vj (snd s)) (comb2 (ord indexs))
  | _ => Err IndexError
  end.

(* ---------- FindCausalCluster.py ---------- *)
(** FindCausalCluster.py:39-43: the pairs that pass the test; [B] loses their members.  The
    list of pairs is fixed before the loop. *)
Fixpoint find_pairs (check : list nat -> res bool) (ps : list (nat * nat)) (B : list nat) : res (list (list nat) * list nat) :=
  match ps with
  | [] => Ok ([], B)
  | p :: r =>
      b <-? check [fst p; snd p] ;;
      q <-? find_pairs check r (if b then set_minus B [fst p; snd p] else B) ;;
      Ok (if b then [fst p; snd p] :: fst q else fst q, snd q)
  end.

(** FindCausalCluster.py:49-57: pure or impure. *)
Fixpoint split_pure (judge : list nat -> res bool) (Ls : list (list nat)) (P I : list (list nat)) : res (list (list nat) * list (list nat)) :=
  match Ls with
  | [] => Ok (P, I)
  | C :: r =>
      if Nat.ltb 2 (length C) then split_pure judge r (P ++ [C]) I
      else
        b <-? judge C ;;
        if b then split_pure judge r (P ++ [C]) I else split_pure judge r P (I ++ [C])
  end.

(** FindCausalCluster.py:61-66: one size; the combinations are those of the list [B] had before
    the loop. *)
Fixpoint find_sized (check : list nat -> res bool) (Ss : list (list nat)) (Ls I : list (list nat)) (B : list nat) :
    res (list (list nat) * list (list nat) * list nat) :=
  match Ss with
  | [] => Ok (Ls, I, B)
  | C :: r =>
      b <-? check C ;;
      if b then find_sized check r (Ls ++ [C]) (I ++ [C]) (set_minus B C)
      else find_sized check r Ls I B
  end.

(** FindCausalCluster.py:60-67: [while len(B) >= ClusterLength and len(indexs) > ClusterLength + 2]. *)
Fixpoint find_larger (fuel : nat) (ord : list nat -> list nat) (check : list nat -> res bool) (n len : nat)
    (Ls I : list (list nat)) (B : list nat) : res (list (list nat) * list (list nat)) :=
  if Nat.leb len (length B) && Nat.ltb (len + 2) n then
    match fuel with
    | 0 => Err OutOfFuel
    | S f =>
        r <-? find_sized check (combinations (ord B) len) Ls I B ;;
        find_larger f ord check n (S len) (fst (fst r)) (snd (fst r)) (snd r)
    end
  else Ok (Ls, I).

(** FindCausalCluster.py:11-69: the learned clusters, the pure, the impure ones
    and the pairs. *)
Definition find_causal_cluster (ord : list nat -> list nat) (vt : nat -> nat -> nat -> nat -> bool) (d : frame)
    (pure impure : list (list nat)) : res (list (list nat) * list (list nat) * list (list nat) * list (list nat)) :=
  let indexs := columns d in
  let check C := check_cluster ord vt C d in
  p <-? find_pairs check (comb2 indexs) indexs ;;
  Ls <-? merge_list ord (fst p) ;;
  pi <-? split_pure (fun C => judge_pure ord vt C d) Ls pure impure ;;
  r <-? find_larger (length indexs) ord check (length indexs) 3 Ls (snd pi) (snd p) ;;
  Ok (fst r, fst pi, snd r, fst p).

(* ---------- UpdataData.py ---------- *)
(** UpdataData.py:87-100 (GetObservedForLatent).  The inner loop looks for an observed
    member, but its result is overwritten by [L2 = Temp[0]]. *)
Fixpoint get_observed (fuel : nat) (latent : list (nat * list nat)) (observed : list nat) (L : nat) : res nat :=
  match dget Nat.eqb latent L with
  | None => Ok L
  | Some temp =>
      match fuel with
      | 0 => Err OutOfFuel
      | S f => match temp with [] => Err IndexError | x :: _ => get_observed f latent observed x end
      end
  end.

(** UpdataData.py:117-120: [C.remove(C[0])] of each cluster; [Removes] collects the rest. *)
Definition removed (Cs : list (list nat)) : res (list nat) :=
  fold_left (fun acc C => r <-? acc ;; match C with [] => Err IndexError | _ :: rest => Ok (r ++ rest) end) Cs (Ok []).

(** UpdataData.py:126-148: introduce a latent variable per cluster: its name, its
    members and its surrogate, the first member.  [lname k] is the name
    ['L' + str(k)]. *)
Fixpoint introduce (lname : nat -> nat) (Ss : list (list nat)) (k : nat) (latent : list (nat * list nat)) (sur names : list nat)
    (indexs : list nat) : res (nat * list (nat * list nat) * list nat * list nat * list nat) :=
  match Ss with
  | [] => Ok (k, latent, sur, names, indexs)
  | C :: r =>
      match C with
      | [] => Err IndexError
      | x :: _ => introduce lname r (k + 1) (dset Nat.eqb latent (lname k) C) (sur ++ [x]) (names ++ [lname k]) (set_minus indexs C)
      end
  end.

(** UpdataData.py:104-162 (UpdataData).  The columns are put together as the surrogates
    followed by the rest (line 156), but named as the rest followed by the
    latent names (lines 158-160). *)
Definition update_data (ord : list nat -> list nat) (lname : nat -> nat) (merge early pure : list (list nat)) (L_index : nat)
    (latent : list (nat * list nat)) (data : frame) : res (frame * nat * list (nat * list nat)) :=
  rm <-? removed early ;;
  let indexs0 := set_minus (py_set (columns data)) rm in
  st <-? introduce lname (merge ++ pure) L_index latent [] [] indexs0 ;;
  match st with
  | (k, latent', sur, names, indexs) =>
      tdata <-? select data sur ;;
      t2data <-? select data (ord indexs) ;;
      Ok (combine (ord indexs ++ names) (map snd (tdata ++ t2data)), k, latent')
  end.

(* ---------- Infer_Causal_Order.py ---------- *)
(** [l.remove(x)] for a list of clusters; ValueError when it is missing
    (Infer_Causal_Order.py:17, 32). *)
Definition cluster_eqb (a b : list nat) : bool := if list_eq_dec Nat.eq_dec a b then true else false.
Fixpoint remove_cluster (x : list nat) (l : list (list nat)) : res (list (list nat)) :=
  match l with
  | [] => Err ValueError
  | y :: r => if cluster_eqb x y then Ok r else r' <-? remove_cluster x r ;; Ok (y :: r')
  end.

(** GIN2.py:34-49 (GIN_MI): the mean of the mutual informations over [Z], which
    raises ZeroDivisionError when [Z] is empty (line 47; the covariance code of
    line 35 is not modelled); [mi] is the mean. *)
Definition gin_mi (mi : list nat -> list nat -> Q) (X Z : list nat) : res Q :=
  match Z with [] => Err ZeroDivisionError | _ => Ok (mi X Z) end.

(** [i < len(c) / 2] and [j < int(len(c) / 2)] (lines 39, 44, 50): the first
    half, the middle element included or not. *)
Definition first_half (c : list nat) : list nat := firstn ((length c + 1) / 2) c.
Definition second_half (c : list nat) : list nat := skipn ((length c + 1) / 2) c.

(** Infer_Causal_Order.py:35-53: the sets for the candidate [clu], the cluster [o] and the
    clusters [K] ordered so far. *)
Definition order_X (clu o : list nat) (K : list (list nat)) : list nat :=
  first_half clu ++ first_half o ++ concat (map (fun c => firstn (length c / 2) c) K).
Definition order_Z (clu : list nat) (K : list (list nat)) : list nat :=
  second_half clu ++ concat (map (fun c => skipn (length c / 2) c) K).

(** Infer_Causal_Order.py:33-58: the sum of the mutual informations for one candidate. *)
Fixpoint candidate_score (mi : list nat -> list nat -> Q) (clu : list nat) (others : list (list nat)) (K : list (list nat)) (acc : Q) : res Q :=
  match others with
  | [] => Ok acc
  | o :: r =>
      m <-? gin_mi mi (order_X clu o K) (order_Z clu K) ;;
      candidate_score mi clu r K (acc + m)%Q
  end.

(** Infer_Causal_Order.py:29-59: the scores of all candidates. *)
Fixpoint candidate_scores (mi : list nat -> list nat -> Q) (cands all : list (list nat)) (K : list (list nat)) : res (list Q) :=
  match cands with
  | [] => Ok []
  | c :: r =>
      others <-? remove_cluster c all ;;
      s <-? candidate_score mi c others K 0%Q ;;
      ss <-? candidate_scores mi r all K ;;
      Ok (s :: ss)
  end.

(** Infer_Causal_Order.py:61: [MIS.index(min(MIS))], the first position of the minimum. *)
Fixpoint argmin (best : Q) (bi i : nat) (l : list Q) : nat :=
  match l with
  | [] => bi
  | x :: r => if negb (Qle_bool best x) then argmin x i (S i) r else argmin best bi (S i) r
  end.

(** Infer_Causal_Order.py:22-63 (FindRoot); [min([])] raises ValueError. *)
Definition find_root (mi : list nat -> list nat -> Q) (cluster : list (list nat)) (K : list (list nat)) : res (list nat) :=
  if Nat.eqb (length cluster) 1 then Ok (nth 0 cluster [])
  else
    mis <-? candidate_scores mi cluster cluster K ;;
    match mis with
    | [] => Err ValueError
    | x :: r => Ok (nth (argmin x 0 1 r) cluster [])
    end.

(** Infer_Causal_Order.py:14-17: the loop, on fuel. *)
Fixpoint order_loop (fuel : nat) (mi : list nat -> list nat -> Q) (cluster K : list (list nat)) : res (list (list nat)) :=
  match cluster with
  | [] => Ok K
  | _ =>
      match fuel with
      | 0 => Err OutOfFuel
      | S f =>
          root <-? find_root mi cluster K ;;
          rest <-? remove_cluster root cluster ;;
          order_loop f mi rest (K ++ [root])
      end
  end.

(** Infer_Causal_Order.py:66-73 (GetCluster): the clusters of all keys. *)
Definition get_cluster (cluster : list (nat * list (list nat))) : list (list nat) := concat (map snd cluster).

(** Infer_Causal_Order.py:9-18 (LearnCausalOrder). *)
Definition learn_causal_order (mi : list nat -> list nat -> Q) (cluster : list (nat * list (list nat))) : res (list (list nat)) :=
  let cs := get_cluster cluster in order_loop (length cs) mi cs [].
