(** Model of the merge phase and of the main loop in
    /repo/cdmir/discovery/funtional_based/LearningHierarchicalStructure:
    MergeCluster.py, Causal_Discovery_in_LHM.py, the function roll_back of
    UpdataData.py, the set functions of Utils.py and the conversion functions of
    MakeGraph.py.

    As in Model/LHS.v variables are numbers, [ord] lists a set in the order of
    Python's iteration and [vt] is the tetrad test on columns of data.  The
    lists AllCausalCluster and GeneralPureClusters are left out: they are
    written (Causal_Discovery_in_LHM.py:47-48, MergeCluster.py:147, 216-219),
    but no result depends on them, because roll_back does not use its argument
    and Orientation_Cluster (Orientation.py:8-9) is empty. *)

From Coq Require Import List Arith Bool.
From Verif Require Import Model.Py Model.LHS.
Import ListNotations.
Open Scope nat_scope.
Open Scope res_scope.

(* ---------- Utils.py ---------- *)
(** [set(a) <= set(b)] and [set(a) == set(b)]. *)
Definition set_leb (a b : list nat) : bool := forallb (fun x => memb x b) a.
Definition set_eqb (a b : list nat) : bool := set_leb a b && set_leb b a.

(** Utils.py:57-63 (GeneralSetContains). *)
Definition set_contains (S1 : list nat) (Sets : list (list nat)) : bool := existsb (set_eqb S1) Sets.

(** Utils.py:15-21 (GetEarlyLearningByDic) and 24-31 (GeneralDicContains): the
    first key whose value is the set [S1]; [None] stands for the empty string
    and for [False]. *)
Fixpoint early_by_dic (S1 : list nat) (dic : list (nat * list nat)) : option nat :=
  match dic with
  | [] => None
  | (L, S2) :: r => if set_eqb S1 S2 then Some L else early_by_dic S1 r
  end.

(* ---------- UpdataData.py:13-84 (roll_back) ---------- *)
(** A loop that collects results; the first exception stops it. *)
Fixpoint map_res {A B} (f : A -> res B) (l : list A) : res (list B) :=
  match l with
  | [] => Ok []
  | a :: r => b <-? f a ;; bs <-? map_res f r ;; Ok (b :: bs)
  end.

(** UpdataData.py:30-33: the union of the pure clusters inside [LM]. *)
Definition pure_part (LM : list nat) (pure : list (list nat)) : list nat :=
  fold_left (fun acc S => if set_leb S LM then set_union acc (py_set S) else acc) pure [].

(** The number of steps allowed to GetObservedForLatent: a longer walk meets a
    latent variable twice, and then the Python loop never ends. *)
Definition walk_fuel (latent : list (nat * list nat)) : nat := S (length latent).

(** UpdataData.py:13-84: the data without the latent variable [L] but with observed
    variables for its pure members, and the first two of these. *)
Definition roll_back (ord : list nat -> list nat) (ora : frame) (latent : list (nat * list nat)) (pure : list (list nat))
    (d : frame) (L : nat) : res (frame * list nat) :=
  match dget Nat.eqb latent L with
  | None => Err SystemExit
  | Some LM =>
      let LPure := ord (pure_part LM pure) in
      let Lobserved := filter (fun s => memb s (columns ora)) LPure in
      let LL := filter (fun s => negb (memb s (columns ora))) LPure in
      LLObserved <-? map_res (get_observed (walk_fuel latent) latent (columns ora)) LL ;;
      let names := Lobserved ++ LLObserved in
      sel <-? select ora names ;;
      if memb L (columns (d ++ sel)) then
        match names with
        | a :: b :: _ => Ok (filter (fun p => negb (Nat.eqb (fst p) L)) (d ++ sel), [a; b])
        | _ => Err IndexError
        end
      else Err KeyError
  end.

(* ---------- the merge rules ---------- *)
(** MergeCluster.py:308-343 (TestImpureWithImpure). *)
Definition test_II (ord : list nat -> list nat) (vt : nat -> nat -> nat -> nat -> bool) (C1 C2 : list nat) (d : frame) : res bool :=
  let indexs := set_minus (set_minus (py_set (columns d)) C1) C2 in
  match C1, C2 with
  | vi :: _, vj :: _ => all_res (fun s : nat * nat => vanishes vt d vi vj (fst s) (snd s)) (comb2 (ord indexs))
  | _, _ => Err IndexError
  end.

(** MergeCluster.py:377-414 (TestPureWithImpure). *)
Definition test_PI (ord : list nat -> list nat) (vt : nat -> nat -> nat -> nat -> bool) (C1 C2 : list nat) (d : frame) : res bool :=
  let indexs := set_minus (set_minus (py_set (columns d)) C1) C2 in
  match C1, C2 with
  | vi :: vj :: _, vk :: _ => all_res (fun s => vanishes vt d vi vk vj s) (ord indexs)
  | _, _ => Err IndexError
  end.

(** MergeCluster.py:346-373 (TestPureWithPure).  The three tests of the first
    branch are all carried out. *)
Definition test_PP (ord : list nat -> list nat) (vt : nat -> nat -> nat -> nat -> bool) (C1 C2 : list nat) (d : frame) : res bool :=
  match C1, C2 with
  | vi :: vj :: _, vk :: vs :: _ =>
      f1 <-? vanishes vt d vi vk vj vs ;; f2 <-? vanishes vt d vi vj vk vs ;; f3 <-? vanishes vt d vi vs vj vk ;;
      Ok (f1 && f2 && f3)
  | vi :: vj :: _, [vk] => all_res (fun s => vanishes vt d vi vk vj s) (ord (set_minus (set_minus (py_set (columns d)) C1) C2))
  | _, _ => Err IndexError
  end.

(* ---------- early learning ---------- *)
(** Everything that stays the same during a run: the order of sets, the test,
    the names of latent variables, the observed data and its number of rows. *)
Record setting : Type := Setting {
  g_ord : list nat -> list nat;
  g_vt : nat -> nat -> nat -> nat -> bool;
  g_lname : nat -> nat;
  g_ora : frame;
  g_rows : nat
}.

(** MergeCluster.py:224-240 (OutterEarlyLearning): the first remaining latent
    variable that passes; [len(tdata)] is the number of rows. *)
Fixpoint outer_loop (G : setting) (Rs C : list nat) (d : frame) (latent : list (nat * list nat)) (pure : list (list nat)) : res (option nat) :=
  match Rs with
  | [] => Ok None
  | L :: r =>
      if memb L (dkeys latent) then
        rb <-? roll_back (g_ord G) (g_ora G) latent pure d L ;;
        if Nat.ltb (g_rows G) 4 then outer_loop G r C d latent pure
        else
          b <-? test_PI (g_ord G) (g_vt G) (snd rb) C (fst rb) ;;
          if b then Ok (Some L) else outer_loop G r C d latent pure
      else outer_loop G r C d latent pure
  end.
Definition outer_early (G : setting) (rem C : list nat) (d : frame) (latent : list (nat * list nat)) (pure : list (list nat)) : res (option nat) :=
  outer_loop G (g_ord G rem) C d latent pure.

(** MergeCluster.py:245-304 (Inner_EarlyLearning): the first member [L] of [C] that is
    a latent variable and passes; [Ls] are the members still to be tried. *)
Fixpoint inner_loop (G : setting) (Ls C : list nat) (d : frame) (latent : list (nat * list nat)) (pure : list (list nat)) : res (option nat) :=
  match Ls with
  | [] => Ok None
  | L :: r =>
      if memb L (dkeys latent) then
        let TC := lremove L C in
        rb <-? roll_back (g_ord G) (g_ora G) latent pure d L ;;
        if Nat.ltb (g_rows G) 4 then inner_loop G r C d latent pure
        else
          b <-? (if set_contains C pure || set_contains TC pure
                 then test_PP (g_ord G) (g_vt G) (snd rb) TC (fst rb)
                 else test_PI (g_ord G) (g_vt G) (snd rb) TC (fst rb)) ;;
          if b then Ok (Some L) else inner_loop G r C d latent pure
      else inner_loop G r C d latent pure
  end.
Definition inner_early (G : setting) (C : list nat) (d : frame) (latent : list (nat * list nat)) (pure : list (list nat)) : res (option nat) :=
  inner_loop G C C d latent pure.

(** MergeCluster.py:66-80: the dictionaries InnerELClusters and OutterELClusters. *)
Fixpoint early_dicts (G : setting) (Cs : list (list nat)) (rem : list nat) (d : frame) (latent : list (nat * list nat))
    (pure impure : list (list nat)) (inner outer : list (nat * list nat)) : res (list (nat * list nat) * list (nat * list nat)) :=
  match Cs with
  | [] => Ok (inner, outer)
  | C :: r =>
      o <-? (if set_contains C impure then outer_early G rem C d latent pure else Ok None) ;;
      match o with
      | Some L => early_dicts G r rem d latent pure impure inner (dset Nat.eqb outer L C)
      | None =>
          i <-? inner_early G C d latent pure ;;
          match i with
          | Some L => early_dicts G r rem d latent pure impure (dset Nat.eqb inner L C) outer
          | None => early_dicts G r rem d latent pure impure inner outer
          end
      end
  end.

(* ---------- MergeCausalCluster ---------- *)
(** MergeCluster.py:195-221 (UpdateLatentIndex).  For an unknown latent variable
    line 207 returns one value where the callers unpack two. *)
Definition update_latent (ord : list nat -> list nat) (L : nat) (C : list nat) (latent : list (nat * list nat)) : res (list (nat * list nat)) :=
  match dget Nat.eqb latent L with
  | None => Err ValueError
  | Some T => Ok (dset Nat.eqb latent L (ord (set_union (py_set T) (py_set (lremove L C)))))
  end.

(** MergeCluster.py:90-98: do [C1] and [C2] share a latent parent? *)
Definition merge_test (G : setting) (d : frame) (pure impure : list (list nat)) (C1 C2 : list nat) : res bool :=
  if set_contains C1 pure && set_contains C2 pure then Ok false
  else if set_contains C1 impure && set_contains C2 impure then test_II (g_ord G) (g_vt G) C1 C2 d
  else if set_contains C1 pure && set_contains C2 impure then test_PI (g_ord G) (g_vt G) C1 C2 d
  else if set_contains C1 impure && set_contains C2 pure then test_PI (g_ord G) (g_vt G) C2 C1 d
  else Ok false.

(** MergeCluster.py:88-105: HopetoMerge. *)
Fixpoint hope_to_merge (G : setting) (d : frame) (pure impure : list (list nat)) (C1 : list nat) (Cs : list (list nat)) : res (list (list nat)) :=
  match Cs with
  | [] => Ok []
  | C2 :: r =>
      b <-? merge_test G d pure impure C1 C2 ;;
      hs <-? hope_to_merge G d pure impure C1 r ;;
      Ok (if b then C2 :: hs else hs)
  end.

(** MergeCluster.py:113-116, 122-125: inner early learning first. *)
Definition early_latent (inner outer : list (nat * list nat)) (C : list nat) : option nat :=
  match early_by_dic C inner with
  | Some L => Some L
  | None => early_by_dic C outer
  end.

(** MergeCluster.py:128-129: [if C2 in LearnedClusters: LearnedClusters.remove(C2)]. *)
Definition drop_cluster (Ls : list (list nat)) (C : list nat) : list (list nat) :=
  match remove_cluster C Ls with Ok r => r | Err _ => Ls end.

(** What MergeCausalCluster returns (MergeCluster.py:191-192): the merged clusters, the
    impure clusters left alone, the early learned ones (the latent variable
    first), the pure ones, the remaining variables and the latent index. *)
Record merged : Type := Merged {
  m_merge : list (list nat);
  m_eimp : list (list nat);
  m_erem : list (list nat);
  m_pure : list (list nat);
  m_rem : list nat;
  m_latent : list (nat * list nat)
}.

(** MergeCluster.py:136-150: the early learned clusters among [TH] are moved below their
    latent variable, which takes their place.  Second component: the lists of
    line 154. *)
Fixpoint early_updates (ord : list nat -> list nat) (inner outer : list (nat * list nat)) (TH : list (list nat)) (m : merged) :
    res (merged * list (list nat)) :=
  match TH with
  | [] => Ok (m, [])
  | C :: r =>
      match early_latent inner outer C with
      | None => q <-? early_updates ord inner outer r m ;; Ok (fst q, C :: snd q)
      | Some L =>
          lat <-? update_latent ord L C (m_latent m) ;;
          q <-? early_updates ord inner outer r
                 (Merged (m_merge m) (m_eimp m) (m_erem m ++ [L :: lremove L C]) (m_pure m) (set_minus (m_rem m) [L]) lat) ;;
          Ok (fst q, [L] :: snd q)
      end
  end.

(** MergeCluster.py:158-189: a cluster that is not merged.  In the branch of inner
    early learning line 165 removes the latent variable from the cluster. *)
Definition single (ord : list nat -> list nat) (inner outer : list (nat * list nat)) (pure impure : list (list nat)) (C1 : list nat) (m : merged) : res merged :=
  match early_by_dic C1 inner with
  | Some L =>
      if memb L C1 then
        lat <-? update_latent ord L C1 (m_latent m) ;;
        Ok (Merged (m_merge m) (m_eimp m) (m_erem m ++ [L :: lremove L C1]) (m_pure m) (m_rem m) lat)
      else Err ValueError
  | None =>
      match early_by_dic C1 outer with
      | Some L =>
          lat <-? update_latent ord L C1 (m_latent m) ;;
          Ok (Merged (m_merge m) (m_eimp m) (m_erem m ++ [L :: C1]) (m_pure m) (m_rem m) lat)
      | None =>
          Ok (if set_contains C1 pure then Merged (m_merge m) (m_eimp m) (m_erem m) (m_pure m ++ [C1]) (m_rem m) (m_latent m)
              else if set_contains C1 impure then Merged (m_merge m) (m_eimp m ++ [C1]) (m_erem m) (m_pure m) (m_rem m) (m_latent m)
              else m)
      end
  end.

(** MergeCluster.py:85-189: the loop over the learned clusters, the last one first.  Each
    round removes at least one, so their number is enough fuel. *)
Fixpoint merge_loop (fuel : nat) (G : setting) (d : frame) (pure impure : list (list nat)) (inner outer : list (nat * list nat))
    (Ls : list (list nat)) (m : merged) : res merged :=
  match Ls with
  | [] => Ok m
  | _ =>
      match fuel with
      | 0 => Err OutOfFuel
      | S f =>
          let C1 := last Ls [] in
          let rest := removelast Ls in
          H <-? hope_to_merge G d pure impure C1 rest ;;
          match H with
          | [] =>
              m' <-? single (g_ord G) inner outer pure impure C1 m ;;
              merge_loop f G d pure impure inner outer rest m'
          | _ =>
              q <-? early_updates (g_ord G) inner outer (C1 :: H) m ;;
              let m' := fst q in
              merge_loop f G d pure impure inner outer (fold_left drop_cluster H rest)
                (Merged (m_merge m' ++ [g_ord G (py_set (concat (snd q)))]) (m_eimp m') (m_erem m') (m_pure m') (m_rem m') (m_latent m'))
          end
      end
  end.

(** MergeCluster.py:42-51: the variables in no cluster; none when there is no cluster. *)
Definition remaining (d : frame) (Ls : list (list nat)) : list nat :=
  match Ls with
  | [] => []
  | _ => fold_left set_minus Ls (py_set (columns d))
  end.

(** MergeCluster.py:10-192 (MergeCausalCluster), with the new list of impure
    clusters (line 50). *)
Definition merge_causal_cluster (G : setting) (Ls pure impure : list (list nat)) (latent : list (nat * list nat)) (d : frame) :
    res (merged * list (list nat)) :=
  let impure' := match Ls with [] => impure ++ [columns d] | _ => impure end in
  let rem := remaining d Ls in
  e <-? early_dicts G Ls rem d latent pure impure' [] [] ;;
  m <-? merge_loop (length Ls) G d pure impure' (fst e) (snd e) Ls (Merged [] [] [] [] rem latent) ;;
  Ok (m, impure').

(* ---------- Causal_Discovery_in_LHM.py ---------- *)
(** The variables of the main loop (Causal_Discovery_in_LHM.py:27-36). *)
Record state : Type := State {
  s_data : frame;
  s_pure : list (list nat);
  s_impure : list (list nat);
  s_latent : list (nat * list nat);
  s_num : nat
}.

(** Causal_Discovery_in_LHM.py:27-36. *)
Definition start (G : setting) : state := State (g_ora G) [] [] [] 1.

(** Causal_Discovery_in_LHM.py:40-87: one round.  [true] with the state after
    [break]; [false] when the loop goes on.  [len(data)] in line 81 is the number
    of rows, which no round changes. *)
Definition lhm_round (G : setting) (s : state) : res (bool * state) :=
  f <-? find_causal_cluster (g_ord G) (g_vt G) (s_data s) (s_pure s) (s_impure s) ;;
  match f with
  | (Ls, pure, impure, _) =>
      r <-? merge_causal_cluster G Ls pure impure (s_latent s) (s_data s) ;;
      let (m, impure') := r in
      let go :=
        u <-? update_data (g_ord G) (g_lname G) (m_merge m) (m_erem m) (m_pure m) (s_num s) (m_latent m) (s_data s) ;;
        match u with
        | (d', k', latent') => Ok (Nat.leb (g_rows G) 1, State d' pure impure' latent' k')
        end in
      if Nat.eqb (length (m_merge m)) 0 && Nat.eqb (length (m_pure m)) 0 then
        if Nat.eqb (length (m_rem m)) 0 && negb (Nat.eqb (length (m_eimp m)) 0) then Err SystemExit
        else if Nat.leb (length (m_rem m)) 3 then Ok (true, State (s_data s) pure impure' (m_latent m) (s_num s))
        else go
      else go
  end.

(** Causal_Discovery_in_LHM.py:38-87: the loop, on fuel. *)
Fixpoint lhm_loop (fuel : nat) (G : setting) (s : state) : res state :=
  match fuel with
  | 0 => Err OutOfFuel
  | S f => r <-? lhm_round G s ;; if fst r then Ok (snd r) else lhm_loop f G (snd r)
  end.

(* ---------- MakeGraph.py ---------- *)
(** MakeGraph.py:94-99: the later members [js] of an impure cluster become members of [L]. *)
Definition add_later (ord : list nat -> list nat) (L : nat) (latent : list (nat * list nat)) (js : list nat) : list (nat * list nat) :=
  fold_left (fun lat j =>
    match dget Nat.eqb lat L with
    | None => lat
    | Some Clu => if memb j Clu then lat else dset Nat.eqb lat L (ord (set_union (py_set Clu) [j]))
    end) js latent.

(** MakeGraph.py:90-99: one impure cluster. *)
Fixpoint tran_cluster (ord : list nat -> list nat) (C : list nat) (latent : list (nat * list nat)) : list (nat * list nat) :=
  match C with
  | [] => latent
  | L :: r => tran_cluster ord r (if memb L (dkeys latent) then add_later ord L latent r else latent)
  end.

(** MakeGraph.py:88-102 (tranImpureToLatentIndex). *)
Definition tran_impure (ord : list nat -> list nat) (latent : list (nat * list nat)) (impure : list (list nat)) : list (nat * list nat) :=
  fold_left (fun lat C => tran_cluster ord C lat) impure latent.

(** Causal_Discovery_in_LHM.py:38-89: the latent index whose graph is drawn
    (MakeGraph.py:105-107; the drawing itself is not modelled). *)
Definition lhm_graph (fuel : nat) (G : setting) : res (list (nat * list nat)) :=
  s <-? lhm_loop fuel G (start G) ;; Ok (tran_impure (g_ord G) (s_latent s) (s_impure s)).
