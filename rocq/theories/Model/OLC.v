(** Model of /repo/cdmir/discovery/funtional_based/one_component/olc.py.
    The control flow is transcribed; the numerical primitives are arguments,
    collected in [olc_num].  [olc_real] at the end fills in the real ones for the
    first two stages.  Not modelled: printing ([verbose]), and that
    the caller's array is overwritten (and truncated if its dtype is integer).
    NetworkX's NetworkXError is PyException. *)

From Coq Require Import List Arith Bool Reals.
From Verif Require Import Model.Py Model.LocalScore Model.KCI.
Import ListNotations.
Open Scope nat_scope.
Open Scope res_scope.

(** Numerical primitives, with the significance levels built in. *)
Record olc_num : Type := OlcNum {
  col : Type;                                     (* a column of data *)
  pvl : Type;                                     (* a p-value, possibly NaN *)
  num : Type;                                     (* an entry of A *)
  cal_pval : col -> col -> pvl;                   (* olc.py:59-60 *)
  pzero : pvl;                                    (* olc.py:143: pval = 0 *)
  ge_alpha : pvl -> bool;                         (* pval >= alpha *)
  ge_beta : pvl -> bool;                          (* pval >= beta *)
  residual : list col -> col -> col;              (* olc.py:73-74, 93-94: fit on the first, second minus intercept *)
  normal : col -> col;                            (* olc.py:12-13 *)
  fisher : list pvl -> pvl;                       (* olc.py:35-38 *)
  surrogate_reg : (nat -> col) -> (nat -> nat -> num) -> list nat -> list nat -> option nat -> option col;
                                                  (* olc.py:41-50; None: LinAlgError; last argument: z if mod_omega *)
  cov_data : (nat -> col) -> nat -> nat -> num;   (* olc.py:107 *)
  cov_two : col -> col -> num;                    (* np.cov(...)[0, 1] *)
  first_load : col -> col -> num;                 (* olc.py:230-234, of data[:, x] and e_z *)
  nzero : num;
  nsub : num -> num -> num; nmul : num -> num -> num; ndiv : num -> num -> num;
  small : num -> bool                             (* np.abs(a) < EPS *)
}.

(** UDG: unordered pairs, listed with the smaller node first. *)
Definition upair (x y : nat) : nat * nat := if Nat.leb x y then (x, y) else (y, x).
(** olc.py:71 etc.: [UDG.has_edge] / [CG.has_edge] membership of a pair. *)
Definition pmem (p : nat * nat) (l : list (nat * nat)) : bool :=
  existsb (fun q => Nat.eqb (fst q) (fst p) && Nat.eqb (snd q) (snd p)) l.
Definition has_edge (u : list (nat * nat)) (x y : nat) : bool := pmem (upair x y) u.
(** olc.py:80: [UDG.remove_edge]. *)
Definition remove_edge (u : list (nat * nat)) (x y : nat) : list (nat * nat) :=
  filter (fun q => negb (Nat.eqb (fst q) (fst (upair x y)) && Nat.eqb (snd q) (snd (upair x y)))) u.
(** olc.py:81: [CG.add_edge]. *)
Definition add_arc (g : list (nat * nat)) (x y : nat) : list (nat * nat) := if pmem (x, y) g then g else g ++ [(x, y)].
(** olc.py:90: [UDG.neighbors(x)]; edges are added in lexicographic order (line
    62-63) and only removed afterwards, so the neighbours come in increasing order. *)
Definition neighbors (n : nat) (u : list (nat * nat)) (x : nat) : list nat := filter (fun y => has_edge u x y) (seq 0 n).

(** itertools.combinations(l, 2) (olc.py:62, 134). *)
Fixpoint combos2 (l : list nat) : list (nat * nat) :=
  match l with [] => [] | x :: r => map (pair x) r ++ combos2 r end.
(** itertools.permutations(range(n), 2) (olc.py:70). *)
Definition perms2 (n : nat) : list (nat * nat) :=
  flat_map (fun x => map (pair x) (filter (fun y => negb (Nat.eqb y x)) (seq 0 n))) (seq 0 n).

(** [data[:, x] = c] (olc.py:82), [A[i, j] = v] (olc.py:157) and [s[x] |= {v}] (olc.py:177). *)
Definition set_col {C} (d : nat -> C) (x : nat) (c : C) : nat -> C := fun i => if Nat.eqb i x then c else d i.
Definition set_ent {C} (A : nat -> nat -> C) (x y : nat) (c : C) : nat -> nat -> C :=
  fun i j => if Nat.eqb i x && Nat.eqb j y then c else A i j.
Definition nmem (v : nat) (l : list nat) : bool := existsb (Nat.eqb v) l.
Definition set_add (s : nat -> list nat) (x v : nat) : nat -> list nat :=
  fun i => if Nat.eqb i x then (if nmem v (s i) then s i else s i ++ [v]) else s i.
(** Python's [&] and [|] on sets (olc.py:137, 205-208); duplicate free. *)
Definition inter (a b : list nat) : list nat := filter (fun v => nmem v b) a.
Definition union (a b : list nat) : list nat := a ++ filter (fun v => negb (nmem v a)) b.

Section Olc.
  Variable D : olc_num.
  (** Number of observed variables (olc.py:54). *)
  Variable n : nat.
  (** Iteration order of the sets turned into lists (olc.py:123, 137-138, 205-208). *)
  Variable ord : list nat -> list nat.

  (** ** Stage one: single parents (olc.py:67-84) *)

  Record stage : Type := Stage { s_udg : list (nat * nat); s_cg : list (nat * nat); s_data : nat -> col D; s_changed : bool }.

  (** olc.py:71-82: one pair of the inner loop. *)
  Definition step1 (s : stage) (p : nat * nat) : stage :=
    let (x, y) := p in
    if negb (has_edge (s_udg s) x y) then s
    else
      let res_x := residual D [s_data s y] (s_data s x) in
      if ge_alpha D (cal_pval D res_x (s_data s y))
      then Stage (remove_edge (s_udg s) x y) (add_arc (s_cg s) y x) (set_col (s_data s) x (normal D res_x)) true
      else s.

  Definition clear (s : stage) : stage := Stage (s_udg s) (s_cg s) (s_data s) false.

  (** olc.py:67-84: the while loop, on fuel. *)
  Fixpoint stage1 (fuel : nat) (s : stage) : res stage :=
    match fuel with
    | O => Err OutOfFuel
    | S f => let s' := fold_left step1 (perms2 n) (clear s) in
             if s_changed s' then stage1 f s' else Ok s'
    end.

  (** ** Stage two: sets of parents (olc.py:86-105) *)

  (** olc.py:90-105 for one x. *)
  Definition step2 (s : stage) (x : nat) : stage :=
    let adj := neighbors n (s_udg s) x in
    match adj with
    | [] => s
    | _ =>
      let e := residual D (map (s_data s) adj) (s_data s x) in
      if ge_alpha D (fisher D (map (fun y => cal_pval D e (s_data s y)) adj))
      then Stage (fold_left (fun u y => remove_edge u x y) adj (s_udg s)) (fold_left (fun g y => add_arc g y x) adj (s_cg s)) (s_data s) true
      else s
    end.

  (** olc.py:86-105: the while loop.  With a single variable the graph has no node
      and [UDG.neighbors(0)] raises NetworkXError. *)
  Fixpoint stage2 (fuel : nat) (s : stage) : res stage :=
    match fuel with
    | O => Err OutOfFuel
    | S f => if Nat.eqb n 1 then Err PyException
             else let s' := fold_left step2 (seq 0 n) (clear s) in
                  if s_changed s' then stage2 f s' else Ok s'
    end.

  (** ** Stage three: latent variables (olc.py:107-284) *)

  Record lat : Type := Lat {
    l_udg : list (nat * nat); l_cg : list (nat * nat);
    l_sur : nat -> list nat; l_exo : nat -> list nat;
    l_A : nat -> nat -> num D; l_orient : bool; l_latent : bool }.

  Variable data : nat -> col D.

  (** olc.py:139-143, 167-172, 249-254: regression, test against [data[:, y]];
      LinAlgError gives p-value 0. *)
  Definition sur_pval (A : nat -> nat -> num D) (X E : list nat) (y : nat) : pvl D :=
    match surrogate_reg D data A X E None with
    | Some e => cal_pval D e (data y)
    | None => pzero D
    end.

  (** olc.py:150-192: [k] attempts to orient, then the roles of x and y are exchanged. *)
  Fixpoint orient (k : nat) (cs ce : list nat) (x y : nat) (s : lat) : lat * nat * nat :=
    match k with
    | O => (s, x, y)
    | S k' =>
      let A0 := l_A s in
      let A1 := if small D (A0 x x)
                then set_ent A0 x x (fold_left (fun v i => nsub D v (nmul D (A0 x i) (A0 x i))) ce (cov_data D data x x)) else A0 in
      let A2 := if small D (A1 y x)
                then set_ent A1 y x (fold_left (fun v i => nsub D v (nmul D (A1 x i) (A1 y i))) ce (cov_data D data x y)) else A1 in
      if ge_beta D (sur_pval A2 (x :: y :: cs) (ce ++ [x]) x)
      then (Lat (remove_edge (l_udg s) x y) (add_arc (l_cg s) x y) (set_add (l_sur s) y x)
                (set_add (set_add (l_exo s) x x) y y) A2 true (l_latent s), x, y)
      else
        let A3 := if small D (A0 x x) then set_ent A2 x x (nzero D) else A2 in
        let A4 := if small D (A1 y x) then set_ent A3 y x (nzero D) else A3 in
        orient k' cs ce y x (Lat (l_udg s) (l_cg s) (l_sur s) (l_exo s) A4 (l_orient s) (l_latent s))
    end.

  (** olc.py:205-208: pairwise intersections of three sets. *)
  Definition shared (f : nat -> list nat) (x y z : nat) : list nat :=
    ord (union (union (inter (f x) (f y)) (inter (f x) (f z))) (inter (f y) (f z))).

  (** olc.py:201-282 for one z; [L = latent_id + n].  The flag says whether line
      275 leaves the loop. *)
  Definition try_latent (L x y z : nat) (s : lat) : res (lat * bool) :=
    let cs := shared (l_sur s) x y z in
    let ce := shared (l_exo s) x y z in
    let e_z := match cs with
               | [] => data z
               | _ => match surrogate_reg D data (l_A s) cs ce (Some z) with Some e => e | None => data z end
               end in
    if Nat.leb (2 * n) L then Err IndexError
    else
      let A0 := l_A s in
      let A1 := if small D (A0 z L)
                then set_ent A0 z L (if negb (small D (A0 x L)) then ndiv D (cov_two D e_z (data x)) (A0 x L)
                                     else if negb (small D (A0 y L)) then ndiv D (cov_two D e_z (data y)) (A0 y L)
                                     else first_load D (data x) e_z)
                else A0 in
      let A2 := if small D (A1 x L) then set_ent A1 x L (ndiv D (cov_two D e_z (data x)) (A1 z L)) else A1 in
      let A3 := if small D (A2 y L) then set_ent A2 y L (ndiv D (cov_two D e_z (data y)) (A2 z L)) else A2 in
      if ge_beta D (sur_pval A3 (cs ++ [x; y]) (ce ++ [L]) z)
      then Ok (Lat (remove_edge (remove_edge (l_udg s) x z) y z)
                   (add_arc (add_arc (add_arc (l_cg s) L x) L y) L z)
                   (set_add (set_add (l_sur s) x z) y z)
                   (set_add (set_add (set_add (l_exo s) x L) y L) z L) A3 (l_orient s) true, true)
      else
        let A4 := if small D (A1 x L) then set_ent A3 x L (nzero D) else A3 in
        let A5 := if small D (A2 y L) then set_ent A4 y L (nzero D) else A4 in
        let A6 := if small D (A0 z L) then set_ent A5 z L (nzero D) else A5 in
        Ok (Lat (l_udg s) (l_cg s) (l_sur s) (l_exo s) A6 (l_orient s) (l_latent s), false).

  (** olc.py:194-282: the loop over z. *)
  Fixpoint latents (L x y : nat) (zs : list nat) (s : lat) : res lat :=
    match zs with
    | [] => Ok s
    | z :: r =>
      if Nat.eqb z x || Nat.eqb z y then latents L x y r s
      else if negb (has_edge (l_udg s) x z) && negb (has_edge (l_udg s) y z) then latents L x y r s
      else q <-? try_latent L x y z s ;;
           if snd q then Ok (fst q) else latents L x y r (fst q)
    end.

  (** olc.py:135-282 for one pair; [po] is partial_observed. *)
  Definition step3 (po : list nat) (L : nat) (s : lat) (p : nat * nat) : res lat :=
    let (x, y) := p in
    if negb (has_edge (l_udg s) x y) then Ok s
    else
      let cs := ord (inter (l_sur s x) (l_sur s y)) in
      let ce := ord (inter (l_exo s x) (l_exo s y)) in
      let s1 := if ge_beta D (sur_pval (l_A s) (x :: cs) ce y)
                then Lat (remove_edge (l_udg s) x y) (l_cg s) (l_sur s) (l_exo s) (l_A s) (l_orient s) (l_latent s) else s in
      let '(s2, x', y') :=
        if has_edge (l_udg s1) x y && negb (match cs with [] => true | _ => false end)
        then orient 2 cs ce x y s1 else (s1, x, y) in
      latents L x' y' po s2.

  Fixpoint round3 (po : list nat) (L : nat) (ps : list (nat * nat)) (s : lat) : res lat :=
    match ps with
    | [] => Ok s
    | p :: r => s' <-? step3 po L s p ;; round3 po L r s'
    end.

  (** olc.py:125-284: the while loop.  [id] is latent_id after lines 130-132; the
      result is the last latent_id and the state. *)
  Fixpoint stage3 (fuel : nat) (po : list nat) (id : nat) (s : lat) : res (nat * lat) :=
    match fuel with
    | O => Err OutOfFuel
    | S f =>
      s' <-? round3 po (id + n) (combos2 po) (Lat (l_udg s) (l_cg s) (l_sur s) (l_exo s) (l_A s) false false) ;;
      if l_latent s' || l_orient s' then stage3 f po (if l_latent s' then S id else id) s' else Ok (id, s')
    end.

  (** olc.py:114-117. *)
  Definition start3 (s : stage) : lat :=
    Lat (s_udg s) (s_cg s) (fun _ => []) (fun _ => []) (fun _ _ => nzero D) false false.
End Olc.

Arguments Stage {D}. Arguments Lat {D}.
Arguments s_udg {D}. Arguments s_cg {D}. Arguments s_data {D}. Arguments s_changed {D}.
Arguments l_udg {D}. Arguments l_cg {D}. Arguments l_sur {D}. Arguments l_exo {D}. Arguments l_A {D}.
Arguments l_orient {D}. Arguments l_latent {D}.

(** olc.py:54-63: the complete graph. *)
Definition start1 (D : olc_num) (n : nat) (data : nat -> col D) : stage D := Stage (combos2 (seq 0 n)) [] data true.

(** olc.py:54-105: the first two stages. *)
Definition olc_pairs (D : olc_num) (n fuel : nat) (data : nat -> col D) : res (stage D) :=
  s <-? stage1 D n fuel (start1 D n data) ;; stage2 D n fuel s.

Record olc_out (D : olc_num) : Type := OlcOut { o_size : nat; o_adj : nat -> nat -> nat; o_coef : nat -> nat -> num D }.
Arguments OlcOut {D}. Arguments o_size {D}. Arguments o_adj {D}. Arguments o_coef {D}.

(** olc.py:287-302: the matrices.  Every node occurs in a clique (line 121-123),
    so partial_observed is [ord] of all variables. *)
Definition olc_result (D : olc_num) (n id : nat) (s : lat D) : res (olc_out D) :=
  let N := id + n in
  if negb (forallb (fun p => Nat.ltb (fst p) N && Nat.ltb (snd p) N) (l_udg s ++ l_cg s)) then Err IndexError
  else Ok (OlcOut N
    (fun i j => if pmem (j, i) (l_cg s) then 1 else if has_edge (l_udg s) i j then 2 else 0)
    (fun i j => if pmem (j, i) (l_cg s)
                then (if Nat.ltb j n && Nat.ltb i n then ndiv D (l_A s i j) (l_A s j j) else l_A s i j)
                else nzero D)).

(** olc.py:53-302 (olc). *)
Definition olc (D : olc_num) (ord : list nat -> list nat) (n fuel : nat) (data : nat -> col D) : res (olc_out D) :=
  s <-? olc_pairs D n fuel data ;;
  r <-? stage3 D n ord (s_data s) fuel (ord (seq 0 n)) 0 (start3 D s) ;;
  olc_result D n (fst r) (snd r).

(** ** The real primitives of the first two stages *)

(** olc.py:12-13 (normalize): numpy's std has ddof 0.  A constant column becomes
    NaN in numpy and 0 here. *)
Definition rmean (l : list R) : R := (rsum l / INR (length l))%R.
Definition normalize (l : list R) : list R :=
  let sd := sqrt (rsum (map (fun v => (v - rmean l) * (v - rmean l)) l) / INR (length l))%R in
  map (fun v => (v - rmean l) / sd)%R l.

(** olc.py:59-60 (cal_pval): the kernel test of two columns. *)
Definition column (l : list R) : rmat := fun i _ => nth i l 0%R.
Definition kci_pval (gcdf : R -> R -> R -> R) (u v : list R) : option R :=
  fst (kci_test gcdf (length u) 1 (column u) 1 (column v)).

(** [pval >= level], False for NaN. *)
Definition rge (level : R) (p : option R) : bool :=
  match p with None => false | Some v => if Rle_dec level v then true else false end.

(** scipy's [1 - chi2.cdf(s, 2 * k)] in closed form: e^(-s/2) times the sum of (s/2)^j / j!, j < k. *)
Definition chi2_sf (s : R) (k : nat) : R := (exp (- (s / 2)) * rsumn k (fun j => (s / 2) ^ j / INR (fact j)))%R.

(** olc.py:35-38 (fisher_test); a NaN is replaced by 1e-5 because it is not >= 1e-5. *)
Definition clip (p : option R) : R := match p with Some v => if Rle_dec (1 / 100000) v then v else (1 / 100000)%R | None => (1 / 100000)%R end.
Definition fisher_test (ps : list (option R)) : option R :=
  Some (chi2_sf (-2 * rsum (map (fun p => ln (clip p)) ps)) (length ps)).

(** olc.py:53-105 with its own primitives: [icpt X y] is the intercept that
    LinearRegression finds for y on X.  Those of the third stage stay arguments. *)
Definition olc_real (gcdf : R -> R -> R -> R) (alpha beta : R) (icpt : list (list R) -> list R -> R)
    (sur : (nat -> list R) -> (nat -> nat -> R) -> list nat -> list nat -> option nat -> option (list R))
    (covd : (nat -> list R) -> nat -> nat -> R) (cov2 load : list R -> list R -> R) (sm : R -> bool) : olc_num :=
  OlcNum (list R) (option R) R (kci_pval gcdf) (Some 0%R) (rge alpha) (rge beta)
    (fun X y => map (fun v => v - icpt X y)%R y) normalize fisher_test
    sur covd cov2 load 0%R Rminus Rmult Rdiv sm.
