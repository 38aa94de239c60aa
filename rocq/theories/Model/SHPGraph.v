(** Model of SHP.EM and SHP.EM_not_HC (/repo/cdmir/discovery/point_process/SHP.py:142-274) in exact reals, for a whole graph and
    with the table of likelihoods that the two share.  The steps of the loop are those of Model/SHPEM.v. *)

From Coq Require Import List Arith Bool ZArith Reals.
From Verif Require Import Model.Py Model.Graph Model.LocalScore Model.SHPTable Model.SHPEM.
From Verif Require Model.SHP.
Import ListNotations.
Open Scope nat_scope.
Open Scope res_scope.

(** SHP.py:181: the test of EM. *)
Definition ends_EM (gain : R) : bool := if Rlt_dec gain (85 / 10000) then true else false.
(** SHP.py:246: the test of EM_not_HC. *)
Definition ends_not_HC (gain : R) : bool := if Rle_dec gain (85 / 10000) then true else false.

(** SHP.py:167-202 and 233-267: [while 1: ..] with either test.  [Li = None] stands for minus infinity. *)
Fixpoint fit_loop (ends : R -> bool) (fuel : nat) (d : em_data) (i : nat) (Pa : list nat) (Li : option R) (alpha : nat -> R) (mu : R)
    : res (R * (nat -> R) * R) :=
  match fuel with
  | 0 => Err OutOfFuel
  | S f =>
      let nl := new_Li d i alpha mu in
      if match Li with None => false | Some l => ends (nl - l)%R end
      then Ok (nl, alpha, mu)
      else
        let lam := lambda_for d alpha mu in
        alpha' <-? update_alpha d i Pa lam alpha ;;
        fit_loop ends f d i Pa (Some nl) alpha' (update_mu d i lam mu)
  end.

(** SHP.py:54-57, 187, 252: [self.hist_likelihood], with the keys (i, Pa_i). *)
Definition hist : Type := list ((nat * list nat) * (R * list (nat * R) * R)).

(** SHP.py:161-164 and 227-230: the strengths out of an entry of the table.  An entry has a strength for every member of its key
    (lines 184-187, 249-252); if one were missing, KeyError would lead to line 167 or 233, which is not modelled. *)
Definition recall (al : list (nat * R)) (Pa : list nat) (start : nat -> R) : nat -> R :=
  fold_left (fun a j => fun k => if Nat.eqb k j then match dget Nat.eqb al j with Some x => x | None => a k end else a k) Pa start.

(** SHP.py:157-204 and 223-269: the body of the loop over the types; [start] is column i of [alpha * edge_mat] (lines 152, 219). *)
Definition fit_node (ends : R -> bool) (fuel : nat) (d : em_data) (start : nat -> R) (Pa : list nat) (t : hist) (i : nat)
    : res (hist * (R * (nat -> R) * R)) :=
  match dget SHP.key_eqb t (i, Pa) with
  | Some (Li, al, mu) => Ok (t, (Li, recall al Pa start, mu))
  | None =>
      r <-? fit_loop ends fuel d i Pa None start 1%R ;;
      let '(Li, alpha, mu) := r in
      Ok (dset SHP.key_eqb t (i, Pa) (Li, map (fun j => (j, alpha j)) Pa, mu), (Li, alpha, mu))
  end.

(** SHP.py:157 and 223: the loop over the types; [rand j i] is entry (j, i) of the random matrix. *)
Fixpoint fit_nodes (ends : R -> bool) (fuel : nat) (d : em_data) (rand : nat -> nat -> R) (m : list (list Z)) (causes : nat -> list nat) (t : hist) (is : list nat)
    : res (hist * list (R * (nat -> R) * R)) :=
  match is with
  | [] => Ok (t, [])
  | i :: r =>
      p <-? fit_node ends fuel d (fun j => rand j i * IZR (mat_get m j i))%R (causes i) t i ;;
      q <-? fit_nodes ends fuel d rand m causes (fst p) r ;;
      Ok (fst q, snd p :: snd q)
  end.

(** [self.penalty] (SHP.py:58-61). *)
Inductive penalty := AIC | BIC.
(** [self.event_table['times'].sum()] (SHP.py:209, 274). *)
Definition times_sum (P : prepared) : nat := fold_right (fun r s => r_times r + s) 0 (p_table P).

(** What the two return: score (None is minus infinity), the columns of alpha, mu. *)
Definition fitted : Type := (option R * list (nat -> R) * list R)%type.

(** SHP.py:142-209 (EM). *)
Definition EM (fuel : nat) (d : em_data) (pen : penalty) (reg times : R) (rand : nat -> nat -> R) (m : list (list Z)) (t : hist) : res (hist * fitted) :=
  dag <-? SHP.check_DAG m ;;
  if dag then
    p <-? fit_nodes ends_EM fuel d rand m (SHP.Pa_of m) t (seq 0 (e_n d)) ;;
    let L := rsum (map (fun r => fst (fst r)) (snd p)) in
    let size := (INR (e_n d) + IZR (SHP.mat_sum m))%R in
    Ok (fst p, (Some (match pen with AIC => L - size | BIC => L - size * ln times * reg end)%R, map (fun r => snd (fst r)) (snd p), map snd (snd p)))
  else Ok (t, (None, repeat (fun _ => 0%R) (e_n d), repeat 0%R (e_n d))).

(** SHP.py:212-274 (EM_not_HC).  [ord] is the order in which a set of causes is run through (line 224). *)
Definition EM_not_HC (fuel : nat) (d : em_data) (pen : penalty) (reg times : R) (ord : list nat -> list nat) (rand : nat -> nat -> R) (m : list (list Z)) (t : hist)
    : res (hist * fitted) :=
  p <-? fit_nodes ends_not_HC fuel d rand m (fun i => ord (SHP.Pa_of m i)) t (seq 0 (e_n d)) ;;
  let L := rsum (map (fun r => fst (fst r)) (snd p)) in
  let size := (INR (e_n d) + IZR (SHP.mat_sum m))%R in
  Ok (fst p, (Some (match pen with AIC => L - size * reg | BIC => L - size * ln times * reg end)%R, map (fun r => snd (fst r)) (snd p), map snd (snd p))).
