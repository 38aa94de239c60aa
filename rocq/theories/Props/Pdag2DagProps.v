(** C18-C19: pdag2dag and consistent extensions. *)

From Coq Require Import List Arith Bool Lia.
From Verif Require Import Model.Py Model.Graph Model.DiGraph Model.PDAG Model.Pdag2Dag.
From Verif Require Import Spec.API Spec.Digraphs Spec.PDAGs.
From Verif Require Import Proofs.PyFacts Proofs.GraphFacts Proofs.RelExt Proofs.HistoryFacts Proofs.PDAGFacts
  Proofs.MeekFacts Proofs.Pdag2DagFacts.
From Verif Require Import Props.Examples.
Import ListNotations.

(** Every edge is directed or undirected. *)
Definition no_bidirected (p : graph) : Prop :=
  forall u v, connected p u v -> directed p u v \/ directed p v u \/ undirected p u v.

Lemma hyps : forall p, reachable KPDAG p -> loop_free p -> no_bidirected p ->
  PG p /\ (forall u, ~ conp p u u) /\ (forall u v, conp p u v -> dirp p u v \/ dirp p v u \/ undp p u v).
Proof.
  intros p R L N. assert (P := reachable_PG p R). assert (W := pg_wf p P). split; auto. split.
  - intros u C. apply (L u). apply connected_p; auto.
  - intros u v C. rewrite <- !directed_p, <- undirected_p by auto. apply N. apply connected_p; auto.
Qed.

(* ------------------------------------------------------------------ C18 *)
Theorem C18_pdag2dag_consistent_extension : forall p fuel d,
  reachable KPDAG p -> loop_free p -> no_bidirected p -> pdag2dag fuel p = Ok d ->
  reachable KDiGraph d /\ nodes d = nodes p /\
  (forall u v, connected d u v <-> connected p u v) /\
  acyclic (directed d) /\
  (forall u v, directed p u v -> directed d u v) /\
  (forall u w v, vstruct (directed d) u w v -> directed p u w /\ directed p v w).
Proof.
  intros p fuel d R L N E. destruct (hyps p R L N) as [P [NL NB]]. assert (W := pg_wf p P).
  destruct (pdag2dag_cases p P NL NB fuel) as [[d' [E' H]]|E']; [|congruence].
  assert (d' = d) by congruence. subst d'. destruct H as [Rd [Nd [C [Ac [D V]]]]].
  assert (Wd := reachable_WF _ _ Rd).
  split; auto. split; [exact Nd|]. split; [intros u v; rewrite !connected_p by auto; auto|].
  split; [|split].
  - eapply acyclic_ext; [|exact Ac]. intros. first [apply directed_p; auto|symmetry; apply directed_p; auto].
  - intros u v. rewrite !directed_p by auto. auto.
  - intros u w v H. rewrite !directed_p by auto. apply (V u w v).
    eapply vstruct_ext; [|exact H]. intros. first [apply directed_p; auto|symmetry; apply directed_p; auto].
Qed.
Print Assumptions C18_pdag2dag_consistent_extension.

(** 3 -> 4 <- 5, 4 -> 2, and the undirected triangle 0 - 1 - 2 with pendant 0 - 6. *)
Definition ex_ext : graph :=
  build KPDAG [6; 0; 1; 2; 3; 4; 5]
    [Edge 3 4 Tail Arrow; Edge 4 5 Arrow Tail; Edge 4 2 Tail Arrow; Edge 2 0 Tail Arrow; Edge 2 1 Tail Arrow;
     Edge 0 1 Tail Tail; Edge 0 6 Tail Tail].
Lemma ex_ext_reachable : reachable KPDAG ex_ext.
Proof. eapply build_reachable. reflexivity. Qed.

(** [loop_free] and [no_bidirected] decided on the node list. *)
Definition lfb (p : graph) : bool :=
  forallb (fun u => match is_connected p u u with Ok b => negb b | Err _ => false end) (node_list p).
Definition nbb (p : graph) : bool :=
  forallb (fun u => forallb (fun v =>
    match is_connected p u v, is_fully_directed p u v, is_fully_directed p v u, is_fully_undirected p u v with
    | Ok c, Ok a, Ok b, Ok d => negb c || a || b || d
    | _, _, _, _ => false end) (node_list p)) (node_list p).
Lemma lfb_ok : forall p, WF p -> lfb p = true -> loop_free p.
Proof.
  intros p W H u C. unfold lfb in H. rewrite forallb_forall in H.
  assert (Hu : In u (node_list p)) by (eapply wf_in; eauto; apply connected_p; eauto).
  specialize (H u Hu). red in C. rewrite C in H. discriminate.
Qed.
Lemma nbb_ok : forall p, WF p -> nbb p = true -> no_bidirected p.
Proof.
  intros p W H u v C. unfold nbb in H. rewrite forallb_forall in H.
  assert (Hv : In v (node_list p)) by (eapply wf_in; eauto; apply connected_p; eauto).
  assert (Hu : In u (node_list p)) by (eapply wf_in_l; eauto; apply connected_p; eauto).
  specialize (H u Hu). rewrite forallb_forall in H. specialize (H v Hv). unfold directed, undirected. red in C. rewrite C in H.
  destruct (is_fully_directed p u v) as [[]|]; auto; destruct (is_fully_directed p v u) as [[]|]; auto;
    destruct (is_fully_undirected p u v) as [[]|]; auto; discriminate.
Qed.

Example C18_example : loop_free ex_ext /\ no_bidirected ex_ext /\
  exists d, pdag2dag 7 ex_ext = Ok d /\
    filter (fun q : nat * nat => match is_fully_directed d (fst q) (snd q) with Ok b => b | _ => false end) (perm2 [0;1;2;3;4;5;6])
      = [(0, 6); (1, 0); (2, 0); (2, 1); (3, 4); (4, 2); (5, 4)].
Proof.
  assert (W : WF ex_ext) by (eapply reachable_WF; apply ex_ext_reachable).
  split; [apply lfb_ok; [exact W|vm_compute; reflexivity]|].
  split; [apply nbb_ok; [exact W|vm_compute; reflexivity]|].
  exists (match pdag2dag 7 ex_ext with Ok d => d | Err _ => ex_ext end). split; vm_compute; reflexivity.
Qed.

(* ------------------------------------------------------------------ C19 *)
Theorem C19_pdag2dag_terminates_iff_extendable : forall p,
  reachable KPDAG p -> loop_free p -> no_bidirected p ->
  ((exists fuel d, pdag2dag fuel p = Ok d) <-> exists E, extension p E) /\
  ((exists E, extension p E) -> forall fuel, length (nodes p) <= fuel -> exists d, pdag2dag fuel p = Ok d) /\
  ((~ exists E, extension p E) -> forall fuel, pdag2dag fuel p = Err OutOfFuel).
Proof.
  intros p R L N. destruct (hyps p R L N) as [P [NL NB]].
  assert (Only : (exists fuel d, pdag2dag fuel p = Ok d) -> exists E, extension p E).
  { intros [fuel [d E]]. destruct (C18_pdag2dag_consistent_extension p fuel d R L N E) as [Rd [Nd [C [Ac [D V]]]]].
    exists (directed d). split; auto. split; [|split; auto].
    intros u v Ne. rewrite <- C. assert (Dd := reachable_DG d Rd).
    rewrite connected_p by (apply Dd). unfold adjacent. rewrite !directed_arc by auto.
    symmetry. apply (DiGraphFacts.adjacent_mk d Dd u v Ne). }
  assert (If : (exists E, extension p E) -> forall fuel, length (nodes p) <= fuel -> exists d, pdag2dag fuel p = Ok d).
  { intros Ex fuel Hf. destruct (pdag2dag_complete p P NL NB Ex fuel Hf) as [d [E _]]. eauto. }
  split; [|split; auto].
  - split; auto. intro Ex. exists (length (nodes p)). apply If; auto.
  - intros Nex fuel. destruct (pdag2dag_cases p P NL NB fuel) as [[d [E _]]|E]; auto.
    exfalso. apply Nex. apply Only. eauto.
Qed.
Print Assumptions C19_pdag2dag_terminates_iff_extendable.

(** The undirected square has no consistent extension: the call never returns. *)
Definition ex_square : graph :=
  build KPDAG [0; 1; 2; 3] [Edge 0 1 Tail Tail; Edge 1 2 Tail Tail; Edge 2 3 Tail Tail; Edge 3 0 Tail Tail].
Lemma ex_square_reachable : reachable KPDAG ex_square.
Proof. eapply build_reachable. reflexivity. Qed.
Example C19_example : (exists E, extension ex_ext E) /\ (~ exists E, extension ex_square E) /\
  forall fuel, pdag2dag fuel ex_square = Err OutOfFuel.
Proof.
  destruct C18_example as [L [N [d [E _]]]].
  assert (W : WF ex_square) by (eapply reachable_WF; apply ex_square_reachable).
  destruct (C19_pdag2dag_terminates_iff_extendable ex_square ex_square_reachable) as [_ [T F]].
  { apply lfb_ok; [exact W|vm_compute; reflexivity]. } { apply nbb_ok; [exact W|vm_compute; reflexivity]. }
  split.
  - apply (proj1 (C19_pdag2dag_terminates_iff_extendable ex_ext ex_ext_reachable L N)). eauto.
  - assert (NE : ~ exists E, extension ex_square E).
    { intro X. destruct (T X 4) as [d' Q]; [vm_compute; lia|]. vm_compute in Q. discriminate. }
    split; auto.
Qed.

(** Outside the domain of C19: with a bidirected edge the call never returns. *)
Theorem C19_bidirected_never_returns : forall p u v, reachable KPDAG p ->
  is_arrow p u v = Ok true -> is_arrow p v u = Ok true -> forall fuel, pdag2dag fuel p = Err OutOfFuel.
Proof.
  intros p u v R A B. assert (P := reachable_PG p R). assert (W := pg_wf p P).
  assert (G : forall a b, is_arrow p a b = Ok true -> mk p a b = Some Arrow).
  { intros a b H.
    destruct (in_dec Nat.eq_dec a (node_list p)) as [Ha|Ha].
    2:{ unfold is_arrow, is_mark, is_connected in H. rewrite check_err in H by auto. discriminate. }
    destruct (in_dec Nat.eq_dec b (node_list p)) as [Hb|Hb].
    2:{ unfold is_arrow, is_mark, is_connected in H. rewrite check_ok, check_err in H by auto. discriminate. }
    unfold is_arrow in H. rewrite is_mark_ok in H by auto. inversion H as [H']. apply (markb_p p) in H'. auto. }
  apply (pdag2dag_stuck p P u v); auto.
Qed.
Print Assumptions C19_bidirected_never_returns.
Example C19_bidirected_example : is_arrow ex_pdag 2 3 = Ok true /\ is_arrow ex_pdag 3 2 = Ok true.
Proof. split; reflexivity. Qed.
