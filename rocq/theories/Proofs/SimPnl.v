(** Widths in the post-nonlinear simulators. *)

From Coq Require Import List Arith Bool ZArith QArith Lia.
From Verif Require Import Model.Py Model.Graph Model.Networkx Model.SHP Model.Simulators
  Proofs.NumpyFacts Proofs.SimFacts.
Import ListNotations.
Open Scope nat_scope.
Open Scope res_scope.

Section Widths.
  Variable p : pnl_draws.
  Variable slope : Q.
  Hypothesis Hs : (0 < slope)%Q.

  Lemma slope_ok : Qle_bool slope 0 = false.
  Proof using Hs.
    destruct (Qle_bool slope 0) eqn:E; auto. apply Qle_bool_iff in E. exfalso. apply (Qlt_not_le _ _ Hs E).
  Qed.

  Lemma pnl_func_ok : forall c l w x, width x = w -> 0 < w -> 0 < length (rows x) ->
    exists y, pnl_func p c l w w slope x = Ok y /\ width y = w /\ length (rows y) = length (rows x).
  Proof using Hs.
    intros c l w x Hw H0 Hr. destruct l; simpl;
      try (eexists; split; [reflexivity|]; simpl; rewrite ?map_length; auto; fail);
      try (unfold matmul; rewrite Hw, Nat.eqb_refl; eexists; split; [reflexivity|]; simpl; rewrite map_length; auto; fail).
    unfold leaky_relu. rewrite slope_ok. destruct (Nat.eqb_spec (width x) 0); [lia|].
    destruct (Nat.eqb_spec (length (rows x)) 0); [lia|]. simpl. eexists; split; [reflexivity|]. simpl. rewrite map_length. auto.
  Qed.

  Lemma pnl_seq_ok : forall ls c w x, width x = w -> 0 < w -> 0 < length (rows x) ->
    exists y, pnl_seq p c ls w w slope w x = Ok y /\ width y = w /\ length (rows y) = length (rows x).
  Proof using Hs.
    induction ls as [|l ls IH]; intros c w x Hw H0 Hr; simpl; [eauto|].
    replace (if has_linear ls then w else w) with w by (destruct (has_linear ls); auto).
    replace (if match l with Linear => negb (has_linear ls) | _ => false end then w else w) with w
      by (destruct l; auto; destruct (has_linear ls); auto).
    destruct (pnl_func_ok c l w x) as [y [-> [Wy Ly]]]; auto. simpl.
    destruct (IH (S c) w y) as [z [E [Wz Lz]]]; auto; [lia|]. exists z. repeat split; auto. lia.
  Qed.

  Lemma pnl_func_sequential_ok : forall ls c w x, width x = w -> 0 < w -> 0 < length (rows x) ->
    exists y, pnl_func_sequential p c ls w w slope w x = Ok y /\ width y = w /\ length (rows y) = length (rows x).
  Proof using Hs. intros [l|ls] c w x; simpl; [apply pnl_func_ok|apply pnl_seq_ok]. Qed.
End Widths.

Lemma arr_add_ok : forall x e, width x = width e -> length (rows x) = length (rows e) ->
  exists y, arr_add x e = Ok y /\ width y = width x /\ length (rows y) = length (rows x).
Proof.
  intros x e Hw Hl. unfold arr_add. rewrite Hw, Nat.eqb_refl. eexists. split; [reflexivity|]. simpl.
  rewrite map_length, combine_length. split; auto. lia.
Qed.

Lemma single_pnl_length : forall p e j ns npar P t sc f1 f2 slope hid vs,
  single_pnl p e j ns npar P t sc f1 f2 slope hid = Ok vs -> length vs = ns.
Proof.
  intros p e j ns npar P t sc f1 f2 slope hid vs H. unfold single_pnl in H.
  destruct (match hid with None => Ok npar | Some h => _ end) as [h|]; simpl in H; [|discriminate].
  destruct (negb (plain_noise t)); [discriminate|]. destruct (Nat.eqb npar 0).
  - inversion H. rewrite map_length, seq_length. auto.
  - destruct (pnl_func_sequential (p j) 0 f1 npar h slope h _) as [x1|]; simpl in H; [|discriminate].
    destruct (arr_add x1 _) as [x2|]; simpl in H; [|discriminate].
    destruct (pnl_func_sequential (p j) _ f2 h npar slope h x2) as [x3|]; simpl in H; [|discriminate].
    inversion H. apply repeat_length.
Qed.

Lemma single_pnl_constant : forall p e j ns npar P t sc f1 f2 slope hid vs, npar <> 0 ->
  single_pnl p e j ns npar P t sc f1 f2 slope hid = Ok vs -> exists c, vs = repeat c ns.
Proof.
  intros p e j ns npar P t sc f1 f2 slope hid vs N H. unfold single_pnl in H.
  destruct (match hid with None => Ok npar | Some h => _ end) as [h|]; simpl in H; [|discriminate].
  destruct (negb (plain_noise t)); [discriminate|]. destruct (Nat.eqb_spec npar 0); [contradiction|].
  destruct (pnl_func_sequential (p j) 0 f1 npar h slope h _) as [x1|]; simpl in H; [|discriminate].
  destruct (arr_add x1 _) as [x2|]; simpl in H; [|discriminate].
  destruct (pnl_func_sequential (p j) _ f2 h npar slope h x2) as [x3|]; simpl in H; [|discriminate].
  inversion H. eauto.
Qed.

Lemma single_pnl_total : forall p e j ns npar P t sc f1 f2 slope, plain_noise t = true -> (0 < slope)%Q -> 0 < ns ->
  length P = ns -> exists vs, single_pnl p e j ns npar P t sc f1 f2 slope None = Ok vs /\ length vs = ns.
Proof.
  intros p e j ns npar P t sc f1 f2 slope Ht Hs Hn LP.
  assert (G : exists vs, single_pnl p e j ns npar P t sc f1 f2 slope None = Ok vs).
  { unfold single_pnl. simpl. rewrite Ht. simpl. destruct (Nat.eqb_spec npar 0) as [|N]; [eauto|].
    destruct (pnl_func_sequential_ok (p j) slope Hs f1 0 npar (Arr npar P)) as [x1 [-> [W1 L1]]]; simpl in *; auto; try lia.
    match goal with |- context [arr_add x1 ?e] => destruct (arr_add_ok x1 e) as [x2 [-> [W2 L2]]] end; simpl; auto.
    { rewrite map_length, seq_length. lia. }
    destruct (pnl_func_sequential_ok (p j) slope Hs f2 (layer_count f1) npar x2) as [x3 [-> [W3 L3]]]; simpl; auto; try lia.
    eauto. }
  destruct G as [vs G]. exists vs. split; auto. apply (single_pnl_length _ _ _ _ _ _ _ _ _ _ _ _ _ G).
Qed.
