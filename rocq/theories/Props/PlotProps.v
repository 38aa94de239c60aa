(** C47: plotting. *)

From Coq Require Import List Arith Bool ZArith QArith String Lia Permutation.
From Verif Require Import Model.Py Model.Graph Model.Plot Proofs.PyFacts.
Import ListNotations.
Open Scope nat_scope.

Lemma Seqb_ok : forall a b, String.eqb a b = true <-> a = b.
Proof. apply String.eqb_eq. Qed.

Lemma dgetE_ok : forall (d : layout_dict) k v, dget String.eqb d k = Some v -> dgetE String.eqb d k = Ok v.
Proof. intros d k v H. unfold dgetE. rewrite H. reflexivity. Qed.

(** The layout gives the node at position [i] of the (sorted) list the [i]-th
    place, when no text occurs twice. *)
Lemma fill_layout_spec : forall place l i acc, NoDup l ->
  (forall s, ~ In s l -> dget String.eqb (fill_layout place i l acc) s = dget String.eqb acc s) /\
  (forall k s, nth_error l k = Some s -> dget String.eqb (fill_layout place i l acc) s = Some (place (i + k))).
Proof.
  induction l as [|a l IH]; intros i acc N; simpl.
  - split; auto. intros [|k] s H; discriminate.
  - inversion N; subst. destruct (IH (S i) (dset String.eqb acc a (place i)) H2) as [I1 I2]. split.
    + intros s Hs. rewrite I1 by (intro; apply Hs; auto). apply (dget_dset_neq String.eqb Seqb_ok). intro; apply Hs; auto.
    + intros [|k] s Hk; simpl in Hk.
      * injection Hk as <-. rewrite I1 by auto. rewrite Nat.add_0_r. apply (dget_dset_eq String.eqb Seqb_ok).
      * rewrite (I2 k s Hk). f_equal. f_equal. lia.
Qed.

(** Heads at the ends with an arrow mark. *)
Definition style_of (mu mv : mark) : string :=
  ((match mu with Arrow => "<|" | _ => "" end) ++ "-" ++ (match mv with Arrow => "|>" | _ => "" end))%string.

(** Text nodes: everything is drawn.  There is one node patch per node, in
    order, at the place of its position in the (sorted) list of names, white
    exactly for the names given as latent; and one edge patch per edge, in
    order, between the places of its ends, with a head at each arrow mark and a
    circle at each circle mark. *)
Theorem C47_string_nodes : forall show place sort names edges latent nr ratio,
  let g := mkPG (map PStr names) (map (fun e => match e with (u, v, mu, mv) => (PStr u, PStr v, mu, mv) end) edges) in
  NoDup names -> (forall l, Permutation (sort l) l) ->
  (forall u v mu mv, In (u, v, mu, mv) edges -> In u names /\ In v names) -> (0 < nr * ratio)%Q ->
  exists loc, (forall s k, nth_error (sort names) k = Some s -> loc s = place (List.length names) k) /\
    plot_graph show g (circular_layout place show sort) (map PStr latent) nr ratio =
    Ok (map (fun s => NodePatch s (loc s) (existsb (String.eqb s) latent)) names ++
        map (fun e => match e with (u, v, mu, mv) =>
          EdgePatch (loc u) (loc v) (match mu with Circle => true | _ => false end) (match mv with Circle => true | _ => false end) (style_of mu mv) end) edges).
Proof.
  intros show place sort names edges latent nr ratio g N P Ed R.
  set (pos := circular_layout place show sort g).
  assert (T : map (text_of show) (pnodes g) = names).
  { unfold g. cbn [pnodes]. rewrite map_map. simpl. apply map_id. }
  assert (NS : NoDup (sort names)) by (eapply Permutation_NoDup; [apply Permutation_sym, P|exact N]).
  assert (L : List.length (sort names) = List.length names) by (apply Permutation_length, P).
  assert (Pos : forall s k, nth_error (sort names) k = Some s -> dget String.eqb pos s = Some (place (List.length names) k)).
  { intros s k H. unfold pos, circular_layout. rewrite T, L.
    destruct (fill_layout_spec (place (List.length names)) (sort names) 0 [] NS) as [_ F]. rewrite (F k s H). reflexivity. }
  set (loc := fun s => match dget String.eqb pos s with Some p => p | None => (0%Q, 0%Q) end).
  assert (Get : forall s, In s names -> dgetE String.eqb pos s = Ok (loc s)).
  { intros s Hs. apply (Permutation_in _ (Permutation_sym (P names))) in Hs. apply In_nth_error in Hs. destruct Hs as [k Hk].
    unfold loc. rewrite (Pos s k Hk). apply dgetE_ok. auto. }
  exists loc. split.
  { intros s k H. unfold loc. rewrite (Pos s k H). reflexivity. }
  unfold plot_graph. fold pos.
  assert (Ns : plot_nodes show pos (map PStr latent) (pnodes g) = Ok (map (fun s => NodePatch s (loc s) (existsb (String.eqb s) latent)) names)).
  { unfold g. cbn [pnodes].
    assert (Gen : forall l, incl l names -> plot_nodes show pos (map PStr latent) (map PStr l) =
              Ok (map (fun s => NodePatch s (loc s) (existsb (String.eqb s) latent)) l)); [|apply Gen; intros x; auto].
    induction l as [|s l IH]; intro I; [reflexivity|]. cbn [map plot_nodes text_of]. rewrite (Get s) by (apply I; left; auto). cbn [rbind].
    rewrite IH by (intros x Hx; apply I; right; auto). cbn [rbind]. do 3 f_equal.
    clear. induction latent as [|t q IH]; [reflexivity|]. cbn [map existsb]. rewrite IH. reflexivity. }
  rewrite Ns. cbn [rbind].
  assert (Es : plot_edges pos (nr * ratio) (pedges g) = Ok (map (fun e => match e with (u, v, mu, mv) =>
          EdgePatch (loc u) (loc v) (match mu with Circle => true | _ => false end) (match mv with Circle => true | _ => false end) (style_of mu mv) end) edges)).
  { unfold g. cbn [pedges].
    assert (B : negb (Qle_bool (nr * ratio) 0) = true).
    { apply negb_true_iff. destruct (Qle_bool (nr * ratio) 0) eqn:Q; auto. apply Qle_bool_iff in Q. exfalso. apply (Qlt_not_le _ _ R). auto. }
    assert (Gen : forall l, incl l edges ->
      plot_edges pos (nr * ratio) (map (fun e => match e with (u, v, mu, mv) => (PStr u, PStr v, mu, mv) end) l) =
      Ok (map (fun e => match e with (u, v, mu, mv) =>
          EdgePatch (loc u) (loc v) (match mu with Circle => true | _ => false end) (match mv with Circle => true | _ => false end) (style_of mu mv) end) l));
      [|apply Gen; intros x; auto].
    induction l as [|[[[u v] mu] mv] l IH]; intro I; [reflexivity|].
    destruct (Ed u v mu mv (I _ (or_introl eq_refl))) as [Hu Hv]. cbn [map plot_edges lookup_node].
    rewrite (Get u Hu), (Get v Hv). cbn [rbind].
    rewrite B. cbn [rassert rbind]. rewrite IH by (intros x Hx; apply I; right; auto). cbn [rbind]. do 2 f_equal.
    unfold is_circle, arrow_style, style_of. destruct mu, mv; reflexivity. }
  rewrite Es. reflexivity.
Qed.
Print Assumptions C47_string_nodes.

Example C47_case : exists ps, plot_graph (fun _ => "?"%string) (mkPG [PStr "X1"; PStr "X2"] [(PStr "X1", PStr "X2", Tail, Arrow)])
  (circular_layout (fun n i => (inject_Z (Z.of_nat i), inject_Z (Z.of_nat n))) (fun _ => "?"%string) (fun l => l)) [PStr "X2"] (1 # 25) (1 # 6) = Ok ps
  /\ ps = [NodePatch "X1" (0, 2)%Q false; NodePatch "X2" (1, 2)%Q true; EdgePatch (0, 2)%Q (1, 2)%Q false false "-|>"].
Proof. eexists. split; [vm_compute; reflexivity|reflexivity]. Qed.

(** Integer nodes: with any layout that is a dict with text keys, the presence
    of an edge with an integer end makes the call fail with KeyError. *)
Theorem C47_integer_edge_fails : forall show g layout latent nr ratio, (0 < nr * ratio)%Q ->
  (exists u v mu mv, In (u, v, mu, mv) (pedges g) /\ ((exists z, u = PInt z) \/ (exists z, v = PInt z))) ->
  plot_graph show g layout latent nr ratio = Err KeyError.
Proof.
  intros show g layout latent nr ratio R H. unfold plot_graph. set (pos := layout g).
  assert (Ns : plot_nodes show pos latent (pnodes g) = Err KeyError \/ exists l, plot_nodes show pos latent (pnodes g) = Ok l).
  { induction (pnodes g) as [|v vs IH]; [right; eexists; reflexivity|]. cbn [plot_nodes].
    unfold dgetE. destruct (dget String.eqb pos (text_of show v)); cbn [rbind]; auto.
    destruct IH as [->|[l ->]]; cbn [rbind]; auto. right. eexists. reflexivity. }
  destruct Ns as [->|[l ->]]; cbn [rbind]; auto.
  assert (B : negb (Qle_bool (nr * ratio) 0) = true).
  { apply negb_true_iff. destruct (Qle_bool (nr * ratio) 0) eqn:Q; auto. apply Qle_bool_iff in Q. exfalso. apply (Qlt_not_le _ _ R). auto. }
  assert (Es : plot_edges pos (nr * ratio) (pedges g) = Err KeyError).
  { destruct H as [u [v [mu [mv [Hin Hz]]]]]. induction (pedges g) as [|[[[u' v'] mu'] mv'] es IH]; [destruct Hin|].
    cbn [plot_edges]. assert (LK : forall w, lookup_node pos w = Err KeyError \/ exists p, lookup_node pos w = Ok p).
    { intros [s|z]; simpl; auto. unfold dgetE. destruct (dget String.eqb pos s); eauto. }
    destruct Hin as [Q|Hin].
    - injection Q as -> -> -> ->. destruct Hz as [[z ->]|[z ->]]; simpl; auto.
      destruct (LK u) as [->|[p ->]]; reflexivity.
    - destruct (LK u') as [->|[p ->]]; cbn [rbind]; auto. destruct (LK v') as [->|[q ->]]; cbn [rbind]; auto.
      rewrite B. cbn [rassert rbind]. rewrite (IH Hin). reflexivity. }
  rewrite Es. reflexivity.
Qed.
Print Assumptions C47_integer_edge_fails.

(** The claim that every graph can be plotted is false: two integer nodes with
    one edge. *)
Theorem C47_refuted : exists g, List.length (pnodes g) = 2 /\
  (forall u v mu mv, In (u, v, mu, mv) (pedges g) -> In u (pnodes g) /\ In v (pnodes g)) /\
  forall show place sort latent, plot_graph show g (circular_layout place show sort) latent (1 # 25) (1 # 6) = Err KeyError.
Proof.
  exists (mkPG [PInt 0; PInt 1] [(PInt 0, PInt 1, Tail, Arrow)]). split; [reflexivity|]. split.
  - intros u v mu mv [Q|[]]. injection Q as <- <- <- <-. simpl. auto.
  - intros. apply C47_integer_edge_fails; [reflexivity|]. exists (PInt 0), (PInt 1), Tail, Arrow. split; [left; reflexivity|]. left. exists 0%Z. reflexivity.
Qed.
Print Assumptions C47_refuted.

(** Without edges an integer graph is drawn, but latent nodes named by their
    integers are drawn as observed. *)
Theorem C47_integer_latent_ignored : forall show g layout ks nr ratio ps,
  plot_graph show g layout (map PInt ks) nr ratio = Ok ps -> forall s p w, In (NodePatch s p w) ps -> w = false.
Proof.
  intros show g layout ks nr ratio ps H s p w Hin. unfold plot_graph in H. set (pos := layout g) in *.
  destruct (plot_nodes show pos (map PInt ks) (pnodes g)) as [ns|] eqn:En; [|discriminate]. cbn [rbind] in H.
  destruct (plot_edges pos (nr * ratio) (pedges g)) as [es|] eqn:Ee; [|discriminate]. cbn [rbind] in H. injection H as <-.
  apply in_app_iff in Hin. destruct Hin as [Hin|Hin].
  - revert ns En Hin. induction (pnodes g) as [|v vs IH]; intros ns En Hin; simpl in En; [injection En as <-; destruct Hin|].
    destruct (dgetE String.eqb pos (text_of show v)); [|discriminate]. cbn [rbind] in En.
    destruct (plot_nodes show pos (map PInt ks) vs) as [r|] eqn:Er; [|discriminate]. cbn [rbind] in En. injection En as <-.
    destruct Hin as [Q|Hin]; [|eapply IH; eauto]. injection Q as _ _ <-.
    clear. induction ks as [|k l IH]; simpl; auto.
  - exfalso. revert es Ee Hin. induction (pedges g) as [|[[[u v] mu] mv] r IH]; intros es Ee Hin; cbn [plot_edges] in Ee; [injection Ee as <-; destruct Hin|].
    destruct (lookup_node pos u); [|discriminate]. cbn [rbind] in Ee. destruct (lookup_node pos v); [|discriminate]. cbn [rbind] in Ee.
    destruct (rassert _); [|discriminate]. cbn [rbind] in Ee. destruct (plot_edges pos (nr * ratio) r) as [q|] eqn:Eq; [|discriminate]. cbn [rbind] in Ee. injection Ee as <-.
    destruct Hin as [Q|Hin]; [discriminate|]. eapply IH; eauto.
Qed.
Print Assumptions C47_integer_latent_ignored.
Example C47_latent_case : exists ps, plot_graph (fun z => if Z.eqb z 0 then "0" else "1")%string (mkPG [PInt 0; PInt 1] [])
  (circular_layout (fun n i => (inject_Z (Z.of_nat i), inject_Z (Z.of_nat n))) (fun z => if Z.eqb z 0 then "0" else "1")%string (fun l => l)) (map PInt [0%Z]) (1 # 25) (1 # 6) = Ok ps /\ List.length ps = 2.
Proof. eexists. split; [vm_compute; reflexivity|reflexivity]. Qed.
