(** GES: subsets, cliques. *)

From Coq Require Import List Arith Bool Lia ZArith QArith Sorted Permutation.
From Verif Require Import Model.Py Model.Graph Model.DiGraph Model.PDAG Model.Pdag2Dag Model.GES.
From Verif Require Import Spec.API Spec.GESSpec.
From Verif Require Import Proofs.PyFacts Proofs.GraphFacts Proofs.DiGraphFacts Proofs.HistoryFacts Proofs.NumpyFacts Proofs.EdgeFacts
  Proofs.PDAGFacts Proofs.MeekFacts Proofs.Pdag2DagFacts.
Import ListNotations.
Open Scope nat_scope.

(* ---------- foldE ---------- *)
Lemma foldE_inv : forall {X S} (I : list X -> S -> Prop) (f : S -> X -> res S) (l : list X),
  (forall pre x suf s, pre ++ x :: suf = l -> I pre s -> exists s', f s x = Ok s' /\ I (pre ++ [x]) s') ->
  forall l' pre s, pre ++ l' = l -> I pre s -> exists s', foldE f s l' = Ok s' /\ I l s'.
Proof.
  intros X S I f l H l'. induction l' as [|x r IH]; intros pre s E Hs; simpl.
  - rewrite app_nil_r in E. subst. eauto.
  - destruct (H pre x r s E Hs) as [s' [E' Hs']]. rewrite E'. cbn [rbind].
    apply (IH (pre ++ [x])); auto. rewrite <- app_assoc. auto.
Qed.

(* ---------- sorted listings ---------- *)
Lemma insert_sorted_sorted : forall x l, StronglySorted lt l -> StronglySorted lt (insert_sorted x l).
Proof.
  induction l as [|a l IH]; intro H; simpl; [repeat constructor|].
  inversion H as [|? ? Hl Ha]; subst.
  destruct (Nat.ltb_spec x a).
  - constructor; auto. constructor; auto. rewrite Forall_forall in *. intros y Hy. specialize (Ha y Hy). lia.
  - destruct (Nat.eqb_spec x a); auto. constructor; auto. rewrite Forall_forall in *. intros y Hy.
    apply insert_sorted_In in Hy. destruct Hy as [->|Hy]; [lia|auto].
Qed.
Lemma np_unique_sorted : forall l, StronglySorted lt (np_unique l).
Proof. induction l as [|a l IH]; simpl; [constructor|]. apply insert_sorted_sorted. auto. Qed.
Lemma sorted_NoDup : forall l, StronglySorted lt l -> NoDup l.
Proof.
  induction l as [|a l IH]; intro H; constructor; inversion H as [|? ? Hl Ha]; subst; auto.
  rewrite Forall_forall in Ha. intro Q. specialize (Ha a Q). lia.
Qed.
Lemma sorted_ext : forall l l', StronglySorted lt l -> StronglySorted lt l' ->
  (forall x, In x l <-> In x l') -> l = l'.
Proof.
  induction l as [|a l IH]; intros [|b l'] H H' E; auto.
  - exfalso. apply (E b). simpl; auto.
  - exfalso. apply (E a). simpl; auto.
  - inversion H as [|? ? Hl Ha]; inversion H' as [|? ? Hl' Hb]; subst. rewrite Forall_forall in Ha, Hb.
    assert (a = b).
    { destruct (proj1 (E a)) as [->|Q]; simpl; auto. destruct (proj2 (E b)) as [->|R]; simpl; auto.
      specialize (Ha b R). specialize (Hb a Q). lia. }
    subst b. f_equal. apply IH; auto. intro x. split; intro Q.
    + destruct (proj1 (E x)) as [->|?]; simpl; auto. specialize (Ha x Q). lia.
    + destruct (proj2 (E x)) as [->|?]; simpl; auto. specialize (Hb x Q). lia.
Qed.
Lemma sorted_seq : forall n a, StronglySorted lt (seq a n).
Proof.
  induction n as [|n IH]; intro a; simpl; constructor; auto. rewrite Forall_forall. intros x Hx. apply in_seq in Hx. lia.
Qed.
Lemma sorted_filter : forall (f : nat -> bool) l, StronglySorted lt l -> StronglySorted lt (filter f l).
Proof.
  induction l as [|a l IH]; intro H; simpl; auto. inversion H as [|? ? Hl Ha]; subst.
  destruct (f a); auto. constructor; auto. rewrite Forall_forall in *. intros y Hy. apply filter_In in Hy. apply Ha. tauto.
Qed.

(* ---------- Combinatorial ---------- *)
Lemma Combinatorial_flat : forall T, Combinatorial T = flat_map (combinations T) (seq 0 (length T + 1)).
Proof. intros [|a [|b l]]; reflexivity. Qed.

Lemma combinations_0 : forall {A} (l : list A), combinations l 0 = [[]].
Proof. destruct l; auto. Qed.

(** The listed sets are the sublists given by characteristic functions. *)
Lemma combinations_is_filter : forall (l : list nat) k c, NoDup l -> In c (combinations l k) -> exists f, c = filter f l.
Proof.
  induction l as [|a l IH]; intros k c ND H.
  - destruct k; simpl in H; [destruct H as [<-|[]]; exists (fun _ => true); auto|destruct H].
  - inversion ND as [|? ? Na Nl]; subst. destruct k; simpl in H.
    + destruct H as [<-|[]]. exists (fun _ => false). clear. induction (a :: l); auto.
    + apply in_app_iff in H. destruct H as [H|H].
      * apply in_map_iff in H. destruct H as [c' [<- H]]. destruct (IH _ _ Nl H) as [f ->].
        exists (fun x => if Nat.eqb x a then true else f x). simpl. rewrite Nat.eqb_refl. f_equal.
        apply filter_ext_in. intros x Hx. destruct (Nat.eqb_spec x a); auto. subst. contradiction.
      * destruct (IH _ _ Nl H) as [f ->].
        exists (fun x => if Nat.eqb x a then false else f x). simpl. rewrite Nat.eqb_refl.
        apply filter_ext_in. intros x Hx. destruct (Nat.eqb_spec x a); auto. subst. contradiction.
Qed.

Lemma Combinatorial_In : forall T c, NoDup T -> (In c (Combinatorial T) <-> exists f, c = filter f T).
Proof.
  intros T c ND. rewrite Combinatorial_flat, in_flat_map. split.
  - intros [k [_ H]]. eapply combinations_is_filter; eauto.
  - intros [f ->]. exists (length (filter f T)). split; [|apply combinations_filter].
    apply in_seq. pose proof (filter_len f T). lia.
Qed.

Lemma combinations_NoDup_list : forall (l : list nat) k, NoDup l -> NoDup (combinations l k).
Proof.
  induction l as [|a l IH]; intros k ND.
  - destruct k; simpl; repeat constructor; auto.
  - inversion ND as [|? ? Na Nl]; subst. destruct k; simpl; [repeat constructor; auto|].
    assert (G : forall A (x y : list A), NoDup x -> NoDup y -> (forall z, In z x -> ~ In z y) -> NoDup (x ++ y)).
    { induction x as [|z x IHx]; simpl; auto. intros y Hx Hy Hd. inversion Hx; subst. constructor.
      - rewrite in_app_iff. intros [Q|Q]; [auto|]. apply (Hd z); auto.
      - apply IHx; auto. }
    apply G.
    + assert (IHk := IH k Nl). clear -IHk. induction IHk as [|c cs Hc _ IHc]; simpl; constructor; auto.
      rewrite in_map_iff. intros [d [E Hd]]. inversion E; subst. contradiction.
    + apply (IH (S k)); auto.
    + intros z Hz Hz'. apply in_map_iff in Hz. destruct Hz as [c [<- _]].
      apply combinations_incl in Hz'. apply Na. apply Hz'. simpl; auto.
Qed.

Lemma Combinatorial_NoDup : forall T, NoDup T -> NoDup (Combinatorial T).
Proof.
  intros T ND. rewrite Combinatorial_flat. generalize (length T + 1) as m. generalize 0 as a. intros a m. revert a.
  induction m as [|m IH]; intro a; simpl; [constructor|].
  assert (G : forall A (x y : list A), NoDup x -> NoDup y -> (forall z, In z x -> ~ In z y) -> NoDup (x ++ y)).
  { induction x as [|z x IHx]; simpl; auto. intros y Hx Hy Hd. inversion Hx; subst. constructor.
    - rewrite in_app_iff. intros [Q|Q]; [auto|]. apply (Hd z); auto.
    - apply IHx; auto. }
  apply G; auto.
  - apply combinations_NoDup_list; auto.
  - intros z Hz Hz'. apply in_flat_map in Hz'. destruct Hz' as [k [Hk Hz']]. apply in_seq in Hk.
    apply combinations_length in Hz. apply combinations_length in Hz'. lia.
Qed.

Lemma filter_same_set : forall (f h : nat -> bool) l, (forall x, In x (filter f l) <-> In x (filter h l)) -> filter f l = filter h l.
Proof.
  intros f h l H. apply filter_ext_in. intros x Hx. specialize (H x). rewrite !filter_In in H.
  destruct (f x), (h x); auto; exfalso; intuition discriminate.
Qed.

(* ---------- find_subset_include ---------- *)
Lemma find_subset_length : forall s sub, length (find_subset_include s sub) = length sub.
Proof. intros. unfold find_subset_include. destruct (_ || _)%bool; [apply repeat_length|apply map_length]. Qed.

Lemma find_subset_ok : forall s sub k, k < length sub ->
  (nth k (find_subset_include s sub) false = true <-> incl s (nth k sub [])).
Proof.
  intros s sub k Hk. unfold find_subset_include.
  destruct (Nat.eqb_spec (length s) 0) as [E|E]; simpl.
  - destruct s; [|discriminate]. rewrite (nth_indep _ false true) by (rewrite repeat_length; auto). rewrite nth_repeat'.
    split; auto. intros _ x [].
  - destruct (Nat.eqb_spec (length sub) 0) as [E'|E']; simpl; [lia|].
    set (F := fun si : list nat => _). assert (HF : nth k (map F sub) false = F (nth k sub [])).
    { rewrite (nth_indep _ false (F [])) by (rewrite map_length; auto). apply map_nth. }
    rewrite HF. unfold F. set (si := nth k sub []). rewrite !andb_true_iff, !forallb_forall, Nat.ltb_lt.
    set (tmp := filter (fun x => memb x si) (py_set s)).
    assert (Ht : forall x, In x tmp <-> In x s /\ In x si).
    { intro x. unfold tmp. rewrite filter_In, py_set_In, memb_In. tauto. }
    split.
    + intros [[_ H] _] x Hx. specialize (H x Hx). apply memb_In in H. apply Ht in H. tauto.
    + intro I. split; [split|].
      * destruct s as [|x s]; [simpl in E; lia|]. assert (Hx : In x tmp) by (apply Ht; split; [simpl; auto|apply I; simpl; auto]).
        destruct tmp; [destruct Hx|simpl; lia].
      * intros x Hx. apply memb_In. apply Ht. auto.
      * intros x Hx. apply memb_In. apply Ht in Hx. tauto.
Qed.

(* ---------- check_clique ---------- *)
Lemma py_index_ok : forall l i, NoDup l -> i < length l -> py_index (nth i l 0) l = Ok i.
Proof.
  induction l as [|a l IH]; intros i ND Hi; simpl in *; [lia|]. inversion ND; subst.
  destruct i; [rewrite Nat.eqb_refl; auto|].
  destruct (Nat.eqb_spec (nth i l 0) a) as [E|E].
  - exfalso. apply H1. rewrite <- E. apply nth_In. lia.
  - rewrite IH by (auto; lia). reflexivity.
Qed.

  Lemma cells_In : forall k p, In p (cells k) <-> fst p < k /\ snd p < k.
  Proof. intros k [a b]. unfold cells. rewrite in_prod_iff, !in_seq. simpl. lia. Qed.

  Lemma set_cells : forall (sw : bool) ns rc m, shape ns m -> (forall p, In p rc -> fst p < ns /\ snd p < ns) ->
    let F := fun a (p : nat * nat) => if sw then mat_set a (snd p) (fst p) (-1)%Z else mat_set a (fst p) (snd p) (-1)%Z in
    shape ns (fold_left F rc m) /\
    forall a b, mat_get (fold_left F rc m) a b =
      if existsb (fun p => if sw then (Nat.eqb (snd p) a && Nat.eqb (fst p) b)%bool else (Nat.eqb (fst p) a && Nat.eqb (snd p) b)%bool) rc
      then (-1)%Z else mat_get m a b.
  Proof.
    intros sw ns rc. induction rc as [|[x y] rc IH]; intros m Sh Hr; simpl; auto.
    destruct (Hr (x, y)) as [Hx Hy]; [simpl; auto|]. simpl in Hx, Hy.
    assert (Sh' : shape ns (if sw then mat_set m y x (-1)%Z else mat_set m x y (-1)%Z)).
    { destruct sw; apply shape_mat_set; auto. }
    destruct (IH _ Sh') as [S1 G1]; [intros; apply Hr; simpl; auto|]. split; auto.
    intros a b. rewrite G1. destruct (existsb _ rc); [rewrite orb_true_r; auto|]. rewrite orb_false_r.
    destruct sw; rewrite (mat_get_set ns) by auto; auto.
  Qed.

Section Clique.
  Variable g : graph.
  Hypothesis P : PG g.
  Let n := length (node_list g).
  Let nd (i : nat) : nat := nth i (node_list g) 0.
  Let W : WF g := pg_wf g P.

  Lemma mark_matrix_ok : exists m, mark_matrix g = Ok m /\ shape n m /\
    forall a b, a < n -> b < n -> mat_get m a b = if Nat.eqb a b then 0%Z else val (mk g (nd b) (nd a)).
  Proof using P.
    unfold mark_matrix. rewrite edges_ok by auto. cbn [rbind].
    set (es := somes _).
    assert (Hes : forall e, In e es <-> In (node_u e, node_v e) (comb2 (node_list g)) /\ edge_of g (node_u e) (node_v e) = Some e).
    { intro e. unfold es. clear es. generalize (comb2 (node_list g)). intro l.
      assert (S : forall l : list (option edge), In e (somes l) <-> In (Some e) l).
      { induction l0 as [|[x|] l0 IH]; simpl; [tauto| |].
        - rewrite IH. split; intros [H|H]; auto; [left; congruence|left; congruence].
        - rewrite IH. split; [auto|]. intros [H|H]; [discriminate|auto]. }
      rewrite S, in_map_iff. split.
      - intros [[u v] [E H]]. cbn [fst snd] in E. assert (E' := E). unfold edge_of in E'.
        destruct (mk g v u), (mk g u v); try discriminate. inversion E'; subst e. simpl. auto.
      - intros [H E]. exists (node_u e, node_v e). auto. }
    set (I := fun (pre : list edge) (m : list (list Z)) => shape n m /\
      forall a b, a < n -> b < n -> mat_get m a b =
        if existsb (joins (nd a) (nd b)) pre then (if Nat.eqb a b then 0%Z else val (mk g (nd b) (nd a))) else 0%Z).
    match goal with |- exists m, foldE ?F ?Z ?L = _ /\ _ =>
      destruct (foldE_inv I F L) with (l' := L) (pre := @nil edge) (s := Z) as [m [E [Sh Hm]]] end; auto.
    - intros pre e suf m El [Sh Hm].
      assert (He : In e es) by (rewrite <- El; apply in_app_iff; simpl; auto).
      apply Hes in He. destruct He as [Hc Ee].
      destruct (in_comb2_In _ _ _ Hc) as [Hu Hv]. assert (Hne := in_comb2_neq _ _ _ (wf_nodup g W) Hc).
      destruct (In_nth _ _ 0 Hu) as [iu [Liu Eu]]. destruct (In_nth _ _ 0 Hv) as [iv [Liv Ev]].
      assert (iu <> iv) by congruence.
      pose proof (py_index_ok _ iu (wf_nodup g W) Liu) as Pu. pose proof (py_index_ok _ iv (wf_nodup g W) Liv) as Pv.
      rewrite Eu in Pu. rewrite Ev in Pv. rewrite Pu, Pv. cbn [rbind]. eexists. split; [reflexivity|].
      assert (Sh1 := shape_mat_set n m iu iv (mark_value (mark_u e)) Sh Liu).
      split; [apply shape_mat_set; auto|]. intros a b Ha Hb.
      rewrite (mat_get_set n) by auto. rewrite (mat_get_set n) by auto. rewrite existsb_app. simpl. rewrite orb_false_r.
      assert (J : joins (nd a) (nd b) e = ((Nat.eqb iu a && Nat.eqb iv b) || (Nat.eqb iu b && Nat.eqb iv a))%bool).
      { unfold joins. rewrite <- Eu, <- Ev.
        assert (N : forall x y, x < n -> y < n -> Nat.eqb (nth x (node_list g) 0) (nd y) = Nat.eqb x y).
        { intros x y Hx Hy. destruct (Nat.eqb_spec x y); [subst; apply Nat.eqb_refl|]. apply Nat.eqb_neq. intro Q.
          apply n0. apply (nd_inj g P); auto. }
        rewrite !N by auto. auto. }
      rewrite J. unfold edge_of in Ee.
      destruct (mk g (node_v e) (node_u e)) as [mu|] eqn:Mu; [|discriminate].
      destruct (mk g (node_u e) (node_v e)) as [mv|] eqn:Mv; [|discriminate].
      inversion Ee as [Ee']. rewrite <- Ee' in *. simpl in *.
      rewrite <- Eu, <- Ev in Mu, Mv.
      destruct (Nat.eqb_spec iu a), (Nat.eqb_spec iv b), (Nat.eqb_spec iu b), (Nat.eqb_spec iv a); subst; simpl;
        rewrite ?orb_true_r, ?orb_false_r; try congruence;
        try (rewrite (proj2 (Nat.eqb_neq _ _)) by congruence); try (rewrite Hm by auto; reflexivity).
      all: unfold nd; first [rewrite Mu; reflexivity|rewrite Mv; reflexivity|idtac].
      all: rewrite Hm by auto; rewrite (proj2 (Nat.eqb_neq _ _)) by congruence; reflexivity.
    - split; [apply shape_zeros|]. intros a b _ _. simpl. apply mat_get_zeros.
    - exists m. split; auto. split; auto. intros a b Ha Hb. rewrite Hm by auto.
      destruct (Nat.eqb_spec a b) as [->|N]; [destruct (existsb _ _); auto|].
      destruct (existsb (joins (nd a) (nd b)) es) eqn:X; auto.
      assert (Nn : nd a <> nd b) by (intro Q; apply N; apply (nd_inj g P); auto).
      destruct (mk g (nd b) (nd a)) as [q|] eqn:M; [|auto]. exfalso.
      assert (M' : mk g (nd a) (nd b) <> None) by (apply wf_sym; auto; congruence).
      destruct (mk g (nd a) (nd b)) as [q'|] eqn:M2; [|congruence].
      assert (X' : existsb (joins (nd a) (nd b)) es = true); [|congruence].
      apply existsb_exists.
      destruct (in_comb2_total (node_list g) (nd a) (nd b)) as [C|C]; try (apply nth_In; auto); auto.
      + exists (Edge (nd a) (nd b) q q'). split; [apply Hes; simpl; split; auto; unfold edge_of; rewrite M, M2; auto|].
        unfold joins. simpl. rewrite !Nat.eqb_refl. auto.
      + exists (Edge (nd b) (nd a) q' q). split; [apply Hes; simpl; split; auto; unfold edge_of; rewrite M, M2; auto|].
        unfold joins. simpl. rewrite !Nat.eqb_refl. apply orb_true_r.
  Qed.

  Lemma check_clique_ok : forall S, NoDup S -> (forall a, In a S -> a < n) ->
    exists b, check_clique g S = Ok b /\
      (b = true <-> forall x y, In x S -> In y S -> x <> y -> conp g (nd x) (nd y)).
  Proof using P.
    intros S ND HS. unfold check_clique.
    destruct mark_matrix_ok as [m [Em [Sh Hm]]]. rewrite Em. cbn [rbind].
    unfold np_ix, number_of_nodes, nodes. fold n.
    assert (HS' : forallb (fun a => Nat.ltb a n) S = true).
    { apply forallb_forall. intros a Ha. apply Nat.ltb_lt. auto. }
    rewrite HS'. cbn [rbind].
    destruct (Nat.eqb_spec (length S) 0) as [E|E].
    { exists true. split; auto. destruct S; [|discriminate]. split; auto. intros _ x y []. }
    set (gs := map (fun a => map (fun b => mat_get m a b) S) S).
    set (ns := length S) in *.
    assert (Shg : shape ns gs).
    { split; [apply map_length|]. intros r Hr. apply in_map_iff in Hr. destruct Hr as [a [<- _]]. apply map_length. }
    assert (Hg : forall a b, a < ns -> b < ns -> mat_get gs a b = mat_get m (nth a S 0) (nth b S 0)).
    { intros a b Ha Hb. unfold mat_get at 1, gs.
      rewrite (nth_indep _ [] (map (fun b => mat_get m 0 b) S)) by (rewrite map_length; auto).
      rewrite (map_nth (fun a => map (fun b => mat_get m a b) S)).
      rewrite (nth_indep _ 0%Z (mat_get m (nth a S 0) 0)) by (rewrite map_length; auto).
      rewrite (map_nth (fun b => mat_get m (nth a S 0) b)). auto. }
    eexists. split; [reflexivity|].
    set (rc := filter (fun p => Z.eqb (mat_get gs (fst p) (snd p)) 1) (cells ns)).
    assert (Hrc : forall p, In p rc -> fst p < ns /\ snd p < ns).
    { intros p Hp. apply filter_In in Hp. apply cells_In. tauto. }
    destruct (set_cells false ns rc gs Shg Hrc) as [Sh1 G1]. destruct (set_cells true ns rc _ Sh1 Hrc) as [Sh2 G2].
    assert (Val : forall a b, a < ns -> b < ns -> mat_get (drop_direction ns gs) a b =
      if Nat.eqb a b then 0%Z else if connb g (nd (nth a S 0)) (nd (nth b S 0)) then (-1)%Z else 0%Z).
    { intros a b Ha Hb.
      change (drop_direction ns gs) with (fold_left (fun a (p : nat * nat) => if true then mat_set a (snd p) (fst p) (-1)%Z else mat_set a (fst p) (snd p) (-1)%Z) rc
        (fold_left (fun a (p : nat * nat) => if false then mat_set a (snd p) (fst p) (-1)%Z else mat_set a (fst p) (snd p) (-1)%Z) rc gs)).
      rewrite G2, G1. cbv iota.
      assert (La : nth a S 0 < n) by (apply HS, nth_In; auto). assert (Lb : nth b S 0 < n) by (apply HS, nth_In; auto).
      assert (X : forall a b, a < ns -> b < ns -> existsb (fun p : nat * nat => (Nat.eqb (fst p) a && Nat.eqb (snd p) b)%bool) rc
        = Z.eqb (mat_get gs a b) 1).
      { clear -Hrc. intros a b Ha Hb. destruct (Z.eqb (mat_get gs a b) 1) eqn:Q.
        - apply existsb_exists. exists (a, b). split; [apply filter_In; split; [apply cells_In; auto|exact Q]|].
          simpl. rewrite !Nat.eqb_refl. auto.
        - apply not_true_is_false. rewrite existsb_exists. intros [[x y] [Hp Q2]]. simpl in Q2.
          rewrite andb_true_iff, !Nat.eqb_eq in Q2. destruct Q2 as [-> ->]. apply filter_In in Hp. simpl in Hp. destruct Hp. congruence. }
      assert (X' : existsb (fun p : nat * nat => (Nat.eqb (snd p) a && Nat.eqb (fst p) b)%bool) rc = Z.eqb (mat_get gs b a) 1).
      { rewrite <- X by auto. clear. induction rc as [|[x y] l IH]; simpl; auto. rewrite IH, andb_comm. auto. }
      rewrite X', X, !Hg, !Hm by auto.
      destruct (Nat.eqb_spec a b) as [->|N].
      { rewrite Nat.eqb_refl. reflexivity. }
      assert (N' : nth a S 0 <> nth b S 0) by (intro Q; apply N; apply (proj1 (NoDup_nth S 0) ND); auto).
      rewrite !(proj2 (Nat.eqb_neq _ _)) by auto.
      assert (T := pg_tab g P). unfold pdag_table in T. unfold connb.
      pose proof (wf_sym g W (nd (nth a S 0)) (nd (nth b S 0))) as Y1. pose proof (wf_sym g W (nd (nth b S 0)) (nd (nth a S 0))) as Y2.
      destruct (mk g (nd (nth a S 0)) (nd (nth b S 0))) as [q|] eqn:M1; destruct (mk g (nd (nth b S 0)) (nd (nth a S 0))) as [r|] eqn:M2.
      - apply T in M1. apply T in M2. destruct q, r; simpl; auto; intuition discriminate.
      - exfalso. apply Y1; congruence.
      - exfalso. apply Y2; congruence.
      - reflexivity. }
    rewrite forallb_forall. split.
    - intros H x y Hx Hy N. destruct (In_nth S x 0 Hx) as [a [La Ea]]. destruct (In_nth S y 0 Hy) as [b [Lb Eb]].
      specialize (H (a, b) (proj2 (cells_In ns (a, b)) (conj La Lb))). cbn [fst snd] in H. rewrite Val in H by auto.
      assert (Nab : a <> b) by congruence. rewrite (proj2 (Nat.eqb_neq _ _) Nab), Ea, Eb in H.
      apply connb_true. destruct (connb g (nd x) (nd y)); auto; discriminate.
    - intros H [a b] Hp. apply cells_In in Hp. cbn [fst snd] in *. rewrite Val by tauto.
      destruct (Nat.eqb_spec a b) as [|N]; auto.
      assert (C : connb g (nd (nth a S 0)) (nd (nth b S 0)) = true).
      { apply connb_true. apply H; try (apply nth_In; tauto). intro Q. apply N. apply (proj1 (NoDup_nth S 0) ND); tauto. }
      rewrite C. auto.
  Qed.
End Clique.
