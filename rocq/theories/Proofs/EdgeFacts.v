(** The edge listing and degree sums. *)

From Coq Require Import List Arith Bool Lia Permutation.
From Verif Require Import Model.Py Model.Graph Model.DiGraph Spec.API.
From Verif Require Import Proofs.PyFacts Proofs.GraphFacts Proofs.DiGraphFacts Proofs.HistoryFacts.
Import ListNotations.

Lemma mapE_ok : forall {A B} (f : A -> res B) (h : A -> B) l,
  (forall x, In x l -> f x = Ok (h x)) -> mapE f l = Ok (map h l).
Proof.
  induction l as [|a l IH]; intro H; simpl; auto.
  rewrite H by (simpl; auto). simpl. rewrite IH by (intros; apply H; simpl; auto). reflexivity.
Qed.

Lemma edges_ok : forall g, WF g ->
  edges g = Ok (somes (map (fun p => edge_of g (fst p) (snd p)) (comb2 (node_list g)))).
Proof.
  intros g W. unfold edges.
  rewrite (mapE_ok _ (fun p => edge_of g (fst p) (snd p))); [reflexivity|].
  intros [u v] H. apply in_comb2_In in H. apply get_edge_ok; tauto.
Qed.

Lemma in_somes : forall {A} (l : list (option A)) a, In a (somes l) <-> In (Some a) l.
Proof.
  induction l as [|[x|] l IH]; intro a; simpl; [tauto| |]; rewrite IH; intuition congruence.
Qed.

Lemma filter_none : forall {A} (f : A -> bool) l, (forall x, In x l -> f x = false) -> filter f l = [].
Proof.
  induction l as [|a l IH]; intro H; simpl; auto. rewrite H by (simpl; auto).
  apply IH. intros; apply H; simpl; auto.
Qed.

Lemma somes_app : forall {A} (a b : list (option A)), somes (a ++ b) = somes a ++ somes b.
Proof. induction a as [|[x|] a IH]; intro b; simpl; auto. rewrite IH. auto. Qed.

Lemma edge_of_ends : forall g u v e, edge_of g u v = Some e -> node_u e = u /\ node_v e = v.
Proof.
  unfold edge_of. intros. destruct (mk g v u), (mk g u v); inversion H; auto.
Qed.

Lemma edge_of_connb : forall g u v, WF g -> (edge_of g u v <> None <-> connb g u v = true).
Proof.
  intros g u v W. pose proof (connb_sym g u v W). unfold edge_of, connb in *.
  destruct (mk g v u), (mk g u v); split; congruence.
Qed.

Lemma row_count : forall g a u v l, WF g -> ~ In a l -> NoDup l -> In u (a :: l) -> In v (a :: l) -> u <> v ->
  length (filter (joins u v) (somes (map (fun p => edge_of g (fst p) (snd p)) (map (fun y => (a, y)) l))))
  = if Nat.eqb a u then (if connb g u v then 1 else 0)
    else if Nat.eqb a v then (if connb g u v then 1 else 0) else 0.
Proof.
  intros g a u v l W. induction l as [|b l IH]; intros Ha ND Hu Hv N.
  - simpl in *. destruct Hu as [<-|[]], Hv as [<-|[]]. congruence.
  - inversion ND; subst. simpl in Ha. rewrite map_cons, map_cons. cbn [fst snd].
    assert (Hrest : forall x y, (x = a /\ y = b) \/ (x = b /\ y = a) ->
      filter (joins x y) (somes (map (fun p => edge_of g (fst p) (snd p)) (map (fun y => (a, y)) l))) = []).
    { intros x y Hxy. apply filter_none. intros e He. apply in_somes, in_map_iff in He.
      destruct He as [[c d] [E He]]. apply in_map_iff in He. destruct He as [z [Ez Hz]].
      apply edge_of_ends in E. cbn [fst snd] in E. destruct E as [E1 E2].
      inversion Ez as [[Q1 Q2]]. rewrite <- Q1 in E1. rewrite <- Q2 in E2.
      unfold joins. rewrite E1, E2.
      assert (Nza : z <> a) by (intro Q; rewrite Q in Hz; tauto).
      assert (Nzb : z <> b) by (intro Q; rewrite Q in Hz; tauto).
      assert (Nab : a <> b) by (intro Q; rewrite Q in Ha; tauto).
      destruct Hxy as [[-> ->]|[-> ->]]; rewrite ?(proj2 (Nat.eqb_neq z a)), ?(proj2 (Nat.eqb_neq z b)),
         ?(proj2 (Nat.eqb_neq a b)), ?andb_false_r by auto; auto. }
    assert (Hhd : forall e, edge_of g a b = Some e -> joins u v e =
       ((Nat.eqb a u && Nat.eqb b v) || (Nat.eqb a v && Nat.eqb b u))).
    { intros e E. apply edge_of_ends in E. destruct E as [E1 E2]. unfold joins. rewrite E1, E2. auto. }
    pose proof (edge_of_connb g a b W) as Hc.
    destruct (Nat.eq_dec a u) as [->|Nau]; [|destruct (Nat.eq_dec a v) as [->|Nav]].
    + rewrite Nat.eqb_refl. destruct (Nat.eq_dec b v) as [->|Nbv].
      * specialize (Hrest u v ltac:(auto)). unfold somes; fold (@somes edge).
        destruct (edge_of g u v) eqn:E.
        -- assert (connb g u v = true) as -> by (apply Hc; congruence).
           simpl filter. rewrite (Hhd _ eq_refl), !Nat.eqb_refl. simpl. rewrite Hrest. auto.
        -- simpl. rewrite Hrest. destruct (connb g u v); auto. exfalso. apply Hc; auto.
      * assert (Hvl : In v (u :: l)). { simpl in Hv |- *. intuition congruence. }
        assert (IH' := IH ltac:(tauto) H2 ltac:(simpl; auto) Hvl N). rewrite Nat.eqb_refl in IH'.
        rewrite <- IH'. simpl. destruct (edge_of g u b) eqn:E; simpl; auto.
        rewrite (Hhd _ eq_refl). rewrite Nat.eqb_refl. rewrite (proj2 (Nat.eqb_neq b v)) by auto.
        rewrite (proj2 (Nat.eqb_neq u v)) by auto. simpl. auto.
    + rewrite Nat.eqb_refl. rewrite (proj2 (Nat.eqb_neq v u)) by auto.
      destruct (Nat.eq_dec b u) as [->|Nbu].
      * specialize (Hrest u v ltac:(auto)). unfold somes; fold (@somes edge).
        rewrite (connb_sym g u v W).
        destruct (edge_of g v u) eqn:E.
        -- assert (connb g v u = true) as -> by (apply Hc; congruence).
           simpl filter. rewrite (Hhd _ eq_refl), !Nat.eqb_refl, orb_true_r. simpl. rewrite Hrest. auto.
        -- simpl. rewrite Hrest. destruct (connb g v u); auto. exfalso. apply Hc; auto.
      * assert (Hul : In u (v :: l)). { simpl in Hu |- *. intuition congruence. }
        assert (IH' := IH ltac:(tauto) H2 Hul ltac:(simpl; auto) N). rewrite Nat.eqb_refl in IH'.
        rewrite (proj2 (Nat.eqb_neq v u)) in IH' by auto.
        rewrite <- IH'. simpl. destruct (edge_of g v b) eqn:E; simpl; auto.
        rewrite (Hhd _ eq_refl). rewrite Nat.eqb_refl. rewrite (proj2 (Nat.eqb_neq b u)) by auto.
        rewrite (proj2 (Nat.eqb_neq v u)) by auto. simpl. auto.
    + rewrite (proj2 (Nat.eqb_neq a u)), (proj2 (Nat.eqb_neq a v)) by auto.
      rewrite filter_none; auto. intros e He. apply in_somes in He.
      assert (node_u e = a).
      { destruct He as [He|He].
        - apply edge_of_ends in He. tauto.
        - apply in_map_iff in He. destruct He as [[c d] [E He]]. apply in_map_iff in He.
          destruct He as [z [Ez Hz]]. inversion Ez; subst. apply edge_of_ends in E. simpl in E. tauto. }
      unfold joins. rewrite H, (proj2 (Nat.eqb_neq a u)), (proj2 (Nat.eqb_neq a v)) by auto. auto.
Qed.

Lemma filter_app' : forall {A} (f : A -> bool) a b, filter f (a ++ b) = filter f a ++ filter f b.
Proof. induction a as [|x a IH]; intro b; simpl; auto. destruct (f x); simpl; rewrite IH; auto. Qed.

(** Every unordered pair of distinct nodes is listed once if connected, never
    otherwise. *)
Lemma edges_count : forall g u v l, WF g -> NoDup l -> In u l -> In v l -> u <> v ->
  length (filter (joins u v) (somes (map (fun p => edge_of g (fst p) (snd p)) (comb2 l))))
  = if connb g u v then 1 else 0.
Proof.
  intros g u v l W. induction l as [|a l IH]; intros ND Hu Hv N; [destruct Hu|].
  inversion ND; subst. cbn [comb2]. rewrite map_app, somes_app, filter_app', app_length.
  rewrite (row_count g a u v l) by auto.
  assert (Hout : forall w x, (w = a \/ x = a) -> 
     filter (joins w x) (somes (map (fun p => edge_of g (fst p) (snd p)) (comb2 l))) = []).
  { intros w x Hw. apply filter_none. intros e He. apply in_somes, in_map_iff in He.
    destruct He as [[c d] [E He]]. apply in_comb2_In in He. apply edge_of_ends in E. simpl in E.
    destruct E as [E1 E2]. unfold joins. rewrite E1, E2.
    destruct (Nat.eqb_spec c w), (Nat.eqb_spec d x), (Nat.eqb_spec c x), (Nat.eqb_spec d w); simpl; auto;
      subst; destruct Hw; subst; tauto. }
  destruct (Nat.eqb_spec a u); [|destruct (Nat.eqb_spec a v)].
  - rewrite Hout by auto. simpl. lia.
  - rewrite Hout by auto. simpl. lia.
  - simpl in Hu, Hv. rewrite IH; auto.
    + destruct Hu; congruence || auto.
    + destruct Hv; congruence || auto.
Qed.

(* ---------- degree sums ---------- *)
Definition sumf {A} (f : A -> nat) (l : list A) : nat := list_sum (map f l).

Lemma sumf_app : forall {A} (f : A -> nat) a b, sumf f (a ++ b) = sumf f a + sumf f b.
Proof. intros. unfold sumf. rewrite map_app, list_sum_app. auto. Qed.

Lemma sumf_ext : forall {A} (f h : A -> nat) l, (forall x, In x l -> f x = h x) -> sumf f l = sumf h l.
Proof.
  induction l as [|a l IH]; intro H; auto. unfold sumf in *. simpl. rewrite H by (simpl; auto).
  rewrite IH; auto. intros; apply H; simpl; auto.
Qed.

Lemma sumf_add : forall {A} (f h : A -> nat) l, sumf (fun x => f x + h x) l = sumf f l + sumf h l.
Proof. induction l as [|a l IH]; auto. unfold sumf in *. simpl. rewrite IH. lia. Qed.

Lemma sumf_map : forall {A B} (f : B -> nat) (h : A -> B) l, sumf f (map h l) = sumf (fun x => f (h x)) l.
Proof. intros. unfold sumf. rewrite map_map. auto. Qed.

Lemma sum_pairs : forall (f : nat -> nat -> nat) l, (forall u, f u u = 0) ->
  sumf (fun u => sumf (f u) l) l = sumf (fun p => f (fst p) (snd p) + f (snd p) (fst p)) (comb2 l).
Proof.
  intros f l H0. induction l as [|a l IH]; auto.
  cbn [comb2]. rewrite sumf_app, sumf_map. cbn [fst snd]. rewrite <- IH.
  change (sumf (fun u => sumf (f u) (a :: l)) (a :: l)) with
    (sumf (f a) (a :: l) + sumf (fun u => sumf (f u) (a :: l)) l).
  change (sumf (f a) (a :: l)) with (f a a + sumf (f a) l). rewrite H0.
  assert (E : sumf (fun u => sumf (f u) (a :: l)) l = sumf (fun u => f u a) l + sumf (fun u => sumf (f u) l) l).
  { rewrite <- sumf_add. apply sumf_ext. intros x _. reflexivity. }
  rewrite E, sumf_add. lia.
Qed.

Lemma sumf_filter : forall {A} (f : A -> bool) l, sumf (fun x => if f x then 1 else 0) l = length (filter f l).
Proof. induction l as [|a l IH]; auto. unfold sumf in *. simpl. rewrite IH. destruct (f a); auto. Qed.

Lemma somes_length : forall {A B} (f : A -> option B) l,
  length (somes (map f l)) = sumf (fun x => match f x with Some _ => 1 | None => 0 end) l.
Proof. induction l as [|a l IH]; auto. unfold sumf in *. simpl. destruct (f a); simpl; rewrite IH; auto. Qed.

Lemma filter_nbrs_length : forall g u (f : nat -> bool), WF g ->
  (forall v, f v = true -> mk g u v <> None) ->
  length (filter f (nbrs g u)) = length (filter f (node_list g)).
Proof.
  intros g u f W H. apply Permutation_length. apply NoDup_Permutation.
  - apply NoDup_filter, nbrs_NoDup; auto.
  - apply NoDup_filter, W.
  - intro v. rewrite !filter_In, nbrs_In. split; intros [H1 H2]; split; auto.
    eapply wf_in; eauto.
Qed.

Lemma edges_length : forall g es, WF g -> edges g = Ok es ->
  length es = sumf (fun p => if connb g (fst p) (snd p) then 1 else 0) (comb2 (node_list g)).
Proof.
  intros g es W H. rewrite edges_ok in H by auto. inversion H; subst. rewrite somes_length.
  apply sumf_ext. intros [u v] _. cbn [fst snd]. pose proof (edge_of_connb g u v W).
  destruct (edge_of g u v), (connb g u v); auto; exfalso.
  - assert (false = true) by (apply H0; congruence). discriminate.
  - apply H0; auto.
Qed.

Lemma degree_sums : forall g es, DG g -> edges g = Ok es ->
  sumf (fun u => length (parents g u)) (node_list g) = length es /\
  sumf (fun u => length (children g u)) (node_list g) = length es.
Proof.
  intros g es D H. assert (W := dg_wf g D). rewrite (edges_length g es W H).
  assert (P : forall u v, u <> v -> (if markb Arrow g v u then 1 else 0) + (if markb Arrow g u v then 1 else 0)
              = (if connb g u v then 1 else 0)).
  { intros u v N. unfold markb, connb. pose proof (dg_marks g D u v N) as M. pose proof (wf_sym g W v u) as S.
    destruct (mk g u v) as [m|], (mk g v u) as [m'|]; auto.
    - destruct M as [[M1 M2]|[M1 M2]]; try congruence; inversion M1; inversion M2; subst; auto.
    - destruct M as [[M1 M2]|[M1 M2]]; congruence.
    - exfalso. apply S; congruence. }
  assert (L0 : forall u, (if markb Arrow g u u then 1 else 0) = 0).
  { intro u. unfold markb. pose proof (dg_loop g D u). destruct (mk g u u) as [[]|]; simpl; auto. congruence. }
  split.
  - transitivity (sumf (fun u => sumf (fun v => if markb Arrow g v u then 1 else 0) (node_list g)) (node_list g)).
    + apply sumf_ext. intros u _. rewrite sumf_filter. apply filter_nbrs_length; auto.
      intros v Hv. apply (wf_sym g W). unfold markb in Hv. destruct (mk g v u); congruence.
    + rewrite (sum_pairs (fun u v => if markb Arrow g v u then 1 else 0)) by auto.
      apply sumf_ext. intros [u v] Huv. cbn [fst snd]. apply P. eapply in_comb2_neq; eauto. apply W.
  - transitivity (sumf (fun u => sumf (fun v => if markb Arrow g u v then 1 else 0) (node_list g)) (node_list g)).
    + apply sumf_ext. intros u _. rewrite sumf_filter. apply filter_nbrs_length; auto.
      intros v Hv. unfold markb in Hv. destruct (mk g u v); congruence.
    + rewrite (sum_pairs (fun u v => if markb Arrow g u v then 1 else 0)) by auto.
      apply sumf_ext. intros [u v] Huv. cbn [fst snd]. rewrite Nat.add_comm. apply P. eapply in_comb2_neq; eauto. apply W.
Qed.
