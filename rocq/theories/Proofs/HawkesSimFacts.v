(** Lemmas for the simulator of Hawkes processes. *)

From Coq Require Import List Arith Bool ZArith QArith Qcanon Lia Permutation Sorted.
From Verif Require Import Model.Py Model.Graph Model.Simulators Model.SHPTable Model.HawkesSim Spec.EventSpec Proofs.SHPTableFacts.
Import ListNotations.
Open Scope nat_scope.

(** A list that does not decrease has its first occurrences in order. *)
Lemma first_seen_app : forall l x, first_seen (l ++ [x]) = if existsb (Nat.eqb x) (first_seen l) then first_seen l else first_seen l ++ [x].
Proof. intros l x. unfold first_seen. rewrite fold_left_app. reflexivity. Qed.
Lemma first_seen_in : forall l s, In s (first_seen l) <-> In s l.
Proof.
  induction l as [|x l IH] using rev_ind; intro s; [simpl; tauto|]. rewrite first_seen_app, in_app_iff, <- IH.
  destruct (existsb (Nat.eqb x) (first_seen l)) eqn:E.
  - apply existsb_exists in E. destruct E as [y [Hy E]]. apply Nat.eqb_eq in E. subst y. simpl. split; auto. intros [|[<-|[]]]; auto.
  - rewrite in_app_iff. tauto.
Qed.
Lemma first_seen_sorted : forall l, StronglySorted le l -> StronglySorted lt (first_seen l).
Proof.
  induction l as [|x l IH] using rev_ind; intro S; [constructor|]. rewrite first_seen_app. apply sorted_snoc in S. destruct S as [S M].
  destruct (existsb (Nat.eqb x) (first_seen l)) eqn:E; auto. apply sorted_snoc. split; auto. intros a Ha.
  assert (a <= x) by (apply M, first_seen_in; auto). destruct (Nat.eq_dec a x) as [->|]; [|lia]. exfalso.
  rewrite <- Bool.not_true_iff_false, existsb_exists in E. apply E. exists x. split; auto. apply Nat.eqb_refl.
Qed.
Lemma sorted_app_le : forall l1 l2, StronglySorted le l1 -> StronglySorted le l2 -> (forall a b, In a l1 -> In b l2 -> a <= b) -> StronglySorted le (l1 ++ l2).
Proof.
  induction l1 as [|a l1 IH]; intros l2 S1 S2 H; auto. inversion S1; subst. simpl. constructor.
  - apply IH; auto. intros; apply H; simpl; auto.
  - apply Forall_forall. intros b Hb. apply in_app_or in Hb. destruct Hb as [Hb|Hb]; [|apply H; simpl; auto]. rewrite Forall_forall in *; auto.
Qed.

Lemma rows_in : forall NE n stamps e, In e (hawkes_rows NE n stamps) <-> ev_seq e < NE /\ ev_type e < n /\ In (ev_time e) (stamps (ev_seq e) (ev_type e)).
Proof.
  intros NE n stamps e. unfold hawkes_rows. rewrite in_flat_map. split.
  - intros [s [Hs H]]. apply in_flat_map in H. destruct H as [y [Hy H]]. apply in_map_iff in H. destruct H as [t [<- Ht]]. apply in_seq in Hs, Hy. cbn. repeat split; auto; lia.
  - intros [Hs [Hy Ht]]. exists (ev_seq e). split; [apply in_seq; lia|]. apply in_flat_map. exists (ev_type e). split; [apply in_seq; lia|]. apply in_map_iff. exists (ev_time e). split; auto. destruct e; reflexivity.
Qed.
Lemma filter_flat_map : forall A B (p : B -> bool) (f : A -> list B) l, filter p (flat_map f l) = flat_map (fun a => filter p (f a)) l.
Proof. intros A B p f l. induction l as [|a l IH]; auto. cbn [flat_map]. rewrite filter_app, IH. reflexivity. Qed.
Lemma flat_map_one : forall B (f : nat -> list B) k n, (forall i, i < n -> i <> k -> f i = []) -> flat_map f (seq 0 n) = if Nat.ltb k n then f k else [].
Proof.
  intros B f k n. induction n as [|n IH]; intro H; auto. rewrite seq_S, flat_map_app, IH by (intros; apply H; lia). simpl. rewrite app_nil_r.
  destruct (Nat.ltb_spec k n); destruct (Nat.ltb_spec k (S n)); try lia.
  - rewrite (H n) by lia. apply app_nil_r.
  - replace n with k by lia. reflexivity.
  - rewrite (H n) by lia. reflexivity.
Qed.
Lemma filter_map_all : forall A B (p : B -> bool) (f : A -> B) l b, (forall a, p (f a) = b) -> filter p (map f l) = if b then map f l else [].
Proof. intros A B p f l b H. induction l as [|a l IH]; [destruct b; reflexivity|]. cbn [map filter]. rewrite H, IH. destruct b; reflexivity. Qed.
Lemma rows_of : forall NE n stamps s y,
  filter (fun e => Nat.eqb (ev_type e) y && Nat.eqb (ev_seq e) s) (hawkes_rows NE n stamps)
  = if Nat.ltb s NE && Nat.ltb y n then map (fun t => Ev s t y) (stamps s y) else [].
Proof.
  intros NE n stamps s y. unfold hawkes_rows. rewrite filter_flat_map.
  assert (forall k, filter (fun e => Nat.eqb (ev_type e) y && Nat.eqb (ev_seq e) s) (flat_map (fun event_name => map (fun t => Ev k t event_name) (stamps k event_name)) (seq 0 n))
    = if Nat.ltb y n then (if Nat.eqb k s then map (fun t => Ev k t y) (stamps k y) else []) else []) as K.
  { intro k. rewrite filter_flat_map. rewrite (flat_map_one _ _ y n).
    - destruct (Nat.ltb y n); auto. rewrite (filter_map_all _ _ _ _ _ (Nat.eqb k s)); auto. intro t. cbn. rewrite Nat.eqb_refl. reflexivity.
    - intros j Hj N. rewrite (filter_map_all _ _ _ _ _ false); auto. intro t. cbn. destruct (Nat.eqb_spec j y); [contradiction|reflexivity]. }
  rewrite (flat_map_one _ _ s NE).
  - rewrite K, Nat.eqb_refl. destruct (Nat.ltb s NE), (Nat.ltb y n); reflexivity.
  - intros k Hk N. rewrite K. destruct (Nat.eqb_spec k s); [contradiction|]. destruct (Nat.ltb y n); reflexivity.
Qed.
Lemma rows_sorted : forall NE n stamps, StronglySorted le (map ev_seq (hawkes_rows NE n stamps)).
Proof.
  induction NE as [|NE IH]; intros n stamps; [constructor|]. unfold hawkes_rows. rewrite seq_S, flat_map_app, map_app. apply sorted_app_le.
  - apply IH.
  - simpl. rewrite app_nil_r. assert (forall k l, map ev_seq (flat_map (fun event_name => map (fun t => Ev k t event_name) (stamps k event_name)) l) = repeat k (length (flat_map (stamps k) l))) as E.
    { intros k l. induction l as [|y l IHl]; auto. cbn [flat_map]. rewrite map_app, IHl, map_map, app_length, repeat_app. f_equal. cbn. induction (stamps k y); simpl; congruence. }
    rewrite E. generalize (length (flat_map (stamps NE) (seq 0 n))). induction n0 as [|m IHm]; simpl; constructor; auto. apply Forall_forall. intros x Hx. apply repeat_spec in Hx. subst. auto.
  - intros a b Ha Hb. apply in_map_iff in Ha, Hb. destruct Ha as [e [<- He]], Hb as [e' [<- He']]. apply rows_in in He. simpl in He'. rewrite app_nil_r in He'.
    apply in_flat_map in He'. destruct He' as [y [_ H]]. apply in_map_iff in H. destruct H as [t [<- _]]. cbn. lia.
Qed.
