(** The time series simulators: one loop, used by the three of them. *)

From Coq Require Import List Arith Bool ZArith QArith Lia.
From Verif Require Import Model.Py Model.Graph Model.Networkx Model.SHP Model.Simulators
  Spec.Sums Proofs.NumpyFacts Proofs.SHPTerm Proofs.SimFacts.
Import ListNotations.
Open Scope nat_scope.
Open Scope res_scope.

(** The loop with the computation of the next row left open. *)
Fixpoint series (g : nat -> list (list Q) -> res (list Q)) (t len : nat) (lags Xt : list (list Q)) : res (list (list Q)) :=
  match len with
  | 0 => Ok Xt
  | S len' => x <-? g t lags ;; series g (S t) len' (tl (lags ++ [x])) (Xt ++ [x])
  end.

Lemma skipn_app_le : forall {A} k (l r : list A), k <= length l -> skipn k (l ++ r) = skipn k l ++ r.
Proof. intros A k l r H. rewrite skipn_app. replace (k - length l) with 0 by lia. auto. Qed.

Lemma skipn_S_tl : forall {A} k (l : list A), skipn (S k) l = tl (skipn k l).
Proof.
  intros A k. induction k as [|k IH]; intros [|a l]; simpl; auto. destruct k; auto. apply (IH l).
Qed.

Lemma series_ok : forall g ml len t lags Xt R,
  length Xt = t + ml -> lags = skipn t Xt -> series g t len lags Xt = Ok R ->
  length R = t + ml + len /\ firstn (t + ml) R = Xt /\
  forall s, s < len -> g (t + s) (firstn ml (skipn (t + s) R)) = Ok (nth (t + ml + s) R []).
Proof.
  intros g ml len. induction len as [|len IH]; intros t lags Xt R L El H; simpl in H.
  - inversion H; subst R. split; [lia|]. split; [rewrite <- L; apply firstn_all|]. intros; lia.
  - destruct (g t lags) as [x|e] eqn:Eg; simpl in H; [|discriminate].
    destruct (IH (S t) (tl (lags ++ [x])) (Xt ++ [x]) R) as [LR [F K]]; auto.
    + rewrite app_length. simpl. lia.
    + rewrite skipn_S_tl, skipn_app_le by lia. subst lags. auto.
    + assert (F' : firstn (t + ml) R = Xt).
      { assert (G : firstn (t + ml) (firstn (S t + ml) R) = firstn (t + ml) (Xt ++ [x])) by (rewrite F; auto).
        rewrite firstn_firstn in G. replace (Nat.min (t + ml) (S t + ml)) with (t + ml) in G by lia.
        rewrite G, firstn_app, L, Nat.sub_diag. simpl. rewrite app_nil_r, <- L. apply firstn_all. }
      split; [lia|]. split; auto. intros s Hs. destruct s as [|s].
      * rewrite !Nat.add_0_r. assert (N : nth (t + ml) R [] = x).
        { transitivity (nth (t + ml) (firstn (S t + ml) R) []).
          - rewrite <- (firstn_skipn (S t + ml) R) at 1. rewrite app_nth1; auto. rewrite firstn_length. lia.
          - rewrite F, app_nth2 by lia. rewrite L, Nat.sub_diag. auto. }
        rewrite N. rewrite <- Eg. f_equal. rewrite El, <- F'. rewrite skipn_firstn_comm. f_equal. lia.
      * specialize (K s). replace (S t + s) with (t + S s) in K by lia. replace (S t + ml + s) with (t + ml + S s) in K by lia.
        apply K. lia.
Qed.

Lemma series_total : forall g len t lags Xt,
  (forall t lags', exists x, g t lags' = Ok x) -> exists R, series g t len lags Xt = Ok R.
Proof.
  intros g len. induction len as [|len IH]; intros t lags Xt H; simpl; [eauto|].
  destruct (H t lags) as [x ->]. simpl. apply IH. auto.
Qed.

Lemma run_linear_series : forall d n Ws ml b sv len t lags Xt,
  Ok (run_linear d n t len lags Ws ml b sv Xt) = series (fun t lags => Ok (snd (step_linear d n t lags Ws ml b sv))) t len lags Xt.
Proof.
  intros d n Ws ml b sv len. induction len as [|len IH]; intros t lags Xt; simpl; auto.
Qed.

Lemma run_nonlinear_series : forall d ws n As sv ft hid len t lags Xt,
  run_nonlinear d ws n t len lags As sv ft hid Xt =
  series (fun t lags => st <-? step_nonlinear d ws n t lags As sv ft hid ;; Ok (snd st)) t len lags Xt.
Proof.
  intros d ws n As sv ft hid len. induction len as [|len IH]; intros t lags Xt; simpl; auto.
  destruct (step_nonlinear d ws n t lags As sv ft hid) as [[l x]|e] eqn:Es; simpl; auto.
  unfold step_nonlinear in Es. destruct (rmap _ _); simpl in Es; inversion Es; subst. apply IH.
Qed.

Lemma run_pnl_series : forall p e n As f1 f2 slope sv h len t lags Xt,
  run_pnl p e n t len lags As f1 f2 slope sv h Xt =
  series (fun t lags => st <-? step_pnl p e n t lags As f1 f2 slope sv h ;; Ok (snd st)) t len lags Xt.
Proof.
  intros p e n As f1 f2 slope sv h len. induction len as [|len IH]; intros t lags Xt; simpl; auto.
  destruct (step_pnl p e n t lags As f1 f2 slope sv h) as [[l x]|er] eqn:Es; simpl; auto.
  unfold step_pnl in Es. destruct (rmap _ _); simpl in Es; inversion Es; subst. apply IH.
Qed.

(* ---------- vectors ---------- *)
Lemma vadd_length : forall a b, length a = length b -> length (vadd a b) = length a.
Proof. intros. unfold vadd. rewrite map_length, combine_length. lia. Qed.

Lemma nth_vadd : forall a b j, length a = length b -> j < length a -> nth j (vadd a b) 0%Q = (nth j a 0 + nth j b 0)%Q.
Proof.
  intros a b j L H. unfold vadd.
  rewrite (nth_indep _ 0%Q ((fun p : Q * Q => (fst p + snd p)%Q) (0%Q, 0%Q))) by (rewrite map_length, combine_length; lia).
  rewrite (map_nth (fun p : Q * Q => (fst p + snd p)%Q)). rewrite combine_nth by auto. auto.
Qed.

Lemma list_as_map : forall (v : list Q) n, length v = n -> v = map (fun i => nth i v 0%Q) (seq 0 n).
Proof.
  intros v n L. apply nth_ext with (d := 0%Q) (d' := 0%Q); [rewrite map_length, seq_length; auto|].
  intros i Hi. rewrite nth_map_seq by lia. auto.
Qed.

Lemma nth_vec_mat : forall n v M j, length v = n -> j < n ->
  (nth j (vec_mat n v M) 0%Q == sumQ n (fun i => nth i v 0%Q * qget M i j))%Q.
Proof.
  intros n v M j L H. unfold vec_mat. rewrite nth_map_seq by auto.
  rewrite (list_as_map v n L) at 1. rewrite qdot_map. apply qsum_seq.
Qed.

Lemma vec_mat_length : forall n v M, length (vec_mat n v M) = n.
Proof. intros. unfold vec_mat. rewrite map_length, seq_length. auto. Qed.

Lemma lag_fold_length : forall n (lags : list (list Q)) Ws l acc, length acc = n ->
  length (fold_left (fun v lag => vadd v (vec_mat n (nth lag lags []) (nth lag Ws []))) l acc) = n.
Proof.
  intros n lags Ws l. induction l as [|x l IH]; intros acc H; simpl; auto. apply IH. rewrite vadd_length; auto.
  rewrite vec_mat_length. auto.
Qed.

(** The accumulation over the lags. *)
Lemma lag_sum : forall n (lags : list (list Q)) Ws ml j, j < n -> (forall lag, lag < ml -> length (nth lag lags []) = n) ->
  let v := fold_left (fun v lag => vadd v (vec_mat n (nth lag lags []) (nth lag Ws []))) (seq 0 ml) (repeat 0%Q n) in
  length v = n /\ (nth j v 0%Q == sumQ ml (fun lag => sumQ n (fun i => nth i (nth lag lags []) 0%Q * qget (nth lag Ws []) i j)))%Q.
Proof.
  intros n lags Ws ml j Hj. induction ml as [|ml IH]; intro HL.
  - simpl. rewrite repeat_length. split; auto. rewrite nth_repeat'. reflexivity.
  - rewrite seq_S, fold_left_app. simpl.
    destruct IH as [L Hv]; [intros; apply HL; lia|]. split.
    + rewrite vadd_length; auto. rewrite vec_mat_length. auto.
    + rewrite nth_vadd; [|rewrite vec_mat_length; auto|rewrite L; auto].
      rewrite Hv, nth_vec_mat; auto. reflexivity.
Qed.

(* ---------- the nonlinear series ---------- *)
Lemma rmap_ok : forall {A B} (f : A -> res B) (g : A -> B) l, (forall x, In x l -> f x = Ok (g x)) -> rmap f l = Ok (map g l).
Proof.
  intros A B f g l. induction l as [|a l IH]; intro H; simpl; auto.
  rewrite H by (left; auto). simpl. rewrite IH; [auto|]. intros; apply H; right; auto.
Qed.

Lemma masked_sum : forall n (lags : list (list Q)) As j (u : nat -> Q), length lags = length As ->
  (qsum (map (fun r => qdot r (map u (seq 0 n))) (masked n lags As j)) ==
   sumQ (length As) (fun lag => sumQ n (fun i => nth i (nth lag lags []) 0%Q * qget (nth lag As []) i j * u i)))%Q.
Proof.
  intros n lags As j u L. unfold masked. rewrite map_map.
  assert (Ec : combine lags As = map (fun k => (nth k lags [], nth k As [])) (seq 0 (length As))).
  { apply nth_ext with (d := ([], [])) (d' := ([], [])).
    - rewrite combine_length, map_length, seq_length. lia.
    - intros k Hk. rewrite combine_length in Hk. rewrite combine_nth by auto. rewrite nth_map_seq by lia. auto. }
  rewrite Ec, map_map, qsum_seq. apply sumQ_ext. intros lag Hl. simpl. rewrite qdot_map. rewrite qsum_seq. reflexivity.
Qed.
