(** Facts about the simulators of Model/Simulators.v. *)

From Coq Require Import List Arith Bool ZArith QArith Lia Permutation.
From Verif Require Import Model.Py Model.Graph Model.Networkx Model.SHP Model.Simulators
  Spec.Digraphs Spec.Sums Proofs.NumpyFacts Proofs.NxFacts Proofs.SHPTerm.
Import ListNotations.
Open Scope nat_scope.

(* ---------- sums ---------- *)
Lemma qsum_cons : forall a l, (qsum (a :: l) == a + qsum l)%Q.
Proof.
  intros a l. unfold qsum. simpl.
  assert (G : forall l x y, (fold_left Qplus l (x + y) == x + fold_left Qplus l y)%Q).
  { clear. induction l as [|b l IH]; intros x y; simpl; [reflexivity|].
    rewrite <- IH. assert (F : forall l a b, (a == b)%Q -> (fold_left Qplus l a == fold_left Qplus l b)%Q).
    { clear. induction l; intros c d H; simpl; auto. apply IHl. rewrite H. reflexivity. }
    apply F. ring. }
  assert (F : forall l a b, (a == b)%Q -> (fold_left Qplus l a == fold_left Qplus l b)%Q).
  { clear. induction l; intros c d H; simpl; auto. apply IHl. rewrite H. reflexivity. }
  rewrite <- G. apply F. ring.
Qed.

Lemma qsum_app : forall l1 l2, (qsum (l1 ++ l2) == qsum l1 + qsum l2)%Q.
Proof.
  induction l1 as [|a l1 IH]; intro l2; simpl app; [unfold qsum at 2; simpl; ring|].
  rewrite !qsum_cons, IH. ring.
Qed.

Lemma qsum_map_ext : forall {A} (f g : A -> Q) l, (forall x, In x l -> (f x == g x)%Q) -> (qsum (map f l) == qsum (map g l))%Q.
Proof.
  intros A f g l H. induction l as [|a l IH]; simpl; [reflexivity|].
  rewrite !qsum_cons, (H a), IH; [reflexivity| |left; auto]. intros x Hx. apply H. right. auto.
Qed.

Lemma qsum_seq : forall f n, (qsum (map f (seq 0 n)) == sumQ n f)%Q.
Proof.
  intros f n. induction n as [|n IH]; [reflexivity|].
  rewrite seq_S, map_app, qsum_app, IH. simpl. unfold qsum. simpl. ring.
Qed.

Lemma qsum_filter : forall {A} (p : A -> bool) f l, (qsum (map f (filter p l)) == qsum (map (fun x => if p x then f x else 0%Q) l))%Q.
Proof.
  intros A p f l. induction l as [|a l IH]; simpl; [reflexivity|].
  destruct (p a); simpl; rewrite ?qsum_cons, IH; [reflexivity|ring].
Qed.

Lemma combine_map_same : forall {A B C} (f : A -> B) (g : A -> C) l, combine (map f l) (map g l) = map (fun x => (f x, g x)) l.
Proof. induction l; simpl; congruence. Qed.

Lemma qdot_map : forall {A} (f g : A -> Q) l, qdot (map f l) (map g l) = qsum (map (fun x => (f x * g x)%Q) l).
Proof. intros. unfold qdot. rewrite combine_map_same, map_map. auto. Qed.

Lemma sumQ_ext : forall n f g, (forall i, i < n -> (f i == g i)%Q) -> (sumQ n f == sumQ n g)%Q.
Proof.
  induction n as [|n IH]; intros f g H; simpl; [reflexivity|]. rewrite (IH f g), (H n); auto; reflexivity.
Qed.

(* ---------- columns ---------- *)
(** [ns] rows of [n] entries. *)
Definition qshape (ns n : nat) (X : list (list Q)) : Prop := length X = ns /\ forall r, In r X -> length r = n.

Lemma get_cols_alt : forall X idx, get_cols X idx = map (fun k => map (fun i => qget X k i) idx) (seq 0 (length X)).
Proof.
  intros X idx. unfold get_cols, qget. apply nth_ext with (d := []) (d' := []).
  - rewrite !map_length, seq_length. auto.
  - intros k Hk. rewrite map_length in Hk. rewrite nth_map_seq by auto.
    rewrite (nth_indep _ [] (map (fun i => nth i [] 0%Q) idx)) by (rewrite map_length; auto).
    rewrite (map_nth (fun r => map (fun i => nth i r 0%Q) idx)). auto.
Qed.

Lemma set_col_length : forall X j vs, length vs = length X -> length (set_col X j vs) = length X.
Proof. intros. unfold set_col. rewrite map_length, combine_length. lia. Qed.

Lemma qget_set_col : forall ns n X j vs k i, qshape ns n X -> length vs = ns -> j < n -> k < ns ->
  qget (set_col X j vs) k i = if Nat.eqb j i then nth k vs 0%Q else qget X k i.
Proof.
  intros ns n X j vs k i [L R] Lv Hj Hk. unfold qget, set_col.
  rewrite (nth_indep _ [] (set_nth j (snd (([] : list Q), 0%Q)) (fst (([] : list Q), 0%Q))))
    by (rewrite map_length, combine_length; lia).
  rewrite (map_nth (fun p : list Q * Q => set_nth j (snd p) (fst p))).
  rewrite combine_nth by lia. simpl. rewrite nth_set_nth.
  - destruct (Nat.eqb_spec j i); auto.
  - rewrite (R (nth k X [])); auto. apply nth_In. lia.
Qed.

Lemma qshape_set_col : forall ns n X j vs, qshape ns n X -> length vs = ns -> qshape ns n (set_col X j vs).
Proof.
  intros ns n X j vs [L R] Lv. split; [rewrite set_col_length; lia|].
  intros r Hr. unfold set_col in Hr. apply in_map_iff in Hr. destruct Hr as [[x q] [<- Hin]]. simpl.
  rewrite set_nth_length. apply R. apply in_combine_l in Hin. auto.
Qed.

Lemma qshape_zeros : forall ns n, qshape ns n (qzeros ns n).
Proof.
  intros ns n. split; [apply repeat_length|]. intros r Hr. apply repeat_spec in Hr. subst. apply repeat_length.
Qed.

Section Fill.
  Variable f : nat -> list (list Q) -> res (list Q).
  Variable pred : nat -> list nat.
  Variable ns n : nat.

  (** Columns that are not in the order keep their values. *)
  Lemma fill_keep : forall order X Y,
    (forall j P vs, f j P = Ok vs -> length P = ns -> length vs = ns) ->
    qshape ns n X -> (forall j, In j order -> j < n) -> fill f pred order X = Ok Y ->
    qshape ns n Y /\ forall k i, k < ns -> ~ In i order -> qget Y k i = qget X k i.
  Proof.
    intros order X Y Hf. revert X. induction order as [|j r IH]; intros X S Hn H; simpl in H.
    - inversion H; subst. auto.
    - destruct (f j (get_cols X (pred j))) as [vs|e] eqn:Ef; simpl in H; [|discriminate].
      assert (Lv : length vs = ns).
      { apply (Hf j _ _ Ef). unfold get_cols. rewrite map_length. apply S. }
      destruct (IH (set_col X j vs)) as [SY K]; auto.
      + apply qshape_set_col; auto.
      + intros; apply Hn; right; auto.
      + split; auto. intros k i Hk Hi. rewrite K; auto; [|intro; apply Hi; right; auto].
        rewrite (qget_set_col ns n); auto; [|apply Hn; left; auto].
        destruct (Nat.eqb_spec j i); auto. subst. exfalso. apply Hi. left. auto.
  Qed.

  Lemma get_cols_ext : forall X Y idx, length X = ns -> length Y = ns ->
    (forall k i, k < ns -> In i idx -> qget X k i = qget Y k i) -> get_cols X idx = get_cols Y idx.
  Proof.
    intros X Y idx LX LY H. rewrite !get_cols_alt, LX, LY. apply map_ext_in. intros k Hk. apply in_seq in Hk.
    apply map_ext_in. intros i Hi. apply H; auto. lia.
  Qed.

  (** In the result every column is the function applied to the parent columns
      of the result. *)
  Lemma fill_fix : forall order done X Y,
    (forall j P vs, f j P = Ok vs -> length P = ns -> length vs = ns) ->
    qshape ns n X -> (forall j, In j order -> j < n) -> NoDup (done ++ order) ->
    (forall l1 j l2, order = l1 ++ j :: l2 -> forall p, In p (pred j) -> In p (done ++ l1)) ->
    fill f pred order X = Ok Y ->
    forall j, In j order -> exists vs, f j (get_cols Y (pred j)) = Ok vs /\ length vs = ns /\
      forall k, k < ns -> qget Y k j = nth k vs 0%Q.
  Proof.
    intros order. induction order as [|a r IH]; intros done X Y Hf S Hn ND Hp H j Hj; [destruct Hj|].
    pose proof H as H0. simpl in H.
    destruct (f a (get_cols X (pred a))) as [vs|e] eqn:Ef; simpl in H; [|discriminate].
    assert (Lv : length vs = ns).
    { apply (Hf a _ _ Ef). unfold get_cols. rewrite map_length. apply S. }
    assert (Sc : qshape ns n (set_col X a vs)) by (apply qshape_set_col; auto).
    assert (Hr : forall j, In j r -> j < n) by (intros; apply Hn; right; auto).
    destruct (fill_keep r (set_col X a vs) Y Hf Sc Hr H) as [SY K].
    destruct Hj as [<-|Hj].
    - exists vs. split; [|split; [exact Lv|]].
      + rewrite <- Ef. f_equal. apply get_cols_ext; [apply SY|apply S|].
        intros k i Hk Hi. assert (Hd : In i done).
        { specialize (Hp [] a r eq_refl i Hi). rewrite app_nil_r in Hp. auto. }
        assert (Ni : ~ In i (a :: r)).
        { intro C. apply (NoDup_remove_2 done r a) in ND as ND2.
          destruct C as [->|C].
          - apply ND2. apply in_or_app. auto.
          - clear - ND Hd C. induction done as [|b d IHd]; [destruct Hd|]. simpl in ND. inversion ND; subst.
            destruct Hd as [->|Hd]; auto. apply H1. apply in_or_app. right. right. auto. }
        rewrite K; auto; [|intro; apply Ni; right; auto].
        rewrite (qget_set_col ns n); auto; [|apply Hn; left; auto].
        destruct (Nat.eqb_spec a i); auto. subst. exfalso. apply Ni. left. auto.
      + intros k Hk. rewrite K; auto.
        * rewrite (qget_set_col ns n); auto; [|apply Hn; left; auto]. rewrite Nat.eqb_refl. auto.
        * intro C. apply NoDup_remove_2 in ND. apply ND. apply in_or_app. auto.
    - apply (IH (done ++ [a]) (set_col X a vs) Y); auto.
      + rewrite <- app_assoc. auto.
      + intros l1 b l2 E p Hpp. rewrite <- app_assoc. simpl. apply (Hp (a :: l1) b l2); auto. simpl. rewrite E. auto.
  Qed.

  Lemma fill_total : forall order X,
    (forall j P, In j order -> length P = ns -> (forall r, In r P -> length r = length (pred j)) ->
       exists vs, f j P = Ok vs /\ length vs = ns) ->
    length X = ns -> exists Y, fill f pred order X = Ok Y.
  Proof.
    induction order as [|a r IH]; intros X Hf LX; simpl; eauto.
    destruct (Hf a (get_cols X (pred a))) as [vs [E Lv]].
    - left. auto.
    - unfold get_cols. rewrite map_length. auto.
    - intros x Hx. unfold get_cols in Hx. apply in_map_iff in Hx. destruct Hx as [y [<- _]]. rewrite map_length. auto.
    - rewrite E. simpl. apply IH.
      + intros; apply Hf; auto. right. auto.
      + rewrite set_col_length; lia.
  Qed.
End Fill.

(* ---------- simulate_dag ---------- *)
Lemma simulate_dag_cyclic : forall f W ns, ~ acyclic (E (length W) (nonzero W)) -> simulate_dag f W ns = Err ValueError.
Proof.
  intros f W ns H. unfold simulate_dag.
  destruct (topological_sort_ok (length W) (nonzero W)) as [[A _]|[_ T]]; [contradiction|].
  unfold nx_is_dag. rewrite T. auto.
Qed.

Lemma topo_perm_fill : forall n adj l, topological n adj l ->
  NoDup l /\ (forall j, In j l <-> j < n) /\ length l = n /\
  forall l1 j l2, l = l1 ++ j :: l2 -> forall p, In p (nx_predecessors n adj j) -> In p l1.
Proof.
  intros n adj l [P H].
  assert (I : forall j, In j l <-> j < n).
  { intro j. split; intro Hj.
    - apply (Permutation_in _ P) in Hj. apply in_seq in Hj. lia.
    - apply (Permutation_in _ (Permutation_sym P)). apply in_seq. lia. }
  repeat split; try apply I.
  - apply (Permutation_NoDup (Permutation_sym P)). apply seq_NoDup.
  - apply Permutation_length in P. rewrite seq_length in P. auto.
  - intros l1 j l2 El p Hp. apply (H l1 j l2 El). unfold nx_predecessors in Hp. apply filter_In in Hp.
    destruct Hp as [Hs Ha]. apply in_seq in Hs. unfold E. repeat split; auto; [lia|].
    apply I. rewrite El. apply in_or_app. right. left. auto.
Qed.

Lemma simulate_dag_inv : forall f W ns Y,
  (forall j P vs, f j P = Ok vs -> length P = ns -> length vs = ns) ->
  simulate_dag f W ns = Ok Y ->
  acyclic (E (length W) (nonzero W)) /\ qshape ns (length W) Y /\
  forall j, j < length W -> exists vs, f j (get_cols Y (nx_predecessors (length W) (nonzero W) j)) = Ok vs /\
    length vs = ns /\ forall k, k < ns -> qget Y k j = nth k vs 0%Q.
Proof.
  intros f W ns Y Hf H.
  destruct (topological_sort_ok (length W) (nonzero W)) as [[A [l [T Tl]]]|[A T]].
  - split; auto. unfold simulate_dag, nx_is_dag in H. rewrite T in H. simpl in H.
    destruct (topo_perm_fill _ _ _ Tl) as [ND [I [L Pr]]]. rewrite L, Nat.eqb_refl in H. simpl in H.
    split.
    + apply (fill_keep f (nx_predecessors (length W) (nonzero W)) ns (length W) l (qzeros ns (length W)) Y); auto. apply qshape_zeros. apply I.
    + intros j Hj. apply (fill_fix f _ ns (length W) l [] (qzeros ns (length W)) Y); auto.
      apply qshape_zeros. apply I. apply I. auto.
  - rewrite simulate_dag_cyclic in H by auto. discriminate.
Qed.

Lemma simulate_dag_total : forall f W ns, acyclic (E (length W) (nonzero W)) ->
  (forall j P, j < length W -> length P = ns ->
     (forall r, In r P -> length r = length (nx_predecessors (length W) (nonzero W) j)) ->
     exists vs, f j P = Ok vs /\ length vs = ns) ->
  exists Y, simulate_dag f W ns = Ok Y.
Proof.
  intros f W ns A Hf.
  destruct (topological_sort_ok (length W) (nonzero W)) as [[_ [l [T Tl]]]|[B _]]; [|contradiction].
  unfold simulate_dag, nx_is_dag. rewrite T. simpl.
  destruct (topo_perm_fill _ _ _ Tl) as [ND [I [L Pr]]]. rewrite L, Nat.eqb_refl. simpl.
  apply (fill_total f _ ns).
  - intros j P Hj. apply Hf. apply I. auto.
  - apply qshape_zeros.
Qed.
