(** Facts about TetradMethod.py and FindCausalCluster.py. *)

From Coq Require Import List Arith Bool Lia Permutation Sorting.Sorted.
From Verif Require Import Model.Py Model.LHS Proofs.PyFacts Proofs.MergeFacts Proofs.LHSFacts Spec.Clusters.
Import ListNotations.
Open Scope nat_scope.

Lemma all_res_total : forall {A} (f : A -> res bool) l, (forall a, In a l -> exists b, f a = Ok b) -> exists b, all_res f l = Ok b.
Proof.
  induction l as [|a l IH]; simpl; intros H; [eauto|].
  destruct (H a (or_introl eq_refl)) as [b ->]. cbn [rbind]. destruct b; eauto.
Qed.

Lemma any_res_total : forall {A} (f : A -> res bool) l, (forall a, In a l -> exists b, f a = Ok b) -> exists b, any_res f l = Ok b.
Proof.
  induction l as [|a l IH]; simpl; intros H; [eauto|].
  destruct (H a (or_introl eq_refl)) as [b ->]. cbn [rbind]. destruct b; eauto.
Qed.

Lemma all_res_true : forall {A} (f : A -> res bool) l, all_res f l = Ok true <-> forall a, In a l -> f a = Ok true.
Proof.
  induction l as [|a l IH]; simpl.
  - split; auto. intros _ a [].
  - split.
    + destruct (f a) as [[|]|] eqn:E; cbn [rbind]; try discriminate. intros H b [<-|Hb]; auto. apply IH; auto.
    + intro H. rewrite (H a (or_introl eq_refl)). cbn [rbind]. apply IH. auto.
Qed.

Lemma any_res_spec : forall {A} (f : A -> res bool) l b, (forall a, In a l -> exists b, f a = Ok b) -> any_res f l = Ok b ->
  (b = true <-> exists a, In a l /\ f a = Ok true).
Proof.
  induction l as [|a l IH]; simpl; intros b T H.
  - inversion H; subst. split; [discriminate|intros [a [[] _]]].
  - destruct (T a (or_introl eq_refl)) as [c E]. rewrite E in H. cbn [rbind] in H. destruct c.
    + inversion H; subst. split; auto. intros _. exists a. auto.
    + rewrite (IH b (fun a Ha => T a (or_intror Ha)) H). split.
      * intros [x [Hx Fx]]. eauto.
      * intros [x [[<-|Hx] Fx]]; [congruence|eauto].
Qed.

Lemma col_total : forall d v, In v (columns d) -> exists c, col d v = Ok c.
Proof.
  intros d v H. unfold col, dgetE. destruct (dget Nat.eqb d v) eqn:E; [eauto|].
  exfalso. apply (dget_None_key _ Neqb_spec) in E. auto.
Qed.

Lemma vanishes_total : forall vt d a b c e, In a (columns d) -> In b (columns d) -> In c (columns d) -> In e (columns d) ->
  exists r, vanishes vt d a b c e = Ok r.
Proof.
  intros vt d a b c e Ha Hb Hc He. unfold vanishes.
  destruct (col_total d a Ha) as [? ->], (col_total d b Hb) as [? ->], (col_total d c Hc) as [? ->], (col_total d e He) as [? ->].
  simpl. eauto.
Qed.

Lemma outside_In : forall d C x, In x (set_minus (py_set (columns d)) C) <-> In x (columns d) /\ ~ In x C.
Proof. intros. rewrite set_minus_In, py_set_In. tauto. Qed.

Lemma check_total : forall ord vt C d, ord_ok ord -> incl C (columns d) -> exists b, check_cluster ord vt C d = Ok b.
Proof.
  intros ord vt C d O I. unfold check_cluster. destruct (Nat.ltb _ 2); [eauto|].
  apply all_res_total. intros [a b] H. apply in_comb2_In in H. apply all_res_total. intros [c e] H2.
  apply in_comb2_In in H2. destruct H2 as [Hc He]. apply (proj1 (ord_In ord _ _ O)) in Hc. apply (proj1 (ord_In ord _ _ O)) in He. apply outside_In in Hc, He. simpl.
  apply vanishes_total; [apply I; tauto|apply I; tauto|tauto|tauto].
Qed.

Lemma judge_total : forall ord vt C d, ord_ok ord -> incl C (columns d) -> 2 <= length C -> exists b, judge_pure ord vt C d = Ok b.
Proof.
  intros ord vt C d O I L. unfold judge_pure. destruct C as [|a [|b C]]; simpl in L; try lia.
  apply any_res_total. intros [c e] H2. apply in_comb2_In in H2. destruct H2 as [Hc He]. apply (proj1 (ord_In ord _ _ O)) in Hc. apply (proj1 (ord_In ord _ _ O)) in He. apply outside_In in Hc, He. simpl.
  apply vanishes_total; [apply I; simpl; auto|tauto|apply I; simpl; auto|tauto].
Qed.

Lemma find_pairs_ok : forall check ps B,
  (forall p, In p ps -> exists b, check [fst p; snd p] = Ok b) ->
  exists fs B', find_pairs check ps B = Ok (fs, B') /\
    (forall c, In c fs <-> exists p, In p ps /\ c = [fst p; snd p] /\ check c = Ok true) /\
    (forall x, In x B' <-> In x B /\ forall c, In c fs -> ~ In x c) /\
    (NoDup B -> NoDup B').
Proof.
  induction ps as [|p ps IH]; simpl; intros B T.
  - exists [], B. split; auto. split; [intro c; split; [intros []|intros [q [[] _]]]|]. split; auto.
    intro x. split; [intro; split; auto; intros c []|tauto].
  - destruct (T p (or_introl eq_refl)) as [b E]. rewrite E. cbn [rbind].
    destruct (IH (if b then set_minus B [fst p; snd p] else B) (fun q Hq => T q (or_intror Hq))) as [fs [B' [E' [HF [HB HN]]]]].
    rewrite E'. cbn [rbind fst snd].
    exists (if b then [fst p; snd p] :: fs else fs), B'. split; [destruct b; auto|]. split; [|split].
    + intro c. destruct b; simpl; rewrite HF.
      * split.
        -- intros [<-|[q [Hq H]]]; [exists p|exists q]; auto.
        -- intros [q [[<-|Hq] [-> Hc]]]; [auto|right; exists q; auto].
      * split.
        -- intros [q [Hq H]]; exists q; auto.
        -- intros [q [[<-|Hq] [-> Hc]]]; [congruence|exists q; auto].
    + intro x. rewrite HB. destruct b; simpl; [rewrite set_minus_In|]; [|tauto].
      split.
      * intros [[A C] D]. split; auto. intros c [<-|Hc]; auto.
      * intros [A C]. split; [split|]; auto.
    + intro N. apply HN. destruct b; auto. apply NoDup_filter. auto.
Qed.

Lemma split_pure_ok : forall judge Ls P I,
  (forall c, In c Ls -> length c <= 2 -> exists b, judge c = Ok b) ->
  exists P' I', split_pure judge Ls P I = Ok (P ++ P', I ++ I') /\
    Permutation Ls (P' ++ I') /\
    (forall c, In c P' -> 2 < length c \/ judge c = Ok true) /\
    (forall c, In c I' -> length c <= 2 /\ judge c = Ok false).
Proof.
  induction Ls as [|c Ls IH]; simpl; intros P I T.
  - exists [], []. rewrite !app_nil_r. split; auto. split; auto. split; intros c [].
  - assert (T' : forall c, In c Ls -> length c <= 2 -> exists b, judge c = Ok b) by auto.
    destruct (Nat.ltb_spec 2 (length c)).
    + destruct (IH (P ++ [c]) I T') as [P' [I' [E [Q [A B]]]]]. exists (c :: P'), I'.
      rewrite E, <- app_assoc. split; auto. split; [simpl; auto|]. split; auto.
      intros x [<-|Hx]; auto.
    + destruct (T c (or_introl eq_refl) H) as [b E]. rewrite E. cbn [rbind]. destruct b.
      * destruct (IH (P ++ [c]) I T') as [P' [I' [E' [Q [A B]]]]]. exists (c :: P'), I'.
        rewrite E', <- app_assoc. split; auto. split; [simpl; auto|]. split; auto.
        intros x [<-|Hx]; auto.
      * destruct (IH P (I ++ [c]) T') as [P' [I' [E' [Q [A B]]]]]. exists P', (c :: I').
        rewrite E', <- app_assoc. split; auto. split; [apply Permutation_cons_app; auto|]. split; auto.
        intros x [<-|Hx]; auto.
Qed.

Lemma find_sized_ok : forall check Ss Ls I B, (forall c, In c Ss -> exists b, check c = Ok b) ->
  exists N B', find_sized check Ss Ls I B = Ok (Ls ++ N, I ++ N, B') /\
    (forall c, In c N <-> In c Ss /\ check c = Ok true) /\
    (forall x, In x B' <-> In x B /\ forall c, In c N -> ~ In x c) /\ length B' <= length B /\ (NoDup B -> NoDup B').
Proof.
  induction Ss as [|c Ss IH]; simpl; intros Ls I B T.
  - exists [], B. rewrite !app_nil_r. split; auto. split; [intro c; simpl; tauto|]. split; auto.
    intro x. split; [intro; split; auto; intros c []|tauto].
  - destruct (T c (or_introl eq_refl)) as [b E]. rewrite E. cbn [rbind]. destruct b.
    + destruct (IH (Ls ++ [c]) (I ++ [c]) (set_minus B c) (fun x Hx => T x (or_intror Hx))) as [N [B' [E' [HN [HB [HL HD]]]]]].
      exists (c :: N), B'. rewrite E', <- !app_assoc. split; auto. split; [|split; [|split]].
      * intro x. simpl. rewrite HN. split; [intros [<-|[A F]]; auto|intros [[<-|A] F]; auto].
      * intro x. rewrite HB, set_minus_In. split.
        -- intros [[A F] G]. split; auto. intros y [<-|Hy]; auto.
        -- intros [A F]. split; [split; auto; apply F; left; auto|]. intros y Hy. apply F. right. auto.
      * pose proof (set_minus_length B c). lia.
      * intro ND. apply HD. apply NoDup_filter. auto.
    + destruct (IH Ls I B (fun x Hx => T x (or_intror Hx))) as [N [B' [E' [HN [HB [HL HD]]]]]].
      exists N, B'. rewrite E'. split; auto. split; [|auto].
      intro x. rewrite HN. split; [tauto|]. intros [[<-|A] F]; auto. congruence.
Qed.

(** The clusters of the second phase, size by size. *)
Lemma find_larger_ok : forall fuel ord check n len Ls I B,
  ord_ok ord -> n <= fuel + (len + 2) -> NoDup B ->
  (forall c, incl c B -> exists b, check c = Ok b) ->
  exists N, find_larger fuel ord check n len Ls I B = Ok (Ls ++ N, I ++ N) /\
    (forall c, In c N -> NoDup c /\ incl c B /\ len <= length c /\ length c + 2 < n /\ check c = Ok true) /\
    (forall c c', In c N -> In c' N -> length c <> length c' -> forall x, In x c -> ~ In x c').
Proof.
  induction fuel as [|fuel IH]; intros ord check n len Ls I B O F ND T.
  - exists []. rewrite !app_nil_r. cbn [find_larger].
    destruct (Nat.ltb_spec (len + 2) n); [lia|]. rewrite andb_false_r. split; auto. split; [intros c []|intros c c' []].
  - cbn [find_larger]. destruct (Nat.leb_spec len (length B)); simpl andb.
    2:{ exists []. rewrite !app_nil_r. split; auto. split; [intros c []|intros c c' []]. }
    destruct (Nat.ltb_spec (len + 2) n).
    2:{ exists []. rewrite !app_nil_r. split; auto. split; [intros c []|intros c c' []]. }
    assert (CI : forall c, In c (combinations (ord B) len) -> incl c B).
    { intros c Hc x Hx. apply (ord_In ord B x O). eapply combinations_incl; eauto. }
    destruct (find_sized_ok check (combinations (ord B) len) Ls I B) as [N [B' [E [HN [HB [HL HD]]]]]].
    { intros c Hc. apply T. auto. }
    rewrite E. cbn [rbind fst snd].
    destruct (IH ord check n (S len) (Ls ++ N) (I ++ N) B') as [N2 [E2 [A D]]]; auto.
    { lia. }
    { intros c Hc. apply T. intros x Hx. apply Hc in Hx. apply HB in Hx. tauto. }
    exists (N ++ N2). rewrite E2, <- !app_assoc. split; auto.
    assert (NB : forall c, In c N -> NoDup c /\ incl c B /\ length c = len /\ check c = Ok true).
    { intros c Hc. apply HN in Hc. destruct Hc as [Hc Ck]. split; [|split; [auto|split; auto]].
      - eapply combinations_NoDup; [|exact Hc]. apply Permutation_NoDup with B; auto. apply Permutation_sym. auto.
      - eapply combinations_length; eauto. }
    split.
    + intros c Hc. apply in_app_iff in Hc. destruct Hc as [Hc|Hc].
      * destruct (NB c Hc) as [N1 [N3 [N4 N5]]]. repeat split; auto; lia.
      * destruct (A c Hc) as [N1 [N3 [N4 [N5 N6]]]]. repeat split; auto; try lia.
        intros x Hx. apply N3 in Hx. apply HB in Hx. tauto.
    + intros c c' Hc Hc' Hl x Hx Hx'. apply in_app_iff in Hc. apply in_app_iff in Hc'.
      destruct Hc as [Hc|Hc], Hc' as [Hc'|Hc'].
      * destruct (NB c Hc) as [_ [_ [N4 _]]], (NB c' Hc') as [_ [_ [N4' _]]]. lia.
      * destruct (A c' Hc') as [_ [N3 _]]. apply N3 in Hx'. apply HB in Hx'. destruct Hx' as [_ Z]. exact (Z c Hc Hx).
      * destruct (A c Hc) as [_ [N3 _]]. apply N3 in Hx. apply HB in Hx. destruct Hx as [_ Z]. exact (Z c' Hc' Hx').
      * exact (D c c' Hc Hc' Hl x Hx Hx').
Qed.

Lemma linked_sub : forall L x y, linked L x y -> (exists a, In a L /\ In x a) /\ exists b, In b L /\ In y b.
Proof.
  intros L x y H. induction H; split.
  - eauto.
  - eauto.
  - exact (proj1 IHlinked).
  - eauto.
Qed.

(** A pair of input variables stays together, so merged pairs have two elements. *)
Lemma sorted_two : forall (c : list nat) x y, In x c -> In y c -> x <> y -> 2 <= length c.
Proof.
  intros [|a [|b c]] x y Hx Hy N; simpl in *; [tauto| |lia].
  exfalso. apply N. transitivity a; [symmetry|]; tauto.
Qed.

Lemma find_causal_cluster_ok : forall ord vt d pure impure, ord_ok ord -> NoDup (columns d) ->
  exists L1 L2 P I pairs,
    find_causal_cluster ord vt d pure impure = Ok (L1 ++ L2, pure ++ P, impure ++ I ++ L2, pairs) /\
    (forall c, In c pairs <-> exists p, In p (comb2 (columns d)) /\ c = [fst p; snd p] /\ check_cluster ord vt c d = Ok true) /\
    (forall c, In c L1 -> StronglySorted lt c /\ 2 <= length c) /\
    pairwise_disjoint L1 /\
    (forall x y, (exists c, In c L1 /\ In x c /\ In y c) <-> linked pairs x y) /\
    Permutation L1 (P ++ I) /\
    (forall c, In c P -> 2 < length c \/ judge_pure ord vt c d = Ok true) /\
    (forall c, In c I -> length c = 2 /\ judge_pure ord vt c d = Ok false) /\
    (forall c, In c L2 -> NoDup c /\ incl c (columns d) /\ 3 <= length c /\ check_cluster ord vt c d = Ok true) /\
    (forall c c', In c L2 -> In c' L1 -> forall x, In x c -> ~ In x c') /\
    (forall c c', In c L2 -> In c' L2 -> length c <> length c' -> forall x, In x c -> ~ In x c').
Proof.
  intros ord vt d pure impure O ND. unfold find_causal_cluster.
  destruct (find_pairs_ok (fun S => check_cluster ord vt S d) (comb2 (columns d)) (columns d)) as [fs [B [E [HF [HB HN]]]]].
  { intros [a b] H. apply in_comb2_In in H. apply check_total; auto. intros x [<-|[<-|[]]]; simpl; tauto. }
  rewrite E. cbn [rbind fst snd].
  destruct (merge_list_correct fs ord O) as [L1 [E1 [S1 [D1 K1]]]]. rewrite E1. cbn [rbind].
  assert (L1sub : forall c x, In c L1 -> In x c -> exists b, In b fs /\ In x b).
  { intros c x Hc Hx. assert (LK : linked fs x x) by (apply K1; eauto). apply linked_sub in LK. tauto. }
  assert (FC : forall b x, In b fs -> In x b -> In x (columns d)).
  { intros b x Hb Hx. apply HF in Hb. destruct Hb as [[u v] [Hp [-> _]]]. apply in_comb2_In in Hp.
    destruct Hx as [<-|[<-|[]]]; simpl; tauto. }
  assert (L1two : forall c, In c L1 -> 2 <= length c).
  { intros c Hc. destruct c as [|x c'] eqn:Ec.
    - exfalso. apply (merge_list_nonempty fs ord L1 O E1 ) in Hc; auto.
      intros a Ha. apply HF in Ha. destruct Ha as [p [_ [-> _]]]. discriminate.
    - rewrite <- Ec in *. assert (Hx : In x c) by (rewrite Ec; left; auto).
      destruct (L1sub c x Hc Hx) as [b [Hb Hxb]]. pose proof Hb as Hb'.
      apply HF in Hb. destruct Hb as [[u v] [Hp [-> _]]]. simpl in *.
      pose proof (in_comb2_neq _ _ _ ND Hp) as UV.
      assert (LU : linked fs x u) by (eapply linked_in; eauto; simpl; auto).
      assert (LV : linked fs x v) by (eapply linked_in; eauto; simpl; auto).
      apply K1 in LU. apply K1 in LV. destruct LU as [c1 [Hc1 [X1 U1]]], LV as [c2 [Hc2 [X2 U2]]].
      assert (Same : forall c3, In c3 L1 -> In x c3 -> c3 = c).
      { intros c3 H3 X3. destruct (In_nth _ _ [] Hc) as [i [Hi Ei]], (In_nth _ _ [] H3) as [j [Hj Ej]].
        destruct (Nat.eq_dec i j) as [->|N]; [congruence|]. exfalso.
        apply (D1 i j x N); [rewrite Ei|rewrite Ej]; auto. }
      rewrite (Same c1), (Same c2) in * by auto. exact (sorted_two c u v U1 U2 UV). }
  destruct (split_pure_ok (fun S => judge_pure ord vt S d) L1 pure impure) as [P [I [E2 [Q [QP QI]]]]].
  { intros c Hc _. apply judge_total; auto. intros x Hx. destruct (L1sub c x Hc Hx) as [b [Hb Hxb]]. eauto. }
  rewrite E2. cbn [rbind fst snd].
  destruct (find_larger_ok (length (columns d)) ord (fun S => check_cluster ord vt S d) (length (columns d)) 3 L1 (impure ++ I) B)
    as [L2 [E3 [A2 D2]]]; auto.
  { lia. }
  { intros c Hc. apply check_total; auto. intros x Hx. apply Hc in Hx. apply HB in Hx. tauto. }
  rewrite E3. cbn [rbind fst snd]. exists L1, L2, P, I, fs. rewrite <- app_assoc.
  split; [auto|]. split; [exact HF|]. split; [intros; split; auto|]. split; [auto|]. split; [exact K1|]. split; [auto|].
  split; [auto|]. split.
  { intros c Hc. destruct (QI c Hc) as [A B']. split; auto.
    assert (In c L1) by (eapply Permutation_in; [symmetry; exact Q|apply in_app_iff; auto]).
    pose proof (L1two c H). lia. }
  split.
  { intros c Hc. destruct (A2 c Hc) as [N1 [N2 [N3 [N4 N5]]]]. repeat split; auto.
    intros x Hx. apply N2 in Hx. apply HB in Hx. tauto. }
  split; auto.
  intros c c' Hc Hc' x Hx Hx'. destruct (A2 c Hc) as [_ [N2 _]]. apply N2 in Hx. apply HB in Hx. destruct Hx as [_ Z].
  destruct (L1sub c' x Hc' Hx') as [b [Hb Hxb]]. exact (Z b Hb Hxb).
Qed.
