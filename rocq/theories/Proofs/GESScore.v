(** GES: a valid operator applied to the essential graph of a class leads to an
    extendable PDAG, and its score change is the difference of the total scores
    (Chickering 2002, theorems 15 and 17). *)

From Coq Require Import List Arith Bool Lia ZArith QArith Sorted Permutation Lqa.
From Verif Require Import Model.Py Model.Graph Model.DiGraph Model.PDAG Model.Pdag2Dag Model.GES.
From Verif Require Import Spec.API Spec.Digraphs Spec.PDAGs Spec.Totals.
From Verif Require Import Proofs.PyFacts Proofs.GraphFacts Proofs.DiGraphFacts Proofs.RelExt Proofs.HistoryFacts Proofs.NumpyFacts
  Proofs.PDAGFacts Proofs.MeekFacts Proofs.CpdagFacts Proofs.Pdag2DagFacts Proofs.FinGraph Proofs.Chordal Proofs.MeekComplete
  Proofs.CliqueRoot Proofs.CoveredFacts Proofs.TotalFacts.
From Verif Require Import Spec.GESSpec Proofs.GESSubsets Proofs.GESPaths Proofs.GESScan Proofs.GESFit.
Import ListNotations.
Open Scope nat_scope.

(** Two consistent extensions of a PDAG are Markov equivalent. *)
Lemma extensions_equiv : forall p E F, extension p E -> extension p F -> markov_equiv E F.
Proof.
  intros p E F [AE [SE [DE VE]]] [AF [SF [DF VF]]].
  assert (A : forall u v, adjacent E u v <-> adjacent F u v).
  { intros u v. destruct (Nat.eq_dec u v) as [->|N]; [|rewrite <- SE, <- SF; tauto].
    split; intros [H|H]; exfalso; [apply (AE v)|apply (AE v)|apply (AF v)|apply (AF v)]; econstructor; eauto; constructor. }
  assert (NE : forall E' : nat -> nat -> Prop, acyclic E' -> forall u v, E' u v -> u <> v).
  { intros E' AE' u v H ->. apply (AE' v). econstructor; [exact H|constructor]. }
  split; auto. intros u w v. split; intros [H1 [H2 [N NA]]].
  - destruct (VE u w v) as [D1 D2]; [repeat split; auto|]. split; [apply DF; auto; eapply NE; [|exact H1]; auto|].
    split; [apply DF; auto; eapply NE; [|exact H2]; auto|]. split; auto. rewrite <- A. auto.
  - destruct (VF u w v) as [D1 D2]; [repeat split; auto|]. split; [apply DE; auto; eapply NE; [|exact H1]; auto|].
    split; [apply DE; auto; eapply NE; [|exact H2]; auto|]. split; auto. rewrite A. auto.
Qed.

Lemma last_default : forall (l : list nat) a b, l <> [] -> last l a = last l b.
Proof.
  induction l as [|x l IH]; intros a b H; [congruence|]. destruct l as [|y l]; auto.
  change (last (y :: l) a = last (y :: l) b). apply IH. discriminate.
Qed.

Lemma nodup_app : forall l l' : list nat, NoDup l -> NoDup l' -> (forall x, In x l -> ~ In x l') -> NoDup (l ++ l').
Proof.
  induction l as [|a l IH]; intros l' H1 H2 D; simpl; auto. inversion H1; subst. constructor.
  - rewrite in_app_iff. intros [Q|Q]; auto. apply (D a); simpl; auto.
  - apply IH; auto. intros x Hx. apply D. simpl; auto.
Qed.

Lemma dpath_snoc1 : forall (F : nat -> nat -> Prop) a b c, dpath F a b -> F b c -> dpath1 F a c.
Proof.
  intros F a b c D. revert c. induction D as [a|a d b Hd D IH]; intros c Fc.
  - econstructor; [exact Fc|constructor].
  - specialize (IH c Fc). inversion IH; subst. econstructor; [exact Hd|]. econstructor; eauto.
Qed.

(** A directed path in an acyclic graph as a list of distinct nodes. *)
Lemma dpath_list : forall F a b, acyclic F -> dpath F a b ->
  exists p, NoDup p /\ hd_error p = Some a /\ last p a = b /\ (forall x, In x p -> dpath F a x) /\
    (forall x, In x p -> x = a \/ exists z, F z x) /\
    forall (R : nat -> nat -> Prop), (forall u v, F u v -> R u v) ->
      (fix ch (p : list nat) : Prop := match p with u :: ((v :: _) as r) => R u v /\ ch r | _ => True end) p.
Proof.
  intros F a b AF P. induction P as [a|a c b H P IH].
  - exists [a]. split; [repeat constructor; auto|]. split; auto. split; auto. split.
    + intros x [<-|[]]. constructor.
    + split; auto. intros x [<-|[]]. auto.
  - destruct IH as [p [ND [Hh [Hl [Hr [Hn Hc]]]]]]. exists (a :: p). split; [|split; [|split; [|split; [|split]]]].
    + constructor; auto. intro Q. apply (AF a). econstructor; [exact H|auto].
    + auto.
    + destruct p as [|z p]; [discriminate|]. rewrite <- Hl. change (last (a :: z :: p) a) with (last (z :: p) a).
      apply last_default. discriminate.
    + intros x [<-|Hx]; [constructor|]. econstructor; eauto.
    + intros x [<-|Hx]; auto. destruct (Hn x Hx) as [->|Q]; eauto.
    + intros R HR. destruct p as [|z p]; auto. inversion Hh; subst z. split; auto. apply (Hc R HR).
Qed.

Section Step.
  Variables (n : nat) (g : graph) (E : nat -> nat -> Prop).
  Hypothesis G : good n g.
  Hypothesis Ed : forall u v, {E u v} + {~ E u v}.
  Hypothesis DE : dag_over n E.
  Hypothesis Es : essential g E.

  Let AE : acyclic E := proj1 DE.
  Let W : WF g := pg_wf g (gd_pg n g G).
  Let V := seq 0 n.
  Let EV : forall u v, E u v -> In u V /\ In v V.
  Proof. intros u v H. destruct (proj2 DE u v H). unfold V. rewrite !in_seq. lia. Qed.
  Let ndV : NoDup V := seq_NoDup n 0.

  Lemma E_neq : forall u v, E u v -> u <> v.
  Proof using DE. intros u v H ->. apply (proj1 DE v). econstructor; [exact H|constructor]. Qed.
  Lemma MD_neq : forall u v, MD E u v -> u <> v.
  Proof using DE. intros u v H. apply E_neq. apply MD_E; auto. Qed.
  Lemma MDor : forall u v, MD E u v \/ ~ MD E u v.
  Proof using Ed DE. apply (MD_or_not E V Ed EV AE). Qed.

  Lemma ess_con : forall u v, conp g u v <-> adjacent E u v.
  Proof using G DE Es.
    intros u v. destruct (Nat.eq_dec u v) as [->|N].
    - split; intro H; exfalso; [apply (gd_loop n g G v H)|]. destruct H as [H|H]; apply E_neq in H; auto.
    - rewrite <- (connected_p g u v W). apply Es. auto.
  Qed.
  Lemma MD_comp : forall u v, adjacent E u v -> (MD E u v <-> compelled E u v).
  Proof using Ed DE. intros. apply (MD_iff_compelled E V); auto. Qed.
  Lemma ess_dir : forall u v, dirp g u v <-> MD E u v.
  Proof using G Ed DE Es.
    intros u v. destruct (Nat.eq_dec u v) as [->|N].
    - split; intro H; exfalso; [|apply MD_neq in H; auto]. destruct H as [H1 H2]. congruence.
    - rewrite <- (directed_p g u v W). rewrite (proj1 (proj2 (Es u v N))). split.
      + intros [A C]. apply MD_comp; auto.
      + intro H. assert (A : adjacent E u v) by (apply MD_adj; auto). split; auto. apply MD_comp; auto.
  Qed.
  Lemma ess_und : forall u v, undp g u v <-> und E u v.
  Proof using G Ed DE Es.
    intros u v. destruct (Nat.eq_dec u v) as [->|N].
    - split; intro H; exfalso; [apply (gd_loop n g G v); apply undp_con; auto|apply (und_irr E AE v H)].
    - rewrite <- (undirected_p g u v W). rewrite (proj2 (proj2 (Es u v N))). unfold und. split.
      + intros [A [C1 C2]]. split; auto. rewrite !MD_comp; auto. apply adj_sym. auto.
      + intros [A C]. split; auto. rewrite !MD_comp in C; auto. apply adj_sym. auto.
  Qed.
  Lemma arrow_dir : forall u v, u < n -> v < n -> (arrow_i g u v <-> MD E u v).
  Proof using G Ed DE Es.
    intros u v Hu Hv. assert (Ev := good_vars n g G).
    rewrite (arrow_i_mk g u v W) by (rewrite Ev; auto). rewrite !(good_name n g) by auto. rewrite <- ess_dir. split; [|intros [H _]; auto].
    intro H. destruct (gd_edges n g G u v) as [Q|[[_ Q]|[Q _]]]; auto; [unfold conp|..]; congruence.
  Qed.
  Lemma und_at : forall u v, u < n -> v < n -> (und_i g u v <-> und E u v).
  Proof using G Ed DE Es.
    intros u v Hu Hv. rewrite (und_i_p g (gd_pg n g G)), !(good_name n g) by auto. apply ess_und.
  Qed.
  Lemma adj_at : forall u v, u < n -> v < n -> (adj_i g u v <-> adjacent E u v).
  Proof using G Ed DE Es.
    intros u v Hu Hv. rewrite (adj_i_p g (gd_pg n g G)), !(good_name n g) by auto. apply ess_con.
  Qed.
  Lemma und_lt_n : forall u v, und E u v -> u < n /\ v < n.
  Proof using DE. intros u v [[H|H] _]; apply (proj2 DE) in H; tauto. Qed.
  Lemma NA_iff : forall i j x, i < n -> j < n -> (NA g i j x <-> und E j x /\ adjacent E i x).
  Proof using G Ed DE Es.
    intros i j x Hi Hj. unfold NA. rewrite (good_vars n g G). split.
    - intros [Hx [U A]]. rewrite und_at in U by auto. rewrite adj_at in A by auto. auto.
    - intros [U A]. destruct (und_lt_n j x U) as [_ Hx]. split; auto. rewrite und_at, adj_at by auto. auto.
  Qed.

  (** Adjacent neighbours of a node: the edge between them is undirected. *)
  Lemma und_between : forall y a b, und E y a -> und E y b -> adjacent E a b -> und E a b.
  Proof using Ed DE.
    intros y a b U1 U2 A. destruct (adj_cases E MDor a b A) as [Q|[Q|Q]]; auto; exfalso.
    - assert (R := meek1 E Ed AE MDor a b Q y (und_sym E y b U2)). destruct U1 as [_ [_ U1]]. auto.
    - assert (R := meek1 E Ed AE MDor b a Q y (und_sym E y a U1)). destruct U2 as [_ [_ U2]]. auto.
  Qed.

  (* ---------- Insert ---------- *)
  Lemma insert_extends : forall max_p i j T, insert_op g max_p i j T -> insert_valid g i j T ->
    exists p (F : nat -> nat -> Prop) (Fd : forall u v, {F u v} + {~ F u v}),
      run_on (Insert i j T) g = Ok p /\ good n p /\ dag_over n F /\ markov_equiv E F /\ ~ F i j /\
      extension p (fun u v => F u v \/ (u = i /\ v = j)) /\
      (forall x, F x j <-> NA g i j x \/ In x T \/ (x < vars g /\ arrow_i g x j)).
  Proof using G Ed DE Es.
    intros max_p i j T Op [Kl Bl].
    destruct (insert_step n g max_p i j T G Op) as [Hi [Hj [N [NC [p [Ep [Gp Cp]]]]]]].
    destruct Op as [_ [_ [_ [_ [_ [LT HT]]]]]]. assert (Ev := good_vars n g G). rewrite Ev in HT.
    assert (P := gd_pg n g G).
    assert (HT' : forall t, In t T -> t < n /\ und E j t /\ ~ adjacent E i t).
    { intros t Ht. destruct (HT t Ht) as [H1 [H2 H3]]. rewrite und_at in H2 by auto. rewrite adj_at in H3 by auto. auto. }
    destruct (na_yx_ok g P i j) as [na [_ [Sna Hna]]]; try (rewrite Ev; auto).
    set (C := na ++ T).
    assert (HC : forall x, In x C <-> NA g i j x \/ In x T) by (intro x; unfold C; rewrite in_app_iff, Hna; tauto).
    assert (CU : forall x, In x C -> und E j x).
    { intros x Hx. apply HC in Hx. destruct Hx as [Hx|Hx]; [apply NA_iff in Hx; tauto|apply HT'; auto]. }
    assert (Ne : forall x, In x C -> x <> j) by (intros x Hx ->; apply (und_irr E AE j); auto).
    assert (NDC : NoDup (j :: C)).
    { constructor; [intro Q; apply (Ne j Q); auto|].
      assert (ND1 : NoDup na) by (eapply sorted_NoDup; eauto). assert (ND2 : NoDup T) by (eapply sorted_NoDup; eauto).
      apply nodup_app; auto. intros x Hx Ht. apply Hna in Hx. apply NA_iff in Hx; auto. destruct (HT' x Ht) as [_ [_ Q]]. tauto. }
    assert (KC : Chordal.clique (und E) (j :: C)).
    { intros x y [<-|Hx] [<-|Hy] Nxy; try congruence; auto; [apply und_sym; auto|].
      apply (und_between j); auto. assert (Q := Kl x y (proj1 (HC x) Hx) (proj1 (HC y) Hy) Nxy).
      rewrite adj_at in Q; auto; eapply und_lt_n; apply CU; auto. }
    destruct (clique_first E Ed V ndV EV AE j C) as [F [Fd [AF [EF [F1 [F2 [F3 F4]]]]]]]; auto.
    { apply in_seq. lia. }
    assert (BF : forall u v, F u v -> u < n /\ v < n).
    { intros u v H. destruct (F2 u v H) as [Q|Q]; [apply (proj2 DE), (MD_E E AE); auto|apply und_lt_n; auto]. }
    assert (AdF : forall u v, adjacent F u v <-> adjacent E u v) by (intros; symmetry; apply EF).
    assert (NF : ~ F i j) by (intro Q; apply NC, ess_con, AdF; left; auto).
    assert (NFji : ~ F j i) by (intro Q; apply NC, ess_con, AdF; right; auto).
    exists p, F, Fd. split; auto. split; auto. split; [split; auto|]. split; auto. split; auto. split.
    2:{ intro x. rewrite F3, HC. split.
        - intros [Q|Q]; [|tauto]. assert (x < n) by (apply (proj2 DE x j), (MD_E E AE); auto). right. right. split; auto. apply arrow_dir; auto.
        - intros [Q|[Q|[Q1 Q2]]]; auto. left. apply arrow_dir; auto. }
    (* the edges of p *)
    destruct (Insert_ok g P i j T) as [p' [E' [Pp' Np' An Ao]]].
    { rewrite Ev; auto. } { rewrite Ev; auto. } { rewrite !(good_name n g); auto. }
    { intros t Ht. destruct (HT' t Ht) as [H1 [H2 _]]. rewrite Ev. split; auto. rewrite !(good_name n g) by auto.
      intros ->. apply (und_irr E AE j H2). }
    assert (p' = p) by (unfold run_on in Ep; rewrite E' in Ep; congruence). subst p'.
    assert (Em : map (name g) T = T).
    { rewrite <- (map_id T) at 2. apply map_ext_in. intros t Ht. apply (good_name n g); auto. apply HT'. auto. }
    rewrite Em in An, Ao. rewrite !(good_name n g) in An, Ao by auto.
    assert (Wp := pg_wf p (gd_pg n p Gp)).
    assert (Dp1 : forall u v, MD E u v -> dirp p u v).
    { intros u v D. apply ess_dir in D. unfold dirp. rewrite !Ao; auto.
      - intros [-> [->|S]]; [apply NC, conp_sym, dirp_con; auto|]. apply ess_dir in D. destruct (HT' v S) as [_ [[_ [Q _]] _]]. auto.
      - intros [-> [->|S]]; [apply NC, dirp_con; auto|]. apply ess_dir in D. destruct (HT' u S) as [_ [[_ [_ Q]] _]]. auto.
      - intros [-> [->|S]]; [apply NC, dirp_con; auto|]. apply ess_dir in D. destruct (HT' u S) as [_ [[_ [_ Q]] _]]. auto.
      - intros [-> [->|S]]; [apply NC, conp_sym, dirp_con; auto|]. apply ess_dir in D. destruct (HT' v S) as [_ [[_ [Q _]] _]]. auto. }
    assert (Dp2 : forall u v, dirp p u v -> MD E u v \/ (v = j /\ (u = i \/ In u T))).
    { intros u v D.
      assert (D1 : (v = j /\ (u = i \/ In u T)) \/ ~ (v = j /\ (u = i \/ In u T))).
      { destruct (Nat.eq_dec v j), (Nat.eq_dec u i), (in_dec Nat.eq_dec u T); tauto. }
      assert (D2 : (u = j /\ (v = i \/ In v T)) \/ ~ (u = j /\ (v = i \/ In v T))).
      { destruct (Nat.eq_dec u j), (Nat.eq_dec v i), (in_dec Nat.eq_dec v T); tauto. }
      destruct D1 as [D1|D1]; auto. destruct D2 as [[-> D2]|D2].
      - exfalso. destruct (An v D2) as [Q _]. destruct D as [_ D]. congruence.
      - left. apply ess_dir. unfold dirp in *. rewrite !Ao in D by auto. auto. }
    (* the new graph is acyclic *)
    set (H := fun u v => F u v \/ (u = i /\ v = j)).
    assert (Nji : ~ dpath F j i).
    { intro Q. destruct (dpath_list F j i AF Q) as [l [NDl [Hh [Hl [Hr [Hn Hc]]]]]].
      destruct (Bl l) as [x [Hx [Nxi Sx]]].
      - split; auto. split; [|split; auto; split; auto].
        + intros x Hx. rewrite Ev. destruct (Hn x Hx) as [->|[z Hz]]; auto. apply BF in Hz. tauto.
        + assert (Ss : forall u v, F u v -> arrow_i g u v \/ und_i g u v).
          { intros u v Fu. destruct (BF u v Fu). destruct (F2 u v Fu); [left; apply arrow_dir; auto|right; apply und_at; auto]. }
          specialize (Hc _ Ss). clear - Hc. revert Hc. induction l as [|a [|b l] IH]; intro Hc; [exact I|exact I|].
          destruct Hc as [H1 H2]. split; auto.
      - apply HC in Sx. apply (AF j). apply (dpath_snoc1 F j x j); auto. apply F3. auto. }
    assert (AH : acyclic H).
    { assert (Sp : forall a b, dpath H a b -> dpath F a b \/ (dpath F a i /\ dpath F j b)).
      { intros a b D. induction D as [a|a c b [Hc|[-> ->]] D IH].
        - left. constructor.
        - destruct IH as [IH|[I1 I2]]; [left; econstructor; eauto|right; split; auto; econstructor; eauto].
        - right. split; [constructor|]. destruct IH as [IH|[I1 I2]]; auto. }
      intros a C0. inversion C0 as [x c y Hc D]; subst. destruct Hc as [Hc|[-> ->]].
      - destruct (Sp c a D) as [Q|[Q1 Q2]]; [apply (AF a); econstructor; eauto|].
        apply Nji. apply (dpath_trans' F j a i); auto. econstructor; eauto.
      - destruct (Sp j i D) as [Q|[Q1 _]]; auto. }
    split; auto. split; [|split].
    - intros u v Nuv. rewrite (connected_p p u v Wp), Cp, ess_con, <- AdF. unfold adjacent, H, same_pair. tauto.
    - intros u v _ D. apply (directed_p p u v Wp) in D. destruct (Dp2 u v D) as [Q|[-> [->|Q]]].
      + left. auto.
      + right. auto.
      + left. apply F3. right. apply HC. auto.
    - intros u w v [H1 [H2 [Nuv NA]]].
      assert (NAF : ~ adjacent F u v) by (intro Q; apply NA; unfold adjacent, H in *; tauto).
      assert (New : forall v, F v j -> ~ adjacent E i v -> dirp p v j).
      { intros x Fx NAx. apply F3 in Fx. destruct Fx as [Fx|Fx]; auto. apply HC in Fx. destruct Fx as [Fx|Fx]; [|apply An; auto].
        exfalso. apply NAx. apply NA_iff in Fx; auto. tauto. }
      rewrite !(directed_p p _ _ Wp). destruct H1 as [H1|[-> ->]], H2 as [H2|[-> H2]].
      + assert (VS : vstruct E u w v) by (apply EF; repeat split; auto).
        split; apply Dp1; [eapply md_0; eauto|apply vs_sym in VS; eapply md_0; eauto].
      + subst w. split; [|apply An; auto]. apply New; auto. rewrite <- AdF. intro Q. apply NAF. apply adj_sym. auto.
      + split; [apply An; auto|]. apply New; auto. rewrite <- AdF. auto.
      + congruence.
  Qed.
  (* ---------- Delete ---------- *)
  Lemma delete_extends : forall i j H, delete_op g i j H -> delete_valid g i j H ->
    exists p (F : nat -> nat -> Prop) (Fd : forall u v, {F u v} + {~ F u v}),
      run_on (Delete i j H) g = Ok p /\ good n p /\ dag_over n F /\ markov_equiv E F /\ F i j /\
      extension p (fun u v => F u v /\ ~ (u = i /\ v = j)) /\
      (forall x, F x j /\ x <> i <-> ((NA g i j x /\ ~ In x H) \/ (x < vars g /\ arrow_i g x j)) /\ x <> i).
  Proof using G Ed DE Es.
    intros i j H Op Kl.
    destruct (delete_step n g i j H G Op) as [Hi [Hj [N [Cij [p [Ep [Gp Cp]]]]]]].
    destruct Op as [_ [_ [Eij [LH HH]]]]. assert (Ev := good_vars n g G). assert (P := gd_pg n g G).
    assert (Eij' : und E i j \/ MD E i j).
    { destruct Eij as [Q|Q]; [left; apply und_at in Q|right; apply arrow_dir in Q]; auto. }
    assert (HH' : forall h, In h H -> und E j h /\ adjacent E i h) by (intros h Hh; apply NA_iff; auto).
    assert (Nii : ~ adjacent E i i) by (intros [Q|Q]; apply E_neq in Q; auto).
    destruct (na_yx_ok g P i j) as [na [_ [Sna Hna]]]; [rewrite Ev; auto|rewrite Ev; auto|].
    set (C0 := filter (fun x => negb (existsb (Nat.eqb x) H)) na).
    assert (HC0 : forall x, In x C0 <-> NA g i j x /\ ~ In x H).
    { intro x. unfold C0. rewrite filter_In, Hna, negb_true_iff. split; intros [Q1 Q2]; split; auto.
      - intro Q. assert (existsb (Nat.eqb x) H = true) by (apply existsb_exists; exists x; split; auto; apply Nat.eqb_refl). congruence.
      - apply not_true_is_false. intro Q. apply existsb_exists in Q. destruct Q as [y [Hy Q]]. apply Nat.eqb_eq in Q. subst. auto. }
    assert (ND0 : NoDup C0) by (apply NoDup_filter; eapply sorted_NoDup; eauto).
    assert (CU0 : forall x, In x C0 -> und E j x /\ adjacent E i x) by (intros x Hx; apply HC0 in Hx; apply NA_iff; tauto).
    assert (Ni0 : ~ In i C0) by (intro Q; apply CU0 in Q; tauto).
    assert (Nj0 : ~ In j C0) by (intro Q; apply CU0 in Q; apply (und_irr E AE j); tauto).
    assert (K0 : forall x y, In x C0 -> In y C0 -> x <> y -> und E x y).
    { intros x y Hx Hy Nxy. destruct (CU0 x Hx) as [U1 _], (CU0 y Hy) as [U2 _]. apply (und_between j); auto.
      assert (Q := Kl x y (proj1 (HC0 x) Hx) (proj1 (HC0 y) Hy) Nxy). rewrite adj_at in Q; auto; eapply und_lt_n; eauto. }
    assert (HC : exists C, NoDup (j :: C) /\ Chordal.clique (und E) (j :: C) /\
      forall x, In x C <-> (NA g i j x /\ ~ In x H) \/ (x = i /\ und E i j)).
    { destruct (MDor i j) as [M|M].
      - exists C0. split; [constructor; auto|]. split.
        + intros x y [<-|Hx] [<-|Hy] Nxy; try congruence; auto; [apply CU0; auto|apply und_sym, CU0; auto].
        + intro x. rewrite HC0. split; auto. intros [Q|[_ [_ [Q _]]]]; tauto.
      - assert (U : und E i j) by tauto. exists (i :: C0). split; [|split].
        + constructor; [intros [Q|Q]; auto|]. constructor; auto.
        + assert (Ui : forall x, In x C0 -> und E i x).
          { intros x Hx. destruct (CU0 x Hx). apply (und_between j); auto. apply und_sym. auto. }
          intros x y [<-|[<-|Hx]] [<-|[<-|Hy]] Nxy; try congruence; auto.
          * apply und_sym. auto.
          * apply CU0; auto.
          * apply und_sym, CU0; auto.
          * apply und_sym, Ui; auto.
        + intro x. simpl. rewrite HC0. split; [intros [Q|Q]; auto|intros [Q|[Q _]]; auto]. }
    destruct HC as [C [NDC [KC HC]]].
    destruct (clique_first E Ed V ndV EV AE j C) as [F [Fd [AF [EF [F1 [F2 [F3 F4]]]]]]]; auto.
    { apply in_seq. lia. }
    assert (BF : forall u v, F u v -> u < n /\ v < n).
    { intros u v Q. destruct (F2 u v Q) as [Q'|Q']; [apply (proj2 DE), (MD_E E AE); auto|apply und_lt_n; auto]. }
    assert (AdF : forall u v, adjacent F u v <-> adjacent E u v) by (intros; symmetry; apply EF).
    assert (Fas := acyclic_asym F AF).
    assert (Fij : F i j).
    { apply F3. destruct Eij' as [Q|Q]; auto. right. apply HC. auto. }
    assert (FH : forall h, In h H -> F i h /\ F j h).
    { intros h Hh. destruct (HH' h Hh) as [U A].
      assert (Nh : ~ In h (j :: C)).
      { intros [->|Q]; [apply (und_irr E AE h U)|]. apply HC in Q. destruct Q as [[_ Q]|[-> _]]; tauto. }
      split; [|apply F4; simpl; auto]. destruct Eij' as [Q|Q].
      - apply F4; auto; [right; apply HC; auto|]. apply (und_between j); auto. apply und_sym. auto.
      - apply F1. apply (meek1 E Ed AE MDor i j Q). auto. }
    exists p, F, Fd. split; auto. split; auto. split; [split; auto|]. split; auto. split; auto. split.
    2:{ intro x. rewrite F3, HC, Ev. split.
        - intros [Q Nx]. split; auto. destruct Q as [Q|[Q|[Q _]]]; auto; [|congruence].
          assert (x < n) by (apply (proj2 DE x j), (MD_E E AE); auto). right. split; auto. apply arrow_dir; auto.
        - intros [Q Nx]. split; auto. destruct Q as [Q|[Q1 Q2]]; auto. left. apply arrow_dir; auto. }
    (* the edges of p *)
    destruct (Delete_ok g P i j H) as [p' [E' [Pp' Np' Ag An Ao]]].
    { rewrite Ev; auto. } { rewrite Ev; auto. } { rewrite !(good_name n g); auto. }
    { intros h Hh. destruct (HH' h Hh) as [U A]. destruct (und_lt_n j h U) as [_ Lh]. rewrite Ev. split; auto. rewrite !(good_name n g) by auto.
      split; intros ->; [tauto|]. apply (und_irr E AE j U). }
    assert (p' = p) by (unfold run_on in Ep; rewrite E' in Ep; congruence). subst p'.
    assert (Em : map (name g) H = H).
    { rewrite <- (map_id H) at 2. apply map_ext_in. intros t Ht. apply (good_name n g); auto. destruct (HH' t Ht) as [U _]. apply (und_lt_n j t U). }
    rewrite Em in An, Ao. rewrite !(good_name n g) in Ag, An, Ao by auto.
    assert (Wp := pg_wf p (gd_pg n p Gp)).
    assert (D1 : forall x y, ((x = i \/ x = j) /\ In y H) \/ ~ ((x = i \/ x = j) /\ In y H)).
    { intros x y. destruct (Nat.eq_dec x i), (Nat.eq_dec x j), (in_dec Nat.eq_dec y H); tauto. }
    assert (Dp1 : forall u v, MD E u v -> ~ (u = i /\ v = j) -> dirp p u v).
    { intros u v D Nij. destruct (D1 u v) as [[Q1 Q2]|Q].
      - destruct Q1 as [->| ->]; apply An; auto.
      - destruct (D1 v u) as [[[->| ->] Q2]|Q'].
        + exfalso. apply (Fas i u); [apply FH; auto|]. auto.
        + exfalso. destruct (HH' u Q2) as [[_ [_ U]] _]. auto.
        + assert (S : ~ same_pair u v i j).
          { intros [[-> ->]|[-> ->]]; [tauto|]. apply (Fas i j); auto. }
          apply ess_dir in D. assert (S' : ~ same_pair v u i j) by (unfold same_pair in *; tauto).
          unfold dirp in *. rewrite !Ao by auto. auto. }
    assert (Dp2 : forall u v, dirp p u v -> (MD E u v /\ ~ same_pair u v i j) \/ ((u = i \/ u = j) /\ In v H)).
    { intros u v D. destruct (D1 u v) as [Q|Q]; auto. left.
      assert (Cu := dirp_con p u v D). apply Cp in Cu. destruct Cu as [_ S]. split; auto.
      destruct (D1 v u) as [[Q1 Q2]|Q'].
      - exfalso. assert (Dv : dirp p v u) by (destruct Q1 as [->| ->]; apply An; auto). destruct D, Dv. congruence.
      - assert (S' : ~ same_pair v u i j) by (unfold same_pair in *; tauto).
        apply ess_dir. unfold dirp in *. rewrite !Ao in D by auto. auto. }
    set (R := fun u v => F u v /\ ~ (u = i /\ v = j)).
    assert (Same : forall w, F i w -> F j w -> dirp p i w /\ dirp p j w).
    { intros w Fi Fj. destruct (F2 j w Fj) as [Q|Q].
      - assert (MD E i w).
        { destruct (F2 i w Fi) as [Q'|Q']; auto. exfalso. apply (Fas i j); auto. apply F1.
          apply (meek1 E Ed AE MDor j w Q). apply und_sym. auto. }
        split; apply Dp1; auto; intros [? ?]; subst; [apply (Fas j j)|]; auto.
      - destruct (in_dec Nat.eq_dec w H) as [Hw|Hw]; [apply An; auto|]. exfalso. apply (Fas j w Fj). apply F3. right. apply HC.
        left. split; auto. apply NA_iff; auto. split; auto. apply AdF. left. auto. }
    split; [|split; [|split]].
    - intros a Ca. apply (AF a). inversion Ca as [x c y [Hc _] D]; subst. econstructor; [exact Hc|].
      clear - D. induction D as [|a c b [Hc _] D IH]; [constructor|econstructor; eauto].
    - intros u v Nuv. rewrite (connected_p p u v Wp), Cp, ess_con, <- AdF. unfold adjacent, same_pair. fold R. split.
      + intros [[Q|Q] S]; [left|right]; split; auto; intros [-> ->]; tauto.
      + intros [[Q S]|[Q S]]; (split; [auto|]); intros [[-> ->]|[-> ->]]; try tauto; apply (Fas i j); auto.
    - intros u v _ D. apply (directed_p p u v Wp) in D. destruct (Dp2 u v D) as [[Q S]|[Q Hv]].
      + split; auto. intros [-> ->]. apply S. left. auto.
      + split; [destruct Q as [->| ->]; apply FH; auto|]. intros [-> ->]. destruct (HH' j Hv) as [U _]. apply (und_irr E AE j U).
    - intros u w v [[H1 S1] [[H2 S2] [Nuv NAd]]]. rewrite !(directed_p p _ _ Wp).
      assert (Dadj : adjacent F u v \/ ~ adjacent F u v) by (unfold adjacent; destruct (Fd u v), (Fd v u); tauto).
      destruct Dadj as [A|A].
      + assert (SP : (u = i /\ v = j) \/ (u = j /\ v = i)).
        { destruct (Nat.eq_dec u i), (Nat.eq_dec v j), (Nat.eq_dec u j), (Nat.eq_dec v i); try tauto; exfalso; apply NAd;
          (destruct A as [A|A]; [left|right]; (split; [auto|]); tauto). }
        destruct SP as [[-> ->]|[-> ->]]; [apply Same; auto|]. destruct (Same w H2 H1). auto.
      + assert (VS : vstruct E u w v) by (apply EF; repeat split; auto).
        split; apply Dp1; auto; [eapply md_0; eauto|apply vs_sym in VS; eapply md_0; eauto].
  Qed.
End Step.

(* ---------- the score change is the difference of the totals ---------- *)
Lemma extension_over : forall n p F, good n p -> extension p F -> dag_over n F.
Proof.
  intros n p F G [A [S _]]. split; auto. intros u v H.
  assert (N : u <> v) by (intros ->; apply (A v); econstructor; [exact H|constructor]).
  apply (good_in n p u v G). apply (connected_p p u v (pg_wf p (gd_pg n p G))). apply S; auto. left. auto.
Qed.

Lemma ess_good : forall n g E, reachable KPDAG g -> loop_free g -> nodes g = seq 0 n ->
  (forall u v, {E u v} + {~ E u v}) -> dag_over n E -> essential g E -> good n g.
Proof.
  intros n g E R L Nd Ed [AE BE] Es. assert (P := reachable_PG g R). assert (W := pg_wf g P).
  constructor; auto.
  - intros u C. apply (L u). apply (connected_p g u u W). auto.
  - intros u v C. assert (Nuv : u <> v) by (intros ->; apply (L v); apply (connected_p g v v W); auto).
    assert (EV : forall a b, E a b -> In a (seq 0 n) /\ In b (seq 0 n)).
    { intros a b H. destruct (BE a b H). rewrite !in_seq. lia. }
    assert (A : adjacent E u v) by (apply (proj1 (Es u v Nuv)); apply (connected_p g u v W); auto).
    destruct (adj_cases E (MD_or_not E (seq 0 n) Ed EV AE) u v A) as [Q|[Q|[_ [Q1 Q2]]]].
    + left. apply (directed_p g u v W). apply (proj1 (proj2 (Es u v Nuv))). split; auto.
      exact (proj1 (MD_iff_compelled E (seq 0 n) Ed (seq_NoDup n 0) EV AE u v A) Q).
    + right. left. assert (Nvu : v <> u) by auto. apply (directed_p g v u W). apply (proj1 (proj2 (Es v u Nvu))). apply adj_sym in A. split; auto.
      exact (proj1 (MD_iff_compelled E (seq 0 n) Ed (seq_NoDup n 0) EV AE v u A) Q).
    + right. right. apply (undirected_p g u v W). apply (proj2 (proj2 (Es u v Nuv))). split; auto. assert (A' := adj_sym E _ _ A).
      split; intro Z; [apply Q1|apply Q2]; [exact (proj2 (MD_iff_compelled E (seq 0 n) Ed (seq_NoDup n 0) EV AE u v A) Z)|].
      exact (proj2 (MD_iff_compelled E (seq 0 n) Ed (seq_NoDup n 0) EV AE v u A') Z).
Qed.

Lemma directed_dec : forall d u v, {directed d u v} + {~ directed d u v}.
Proof.
  intros d u v. unfold directed. destruct (is_fully_directed d u v) as [[]|e]; [left|right|right]; congruence.
Qed.

(** What pdag2dag returns is an extension. *)
Lemma returned_extension : forall n fuel p d, good n p -> pdag2dag fuel p = Ok d ->
  reachable KDiGraph d /\ nodes d = seq 0 n /\ extension p (directed d) /\ dag_over n (directed d).
Proof.
  intros n fuel p d G E. assert (G' := G). destruct G as [P NL NB Nd].
  destruct (pdag2dag_cases p P NL NB fuel) as [[d' [E' R]]|E']; [|congruence].
  rewrite E in E'. inversion E'; subst d'.
  destruct R as [Rd [Ndd [C [Ac [D Vs]]]]]. assert (Dd := reachable_DG d Rd). assert (W := pg_wf p P).
  assert (Wd := dg_wf d Dd). assert (Eq : forall u v, dirp d u v <-> directed d u v) by (intros; symmetry; apply (directed_p d u v Wd)).
  assert (X : extension p (directed d)).
  { split; [apply (proj1 (acyclic_ext _ _ Eq)); auto|]. split; [|split].
    - intros u v Ne. rewrite connected_p by auto. rewrite <- C. rewrite <- (adjacent_ext _ _ Eq).
      pose proof (adjacent_mk d Dd u v Ne) as Q. pose proof (arc_dirb d Dd u v) as Q1. pose proof (arc_dirb d Dd v u) as Q2.
      rewrite dirb_spec in Q1, Q2. unfold adjacent, conp, dirp in *. tauto.
    - intros u v _ H. apply Eq, D. apply (directed_p p u v W). auto.
    - intros u w v H. apply (vstruct_ext _ _ Eq) in H. destruct (Vs u w v H). split; apply (directed_p p _ _ W); auto. }
  split; auto. split; [unfold nodes; congruence|]. split; auto. eapply extension_over; eauto.
Qed.

(** An extendable PDAG: pdag2dag returns one of its extensions. *)
Lemma extendable_runs : forall n p, good n p -> (exists E, extension p E) -> exists d, pdag2dag n p = Ok d /\
  reachable KDiGraph d /\ nodes d = seq 0 n /\ extension p (directed d) /\ dag_over n (directed d).
Proof.
  intros n p G Ex. destruct (pdag2dag_complete p (gd_pg n p G) (gd_loop n p G) (gd_edges n p G) Ex n) as [d [E R]].
  - rewrite (gd_nodes n p G), seq_length. auto.
  - exists d. split; auto. apply (returned_extension n n p d G E).
Qed.

Section Gain.
  Variables (n : nat) (g : graph) (E : nat -> nat -> Prop) (sf : nat -> list nat -> Q).
  Hypothesis G : good n g.
  Hypothesis Ed : forall u v, {E u v} + {~ E u v}.
  Hypothesis DE : dag_over n E.
  Hypothesis Es : essential g E.
  Hypothesis SS : set_score sf.
  Hypothesis SE : score_equivalent sf n.

  Lemma insert_true : forall max_p i j T q, insert_op g max_p i j T -> insert_valid g i j T -> insert_gain sf g i j T q ->
    exists p, run_on (Insert i j T) g = Ok p /\ good n p /\ (exists F, extension p F) /\
      forall F a b, extension p F -> total_score sf n E a -> total_score sf n F b -> (b - a == q)%Q.
  Proof using G Ed DE Es SS SE.
    intros max_p i j T q Op Va [l0 [[ND0 L0] ->]].
    destruct (insert_extends n g E G Ed DE Es max_p i j T Op Va) as [p [F [Fd [Ep [Gp [DF [EF [NF [X PF]]]]]]]]].
    exists p. split; auto. split; auto. split; [exists (fun u v => F u v \/ (u = i /\ v = j)); auto|].
    intros F' a b X' Ta Tb. set (H := fun u v => F u v \/ (u = i /\ v = j)) in *.
    assert (DH := extension_over n p H Gp X).
    assert (Hd : forall u v, {H u v} + {~ H u v}).
    { intros u v. unfold H. destruct (Fd u v), (Nat.eq_dec u i), (Nat.eq_dec v j); try (left; tauto); right; tauto. }
    assert (TF := total_exists sf n F Fd (proj2 DF)). assert (TH := total_exists sf n H Hd (proj2 DH)).
    rewrite (SE E F _ _ DE DF EF Ta TF).
    rewrite (SE F' H _ _ (extension_over n p F' Gp X') DH (extensions_equiv p F' H X' X) Tb TH).
    destruct Op as [Hi [Hj _]]. rewrite (good_vars n g G) in Hj.
    destruct (total_diff sf n F H _ _ j SS Hj TF TH) as [lE [lF [[_ HE] [[_ HF] Eq]]]].
    { intros u v N. unfold H. split; auto. intros [Q|[_ Q]]; [auto|congruence]. }
    rewrite Eq. rewrite (SS j lF (i :: l0)), (SS j lE l0); [reflexivity| |].
    - intro u. rewrite HE, PF, L0. tauto.
    - intro u. rewrite HF. unfold H. simpl. rewrite PF, L0. split; [intros [Q|[Q _]]; auto|intros [Q|Q]; auto].
  Qed.

  Lemma delete_true : forall i j H q, delete_op g i j H -> delete_valid g i j H -> delete_gain sf g i j H q ->
    exists p, run_on (Delete i j H) g = Ok p /\ good n p /\ (exists F, extension p F) /\
      forall F a b, extension p F -> total_score sf n E a -> total_score sf n F b -> (b - a == q)%Q.
  Proof using G Ed DE Es SS SE.
    intros i j H q Op Va [l0 [[ND0 L0] ->]].
    destruct (delete_extends n g E G Ed DE Es i j H Op Va) as [p [F [Fd [Ep [Gp [DF [EF [NF [X PF]]]]]]]]].
    exists p. split; auto. split; auto. split; [exists (fun u v => F u v /\ ~ (u = i /\ v = j)); auto|].
    intros F' a b X' Ta Tb. set (R := fun u v => F u v /\ ~ (u = i /\ v = j)) in *.
    assert (DR := extension_over n p R Gp X).
    assert (Rd : forall u v, {R u v} + {~ R u v}).
    { intros u v. unfold R. destruct (Fd u v), (Nat.eq_dec u i), (Nat.eq_dec v j); try (left; tauto); right; tauto. }
    assert (TF := total_exists sf n F Fd (proj2 DF)). assert (TR := total_exists sf n R Rd (proj2 DR)).
    rewrite (SE E F _ _ DE DF EF Ta TF).
    rewrite (SE F' R _ _ (extension_over n p F' Gp X') DR (extensions_equiv p F' R X' X) Tb TR).
    destruct Op as [Hi [Hj _]]. rewrite (good_vars n g G) in Hj.
    destruct (total_diff sf n F R _ _ j SS Hj TF TR) as [lE [lF [[_ HE] [[_ HF] Eq]]]].
    { intros u v N. unfold R. split; [intro; split; auto; tauto|tauto]. }
    rewrite Eq. rewrite (SS j lE (i :: l0)), (SS j lF l0); [reflexivity| |].
    - intro u. rewrite HF, L0, <- PF. unfold R. intuition.
    - intro u. rewrite HE. simpl. rewrite L0, <- PF. destruct (Nat.eq_dec u i) as [->|Nu]; [tauto|]. intuition congruence.
  Qed.
End Gain.
