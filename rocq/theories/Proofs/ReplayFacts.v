(** A search only looks at its test through the calls it records: another test that answers these
    calls alike leads to the same result. *)

From Coq Require Import List Arith Bool QArith.
From Verif Require Import Model.Py Model.Graph Model.DiGraph Model.PDAG Model.PC.
Import ListNotations.
Open Scope nat_scope.

Section Replay.
  Variables t t' : citest.
  Variable alpha : Q.
  Definition alike (L : list tcall) : Prop := forall u v z p, In (u, v, z, p) L -> t' u v z = Ok p.

  (** [m'] repeats the runs of [m] that succeed, if the calls recorded are answered alike. *)
  Definition repeats {S} (calls : S -> list tcall) (c0 : list tcall) (m m' : M S) : Prop :=
    forall g g' s', m g = (g', Ok s') -> incl c0 (calls s') /\ (alike (calls s') -> m' g = (g', Ok s')).

  Lemma rep_ret : forall S (calls : S -> list tcall) c0 s, incl c0 (calls s) -> repeats calls c0 (ret s) (ret s).
  Proof using. intros S calls c0 s H g g' s' E. inversion E; subst. auto. Qed.
  Lemma rep_pure : forall S A (calls : S -> list tcall) c0 (a : M A) k k', (forall x, repeats calls c0 (k x) (k' x)) ->
    repeats calls c0 (bind a k) (bind a k').
  Proof using.
    intros S A calls c0 a k k' H g g' s' E. unfold bind in *. destruct (a g) as [g1 [x|e]]; [|discriminate]. exact (H x g1 g' s' E).
  Qed.
  Lemma rep_bind : forall S S' (calls : S -> list tcall) (calls' : S' -> list tcall) c0 m m' k k', repeats calls c0 m m' ->
    (forall s, repeats calls' (calls s) (k s) (k' s)) -> repeats calls' c0 (bind m k) (bind m' k').
  Proof using.
    intros S S' calls calls' c0 m m' k k' Hm Hk g g' s' E. unfold bind in *. destruct (m g) as [g1 [s|e]] eqn:Em; [|discriminate].
    destruct (Hm g g1 s Em) as [I1 R1]. destruct (Hk s g1 g' s' E) as [I2 R2]. split; [eapply incl_tran; eauto|].
    intro A. rewrite R1; auto. intros u v z p H. apply A. auto.
  Qed.
  Lemma rep_fold : forall S X (calls : S -> list tcall) (f f' : S -> X -> M S), (forall s x, repeats calls (calls s) (f s x) (f' s x)) ->
    forall l s, repeats calls (calls s) (foldM f s l) (foldM f' s l).
  Proof using.
    intros S X calls f f' H. induction l as [|x l IH]; intro s; [apply rep_ret, incl_refl|]. cbn [foldM].
    eapply rep_bind; [apply H|]. intro s1. apply IH.
  Qed.
  (** The call itself. *)
  Lemma rep_call : forall S (calls : S -> list tcall) c0 u v z k, 
    (forall p, repeats calls (c0 ++ [(u, v, z, p)]) (k p) (k p)) ->
    repeats calls c0 (bind (query (fun _ => t u v z)) k) (bind (query (fun _ => t' u v z)) k).
  Proof using.
    intros S calls c0 u v z k H g g' s' E. unfold bind, query in *. destruct (t u v z) as [p|e] eqn:Et; [|discriminate].
    destruct (H p g g' s' E) as [I R]. split; [intros x Hx; apply I, in_or_app; auto|].
    intro A. rewrite (A u v z p); [apply R; auto|]. apply I, in_or_app. right. left. auto.
  Qed.
  Lemma rep_refl : forall S (calls : S -> list tcall) c0 (m : M S), (forall g g' s', m g = (g', Ok s') -> incl c0 (calls s')) -> repeats calls c0 m m.
  Proof using. intros S calls c0 m H g g' s' E. split; eauto. Qed.

  Lemma try_z_rep : forall u v st z, repeats s_calls (s_calls st) (try_z t alpha u v st z) (try_z t' alpha u v st z).
  Proof using.
    intros u v st z. unfold try_z. apply rep_call. intro p. apply rep_refl. intros g g' s' E.
    destruct (Qle_bool alpha p).
    - unfold bind, query in E. destruct (sep_both _ _ _ _); inversion E; subst. apply incl_refl.
    - inversion E; subst. apply incl_refl.
  Qed.
  Lemma try_pair_rep : forall k st p, repeats s_calls (s_calls st) (try_pair t alpha k st p) (try_pair t' alpha k st p).
  Proof using.
    intros k st [u v]. unfold try_pair. apply rep_pure. intro c. destruct (negb c); [apply rep_ret, incl_refl|].
    apply rep_pure. intro a. apply rep_fold. intros s z. apply try_z_rep.
  Qed.
  Lemma level_rep : forall names st k, repeats s_calls (s_calls st) (search_level t alpha names st k) (search_level t' alpha names st k).
  Proof using.
    intros names st k. unfold search_level. eapply rep_bind.
    - apply (rep_fold _ _ s_calls (try_pair t alpha k) (try_pair t' alpha k) (try_pair_rep k) _ (mkSearch [] (s_sep st) (s_calls st))).
    - intro s. apply rep_pure. intros _. apply rep_ret, incl_refl.
  Qed.
  Theorem search_replay : forall names g sep calls, adjacency_search t names alpha = Ok (g, sep, calls) -> alike calls ->
    adjacency_search t' names alpha = Ok (g, sep, calls).
  Proof using.
    intros names g sep calls E A. unfold adjacency_search in *. destruct (new_graph KPDAG names) as [g0|]; [|discriminate].
    match type of E with match ?m with _ => _ end = _ => destruct m as [g1 [st|]] eqn:Em end; [|discriminate].
    inversion E; subst g1 sep calls.
    assert (repeats s_calls [] (create_complete_undirected_graph ;;; with_nodes (fun ns => foldM (search_level t alpha names) (mkSearch [] (empty_seps ns) []) (seq 0 (length names - 1))))%meth
      (create_complete_undirected_graph ;;; with_nodes (fun ns => foldM (search_level t' alpha names) (mkSearch [] (empty_seps ns) []) (seq 0 (length names - 1))))%meth) as R.
    { apply rep_pure. intros _. unfold with_nodes. intros h h' s'. 
      apply (rep_fold _ _ s_calls (search_level t alpha names) (search_level t' alpha names) (level_rep names) _ (mkSearch [] (empty_seps (nodes h)) [])). }
    rewrite (proj2 (R g0 g st Em) A). auto.
  Qed.

  Let fcalls3 (s : option (list nat) * seps * list tcall) : list tcall := snd s.
  Let fcalls2 (s : seps * list tcall) : list tcall := snd s.
  Lemma fast_try_rep : forall u v s z, repeats fcalls3 (fcalls3 s) (fast_try t alpha u v s z) (fast_try t' alpha u v s z).
  Proof using.
    intros u v [[r sep] c] z. unfold fast_try, fcalls3. cbn [snd]. apply rep_call. intro p. apply rep_refl. intros g g' s' E.
    destruct (Qle_bool alpha p).
    - unfold bind, query in E. destruct (sep_both _ _ _ _); inversion E; subst. apply incl_refl.
    - inversion E; subst. apply incl_refl.
  Qed.
  Lemma fast_pair_rep : forall k s p, repeats fcalls2 (fcalls2 s) (fast_pair t alpha k s p) (fast_pair t' alpha k s p).
  Proof using.
    intros k s [u v]. unfold fast_pair. apply rep_pure. intros [e|]; [|apply rep_ret, incl_refl]. apply rep_pure. intro a.
    apply (rep_bind _ _ fcalls3 fcalls2); [apply (rep_fold _ _ fcalls3 _ _ (fast_try_rep u v) _ (None, fst s, snd s))|].
    intro s1. apply rep_pure. intro b. apply (rep_bind _ _ fcalls3 fcalls2); [apply (rep_fold _ _ fcalls3 _ _ (fast_try_rep u v))|].
    intros [[r sep] c]. destruct r; [|apply rep_ret, incl_refl]. apply rep_pure. intros _. apply rep_pure. intro x. apply rep_ret, incl_refl.
  Qed.
  Theorem fast_search_replay : forall names g sep calls, fast_adjacency_search t names alpha = Ok (g, sep, calls) -> alike calls ->
    fast_adjacency_search t' names alpha = Ok (g, sep, calls).
  Proof using.
    intros names g sep calls E A. unfold fast_adjacency_search in *. destruct (new_graph KPDAG names) as [g0|]; [|discriminate].
    match type of E with match ?m with _ => _ end = _ => destruct m as [g1 [st|]] eqn:Em end; [|discriminate].
    destruct st as [sep1 calls1]. inversion E; subst g1 sep1 calls1.
    match goal with |- match ?m' _ with _ => _ end = _ => match type of Em with ?m _ = _ => assert (repeats fcalls2 [] m m') as R end end.
    { apply rep_pure. intros _. unfold with_nodes. intros h h' s'.
      refine (rep_fold _ _ fcalls2 _ _ _ _ (empty_seps (nodes h), []) h h' s').
      intros s k h1 h1' s1. apply (rep_fold _ _ fcalls2 _ _ (fast_pair_rep k)). }
    rewrite (proj2 (R g0 g (sep, calls) Em) A). auto.
  Qed.
End Replay.
