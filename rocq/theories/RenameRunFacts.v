(** Facts about renaming: runs of the parser. *)
From Coq Require Import String NArith.
From stdpp Require Import prelude list strings.
From Verif Require Import LexModel SynSetModel SynSetFacts TableModel StreamModel TypeModel ProduceModel RenameSpec.
Local Open Scope nat_scope.

(** * Vectors *)
Lemma bs_loop_ext cmp cmp' fuel size base : (∀ i, cmp i = cmp' i) → bs_loop cmp fuel size base = bs_loop cmp' fuel size base.
Proof. intros H. revert size base. induction fuel as [|f IH]; intros size base; cbn [bs_loop]; [done|]. rewrite H. by destruct (size <=? 1). Qed.
Lemma binary_search_ext cmp cmp' len : (∀ i, cmp i = cmp' i) → binary_search cmp len = binary_search cmp' len.
Proof. intros H. unfold binary_search. rewrite (bs_loop_ext cmp cmp') by done. by rewrite H. Qed.
Lemma foldr_setbit (P : nat → bool) (g : nat → nat) l j :
  N.testbit (foldr (λ i a, if P i then N.setbit a (N.of_nat (g i)) else a) 0%N l) j = true ↔ ∃ i, i ∈ l ∧ P i = true ∧ j = N.of_nat (g i).
Proof.
  induction l as [|i l IH]; cbn [foldr].
  - rewrite N.bits_0. split; [done|]. intros (i & H & _). inversion H.
  - destruct (P i) eqn:E.
    + rewrite N.setbit_iff, IH. split.
      * intros [<-|(i' & H1 & H2 & H3)]; [exists i|exists i']; split; try done; [left|by right].
      * intros (i' & [->|H1]%elem_of_cons & H2 & H3); [by left|right]. by exists i'.
    + rewrite IH. split; intros (i' & H1 & H2 & H3); exists i'; split; try done; [by right|].
      apply elem_of_cons in H1 as [->|H1]; [congruence|done].
Qed.

Section rename.
  Variable r : renaming.
  Hypothesis Hd : distinct r.
  Notation re_ty := (re_ty r). Notation re_sem := (re_sem r). Notation re_token := (re_token r). Notation re_tok := (re_tok r).
  Notation re_cell := (re_cell r). Notation re_raw := (re_raw r). Notation re_tree := (re_tree r). Notation same_err := (same_err r).
  Notation same_state := (same_state r). Notation same_set := (same_set r). Notation same_out := (same_out r).

  Lemma re_sem_bit s j : N.testbit (re_sem s) j = true ↔ ∃ i, N.testbit s (N.of_nat i) = true ∧ j = N.of_nat (rn_type r i).
  Proof.
    unfold RenameSpec.re_sem. rewrite foldr_setbit. split; [naive_solver|]. intros (i & H & ->). exists i. split; [|done].
    apply elem_of_seq. split; [lia|]. cbn. apply Nat.nle_gt. intros Hle.
    destruct (N.eq_dec s 0) as [->|Hs]; [by rewrite N.bits_0 in H|].
    rewrite N.size_log2 in Hle by done. rewrite N.bits_above_log2 in H by lia. done.
  Qed.
  Lemma re_sem_lor a b : re_sem (N.lor a b) = N.lor (re_sem a) (re_sem b).
  Proof.
    apply N.bits_inj. intros j. apply eq_iff_eq_true. rewrite N.lor_spec, orb_true_iff, !re_sem_bit. setoid_rewrite N.lor_spec.
    setoid_rewrite orb_true_iff. naive_solver.
  Qed.
  Lemma re_sem_0 : re_sem 0 = 0%N.
  Proof. done. Qed.
  Lemma re_inside l sp : inside_bounds (map re_cell l) sp = inside_bounds l sp.
  Proof.
    assert (H1 : search_lo (map re_cell l) (sp_lo sp) = search_lo l (sp_lo sp)).
    { unfold search_lo. rewrite map_length. apply binary_search_ext. intros i. rewrite list_lookup_fmap. by destruct (l !! i). }
    assert (H2 : search_hi (map re_cell l) (sp_hi sp) = search_hi l (sp_hi sp)).
    { unfold search_hi. rewrite map_length. apply binary_search_ext. intros i. rewrite list_lookup_fmap. by destruct (l !! i). }
    unfold inside_bounds. by rewrite H1, H2.
  Qed.
  Lemma re_apply l sp sem : vec_apply_semantic (map re_cell l) sp (re_sem sem) = map re_cell (vec_apply_semantic l sp sem).
  Proof.
    unfold vec_apply_semantic. rewrite re_inside. destruct (inside_bounds l sp) as [[lo hi]|]; [|done].
    rewrite !map_app. unfold slice. change (map re_cell) with (fmap (M := list) re_cell).
    rewrite <- fmap_drop, <- fmap_take, <- fmap_drop, <- fmap_take. f_equal. f_equal.
    change (map (cell_apply ?x)) with (fmap (M := list) (cell_apply x)). rewrite <- !list_fmap_compose. apply list_fmap_ext.
    intros i c _. unfold cell_apply, compose, RenameSpec.re_cell. cbn. f_equal. symmetry. apply re_sem_lor.
  Qed.

  (** * Sets *)
  Lemma re_tok_inj (x y : option tok) : re_tok <$> x = re_tok <$> y → x = y.
  Proof using Hd.
    destruct Hd as (Hi & _ & _). destruct x as [[a x]|], y as [[b y]|]; cbn; try done. unfold RenameSpec.re_tok. cbn. intros E. injection E as E1 ->.
    by apply Hi in E1 as ->.
  Qed.
  Lemma same_contains s s' o : same_set s s' → ts_contains s' (re_tok <$> o) = ts_contains s o.
  Proof using Hd.
    intros H. apply eq_iff_eq_true. rewrite (H _). split; [|eauto]. intros (o' & E & Ho). by apply re_tok_inj in E as ->.
  Qed.
  Lemma same_contains_some s s' x : same_set s s' → ts_contains s' (Some (re_tok x)) = ts_contains s (Some x).
  Proof using Hd. exact (same_contains s s' (Some x)). Qed.
  Lemma same_e s s' : same_set s s' → ts_contains_e s' = ts_contains_e s.
  Proof using Hd. exact (same_contains s s' None). Qed.
  Lemma same_one y lit : same_set (fs_one y lit) (fs_one (rn_type r y) lit).
  Proof using Hd.
    intros o'. rewrite fs_one_exact. setoid_rewrite fs_one_exact. split.
    - intros (src & -> & H). exists (Some (y, src)). split; [done|]. eauto.
    - intros (o & -> & src & -> & H). exists src. done.
  Qed.
  Lemma same_union s s' o o' inc : same_set s s' → same_set o o' → same_set (fst (ts_union s o inc)) (fst (ts_union s' o' inc)).
  Proof using Hd.
    intros H1 H2 x. rewrite ts_contains_union, orb_true_iff, andb_true_iff, (H1 x), (H2 x).
    setoid_rewrite ts_contains_union. setoid_rewrite orb_true_iff. setoid_rewrite andb_true_iff. split.
    - intros [(t & -> & H)|(H & t & -> & H')]; exists t; (split; [done|]); [by left|right]. destruct t; done.
    - intros (t & -> & [H|[H H']]); [left; eauto|right]. split; [by destruct t|eauto].
  Qed.
  Lemma same_remove s s' : same_set s s' → same_set (fst (ts_remove_e s)) (fst (ts_remove_e s')).
  Proof using Hd.
    intros H x. rewrite ts_remove_e_contains, andb_true_iff, (H x). setoid_rewrite ts_remove_e_contains. setoid_rewrite andb_true_iff. split.
    - intros ((t & -> & H1) & H2). exists t. split; [done|]. split; [done|]. by destruct t.
    - intros (t & -> & H1 & H2). split; [eauto|]. by destruct t.
  Qed.

  (** * Programs *)
  Inductive sim {A B} (Q : A → B → Prop) : M A → M B → Prop :=
  | sim_ret a b : Q a b → sim Q (Ret a) (Ret b)
  | sim_fuel : sim Q Fuel Fuel
  | sim_peek k k' : (∀ o, sim Q (k o) (k' (re_token <$> o))) → sim Q (Peek k) (Peek k')
  | sim_tosrc t k k' : (∀ x, sim Q (k (t_ty t, x)) (k' (rn_type r (t_ty t), x))) → sim Q (ToSrc t k) (ToSrc (re_token t) k')
  | sim_consume k k' : (∀ o, sim Q (k o) (k' (re_token <$> o))) → sim Q (Consume k) (Consume k')
  | sim_empty k k' : (∀ sp, sim Q (k sp) (k' sp)) → sim Q (EmptySpan k) (EmptySpan k')
  | sim_cur k k' : (∀ sp, sim Q (k sp) (k' sp)) → sim Q (CurSpan k) (CurSpan k')
  | sim_get sp k k' : (∀ s, sim Q (k s) (k' s)) → sim Q (GetSrc sp k) (GetSrc sp k')
  | sim_app sp sem k k' : sim Q k k' → sim Q (Apply sp sem k) (Apply sp (re_sem sem) k')
  | sim_ext es es' k k' : Forall2 same_err es es' → sim Q k k' → sim Q (Extend es k) (Extend es' k').

  Lemma sim_bind {A B C D} (Q : A → B → Prop) (R : C → D → Prop) m m' f f' :
    sim Q m m' → (∀ a b, Q a b → sim R (f a) (f' b)) → sim R (m ≫= f) (m' ≫= f').
  Proof.
    intros H Hf. change (sim R (bindM m f) (bindM m' f')). induction H; cbn [bindM]; try (constructor; intros; eauto; fail); eauto; constructor; eauto.
  Qed.
  Lemma sim_weak {A B} (Q R : A → B → Prop) m m' : (∀ a b, Q a b → R a b) → sim Q m m' → sim R m m'.
  Proof. intros HQ H. induction H; constructor; eauto. Qed.

  Section run.
    Variables extract extract' : nat → bool.
    Hypothesis Hx : ∀ y, extract' (rn_type r y) = extract y.

    Lemma re_lexer b lo hi evs : lexer_loop b lo hi (map re_raw evs) =
      let '(i, t, l) := lexer_loop b lo hi evs in (i, re_token <$> t, map re_raw l).
    Proof. revert b lo hi. induction evs as [|[y sp|sp] evs IH]; intros b lo hi; cbn; [done..|]. apply IH. Qed.
    Lemma re_read f s s' : same_state s s' → same_state (read_loop extract f s) (read_loop extract' f s').
    Proof using Hx.
      revert s s'. induction f as [|f IH]; intros s s' H; cbn [read_loop]; [done|].
      destruct H as [H1 H2 H3 H4 H5 H6 H7]. rewrite H2. unfold lexer_next. rewrite re_lexer. destruct (lexer_loop false 0 0 (p_evs s)) as [[i t] l].
      set (s1 := match i with Some sp => Pst (p_src s) l _ _ _ _ _ | None => _ end).
      set (s1' := match i with Some sp => Pst (p_src s') (map re_raw l) _ _ _ _ _ | None => _ end).
      assert (H : same_state s1 s1').
      { subst s1 s1'. destruct i as [sp|]; constructor; cbn; try done; [by rewrite H4|]. apply Forall2_app; [done|]. constructor; [by split|constructor]. }
      clearbody s1 s1'. destruct t as [t|]; cbn; [|done]. rewrite Hx.
      destruct H as [G1 G2 G3 G4 G5 G6 G7]. destruct (extract (t_ty t)).
      - apply IH. constructor; cbn; try done. rewrite G6, map_app. done.
      - constructor; cbn; try done.
    Qed.
    Lemma re_fill s s' : same_state s s' → same_state (fill extract s) (fill extract' s').
    Proof using Hx.
      intros H. unfold fill. pose proof (ss_peeked r _ _ H) as E. destruct (p_peeked s); cbn in E; rewrite E; [done|].
      unfold try_read. rewrite (ss_evs r _ _ H), map_length. by apply re_read.
    Qed.
    Lemma re_take s s' : same_state s s' → fst (take_peeked s') = re_token <$> fst (take_peeked s) ∧ same_state (snd (take_peeked s)) (snd (take_peeked s')).
    Proof.
      intros H. unfold take_peeked. pose proof (ss_peeked r _ _ H) as E. destruct (p_peeked s) as [t|]; cbn in E; rewrite E; [|done].
      split; [done|]. destruct H as [H1 H2 H3 H4 H5 H6 H7]. constructor; cbn; try done. unfold vec_push. by rewrite H5, map_app.
    Qed.
    Lemma re_end l : end_of (map re_cell l) = end_of l.
    Proof. unfold end_of. change (map re_cell l) with (re_cell <$> l). rewrite fmap_last. by destruct (last l). Qed.

    Lemma sim_run {A B} (Q : A → B → Prop) m m' : sim Q m m' → ∀ s s', same_state s s' → same_out Q (run extract m s) (run extract' m' s').
    Proof using Hx.
      induction 1 as [a b HQ| |k k' H IH|t k k' H IH|k k' H IH|k k' H IH|k k' H IH|sp k k' H IH|sp sem k k' H IH|es es' k k' He H IH]; intros s s' Hs; cbn [run].
      - done.
      - done.
      - pose proof (re_fill _ _ Hs) as Hf. rewrite (ss_peeked r _ _ Hf). by apply IH.
      - rewrite (ss_src r _ _ Hs). unfold token_src. change (t_span (re_token t)) with (t_span t). destruct (span_get (t_span t) (p_src s)); [|done]. by apply IH.
      - pose proof (re_fill _ _ Hs) as Hf. apply re_take in Hf as [E Hf]. destruct (take_peeked (fill extract s)) as [o s1].
        destruct (take_peeked (fill extract' s')) as [o' s1']. cbn [fst snd] in E, Hf. rewrite E. by apply IH.
      - rewrite (ss_tokens r _ _ Hs), re_end. by apply IH.
      - pose proof (re_fill _ _ Hs) as Hf. rewrite (ss_peeked r _ _ Hf), (ss_src r _ _ Hf).
        replace (match re_token <$> p_peeked (fill extract s) with Some t => t_span t | None => eof_span (p_src (fill extract s)) end)
          with (match p_peeked (fill extract s) with Some t => t_span t | None => eof_span (p_src (fill extract s)) end) by (by destruct (p_peeked (fill extract s))).
        by apply IH.
      - rewrite (ss_src r _ _ Hs). destruct (span_get sp (p_src s)); [|done]. by apply IH.
      - apply IH. destruct Hs as [H1 H2 H3 H4 H5 H6 H7]. constructor; cbn; try done. rewrite H5. apply re_apply.
      - apply IH. destruct Hs as [H1 H2 H3 H4 H5 H6 H7]. constructor; cbn; try done. by apply Forall2_app.
    Qed.
  End run.
End rename.
