(** Facts about renaming: the [produce] functions. *)
From Coq Require Import String NArith.
From stdpp Require Import prelude list strings.
From Verif Require Import LexModel SynSetModel SynSetFacts TableModel StreamModel TypeModel ProduceModel RenameSpec RenameRunFacts.
Local Open Scope nat_scope.

Section rename.
  Variable r : renaming.
  Hypothesis Hd : distinct r.
  Notation re_ty := (re_ty r). Notation re_sem := (re_sem r). Notation re_token := (re_token r). Notation re_tok := (re_tok r).
  Notation re_tree := (re_tree r). Notation same_err := (same_err r). Notation same_set := (same_set r).
  Notation sim := (sim r).
  Notation errs_sim := (Forall2 same_err).
  Notation panic_sim := (option_Forall2 same_err).

  Definition res_sim {A B} (Q : A → B → Prop) (x : res A) (y : res B) : Prop :=
    match x, y with
    | RSucc a, RSucc b => Q a b
    | RRec a es, RRec b es' => Q a b ∧ errs_sim es es'
    | RPanic es, RPanic es' => errs_sim es es'
    | _, _ => False
    end.
  Definition tree_sim (x y : tree) : Prop := y = re_tree x.
  Notation tsim := (sim (res_sim tree_sim)).

  Lemma unres_sim {A B} (Q : A → B → Prop) x y : res_sim Q x y →
    match unres x, unres y with
    | (Some a, e), (Some b, e') => Q a b ∧ errs_sim e e'
    | (None, e), (None, e') => errs_sim e e'
    | _, _ => False
    end.
  Proof. by destruct x, y. Qed.
  Lemma into_sim {A B} (Q : A → B → Prop) a b e e' : Q a b → errs_sim e e' → res_sim Q (res_into a e) (res_into b e').
  Proof. intros H1 H2. destruct H2; cbn; [done|]. split; [done|]. by constructor. Qed.
  Lemma map_sim {A B C D} (Q : A → B → Prop) (R : C → D → Prop) f g x y :
    res_sim Q x y → (∀ a b, Q a b → R (f a) (g b)) → res_sim R (res_map f x) (res_map g y).
  Proof. destruct x, y; cbn; naive_solver. Qed.

  (** ** Trees *)
  Lemma re_lo_hi x : tree_lo (re_tree x) = tree_lo x ∧ tree_hi (re_tree x) = tree_hi x.
  Proof.
    revert x. fix IH 1. intros [t|l|i x|sp o|sp b|sp s|sp s|sp l|sp a b|sp a b|sp o x]; try (split; reflexivity).
    - split.
      + destruct l as [|x l]; [reflexivity|]. exact (proj1 (IH x)).
      + induction l as [|x [|y l] IHl]; [reflexivity|exact (proj2 (IH x))|]. exact IHl.
    - exact (IH x).
    - split; [reflexivity|]. exact (proj2 (IH x)).
  Qed.
  Lemma re_lo x : tree_lo (re_tree x) = tree_lo x.
  Proof. apply re_lo_hi. Qed.
  Lemma re_hi x : tree_hi (re_tree x) = tree_hi x.
  Proof. apply re_lo_hi. Qed.
  Lemma re_span x : tree_span (re_tree x) = tree_span x.
  Proof. unfold tree_span. by rewrite re_lo, re_hi. Qed.
  Lemma re_snoc l x : map re_tree l ++ [re_tree x] = map re_tree (l ++ [x]).
  Proof. by rewrite map_app. Qed.

  (** ** Errors *)
  Lemma set_hi_sim p p' hi : same_err p p' → same_err (set_hi p hi) (set_hi p' hi).
  Proof. intros [H1 H2]. split; cbn; [by rewrite H1|done]. Qed.
  Lemma last_sim e e' : errs_sim e e' → panic_sim (last e) (last e').
  Proof.
    induction 1 as [|x y l l' H1 H2 IH]; [constructor|]. destruct H2; [by constructor|]. exact IH.
  Qed.
  Lemma merge_sim p p' e e' : panic_sim p p' → errs_sim e e' → panic_sim (merge_panic p e) (merge_panic p' e').
  Proof.
    intros H1 H2. unfold merge_panic. destruct (last_sim _ _ H2) as [x y H|]; [|done]. constructor.
    destruct H1 as [a b Hab|]; [|done]. destruct H as [-> _]. by apply set_hi_sim.
  Qed.
  Lemma list_sim p p' : panic_sim p p' → errs_sim (option_list p) (option_list p').
  Proof. intros []; cbn; [by constructor|constructor]. Qed.
  Lemma err_sim sp k : (match k with Expecting _ => False | _ => True end) → same_err (PErr sp k) (PErr sp k).
  Proof. by destruct k. Qed.
  Lemma expect_sim sp s s' : same_set s s' → same_err (PErr sp (Expecting s)) (PErr sp (Expecting s')).
  Proof. done. Qed.

  (** ** Operations *)
  Lemma sim_mret {A B} (Q : A → B → Prop) a b : Q a b → sim Q (mret a) (mret b).
  Proof. by constructor. Qed.
  Lemma sim_peek_src {A B} (Q : A → B → Prop) (f : option tok → M A) (f' : option tok → M B) : (∀ o, sim Q (f o) (f' (re_tok <$> o))) → sim Q (peek_src ≫= f) (peek_src ≫= f').
  Proof.
    intros H. apply sim_peek. intros [t|]; cbn; [|exact (H None)]. apply sim_tosrc. intros x. exact (H (Some (t_ty t, x))).
  Qed.
  Lemma sim_peek_tok {A B} (Q : A → B → Prop) (f : option token → M A) (f' : option token → M B) : (∀ o, sim Q (f o) (f' (re_token <$> o))) → sim Q (peek ≫= f) (peek ≫= f').
  Proof. intros H. apply sim_peek. exact H. Qed.
  Lemma sim_cons {A B} (Q : A → B → Prop) (f : option token → M A) (f' : option token → M B) : (∀ o, sim Q (f o) (f' (re_token <$> o))) → sim Q (consume ≫= f) (consume ≫= f').
  Proof. intros H. apply sim_consume. exact H. Qed.
  Lemma sim_cur_span {A B} (Q : A → B → Prop) (f : span → M A) (f' : span → M B) : (∀ sp, sim Q (f sp) (f' sp)) → sim Q (cur_span ≫= f) (cur_span ≫= f').
  Proof. intros H. apply sim_cur. exact H. Qed.
  Lemma sim_empty_span {A B} (Q : A → B → Prop) (f : span → M A) (f' : span → M B) : (∀ sp, sim Q (f sp) (f' sp)) → sim Q (empty_span ≫= f) (empty_span ≫= f').
  Proof. intros H. apply sim_empty. exact H. Qed.
  Lemma sim_get_src {A B} (Q : A → B → Prop) sp (f : string → M A) (f' : string → M B) : (∀ s, sim Q (f s) (f' s)) → sim Q (get_src sp ≫= f) (get_src sp ≫= f').
  Proof. intros H. apply sim_get. exact H. Qed.
  Lemma sim_apply {A B} (Q : A → B → Prop) sp sem (f : unit → M A) (f' : unit → M B) : sim Q (f tt) (f' tt) → sim Q (apply_semantic sp sem ≫= f) (apply_semantic sp (re_sem sem) ≫= f').
  Proof. intros H. apply sim_app. exact H. Qed.
  Lemma sim_expecting {A B} (Q : A → B → Prop) s s' (f : perr → M A) (f' : perr → M B) : same_set s s' → (∀ e e', same_err e e' → sim Q (f e) (f' e')) →
    sim Q (expecting s ≫= f) (expecting s' ≫= f').
  Proof. intros Hs H. apply sim_cur. intros sp. apply H. by apply expect_sim. Qed.
  Lemma sim_eof {A B} (Q : A → B → Prop) (f : perr → M A) (f' : perr → M B) : (∀ e e', same_err e e' → sim Q (f e) (f' e')) → sim Q (unexpected_eof ≫= f) (unexpected_eof ≫= f').
  Proof. intros H. apply sim_cur. intros sp. apply H. done. Qed.

  Definition token_sim (t t' : token) : Prop := t' = re_token t.
  Lemma type_eqb y z : (rn_type r y =? rn_type r z) = (y =? z).
  Proof using Hd.
    destruct Hd as (Hi & _ & _). destruct (Nat.eqb_spec y z) as [->|Hn]; [apply Nat.eqb_refl|]. apply Nat.eqb_neq. intros E. by apply Hi in E.
  Qed.
  Lemma parse_token_sim y : sim (res_sim token_sim) (parse_token y) (parse_token (rn_type r y)).
  Proof using Hd.
    unfold parse_token. apply sim_peek_tok. intros o.
    assert (Hf : sim (res_sim token_sim) (cur_span ≫= λ sp, mret (RPanic [PErr sp (Expecting (fs_one y None))]))
      (cur_span ≫= λ sp, mret (RPanic [PErr sp (Expecting (fs_one (rn_type r y) None))]))).
    { apply sim_cur_span. intros sp. apply sim_mret. cbn. constructor; [|constructor]. apply expect_sim. by apply same_one. }
    destruct o as [t|]; cbn [fmap option_fmap option_map]; [|exact Hf]. cbn [t_ty RenameSpec.re_token]. rewrite type_eqb.
    destruct (t_ty t =? y); [|exact Hf]. apply sim_cons. intros _. by apply sim_mret.
  Qed.
  Lemma parse_lit_sim y lit fol fol' : same_set fol fol' → sim (res_sim token_sim) (parse_token_lit y lit fol) (parse_token_lit (rn_type r y) lit fol').
  Proof using Hd.
    intros Hf. unfold parse_token_lit. apply sim_peek_tok. assert (H1 := same_one r Hd y (Some lit)).
    intros [t|]; cbn [fmap option_fmap option_map].
    - apply sim_tosrc. intros x. cbn [t_ty RenameSpec.re_token snd]. rewrite type_eqb.
      change (rn_type r (t_ty t), x) with (re_tok (t_ty t, x)). rewrite (same_contains_some r Hd _ _ _ Hf).
      destruct ((t_ty t =? y) && bool_decide (x = lit)); [|case_match].
      + apply sim_cons. intros _. by apply sim_mret.
      + apply sim_empty_span. intros sp. apply sim_expecting; [done|]. intros e e' He. apply sim_mret. split; [done|]. by constructor.
      + apply sim_expecting; [done|]. intros e e' He. apply sim_mret. by constructor.
    - rewrite (same_e r Hd _ _ Hf). destruct (ts_contains_e fol).
      + apply sim_cur_span. intros sp. apply sim_expecting; [done|]. intros e e' He. apply sim_mret. split; [done|]. by constructor.
      + apply sim_eof. intros e e' He. apply sim_mret. by constructor.
  Qed.

  (** ** Sequences and marks *)
  Definition trees_sim (l l' : list tree) : Prop := l' = map re_tree l.
  Lemma seq_sim rec rec' ts acc es es' : (∀ t, tsim (rec t) (rec' (re_ty t))) → errs_sim es es' →
    sim (res_sim trees_sim) (produce_seq rec ts acc es) (produce_seq rec' (map re_ty ts) (map re_tree acc) es').
  Proof.
    intros H. revert acc es es'. induction ts as [|t ts IH]; intros acc es es' He; cbn [produce_seq map].
    - apply sim_mret. by apply into_sim.
    - eapply sim_bind; [apply H|]. intros x y Hxy%unres_sim. destruct (unres x) as [[a|] e], (unres y) as [[b|] e']; try done.
      + destruct Hxy as [-> Hxy]. rewrite re_snoc. apply IH. by apply Forall2_app.
      + apply sim_mret. cbn. by apply Forall2_app.
  Qed.
  Lemma fields_sim fs xs : sim (=) (apply_fields fs xs) (apply_fields (map (re_field r) fs) (map re_tree xs)).
  Proof.
    revert xs. induction fs as [|[t [sem|]] fs IH]; intros [|x xs]; cbn [apply_fields map]; try (by apply sim_mret).
    - rewrite re_span. apply sim_apply. apply IH.
    - apply IH.
  Qed.

  (** ** Options, lists *)
  Lemma option_sim {X Y} (Q : X → Y → Prop) p p' sp sp' first first' : sim (res_sim Q) p p' → (∀ x y, Q x y → sp' y = sp x) → same_set first first' →
    sim (res_sim (λ a b, fst b = fst a ∧ match snd a, snd b with Some x, Some y => Q x y | None, None => True | _, _ => False end))
      (produce_option p sp first) (produce_option p' sp' first').
  Proof using Hd.
    intros Hp Hsp Hf. unfold produce_option. apply sim_peek_src. intros [x|]; cbn [fmap option_fmap option_map].
    - rewrite (same_contains_some r Hd _ _ _ Hf). destruct (ts_contains first (Some x)).
      + eapply sim_bind; [exact Hp|]. intros [a|a es|es] [b|b es'|es'] H; try done.
        * apply sim_mret. cbn. split; [by apply Hsp|done].
        * apply sim_mret. destruct H as [H1 H2]. cbn. split; [|done]. split; [by apply Hsp|done].
        * apply sim_empty_span. intros e. apply sim_mret. cbn. done.
      + apply sim_empty_span. intros e. by apply sim_mret.
    - apply sim_empty_span. intros e. by apply sim_mret.
  Qed.

  Lemma iter_sim n p p' first first' acc es es' hi : tsim p p' → same_set first first' → errs_sim es es' →
    sim (λ a b, fst (fst b) = map re_tree (fst (fst a)) ∧ errs_sim (snd (fst a)) (snd (fst b)) ∧ snd b = snd a)
      (iter_loop n p first acc es hi) (iter_loop n p' first' (map re_tree acc) es' hi).
  Proof using Hd.
    intros Hp Hf. revert acc es es' hi. induction n as [|n IH]; intros acc es es' hi He; cbn [iter_loop]; [constructor|].
    apply sim_peek_src. intros [x|]; cbn [fmap option_fmap option_map]; [|by apply sim_mret].
    rewrite (same_contains_some r Hd _ _ _ Hf). destruct (ts_contains first (Some x)); [|by apply sim_mret].
    eapply sim_bind; [exact Hp|]. intros a b Hab%unres_sim. destruct (unres a) as [[t|] e], (unres b) as [[t'|] e']; try done.
    - destruct Hab as [-> Hab]. rewrite re_snoc, re_hi. apply IH. by apply Forall2_app.
    - apply sim_mret. cbn. split; [done|]. split; [by apply Forall2_app|done].
  Qed.
  Definition spanned_sim (a b : span * list tree) : Prop := fst b = fst a ∧ snd b = map re_tree (snd a).
  Lemma plus_sim n p p' first first' : tsim p p' → same_set first first' →
    sim (res_sim spanned_sim) (produce_plus n p first) (produce_plus n p' first').
  Proof using Hd.
    intros Hp Hf. unfold produce_plus. eapply sim_bind; [exact Hp|]. intros a b Hab%unres_sim.
    destruct (unres a) as [[t|] e], (unres b) as [[t'|] e']; try done; [|by apply sim_mret].
    destruct Hab as [-> Hab]. rewrite re_hi, re_lo. eapply sim_bind; [exact (iter_sim n p p' first first' [t] e e' _ Hp Hf Hab)|].
    intros [[l es] hi] [[l' es'] hi'] (H1 & H2 & H3). cbn in H1, H2, H3. subst. apply sim_mret. by apply into_sim.
  Qed.

  (** ** [Loop] *)
  Lemma skip_sim n first first' tk hi : same_set first first' →
    sim (λ a b, fst b = re_tok <$> fst a ∧ snd b = snd a) (skip_loop n first tk hi) (skip_loop n first' (re_tok <$> tk) hi).
  Proof using Hd.
    intros Hf. revert tk hi. induction n as [|n IH]; intros tk hi; cbn [skip_loop]; [constructor|].
    destruct tk as [x|]; cbn [fmap option_fmap option_map]; [|by apply sim_mret]. rewrite (same_contains_some r Hd _ _ _ Hf).
    destruct (ts_contains first (Some x)); [by apply sim_mret|]. apply sim_cur_span. intros sp. apply sim_cons. intros _. apply sim_peek_src. intros o. apply IH.
  Qed.
  Lemma re_option_list o : map re_tree (option_list o) = option_list (re_tree <$> o).
  Proof. by destruct o. Qed.
  Lemma loop_sim n p p' first first' acc es es' : tsim p p' → same_set first first' → errs_sim es es' →
    sim (λ a b, fst b = map re_tree (fst a) ∧ errs_sim (snd a) (snd b)) (loop_loop n p first acc es) (loop_loop n p' first' (map re_tree acc) es').
  Proof using Hd.
    intros Hp Hf. revert acc es es'. induction n as [|n IH]; intros acc es es' He; cbn [loop_loop]; [constructor|].
    apply sim_peek_src. intros [x|]; cbn [fmap option_fmap option_map]; [|by apply sim_mret].
    apply (sim_bind r (λ a b, fst b = re_tok <$> fst a ∧ errs_sim (snd a) (snd b))).
    - rewrite (same_contains_some r Hd _ _ _ Hf). destruct (ts_contains first (Some x)); [by apply sim_mret|].
      apply sim_cur_span. intros sp. apply sim_cons. intros _. apply sim_peek_src. intros o.
      eapply sim_bind; [by apply skip_sim|]. intros [tk hi] [tk' hi'] [E1 E2]. cbn in E1, E2. subst. apply sim_mret. cbn. split; [done|].
      apply Forall2_app; [done|]. constructor; [done|constructor].
    - intros [tk1 es1] [tk1' es1'] [E He1]. cbn in E, He1. subst. destruct tk1 as [y|]; cbn [fmap option_fmap option_map]; [|by apply sim_mret].
      apply sim_cur_span. intros sp0. eapply sim_bind; [exact Hp|]. intros a b Hab%unres_sim.
      assert (H : ∃ o e e', unres a = (o, e) ∧ unres b = (re_tree <$> o, e') ∧ errs_sim e e').
      { destruct (unres a) as [[t|] e], (unres b) as [[t'|] e']; try done; [destruct Hab as [-> Hab]|]; [exists (Some t), e, e'|exists None, e, e']; done. }
      destruct H as (o & e & e' & -> & -> & Hee). apply sim_cur_span. intros sp1. rewrite <- re_option_list, <- map_app.
      destruct (sp_lo sp0 =? sp_lo sp1).
      + apply sim_mret. cbn. split; [done|]. apply Forall2_app; [by apply Forall2_app|]. constructor; [done|constructor].
      + apply IH. by apply Forall2_app.
  Qed.
  Lemma re_head l : head (map re_tree l) = re_tree <$> head l.
  Proof. by destruct l. Qed.
  Lemma re_last l : last (map re_tree l) = re_tree <$> last l.
  Proof. exact (fmap_last re_tree l). Qed.
  Lemma produce_loop_sim n p p' first first' : tsim p p' → same_set first first' →
    sim (res_sim spanned_sim) (produce_loop n p first) (produce_loop n p' first').
  Proof using Hd.
    intros Hp Hf. unfold produce_loop. eapply sim_bind; [exact (loop_sim n p p' first first' [] [] [] Hp Hf (List.Forall2_nil same_err))|].
    intros [l es] [l' es'] [E He]. cbn in E, He. subst. apply (sim_bind r (=)).
    - rewrite re_head, re_last. destruct (head l) as [a|], (last l) as [b|]; cbn [fmap option_fmap option_map];
        try (by apply sim_empty; intros; constructor). rewrite re_lo, re_hi. by apply sim_mret.
    - intros sp _ <-. apply sim_mret. by apply into_sim.
  Qed.

  (** ** [Split] and [Punct] *)
  Definition inner_sim (a b : option tree * list perr * bool) : Prop :=
    fst (fst b) = re_tree <$> fst (fst a) ∧ errs_sim (snd (fst a)) (snd (fst b)) ∧ snd b = snd a.
  Lemma none_eqb (o : option tok) : bool_decide (re_tok <$> o = None) = bool_decide (o = None).
  Proof. by destruct o. Qed.
  Lemma split_inner_sim n p p' ef ef' pf pf' fol fol' panic panic' es es' : tsim p p' → same_set ef ef' → same_set pf pf' → same_set fol fol' →
    panic_sim panic panic' → errs_sim es es' →
    sim inner_sim (split_inner n p ef pf fol panic es) (split_inner n p' ef' pf' fol' panic' es').
  Proof using Hd.
    intros Hp Hef Hpf Hfol. revert panic panic' es es'. induction n as [|n IH]; intros panic panic' es es' Hpa He; cbn [split_inner]; [constructor|].
    apply sim_peek_src. intros tk. rewrite (same_contains r Hd _ _ _ Hef), (same_e r Hd _ _ Hef).
    apply (sim_bind r (λ a b, match a, b with
      | inl (t, e), inl (t', e') => t' = re_tree t ∧ errs_sim e e'
      | inr (o, q), inr (o', q') => o' = re_tok <$> o ∧ panic_sim q q'
      | _, _ => False end)).
    - destruct (ts_contains ef tk || ts_contains_e ef).
      + eapply sim_bind; [exact Hp|]. intros a b Hab%unres_sim. destruct (unres a) as [[t|] e], (unres b) as [[t'|] e']; try done.
        * destruct Hab as [-> Hab]. apply sim_mret. split; [done|]. apply Forall2_app; [done|]. apply Forall2_app; [done|by apply list_sim].
        * apply sim_peek_src. intros o. apply sim_mret. split; [done|by apply merge_sim].
      + destruct Hpa as [q q' Hq|].
        * apply sim_cur_span. intros sp. apply sim_mret. split; [done|]. constructor. by apply set_hi_sim.
        * apply sim_expecting; [done|]. intros e e' Hee. apply sim_mret. split; [done|]. by constructor.
    - intros [[t e]|[o q]] [[t' e']|[o' q']] H; try done.
      + destruct H as [-> H]. by apply sim_mret.
      + destruct H as [-> H]. rewrite (same_contains r Hd _ _ _ Hpf), (same_contains r Hd _ _ _ Hfol), none_eqb.
        destruct (ts_contains pf o); [|destruct (bool_decide (o = None) || ts_contains fol o)].
        * apply sim_mret. split; [done|]. split; [|done]. apply Forall2_app; [done|by apply list_sim].
        * apply sim_mret. split; [done|]. split; [|done]. apply Forall2_app; [done|by apply list_sim].
        * apply sim_cons. intros _. by apply IH.
  Qed.
  Lemma punct_inner_sim n p p' ef ef' pf pf' fol fol' panic panic' es es' : tsim p p' → same_set ef ef' → same_set pf pf' → same_set fol fol' →
    panic_sim panic panic' → errs_sim es es' →
    sim inner_sim (punct_inner n p ef pf fol panic es) (punct_inner n p' ef' pf' fol' panic' es').
  Proof using Hd.
    intros Hp Hef Hpf Hfol. revert panic panic' es es'. induction n as [|n IH]; intros panic panic' es es' Hpa He; cbn [punct_inner]; [constructor|].
    apply sim_peek_src. intros tk. destruct tk as [x|]; cbn [fmap option_fmap option_map].
    2: { apply sim_mret. split; [done|]. split; [|done]. apply Forall2_app; [done|by apply list_sim]. }
    rewrite (same_contains_some r Hd _ _ _ Hef), (same_contains_some r Hd _ _ _ Hfol).
    destruct (negb (ts_contains ef (Some x)) && ts_contains fol (Some x)).
    { apply sim_mret. split; [done|]. split; [|done]. apply Forall2_app; [done|by apply list_sim]. }
    apply (sim_bind r (λ a b, match a, b with
      | inl (t, e), inl (t', e') => t' = re_tree t ∧ errs_sim e e'
      | inr q, inr q' => panic_sim q q'
      | _, _ => False end)).
    - destruct (ts_contains ef (Some x)).
      + eapply sim_bind; [exact Hp|]. intros a b Hab%unres_sim. destruct (unres a) as [[t|] e], (unres b) as [[t'|] e']; try done.
        * destruct Hab as [-> Hab]. apply sim_mret. split; [done|]. apply Forall2_app; [done|]. apply Forall2_app; [by apply list_sim|done].
        * apply sim_mret. by apply merge_sim.
      + apply sim_cur_span. intros sp. apply sim_mret. constructor. destruct Hpa as [q q' Hq|]; [by apply set_hi_sim|].
        apply expect_sim. apply (same_union r Hd); [by apply same_remove|done].
    - intros [[t e]|q] [[t' e']|q'] H; try done.
      + destruct H as [-> H]. by apply sim_mret.
      + apply sim_peek_src. intros o. rewrite (same_contains r Hd _ _ _ Hpf), (same_contains r Hd _ _ _ Hfol), none_eqb.
        destruct (ts_contains pf o); [|destruct (bool_decide (o = None) || ts_contains fol o)].
        * apply sim_mret. split; [done|]. split; [|done]. apply Forall2_app; [done|by apply list_sim].
        * apply sim_mret. split; [done|]. split; [|done]. apply Forall2_app; [done|by apply list_sim].
        * apply sim_cons. intros _. by apply IH.
  Qed.
  Definition outer_sim (a b : list tree * list tree * list perr) : Prop :=
    fst (fst b) = map re_tree (fst (fst a)) ∧ snd (fst b) = map re_tree (snd (fst a)) ∧ errs_sim (snd a) (snd b).
  Lemma split_outer_sim n p p' q q' ef ef' pf pf' fol fol' elems puncts es es' : tsim p p' → tsim q q' → same_set ef ef' → same_set pf pf' → same_set fol fol' →
    errs_sim es es' →
    sim outer_sim (split_outer n p q ef pf fol elems puncts es) (split_outer n p' q' ef' pf' fol' (map re_tree elems) (map re_tree puncts) es').
  Proof using Hd.
    intros Hp Hq Hef Hpf Hfol. revert elems puncts es es'. induction n as [|n IH]; intros elems puncts es es' He; cbn [split_outer]; [constructor|].
    apply sim_peek_src. intros [x|]; cbn [fmap option_fmap option_map]; [|by apply sim_mret].
    rewrite (same_contains_some r Hd _ _ _ Hpf). destruct (ts_contains pf (Some x)); [|by apply sim_mret].
    eapply sim_bind; [exact Hq|]. intros a b Hab%unres_sim. destruct (unres a) as [[t|] e], (unres b) as [[t'|] e']; try done.
    - destruct Hab as [-> Hab].
      eapply sim_bind; [apply (split_inner_sim n p p' ef ef' pf pf' fol fol' None None (es ++ e) (es' ++ e')); try done; [constructor|by apply Forall2_app]|].
      intros [[o e1] c] [[o' e1'] c'] (E & H1 & E2). cbn in E, H1, E2. subst. rewrite <- re_option_list, <- map_app.
      assert (E : match re_tree <$> o with Some _ => map re_tree puncts ++ [re_tree t] | None => map re_tree puncts end =
        map re_tree (match o with Some _ => puncts ++ [t] | None => puncts end)) by (destruct o; cbn; by rewrite ?re_snoc).
      rewrite E. destruct c; [by apply IH|by apply sim_mret].
    - apply sim_mret. split; [done|]. split; [done|]. by apply Forall2_app.
  Qed.
  Lemma punct_outer_sim n p p' q q' ef ef' pf pf' fol fol' elems puncts es es' : tsim p p' → tsim q q' → same_set ef ef' → same_set pf pf' → same_set fol fol' →
    errs_sim es es' →
    sim outer_sim (punct_outer n p q ef pf fol elems puncts es) (punct_outer n p' q' ef' pf' fol' (map re_tree elems) (map re_tree puncts) es').
  Proof using Hd.
    intros Hp Hq Hef Hpf Hfol. revert elems puncts es es'. induction n as [|n IH]; intros elems puncts es es' He; cbn [punct_outer]; [constructor|].
    apply sim_peek_src. intros [x|]; cbn [fmap option_fmap option_map]; [|by apply sim_mret].
    rewrite (same_contains_some r Hd _ _ _ Hpf). destruct (ts_contains pf (Some x)); [|by apply sim_mret].
    eapply sim_bind; [exact Hq|]. intros a b Hab%unres_sim. destruct (unres a) as [[t|] e], (unres b) as [[t'|] e']; try done.
    - destruct Hab as [-> Hab].
      eapply sim_bind; [apply (punct_inner_sim n p p' ef ef' pf pf' fol fol' None None (es ++ e) (es' ++ e')); try done; [constructor|by apply Forall2_app]|].
      intros [[o e1] c] [[o' e1'] c'] (E & H1 & E2). cbn in E, H1, E2. subst. rewrite <- re_option_list, <- map_app, re_snoc.
      destruct c; [by apply IH|by apply sim_mret].
    - apply sim_mret. split; [done|]. split; [done|]. by apply Forall2_app.
  Qed.
  Lemma split_sim n p p' q q' ef ef' pf pf' fol fol' : tsim p p' → tsim q q' → same_set ef ef' → same_set pf pf' → same_set fol fol' →
    tsim (produce_split n p q ef pf fol) (produce_split n p' q' ef' pf' fol').
  Proof using Hd.
    intros Hp Hq Hef Hpf Hfol. unfold produce_split. eapply sim_bind; [exact Hp|]. intros a b Hab%unres_sim.
    destruct (unres a) as [[t|] e], (unres b) as [[t'|] e']; try done; [|by apply sim_mret]. destruct Hab as [-> Hab].
    eapply sim_bind; [exact (split_outer_sim n p p' q q' ef ef' pf pf' fol fol' [t] [] e e' Hp Hq Hef Hpf Hfol Hab)|].
    intros [[el pu] es] [[el' pu'] es'] (H1 & H2 & H3). cbn in H1, H2, H3. subst. apply sim_mret. apply into_sim; [|done].
    unfold tree_sim. cbn. rewrite re_lo, re_last. f_equal. f_equal. destruct (last el); cbn; [by rewrite re_hi|done].
  Qed.
  Lemma punct_sim n p p' q q' ef ef' pf pf' fol fol' : tsim p p' → tsim q q' → same_set ef ef' → same_set pf pf' → same_set fol fol' →
    tsim (produce_punct n p q ef pf fol) (produce_punct n p' q' ef' pf' fol').
  Proof using Hd.
    intros Hp Hq Hef Hpf Hfol. unfold produce_punct. eapply sim_bind; [exact Hp|]. intros a b Hab%unres_sim.
    destruct (unres a) as [[t|] e], (unres b) as [[t'|] e']; try done; [|by apply sim_mret]. destruct Hab as [-> Hab].
    eapply sim_bind; [exact (punct_outer_sim n p p' q q' ef ef' pf pf' fol fol' [t] [] e e' Hp Hq Hef Hpf Hfol Hab)|].
    intros [[el pu] es] [[el' pu'] es'] (H1 & H2 & H3). cbn in H1, H2, H3. subst. apply sim_mret. apply into_sim; [|done].
    unfold tree_sim. cbn. rewrite re_lo, !re_last. f_equal. f_equal. destruct (last el), (last pu); cbn; by rewrite ?re_hi.
  Qed.

  (** ** [Recover] *)
  Lemma recover_loop_sim n p p' tf tf' panic panic' es es' : tsim p p' → same_set tf tf' → panic_sim panic panic' → errs_sim es es' →
    sim (λ a b, fst (fst b) = re_tree <$> fst (fst a) ∧ panic_sim (snd (fst a)) (snd (fst b)) ∧ errs_sim (snd a) (snd b))
      (recover_loop n p tf panic es) (recover_loop n p' tf' panic' es').
  Proof using Hd.
    intros Hp Hf. revert panic panic' es es'. induction n as [|n IH]; intros panic panic' es es' Hpa He; cbn [recover_loop]; [constructor|].
    apply sim_peek_src. intros [x|]; cbn [fmap option_fmap option_map]; rewrite (same_e r Hd _ _ Hf).
    - rewrite (same_contains_some r Hd _ _ _ Hf).
      apply (sim_bind r (λ a b, match a, b with
        | inl (t, e), inl (t', e') => t' = re_tree t ∧ errs_sim e e'
        | inr q, inr q' => panic_sim q q'
        | _, _ => False end)).
      + destruct (ts_contains tf (Some x) || ts_contains_e tf); [|by apply sim_mret].
        eapply sim_bind; [exact Hp|]. intros a b Hab%unres_sim. destruct (unres a) as [[t|] e], (unres b) as [[t'|] e']; try done.
        * destruct Hab as [-> Hab]. apply sim_mret. split; [done|]. by apply Forall2_app.
        * apply sim_mret. by apply merge_sim.
      + intros [[t e]|q] [[t' e']|q'] H; try done.
        * destruct H as [-> H]. by apply sim_mret.
        * apply (sim_bind r same_err).
          -- destruct H as [y y' Hy|].
             ++ apply sim_cur_span. intros sp. apply sim_mret. by apply set_hi_sim.
             ++ apply sim_cur. intros sp. constructor. by apply expect_sim.
          -- intros y y' Hy. apply sim_cons. intros _. apply IH; [by constructor|done].
    - destruct (ts_contains_e tf); [|by apply sim_mret].
      eapply sim_bind; [exact Hp|]. intros a b Hab%unres_sim. destruct (unres a) as [[t|] e], (unres b) as [[t'|] e']; try done.
      + destruct Hab as [-> Hab]. apply sim_mret. split; [done|]. split; [done|]. by apply Forall2_app.
      + apply sim_mret. split; [done|]. split; [by apply merge_sim|done].
  Qed.
  Lemma recover_sim n p p' q q' hf hf' tf tf' : tsim p p' → tsim q q' → same_set hf hf' → same_set tf tf' →
    tsim (produce_recover n p q hf tf) (produce_recover n p' q' hf' tf').
  Proof using Hd.
    intros Hp Hq Hhf Htf. unfold produce_recover. apply sim_peek_src. intros tk. rewrite (same_contains r Hd _ _ _ Hhf), (same_e r Hd _ _ Hhf).
    apply (sim_bind r (λ (a b : option perr * span * option tree * list perr),
      panic_sim (fst (fst (fst a))) (fst (fst (fst b))) ∧ snd (fst (fst b)) = snd (fst (fst a)) ∧ snd (fst b) = re_tree <$> snd (fst a) ∧ errs_sim (snd a) (snd b))).
    - destruct (ts_contains hf tk || ts_contains_e hf).
      + eapply sim_bind; [exact Hp|]. intros a b Hab%unres_sim. destruct (unres a) as [[t|] e], (unres b) as [[t'|] e']; try done.
        * destruct Hab as [-> Hab]. apply sim_mret. cbn. rewrite re_span. split; [constructor|done].
        * apply sim_empty_span. intros sp. apply sim_mret. cbn. split; [by apply last_sim|]. split; [done|]. split; [done|constructor].
      + apply sim_expecting; [done|]. intros e e' Hee. apply sim_empty_span. intros sp. apply sim_mret. cbn. split; [by constructor|]. split; [done|]. split; [done|constructor].
    - intros [[[pa sp] hd] es] [[[pa' sp'] hd'] es'] (H1 & H2 & H3 & H4). cbn in H1, H2, H3, H4. subst.
      eapply sim_bind; [by apply (recover_loop_sim n q q' tf tf' pa pa' es es')|].
      intros [[tl pb] eb] [[tl' pb'] eb'] (G1 & G2 & G3). cbn in G1, G2, G3. subst.
      destruct tl as [x|]; cbn [fmap option_fmap option_map]; apply sim_mret.
      + apply into_sim; [|apply Forall2_app; [done|by apply list_sim]]. unfold tree_sim. cbn. by destruct hd.
      + cbn. apply Forall2_app; [done|by apply list_sim].
  Qed.

  (** ** All types *)
  Lemma pid_re p : pid (re_prod r p) = re_prod r (pid p).
  Proof. induction p; cbn; done. Qed.
  Lemma prod_of_re t : prod_of (re_ty t) = re_prod r (prod_of t).
  Proof.
    revert t. fix IH 1. intros [n y l|n|l|t|t|t|t|t|t|t|t|t p|t p|t p]; cbn; try done; try (by rewrite ?(IH t), ?(IH p)).
    f_equal. induction l as [|t l IHl]; [done|]. cbn. by rewrite (IH t), IHl.
  Qed.
  Lemma key_re t : key (re_ty t) = re_prod r (key t).
  Proof. unfold key. by rewrite prod_of_re, pid_re. Qed.

  Section produce.
    Variables (env env' : denv) (first follow first' follow' : prod → tset) (jump jump' : prod → option tok → option nat).
    Hypothesis Henv : redeclared r env env'.
    Hypothesis Hfirst : ∀ p, same_set (first p) (first' (re_prod r p)).
    Hypothesis Hfollow : ∀ p, same_set (follow p) (follow' (re_prod r p)).
    Hypothesis Hjump : ∀ p o, jump' (re_prod r p) (re_tok <$> o) = jump p o.
    Notation prod1 := (produce env first follow jump).
    Notation prod2 := (produce env' first' follow' jump').

    Lemma produce_sim f t : tsim (prod1 f t) (prod2 f (re_ty t)).
    Proof using Hd Henv Hfirst Hfollow Hjump.
      revert t. induction f as [|f IH]; intros t; [constructor|].
      assert (Hf : ∀ t, same_set (first (key t)) (first' (key (re_ty t)))) by (intros; rewrite key_re; apply Hfirst).
      assert (Hw : ∀ t, same_set (follow (key t)) (follow' (key (re_ty t)))) by (intros; rewrite key_re; apply Hfollow).
      destruct t as [n y lit|n|l|t|t|t|t|t|t|t|t|t p|t p|t p]; cbn [produce RenameSpec.re_ty].
      - apply (sim_bind r (res_sim token_sim)).
        + destruct lit as [x|]; [|apply parse_token_sim]. apply parse_lit_sim. exact (Hw (TTok n y (Some x))).
        + intros a b Hab. apply sim_mret. eapply map_sim; [exact Hab|]. intros u v ->. done.
      - rewrite Henv. destruct (env !! n) as [[fs|vs]|]; cbn [fmap option_fmap option_map re_decl].
        + assert (E : map fst (map (re_field r) fs) = map re_ty (map fst fs)) by (rewrite !map_map; done). rewrite E.
          eapply sim_bind; [exact (seq_sim _ _ (map fst fs) [] [] [] IH (List.Forall2_nil same_err))|]. intros a b Hab%unres_sim.
          destruct (unres a) as [[xs|] e], (unres b) as [[ys|] e']; try done; [|by apply sim_mret]. destruct Hab as [-> Hab].
          eapply sim_bind; [apply fields_sim|]. intros _ _ _. apply sim_mret. by apply into_sim.
        + apply sim_peek_src. intros tk. change (TNamed (rn_decl r n)) with (re_ty (TNamed n)). rewrite key_re, Hjump.
          assert (Hno : tsim (e ← expecting (first (key (TNamed n))); mret (RPanic [e])) (e ← expecting (first' (re_prod r (key (TNamed n)))); mret (RPanic [e]))).
          { apply sim_expecting; [apply Hfirst|]. intros e e' He. apply sim_mret. by constructor. }
          destruct (jump (key (TNamed n)) tk) as [i|]; [|exact Hno]. cbn [mbind option_bind].
          change (map (re_field r) vs !! i) with ((re_field r <$> vs) !! i). rewrite list_lookup_fmap.
          destruct (vs !! i) as [[t' sem]|]; [|exact Hno]. clear Hno. cbn [fmap option_fmap option_map].
          unfold re_field. cbn [fst snd option_bind]. eapply sim_bind; [apply IH|]. intros [x|x es|es] [y|y es'|es'] H; try done.
            -- rewrite H. destruct sem as [s|]; cbn [fmap option_fmap option_map]; [rewrite re_span; apply sim_apply|]; apply sim_mret; done.
            -- destruct H as [-> H]. destruct sem as [s|]; cbn [fmap option_fmap option_map]; [rewrite re_span; apply sim_apply|]; apply sim_mret; done.
            -- destruct sem as [s|]; apply sim_mret; done.
        + constructor.
      - eapply sim_bind; [exact (seq_sim _ _ l [] [] [] IH (List.Forall2_nil same_err))|]. intros a b Hab. apply sim_mret. eapply map_sim; [exact Hab|]. intros u v ->. done.
      - apply IH.
      - eapply sim_bind; [apply (option_sim tree_sim); [apply IH|intros x y ->; apply re_span|apply Hf]|].
        intros a b Hab. apply sim_mret. eapply map_sim; [exact Hab|]. intros [sp [x|]] [sp' [y|]] [E1 E2]; cbn in E1, E2; try done; subst; [rewrite E2|]; done.
      - eapply sim_bind; [apply (option_sim tree_sim); [apply IH|intros x y ->; apply re_span|apply Hf]|].
        intros a b Hab. apply sim_mret. eapply map_sim; [exact Hab|]. intros [sp [x|]] [sp' [y|]] [E1 E2]; cbn in E1, E2; try done; by subst.
      - eapply sim_bind; [apply IH|]. intros [x|x es|es] [y|y es'|es'] H; try done.
        + rewrite H, re_span. apply sim_get_src. intros s. apply sim_mret. done.
        + destruct H as [-> H]. rewrite re_span. apply sim_get_src. intros s. apply sim_mret. done.
        + by apply sim_mret.
      - eapply sim_bind; [apply IH|]. intros [x|x es|es] [y|y es'|es'] H; try done.
        + rewrite H, re_span. apply sim_get_src. intros s. apply sim_mret. done.
        + destruct H as [-> H]. rewrite re_span. apply sim_get_src. intros s. apply sim_mret. done.
        + by apply sim_mret.
      - eapply sim_bind; [apply plus_sim; [apply IH|exact (Hf (TPlus t))]|]. intros a b Hab. apply sim_mret. eapply map_sim; [exact Hab|].
        intros [sp l] [sp' l'] [E1 E2]. cbn in E1, E2. by subst.
      - eapply sim_bind; [apply (option_sim spanned_sim); [apply plus_sim; [apply IH|exact (Hf (TPlus t))]|intros x y [-> _]; done|exact (Hf (TPlus t))]|].
        intros a b Hab. apply sim_mret. eapply map_sim; [exact Hab|].
        intros [sp [[sp1 l]|]] [sp' [[sp1' l']|]] [E1 E2]; cbn in E1, E2; try done; subst; [|done]. destruct E2 as [E3 E4]. cbn in E3, E4. by subst.
      - eapply sim_bind; [apply produce_loop_sim; [apply IH|exact (Hf (TLoop t))]|]. intros a b Hab. apply sim_mret. eapply map_sim; [exact Hab|].
        intros [sp l] [sp' l'] [E1 E2]. cbn in E1, E2. by subst.
      - apply split_sim; [apply IH|apply IH|apply Hf|apply Hf|exact (Hw (TSplit t p))].
      - apply punct_sim; [apply IH|apply IH|apply Hf|apply Hf|exact (Hw (TPunct t p))].
      - apply recover_sim; [apply IH|apply IH|apply Hf|apply Hf].
    Qed.
    Lemma parse_with_sim f t : sim (λ a b, b = re_tree <$> a) (parse_with env first follow jump f t) (parse_with env' first' follow' jump' f (re_ty t)).
    Proof using Hd Henv Hfirst Hfollow Hjump.
      unfold parse_with. eapply sim_bind; [apply produce_sim|]. intros [x|x es|es] [y|y es'|es'] H; try done.
      - rewrite H. by apply sim_mret.
      - destruct H as [-> H]. apply sim_ext; [done|]. by apply sim_mret.
      - apply sim_ext; [done|]. by apply sim_mret.
    Qed.
  End produce.

  Lemma parse_sim env env' m m' f t : redeclared r env env' → same_meta r m m' → sim (same_answer r) (parse env f t m) (parse env' f (re_ty t) m').
  Proof using Hd.
    intros He Hm. destruct m as [e|md], m' as [e'|md']; try done; cbn [parse].
    - apply sim_mret. exact Hm.
    - eapply sim_bind; [apply parse_with_sim; [done|..]|].
      + intros p. apply Hm.
      + intros p. apply Hm.
      + intros p. apply Hm.
      + intros a b ->. by apply sim_mret.
  Qed.
End rename.
