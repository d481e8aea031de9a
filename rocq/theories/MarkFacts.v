(** Which tokens a parse marks. *)
From Coq Require Import String NArith.
From stdpp Require Import prelude list strings relations.
From Verif Require Import LexModel LexSpec LexFacts VecFacts SynSetModel TableModel StreamModel StreamSpec StreamFacts TypeModel ProduceModel ParseSpec ProgFacts TreeFacts SoundFacts RunFacts MarkSpec.
Local Open Scope nat_scope.
#[local] Arguments ts_contains : simpl never.

(** Spans with the semantic types put on them. *)
Notation marking := (span * N)%type.
(** A recorded token with the semantic types of all the markings it lies inside of. *)
Definition marked (ms : list marking) (c : cell) : cell :=
  Cell (c_tok c) (fold_right (λ m a, if decide (is_inside (fst m) c) then N.lor (snd m) a else a) (c_sem c) ms).

(** The marking of a part annotated [sem]. *)
Definition own (sem : option N) (x : tree) : list marking :=
  match sem with Some s => [(tree_span x, s)] | None => [] end.
Fixpoint owns (fs : list field) (xs : list tree) : list marking :=
  match fs, xs with f :: fs, x :: xs => own (snd f) x ++ owns fs xs | _, _ => [] end.

(** [marks t x ms]: [ms] are the markings of the annotated fields and variants in the tree [x]
    of type [t].  Types whose value does not keep the tree have none of their own. *)
Inductive marks (env : denv) : ty → tree → list marking → Prop :=
| m_tok n y lit t : marks env (TTok n y lit) (TrTok t) []
| m_struct n fs xs ms : env !! n = Some (DStruct fs) → marks_all env (map fst fs) xs ms →
    marks env (TNamed n) (TrSeq xs) (ms ++ owns fs xs)
| m_enum n vs i t sem x ms : env !! n = Some (DEnum vs) → vs !! i = Some (t, sem) → marks env t x ms →
    marks env (TNamed n) (TrVar i x) (ms ++ own sem x)
| m_tuple ts xs ms : marks_all env ts xs ms → marks env (TTuple ts) (TrSeq xs) ms
| m_box t x ms : marks env t x ms → marks env (TBox t) x ms
| m_none t sp : marks env (TOpt t) (TrOpt sp None) []
| m_some t sp x ms : marks env t x ms → marks env (TOpt t) (TrOpt sp (Some x)) ms
| m_exists t sp b : marks env (TExists t) (TrExists sp b) []
| m_quote t sp s : marks env (TQuote t) (TrQuote sp s) []
| m_parse t sp s : marks env (TParse t) (TrParse sp s) []
| m_list t k sp xs ms : t = TPlus k ∨ t = TStar k ∨ t = TLoop k →
    marks_all env (replicate (length xs) k) xs ms → marks env t (TrList sp xs) ms
| m_split t d n sp zs ms : marks_all env (alternate n t d) zs ms →
    marks env (TSplit t d) (TrSplit sp (evens zs) (odds zs)) ms
| m_punct t d n (trailing : bool) sp zs ms : marks_all env (alternate n t d ++ if trailing then [d] else []) zs ms →
    marks env (TPunct t d) (TrPunct sp (evens zs) (odds zs)) ms
with marks_all (env : denv) : list ty → list tree → list marking → Prop :=
| ma_nil : marks_all env [] [] []
| ma_cons t ts x xs m ms : marks env t x m → marks_all env ts xs ms → marks_all env (t :: ts) (x :: xs) (m ++ ms).

Scheme marks_mut := Induction for marks Sort Prop with marks_all_mut := Induction for marks_all Sort Prop.

Lemma marked_app m1 m2 c : marked (m1 ++ m2) c = marked m1 (marked m2 c).
Proof. unfold marked. cbn. by rewrite foldr_app. Qed.
Lemma marked_nil c : marked [] c = c.
Proof. by destruct c. Qed.
Lemma marked_tok ms c : c_tok (marked ms c) = c_tok c.
Proof. done. Qed.
Definition mask (ms : list marking) (c : cell) : N :=
  fold_right (λ m a, if decide (is_inside (fst m) c) then N.lor (snd m) a else a) 0%N ms.
Lemma marked_mask ms c : marked ms c = Cell (c_tok c) (N.lor (mask ms c) (c_sem c)).
Proof.
  unfold marked, mask. f_equal. induction ms as [|m ms IH]; [done|]. cbn. rewrite IH. destruct (decide _); [|done].
  by rewrite N.lor_assoc.
Qed.
Lemma mask_tok ms c c' : c_tok c = c_tok c' → mask ms c = mask ms c'.
Proof.
  intros E. unfold mask. induction ms as [|m ms IH]; [done|]. cbn. rewrite IH.
  destruct (decide (is_inside m.1 c)) as [H|H], (decide (is_inside m.1 c')) as [H'|H']; unfold is_inside, c_lo, c_hi in *; rewrite E in H; tauto.
Qed.
Lemma marked_comm m1 m2 c : marked m1 (marked m2 c) = marked m2 (marked m1 c).
Proof.
  rewrite (marked_mask m1), (marked_mask m2 (marked m1 c)), !marked_tok. f_equal.
  rewrite (mask_tok m1 _ c), (mask_tok m2 _ c) by done. rewrite !marked_mask. cbn. rewrite !N.lor_assoc. f_equal. apply N.lor_comm.
Qed.
Lemma marked_off ms c : Forall (λ m, ¬ is_inside m.1 c) ms → marked ms c = c.
Proof.
  destruct c as [t a]. unfold marked. cbn. induction 1 as [|m ms Hm _ IH]; [done|]. cbn. rewrite decide_False by done. done.
Qed.

(** * Steps *)
Record stepped (s : ast) (ms : list marking) (s' : ast) : Prop := Stepped {
  st_adv : ∃ l, adv s l s' ∧ a_done s' = map (marked ms) (a_done s ++ map cell_of l);
  st_pos : Forall (λ m, sp_hi (fst m) ≤ pos s') ms }.
Lemma pos_le s l s' : aok s → adv s l s' → pos s ≤ pos s'.
Proof. intros Hok Hl. rewrite (adv_pos _ _ _ Hl). by apply (end_pos_ge (String.length (a_src s))), adv_spans with s'. Qed.
Lemma stepped_refl s : stepped s [] s.
Proof.
  split; [|constructor]. exists []. split; [apply adv_refl|]. rewrite app_nil_r. symmetry.
  rewrite <- map_id. apply map_ext. apply marked_nil.
Qed.
Lemma new_far s l s' ms : aok s → adv s l s' → Forall (λ m, sp_hi (fst m) ≤ pos s) ms →
  map (marked ms) (map cell_of l) = map cell_of l.
Proof.
  intros Hok Hl Hm. assert (H := adv_spans _ _ _ Hok Hl). clear Hl.
  assert (Hgen : ∀ p, pos s ≤ p → spans_ok p (String.length (a_src s)) (map t_span l) → map (marked ms) (map cell_of l) = map cell_of l).
  { clear H. induction l as [|t l IH]; intros p Hp H; [done|]. cbn in H. destruct H as (H1 & H2 & H3). cbn. f_equal.
    - apply marked_off. eapply Forall_impl; [exact Hm|]. intros m Hle [Hj Hi]. unfold c_lo, c_hi in *. cbn in *. lia.
    - apply (IH (sp_hi (t_span t))); [lia|done]. }
  by apply (Hgen (pos s)).
Qed.
Lemma stepped_trans s m1 s1 m2 s2 : aok s → stepped s m1 s1 → stepped s1 m2 s2 → stepped s (m1 ++ m2) s2.
Proof.
  intros Hok [(l1 & Hl1 & E1) P1] [(l2 & Hl2 & E2) P2].
  assert (Hok1 : aok s1) by (by eapply adv_aok). assert (Hle := pos_le _ _ _ Hok1 Hl2). split.
  - exists (l1 ++ l2). split; [by eapply adv_trans|]. rewrite E2, E1, <- (new_far s1 l2 s2 m1 Hok1 Hl2 P1), <- map_app, map_map.
    rewrite (map_app cell_of), (assoc_L (++)). apply map_ext. intros c. by rewrite marked_app, marked_comm.
  - apply Forall_app. split; [|done]. eapply Forall_impl; [exact P1|]. intros m Hm. cbn in *. lia.
Qed.
Lemma stepped_adv0 s s' : adv s [] s' → a_done s' = a_done s → stepped s [] s'.
Proof.
  intros H E. split; [|constructor]. exists []. split; [done|]. rewrite E, app_nil_r. symmetry. rewrite <- map_id. apply map_ext, marked_nil.
Qed.
Lemma stepped_pop s t r : a_rest s = t :: r → stepped s [] (pop s).
Proof.
  intros E. split; [|constructor]. exists [t]. destruct (pop_adv1 s t r E) as [H _]. split; [done|].
  unfold pop. rewrite E. cbn. symmetry. rewrite <- map_id. apply map_ext, marked_nil.
Qed.
Lemma stepped_mark s sp sem : aok s → sp_hi sp ≤ pos s → stepped s [(sp, sem)] (mark s sp sem).
Proof.
  intros Hok Hle. split.
  - exists []. split; [apply mark_adv|]. rewrite app_nil_r. cbn.
    rewrite (vec_apply_spec (String.length (a_src s))).
    + apply map_ext. intros c. unfold marked. cbn. destruct (decide _); [unfold cell_apply; f_equal; apply N.lor_comm|by destruct c].
    + unfold cells_ok. unfold aok in Hok. rewrite spans_ok_app in Hok. tauto.
  - apply Forall_singleton. cbn. by rewrite (adv_pos _ _ _ (mark_adv s sp sem)).
Qed.

(** * Error-free results *)
Section clean.
  Variable env : denv.
  Variables (first follow : prod → tset) (jump : prod → option tok → option nat).
  Notation W := (wp True True).
  Notation produce := (produce env first follow jump).
  Notation marks := (marks env).
  Notation marks_all := (marks_all env).

  Definition kept (t : ty) (s : ast) (x : tree) (s' : ast) : Prop :=
    ∃ ms, marks t x ms ∧ stepped s ms s' ∧ tree_hi x ≤ pos s'.
  Definition msound (t : ty) (s : ast) (r : res tree) (s' : ast) : Prop :=
    match r with RSucc x => kept t s x s' | RRec _ es | RPanic es => es ≠ [] end.
  Definition msp (t : ty) (p : M (res tree)) : Prop := ∀ s, aok s → W p s (msound t s).
  Lemma msound_unres t s r s' : msound t s r s' →
    match unres r with (Some x, []) => kept t s x s' | (Some x, e) => True | (None, e) => e ≠ [] end.
  Proof. intros H. by destruct r as [x|x [|e es]|es]. Qed.

  Lemma ma_app ts1 ts2 xs1 xs2 m1 m2 : marks_all ts1 xs1 m1 → marks_all ts2 xs2 m2 → marks_all (ts1 ++ ts2) (xs1 ++ xs2) (m1 ++ m2).
  Proof. induction 1; [done|]. intros H2. cbn. rewrite <- (assoc_L (++)). constructor; auto. Qed.
  Lemma ma_length ts xs ms : marks_all ts xs ms → length ts = length xs.
  Proof. induction 1; cbn; lia. Qed.

  Definition keptl (ts : list ty) (s : ast) (ys : list tree) (s' : ast) : Prop :=
    ∃ ms, marks_all ts ys ms ∧ stepped s ms s' ∧ Forall (λ x, tree_hi x ≤ pos s') ys.
  Lemma keptl_nil s s' : stepped s [] s' → keptl [] s [] s'.
  Proof. intros H. exists []. split; [constructor|]. by split. Qed.
  Lemma keptl_cons t ts s x s1 ys s' : aok s → aok s1 → kept t s x s1 → keptl ts s1 ys s' → keptl (t :: ts) s (x :: ys) s'.
  Proof.
    intros Hok Hok1 (m1 & M1 & S1 & P1) (m2 & M2 & S2 & P2). exists (m1 ++ m2). split; [by constructor|].
    split; [by eapply stepped_trans|]. constructor; [|done]. destruct S2 as [(l & Hl & _) _]. assert (H := pos_le _ _ _ Hok1 Hl). lia.
  Qed.

  Lemma produce_seq_clean rec ts s acc errs : aok s → (∀ t, t ∈ ts → msp t (rec t)) →
    W (produce_seq rec ts acc errs) s (λ r s',
      match r with
      | RSucc xs => errs = [] ∧ ∃ ys, xs = acc ++ ys ∧ keptl ts s ys s'
      | RRec _ es | RPanic es => es ≠ []
      end).
  Proof.
    revert s acc errs. induction ts as [|t ts IH]; intros s acc errs Hok Hrec; cbn [produce_seq].
    - apply wp_ret. destruct errs as [|e es]; [|done]. cbn. split; [done|]. exists [].
      rewrite app_nil_r. split; [done|]. apply keptl_nil, stepped_refl.
    - apply wp_bind. eapply wp_call; [apply Hrec; [set_solver|done]|done|].
      intros r s1 l1 Hl1 Hok1 Hs%msound_unres. destruct (unres r) as [[x|] e] eqn:Er.
      + eapply wp_mono; [apply IH; [done|intros; apply Hrec; set_solver]|].
        intros r2 s2 Hp. destruct r2 as [xs|xs es|es]; [|done..]. destruct Hp as (He & ys & -> & Hp).
        apply app_eq_self in He as [-> ->]. split; [done|]. exists (x :: ys).
        split; [by rewrite <- (assoc_L (++))|]. by eapply keptl_cons.
      + apply wp_ret. intros [_ ?]%app_eq_self. done.
  Qed.
  Lemma apply_fields_clean fs xs s : aok s → Forall (λ x, tree_hi x ≤ pos s) xs →
    W (apply_fields fs xs) s (λ _ s', stepped s (owns fs xs) s' ∧ adv s [] s').
  Proof.
    revert xs s. induction fs as [|[t [sem|]] fs IH]; intros [|x xs] s Hok Hp; cbn [apply_fields owns own snd app];
      try (apply wp_ret; split; [apply stepped_refl|apply adv_refl]).
    - apply Forall_cons in Hp as [Hx Hp]. apply wp_bind, wp_apply.
      assert (Hm := stepped_mark s (tree_span x) sem Hok Hx). assert (Ha := mark_adv s (tree_span x) sem).
      eapply wp_mono; [apply IH; [by eapply adv_aok|]|].
      { eapply Forall_impl; [exact Hp|]. intros y Hy. cbn. by rewrite (adv_pos _ _ _ Ha). }
      intros _ s' [H1 H2]. split; [|exact (adv_trans _ _ _ _ _ Ha H2)]. by apply (stepped_trans _ [_] _ _ _ Hok Hm).
    - apply Forall_cons in Hp as [Hx Hp]. by apply IH.
  Qed.

  Lemma produce_option_clean {X} (p : M (res X)) (sp : X → span) set (P : ast → X → Prop) s : aok s →
    W p s (λ r s', match r with RSucc x => P s' x | RRec _ es | RPanic es => es ≠ [] end) →
    W (produce_option p sp set) s (λ r s',
      match r with
      | RSucc (sp', Some x) => sp' = sp x ∧ P s' x
      | RSucc (sp', None) => sp' = Span (pos s) (pos s) ∧ s' = s
      | RRec _ es | RPanic es => es ≠ []
      end).
  Proof.
    intros Hok Hp. unfold produce_option. apply wp_bind, wp_peek_src; [done|].
    destruct (look s) as [tk|]; [|by apply wp_bind, wp_empty_span, wp_ret].
    destruct (ts_contains set (Some tk)); [|by apply wp_bind, wp_empty_span, wp_ret].
    apply wp_bind. eapply wp_mono; [done|]. intros r s1 H. destruct r as [x|x es|es]; [by apply wp_ret..|].
    by apply wp_bind, wp_empty_span, wp_ret.
  Qed.

  Lemma iter_loop_clean t p n set acc errs hi s : msp t p → aok s →
    W (iter_loop n p set acc errs hi) s (λ q s', ∃ ys e,
      q.1.1 = acc ++ ys ∧ q.1.2 = errs ++ e ∧ (e = [] → keptl (replicate (length ys) t) s ys s')).
  Proof.
    intros Hp. revert acc errs hi s. induction n as [|n IH]; intros acc errs hi s Hok; cbn [iter_loop]; [done|].
    apply wp_bind, wp_peek_src; [done|].
    assert (Hstop : W (mret (acc, errs, hi)) s (λ q s', ∃ ys e,
      q.1.1 = acc ++ ys ∧ q.1.2 = errs ++ e ∧ (e = [] → keptl (replicate (length ys) t) s ys s'))).
    { apply wp_ret. exists [], []. rewrite !app_nil_r. split_and!; [done..|]. intros _. apply keptl_nil, stepped_refl. }
    destruct (look s) as [tk|]; [|done]. destruct (ts_contains set (Some tk)); [|done].
    apply wp_bind. eapply wp_call; [by apply Hp|done|]. intros r s1 l1 Hl1 Hok1 Hs%msound_unres.
    destruct (unres r) as [[x|] e] eqn:Er.
    - eapply wp_mono; [by apply IH|]. intros [[xs es] hi'] s2 (ys & e2 & E1 & E2 & H). cbn in E1, E2. subst.
      exists (x :: ys), (e ++ e2). cbn [fst snd]. rewrite <- !(assoc_L (++)). split_and!; [done..|].
      intros [-> ->]%app_eq_self. cbn. by eapply keptl_cons; eauto.
    - apply wp_ret. exists [], e. rewrite app_nil_r. split_and!; [done..|]. done.
  Qed.
  Lemma produce_plus_clean t p n set s : msp t p → aok s →
    W (produce_plus n p set) s (λ r s',
      match r with
      | RSucc (sp, xs) => keptl (replicate (length xs) t) s xs s'
      | RRec _ es | RPanic es => es ≠ []
      end).
  Proof.
    intros Hp Hok. unfold produce_plus. apply wp_bind. eapply wp_call; [by apply Hp|done|].
    intros r s1 l1 Hl1 Hok1 Hs%msound_unres. destruct (unres r) as [[x|] e] eqn:Er; [|by apply wp_ret].
    apply wp_bind. eapply wp_mono; [by apply (iter_loop_clean t)|].
    intros [[xs es] hi'] s2 (ys & e2 & E1 & E2 & H). cbn in E1, E2. subst.
    apply wp_ret. destruct (e ++ e2) as [|e0 es] eqn:Ee; [|done]. apply app_eq_self in Ee as [-> ->].
    cbn [res_into app length replicate]. eapply keptl_cons; eauto.
  Qed.

  Lemma loop_loop_clean t p n set acc errs s : msp t p → aok s →
    W (loop_loop n p set acc errs) s (λ q s', ∃ ys e,
      q.1 = acc ++ ys ∧ q.2 = errs ++ e ∧ (e = [] → keptl (replicate (length ys) t) s ys s')).
  Proof.
    intros Hp. revert acc errs s. induction n as [|n IH]; intros acc errs s Hok; cbn [loop_loop]; [done|].
    apply wp_bind, wp_peek_src; [done|].
    destruct (look s) as [tk|] eqn:El.
    2: { apply wp_ret. exists [], []. rewrite !app_nil_r. split_and!; [done..|]. intros _. apply keptl_nil, stepped_refl. }
    apply wp_bind.
    apply (wp_call _ _ _ (λ q s1, ∃ e, q.2 = errs ++ e ∧ (e = [] → q.1 = Some tk ∧ s1 = s)) s); [|done|].
    { destruct (ts_contains set (Some tk)).
      - apply wp_ret. exists []. by rewrite app_nil_r.
      - apply wp_bind, wp_cur_span. apply wp_bind, wp_consume. apply wp_bind, wp_peek_src; [by eapply adv_aok, Hok; apply pop_adv|].
        apply wp_bind. eapply wp_mono; [instantiate (1 := λ _ _, True); unfold wp; by destruct (arun _ _)|].
        intros [tk1 hi1] s2 _. apply wp_ret. by eexists. }
    intros [tk1 es1] s1 l1 Hl1 Hok1 (e & E & He). cbn in E, He. subst.
    destruct tk1 as [tk1|].
    2: { apply wp_ret. exists [], e. rewrite app_nil_r. split_and!; [done..|]. intros ->.
      destruct (He eq_refl) as [? _]. done. }
    apply wp_bind, wp_cur_span. apply wp_bind. eapply wp_call; [by apply Hp|done|]. intros r s2 l2 Hl2 Hok2 Hs%msound_unres.
    destruct (unres r) as [o e2] eqn:Er. apply wp_bind, wp_cur_span.
    destruct (sp_lo (a_span s1) =? sp_lo (a_span s2)).
    - apply wp_ret. eexists (option_list o), (e ++ e2 ++ [_]). cbn [fst snd]. rewrite <- !(assoc_L (++)). split_and!; [done..|].
      intros [_ [_ ?]%app_eq_self]%app_eq_self. done.
    - eapply wp_mono; [by apply IH|]. intros [xs es] s3 (ys & e3 & E1 & E2 & H). cbn in E1, E2. subst.
      exists (option_list o ++ ys), (e ++ e2 ++ e3). cbn [fst snd]. rewrite <- !(assoc_L (++)). split_and!; [done..|].
      intros [-> [-> ->]%app_eq_self]%app_eq_self. destruct (He eq_refl) as [_ ->].
      destruct o as [x|]; [|done]. cbn. eapply keptl_cons; eauto.
  Qed.
  Lemma produce_loop_clean t p n set s : msp t p → aok s →
    W (produce_loop n p set) s (λ r s',
      match r with
      | RSucc (sp, xs) => keptl (replicate (length xs) t) s xs s'
      | RRec _ es | RPanic es => es ≠ []
      end).
  Proof.
    intros Hp Hok. unfold produce_loop. apply wp_bind. eapply wp_mono; [by apply (loop_loop_clean t)|].
    intros [xs es] s1 (ys & e & E1 & E2 & H). cbn in E1, E2. subst. apply wp_bind.
    apply (wp_mono _ _ _ _ (λ _ s2, s2 = s1)).
    { cbn [app]. destruct (head ys), (last ys); first [by apply wp_ret|by apply wp_empty_span]. }
    intros sp s2 ->. apply wp_ret. cbn [app]. destruct e as [|e0 e]; [|done]. cbn [res_into]. auto.
  Qed.

  Lemma split_inner_clean t pT n ef pf fol panic errs s : msp t pT → aok s →
    W (split_inner n pT ef pf fol panic errs) s (λ q s', ∃ e, q.1.2 = errs ++ e ∧
      (is_Some panic → e ≠ []) ∧
      match q.1.1 with Some x => q.2 = true ∧ (e = [] → kept t s x s') | None => e ≠ [] end).
  Proof.
    intros HT. revert panic errs s. induction n as [|n IH]; intros panic errs s Hok; cbn [split_inner]; [done|].
    apply wp_bind, wp_peek_src; [done|]. apply wp_bind.
    apply (wp_call _ _ _ (λ step s1,
      match step with
      | inl (x, es) => ∃ e, es = errs ++ e ∧ (is_Some panic → e ≠ []) ∧ (e = [] → kept t s x s1)
      | inr (tk', panic') => is_Some panic'
      end) s); [|done|].
    { destruct (ts_contains ef (look s) || ts_contains_e ef).
      - apply wp_bind. eapply wp_call; [by apply HT|done|]. intros r s1 l1 Hl1 Hok1 Hs%msound_unres.
        destruct (unres r) as [[x|] e] eqn:Er.
        + apply wp_ret. exists (e ++ option_list panic). split_and!; [done| |].
          * intros [q ->]. intros [_ ?]%app_eq_self. done.
          * intros [-> _]%app_eq_self. done.
        + apply wp_bind, wp_peek_src; [done|]. apply wp_ret. apply merge_some. auto.
      - destruct panic as [q|].
        + apply wp_bind, wp_cur_span, wp_ret. eauto.
        + apply wp_bind, wp_expecting, wp_ret. eauto. }
    intros step s1 l1 Hl1 Hok1 H.
    destruct step as [[x es]|[tk' panic']].
    - destruct H as (e & -> & H1 & H2). apply wp_ret. exists e. cbn. split_and!; auto.
    - destruct H as [q ->]. cbn [option_list].
      destruct (ts_contains pf tk'); [apply wp_ret; by eexists|].
      destruct (bool_decide (tk' = None) || ts_contains fol tk'); [apply wp_ret; by eexists|].
      apply wp_bind, wp_consume.
      eapply wp_mono; [apply IH; by eapply adv_aok, Hok1; apply pop_adv|].
      intros [[o es] cont] s2 (e & E & H1 & H2). cbn in E, H2. subst. exists e.
      assert (e ≠ []) by eauto. split_and!; [done..|]. cbn. destruct o; [|done]. by destruct H2.
  Qed.
  Lemma split_outer_clean t d pT pP n ef pf fol elems puncts errs s : msp t pT → msp d pP → aok s →
    W (split_outer n pT pP ef pf fol elems puncts errs) s (λ q s', ∃ zs e,
      q.2 = errs ++ e ∧
      (e = [] → q.1.1 = elems ++ odds zs ∧ q.1.2 = puncts ++ evens zs ∧ ∃ k, length zs = 2 * k ∧
        keptl (concat (replicate k [d; t])) s zs s')).
  Proof.
    intros HT HP. revert elems puncts errs s. induction n as [|n IH]; intros elems puncts errs s Hok; cbn [split_outer]; [done|].
    apply wp_bind, wp_peek_src; [done|].
    assert (Hstop : W (mret (elems, puncts, errs)) s (λ q s', ∃ zs e,
      q.2 = errs ++ e ∧
      (e = [] → q.1.1 = elems ++ odds zs ∧ q.1.2 = puncts ++ evens zs ∧ ∃ k, length zs = 2 * k ∧
        keptl (concat (replicate k [d; t])) s zs s'))).
    { apply wp_ret. exists [], []. cbn. rewrite !app_nil_r. split; [done|]. intros _. split_and!; [done..|].
      exists 0. split; [done|]. apply keptl_nil, stepped_refl. }
    destruct (look s) as [tk|]; [|done]. destruct (ts_contains pf (Some tk)); [|done].
    apply wp_bind. eapply wp_call; [by apply HP|done|]. intros r s1 l1 Hl1 Hok1 Hs%msound_unres.
    destruct (unres r) as [[q|] e] eqn:Er.
    2: { apply wp_ret. exists [], e. split; [done|]. intros ->. done. }
    apply wp_bind. eapply wp_call; [by apply (split_inner_clean t)|done|].
    intros [[o es] cont] s2 l2 Hl2 Hok2 (e2 & E & _ & H2). cbn in E, H2. subst. cbn zeta.
    destruct cont.
    - eapply wp_mono; [by apply IH|]. intros [[xs qs] es] s3 (zs & e3 & E & H3). cbn in E, H3. subst.
      destruct o as [x|].
      + exists (q :: x :: zs), (e ++ e2 ++ e3). cbn [fst snd]. rewrite <- !(assoc_L (++)). split; [done|].
        intros [-> [-> ->]%app_eq_self]%app_eq_self. destruct (H3 eq_refl) as (-> & -> & k & Hk & H4).
        destruct H2 as [_ H2]. split_and!.
        * rewrite odds_cons, evens_cons. cbn. by rewrite <- (assoc_L (++)).
        * rewrite evens_cons, odds_cons. by rewrite <- (assoc_L (++)).
        * exists (S k). split; [cbn; lia|]. rewrite concat_replicate_S.
          apply (keptl_cons _ _ _ _ s1); [done|done|exact Hs|]. apply (keptl_cons _ _ _ _ s2); auto.
      + exists [], (e ++ e2 ++ e3). cbn [fst snd]. rewrite <- !(assoc_L (++)). split; [done|].
        intros [_ [? _]%app_eq_self]%app_eq_self. done.
    - apply wp_ret. destruct o as [x|]; [by destruct H2|].
      exists [], (e ++ e2). cbn [fst snd]. rewrite <- (assoc_L (++)). split; [done|]. intros [_ ?]%app_eq_self. done.
  Qed.
  (** The span of a node is checked by soundness, so only its markings matter here. *)
  Definition mk (t : ty) (s : ast) (r : res tree) (s' : ast) : Prop :=
    match r with RSucc x => ∃ ms, marks t x ms ∧ stepped s ms s' | RRec _ es | RPanic es => es ≠ [] end.
  Lemma produce_split_clean t d pT pP n ef pf fol s : msp t pT → msp d pP → aok s →
    W (produce_split n pT pP ef pf fol) s (mk (TSplit t d) s).
  Proof.
    intros HT HP Hok. unfold produce_split. apply wp_bind. eapply wp_call; [by apply HT|done|].
    intros r s1 l1 Hl1 Hok1 Hs%msound_unres.
    destruct (unres r) as [[x|] e] eqn:Er; [|by apply wp_ret].
    apply wp_bind. eapply wp_mono; [by apply (split_outer_clean t d)|].
    intros [[xs qs] es] s2 (zs & e2 & E & H). cbn in E, H. subst.
    apply wp_ret. destruct (e ++ e2) as [|e0 es] eqn:Ee; [|done]. apply app_eq_self in Ee as [-> ->].
    destruct (H eq_refl) as (-> & -> & k & Hk & H2). cbn [res_into app].
    assert (Hq := keptl_cons _ _ _ _ _ _ _ Hok Hok1 Hs H2). destruct Hq as (ms & H3 & H4 & _).
    exists ms. split; [|done]. rewrite <- evens_cons, <- (odds_cons x zs). by apply (m_split _ _ _ k).
  Qed.

  Lemma punct_inner_clean t pT n ef pf fol panic errs s : msp t pT → aok s →
    W (punct_inner n pT ef pf fol panic errs) s (λ q s', ∃ e, q.1.2 = errs ++ e ∧
      (is_Some panic → e ≠ []) ∧
      match q.1.1 with
      | Some x => q.2 = true ∧ (e = [] → kept t s x s')
      | None => e = [] → q.2 = false ∧ s' = s
      end).
  Proof.
    intros HT. revert panic errs s. induction n as [|n IH]; intros panic errs s Hok; cbn [punct_inner]; [done|].
    apply wp_bind, wp_peek_src; [done|].
    assert (Hstop : W (mret (@None tree, errs ++ option_list panic, false)) s (λ q s', ∃ e, q.1.2 = errs ++ e ∧
      (is_Some panic → e ≠ []) ∧
      match q.1.1 with
      | Some x => q.2 = true ∧ (e = [] → kept t s x s')
      | None => e = [] → q.2 = false ∧ s' = s
      end)).
    { apply wp_ret. eexists. split; [done|]. split; [by intros [q ->]|]. done. }
    destruct (look s) as [tk|]; [|done].
    destruct (negb (ts_contains ef (Some tk)) && ts_contains fol (Some tk)); [done|].
    apply wp_bind.
    apply (wp_call _ _ _ (λ step s1,
      match step with
      | inl (x, es) => ∃ e, es = errs ++ e ∧ (is_Some panic → e ≠ []) ∧ (e = [] → kept t s x s1)
      | inr panic' => is_Some panic'
      end) s); [|done|].
    { destruct (ts_contains ef (Some tk)).
      - apply wp_bind. eapply wp_call; [by apply HT|done|]. intros r s1 l1 Hl1 Hok1 Hs%msound_unres.
        destruct (unres r) as [[x|] e] eqn:Er.
        + apply wp_ret. exists (option_list panic ++ e). split_and!; [done| |].
          * intros [q ->]. done.
          * intros [_ ->]%app_eq_self. done.
        + apply wp_ret. apply merge_some. auto.
      - apply wp_bind, wp_cur_span, wp_ret. eauto. }
    intros step s1 l1 Hl1 Hok1 H.
    destruct step as [[x es]|panic'].
    - destruct H as (e & -> & H1 & H2). apply wp_ret. exists e. cbn. split_and!; auto.
    - destruct H as [q ->]. cbn [option_list]. apply wp_bind, wp_peek_src; [done|].
      destruct (ts_contains pf (look s1)); [apply wp_ret; by eexists|].
      destruct (bool_decide (look s1 = None) || ts_contains fol (look s1)); [apply wp_ret; by eexists|].
      apply wp_bind, wp_consume.
      eapply wp_mono; [apply IH; by eapply adv_aok, Hok1; apply pop_adv|].
      intros [[o es] cont] s2 (e & E & H1 & H2). cbn in E, H2. subst. exists e.
      assert (e ≠ []) by eauto. split_and!; [done..|]. cbn. destruct o; [|done]. by destruct H2.
  Qed.
  Lemma punct_outer_clean t d pT pP n ef pf fol elems puncts errs s : msp t pT → msp d pP → aok s →
    W (punct_outer n pT pP ef pf fol elems puncts errs) s (λ q s', ∃ zs e,
      q.2 = errs ++ e ∧
      (e = [] → q.1.1 = elems ++ odds zs ∧ q.1.2 = puncts ++ evens zs ∧ ∃ k (b : bool),
        keptl (concat (replicate k [d; t]) ++ if b then [d] else []) s zs s')).
  Proof.
    intros HT HP. revert elems puncts errs s. induction n as [|n IH]; intros elems puncts errs s Hok; cbn [punct_outer]; [done|].
    apply wp_bind, wp_peek_src; [done|].
    assert (Hstop : W (mret (elems, puncts, errs)) s (λ q s', ∃ zs e,
      q.2 = errs ++ e ∧
      (e = [] → q.1.1 = elems ++ odds zs ∧ q.1.2 = puncts ++ evens zs ∧ ∃ k (b : bool),
        keptl (concat (replicate k [d; t]) ++ if b then [d] else []) s zs s'))).
    { apply wp_ret. exists [], []. cbn. rewrite !app_nil_r. split; [done|]. intros _. split_and!; [done..|].
      exists 0, false. apply keptl_nil, stepped_refl. }
    destruct (look s) as [tk|]; [|done]. destruct (ts_contains pf (Some tk)); [|done].
    apply wp_bind. eapply wp_call; [by apply HP|done|]. intros r s1 l1 Hl1 Hok1 Hs%msound_unres.
    destruct (unres r) as [[q|] e] eqn:Er.
    2: { apply wp_ret. exists [], e. split; [done|]. intros ->. done. }
    apply wp_bind. eapply wp_call; [by apply (punct_inner_clean t)|done|].
    intros [[o es] cont] s2 l2 Hl2 Hok2 (e2 & E & _ & H2). cbn in E, H2. subst. cbn zeta.
    destruct cont.
    - eapply wp_mono; [by apply IH|]. intros [[xs qs] es] s3 (zs & e3 & E & H3). cbn in E, H3. subst.
      destruct o as [x|].
      + exists (q :: x :: zs), (e ++ e2 ++ e3). cbn [fst snd]. rewrite <- !(assoc_L (++)). split; [done|].
        intros [-> [-> ->]%app_eq_self]%app_eq_self. destruct (H3 eq_refl) as (-> & -> & k & b & H4).
        destruct H2 as [_ H2]. split_and!.
        * rewrite odds_cons, evens_cons. cbn. by rewrite <- (assoc_L (++)).
        * rewrite evens_cons, odds_cons. by rewrite <- (assoc_L (++)).
        * exists (S k), b. rewrite concat_replicate_S. cbn [app].
          apply (keptl_cons _ _ _ _ s1); [done|done|exact Hs|]. apply (keptl_cons _ _ _ _ s2); auto.
      + exists [], (e ++ e2 ++ e3). cbn [fst snd]. rewrite <- !(assoc_L (++)). split; [done|].
        intros [_ [-> _]%app_eq_self]%app_eq_self. by destruct (H2 eq_refl).
    - apply wp_ret. destruct o as [x|]; [by destruct H2|].
      exists [q], (e ++ e2). cbn [fst snd]. rewrite <- (assoc_L (++)). split; [done|]. intros [-> ->]%app_eq_self.
      destruct (H2 eq_refl) as [_ ->]. cbn. rewrite !app_nil_r. split_and!; [done..|].
      exists 0, true. cbn. apply (keptl_cons _ _ _ _ s1); [done|done|exact Hs|]. apply keptl_nil, stepped_refl.
  Qed.
  Lemma produce_punct_clean t d pT pP n ef pf fol s : msp t pT → msp d pP → aok s →
    W (produce_punct n pT pP ef pf fol) s (mk (TPunct t d) s).
  Proof.
    intros HT HP Hok. unfold produce_punct. apply wp_bind. eapply wp_call; [by apply HT|done|].
    intros r s1 l1 Hl1 Hok1 Hs%msound_unres.
    destruct (unres r) as [[x|] e] eqn:Er; [|by apply wp_ret].
    apply wp_bind. eapply wp_mono; [by apply (punct_outer_clean t d)|].
    intros [[xs qs] es] s2 (zs & e2 & E & H). cbn in E, H. subst.
    apply wp_ret. destruct (e ++ e2) as [|e0 es] eqn:Ee; [|done]. apply app_eq_self in Ee as [-> ->].
    destruct (H eq_refl) as (-> & -> & k & b & H2). cbn [res_into app].
    assert (Hq := keptl_cons _ _ _ _ _ _ _ Hok Hok1 Hs H2). destruct Hq as (ms & H3 & H4 & _).
    exists ms. split; [|done]. rewrite <- evens_cons, <- (odds_cons x zs). by apply (m_punct _ _ _ k b).
  Qed.

  (** Trees of types without annotations have no markings. *)
  Lemma owns_none fs xs : Forall (λ f, snd f = None) fs → owns fs xs = [].
  Proof. intros H. revert xs. induction H as [|[t o] fs Ho _ IH]; intros [|x xs]; [done..|]. cbn in *. by rewrite Ho, IH. Qed.
  Lemma unmarked_nil t x ms : marks t x ms → unmarked env t → ms = [].
  Proof.
    intros H. revert t x ms H.
    apply (marks_mut env (λ t x ms _, unmarked env t → ms = [])
      (λ ts xs ms _, Forall (unmarked env) ts → ms = [])); try done.
    - intros n fs xs ms En _ IH Hu. rewrite IH.
      + apply all_within_here in Hu. cbn in Hu. rewrite En in Hu. by rewrite owns_none.
      + apply Forall_forall. intros c Hc. apply (all_within_sub _ _ _ _ Hu). cbn. by rewrite En.
    - intros n vs i t sem x ms En Hi _ IH Hu. apply elem_of_list_lookup_2 in Hi. rewrite IH.
      + apply all_within_here in Hu. cbn in Hu. rewrite En in Hu. rewrite Forall_forall in Hu.
        assert (E : sem = None) by apply (Hu _ Hi). by rewrite E.
      + apply (all_within_sub _ _ _ _ Hu). cbn. rewrite En. cbn.
        apply elem_of_list_In, (in_map fst), elem_of_list_In in Hi. done.
    - intros ts xs ms _ IH Hu. apply IH. apply Forall_forall. intros c Hc. by apply (all_within_sub _ _ _ _ Hu).
    - intros t x ms _ IH Hu. apply IH, (all_within_sub _ _ _ _ Hu). cbn. set_solver.
    - intros t sp x ms _ IH Hu. apply IH, (all_within_sub _ _ _ _ Hu). cbn. set_solver.
    - intros t k sp xs ms Ht _ IH Hu. apply IH, Forall_replicate, (all_within_sub _ _ _ _ Hu).
      destruct Ht as [->|[->| ->]]; cbn; set_solver.
    - intros t d n sp zs ms _ IH Hu. apply IH.
      assert (H1 : unmarked env t) by (apply (all_within_sub _ _ _ _ Hu); cbn; set_solver).
      assert (H2 : unmarked env d) by (apply (all_within_sub _ _ _ _ Hu); cbn; set_solver).
      constructor; [done|]. clear -H1 H2. induction n; cbn; [done|]. by repeat (apply Forall_cons; split).
    - intros t d n b sp zs ms _ IH Hu. apply IH.
      assert (H1 : unmarked env t) by (apply (all_within_sub _ _ _ _ Hu); cbn; set_solver).
      assert (H2 : unmarked env d) by (apply (all_within_sub _ _ _ _ Hu); cbn; set_solver).
      apply Forall_app. split; [|destruct b; by repeat (apply Forall_cons; split)].
      constructor; [done|]. clear -H1 H2. induction n; cbn; [done|]. by repeat (apply Forall_cons; split).
    - intros t ts x xs m ms _ IH1 _ IH2 [H1 H2]%Forall_cons. by rewrite IH1, IH2.
  Qed.

  Lemma produce_hi f t s : filled env t → no_recover env t → aok s →
    W (produce f t) s (λ r s', match r with RSucc x => tree_hi x ≤ pos s' | _ => True end).
  Proof.
    intros Hf Hn Hok. apply wp_adv. eapply wp_mono; [apply (produce_sound env first follow jump False f t); [by apply no_recover_ok|done]|].
    intros r s' H l Hl. destruct H as [H|[[] _]]. destruct r as [x|x es|es]; [|done..].
    destruct (parses_hull _ _ _ _ _ _ (H l Hl) Hf) as [_ ->]. by rewrite (adv_pos _ _ _ Hl).
  Qed.
  Lemma produce_mk f t : filled env t → no_recover env t → open_marks env t → ∀ s, aok s → W (produce f t) s (mk t s).
  Proof.
    revert t. induction f as [|f IH]; intros t Hf Hn Hm s Hok; [done|].
    assert (Hsub : ∀ c, c ∈ subs env t → msp c (produce f c)).
    { intros c Hc s0 Hok0.
      assert (Hf' : filled env c) by (by eapply all_within_sub). assert (Hn' : no_recover env c) by (by eapply all_within_sub).
      eapply wp_mono; [apply wp_and; [apply (IH c); [done..|by eapply all_within_sub|done]|by apply (produce_hi f c)]|].
      intros r s1 [H1 H2]. destruct r as [x|x es|es]; [|done..]. destruct H1 as (ms & H1 & H3). by exists ms. }
    clear IH.
    destruct t as [n y lit|n|ts|t|t|t|t|t|t|t|t|t d|t d|t r]; cbn [ProduceModel.produce].
    - apply wp_bind. destruct lit as [lit|].
      + apply wp_parse_token_lit; [done|]. destruct (a_rest s) as [|t r] eqn:Er.
        * destruct (ts_contains_e _); by apply wp_ret.
        * destruct (decide (look s = Some (y, lit))) as [Hlk|_].
          -- apply wp_ret. exists []. split; [constructor|]. by eapply stepped_pop.
          -- destruct (ts_contains _ _); by apply wp_ret.
      + apply wp_parse_token. destruct (a_rest s) as [|t r] eqn:Er; [by apply wp_ret|].
        case_decide; [|by apply wp_ret]. apply wp_ret. exists []. split; [constructor|]. by eapply stepped_pop.
    - destruct (env !! n) as [[fs|vs]|] eqn:En; [| |done].
      + apply wp_bind. eapply wp_call; [apply (produce_seq_clean _ (map fst fs)); [done|]|done|].
        { intros c Hc. apply Hsub. cbn. by rewrite En. }
        intros r s1 l1 Hl1 Hok1 H. destruct r as [xs|xs [|e es]|es]; cbn [unres]; [|done| |by apply wp_ret].
        * destruct H as (_ & ys & -> & ms & H1 & H2 & H3). apply wp_bind.
          eapply wp_mono; [by apply (apply_fields_clean fs ys)|].
          intros _ s2 [H4 _]. apply wp_ret. cbn [res_into app]. exists (ms ++ owns fs ys).
          split; [by apply m_struct|]. by eapply stepped_trans.
        * apply wp_bind. eapply wp_mono; [apply apply_fields_adv|]. intros ? s2 Hl2. by apply wp_ret.
      + apply wp_bind, wp_peek_src; [done|]. 
        destruct (_ ≫= _) as [[i [t' sem]]|] eqn:Ei.
        2: { by apply wp_bind, wp_expecting, wp_ret. }
        assert (vs !! i = Some (t', sem)) as Hi.
        { destruct (jump (key (TNamed n)) (look s)) as [i'|]; [|done]. cbn in Ei.
          destruct (vs !! i') eqn:E; [|done]. cbn in Ei. injection Ei as -> ->. done. }
        apply wp_bind. eapply wp_call; [apply (Hsub t')|done|].
        { cbn. rewrite En. cbn. apply elem_of_list_lookup_2 in Hi. 
          apply elem_of_list_In, (in_map fst), elem_of_list_In in Hi. done. }
        { done. }
        intros r s1 l1 Hl1 Hok1 H. destruct r as [x|x es|es].
        * destruct H as (ms & H1 & H2 & H3). destruct sem as [sem|].
          -- apply wp_bind, wp_apply, wp_ret. exists (ms ++ own (Some sem) x). split; [by eapply m_enum|].
             eapply stepped_trans; [done..|]. by apply stepped_mark.
          -- apply wp_ret. exists (ms ++ own None x). split; [by eapply m_enum|]. cbn. by rewrite app_nil_r.
        * destruct sem; [apply wp_bind, wp_apply|]; by apply wp_ret.
        * by apply wp_ret.
    - apply wp_bind. eapply wp_mono; [apply (produce_seq_clean _ ts); [done|]|].
      { intros c Hc. by apply Hsub. }
      intros r s1 H. apply wp_ret. destruct r as [xs|xs es|es]; [|done..].
      destruct H as (_ & ys & -> & ms & H1 & H2 & H3). exists ms. split; [by constructor|done].
    - eapply wp_mono; [apply Hsub; [cbn; set_solver|done]|]. intros r s1 H.
      destruct r; [|done..]. destruct H as (ms & H1 & H2 & _). exists ms. split; [by constructor|done].
    - apply wp_bind. eapply wp_mono; [apply (produce_option_clean _ _ _ (λ s' x, kept t s x s')); [done|]|].
      { eapply wp_mono; [apply Hsub; [cbn; set_solver|done]|]. done. }
      intros r s1 H. apply wp_ret. destruct r as [[sp o]|[sp o] es|es]; [|done..]. cbn.
      destruct o; destruct H as [-> H].
      + destruct H as (ms & H1 & H2 & _). exists ms. split; [by constructor|done].
      + subst. exists []. split; [constructor|apply stepped_refl].
    - assert (Hu : unmarked env t) by apply (all_within_here _ _ _ Hm).
      apply wp_bind. eapply wp_mono; [apply (produce_option_clean _ _ _ (λ s' x, kept t s x s')); [done|]|].
      { eapply wp_mono; [apply Hsub; [cbn; set_solver|done]|]. done. }
      intros r s1 H. apply wp_ret. destruct r as [[sp o]|[sp o] es|es]; [|done..]. cbn.
      exists []. split; [constructor|]. destruct o; destruct H as [-> H]; [|subst; apply stepped_refl].
      destruct H as (ms & H1 & H2 & _). by rewrite (unmarked_nil _ _ _ H1 Hu) in H2.
    - assert (Hu : unmarked env t) by apply (all_within_here _ _ _ Hm).
      apply wp_bind. eapply wp_mono; [apply Hsub; [cbn; set_solver|done]|]. intros r s1 H.
      destruct r as [x|x es|es]; [| |by apply wp_ret].
      all: apply wp_bind; destruct (span_get (tree_span x) (a_src s1)) as [str|] eqn:Es;
        [|unfold wp, get_src; cbn [arun]; by rewrite Es].
      all: eapply wp_get_src; [done|]; apply wp_ret; try done.
      exists []. split; [constructor|]. destruct H as (ms & H1 & H2 & _). by rewrite (unmarked_nil _ _ _ H1 Hu) in H2.
    - assert (Hu : unmarked env t) by apply (all_within_here _ _ _ Hm).
      apply wp_bind. eapply wp_mono; [apply Hsub; [cbn; set_solver|done]|]. intros r s1 H.
      destruct r as [x|x es|es]; [| |by apply wp_ret].
      all: apply wp_bind; destruct (span_get (tree_span x) (a_src s1)) as [str|] eqn:Es;
        [|unfold wp, get_src; cbn [arun]; by rewrite Es].
      all: eapply wp_get_src; [done|]; apply wp_ret; try done.
      exists []. split; [constructor|]. destruct H as (ms & H1 & H2 & _). by rewrite (unmarked_nil _ _ _ H1 Hu) in H2.
    - apply wp_bind. eapply wp_mono; [apply (produce_plus_clean t); [apply Hsub; cbn; set_solver|done]|].
      intros r s1 H. apply wp_ret. destruct r as [[sp o]|[sp o] es|es]; [|done..].
      destruct H as (ms & H1 & H2 & _). exists ms. split; [eapply m_list; [by left|done]|done].
    - apply wp_bind. eapply wp_mono; [apply (produce_option_clean _ _ _ (λ s' x, keptl (replicate (length x.2) t) s x.2 s')); [done|]|].
      { eapply wp_mono; [apply (produce_plus_clean t); [apply Hsub; cbn; set_solver|done]|].
        intros [[sp o]|[sp o] es|es] s1 H; done. }
      intros r s1 H. apply wp_ret. destruct r as [[sp o]|[sp o] es|es]; [|done..]. cbn.
      destruct o as [[sp' xs]|]; destruct H as [-> H].
      + destruct H as (ms & H1 & H2 & _). exists ms. split; [eapply m_list; [by right; left|done]|done].
      + subst. exists []. split; [eapply m_list; [by right; left|constructor]|apply stepped_refl].
    - apply wp_bind. eapply wp_mono; [apply (produce_loop_clean t); [apply Hsub; cbn; set_solver|done]|].
      intros r s1 H. apply wp_ret. destruct r as [[sp o]|[sp o] es|es]; [|done..].
      destruct H as (ms & H1 & H2 & _). exists ms. split; [eapply m_list; [by right; right|done]|done].
    - apply produce_split_clean; [apply Hsub; cbn; set_solver..|done].
    - apply produce_punct_clean; [apply Hsub; cbn; set_solver..|done].
    - exfalso. apply all_within_here in Hn. done.
  Qed.
End clean.

(** Markings of an error-free result, in a run. *)
Lemma produce_marks extract env first follow jump f t s x s' : state_ok s → filled env t → no_recover env t → open_marks env t →
  run extract (produce env first follow jump f t) s = ODone (RSucc x) s' →
  ∃ l ms, took extract s l s' ∧ marks env t x ms ∧ p_tokens s' = map (marked ms) (p_tokens s ++ map cell_of l).
Proof.
  intros Hok Hf Hn Hm Hr.
  assert (H : mk env t (abs extract s) (RSucc x) (abs extract s')).
  { eapply run_wp; [|exact Hr]. apply produce_mk; [done..|]. by apply state_ok_abs. }
  destruct H as (ms & H1 & [(l & H2 & H3) _]). exists l, ms. split; [by apply took_adv|]. done.
Qed.
