(** Annotated parts keep their marks. *)
From Coq Require Import String NArith.
From stdpp Require Import prelude list strings relations.
From Verif Require Import LexModel LexSpec LexFacts VecFacts SynSetModel TableModel StreamModel StreamSpec StreamFacts TypeModel ProduceModel ParseSpec ProgFacts TreeFacts SoundFacts RunFacts MarkSpec.
Local Open Scope nat_scope.
#[local] Arguments ts_contains : simpl never.
#[local] Arguments ts_contains_e : simpl never.

Notation W := (wp True True).

(** * Marks only grow *)
Definition keeps (l l' : list cell) : Prop :=
  ∀ i c, l !! i = Some c → ∃ c', l' !! i = Some c' ∧ c_tok c' = c_tok c ∧ carries c' (c_sem c).
Lemma keeps_refl l : keeps l l.
Proof. intros i c H. exists c. split; [done|]. split; [done|]. by intros b. Qed.
Lemma keeps_trans l1 l2 l3 : keeps l1 l2 → keeps l2 l3 → keeps l1 l3.
Proof.
  intros H1 H2 i c Hc. destruct (H1 i c Hc) as (c1 & E1 & T1 & S1). destruct (H2 i c1 E1) as (c2 & E2 & T2 & S2).
  exists c2. split_and!; [done|congruence|]. intros b Hb. by apply S2, S1.
Qed.
Lemma keeps_push l t : keeps l (vec_push l t).
Proof.
  intros i c Hc. exists c. split; [|split; [done|by intros b]]. unfold vec_push. by apply lookup_app_l_Some.
Qed.
Lemma keeps_apply len l sp sem : cells_ok len l → keeps l (vec_apply_semantic l sp sem).
Proof.
  intros Hok i c Hc. rewrite (vec_apply_spec len) by done.
  exists (if decide (is_inside sp c) then cell_apply sem c else c). split.
  { change (map ?f l) with (f <$> l). by rewrite list_lookup_fmap, Hc. }
  destruct (decide _); [|split; [done|by intros b]]. split; [done|]. intros b Hb. unfold tagged in *. unfold cell_apply. cbn.
  rewrite N.lor_spec, Hb. done.
Qed.

Record grows (s s' : ast) : Prop := Grows { gr_adv : ∃ l, adv s l s'; gr_keeps : keeps (a_done s) (a_done s') }.
Lemma grows_refl s : grows s s.
Proof. split; [exists []; apply adv_refl|apply keeps_refl]. Qed.
Lemma grows_trans s1 s2 s3 : grows s1 s2 → grows s2 s3 → grows s1 s3.
Proof.
  intros [[l1 H1] K1] [[l2 H2] K2]. split; [exists (l1 ++ l2); by eapply adv_trans|by eapply keeps_trans].
Qed.
Lemma grows_aok s s' : grows s s' → aok s → aok s'.
Proof. intros [[l H] _]. by eapply adv_aok. Qed.
Lemma aok_cells s : aok s → cells_ok (String.length (a_src s)) (a_done s).
Proof. intros H. unfold cells_ok. unfold aok in H. rewrite spans_ok_app in H. tauto. Qed.
Lemma grows_pop s : grows s (pop s).
Proof.
  split; [eexists; apply pop_adv|]. unfold pop. destruct (a_rest s); [apply keeps_refl|apply keeps_push].
Qed.
Lemma grows_mark s sp sem : aok s → grows s (mark s sp sem).
Proof. intros Hok. split; [eexists; apply mark_adv|]. by eapply keeps_apply, aok_cells. Qed.

Lemma arun_grows {A} (m : M A) s a s' : aok s → arun m s = ODone a s' → grows s s'.
Proof.
  revert s. induction m as [| |k IH|t k IH|k IH|k IH|k IH|sp k IH|sp sem k IH|es k IH];
    intros s Hok; cbn [arun]; intros H.
  - injection H as _ <-. apply grows_refl.
  - done.
  - by eapply IH.
  - destruct (token_src t (a_src s)); [by eapply IH|done].
  - destruct (a_rest s) as [|t r] eqn:E; [by eapply IH|].
    assert (Hp := grows_pop s). assert (Hok1 := grows_aok _ _ Hp Hok). unfold pop in Hp, Hok1. rewrite E in Hp, Hok1.
    apply IH in H; [|done]. by eapply grows_trans.
  - by eapply IH.
  - by eapply IH.
  - destruct (span_get sp (a_src s)); [by eapply IH|done].
  - assert (Hp := grows_mark s sp sem Hok). assert (Hok1 := grows_aok _ _ Hp Hok).
    apply IH in H; [|done]. by eapply grows_trans.
  - by eapply IH.
Qed.
Lemma wp_step {A B} (m : M A) (k : A → M B) s (Q : A → ast → Prop) (R : B → ast → Prop) : aok s → W m s Q →
  (∀ a s1, aok s1 → grows s s1 → Q a s1 → W (k a) s1 R) → W (m ≫= k) s R.
Proof.
  intros Hok H Hk. apply wp_bind. unfold wp in *. destruct (arun m s) as [| |a s1] eqn:E; [done..|].
  assert (Hg := arun_grows _ _ _ _ Hok E). apply Hk; [by eapply grows_aok|done..].
Qed.
Lemma wp_any {A} (m : M A) s : W m s (λ _ _, True).
Proof. unfold wp. by destruct (arun m s). Qed.
Lemma wp_skip {A B} (m : M A) (k : A → M B) s (R : B → ast → Prop) : aok s →
  (∀ a s1, aok s1 → grows s s1 → W (k a) s1 R) → W (m ≫= k) s R.
Proof. intros Hok Hk. eapply wp_step; [done|apply wp_any|]. intros; by apply Hk. Qed.

(** * Positions behind which nothing comes any more *)
Definition bnd (s : ast) (n : nat) : Prop := n ≤ pos s ∨ a_rest s = [].
Lemma bnd_grows s s' n : aok s → grows s s' → bnd s n → bnd s' n.
Proof.
  intros Hok [[l Hl] _] [H|H].
  - left. rewrite (adv_pos _ _ _ Hl). assert (Hp := end_pos_ge (String.length (a_src s)) (pos s) l (adv_spans _ _ _ Hok Hl)). lia.
  - right. destruct Hl as [_ _ Hr]. rewrite H in Hr. symmetry in Hr. by apply app_eq_nil in Hr as [_ ->].
Qed.
Lemma bnd_pos s : bnd s (pos s).
Proof. by left. Qed.
Lemma bnd_max s m n : bnd s m → bnd s n → bnd s (Nat.max m n).
Proof. intros [H1|H1] [H2|H2]; [left; lia|by right..]. Qed.

Lemma done_cut s s' c : aok s → grows s s' → c ∈ a_done s' →
  (∃ c0, c0 ∈ a_done s ∧ c_tok c = c_tok c0 ∧ carries c (c_sem c0)) ∨ (pos s ≤ c_lo c ∧ c_lo c < c_hi c ∧ a_rest s ≠ []).
Proof.
  intros Hok [[l Hl] Hk] [i Hi]%elem_of_list_lookup. destruct (a_done s !! i) as [c0|] eqn:E0.
  - left. exists c0. destruct (Hk i c0 E0) as (c' & E1 & E2 & E3). rewrite Hi in E1. injection E1 as <-.
    split; [by eapply elem_of_list_lookup_2|done].
  - right. assert (Hsp := adv_spans _ _ _ Hok Hl).
    assert (Ht : c_tok c ∈ l).
    { destruct Hl as [_ Ht _]. unfold toks in Ht. apply (f_equal (λ l, l !! i)) in Ht.
      change (map c_tok (a_done s')) with (c_tok <$> a_done s') in Ht.
      change (map c_tok (a_done s)) with (c_tok <$> a_done s) in Ht. rewrite list_lookup_fmap, Hi in Ht. cbn in Ht.
      symmetry in Ht. apply lookup_app_Some in Ht as [Ht|[_ Ht]].
      - rewrite list_lookup_fmap, E0 in Ht. done.
      - by eapply elem_of_list_lookup_2. }
    assert (Ht2 : t_span (c_tok c) ∈ map t_span l) by (by apply elem_of_list_In, in_map, elem_of_list_In).
    destruct (spans_ok_in _ _ _ _ Hsp Ht2) as (H1 & H2 & _). split_and!; [done|done|].
    destruct Hl as [_ _ Hr]. rewrite Hr. destruct l; [by apply elem_of_nil in Ht|done].
Qed.

Section keep.
  Variable env : denv.
  Variables (first follow : prod → tset) (jump : prod → option tok → option nat).
  Notation produce := (produce env first follow jump).
  Notation part := (part env).

  Definition covered (s : ast) (sp : span) (sem : N) : Prop :=
    bnd s (sp_hi sp) ∧ ∀ c, c ∈ a_done s → is_inside sp c → carries c sem.
  Definition good (t : ty) (x : tree) (s : ast) : Prop :=
    bnd s (tree_lo x) ∧ bnd s (tree_hi x) ∧ ∀ sp sem, part t x sp sem → covered s sp sem.
  Lemma covered_grows s s' sp sem : aok s → grows s s' → covered s sp sem → covered s' sp sem.
  Proof.
    intros Hok Hg [Hb Hc]. split; [eauto using bnd_grows|]. intros c Hin Hi.
    destruct (done_cut _ _ _ Hok Hg Hin) as [(c0 & H0 & Et & Hs)|(H1 & H2 & H3)].
    - intros b Hbit. apply Hs. apply Hc; [done| |done]. unfold is_inside, c_lo, c_hi in *. by rewrite <- Et.
    - exfalso. destruct Hb as [Hb|Hb]; [|done]. destruct Hi as [_ Hi]. lia.
  Qed.
  Lemma covered_mark s sp sem : aok s → bnd s (sp_hi sp) → covered (mark s sp sem) sp sem.
  Proof.
    intros Hok Hb. split; [eapply bnd_grows; [done|by apply grows_mark|done]|].
    intros c Hin Hi. cbn in Hin. rewrite (vec_apply_spec (String.length (a_src s))) in Hin by (by apply aok_cells).
    apply elem_of_list_In, in_map_iff in Hin as (c0 & <- & _). destruct (decide (is_inside sp c0)) as [Hd|Hd]; [|done].
    intros b Hbit. unfold tagged, cell_apply. cbn. rewrite N.lor_spec, Hbit. apply orb_true_r.
  Qed.
  Lemma good_grows t x s s' : aok s → grows s s' → good t x s → good t x s'.
  Proof.
    intros Hok Hg (H1 & H2 & H3). split_and!; [eauto using bnd_grows..|]. intros sp sem Hp. eapply covered_grows; eauto.
  Qed.
  Definition goods (t : ty) (xs : list tree) (s : ast) : Prop := Forall (λ x, good t x s) xs.
  Lemma goods_grows t xs s s' : aok s → grows s s' → goods t xs s → goods t xs s'.
  Proof. intros Hok Hg H. eapply Forall_impl; [exact H|]. intros x Hx. eauto using good_grows. Qed.
  Lemma goods_opt t o xs s : goods t xs s → (∀ x, o = Some x → good t x s) → goods t (xs ++ option_list o) s.
  Proof. intros H Ho. apply Forall_app. split; [done|]. destruct o; [|constructor]. constructor; [by apply Ho|constructor]. Qed.

  (** What a program for [t] leaves. *)
  Definition keepp (t : ty) (p : M (res tree)) : Prop :=
    ∀ s, aok s → W p s (λ r s', ∀ x, value r = Some x → good t x s').

  Lemma into_value {A} (x : A) es y : value (res_into x es) = Some y → y = x.
  Proof. unfold value. destruct es; cbn; by intros [= <-]. Qed.
  Lemma map_value {A B} (f : A → B) r y : value (res_map f r) = Some y → ∃ x, value r = Some x ∧ y = f x.
  Proof. unfold value. destruct r; cbn; [intros [= <-]; eauto..|done]. Qed.

  Lemma produce_seq_keep rec ts ts0 acc errs s : aok s → (∀ t, t ∈ ts → keepp t (rec t)) →
    Forall2 (λ t x, good t x s) ts0 acc →
    W (produce_seq rec ts acc errs) s (λ r s', ∀ xs, value r = Some xs → Forall2 (λ t x, good t x s') (ts0 ++ ts) xs).
  Proof.
    revert ts0 acc errs s. induction ts as [|t ts IH]; intros ts0 acc errs s Hok Hrec Hacc; cbn [produce_seq].
    - apply wp_ret. intros xs ->%into_value. by rewrite app_nil_r.
    - eapply wp_step; [done|apply Hrec; [set_solver|done]|]. intros r s1 Hok1 Hg Hr. unfold value in Hr.
      destruct (unres r) as [[x|] e]; [|by apply wp_ret]. cbn in Hr.
      eapply wp_mono; [apply (IH (ts0 ++ [t])); [done|intros; apply Hrec; set_solver|]|].
      { apply Forall2_app; [|by constructor; [apply Hr|constructor]]. eapply Forall2_impl; [exact Hacc|].
        intros. eauto using good_grows. }
      intros r2 s2 H. by rewrite <- (assoc_L (++)) in H.
  Qed.
  Lemma apply_fields_keep fs xs s : aok s → Forall (λ x, bnd s (tree_hi x)) xs →
    W (apply_fields fs xs) s (λ _ s', ∀ i t sem x, fs !! i = Some (t, Some sem) → xs !! i = Some x →
      covered s' (tree_span x) sem).
  Proof.
    revert xs s. induction fs as [|[t [sem|]] fs IH]; intros [|x xs] s Hok Hp; cbn [apply_fields];
      try (by apply wp_ret; intros [|i]).
    - apply Forall_cons in Hp as [Hx Hp]. apply wp_bind, wp_apply.
      assert (Hg := grows_mark s (tree_span x) sem Hok). assert (Hok1 := grows_aok _ _ Hg Hok).
      assert (Hc := covered_mark s (tree_span x) sem Hok Hx).
      assert (HI : W (apply_fields fs xs) (mark s (tree_span x) sem) (λ _ s', ∀ i t sem x, fs !! i = Some (t, Some sem) → xs !! i = Some x →
        covered s' (tree_span x) sem)).
      { apply IH; [done|]. eapply Forall_impl; [exact Hp|]. intros y Hy. eauto using bnd_grows. }
      unfold wp in *. destruct (arun _ _) as [| |a s'] eqn:E; [done..|]. assert (Hg' := arun_grows _ _ _ _ Hok1 E).
      intros [|j] t' sem' x' Hi Hx'; [|by apply (HI j t')]. injection Hi as <- <-. injection Hx' as <-. eauto using covered_grows.
    - apply Forall_cons in Hp as [Hx Hp]. eapply wp_mono; [by apply IH|].
      intros _u s' H [|j] t' sem' x' Hi Hx'; [done|]. by apply (H j t').
  Qed.

  Lemma produce_option_keep {X} (p : M (res X)) (sp : X → span) set (P : ast → X → Prop) s : aok s →
    (∀ s', aok s' → W p s' (λ r s1, ∀ x, value r = Some x → P s1 x)) →
    W (produce_option p sp set) s (λ r s', ∀ y, value r = Some y →
      match y with (sp', Some x) => sp' = sp x ∧ P s' x | (sp', None) => sp' = Span (pos s') (pos s') end).
  Proof.
    intros Hok Hp. unfold produce_option. apply wp_bind, wp_peek_src; [done|].
    assert (Hnone : W (e ← empty_span; mret (RSucc (e, @None X))) s (λ r s', ∀ y, value r = Some y →
      match y with (sp', Some x) => sp' = sp x ∧ P s' x | (sp', None) => sp' = Span (pos s') (pos s') end)).
    { apply wp_bind, wp_empty_span, wp_ret. by intros y [= <-]. }
    destruct (look s) as [tk|]; [|done].
    destruct (ts_contains set (Some tk)); [|done].
    apply wp_bind. eapply wp_mono; [by apply Hp|]. intros r s1 H. destruct r as [x|x es|es].
    - apply wp_ret. intros y [= <-]. auto.
    - apply wp_ret. intros y [= <-]. auto.
    - apply wp_bind, wp_empty_span, wp_ret. by intros y [= <-].
  Qed.

  Lemma iter_loop_keep t p n set acc errs hi s : keepp t p → aok s → goods t acc s → bnd s hi →
    W (iter_loop n p set acc errs hi) s (λ q s', goods t q.1.1 s' ∧ bnd s' q.2).
  Proof.
    intros Hp. revert acc errs hi s. induction n as [|n IH]; intros acc errs hi s Hok Ha Hh; cbn [iter_loop]; [done|].
    apply wp_bind, wp_peek_src; [done|]. destruct (look s) as [tk|]; [|by apply wp_ret].
    destruct (ts_contains set (Some tk)); [|by apply wp_ret].
    eapply wp_step; [done|by apply Hp|]. intros r s1 Hok1 Hg Hr. unfold value in Hr.
    destruct (unres r) as [[x|] e]; cbn in Hr.
    - destruct (Hr _ eq_refl) as (H1 & H2 & H3). apply IH; [done| |done].
      apply (goods_opt t (Some x)); [eauto using goods_grows|]. intros ? [= <-]. by apply Hr.
    - apply wp_ret. split; [eauto using goods_grows|eauto using bnd_grows].
  Qed.
  Lemma produce_plus_keep t p n set s : keepp t p → aok s →
    W (produce_plus n p set) s (λ r s', ∀ y, value r = Some y → goods t y.2 s' ∧ bnd s' (sp_lo y.1) ∧ bnd s' (sp_hi y.1)).
  Proof.
    intros Hp Hok. unfold produce_plus. eapply wp_step; [done|by apply Hp|]. intros r s1 Hok1 Hg Hr. unfold value in Hr.
    destruct (unres r) as [[x|] e]; [|by apply wp_ret]. cbn in Hr. destruct (Hr _ eq_refl) as (H1 & H2 & H3).
    eapply wp_step; [done|apply (iter_loop_keep t); [done|done| |done]|].
    { constructor; [by apply Hr|constructor]. }
    intros [[xs es] hi'] s2 Hok2 Hg2 [H4 H5]. apply wp_ret. intros y ->%into_value. cbn in *.
    split_and!; [done| |done]. eauto using bnd_grows.
  Qed.

  Lemma loop_loop_keep t p n set acc errs s : keepp t p → aok s → goods t acc s →
    W (loop_loop n p set acc errs) s (λ q s', goods t q.1 s').
  Proof.
    intros Hp. revert acc errs s. induction n as [|n IH]; intros acc errs s Hok Ha; cbn [loop_loop]; [done|].
    apply wp_bind, wp_peek_src; [done|]. destruct (look s) as [tk|]; [|by apply wp_ret].
    apply wp_skip; [done|]. intros [tk1 es1] s1 Hok1 Hg1. destruct tk1 as [tk1|]; [|apply wp_ret; eauto using goods_grows].
    apply wp_bind, wp_cur_span. eapply wp_step; [done|by apply Hp|]. intros r s2 Hok2 Hg2 Hr. unfold value in Hr.
    destruct (unres r) as [o e]. cbn in Hr. apply wp_bind, wp_cur_span.
    assert (Hn : goods t (acc ++ option_list o) s2).
    { apply goods_opt; [|done]. eapply goods_grows; [exact Hok1|done|]. eauto using goods_grows. }
    destruct (_ =? _); [by apply wp_ret|]. by apply IH.
  Qed.
  Lemma produce_loop_keep t p n set s : keepp t p → aok s →
    W (produce_loop n p set) s (λ r s', ∀ y, value r = Some y → goods t y.2 s' ∧ bnd s' (sp_lo y.1) ∧ bnd s' (sp_hi y.1)).
  Proof.
    intros Hp Hok. unfold produce_loop. eapply wp_step; [done|apply (loop_loop_keep t); [done|done|constructor]|].
    intros [xs es] s1 Hok1 Hg1 H. cbn in H. apply wp_bind.
    apply (wp_mono _ _ _ _ (λ sp s2, s2 = s1 ∧ bnd s1 (sp_lo sp) ∧ bnd s1 (sp_hi sp))).
    { unfold goods in H. rewrite Forall_forall in H.
      destruct (head xs) as [a|] eqn:Ea, (last xs) as [b|] eqn:Eb;
        try (apply wp_empty_span; split_and!; [done|apply bnd_pos..]).
      apply wp_ret. split_and!; [done| |].
      - apply (H a). destruct xs; [done|]. injection Ea as ->. set_solver.
      - apply (H b). by apply last_Some_elem_of. }
    intros sp s2 (-> & H1 & H2). apply wp_ret. intros y ->%into_value. done.
  Qed.

  Lemma split_inner_keep t pT n ef pf fol panic errs s : keepp t pT → aok s →
    W (split_inner n pT ef pf fol panic errs) s (λ q s', ∀ x, q.1.1 = Some x → good t x s').
  Proof.
    intros HT. revert panic errs s. induction n as [|n IH]; intros panic errs s Hok; cbn [split_inner]; [done|].
    apply wp_bind, wp_peek_src; [done|].
    apply (wp_step _ _ _ (λ step s1, match step with inl (x, _) => good t x s1 | inr _ => True end)); [done| |].
    { destruct (ts_contains ef (look s) || ts_contains_e ef); [|apply (wp_mono _ _ _ _ (λ st _, ∃ q, st = inr q)); [|by intros st ? [q ->]]].
      - eapply wp_step; [done|by apply HT|]. intros r s1 Hok1 Hg Hr. unfold value in Hr.
        destruct (unres r) as [[x|] e]; [apply wp_ret; by apply Hr|]. apply wp_skip; [done|]. intros. by apply wp_ret.
      - destruct panic; [apply wp_bind, wp_cur_span, wp_ret|apply wp_bind, wp_expecting, wp_ret]; eauto. }
    intros [[x es]|[tk' panic']] s1 Hok1 Hg1 H.
    - apply wp_ret. by intros ? [= <-].
    - destruct (ts_contains pf tk'); [by apply wp_ret|].
      destruct (bool_decide (tk' = None) || ts_contains fol tk'); [by apply wp_ret|].
      apply wp_skip; [done|]. intros. by apply IH.
  Qed.
  Lemma split_outer_keep t d pT pP n ef pf fol elems puncts errs s : keepp t pT → keepp d pP → aok s →
    elems ≠ [] → goods t elems s → goods d puncts s →
    W (split_outer n pT pP ef pf fol elems puncts errs) s (λ q s', q.1.1 ≠ [] ∧ goods t q.1.1 s' ∧ goods d q.1.2 s').
  Proof.
    intros HT HP. revert elems puncts errs s. induction n as [|n IH]; intros elems puncts errs s Hok Hne He Hq; cbn [split_outer]; [done|].
    apply wp_bind, wp_peek_src; [done|]. destruct (look s) as [tk|]; [|by apply wp_ret].
    destruct (ts_contains pf (Some tk)); [|by apply wp_ret].
    eapply wp_step; [done|by apply HP|]. intros r s1 Hok1 Hg1 Hr. unfold value in Hr.
    destruct (unres r) as [[q|] e]; cbn in Hr.
    2: { apply wp_ret. split_and!; [done|eauto using goods_grows..]. }
    eapply wp_step; [done|by apply (split_inner_keep t)|]. intros [[o es] cont] s2 Hok2 Hg2 H2. cbn in H2.
    assert (He' : goods t (elems ++ option_list o) s2).
    { apply goods_opt; [|done]. eapply goods_grows; [exact Hok1|done|]. eauto using goods_grows. }
    assert (Hq0 : goods d puncts s2).
    { eapply goods_grows; [exact Hok1|done|]. eauto using goods_grows. }
    assert (Hq' : goods d (match o with Some _ => puncts ++ [q] | None => puncts end) s2).
    { destruct o; [|done]. apply (goods_opt d (Some q)); [done|]. intros ? [= <-]. eapply good_grows; [exact Hok1|done|]. by apply Hr. }
    assert (Hne' : elems ++ option_list o ≠ []) by (by intros [-> _]%app_eq_nil).
    destruct cont; [by apply IH|by apply wp_ret].
  Qed.
  Lemma goods_last t xs s x : xs ≠ [] → goods t xs s → bnd s (match last xs with Some x => tree_hi x | None => tree_lo x end).
  Proof.
    intros Hne H. destruct (last xs) as [y|] eqn:E; [|by apply last_None in E].
    apply last_Some_elem_of in E. unfold goods in H. rewrite Forall_forall in H. by apply (H y).
  Qed.
  Lemma produce_split_keep t d pT pP n ef pf fol : keepp t pT → keepp d pP →
    keepp (TSplit t d) (produce_split n pT pP ef pf fol).
  Proof.
    intros HT HP s Hok. unfold produce_split. eapply wp_step; [done|by apply HT|]. intros r s1 Hok1 Hg1 Hr. unfold value in Hr.
    destruct (unres r) as [[x|] e]; [|by apply wp_ret]. cbn in Hr.
    assert (Hx := Hr _ eq_refl).
    eapply wp_step; [done|apply (split_outer_keep t d); [done..| |constructor]|].
    { constructor; [done|constructor]. }
    intros [[xs qs] es] s2 Hok2 Hg2 (H1 & H2 & H3). cbn in H1, H2, H3. apply wp_ret. intros y ->%into_value.
    split_and!; cbn.
    - eapply bnd_grows; [exact Hok1|done|]. apply Hx.
    - by apply (goods_last t).
    - intros sp sem Hp. unfold goods in *. rewrite Forall_forall in H2, H3. inversion Hp; subst; [by eapply H2|by eapply H3].
  Qed.

  Lemma punct_inner_keep t pT n ef pf fol panic errs s : keepp t pT → aok s →
    W (punct_inner n pT ef pf fol panic errs) s (λ q s', ∀ x, q.1.1 = Some x → good t x s').
  Proof.
    intros HT. revert panic errs s. induction n as [|n IH]; intros panic errs s Hok; cbn [punct_inner]; [done|].
    apply wp_bind, wp_peek_src; [done|]. destruct (look s) as [tk|]; [|by apply wp_ret].
    destruct (negb (ts_contains ef (Some tk)) && ts_contains fol (Some tk)); [by apply wp_ret|].
    apply (wp_step _ _ _ (λ step s1, match step with inl (x, _) => good t x s1 | inr _ => True end)); [done| |].
    { destruct (ts_contains ef (Some tk)).
      - eapply wp_step; [done|by apply HT|]. intros r s1 Hok1 Hg Hr. unfold value in Hr.
        destruct (unres r) as [[x|] e]; apply wp_ret; [by apply Hr|done].
      - by apply wp_bind, wp_cur_span, wp_ret. }
    intros [[x es]|panic'] s1 Hok1 Hg1 H.
    - apply wp_ret. by intros ? [= <-].
    - apply wp_skip; [done|]. intros tk' s2 Hok2 Hg2.
      destruct (ts_contains pf tk'); [by apply wp_ret|].
      destruct (bool_decide (tk' = None) || ts_contains fol tk'); [by apply wp_ret|].
      apply wp_skip; [done|]. intros. by apply IH.
  Qed.
  Lemma punct_outer_keep t d pT pP n ef pf fol elems puncts errs s : keepp t pT → keepp d pP → aok s →
    elems ≠ [] → goods t elems s → goods d puncts s →
    W (punct_outer n pT pP ef pf fol elems puncts errs) s (λ q s', q.1.1 ≠ [] ∧ goods t q.1.1 s' ∧ goods d q.1.2 s').
  Proof.
    intros HT HP. revert elems puncts errs s. induction n as [|n IH]; intros elems puncts errs s Hok Hne He Hq; cbn [punct_outer]; [done|].
    apply wp_bind, wp_peek_src; [done|]. destruct (look s) as [tk|]; [|by apply wp_ret].
    destruct (ts_contains pf (Some tk)); [|by apply wp_ret].
    eapply wp_step; [done|by apply HP|]. intros r s1 Hok1 Hg1 Hr. unfold value in Hr.
    destruct (unres r) as [[q|] e]; cbn in Hr.
    2: { apply wp_ret. split_and!; [done|eauto using goods_grows..]. }
    eapply wp_step; [done|by apply (punct_inner_keep t)|]. intros [[o es] cont] s2 Hok2 Hg2 H2. cbn in H2.
    assert (He' : goods t (elems ++ option_list o) s2).
    { apply goods_opt; [|done]. eapply goods_grows; [exact Hok1|done|]. eauto using goods_grows. }
    assert (Hq' : goods d (puncts ++ [q]) s2).
    { apply (goods_opt d (Some q)); [|intros ? [= <-]; eapply good_grows; [exact Hok1|done|]; by apply Hr].
      eapply goods_grows; [exact Hok1|done|]. eauto using goods_grows. }
    assert (Hne' : elems ++ option_list o ≠ []) by (by intros [-> _]%app_eq_nil).
    destruct cont; [by apply IH|by apply wp_ret].
  Qed.
  Lemma produce_punct_keep t d pT pP n ef pf fol : keepp t pT → keepp d pP →
    keepp (TPunct t d) (produce_punct n pT pP ef pf fol).
  Proof.
    intros HT HP s Hok. unfold produce_punct. eapply wp_step; [done|by apply HT|]. intros r s1 Hok1 Hg1 Hr. unfold value in Hr.
    destruct (unres r) as [[x|] e]; [|by apply wp_ret]. cbn in Hr.
    assert (Hx := Hr _ eq_refl).
    eapply wp_step; [done|apply (punct_outer_keep t d); [done..| |constructor]|].
    { constructor; [done|constructor]. }
    intros [[xs qs] es] s2 Hok2 Hg2 (H1 & H2 & H3). cbn in H1, H2, H3. apply wp_ret. intros y ->%into_value.
    assert (Hlo : bnd s2 (tree_lo x)) by (eapply bnd_grows; [exact Hok1|done|apply Hx]).
    split_and!; cbn.
    - done.
    - apply bnd_max; [by apply (goods_last t)|]. destruct qs as [|q qs]; [done|].
      by apply (goods_last d).
    - intros sp sem Hp. unfold goods in *. rewrite Forall_forall in H2, H3. inversion Hp; subst; [by eapply H2|by eapply H3].
  Qed.

  Lemma recover_loop_keep r pR n tf panic errs s : keepp r pR → aok s →
    W (recover_loop n pR tf panic errs) s (λ q s', ∀ x, q.1.1 = Some x → good r x s').
  Proof.
    intros HR. revert panic errs s. induction n as [|n IH]; intros panic errs s Hok; cbn [recover_loop]; [done|].
    apply wp_bind, wp_peek_src; [done|]. destruct (look s) as [tk|].
    - apply (wp_step _ _ _ (λ step s1, match step with inl (x, _) => good r x s1 | inr _ => True end)); [done| |].
      { destruct (ts_contains tf (Some tk) || ts_contains_e tf); [|by apply wp_ret].
        eapply wp_step; [done|by apply HR|]. intros q s1 Hok1 Hg Hr. unfold value in Hr.
        destruct (unres q) as [[x|] e]; apply wp_ret; [by apply Hr|done]. }
      intros [[x es]|panic'] s1 Hok1 Hg1 H.
      + apply wp_ret. by intros ? [= <-].
      + apply wp_skip; [done|]. intros q s2 Hok2 Hg2. apply wp_skip; [done|]. intros. by apply IH.
    - destruct (ts_contains_e tf); [|by apply wp_ret].
      eapply wp_step; [done|by apply HR|]. intros q s1 Hok1 Hg Hr. unfold value in Hr.
      destruct (unres q) as [[x|] e]; apply wp_ret; [intros ? [= <-]; by apply Hr|done].
  Qed.
  Lemma produce_recover_keep t r pT pR n hf tf : keepp t pT → keepp r pR →
    keepp (TRecover t r) (produce_recover n pT pR hf tf).
  Proof.
    intros HT HR s Hok. unfold produce_recover. apply wp_bind, wp_peek_src; [done|].
    apply (wp_step _ _ _ (λ q s1, bnd s1 (sp_lo q.1.1.2) ∧ ∀ x, q.1.2 = Some x → good t x s1)); [done| |].
    { destruct (ts_contains hf (look s) || ts_contains_e hf).
      - eapply wp_step; [done|by apply HT|]. intros q s1 Hok1 Hg Hr. unfold value in Hr.
        destruct (unres q) as [[x|] e]; cbn in Hr.
        + apply wp_ret. cbn. split; [by apply Hr|]. intros ? [= <-]. by apply Hr.
        + apply wp_bind, wp_empty_span, wp_ret. cbn. split; [apply bnd_pos|done].
      - apply wp_bind, wp_expecting. apply wp_bind, wp_empty_span, wp_ret. cbn. split; [apply bnd_pos|done]. }
    intros [[[panic hsp] hd] es] s1 Hok1 Hg1 [H1 H2]. cbn in H1, H2.
    eapply wp_step; [done|by apply (recover_loop_keep r)|]. intros [[tl panic'] es'] s2 Hok2 Hg2 H3. cbn in H3. cbn zeta.
    destruct tl as [y|]; [|by apply wp_ret]. apply wp_ret. intros z ->%into_value. destruct (H3 _ eq_refl) as (H4 & H5 & H6).
    split_and!; cbn.
    - eauto using bnd_grows.
    - done.
    - intros sp sem Hp. inversion Hp; subst; [|by apply H6]. eapply covered_grows; [exact Hok1|done|]. by eapply H2.
  Qed.

  Lemma seq_good ts xs s : Forall2 (λ t x, good t x s) ts xs → bnd s (tree_lo (TrSeq xs)) ∧ bnd s (tree_hi (TrSeq xs)).
  Proof.
    intros H. split.
    - destruct H as [|t x ts xs Hx _]; cbn; [left; lia|apply Hx].
    - induction H as [|t x ts xs Hx H IH]; [left; cbn; lia|]. destruct H; [apply Hx|exact IH].
  Qed.
  Lemma good_at s (fs : list field) xs i t o x : Forall2 (λ t x, good t x s) (map fst fs) xs →
    fs !! i = Some (t, o) → xs !! i = Some x → good t x s.
  Proof.
    intros H Hi Hx. revert xs i H Hi Hx. induction fs as [|f fs IH]; intros xs i H Hi Hx; [done|]. cbn in H.
    inversion H as [|? y ? ys Hy Hys]; subst. destruct i as [|i]; cbn in Hi, Hx.
    - injection Hi as ->. injection Hx as <-. done.
    - by apply (IH ys i).
  Qed.
  Lemma produce_keep f t : keepp t (produce f t).
  Proof.
    revert t. induction f as [|f IH]; intros t s Hok; [done|].
    destruct t as [n y lit|n|ts|t|t|t|t|t|t|t|t|t d|t d|t r]; cbn [ProduceModel.produce].
    - assert (Hpop : ∀ t r, a_rest s = t :: r → good (TTok n y lit) (TrTok t) (pop s)).
      { intros t r Er. destruct (pop_adv1 s t r Er) as [Ha _]. assert (Hg := grows_pop s). assert (Hok1 := grows_aok _ _ Hg Hok).
        assert (Hsp := adv_spans _ _ _ Hok Ha). cbn in Hsp.
        assert (Hp : pos (pop s) = sp_hi (t_span t)) by (by rewrite (adv_pos _ _ _ Ha)).
        split_and!; [left; cbn; lia|left; cbn; lia|]. intros sp sem Hq. inversion Hq; subst; naive_solver. }
      assert (Hemp : good (TTok n y lit) (TrTok (Token (Span (pos s) (pos s)) y)) s).
      { split_and!; [apply bnd_pos..|]. intros sp sem Hq. inversion Hq; subst; naive_solver. }
      apply wp_bind. destruct lit as [lit|].
      + apply wp_parse_token_lit; [done|]. destruct (a_rest s) as [|t r] eqn:Er.
        * destruct (ts_contains_e _); apply wp_ret; [|done]. intros x [= <-].
          split_and!; [by right..|]. intros sp sem Hq. inversion Hq; subst; naive_solver.
        * destruct (decide (look s = Some (y, lit))) as [Hlk|_].
          -- apply wp_ret. intros x [= <-]. by eapply Hpop.
          -- destruct (ts_contains _ _); apply wp_ret; [|done]. by intros x [= <-].
      + apply wp_parse_token. destruct (a_rest s) as [|t r] eqn:Er; [by apply wp_ret|].
        case_decide; [|by apply wp_ret]. apply wp_ret. intros x [= <-]. by eapply Hpop.
    - destruct (env !! n) as [[fs|vs]|] eqn:En; [| |done].
      + eapply wp_step; [done|apply (produce_seq_keep _ (map fst fs) []); [done|auto|constructor]|].
        intros r s1 Hok1 Hg1 H. unfold value in H. destruct (unres r) as [[xs|] e]; [|by apply wp_ret]. cbn in H.
        specialize (H _ eq_refl).
        eapply wp_step; [done|apply (apply_fields_keep fs xs); [done|]|].
        { apply Forall2_flip in H. apply Forall_forall. intros x [i Hi]%elem_of_list_lookup.
          destruct (Forall2_lookup_l _ _ _ _ _ H Hi) as (t & _ & Ht). apply Ht. }
        intros u s2 Hok2 Hg2 Hc. apply wp_ret. intros z ->%into_value.
        assert (H' : Forall2 (λ t x, good t x s2) (map fst fs) xs).
        { eapply Forall2_impl; [exact H|]. intros. eauto using good_grows. }
        destruct (seq_good _ _ _ H') as [Hlo Hhi]. split_and!; [done..|].
        intros sp sem Hp. inversion Hp; subst; simplify_eq.
        * eapply Hc; eauto.
        * eapply (good_at s2 fs xs); eauto.
      + apply wp_bind, wp_peek_src; [done|]. 
        destruct (_ ≫= _) as [[i [t' sem]]|] eqn:Ei.
        2: { by apply wp_bind, wp_expecting, wp_ret. }
        assert (vs !! i = Some (t', sem)) as Hi.
        { destruct (jump (key (TNamed n)) (look s)) as [i'|]; [|done]. cbn in Ei.
          destruct (vs !! i') eqn:E; [|done]. cbn in Ei. injection Ei as -> ->. done. }
        eapply wp_step; [done|by apply (IH t')|]. intros r s1 Hok1 Hg1 H.
        assert (Hfin : ∀ x s2, aok s2 → good t' x s2 → (∀ m, sem = Some m → covered s2 (tree_span x) m) → good (TNamed n) (TrVar i x) s2).
        { intros x s2 _ (H1 & H2 & H3) Hc. split_and!; [done..|]. intros sp m Hp. inversion Hp; subst; simplify_eq; auto. }
        destruct r as [x|x es|es]; [..|by apply wp_ret].
        all: assert (Hx : good t' x s1) by (by apply H).
        all: destruct sem as [m|]; [apply wp_bind, wp_apply|]; apply wp_ret; intros z [= <-]; apply Hfin; try done.
        all: assert (Hg := grows_mark s1 (tree_span x) m Hok1).
        1, 4: by eapply grows_aok.
        1, 3: eauto using good_grows.
        all: intros ? [= <-]; apply covered_mark; [done|apply Hx].
    - apply wp_bind. eapply wp_mono; [apply (produce_seq_keep _ ts []); [done|auto|constructor]|].
      intros r s1 H. apply wp_ret. intros z (xs & Hr & ->)%map_value. specialize (H _ Hr). cbn in H.
      destruct (seq_good _ _ _ H) as [Hlo Hhi]. split_and!; [done..|].
      intros sp sem Hp. inversion Hp; subst.
      match goal with Hi : ts !! ?i = Some ?t, Hx : xs !! ?i = Some ?x |- _ =>
        assert (Hgd : good t x s1); [|by apply Hgd] end.
      eapply (Forall2_lookup_lr (λ t x, good t x s1)); eauto.
    - eapply wp_mono; [by apply IH|]. intros r s1 H x Hx. destruct (H x Hx) as (H1 & H2 & H3). split_and!; [done..|].
      intros sp sem Hp. inversion Hp; subst; first [by auto|by destruct_or?].
    - apply wp_bind. eapply wp_mono; [apply (produce_option_keep _ _ _ (λ s x, good t x s)); [done|intros; by apply IH]|].
      intros r s1 H. apply wp_ret. intros z ([sp o] & Hr & ->)%map_value. specialize (H _ Hr). cbn in H.
      destruct o as [x|].
      + destruct H as (-> & H1 & H2 & H3). split_and!; [done..|]. intros sp sem Hp. inversion Hp; subst; first [by auto|naive_solver].
      + subst. split_and!; [apply bnd_pos..|]. intros sp sem Hp. inversion Hp; subst; naive_solver.
    - apply wp_bind. eapply wp_mono; [apply (produce_option_keep _ _ _ (λ s x, good t x s)); [done|intros; by apply IH]|].
      intros r s1 H. apply wp_ret. intros z ([sp o] & Hr & ->)%map_value. specialize (H _ Hr). cbn in H.
      destruct o as [x|].
      + destruct H as (-> & H1 & H2 & H3). split_and!; [done..|]. intros sp sem Hp. inversion Hp; subst; naive_solver.
      + subst. split_and!; [apply bnd_pos..|]. intros sp sem Hp. inversion Hp; subst; naive_solver.
    - apply wp_bind. eapply wp_mono; [by apply IH|]. intros r s1 H.
      destruct r as [x|x es|es]; [| |by apply wp_ret].
      all: destruct (H x eq_refl) as (H1 & H2 & H3).
      all: apply wp_bind; destruct (span_get (tree_span x) (a_src s1)) as [str|] eqn:Es;
        [|unfold wp, get_src; cbn [arun]; by rewrite Es].
      all: eapply wp_get_src; [done|]; apply wp_ret; intros z [= <-].
      all: split_and!; [done..|]. all: intros sp sem Hp; inversion Hp; subst; naive_solver.
    - apply wp_bind. eapply wp_mono; [by apply IH|]. intros r s1 H.
      destruct r as [x|x es|es]; [| |by apply wp_ret].
      all: destruct (H x eq_refl) as (H1 & H2 & H3).
      all: apply wp_bind; destruct (span_get (tree_span x) (a_src s1)) as [str|] eqn:Es;
        [|unfold wp, get_src; cbn [arun]; by rewrite Es].
      all: eapply wp_get_src; [done|]; apply wp_ret; intros z [= <-].
      all: split_and!; [done..|]. all: intros sp sem Hp; inversion Hp; subst; naive_solver.
    - apply wp_bind. eapply wp_mono; [by apply (produce_plus_keep t)|].
      intros r s1 H. apply wp_ret. intros z ([sp xs] & Hr & ->)%map_value. destruct (H _ Hr) as (H1 & H2 & H3). cbn in *.
      split_and!; [done..|]. intros sp' sem Hp. unfold goods in H1. rewrite Forall_forall in H1. inversion Hp; subst.
      destruct_or?; simplify_eq. by eapply H1.
    - apply wp_bind. eapply wp_mono; [apply (produce_option_keep _ _ _ (λ s' y, goods t y.2 s' ∧ bnd s' (sp_lo y.1) ∧ bnd s' (sp_hi y.1))); [done|]|].
      { intros. by apply (produce_plus_keep t). }
      intros r s1 H. apply wp_ret. intros z ([sp o] & Hr & ->)%map_value. specialize (H _ Hr). cbn in H.
      destruct o as [[sp' xs]|].
      + destruct H as (-> & H1 & H2 & H3). cbn in *. split_and!; [done..|].
        intros sp sem Hp. unfold goods in H1. rewrite Forall_forall in H1. inversion Hp; subst.
        destruct_or?; simplify_eq. by eapply H1.
      + subst. split_and!; [apply bnd_pos..|]. intros sp sem Hp. inversion Hp; subst. exfalso. by eapply elem_of_nil.
    - apply wp_bind. eapply wp_mono; [by apply (produce_loop_keep t)|].
      intros r s1 H. apply wp_ret. intros z ([sp xs] & Hr & ->)%map_value. destruct (H _ Hr) as (H1 & H2 & H3). cbn in *.
      split_and!; [done..|]. intros sp' sem Hp. unfold goods in H1. rewrite Forall_forall in H1. inversion Hp; subst.
      destruct_or?; simplify_eq. by eapply H1.
    - by apply produce_split_keep.
    - by apply produce_punct_keep.
    - by apply produce_recover_keep.
  Qed.
End keep.
