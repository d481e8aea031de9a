(** What is left out of a tree has its error. *)
From Coq Require Import String NArith.
From stdpp Require Import prelude list strings relations.
From Verif Require Import LexModel LexSpec LexFacts SynSetModel TableModel StreamModel StreamSpec StreamFacts TypeModel ProduceModel ParseSpec ProgFacts TreeFacts SoundFacts RunFacts InvFacts LookFacts NodeFacts LoopFacts LeafSpec LeafFacts CompleteFacts OffendFacts ListSpec ListFacts RepairSpec RepairFacts EditSpec.
Local Open Scope nat_scope.
#[local] Arguments ts_contains : simpl never.
#[local] Arguments ts_contains_e : simpl never.
Notation W := (wp True True).

Lemma ed_app src all ins lost pre l1 l2 k1 k2 d1 d2 : edits src all ins lost pre l1 k1 d1 → edits src all ins lost (pre ++ l1) l2 k2 d2 →
  edits src all ins lost pre (l1 ++ l2) (k1 ++ k2) (d1 ++ d2).
Proof.
  induction 1 as [pre|pre t l ks ds _ IH|pre k e l ks ds Hk _ IH|pre g e l ks ds Hg Hr _ IH|pre g l ks ds Hl He _ IH]; intros H; cbn.
  - by rewrite app_nil_r in H.
  - apply ed_take, IH. by rewrite <- (assoc_L (++)).
  - apply ed_ins; [done|]. by apply IH.
  - rewrite <- (assoc_L (++)). apply ed_drop; [done..|]. apply IH. by rewrite <- (assoc_L (++)).
  - rewrite <- (assoc_L (++)). apply ed_lost; [done..|]. apply IH. by rewrite <- (assoc_L (++)).
Qed.

Lemma wp_true {A} (m : M A) s : W m s (λ _ _, True).
Proof. unfold wp. by destruct (arun m s). Qed.

Section leaf.
  Variable env : denv.
  Variables (first follow : prod → tset) (jump : prod → option tok → option nat).
  Variables (root : ty) (src : string) (all : list token).
  Hypothesis Hall : spans_ok 0 (String.length src) (map t_span all).
  Notation produce := (produce env first follow jump).
  Notation st := (st src all).
  Notation ins := (RepairSpec.missing env follow root src all).
  Notation N := (no_recover env root).
  Notation mends := (mends env).
  Notation mendss := (mendss env).
  Notation many := (many env).
  Notation some := (some env).
  Notation ok := (ok src all Hall).

  Definition cov (e : perr) (s s' : ast) : Prop := sp_lo (a_span s) ≤ sp_lo (e_span e) ∧ sp_lo (e_span e) ≤ sp_lo (a_span s').
  Lemma cur_mono s s' : st s → rch s s' → sp_lo (a_span s) ≤ sp_lo (a_span s').
  Proof.
    intros Hst [l Hl]. destruct l as [|t l]; [|apply Nat.lt_le_incl; by eapply cur_lt; [apply ok|..]].
    destruct Hl as [H1 _ H3]. unfold a_span. cbn in H3. by rewrite H1, H3.
  Qed.
  Lemma cov_to e s s1 s2 : st s1 → rch s1 s2 → cov e s s1 → cov e s s2.
  Proof. intros Hst H [H1 H2]. split; [done|]. etrans; [exact H2|]. by apply cur_mono. Qed.
  Lemma cov_from e s s1 s2 : st s → rch s s1 → cov e s1 s2 → cov e s s2.
  Proof. intros Hst H [H1 H2]. split; [|done]. etrans; [|exact H1]. by apply cur_mono. Qed.
  Lemma cov_here e s s' : st s → rch s s' → sp_lo (e_span e) = sp_lo (a_span s') → cov e s s'.
  Proof. intros Hst H He. split; rewrite He; [by apply cur_mono|done]. Qed.
  Lemma cov_start e s s' : st s → rch s s' → sp_lo (e_span e) = sp_lo (a_span s) → cov e s s'.
  Proof. intros Hst H He. split; rewrite He; [done|by apply cur_mono]. Qed.

  (** Nothing more to come, and [Recover] is used. *)
  Definition over (s : ast) : Prop := ¬ N ∧ a_rest s = [].
  Lemma over_to s s' : rch s s' → over s → over s'.
  Proof. intros [l [_ _ H]] [Hn E]. split; [done|]. rewrite E in H. symmetry in H. by apply app_nil in H as [_ ->]. Qed.

  (** The tokens [ks] with [R] come from the part of the input between the states. *)
  Definition acc (es : list perr) (s : ast) (R : list kept → Prop) (s' : ast) : Prop :=
    ∃ l ks ds, adv s l s' ∧ R ks ∧ edits src all ins (¬ N) (toks s) l ks ds ∧ ds ⊆+ es.
  Lemma acc_nil es s (R : list kept → Prop) s' : adv s [] s' → R [] → acc es s R s'.
  Proof. intros Hl H. exists [], [], []. split_and!; [done..|constructor|apply submseteq_nil_l]. Qed.
  Lemma acc_refl es s (R : list kept → Prop) : R [] → acc es s R s.
  Proof. apply acc_nil, adv_refl. Qed.
  Lemma acc_drop e s (R : list kept → Prop) s' : st s → rch s s' → cov e s s' → R [] → acc [e] s R s'.
  Proof.
    intros Hst [l Hl] [H1 H2] H. destruct l as [|t l]; [by apply acc_nil|]. exists (t :: l), [], [e]. split_and!; [done..| |done].
    assert (Hst' := st_adv _ _ _ _ _ Hl Hst). assert (Hr := adv_rest _ _ _ Hl). assert (Ht := adv_toks _ _ _ Hl).
    rewrite <- (app_nil_r (t :: l)). apply ed_drop; [done| |constructor]. split.
    - unfold a_span in H1. rewrite Hr in H1. exact H1.
    - rewrite <- Ht. destruct Hst' as [Hs Ha]. rewrite <- Ha, drop_app. unfold a_span in H2. rewrite Hs in H2. unfold at_next. by destruct (a_rest s').
  Qed.
  Lemma acc_over es s (R : list kept → Prop) s' : st s → rch s s' → over s' → R [] → acc es s R s'.
  Proof.
    intros Hst [l Hl] [Hn He] H. exists l, [], []. split_and!; [done..| |apply submseteq_nil_l].
    assert (Hst' := st_adv _ _ _ _ _ Hl Hst). assert (Ht := adv_toks _ _ _ Hl).
    rewrite <- (app_nil_r l). apply ed_lost; [done| |constructor]. rewrite <- Ht. destruct Hst' as [Hs Ha]. rewrite <- Ha, drop_app. done.
  Qed.
  Lemma acc_app es1 es2 es s s1 s2 (R1 R2 R : list kept → Prop) : acc es1 s R1 s1 → acc es2 s1 R2 s2 →
    (∀ k1 k2, R1 k1 → R2 k2 → R (k1 ++ k2)) → es1 ++ es2 ⊆+ es → acc es s R s2.
  Proof.
    intros (l1 & k1 & d1 & A1 & H1 & E1 & D1) (l2 & k2 & d2 & A2 & H2 & E2 & D2) HR HS.
    exists (l1 ++ l2), (k1 ++ k2), (d1 ++ d2). split_and!; [by eapply adv_trans|auto| |].
    - apply ed_app; [exact E1|]. assert (toks s1 = toks s ++ l1) as <- by apply A1. exact E2.
    - etrans; [|exact HS]. by apply submseteq_app.
  Qed.
  Lemma acc_mono es es' s s1 (R R' : list kept → Prop) : acc es s R s1 → (∀ k, R k → R' k) → es ⊆+ es' → acc es' s R' s1.
  Proof. intros (l & k & d & A & H & E & D) HR HS. exists l, k, d. split_and!; auto. by etrans. Qed.
  Lemma acc_still es s (R : list kept → Prop) s1 s2 : acc es s R s1 → adv s1 [] s2 → acc es s R s2.
  Proof.
    intros (l & k & d & A & H & E & D) Ha. exists l, k, d. split_and!; auto. rewrite <- (app_nil_r l). by eapply adv_trans.
  Qed.
  (** Then a run is left out. *)
  Lemma acc_then es1 es2 es s s1 s2 (R : list kept → Prop) : acc es1 s R s1 → acc es2 s1 (λ k, k = []) s2 → es1 ++ es2 ⊆+ es → acc es s R s2.
  Proof. intros H1 H2 Hs. eapply acc_app; [exact H1|exact H2| |exact Hs]. intros k1 k2 H ->. by rewrite app_nil_r. Qed.
  Lemma acc_before es1 es2 es s s1 s2 (R : list kept → Prop) : acc es1 s (λ k, k = []) s1 → acc es2 s1 R s2 → es1 ++ es2 ⊆+ es → acc es s R s2.
  Proof. intros H1 H2 Hs. eapply acc_app; [exact H1|exact H2| |exact Hs]. by intros k1 k2 ->. Qed.
  Lemma last_in {A} (l : list A) x : last l = Some x → [x] ⊆+ l.
  Proof. intros H. apply submseteq_cons_l. destruct l as [|y l _] using rev_ind; [done|]. rewrite last_snoc in H. injection H as ->.
    exists l. split; [apply Permutation_app_comm|apply submseteq_nil_l]. Qed.
  Lemma acc_fail es s (R : list kept → Prop) s' : st s → rch s s' → atl N es s' → R [] → acc es s R s'.
  Proof.
    intros Hst H [[H1 H2]|(e & H1 & H2)] HR; [by apply acc_over|]. eapply acc_mono; [apply (acc_drop e s R s')|done|by apply last_in]; [done..| |done].
    apply cov_here; [done..|]. by rewrite H2.
  Qed.

  Definition leafp {X} (Y : X → list kept → Prop) (p : M (res X)) : Prop :=
    ∀ s, st s → W p s (λ r s', ∀ x, value r = Some x → acc (errors_of r) s (Y x) s').
  Definition good {X} (Y : X → list kept → Prop) (p : M (res X)) : Prop := leafp Y p ∧ lastp N p.

  Lemma lcall {X B} (Y : X → list kept → Prop) (p : M (res X)) (k : res X → M B) s Q : good Y p → st s →
    (∀ r s', rch s s' → st s' → (∀ x, value r = Some x → acc (errors_of r) s (Y x) s') → (value r = None → atl N (errors_of r) s') →
      W (k r) s' Q) → W (p ≫= k) s Q.
  Proof.
    intros [Hp Hl] Hst Hk. apply wp_bind, wp_adv. eapply wp_mono; [apply wp_and; [by apply Hp|by apply Hl, ok]|]. intros r s' [Hr Hr'] l Hl'.
    assert (rch s s') by (by exists l). apply Hk; [done|by eapply rch_st|done..].
  Qed.
  Lemma lbind {A B} (m : M A) (k : A → M B) s (Q' : A → ast → Prop) Q : st s → W m s Q' →
    (∀ a s', rch s s' → st s' → Q' a s' → W (k a) s' Q) → W (m ≫= k) s Q.
  Proof.
    intros Hst Hm Hk. apply wp_bind, wp_adv. eapply wp_mono; [exact Hm|]. intros a s' Ha l Hl.
    assert (rch s s') by (by exists l). apply Hk; [done|by eapply rch_st|done].
  Qed.
  Lemma lret {X} (Y : X → list kept → Prop) (x : X) es s0 s : acc es s0 (Y x) s →
    W (mret (res_into x es)) s (λ r s', ∀ x, value r = Some x → acc (errors_of r) s0 (Y x) s').
  Proof. intros H. apply wp_ret. unfold value, errors_of. rewrite unres_into. cbn. by intros ? [= <-]. Qed.
  Lemma lpanic {X} (Y : X → list kept → Prop) es s0 s :
    W (mret (@RPanic X es)) s (λ r s', ∀ x, value r = Some x → acc (errors_of r) s0 (Y x) s').
  Proof. by apply wp_ret. Qed.
  Lemma lmap {X Z} (Y : X → list kept → Prop) (Y' : Z → list kept → Prop) (g : X → Z) (p : M (res X)) :
    leafp Y p → (∀ x k, Y x k → Y' (g x) k) → leafp Y' (r ← p; mret (res_map g r)).
  Proof.
    intros Hp Hg s Hst. eapply lbind; [done|by apply Hp|]. intros r s1 _ _ H. apply wp_ret. unfold value, errors_of in *. rewrite unres_map. cbn.
    intros y. destruct (unres r) as [[x|] e]; cbn in *; [|done]. intros [= <-]. eapply acc_mono; [by apply H|auto|done].
  Qed.

  Lemma seq_leaf rec us : (∀ t, t ∈ us → good (mends t) (rec t)) → ∀ ts xs errs s0 s, rch s0 s → st s → acc errs s0 (mendss ts xs) s →
    W (produce_seq rec us xs errs) s (λ r s', ∀ x, value r = Some x → acc (errors_of r) s0 (mendss (ts ++ us) x) s').
  Proof.
    induction us as [|t us IH]; intros Hr ts xs errs s0 s H0 Hst Ha; cbn [produce_seq].
    - rewrite app_nil_r. by apply (lret (mendss ts)).
    - apply (lcall (mends t)); [apply Hr; set_solver|done|]. intros r s1 H1 Hst1 Hx _. unfold value, errors_of in Hx.
      destruct (unres r) as [[x|] e]; cbn in Hx; [|by apply (lpanic (mendss (ts ++ t :: us)))].
      rewrite (cons_middle t), (assoc_L (++)). apply IH; [set_solver|by eapply rch_trans|done|].
      eapply acc_app; [exact Ha|by apply Hx|intros; by apply mendss_snoc|done].
  Qed.
  Lemma option_leaf {X} (Y : X → list kept → Prop) (p : M (res X)) sp set : good Y p →
    leafp (λ x k, match x.2 with Some y => x.1 = sp y ∧ Y y k | None => k = [] end) (produce_option p sp set).
  Proof.
    intros Hp s Hst. unfold produce_option.
    assert (Hn : ∀ s1, adv s [] s1 → acc [] s (λ k, k = []) s1) by (intros; by apply acc_nil).
    apply wp_bind, wp_peek_src; [by apply ok|]. destruct (look s) as [x|]; [destruct (ts_contains set (Some x))|].
    - apply (lcall Y); [done..|]. intros r s2 H2 Hst2 Hx Hf. unfold value, errors_of in Hx, Hf.
      destruct r as [y|y es|es]; cbn in Hx, Hf.
      + apply wp_ret. intros z [= <-]. cbn. eapply acc_mono; [by apply Hx|done|done].
      + apply wp_ret. intros z [= <-]. cbn. eapply acc_mono; [by apply Hx|done|done].
      + apply wp_bind, wp_empty_span, wp_ret. intros z [= <-]. cbn. apply acc_fail; auto.
    - apply wp_bind, wp_empty_span, wp_ret. intros z [= <-]. cbn. apply Hn, adv_refl.
    - apply wp_bind, wp_empty_span, wp_ret. intros z [= <-]. cbn. apply Hn, adv_refl.
  Qed.
  Lemma iter_leaf t p set n : good (mends t) p → ∀ xs errs hi s0 s, rch s0 s → st s → acc errs s0 (some t xs) s →
    W (iter_loop n p set xs errs hi) s (λ q s', acc q.1.2 s0 (some t q.1.1) s').
  Proof.
    intros Hp. induction n as [|n IH]; intros xs errs hi s0 s H0 Hst Ha; [done|]. cbn [iter_loop].
    apply wp_bind, wp_peek_src; [by apply ok|].
    destruct (look s) as [x|]; [destruct (ts_contains set (Some x))|]; [|by apply wp_ret..].
    apply (lcall (mends t)); [done..|]. intros r s2 H2 Hst2 Hx Hf. unfold value, errors_of in Hx, Hf. destruct (unres r) as [[y|] e]; cbn in Hx, Hf.
    - apply IH; [by eapply rch_trans|done|].
      eapply acc_app; [exact Ha|by apply Hx|intros; by apply some_snoc|done].
    - apply wp_ret. cbn. eapply acc_then; [exact Ha|by apply acc_fail; auto|done].
  Qed.
  Lemma plus_leaf t p set n : good (mends t) p → good (λ x, some t x.2) (produce_plus n p set).
  Proof.
    intros Hp. split.
    - intros s Hst. unfold produce_plus. apply (lcall (mends t)); [done..|]. intros r s1 H1 Hst1 Hx _. unfold value, errors_of in Hx.
      destruct (unres r) as [[y|] e]; cbn in Hx; [|by apply wp_ret].
      eapply lbind; [done|apply (iter_leaf t p set n Hp _ _ _ s); [done..|]|].
      { eapply acc_mono; [by apply Hx|apply some_one|done]. }
      intros [[l errs] hi] s2 _ _ Ha. by apply (lret (λ x, some t x.2)).
    - intros s0 Hok0. unfold produce_plus. destruct Hp as [_ Hp]. apply (wcall _ _ _ _ _ Hok0 (Hp s0 Hok0)).
      intros r s1 l Hl Hok1 Hr. destruct (unres r) as [[x|] e]; cbn in Hr; [|apply wp_ret; cbn; auto].
      apply wskip; [done|]. intros [[a b] c] ? ? ? ?. apply wp_ret. by rewrite unres_into.
  Qed.
  Lemma loop_leaf t p set n : good (mends t) p → ∀ xs errs s0 s, rch s0 s → st s → acc errs s0 (many t xs) s →
    W (loop_loop n p set xs errs) s (λ q s', acc q.2 s0 (many t q.1) s').
  Proof.
    intros Hp. induction n as [|n IH]; intros xs errs s0 s H0 Hst Ha; [done|]. cbn [loop_loop].
    apply wp_bind, wp_peek_src; [by apply ok|].
    destruct (look s) as [x|]; [|by apply wp_ret].
    eapply (lbind _ _ _ (λ q s', acc q.2 s0 (many t xs) s')); [done| |].
    { destruct (ts_contains set (Some x)); [by apply wp_ret|].
      apply wp_bind, wp_cur_span.
      assert (Hd : ∀ s', rch s s' → ∀ hi, acc (errs ++ [PErr (Span (sp_lo (a_span s)) hi) UnexpectedTokens]) s0 (many t xs) s').
      { intros s' Hr hi. eapply acc_then; [exact Ha|apply (acc_drop (PErr (Span (sp_lo (a_span s)) hi) UnexpectedTokens)); [done|done|by apply cov_start|done]|done]. }
      apply wp_bind, wp_adv. eapply wp_mono; [apply (wp_consume _ _ s (λ _ _, True)); done|]. intros _ s2 _ l2 H2.
      apply wp_bind, wp_adv. eapply wp_mono; [apply (wp_true peek_src)|]. intros tk' s3 _ l3 H3.
      apply wp_bind, wp_adv. eapply wp_mono; [apply (wp_true (skip_loop n set tk' _))|]. intros [tk1 hi] s4 _ l4 H4.
      apply wp_ret. cbn. apply Hd. eapply rch_trans; [by exists l2|]. eapply rch_trans; [by exists l3|by exists l4]. }
    intros [tk1 errs1] s2 H2 Hst2 Ha2. cbn in Ha2. destruct tk1; [|by apply wp_ret].
    apply wp_bind, wp_cur_span. apply (lcall (mends t)); [done..|]. intros r s4 H4 Hst4 Hx Hf.
    unfold value, errors_of in Hx, Hf. destruct (unres r) as [o e]; cbn in Hx, Hf.
    assert (Ha4 : acc (errs1 ++ e) s0 (many t (xs ++ option_list o)) s4).
    { destruct o as [y|]; cbn.
      - eapply acc_app; [exact Ha2|by apply Hx|intros; by apply many_snoc|done].
      - rewrite app_nil_r. eapply acc_then; [exact Ha2|by apply acc_fail; auto|done]. }
    apply wp_bind, wp_cur_span. case_match.
    - apply wp_ret. cbn. eapply acc_mono; [exact Ha4|done|solve_submseteq].
    - apply IH; [|done..]. do 2 (eapply rch_trans; [eassumption|]). done.
  Qed.
  Lemma produce_loop_leaf t p set n : good (mends t) p → leafp (λ x, many t x.2) (produce_loop n p set).
  Proof.
    intros Hp s Hst. unfold produce_loop. eapply lbind; [done|apply (loop_leaf t p set n Hp _ _ s); [apply rch_refl|done|]|].
    { apply acc_refl, many_nil. }
    intros [l errs] s1 H1 Hst1 Ha. cbn in Ha. destruct (head l), (last l); cbn [mbind].
    1: apply wp_bind, wp_ret.
    2-4: apply wp_bind, wp_empty_span.
    all: by apply (lret (λ x, many t x.2)).
  Qed.

  (** What is left out while looking for an element, since [s0]. *)
  Definition gone (panic : option perr) (s0 s : ast) : Prop :=
    over s ∨ match panic with Some e => cov e s0 s | None => False end.
  Definition inv (panic : option perr) (s0 s : ast) : Prop := gone panic s0 s ∨ (panic = None ∧ adv s0 [] s).
  Lemma gone_acc panic s0 s (R : list kept → Prop) : st s0 → rch s0 s → gone panic s0 s → R [] → acc (option_list panic) s0 R s.
  Proof. intros Hst H [Hi|Hi] HR; [by apply acc_over|]. destruct panic as [e|]; [by apply acc_drop|done]. Qed.
  Lemma inv_acc panic s0 s (R : list kept → Prop) : st s0 → rch s0 s → inv panic s0 s → R [] → acc (option_list panic) s0 R s.
  Proof. intros Hst H [Hi|[-> Hi]] HR; [by apply gone_acc|by apply acc_nil]. Qed.
  Lemma gone_to panic s0 s s' : st s → rch s s' → gone panic s0 s → gone panic s0 s'.
  Proof. intros Hst H [Hi|Hi]; [left; by eapply over_to|right]. destruct panic; [by eapply cov_to|done]. Qed.
  Lemma gone_from panic s s0 s' : st s → rch s s0 → gone panic s0 s' → gone panic s s'.
  Proof. intros Hst H [Hi|Hi]; [by left|right]. destruct panic; [by eapply cov_from|done]. Qed.
  (** An element failed. *)
  Lemma inv_fail panic es s0 s s' : st s0 → st s → rch s0 s → rch s s' → inv panic s0 s → atl N es s' → gone (merge_panic panic es) s0 s'.
  Proof.
    intros Hst0 Hst H0 H Hi [[H1 H2]|(e & He & H2)]; [by left|]. unfold merge_panic. rewrite He.
    destruct Hi as [[Hi|Hi]|[-> Hi]]; [left; by eapply over_to|right; destruct panic as [p|]; [|done]; by eapply cov_to in Hi|].
    right. apply cov_here; [done|by eapply rch_trans|]. by rewrite H2.
  Qed.
  (** No element starts here. *)
  Lemma inv_here panic s0 s e : st s0 → rch s0 s → (panic = None → sp_lo (e_span e) = sp_lo (a_span s)) → inv panic s0 s →
    gone (Some (match panic with Some p => set_hi p (sp_hi (a_span s)) | None => e end)) s0 s.
  Proof.
    intros Hst0 H0 He Hi. destruct Hi as [[Hi|Hi]|[-> Hi]]; [by left|right; by destruct panic|]. right. by apply cov_here; auto.
  Qed.

  Lemma inv_first s0 s e : st s0 → rch s0 s → sp_lo (e_span e) = sp_lo (a_span s) → gone (Some e) s0 s.
  Proof. intros Hst0 H0 He. right. by apply cov_here. Qed.

  Lemma split_inner_leaf t pT ef pf fol n : good (mends t) pT → ∀ panic errs s0 s, rch s0 s → st s0 → st s → inv panic s0 s →
    W (split_inner n pT ef pf fol panic errs) s (λ q s', ∃ e, q.1.2 = errs ++ e ∧
      match q.1.1 with Some x => acc e s0 (mends t x) s' | None => ∃ panic, e = option_list panic ∧ gone panic s0 s' end).
  Proof.
    intros Hp. induction n as [|n IH]; intros panic errs s0 s H0 Hst0 Hst Hi; [done|]. cbn [split_inner].
    apply wp_bind, wp_peek_src; [by apply ok|].
    eapply (lbind _ _ _ (λ q s', match q with inl (y0, es) => ∃ e, es = errs ++ e ∧ acc e s0 (mends t y0) s' | inr (_, panic') => gone panic' s0 s' end)); [done| |].
    - destruct (ts_contains ef (look s) || ts_contains_e ef).
      + apply (lcall (mends t)); [done..|]. intros r s2 H2 Hst2 Hx Hf. unfold value, errors_of in Hx, Hf. destruct (unres r) as [[y|] e]; cbn in Hx, Hf.
        * apply wp_ret. eexists. split; [done|]. eapply (acc_before (option_list panic) e); [by apply inv_acc|by apply Hx|solve_submseteq].
        * apply wp_bind, wp_peek_src; [by apply ok|]. apply wp_ret. apply (inv_fail panic e s0 s); auto.
      + destruct panic as [p|].
        * apply wp_bind, wp_cur_span, wp_ret. by apply (inv_here (Some p) s0 s p).
        * apply wp_bind, wp_expecting, wp_ret. by apply inv_first.
    - intros [[y0 es]|[tk' panic']] s2 H2 Hst2 Hq.
      + apply wp_ret. done.
      + destruct (ts_contains pf tk'); [apply wp_ret; cbn; by eauto|].
        destruct (_ || _); [apply wp_ret; cbn; by eauto|].
        eapply (lbind _ _ _ (λ _ _, True)); [done|apply wp_true|]. intros a s3 H3 Hst3 _. apply IH; [|done..|].
        * do 2 (eapply rch_trans; [eassumption|]). done.
        * left. eapply gone_to; [|eassumption|eassumption]; done.
  Qed.
  Lemma split_outer_leaf t d pT pP ef pf fol n : good (mends t) pT → good (mends d) pP → ∀ xs ps errs s0 s, rch s0 s → st s →
    acc errs s0 (alt env t d xs ps) s →
    W (split_outer n pT pP ef pf fol xs ps errs) s (λ q s', acc q.2 s0 (alt env t d q.1.1 q.1.2) s').
  Proof.
    intros HT HP. induction n as [|n IH]; intros xs ps errs s0 s H0 Hst Ha; [done|]. cbn [split_outer].
    apply wp_bind, wp_peek_src; [by apply ok|].
    destruct (look s) as [x|]; [destruct (ts_contains pf (Some x))|]; [|by apply wp_ret..].
    apply (lcall (mends d)); [done..|]. intros r s2 H2 Hst2 Hx Hf. unfold value, errors_of in Hx, Hf. destruct (unres r) as [[p|] e]; cbn in Hx, Hf.
    2:{ apply wp_ret. cbn. eapply acc_then; [exact Ha|by apply acc_fail; auto|done]. }
    eapply lbind; [done|apply (split_inner_leaf t pT ef pf fol n HT _ _ s2); [apply rch_refl|done..|]|].
    { right. split; [done|apply adv_refl]. }
    intros [[o errs'] cont] s3 H3 Hst3 (d' & He & Ho). cbn [fst snd] in He, Ho. subst errs'.
    assert (Ha3 : acc ((errs ++ e) ++ d') s0 (alt env t d (xs ++ option_list o) (match o with Some _ => ps ++ [p] | None => ps end)) s3).
    { destruct o as [y|].
      - change (option_list (Some y)) with [y].
        eapply (acc_app errs (e ++ d') _ _ s _ _ (λ k, ∃ k2 k3, k = k2 ++ k3 ∧ mends d p k2 ∧ mends t y k3));
          [exact Ha| |intros k1 ? H (k2 & k3 & -> & Hp & Hy); by apply alt_snoc|by rewrite (assoc_L (++))].
        eapply (acc_app e d'); [by apply Hx|exact Ho|by eauto 10|done].
      - change (option_list None) with (@nil tree). rewrite app_nil_r. destruct Ho as (panic & -> & Hg).
        eapply (acc_then errs (option_list panic)); [exact Ha| |solve_submseteq]. apply gone_acc; [done|by eapply rch_trans| |done].
        eapply gone_from; [|eassumption|eassumption]; done. }
    destruct cont; [|by apply wp_ret]. apply IH; [|done..].
    do 2 (eapply rch_trans; [eassumption|]). done.
  Qed.
  Lemma produce_split_leaf t d pT pP ef pf fol n : good (mends t) pT → good (mends d) pP → leafp (mends (TSplit t d)) (produce_split n pT pP ef pf fol).
  Proof.
    intros HT HP s Hst. unfold produce_split. apply (lcall (mends t)); [done..|]. intros r s1 H1 Hst1 Hx _. unfold value, errors_of in Hx.
    destruct (unres r) as [[y|] e]; cbn in Hx; [|by apply wp_ret].
    eapply lbind; [done|apply (split_outer_leaf t d pT pP ef pf fol n HT HP _ _ _ s); [done..|]|].
    { cbn. eapply acc_mono; [by apply Hx| |done]. intros k Hk. split; [done|]. by apply mendss_one. }
    intros [[a b] errs] s2 _ _ Ha. cbn in Ha. apply (lret (mends (TSplit t d))). eapply acc_mono; [exact Ha| |done].
    intros k [Hl Hk]. by constructor.
  Qed.

  Lemma punct_inner_leaf t pT ef pf fol n : good (mends t) pT → ∀ panic errs s0 s, rch s0 s → st s0 → st s → inv panic s0 s →
    W (punct_inner n pT ef pf fol panic errs) s (λ q s', ∃ e, q.1.2 = errs ++ e ∧
      match q.1.1 with Some x => acc e s0 (mends t x) s' | None => ∃ panic, e = option_list panic ∧ inv panic s0 s' end).
  Proof.
    intros Hp. induction n as [|n IH]; intros panic errs s0 s H0 Hst0 Hst Hi; [done|]. cbn [punct_inner].
    apply wp_bind, wp_peek_src; [by apply ok|]. destruct (look s) as [x|]; [|apply wp_ret; cbn; by eauto].
    destruct (negb _ && _); [apply wp_ret; cbn; by eauto|].
    eapply (lbind _ _ _ (λ q s', match q with inl (y0, es) => ∃ e, es = errs ++ e ∧ acc e s0 (mends t y0) s' | inr panic' => gone panic' s0 s' end)); [done| |].
    - destruct (ts_contains ef (Some x)).
      + apply (lcall (mends t)); [done..|]. intros r s2 H2 Hst2 Hx Hf. unfold value, errors_of in Hx, Hf. destruct (unres r) as [[y|] e]; cbn in Hx, Hf.
        * apply wp_ret. eexists. split; [done|]. eapply (acc_before (option_list panic) e); [by apply inv_acc|by apply Hx|solve_submseteq].
        * apply wp_ret. apply (inv_fail panic e s0 s); auto.
      + apply wp_bind, wp_cur_span, wp_ret. destruct panic as [p|]; [by apply (inv_here (Some p) s0 s p)|by apply inv_first].
    - intros [[y0 es]|panic'] s2 H2 Hst2 Hq.
      + apply wp_ret. done.
      + apply wp_bind, wp_peek_src; [by apply ok|].
        assert (inv panic' s0 s2) by (by left).
        destruct (ts_contains pf (look s2)); [apply wp_ret; cbn; by eauto|].
        destruct (_ || _); [apply wp_ret; cbn; by eauto|].
        eapply (lbind _ _ _ (λ _ _, True)); [done|apply wp_true|]. intros a s3 H3 Hst3 _. apply IH; [|done..|].
        * do 2 (eapply rch_trans; [eassumption|]). done.
        * left. eapply gone_to; [|eassumption|eassumption]; done.
  Qed.
  Lemma punct_outer_leaf t d pT pP ef pf fol n : good (mends t) pT → good (mends d) pP → ∀ xs ps errs s0 s, rch s0 s → st s →
    acc errs s0 (pun env t d xs ps) s →
    W (punct_outer n pT pP ef pf fol xs ps errs) s (λ q s', acc q.2 s0 (pun env t d q.1.1 q.1.2) s').
  Proof.
    intros HT HP. induction n as [|n IH]; intros xs ps errs s0 s H0 Hst Ha; [done|]. cbn [punct_outer].
    apply wp_bind, wp_peek_src; [by apply ok|].
    destruct (look s) as [x|]; [destruct (ts_contains pf (Some x))|]; [|by apply wp_ret..].
    apply (lcall (mends d)); [done..|]. intros r s2 H2 Hst2 Hx Hf. unfold value, errors_of in Hx, Hf. destruct (unres r) as [[p|] e]; cbn in Hx, Hf.
    2:{ apply wp_ret. cbn. eapply acc_then; [exact Ha|by apply acc_fail; auto|done]. }
    eapply lbind; [done|apply (punct_inner_leaf t pT ef pf fol n HT _ _ s2); [apply rch_refl|done..|]|].
    { right. split; [done|apply adv_refl]. }
    intros [[o errs'] cont] s3 H3 Hst3 (d' & He & Ho). cbn [fst snd] in He, Ho. subst errs'.
    assert (Ha3 : acc ((errs ++ e) ++ d') s0 (pun env t d (xs ++ option_list o) (ps ++ [p])) s3).
    { eapply (acc_app errs (e ++ d') _ _ s _ _ (λ k, ∃ k2 k3, k = k2 ++ k3 ∧ mends d p k2 ∧ match o with Some y => mends t y k3 | None => k3 = [] end));
        [exact Ha| |intros k1 ? H (k2 & k3 & -> & Hp & Hy); by apply pun_snoc|by rewrite (assoc_L (++))].
      destruct o as [y|].
      - eapply (acc_app e d'); [by apply Hx|exact Ho|by eauto 10|done].
      - destruct Ho as (panic & -> & Hg).
        eapply (acc_then e (option_list panic) _ _ s2); [|by apply inv_acc|done]. eapply acc_mono; [by apply Hx| |done].
        intros k Hk. exists k, []. by rewrite app_nil_r. }
    destruct cont; [|by apply wp_ret]. apply IH; [|done..].
    do 2 (eapply rch_trans; [eassumption|]). done.
  Qed.
  Lemma produce_punct_leaf t d pT pP ef pf fol n : good (mends t) pT → good (mends d) pP → leafp (mends (TPunct t d)) (produce_punct n pT pP ef pf fol).
  Proof.
    intros HT HP s Hst. unfold produce_punct. apply (lcall (mends t)); [done..|]. intros r s1 H1 Hst1 Hx _. unfold value, errors_of in Hx.
    destruct (unres r) as [[y|] e]; cbn in Hx; [|by apply wp_ret].
    eapply lbind; [done|apply (punct_outer_leaf t d pT pP ef pf fol n HT HP _ _ _ s); [done..|]|].
    { eapply acc_mono; [by apply Hx| |done]. intros k Hk. exists y, []. split_and!; [done..|]. by apply mendss_one. }
    intros [[a b] errs] s2 _ _ Ha. cbn in Ha. apply (lret (mends (TPunct t d))). eapply acc_mono; [exact Ha| |done].
    intros k (x & gs & -> & -> & H). by constructor.
  Qed.

  (** [s0]: where the part left out before the tail begins. *)
  Lemma recover_leaf t pR tf n : good (mends t) pR → ∀ panic errs s0 s, rch s0 s → st s0 → st s → inv panic s0 s →
    W (recover_loop n pR tf panic errs) s (λ q s', ∃ e, q.2 = errs ++ e ∧
      match q.1.1 with Some x => acc (e ++ option_list q.1.2) s0 (mends t x) s' | None => True end).
  Proof.
    intros Hp. induction n as [|n IH]; intros panic errs s0 s H0 Hst0 Hst Hi; [done|]. cbn [recover_loop].
    apply wp_bind, wp_peek_src; [by apply ok|].
    assert (Hfound : ∀ y e s2, acc e s (mends t y) s2 → acc (e ++ option_list panic) s0 (mends t y) s2).
    { intros y e s2 Hx. eapply (acc_before (option_list panic) e); [by apply inv_acc|exact Hx|solve_submseteq]. }
    destruct (look s) as [x|].
    - eapply (lbind _ _ _ (λ q s', match q with inl (y0, es) => ∃ e, es = errs ++ e ∧ acc (e ++ option_list panic) s0 (mends t y0) s' | inr panic' => inv panic' s0 s' end)); [done| |].
      + destruct (_ || _); [|by apply wp_ret].
        apply (lcall (mends t)); [done..|]. intros r s2 H2 Hst2 Hx Hf. unfold value, errors_of in Hx, Hf. destruct (unres r) as [[y|] e]; cbn in Hx, Hf.
        * apply wp_ret. eexists. split; [done|]. by apply Hfound, Hx.
        * apply wp_ret. left. apply (inv_fail panic e s0 s); auto.
      + intros [[y0 es]|panic'] s2 H2 Hst2 Hq; [by apply wp_ret|]. assert (rch s0 s2) by (by eapply rch_trans).
        eapply (lbind _ _ _ (λ p s', gone (Some p) s0 s')); [done| |].
        { destruct panic' as [p|]; [apply wp_bind, wp_cur_span, wp_ret|apply wp_expecting]; [by apply (inv_here (Some p) s0 s2 p)|by apply inv_first]. }
        intros p s3 H3 Hst3 Hg. eapply (lbind _ _ _ (λ _ _, True)); [done|apply wp_true|]. intros a s4 H4 Hst4 _. apply IH; [|done..|].
        * do 2 (eapply rch_trans; [eassumption|]). done.
        * left. eapply gone_to; [|eassumption|eassumption]; done.
    - destruct (ts_contains_e tf); [|apply wp_ret; exists []; by rewrite app_nil_r].
      apply (lcall (mends t)); [done..|]. intros r s2 H2 Hst2 Hx _. unfold value, errors_of in Hx. destruct (unres r) as [[y|] e]; cbn in Hx.
      + apply wp_ret. eexists. split; [done|]. by apply Hfound, Hx.
      + apply wp_ret; exists []; by rewrite app_nil_r.
  Qed.
  Lemma produce_recover_leaf t d pT pR hf tf n : good (mends t) pT → good (mends d) pR → leafp (mends (TRecover t d)) (produce_recover n pT pR hf tf).
  Proof.
    intros HT HR s Hst. unfold produce_recover. apply wp_bind, wp_peek_src; [by apply ok|].
    eapply (lbind _ _ _ (λ q s', match q.1.2 with Some x => q.1.1.1 = None ∧ acc q.2 s (mends t x) s' | None => q.2 = [] ∧ inv q.1.1.1 s s' end)); [done| |].
    { destruct (_ || _).
      - apply (lcall (mends t)); [done..|]. intros r s2 H2 Hst2 Hx Hf. unfold value, errors_of in Hx, Hf. destruct (unres r) as [[y|] e]; cbn in Hx, Hf.
        + apply wp_ret. cbn. auto.
        + apply wp_bind, wp_empty_span, wp_ret. cbn. split; [done|]. left.
          assert (Hm : last e = merge_panic None e) by (unfold merge_panic; by destruct (last e)). rewrite Hm.
          apply (inv_fail None e s s); auto using rch_refl. right. split; [done|apply adv_refl].
      - apply wp_bind, wp_expecting, wp_bind, wp_empty_span, wp_ret. cbn. split; [done|]. left. right. apply cov_here; [done|apply rch_refl|done]. }
    intros [[[panic hsp] hd] errs] s2 H2 Hst2 Ha. cbn in Ha. destruct hd as [x|]; destruct Ha as [-> Ha].
    - eapply lbind; [done|apply (recover_leaf d pR tf n HR _ _ s2); [apply rch_refl|done..|]|].
      { right. split; [done|apply adv_refl]. }
      intros [[tl panic'] errs'] s3 H3 Hst3 (e' & He & Hq). cbn in He, Hq. subst errs'. destruct tl as [y|]; [|by apply wp_ret].
      apply (lret (mends (TRecover t d))). eapply (acc_app errs (e' ++ option_list panic')); [exact Ha|exact Hq| |by rewrite (assoc_L (++))].
      intros k1 k2 Hk1 Hk2. apply m_recover; constructor; [done|by apply mendss_one].
    - eapply lbind; [done|apply (recover_leaf d pR tf n HR _ _ s); [done..]|].
      intros [[tl panic'] errs'] s3 H3 Hst3 (e' & He & Hq). cbn in He, Hq. subst errs'. destruct tl as [y|]; [|by apply wp_ret].
      apply (lret (mends (TRecover t d))). eapply acc_mono; [exact Hq|by apply m_headless|done].
  Qed.

  Lemma produce_leaf f t : within env root t → good (mends t) (produce f t).
  Proof.
    revert t. induction f as [|f IH]; intros t Hw; [done|].
    assert (Hlast : ∀ g c, within env root c → lastp N (produce g c)).
    { intros g c Hc s0 Hok0. eapply wp_mono; [by apply produce_last|]. intros r s' H Hr. eapply atl_mono; [|by apply H].
      intros Hn u Hu. apply Hn. by eapply rtc_transitive. }
    split; [|by apply Hlast]. intros s Hst.
    assert (Hsub : ∀ c, c ∈ subs env t → good (mends c) (produce f c)).
    { intros c Hc. apply IH. eapply rtc_r; [exact Hw|done]. }
    assert (Hok := ok _ Hst).
    destruct t as [n y lit|n|ts|t|t|t|t|t|t|t|t|t d|t d|t r]; cbn [ProduceModel.produce].
    - (* terminal *)
      apply wp_bind.
      assert (Htake : ∀ t r, a_rest s = t :: r → t_ty t = y → lit = None ∨ lit = Some (default ""%string (text_of src t)) →
        acc [] s (mends (TTok n y lit) (TrTok t)) (pop s)).
      { intros t r E Hy Hlit. destruct (pop_adv1 _ _ _ E) as [Hp _]. exists [t], [(t, default ""%string (text_of src t))], [].
        split_and!; [done|by constructor| |done]. apply ed_take, ed_nil. }
      destruct lit as [lit|].
      + assert (Hins : ts_contains (follow (key (TTok n y (Some lit)))) (look s) = true → look s ≠ Some (y, lit) →
          acc [PErr (a_span s) (Expecting (fs_one y (Some lit)))] s
            (mends (TTok n y (Some lit)) (TrTok (Token (match a_rest s with [] => a_span s | _ => Span (pos s) (pos s) end) y))) s).
        { intros H1 H2. eexists [], [(_, lit)], [_]. split_and!; [apply adv_refl|constructor; [done|by right]| |done]. apply ed_ins; [|apply ed_nil].
          exists n, y. split; [done|]. cbn [fst snd]. destruct Hst as [Hs Ha]. unfold inserted. rewrite <- Ha, drop_app.
          assert (Hh : head (word src (a_rest s)) = look s).
          { unfold look, word, text_of. rewrite Hs. by destruct (a_rest s). }
          rewrite Hh. split_and!; [done|done| |].
          - rewrite <- pos_toks. f_equal. unfold a_span. rewrite Hs. by destruct (a_rest s).
          - unfold at_next, a_span. rewrite Hs. destruct (a_rest s); set_solver. }
        apply wp_parse_token_lit; [done|]. unfold a_span in Hins. destruct (a_rest s) as [|t r] eqn:Er.
        * assert (Hn : look s = None) by (by apply look_none). rewrite Hn in Hins.
          change (ts_contains ?a None) with (ts_contains_e a) in Hins.
          destruct (ts_contains_e _); apply wp_ret; [|done]. intros x [= <-]. by apply Hins.
        * destruct (decide (look s = Some (y, lit))) as [Hlk|Hlk].
          -- apply wp_ret. intros x [= <-]. assert (Hlk' := Hlk). unfold look in Hlk'. rewrite Er in Hlk'. destruct Hst as [Hs _]. rewrite Hs in Hlk'. cbn in Hlk'.
             eapply Htake; [done|by injection Hlk'|]. right. unfold text_of. by injection Hlk' as _ ->.
          -- destruct (ts_contains _ _); apply wp_ret; [|done]. intros x [= <-]. by apply Hins.
      + apply wp_parse_token. destruct (a_rest s) as [|t r] eqn:Er; [by apply wp_ret|].
        case_decide as Hy; apply wp_ret; [|done]. intros x [= <-]. eapply Htake; [done|done|by left].
    - destruct (env !! n) as [[fs|vs]|] eqn:En; [| |done].
      + (* struct *)
        eapply lbind; [done|apply (seq_leaf _ _); [|apply rch_refl|done|apply acc_refl, ms_nil]|].
        { intros c Hc. apply Hsub. cbn. by rewrite En. }
        intros r s1 H1 Hst1 Hx. unfold value, errors_of in Hx. destruct (unres r) as [[xs|] e]; cbn in Hx; [|by apply wp_ret].
        eapply lbind; [done|apply apply_fields_adv|]. intros ? s2 H2 Hst2 Hadv. apply (lret (mends (TNamed n))).
        eapply acc_still; [|exact Hadv]. eapply acc_mono; [by apply Hx| |done].
        intros k Hk. by eapply m_struct.
      + (* enum *)
        apply wp_bind, wp_peek_src; [done|].
        destruct (_ ≫= _) as [[i [t' sem]]|] eqn:Ei; [|by apply wp_bind, wp_expecting, wp_ret].
        assert (vs !! i = Some (t', sem)) as Hi.
        { destruct (jump (key (TNamed n)) (look s)) as [i'|]; [|done]. cbn in Ei.
          destruct (vs !! i') eqn:E; [|done]. cbn in Ei. injection Ei as -> ->. done. }
        assert (Ht' : t' ∈ subs env (TNamed n)).
        { cbn. rewrite En. cbn. assert (Hi' := Hi). apply elem_of_list_lookup_2 in Hi'.
          apply elem_of_list_In, (in_map fst), elem_of_list_In in Hi'. done. }
        apply (lcall (mends t')); [by apply Hsub|done|]. intros r s2 H2 Hst2 Hx _.
        assert (Hfin : ∀ s3, adv s2 [] s3 → ∀ x, value (res_map (TrVar i) r) = Some x → acc (errors_of (res_map (TrVar i) r)) s (mends (TNamed n) x) s3).
        { intros s3 H3 x. unfold value, errors_of in *. rewrite unres_map. destruct (unres r) as [[z|] e]; cbn in *; [|done]. intros [= <-].
          eapply acc_still; [|exact H3]. eapply acc_mono; [by apply Hx|intros; by eapply m_enum|done]. }
        destruct r as [x|x es|es], sem; try apply wp_bind, wp_apply; apply wp_ret, Hfin; eauto using adv_refl, mark_adv.
    - (* tuple *)
      eapply lbind; [done|apply (seq_leaf _ _); [|apply rch_refl|done|apply acc_refl, ms_nil]|].
      { intros c Hc. apply Hsub. done. }
      intros r s1 H1 Hst1 Hx. apply wp_ret. unfold value, errors_of in *. rewrite unres_map. 
      destruct (unres r) as [[xs|] e]; cbn in *; [|done]. intros z [= <-]. eapply acc_mono; [by apply Hx| |done].
      intros k Hk. by constructor.
    - (* box *)
      assert (Hc : t ∈ subs env (TBox t)) by (cbn; set_solver). eapply wp_mono; [by apply (proj1 (Hsub t Hc))|]. cbn. intros r s' H x Hx. eapply acc_mono; [by apply H|by constructor|done].
    - (* option *)
      eapply lmap; [apply option_leaf, Hsub; cbn; set_solver| |done].
      intros [sp [x|]] k; cbn; intros H; [destruct H as [-> H]; by constructor|]. subst. constructor.
    - (* exists *)
      eapply lmap; [apply option_leaf, Hsub; cbn; set_solver| |done].
      intros [sp [x|]] k; cbn; intros H; [destruct H as [-> H]; by constructor|]. subst. constructor.
    - (* quote *)
      apply (lcall (mends t)); [apply Hsub; cbn; set_solver|done|]. intros r s1 H1 Hst1 Hx _. unfold value, errors_of in Hx.
      destruct r as [x|x es|es]; [| |by apply wp_ret]; cbn in Hx.
      all: apply wp_get_any; intros str; apply wp_ret; intros z [= <-];
        eapply acc_mono; [by apply Hx|by constructor|done].
    - (* parse *)
      apply (lcall (mends t)); [apply Hsub; cbn; set_solver|done|]. intros r s1 H1 Hst1 Hx _. unfold value, errors_of in Hx.
      destruct r as [x|x es|es]; [| |by apply wp_ret]; cbn in Hx.
      all: apply wp_get_any; intros str; apply wp_ret; intros z [= <-];
        eapply acc_mono; [by apply Hx|by constructor|done].
    - (* plus *)
      eapply lmap; [apply plus_leaf, Hsub; cbn; set_solver| |done]. intros [sp l] k [Hne Hk]. cbn in *. destruct l; [done|]. by constructor.
    - (* star *)
      eapply lmap; [apply option_leaf, plus_leaf, Hsub; cbn; set_solver| |done].
      intros [sp [[sp' l]|]] k; cbn; [intros (_ & _ & Hk); by constructor|]. intros ->. constructor. constructor.
    - (* loop *)
      eapply lmap; [apply produce_loop_leaf, Hsub; cbn; set_solver| |done]. intros [sp l] k Hk. by constructor.
    - apply produce_split_leaf; [apply Hsub; cbn; set_solver..|done].
    - apply produce_punct_leaf; [apply Hsub; cbn; set_solver..|done].
    - apply produce_recover_leaf; [apply Hsub; cbn; set_solver..|done].
  Qed.
End leaf.

Lemma edit_run extract env first follow jump f t s r s' x l : state_ok s →
  run extract (produce env first follow jump f t) s = ODone r s' → value r = Some x → took extract s l s' →
  ∃ ks es, mends env t x ks ∧
    edits (p_src s) (all_tokens extract s) (RepairSpec.missing env follow t (p_src s) (all_tokens extract s)) (¬ no_recover env t) (consumed s) l ks es ∧
    es ⊆+ errors_of r.
Proof.
  intros Hok Hr Hx Hl. destruct (abs_st extract s Hok) as [H1 H2].
  destruct (produce_leaf env first follow jump t (p_src s) (all_tokens extract s) H1 f t (rtc_refl _ _)) as [Hp _].
  assert (Hq := run_wp extract _ _ _ _ _ _ _ (Hp _ H2) Hr). destruct (Hq x Hx) as (l' & ks & ds & Ha & Hy & He & Hd).
  apply took_adv in Hl. rewrite (adv_inj _ _ _ _ Hl Ha). eauto.
Qed.
Lemma edit_parse extract env f root md s o s' x l : state_ok s →
  run extract (parse env f root (inr md)) s = ODone o s' → o = inr (Some x) → took extract s l s' →
  ∃ ks es, mends env root x ks ∧
    edits (p_src s) (all_tokens extract s) (RepairSpec.missing env (tb_get (md_follow md)) root (p_src s) (all_tokens extract s))
      (¬ no_recover env root) (consumed s) l ks es ∧
    es ⊆+ p_errors s'.
Proof.
  intros Hok H -> Hl. apply parse_run in H as (x' & [= <-] & H). apply parse_with_run in H as (r & s1 & H & Hx & _ & He & Ha).
  apply took_adv in Hl. rewrite Ha in Hl. apply took_adv in Hl.
  destruct (edit_run _ _ _ _ _ _ _ _ _ _ x l Hok H (eq_sym Hx) Hl) as (ks & es & Hy & Hk & Hs). exists ks, es. split_and!; [done..|].
  rewrite He. etrans; [exact Hs|]. by apply submseteq_inserts_l.
Qed.

(** Without errors everything is kept. *)
Lemma ed_clean src all ins (lost : Prop) pre l ks : ¬ lost → edits src all ins lost pre l ks [] → ks = map (λ t, (t, default ""%string (text_of src t))) l.
Proof.
  intros Hn H. remember [] as es eqn:E. revert E.
  induction H as [pre|pre t l ks ds _ IH|pre k e l ks ds Hk _ IH|pre g e l ks ds Hg Hr _ IH|pre g l ks ds Hl He _ IH]; intros E; [done| |done..].
  cbn. by rewrite IH.
Qed.
Lemma edit_clean extract env f root md s o s' x l : state_ok s → no_recover env root →
  run extract (parse env f root (inr md)) s = ODone o s' → o = inr (Some x) → p_errors s' = [] → took extract s l s' →
  mends env root x (map (λ t, (t, default ""%string (text_of (p_src s) t))) l).
Proof.
  intros Hok Hn H Ho He Hl. destruct (edit_parse _ _ _ _ _ _ _ _ _ _ Hok H Ho Hl) as (ks & es & Hm & Hk & Hs).
  rewrite He in Hs. apply submseteq_nil_r in Hs as ->. apply ed_clean in Hk; [|auto]. by rewrite <- Hk.
Qed.
