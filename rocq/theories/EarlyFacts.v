(** Two runs on inputs that agree up to a token: an error recorded in one at or before that
    token means that the other one records an error as well. *)
From Coq Require Import String NArith.
From stdpp Require Import prelude list strings relations.
From Verif Require Import LexModel LexSpec LexFacts SynSetModel TableModel StreamModel StreamSpec StreamFacts
  TypeModel ProduceModel CfgSpec ParseSpec TypeFacts ProgFacts TreeFacts SoundFacts RunFacts InvFacts.
Local Open Scope nat_scope.
#[local] Arguments ts_contains : simpl never.
#[local] Arguments ts_contains_e : simpl never.

Lemma app_ne {A} (a b : list A) : a ++ b ≠ [] ↔ a ≠ [] ∨ b ≠ [].
Proof. destruct a, b; naive_solver. Qed.
Lemma last_ne {A} (l : list A) : option_list (last l) ≠ [] ↔ l ≠ [].
Proof. destruct (last l) eqn:E; [|by apply last_None in E as ->]. cbn. split; [|done]. by intros _ ->. Qed.

Section early.
  Variable tk : token.
  Notation b := (sp_hi (t_span tk)).
  Notation W := (wp True True).

  Definition early (es : list perr) : Prop := Exists (λ e, sp_lo (e_span e) < b) es.
  Lemma early_app e1 e2 : early (e1 ++ e2) ↔ early e1 ∨ early e2.
  Proof. apply Exists_app. Qed.
  Lemma early_nil : early [] ↔ False.
  Proof. apply Exists_nil. Qed.
  Lemma early_one e : early [e] ↔ sp_lo (e_span e) < b.
  Proof. unfold early. rewrite Exists_cons, Exists_nil. tauto. Qed.
  Lemma early_last es : early (option_list (last es)) → early es.
  Proof.
    destruct (last es) as [e|] eqn:E; [|by intros ?%early_nil]. apply last_Some in E as [l ->].
    rewrite early_app. by right.
  Qed.
  Lemma early_set_hi e hi : sp_lo (e_span (set_hi e hi)) = sp_lo (e_span e).
  Proof. done. Qed.
  Lemma early_merge p es : early (option_list (merge_panic p es)) → early (option_list p) ∨ early es.
  Proof.
    unfold merge_panic. assert (H := early_last es). destruct (last es) as [e|]; [|auto].
    destruct p as [p|]; cbn [option_list option_rect] in *; [|auto]. rewrite !early_one, early_set_hi. auto.
  Qed.
  Lemma merge_ne p es : option_list p ≠ [] ∨ es ≠ [] → option_list (merge_panic p es) ≠ [].
  Proof.
    intros H. destruct (merge_some p es) as [e ->]; [|done]. destruct H as [H|H]; [|auto]. left. destruct p; [eauto|done].
  Qed.

  (** The tokens up to and including [tk] are consumed. *)
  Definition past (s : ast) : Prop := aok s ∧ b ≤ pos s.
  Lemma pos_le s l s' : aok s → adv s l s' → pos s ≤ pos s'.
  Proof.
    intros Hok Hl. rewrite (adv_pos _ _ _ Hl). apply (end_pos_ge (String.length (a_src s))). by apply (adv_spans _ _ s').
  Qed.
  Lemma past_adv s l s' : past s → adv s l s' → past s'.
  Proof. intros [H1 H2] Hl. split; [by eapply adv_aok|]. assert (H := pos_le _ _ _ H1 Hl). lia. Qed.
  Lemma cur_ge s : aok s → pos s ≤ sp_lo (a_span s).
  Proof.
    intros Hok. destruct (aok_pos _ Hok) as [H1 H2]. unfold a_span. destruct (a_rest s) as [|t r]; [done|]. cbn in H1. lia.
  Qed.
  Lemma past_cur s e : past s → sp_lo (e_span e) = sp_lo (a_span s) → ¬ early [e].
  Proof. intros [H1 H2] E. rewrite early_one, E. assert (H := cur_ge s H1). lia. Qed.

  Lemma wp_past {A} (p : M A) (Φ : A → ast → Prop) s (Q : A → ast → Prop) :
    W p s Φ → past s → (∀ a s', past s' → Φ a s' → Q a s') → W p s Q.
  Proof.
    unfold wp. destruct (arun p s) as [| |a s'] eqn:E; [done..|]. intros H Hok HQ.
    destruct (arun_adv _ _ _ _ E) as [l Hl]. eapply HQ; [by eapply past_adv|done].
  Qed.
  Lemma past_pop s : past s → past (pop s).
  Proof. intros H. eapply past_adv; [done|apply pop_adv]. Qed.
  Lemma past_aok s : past s → aok s.
  Proof. by intros [? _]. Qed.
  Hint Resolve past_aok past_pop : core.

  (** No early errors are added, errors do not vanish; if [strict], early ones do not either. *)
  Variable strict : bool.
  Definition grow (ein eout : list perr) : Prop :=
    (early eout → early ein) ∧ (ein ≠ [] → eout ≠ []) ∧ (strict = true → early ein → early eout).
  Lemma grow_refl e : grow e e.
  Proof. done. Qed.
  Lemma grow_trans e1 e2 e3 : grow e1 e2 → grow e2 e3 → grow e1 e3.
  Proof. intros (A1 & A2 & A3) (B1 & B2 & B3). split; [auto|]. split; auto. Qed.
  Lemma grow_app e e' : ¬ early e' → grow e (e ++ e').
  Proof. intros H. unfold grow. rewrite early_app, app_ne. tauto. Qed.

  Lemma grow_set_hi p hi : grow [p] [set_hi p hi].
  Proof. unfold grow. by rewrite !early_one, early_set_hi. Qed.
  Lemma grow_new s e : past s → sp_lo (e_span e) = sp_lo (a_span s) → grow [] [e].
  Proof. intros H1 H2. assert (H := past_cur s e H1 H2). unfold grow. by rewrite early_nil. Qed.

  (** * After the token *)
  Definition quiet (p : M (res tree)) : Prop := ∀ s, past s → W p s (λ r _, ¬ early (unres r).2).

  Lemma seq_past rec ts acc errs s : past s → (∀ t, t ∈ ts → quiet (rec t)) →
    W (produce_seq rec ts acc errs) s (λ r _, grow errs (unres r).2).
  Proof.
    revert acc errs s. induction ts as [|t ts IH]; intros acc errs s Hs Hrec; cbn [produce_seq].
    - apply wp_ret. destruct errs; apply grow_refl.
    - apply wp_bind. eapply wp_past; [apply Hrec; [set_solver|done]|done|]. intros r s1 Hs1 Hq.
      cbn beta in Hq; revert Hq; destruct (unres r) as [[x|] e]; cbn [snd]; intros Hq.
      + eapply wp_mono; [apply IH; [done|intros; apply Hrec; set_solver]|]. intros r2 s2 H. cbn beta in H |- *.
        eapply grow_trans; [|exact H]. by apply grow_app.
      + apply wp_ret. by apply grow_app.
  Qed.
  Lemma option_past {X} (p : M (res X)) (sp : X → span) set s : past s →
    (∀ s, past s → W p s (λ r _, ¬ early (unres r).2)) →
    W (produce_option p sp set) s (λ r _, ¬ early (unres r).2).
  Proof.
    intros Hs Hp. unfold produce_option. apply wp_bind, wp_peek_src; [auto|].
    assert (Hnone : W (e ← empty_span; mret (RSucc (e, @None X))) s (λ r _, ¬ early (unres r).2)).
    { apply wp_bind, wp_empty_span, wp_ret. by intros ?%early_nil. }
    destruct (look s) as [x|]; [|done]. destruct (ts_contains set (Some x)); [|done].
    apply wp_bind. eapply wp_past; [by apply Hp|done|]. intros r s1 Hs1 Hq. destruct r; cbn in Hq.
    - by apply wp_ret.
    - by apply wp_ret.
    - by apply wp_bind, wp_empty_span, wp_ret.
  Qed.
  Lemma iter_past p n set acc errs hi s : past s → quiet p →
    W (iter_loop n p set acc errs hi) s (λ '(_, es, _) _, grow errs es).
  Proof.
    intros Hs Hp. revert acc errs hi s Hs. induction n as [|n IH]; intros acc errs hi s Hs; cbn [iter_loop]; [done|].
    apply wp_bind, wp_peek_src; [auto|].
    destruct (look s) as [x|]; [|apply wp_ret, grow_refl]. destruct (ts_contains set (Some x)); [|apply wp_ret, grow_refl].
    apply wp_bind. eapply wp_past; [by apply Hp|done|]. intros r s1 Hs1 Hq.
    cbn beta in Hq; revert Hq; destruct (unres r) as [[y|] e]; cbn [snd]; intros Hq.
    - eapply wp_mono; [by apply IH|]. intros [[xs es] h] s2 H. eapply grow_trans; [|exact H]. by apply grow_app.
    - apply wp_ret. by apply grow_app.
  Qed.
  Lemma plus_past p n set s : past s → quiet p → W (produce_plus n p set) s (λ r _, ¬ early (unres r).2).
  Proof.
    intros Hs Hp. unfold produce_plus. apply wp_bind. eapply wp_past; [by apply Hp|done|]. intros r s1 Hs1 Hq.
    cbn beta in Hq; revert Hq; destruct (unres r) as [[y|] e]; cbn [snd]; intros Hq; [|by apply wp_ret].
    apply wp_bind. eapply wp_past; [by apply iter_past|done|]. intros [[xs es] h] s2 Hs2 [H _].
    apply wp_ret. assert (unres (res_into (Span (tree_lo y) h, xs) es) = (Some (Span (tree_lo y) h, xs), es)) as -> by (by destruct es).
    cbn. auto.
  Qed.
  Lemma unres_into {A} (a : A) es : unres (res_into a es) = (Some a, es).
  Proof. by destruct es. Qed.
  Lemma skip_past n set tk' hi s : past s → W (skip_loop n set tk' hi) s (λ _ _, True).
  Proof. intros _. unfold wp. by destruct (arun _ s). Qed.
  Lemma wp_true {A} (m : M A) s : W m s (λ _ _, True).
  Proof. unfold wp. by destruct (arun m s). Qed.
  Lemma loop_past p n set acc errs s : past s → quiet p →
    W (loop_loop n p set acc errs) s (λ '(_, es) _, grow errs es).
  Proof.
    intros Hs Hp. revert acc errs s Hs. induction n as [|n IH]; intros acc errs s Hs; cbn [loop_loop]; [done|].
    apply wp_bind, wp_peek_src; [auto|].
    destruct (look s) as [x|]; [|apply wp_ret, grow_refl].
    apply wp_bind. apply (wp_past _ (λ '(_, es) _, grow errs es)); [|done|].
    { destruct (ts_contains set (Some x)); [apply wp_ret, grow_refl|].
      apply wp_bind, wp_cur_span. apply wp_bind, wp_consume. apply wp_bind, wp_peek_src; [auto|].
      apply wp_bind. eapply wp_mono; [apply wp_true|]. intros [t1 h] s2 _. apply wp_ret.
      apply grow_app. by eapply past_cur. }
    intros [t1 es1] s1 Hs1 Hg. destruct t1; [|by apply wp_ret].
    apply wp_bind, wp_cur_span. apply wp_bind. eapply wp_past; [by apply Hp|done|]. intros r s2 Hs2 Hq.
    cbn beta in Hq; revert Hq; destruct (unres r) as [o e]; cbn [snd]; intros Hq. apply wp_bind, wp_cur_span.
    destruct (_ =? _).
    - apply wp_ret. eapply grow_trans; [exact Hg|]. rewrite <- (assoc_L (++)). apply grow_app.
      rewrite early_app. intros [?|?]; [done|]. by eapply past_cur in Hs2.
    - eapply wp_mono; [by apply IH|]. intros [xs es] s3 H. eapply grow_trans; [exact Hg|].
      eapply grow_trans; [|exact H]. by apply grow_app.
  Qed.
  Lemma produce_loop_past p n set s : past s → quiet p → W (produce_loop n p set) s (λ r _, ¬ early (unres r).2).
  Proof.
    intros Hs Hp. unfold produce_loop. apply wp_bind. eapply wp_past; [by apply loop_past|done|].
    intros [l es] s1 Hs1 [H _]. apply wp_bind. eapply wp_mono; [apply wp_true|]. intros sp s2 _. apply wp_ret.
    rewrite unres_into. cbn. intros He. apply H in He. by apply early_nil in He.
  Qed.
  Lemma panic_here s (panic : option perr) set : past s →
    W (match panic with Some p => sp ← cur_span; mret (Some (set_hi p (sp_hi sp))) | None => e ← expecting set; mret (Some e) end) s
      (λ p' _, grow (option_list panic) (option_list p')).
  Proof.
    intros Hs. destruct panic as [p|].
    - apply wp_bind, wp_cur_span, wp_ret. apply grow_set_hi.
    - apply wp_bind, wp_expecting, wp_ret. by apply (grow_new s).
  Qed.
  Lemma grow_merge panic e : ¬ early e → grow (option_list panic) (option_list (merge_panic panic e)).
  Proof.
    intros He. split; [intros [?|?]%early_merge; done|]. split; [intros H; apply merge_ne; by left|]. intros _.
    unfold merge_panic. destruct (last e); [|done]. destruct panic; cbn [option_list option_rect]; [|by intros ?%early_nil].
    by rewrite !early_one, early_set_hi.
  Qed.
  Lemma grow_mid errs e p : ¬ early e → grow (errs ++ p) (errs ++ e ++ p) ∧ grow (errs ++ p) (errs ++ p ++ e).
  Proof.
    intros He. unfold grow. rewrite !early_app, !app_ne. tauto.
  Qed.
  Lemma grow_r errs p p' : grow p p' → grow (errs ++ p) (errs ++ p').
  Proof. unfold grow. rewrite !early_app, !app_ne. tauto. Qed.

  Lemma split_inner_past pT n ef pf fol panic errs s : past s → quiet pT →
    W (split_inner n pT ef pf fol panic errs) s (λ '(_, es, _) _, grow (errs ++ option_list panic) es).
  Proof.
    intros Hs HT. revert panic errs s Hs. induction n as [|n IH]; intros panic errs s Hs; cbn [split_inner]; [done|].
    apply wp_bind, wp_peek_src; [auto|]. apply wp_bind.
    apply (wp_past _ (λ step _, match step with
      | inl (_, es) => grow (errs ++ option_list panic) es
      | inr (_, p') => grow (option_list panic) (option_list p') end)); [|done|].
    { destruct (_ || _).
      - apply wp_bind. eapply wp_past; [by apply HT|done|]. intros r s1 Hs1 Hq.
        cbn beta in Hq; revert Hq; destruct (unres r) as [[x|] e]; cbn [snd]; intros Hq.
        + apply wp_ret. by apply grow_mid.
        + apply wp_bind, wp_peek_src; [auto|]. apply wp_ret. by apply grow_merge.
      - destruct panic as [p|].
        + apply wp_bind, wp_cur_span, wp_ret. apply grow_set_hi.
        + apply wp_bind, wp_expecting, wp_ret. by apply (grow_new s). }
    intros [[x es]|[tk' p']] s1 Hs1 H; [by apply wp_ret|].
    destruct (ts_contains pf tk'); [apply wp_ret; by apply grow_r|].
    destruct (_ || _); [apply wp_ret; by apply grow_r|].
    apply wp_bind, wp_consume. eapply wp_mono; [apply IH; auto|]. intros [[o es] c] s2 H2.
    eapply grow_trans; [|exact H2]. by apply grow_r.
  Qed.
  Lemma split_outer_past pT pP n ef pf fol elems puncts errs s : past s → quiet pT → quiet pP →
    W (split_outer n pT pP ef pf fol elems puncts errs) s (λ '(_, _, es) _, grow errs es).
  Proof.
    intros Hs HT HP. revert elems puncts errs s Hs. induction n as [|n IH]; intros elems puncts errs s Hs; cbn [split_outer]; [done|].
    apply wp_bind, wp_peek_src; [auto|].
    destruct (look s) as [x|]; [|apply wp_ret, grow_refl]. destruct (ts_contains pf (Some x)); [|apply wp_ret, grow_refl].
    apply wp_bind. eapply wp_past; [by apply HP|done|]. intros r s1 Hs1 Hq.
    cbn beta in Hq; revert Hq; destruct (unres r) as [[q|] e]; cbn [snd]; intros Hq; [|apply wp_ret; by apply grow_app].
    apply wp_bind. eapply wp_past; [by apply split_inner_past|done|]. intros [[o es] c] s2 Hs2 H.
    cbn [option_list option_rect] in H. rewrite app_nil_r in H.
    assert (G : grow errs es) by (eapply grow_trans; [|exact H]; by apply grow_app).
    destruct c; [|by apply wp_ret]. eapply wp_mono; [by apply IH|]. intros [[xs qs] es'] s3 H3. by eapply grow_trans.
  Qed.
  Lemma punct_inner_past pT n ef pf fol panic errs s : past s → quiet pT →
    W (punct_inner n pT ef pf fol panic errs) s (λ '(_, es, _) _, grow (errs ++ option_list panic) es).
  Proof.
    intros Hs HT. revert panic errs s Hs. induction n as [|n IH]; intros panic errs s Hs; cbn [punct_inner]; [done|].
    apply wp_bind, wp_peek_src; [auto|]. destruct (look s) as [x|]; [|apply wp_ret, grow_refl].
    destruct (_ && _); [apply wp_ret, grow_refl|]. apply wp_bind.
    apply (wp_past _ (λ step _, match step with
      | inl (_, es) => grow (errs ++ option_list panic) es
      | inr p' => grow (option_list panic) (option_list p') end)); [|done|].
    { destruct (ts_contains ef (Some x)).
      - apply wp_bind. eapply wp_past; [by apply HT|done|]. intros r s1 Hs1 Hq.
        cbn beta in Hq; revert Hq; destruct (unres r) as [[y|] e]; cbn [snd]; intros Hq.
        + apply wp_ret. by apply grow_mid.
        + apply wp_ret. by apply grow_merge.
      - apply wp_bind, wp_cur_span, wp_ret. destruct panic as [p|].
        + apply grow_set_hi.
        + by apply (grow_new s). }
    intros [[y es]|p'] s1 Hs1 H; [by apply wp_ret|]. apply wp_bind, wp_peek_src; [auto|].
    destruct (ts_contains pf _); [apply wp_ret; by apply grow_r|].
    destruct (_ || _); [apply wp_ret; by apply grow_r|].
    apply wp_bind, wp_consume. eapply wp_mono; [apply IH; auto|]. intros [[o es] c] s2 H2.
    eapply grow_trans; [|exact H2]. by apply grow_r.
  Qed.
  Lemma punct_outer_past pT pP n ef pf fol elems puncts errs s : past s → quiet pT → quiet pP →
    W (punct_outer n pT pP ef pf fol elems puncts errs) s (λ '(_, _, es) _, grow errs es).
  Proof.
    intros Hs HT HP. revert elems puncts errs s Hs. induction n as [|n IH]; intros elems puncts errs s Hs; cbn [punct_outer]; [done|].
    apply wp_bind, wp_peek_src; [auto|].
    destruct (look s) as [x|]; [|apply wp_ret, grow_refl]. destruct (ts_contains pf (Some x)); [|apply wp_ret, grow_refl].
    apply wp_bind. eapply wp_past; [by apply HP|done|]. intros r s1 Hs1 Hq.
    cbn beta in Hq; revert Hq; destruct (unres r) as [[q|] e]; cbn [snd]; intros Hq; [|apply wp_ret; by apply grow_app].
    apply wp_bind. eapply wp_past; [by apply punct_inner_past|done|]. intros [[o es] c] s2 Hs2 H.
    cbn [option_list option_rect] in H. rewrite app_nil_r in H.
    assert (G : grow errs es) by (eapply grow_trans; [|exact H]; by apply grow_app).
    destruct c; [|by apply wp_ret]. eapply wp_mono; [by apply IH|]. intros [[xs qs] es'] s3 H3. by eapply grow_trans.
  Qed.
  Lemma recover_past pR n tf panic errs s : past s → quiet pR →
    W (recover_loop n pR tf panic errs) s (λ '(_, p', es) _, grow (errs ++ option_list panic) (es ++ option_list p')).
  Proof.
    intros Hs HR. revert panic errs s Hs. induction n as [|n IH]; intros panic errs s Hs; cbn [recover_loop]; [done|].
    apply wp_bind, wp_peek_src; [auto|]. destruct (look s) as [x|].
    - apply wp_bind.
      apply (wp_past _ (λ step _, match step with
        | inl (_, es) => grow (errs ++ option_list panic) (es ++ option_list panic)
        | inr p' => grow (option_list panic) (option_list p') end)); [|done|].
      { destruct (_ || _); [|apply wp_ret, grow_refl].
        apply wp_bind. eapply wp_past; [by apply HR|done|]. intros r s1 Hs1 Hq.
        cbn beta in Hq; revert Hq; destruct (unres r) as [[y|] e]; cbn [snd]; intros Hq.
        + apply wp_ret. rewrite <- (assoc_L (++)). by apply grow_mid.
        + apply wp_ret. by apply grow_merge. }
      intros [[y es]|p'] s1 Hs1 H; [by apply wp_ret|]. apply wp_bind.
      apply (wp_past _ (λ p _, grow (option_list panic) [p])); [|done|].
      { destruct p' as [p'|].
        - apply wp_bind, wp_cur_span, wp_ret. eapply grow_trans; [exact H|]. apply grow_set_hi.
        - apply wp_expecting. eapply grow_trans; [exact H|]. by apply (grow_new s1). }
      intros p s2 Hs2 Hg. apply wp_bind, wp_consume. eapply wp_mono; [apply IH; auto|]. intros [[o p2] es] s3 H3.
      eapply grow_trans; [|exact H3]. by apply (grow_r errs (option_list panic) [p]).
    - destruct (ts_contains_e tf); [|apply wp_ret, grow_refl].
      apply wp_bind. eapply wp_past; [by apply HR|done|]. intros r s1 Hs1 Hq.
      cbn beta in Hq; revert Hq; destruct (unres r) as [[y|] e]; cbn [snd]; intros Hq; apply wp_ret.
      + rewrite <- (assoc_L (++)). by apply grow_mid.
      + apply grow_r. by apply grow_merge.
  Qed.

  (** * The continuation after the token *)
  Hypothesis Hns : strict = false.
  Fixpoint cont {A} (K : M A → Prop) (m : M A) : Prop :=
    match m with
    | Ret _ | Fuel => True
    | Peek k => ∀ x, cont K (k x)
    | ToSrc _ k => ∀ x, cont K (k x)
    | Consume k => ∀ x, K (k x) ∧ cont K (k x)
    | EmptySpan k => ∀ x, cont K (k x)
    | CurSpan k => ∀ x, cont K (k x)
    | GetSrc _ k => ∀ x, cont K (k x)
    | Apply _ _ k => cont K k
    | Extend _ k => cont K k
    end.
  Lemma cont_bind {A B} (K1 : M A → Prop) (K2 : M B → Prop) m f : cont K1 m → (∀ a, cont K2 (f a)) →
    (∀ m', K1 m' → K2 (m' ≫= f)) → cont K2 (m ≫= f).
  Proof.
    intros H Hf HK. rewrite bindM_eq. induction m as [| |k IH|t k IH|k IH|k IH|k IH|sp k IH|sp sem k IH|es k IH];
      cbn [cont] in *; cbn; auto.
    intros x. destruct (H x) as [H1 H2]. split; [|by apply IH]. apply HK in H1. by rewrite bindM_eq in H1.
  Qed.
  Lemma cont_mono {A} (K1 K2 : M A → Prop) m : cont K1 m → (∀ m', K1 m' → K2 m') → cont K2 m.
  Proof.
    intros H HK. induction m as [| |k IH|t k IH|k IH|k IH|k IH|sp k IH|sp sem k IH|es k IH]; cbn [cont] in *; auto.
    intros x. destruct (H x). auto.
  Qed.

  (** Either no early errors are to come, or some error is certain. *)
  Definition dcd {A} (E : A → list perr) (m : M A) : Prop :=
    (∀ s, past s → W m s (λ a _, ¬ early (E a))) ∨ (∀ s, past s → W m s (λ a _, E a ≠ [])).
  Lemma dcd_bind {A B} (E1 : A → list perr) (E2 : B → list perr) m f : dcd E1 m →
    (∀ a s, past s → W (f a) s (λ r _, grow (E1 a) (E2 r))) → dcd E2 (m ≫= f).
  Proof.
    intros [H|H] Hf; [left|right]; intros s Hs; apply wp_bind; (eapply wp_past; [by apply H|done|]);
      intros a s1 Hs1 Ha; cbn beta in Ha; (eapply wp_mono; [by apply Hf|]); intros r s2 (G1 & G2 & _); auto.
  Qed.
  Lemma cont_step {A B} (E1 : A → list perr) (E2 : B → list perr) m f : cont (dcd E1) m →
    (∀ a, cont (dcd E2) (f a)) → (∀ a s, past s → W (f a) s (λ r _, grow (E1 a) (E2 r))) →
    cont (dcd E2) (m ≫= f).
  Proof. intros H1 H2 H3. eapply cont_bind; [done|done|]. intros m' Hm. by eapply dcd_bind. Qed.
  (** With the errors that are there before. *)
  Lemma dcd_pre {A} (E : A → list perr) (pre : list perr) (E' : A → list perr) m : dcd E m →
    (∀ a, pre ≠ [] → E' a ≠ []) → (pre = [] → ∀ a, grow (E a) (E' a)) → dcd E' m.
  Proof.
    intros H H1 H2. destruct pre as [|e pre].
    - specialize (H2 eq_refl). destruct H as [H|H]; [left|right]; intros s Hs;
        (eapply wp_mono; [by apply H|]); intros a s1 Ha; destruct (H2 a) as (? & ? & _); auto.
    - right. intros s Hs. eapply wp_mono; [apply wp_true|]. intros a s1 _. by apply H1.
  Qed.
  Lemma cont_pre {A} (E : A → list perr) (pre : list perr) (E' : A → list perr) m : cont (dcd E) m →
    (∀ a, pre ≠ [] → E' a ≠ []) → (pre = [] → ∀ a, grow (E a) (E' a)) → cont (dcd E') m.
  Proof. intros H H1 H2. eapply cont_mono; [done|]. intros m' Hm. by eapply dcd_pre. Qed.
  Lemma dcd_noisy {A} (E : A → list perr) m : (∀ s, past s → W m s (λ a _, E a ≠ [])) → dcd E m.
  Proof. by right. Qed.
  (** Programs that consume nothing. *)
  Lemma cont_ret {A} (K : M A → Prop) (a : A) : cont K (mret a).
  Proof. done. Qed.
  Lemma cont_peek {B} (K : M B → Prop) f : (∀ a, cont K (f a)) → cont K (peek_src ≫= f).
  Proof.
    intros H. eapply (cont_bind (λ _, False)); [|done..]. unfold peek_src. cbn. intros [t|]; cbn; [|done]. by intros x.
  Qed.
  Lemma cont_cur {B} (K : M B → Prop) f : (∀ a, cont K (f a)) → cont K (cur_span ≫= f).
  Proof. intros H. eapply (cont_bind (λ _, False)); [|done..]. done. Qed.
  Lemma cont_empty {B} (K : M B → Prop) f : (∀ a, cont K (f a)) → cont K (empty_span ≫= f).
  Proof. intros H. eapply (cont_bind (λ _, False)); [|done..]. done. Qed.
  Lemma cont_expecting {B} (K : M B → Prop) set f : (∀ a, cont K (f a)) → cont K (expecting set ≫= f).
  Proof. intros H. eapply (cont_bind (λ _, False)); [|done..]. done. Qed.
  Lemma cont_get {B} (K : M B → Prop) sp f : (∀ a, cont K (f a)) → cont K (get_src sp ≫= f).
  Proof. intros H. eapply (cont_bind (λ _, False)); [|done..]. done. Qed.
  Lemma cont_apply {B} (K : M B → Prop) sp sem f : (∀ a, cont K (f a)) → cont K (apply_semantic sp sem ≫= f).
  Proof. intros H. eapply (cont_bind (λ _, False)); [|done..]. done. Qed.
  Lemma cont_consume {B} (K : M B → Prop) f : (∀ a, K (f a) ∧ cont K (f a)) → cont K (consume ≫= f).
  Proof.
    intros H. eapply (cont_bind (λ m, ∃ a, m = mret a)); [|intros a; apply H|].
    - cbn. intros x. split; [by exists x|done].
    - intros m' [a ->]. apply (H a).
  Qed.
  Lemma cont_true {A} (m : M A) : cont (λ _, True) m.
  Proof. induction m; cbn; auto. Qed.
  Lemma dcd_grow {A} (E : A → list perr) m pre : (∀ s, past s → W m s (λ a _, grow pre (E a))) → dcd E m.
  Proof.
    intros H. destruct pre as [|e pre]; [left|right]; intros s Hs; (eapply wp_mono; [by apply H|]); intros a s1 (G1 & G2 & _).
    - intros He%G1. by apply early_nil in He.
    - by apply G2.
  Qed.
  Lemma grow_merge2 errs panic e : grow (errs ++ option_list panic ++ e) (errs ++ option_list (merge_panic panic e)).
  Proof.
    split; [|split; [|by rewrite Hns]].
    - rewrite !early_app. intros [?|[?|?]%early_merge]; auto.
    - rewrite !app_ne. intros [?|[?|?]]; [by left|right; apply merge_ne; by left|right; apply merge_ne; by right].
  Qed.
  Lemma grow_swap errs p e : grow (errs ++ p ++ e) (errs ++ e ++ p).
  Proof. unfold grow. rewrite !early_app, !app_ne. tauto. Qed.

  Definition Er {A} (r : res A) : list perr := (unres r).2.
  Definition calm (p : M (res tree)) : Prop := quiet p ∧ cont (dcd Er) p.
  Lemma calm_pre p errs : calm p → cont (dcd (λ r, errs ++ Er r)) p.
  Proof.
    intros [_ H]. eapply (cont_pre Er errs); [done| |].
    - intros a Ha. apply app_ne. by left.
    - intros ->. intros a. apply grow_refl.
  Qed.

  Lemma seq_cont rec ts acc errs : (∀ t, t ∈ ts → calm (rec t)) → cont (dcd Er) (produce_seq rec ts acc errs).
  Proof.
    revert acc errs. induction ts as [|t ts IH]; intros acc errs Hrec; cbn [produce_seq]; [done|].
    apply (cont_step (λ r, errs ++ Er r)); [apply calm_pre, Hrec; set_solver| |].
    - intros r. destruct (unres r) as [[x|] e]; [|done]. apply IH. intros; apply Hrec; set_solver.
    - intros r s Hs. unfold Er at 1. destruct (unres r) as [[x|] e].
      + apply seq_past; [done|]. intros t' Ht. apply Hrec. set_solver.
      + apply wp_ret, grow_refl.
  Qed.
  Lemma option_cont {X} (p : M (res X)) (sp : X → span) set : cont (dcd Er) p → cont (dcd Er) (produce_option p sp set).
  Proof.
    intros Hp. unfold produce_option. apply cont_peek. intros tk'.
    assert (Hnone : cont (dcd Er) (e ← empty_span; mret (RSucc (e, @None X)))) by (by apply cont_empty).
    destruct tk' as [x|]; [|done]. destruct (ts_contains set (Some x)); [|done].
    apply (cont_step Er); [done| |].
    - intros [a|a e|e]; [done..|]. by apply cont_empty.
    - intros [a|a e|e] s Hs; [apply wp_ret, grow_refl..|]. apply wp_bind, wp_empty_span, wp_ret, grow_refl.
  Qed.
  Definition E3 {A C} (x : A * list perr * C) : list perr := x.1.2.
  Lemma iter_cont p n set acc errs hi : calm p → cont (dcd E3) (iter_loop n p set acc errs hi).
  Proof.
    intros Hp. revert acc errs hi. induction n as [|n IH]; intros acc errs hi; cbn [iter_loop]; [done|].
    apply cont_peek. intros [x|]; [|done]. destruct (ts_contains set (Some x)); [|done].
    apply (cont_step (λ r, errs ++ Er r)); [by apply calm_pre| |].
    - intros r. destruct (unres r) as [[y|] e]; [|done]. apply IH.
    - intros r s Hs. unfold Er. destruct (unres r) as [[y|] e]; [|apply wp_ret, grow_refl].
      eapply wp_mono; [by apply iter_past; [|apply Hp]|]. by intros [[xs es] h] s2 H.
  Qed.
  Lemma plus_cont p n set : calm p → cont (dcd Er) (produce_plus n p set).
  Proof.
    intros Hp. unfold produce_plus. apply (cont_step Er); [apply Hp| |].
    - intros r. destruct (unres r) as [[y|] e]; [|done].
      apply (cont_step E3); [by apply iter_cont|by intros [[l es] h]|].
      intros [[l es] h] s Hs. apply wp_ret. unfold Er. rewrite unres_into. apply grow_refl.
    - intros r s Hs. unfold Er. destruct (unres r) as [[y|] e]; [|apply wp_ret, grow_refl].
      apply wp_bind. eapply wp_mono; [by apply iter_past; [|apply Hp]|]. intros [[l es] h] s2 H.
      apply wp_ret. by rewrite unres_into.
  Qed.
  Definition E2 {A} (x : A * list perr) : list perr := x.2.
  Lemma loop_cont p n set acc errs : calm p → cont (dcd E2) (loop_loop n p set acc errs).
  Proof.
    intros Hp. revert acc errs. induction n as [|n IH]; intros acc errs; cbn [loop_loop]; [done|].
    apply cont_peek. intros [x|]; [|done]. apply (cont_step E2).
    - destruct (ts_contains set (Some x)); [done|]. apply cont_cur. intros sp. apply cont_consume. intros _.
      assert (Hn : ∀ tk', dcd E2 ('(tk1, hi) ← skip_loop n set tk' (sp_hi sp); mret (tk1, errs ++ [PErr (Span (sp_lo sp) hi) UnexpectedTokens]))).
      { intros tk'. apply dcd_noisy. intros s Hs. apply wp_bind. eapply wp_mono; [apply wp_true|]. intros [t1 h] s2 _.
        apply wp_ret, app_ne. by right. }
      split.
      + apply dcd_noisy. intros s Hs. apply wp_bind, wp_peek_src; [auto|]. apply wp_bind. eapply wp_mono; [apply wp_true|].
        intros [t1 h] s2 _. apply wp_ret, app_ne. by right.
      + apply cont_peek. intros tk'. eapply (cont_bind (λ _, True)); [apply cont_true|by intros []|].
        intros m' _. apply dcd_noisy. intros s Hs. apply wp_bind. eapply wp_mono; [apply wp_true|]. intros [t1 h] s2 _.
        apply wp_ret, app_ne. by right.
    - intros [t1 es]. destruct t1; [|done]. apply cont_cur. intros sp0.
      apply (cont_step (λ r, es ++ Er r)); [by apply calm_pre| |].
      + intros r. destruct (unres r) as [o e]. apply cont_cur. intros sp1. destruct (_ =? _); [done|]. apply IH.
      + intros r s Hs. unfold Er. destruct (unres r) as [o e]. cbn [snd]. apply wp_bind, wp_cur_span.
        destruct (_ =? _).
        * apply wp_ret, grow_app. by eapply past_cur.
        * eapply wp_mono; [by apply loop_past; [|apply Hp]|]. by intros [xs es'] s2 H.
    - intros [t1 es] s Hs. destruct t1; [|apply wp_ret, grow_refl]. apply wp_bind, wp_cur_span, wp_bind.
      eapply wp_past; [by apply Hp|done|]. intros r s2 Hs2 Hq. cbn beta in Hq. revert Hq.
      destruct (unres r) as [o e]. cbn [snd]. intros Hq. apply wp_bind, wp_cur_span. destruct (_ =? _).
      + apply wp_ret. unfold E2. cbn [snd]. rewrite <- (assoc_L (++)). apply grow_app.
        rewrite early_app. intros [?|?]; [done|]. by eapply past_cur in Hs2.
      + eapply wp_mono; [by apply loop_past; [|apply Hp]|]. intros [xs es'] s3 H. eapply grow_trans; [|exact H]. by apply grow_app.
  Qed.
  Lemma produce_loop_cont p n set : calm p → cont (dcd Er) (produce_loop n p set).
  Proof.
    intros Hp. unfold produce_loop. apply (cont_step E2); [by apply loop_cont| |].
    - intros [l es]. destruct (head l), (last l); first [by apply cont_empty|done].
    - intros [l es] s Hs. apply wp_bind. eapply wp_mono; [apply wp_true|]. intros sp s2 _. apply wp_ret.
      unfold Er. rewrite unres_into. apply grow_refl.
  Qed.

  Lemma split_inner_cont pT n ef pf fol panic errs : calm pT → cont (dcd E3) (split_inner n pT ef pf fol panic errs).
  Proof.
    intros HT. revert panic errs. induction n as [|n IH]; intros panic errs; cbn [split_inner]; [done|].
    apply cont_peek. intros tk1.
    apply (cont_step (λ step : tree * list perr + option tok * option perr, match step with
      | inl (_, es) => es | inr (_, p') => errs ++ option_list p' end)).
    - destruct (_ || _).
      + apply (cont_step (λ r, errs ++ option_list panic ++ Er r)).
        * eapply (cont_pre Er (errs ++ option_list panic)); [apply HT| |].
          -- intros a Ha. rewrite (assoc_L (++)). apply app_ne. by left.
          -- intros [-> Hn]%app_nil a. rewrite Hn. apply grow_refl.
        * intros r. destruct (unres r) as [[y|] e]; [done|]. by apply cont_peek.
        * intros r s Hs. unfold Er. destruct (unres r) as [[y|] e].
          -- apply wp_ret, grow_swap.
          -- apply wp_bind, wp_peek_src; [auto|]. apply wp_ret, grow_merge2.
      + destruct panic as [p|]; [by apply cont_cur|by apply cont_expecting].
    - intros [[y es]|[tk' p']]; [done|]. destruct (ts_contains pf tk'); [done|]. destruct (_ || _); [done|].
      apply cont_consume. intros _. split; [|apply IH].
      apply (dcd_grow _ _ (errs ++ option_list p')). intros s Hs.
      eapply wp_mono; [by apply split_inner_past; [|apply HT]|]. by intros [[o es] c] s2 H.
    - intros [[y es]|[tk' p']] s Hs; [apply wp_ret, grow_refl|].
      destruct (ts_contains pf tk'); [apply wp_ret, grow_refl|]. destruct (_ || _); [apply wp_ret, grow_refl|].
      apply wp_bind, wp_consume. eapply wp_mono; [by apply split_inner_past; [auto|apply HT]|]. by intros [[o es] c] s2 H.
  Qed.
  Lemma split_outer_cont pT pP n ef pf fol elems puncts errs : calm pT → calm pP →
    cont (dcd E2) (split_outer n pT pP ef pf fol elems puncts errs).
  Proof.
    intros HT HP. revert elems puncts errs. induction n as [|n IH]; intros elems puncts errs; cbn [split_outer]; [done|].
    apply cont_peek. intros [x|]; [|done]. destruct (ts_contains pf (Some x)); [|done].
    assert (Hfin : ∀ q (x : option tree * list perr * bool) s, past s →
      W (let '(o, errs', cont) := x in
         let elems' := elems ++ option_list o in
          let puncts' := match o with Some _ => puncts ++ [q] | None => puncts end in
          if cont : bool then split_outer n pT pP ef pf fol elems' puncts' errs'
          else mret (elems', puncts', errs')) s (λ r _, grow (E3 x) (E2 r))).
    { intros q [[o es] c] s Hs. cbn zeta. destruct c; [|apply wp_ret, grow_refl].
      eapply wp_mono; [by apply split_outer_past; [|apply HT|apply HP]|]. by intros [[xs qs] es'] s3 H. }
    apply (cont_step (λ r, errs ++ Er r)); [by apply calm_pre| |].
    - intros r. destruct (unres r) as [[q|] e]; [|done].
      apply (cont_step E3); [by apply split_inner_cont| |apply Hfin].
      intros [[o es] c]. cbn zeta. destruct c; [apply IH|done].
    - intros r s Hs. unfold Er. destruct (unres r) as [[q|] e]; [|apply wp_ret, grow_refl].
      apply wp_bind. eapply wp_past; [by apply split_inner_past; [|apply HT]|done|]. intros x1 s2 Hs2 H.
      eapply wp_mono; [by apply Hfin|]. intros r2 s3 H3. eapply grow_trans; [|exact H3].
      destruct x1 as [[o es] c]. cbn [option_list option_rect] in H. by rewrite app_nil_r in H.
  Qed.
  Lemma punct_inner_cont pT n ef pf fol panic errs : calm pT → cont (dcd E3) (punct_inner n pT ef pf fol panic errs).
  Proof.
    intros HT. revert panic errs. induction n as [|n IH]; intros panic errs; cbn [punct_inner]; [done|].
    apply cont_peek. intros [x|]; [|done]. destruct (_ && _); [done|].
    apply (cont_step (λ step : tree * list perr + option perr, match step with
      | inl (_, es) => es | inr p' => errs ++ option_list p' end)).
    - destruct (ts_contains ef (Some x)).
      + apply (cont_step (λ r, errs ++ option_list panic ++ Er r)).
        * eapply (cont_pre Er (errs ++ option_list panic)); [apply HT| |].
          -- intros a Ha. rewrite (assoc_L (++)). apply app_ne. by left.
          -- intros [-> Hn]%app_nil a. rewrite Hn. apply grow_refl.
        * intros r. by destruct (unres r) as [[y|] e].
        * intros r s Hs. unfold Er. destruct (unres r) as [[y|] e]; [apply wp_ret, grow_refl|apply wp_ret, grow_merge2].
      + by apply cont_cur.
    - intros [[y es]|p']; [done|]. apply cont_peek. intros tk'.
      destruct (ts_contains pf tk'); [done|]. destruct (_ || _); [done|].
      apply cont_consume. intros _. split; [|apply IH].
      apply (dcd_grow _ _ (errs ++ option_list p')). intros s Hs.
      eapply wp_mono; [by apply punct_inner_past; [|apply HT]|]. by intros [[o es] c] s2 H.
    - intros [[y es]|p'] s Hs; [apply wp_ret, grow_refl|]. apply wp_bind, wp_peek_src; [auto|].
      destruct (ts_contains pf _); [apply wp_ret, grow_refl|]. destruct (_ || _); [apply wp_ret, grow_refl|].
      apply wp_bind, wp_consume. eapply wp_mono; [by apply punct_inner_past; [auto|apply HT]|]. by intros [[o es] c] s2 H.
  Qed.
  Lemma punct_outer_cont pT pP n ef pf fol elems puncts errs : calm pT → calm pP →
    cont (dcd E2) (punct_outer n pT pP ef pf fol elems puncts errs).
  Proof.
    intros HT HP. revert elems puncts errs. induction n as [|n IH]; intros elems puncts errs; cbn [punct_outer]; [done|].
    apply cont_peek. intros [x|]; [|done]. destruct (ts_contains pf (Some x)); [|done].
    assert (Hfin : ∀ q (x : option tree * list perr * bool) s, past s →
      W (let '(o, errs', cont) := x in
         let elems' := elems ++ option_list o in
          if cont : bool then punct_outer n pT pP ef pf fol elems' (puncts ++ [q]) errs'
          else mret (elems', puncts ++ [q], errs')) s (λ r _, grow (E3 x) (E2 r))).
    { intros q [[o es] c] s Hs. cbn zeta. destruct c; [|apply wp_ret, grow_refl].
      eapply wp_mono; [by apply punct_outer_past; [|apply HT|apply HP]|]. by intros [[xs qs] es'] s3 H. }
    apply (cont_step (λ r, errs ++ Er r)); [by apply calm_pre| |].
    - intros r. destruct (unres r) as [[q|] e]; [|done].
      apply (cont_step E3); [by apply punct_inner_cont| |apply Hfin].
      intros [[o es] c]. cbn zeta. destruct c; [apply IH|done].
    - intros r s Hs. unfold Er. destruct (unres r) as [[q|] e]; [|apply wp_ret, grow_refl].
      apply wp_bind. eapply wp_past; [by apply punct_inner_past; [|apply HT]|done|]. intros x1 s2 Hs2 H.
      eapply wp_mono; [by apply Hfin|]. intros r2 s3 H3. eapply grow_trans; [|exact H3].
      destruct x1 as [[o es] c]. cbn [option_list option_rect] in H. by rewrite app_nil_r in H.
  Qed.
  Lemma split_cont pT pP n ef pf fol : calm pT → calm pP → cont (dcd Er) (produce_split n pT pP ef pf fol).
  Proof.
    intros HT HP. unfold produce_split. apply (cont_step Er); [apply HT| |].
    - intros r. destruct (unres r) as [[y|] e]; [|done].
      apply (cont_step E2); [by apply split_outer_cont|by intros [[l q] es]|].
      intros [[l q] es] s Hs. apply wp_ret. unfold Er. rewrite unres_into. apply grow_refl.
    - intros r s Hs. unfold Er. destruct (unres r) as [[y|] e]; [|apply wp_ret, grow_refl].
      apply wp_bind. eapply wp_mono; [by apply split_outer_past; [|apply HT|apply HP]|]. intros [[l q] es] s2 H.
      apply wp_ret. by rewrite unres_into.
  Qed.
  Lemma punct_cont pT pP n ef pf fol : calm pT → calm pP → cont (dcd Er) (produce_punct n pT pP ef pf fol).
  Proof.
    intros HT HP. unfold produce_punct. apply (cont_step Er); [apply HT| |].
    - intros r. destruct (unres r) as [[y|] e]; [|done].
      apply (cont_step E2); [by apply punct_outer_cont|by intros [[l q] es]|].
      intros [[l q] es] s Hs. apply wp_ret. unfold Er. rewrite unres_into. apply grow_refl.
    - intros r s Hs. unfold Er. destruct (unres r) as [[y|] e]; [|apply wp_ret, grow_refl].
      apply wp_bind. eapply wp_mono; [by apply punct_outer_past; [|apply HT|apply HP]|]. intros [[l q] es] s2 H.
      apply wp_ret. by rewrite unres_into.
  Qed.

  Definition Ep (x : option tree * option perr * list perr) : list perr := x.2 ++ option_list x.1.2.
  Lemma recover_loop_cont pR n tf panic errs : calm pR → cont (dcd Ep) (recover_loop n pR tf panic errs).
  Proof.
    intros HR. revert panic errs. induction n as [|n IH]; intros panic errs; cbn [recover_loop]; [done|].
    assert (HRp : cont (dcd (λ r, errs ++ option_list panic ++ Er r)) pR).
    { eapply (cont_pre Er (errs ++ option_list panic)); [apply HR| |].
      - intros a Ha. rewrite (assoc_L (++)). apply app_ne. by left.
      - intros [-> Hn]%app_nil a. rewrite Hn. apply grow_refl. }
    apply cont_peek. intros [x|].
    - apply (cont_step (λ step : tree * list perr + option perr, match step with
        | inl (_, es) => es ++ option_list panic | inr p' => errs ++ option_list p' end)).
      + destruct (_ || _); [|done]. apply (cont_step (λ r, errs ++ option_list panic ++ Er r)); [done| |].
        * intros r. by destruct (unres r) as [[y|] e].
        * intros r s Hs. unfold Er. destruct (unres r) as [[y|] e]; apply wp_ret; [|apply grow_merge2].
          rewrite <- (assoc_L (++)). apply grow_swap.
      + intros [[y es]|p']; [done|].
        assert (Hrest : ∀ p, cont (dcd Ep) (_ ← consume; recover_loop n pR tf (Some p) errs)).
        { intros p. apply cont_consume. intros _. split; [|apply IH].
          apply (dcd_grow _ _ (errs ++ option_list (Some p))). intros s Hs.
          eapply wp_mono; [by apply recover_past; [|apply HR]|]. by intros [[o p2] es] s2 H. }
        destruct p' as [p'|].
        * eapply (cont_bind (λ _, False)); [by apply cont_cur|apply Hrest|done].
        * apply cont_expecting, Hrest.
      + intros [[y es]|p'] s Hs; [apply wp_ret, grow_refl|]. apply wp_bind.
        apply (wp_past _ (λ p _, grow (option_list p') [p])); [|done|].
        { destruct p' as [p'|].
          - apply wp_bind, wp_cur_span, wp_ret, grow_set_hi.
          - apply wp_expecting. by apply (grow_new s). }
        intros p s2 Hs2 Hg. apply wp_bind, wp_consume. eapply wp_mono; [by apply recover_past; [auto|apply HR]|].
        intros [[o p2] es] s3 H3. eapply grow_trans; [|exact H3]. by apply (grow_r errs (option_list p') [p]).
    - destruct (ts_contains_e tf); [|done]. apply (cont_step (λ r, errs ++ option_list panic ++ Er r)); [done| |].
      + intros r. by destruct (unres r) as [[y|] e].
      + intros r s Hs. unfold Er. destruct (unres r) as [[y|] e]; apply wp_ret; [|apply grow_merge2].
        unfold Ep. cbn [fst snd]. rewrite <- (assoc_L (++)). apply grow_swap.
  Qed.
  Lemma recover_cont pT pR n hf tf : calm pT → calm pR → cont (dcd Er) (produce_recover n pT pR hf tf).
  Proof.
    intros HT HR. unfold produce_recover. apply cont_peek. intros tk1.
    assert (Hfin : ∀ x1 : option perr * span * option tree * list perr,
      (λ '(panic, hsp, hd, errs), cont (dcd Er) (
        '(tl, panic', errs') ← recover_loop n pR tf panic errs;
        let errs'' := errs' ++ option_list panic' in
        match tl with
        | Some x => mret (res_into (TrRecover hsp hd x) errs'')
        | None => mret (RPanic errs'')
        end) ∧ ∀ s, past s → W (
        '(tl, panic', errs') ← recover_loop n pR tf panic errs;
        let errs'' := errs' ++ option_list panic' in
        match tl with
        | Some x => mret (res_into (TrRecover hsp hd x) errs'')
        | None => mret (RPanic errs'')
        end) s (λ r _, grow (errs ++ option_list panic) (Er r))) x1).
    { intros [[[panic hsp] hd] errs]. split.
      - apply (cont_step Ep); [by apply recover_loop_cont| |].
        + intros [[tl p'] es]. cbn zeta. by destruct tl.
        + intros [[tl p'] es] s Hs. cbn zeta. destruct tl; apply wp_ret; [|apply grow_refl].
          unfold Er. rewrite unres_into. apply grow_refl.
      - intros s Hs. apply wp_bind. eapply wp_mono; [by apply recover_past; [|apply HR]|].
        intros [[tl p'] es] s2 H. cbn zeta. destruct tl; apply wp_ret; [|done]. unfold Er. by rewrite unres_into. }
    apply (cont_step (λ x : option perr * span * option tree * list perr, x.2 ++ option_list x.1.1.1)).
    - destruct (_ || _).
      + apply (cont_step Er); [apply HT| |].
        * intros r. destruct (unres r) as [[y|] e]; [done|]. by apply cont_empty.
        * intros r s Hs. unfold Er. destruct (unres r) as [[y|] e].
          -- apply wp_ret. cbn. rewrite app_nil_r. apply grow_refl.
          -- apply wp_bind, wp_empty_span, wp_ret. cbn [fst snd app]. split; [apply early_last|]. split; [apply last_ne|by rewrite Hns].
      + apply cont_expecting. intros e. by apply cont_empty.
    - intros [[[panic hsp] hd] errs]. apply (Hfin (panic, hsp, hd, errs)).
    - intros [[[panic hsp] hd] errs] s Hs. by apply (Hfin (panic, hsp, hd, errs)).
  Qed.

  Lemma token_cont y : cont (dcd Er) (parse_token y).
  Proof.
    unfold parse_token, peek. eapply (cont_bind (λ _, False)); [done| |done]. intros [t|]; [|by apply cont_cur].
    destruct (_ =? _); [|by apply cont_cur]. apply cont_consume. intros _. split; [|done].
    left. intros s Hs. apply wp_ret. by intros ?%early_nil.
  Qed.
  Lemma token_lit_cont y l fol : cont (dcd Er) (parse_token_lit y l fol).
  Proof.
    unfold parse_token_lit, peek. eapply (cont_bind (λ _, False)); [done| |done]. intros [t|].
    - cbn [cont]. intros x. destruct (_ && _).
      + apply cont_consume. intros _. split; [|done]. left. intros s Hs. apply wp_ret. by intros ?%early_nil.
      + destruct (ts_contains fol _); [|by apply cont_expecting]. apply cont_empty. intros sp. by apply cont_expecting.
    - destruct (ts_contains_e fol); [apply cont_cur; intros sp; by apply cont_expecting|].
      eapply (cont_bind (λ _, False)); done.
  Qed.
  Lemma cont_res_map {A B} (g : A → B) (p : M (res A)) : cont (dcd Er) p → cont (dcd Er) (r ← p; mret (res_map g r)).
  Proof.
    intros H. apply (cont_step Er); [done|done|]. intros r s Hs. apply wp_ret. destruct r; apply grow_refl.
  Qed.
  Lemma apply_fields_cont {B} fs xs (f : unit → M B) (K : M B → Prop) : cont K (f tt) → cont K (apply_fields fs xs ≫= f).
  Proof.
    intros H. eapply (cont_bind (λ _, False)); [|by intros []|done].
    revert xs. induction fs as [|[c [sem|]] fs IH]; intros xs; cbn [apply_fields]; [done| |].
    - destruct xs; [done|]. apply cont_apply. intros _. apply IH.
    - destruct xs; [done|]. apply IH.
  Qed.

  Variable env : denv.
  Variables (first follow : prod → tset) (jump : prod → option tok → option nat).
  Notation produce := (produce env first follow jump).

  Lemma produce_quiet f t : filled env t → quiet (produce f t).
  Proof.
    intros Hf s Hs. assert (Hok := past_aok s Hs). rewrite aok_eq in Hok.
    eapply wp_weaken; [done|done|]. eapply wp_mono.
    { apply wps_wp. by apply (produce_inv env first follow jump (a_src s) (toks s ++ a_rest s) Hok f t Hf). }
    intros r s1 [H _] He. unfold early in He. rewrite Exists_exists in He. destruct He as (e & He & Hlt).
    unfold errs_in in H. rewrite Forall_forall in H. destruct (H e He) as (_ & Hc & _). unfold cur in Hc.
    destruct Hs as [Ha Hb]. assert (Hg := cur_ge s Ha). lia.
  Qed.
  Lemma produce_calm f t : filled env t → calm (produce f t).
  Proof.
    intros Hf. split; [by apply produce_quiet|].
    revert t Hf. induction f as [|f IH]; intros t Hf; [done|].
    assert (Hsub : ∀ c, c ∈ subs env t → calm (produce f c)).
    { intros c Hc. assert (filled env c) by (by eapply all_within_sub). split; [by apply produce_quiet|by apply IH]. }
    destruct t as [n y lit|n|ts|t|t|t|t|t|t|t|t|t d|t d|t r]; cbn [ProduceModel.produce].
    - apply cont_res_map. destruct lit; [apply token_lit_cont|apply token_cont].
    - cbn [subs] in Hsub. destruct (env !! n) as [[fs|vs]|] eqn:En; [| |done].
      + cbn in Hsub. apply (cont_step Er); [by apply seq_cont| |].
        * intros r. destruct (unres r) as [[xs|] e]; [|done]. by apply apply_fields_cont.
        * intros r s Hs. unfold Er. destruct (unres r) as [[xs|] e]; [|apply wp_ret, grow_refl].
          apply wp_bind. eapply wp_mono; [apply wp_true|]. intros ? s2 _. apply wp_ret. rewrite unres_into. apply grow_refl.
      + apply cont_peek. intros tk1.
        destruct (i ← jump _ tk1; v ← vs !! i; Some (i, v)) as [[i [t' sem]]|] eqn:Ej; [|by apply cont_expecting].
        assert (Hin : t' ∈ map fst vs).
        { destruct (jump _ tk1) as [j|]; [|done]. cbn in Ej. destruct (vs !! j) as [v|] eqn:Ev; [|done].
          cbn in Ej. injection Ej as -> ->. apply elem_of_list_lookup_2 in Ev. by apply (elem_of_list_fmap_1 fst) in Ev. }
        apply (cont_step Er); [by apply Hsub| |].
        * intros [x|x e|e]; destruct sem; first [done|by apply cont_apply].
        * intros [x|x e|e] s Hs; destruct sem; first [apply wp_ret, grow_refl|apply wp_bind, wp_apply, wp_ret, grow_refl].
    - apply cont_res_map, seq_cont. intros c Hc. by apply Hsub.
    - apply Hsub. cbn. set_solver.
    - apply cont_res_map, option_cont, Hsub. cbn. set_solver.
    - apply cont_res_map, option_cont, Hsub. cbn. set_solver.
    - apply (cont_step Er); [apply Hsub; cbn; set_solver| |].
      + intros [x|x e|e]; first [done|by apply cont_get].
      + intros [x|x e|e] s Hs; [| |apply wp_ret, grow_refl].
        all: apply wp_bind; eapply wp_mono; [apply wp_true|]; intros ? s2 _; apply wp_ret, grow_refl.
    - apply (cont_step Er); [apply Hsub; cbn; set_solver| |].
      + intros [x|x e|e]; first [done|by apply cont_get].
      + intros [x|x e|e] s Hs; [| |apply wp_ret, grow_refl].
        all: apply wp_bind; eapply wp_mono; [apply wp_true|]; intros ? s2 _; apply wp_ret, grow_refl.
    - apply cont_res_map, plus_cont, Hsub. cbn. set_solver.
    - apply cont_res_map, option_cont, plus_cont, Hsub. cbn. set_solver.
    - apply cont_res_map, produce_loop_cont, Hsub. cbn. set_solver.
    - apply split_cont; apply Hsub; cbn; set_solver.
    - apply punct_cont; apply Hsub; cbn; set_solver.
    - apply recover_cont; apply Hsub; cbn; set_solver.
  Qed.
End early.

(** * Two runs *)
Section two.
  Variable tk : token.
  Notation b := (sp_hi (t_span tk)).
  Notation past := (past tk).
  Notation cont := (cont).

  Record sync (s1 s2 : ast) : Prop := Sync {
    sy_ok1 : aok s1; sy_ok2 : aok s2;
    sy_done : a_done s1 = a_done s2;
    sy_rest : ∃ q v1 v2, a_rest s1 = q ++ tk :: v1 ∧ a_rest s2 = q ++ tk :: v2;
    sy_src : ∀ sp, sp_hi sp ≤ b → span_get sp (a_src s1) = span_get sp (a_src s2) }.
  Lemma sync_head s1 s2 : sync s1 s2 → head (a_rest s1) = head (a_rest s2) ∧ a_span s1 = a_span s2.
  Proof. intros [_ _ _ (q & v1 & v2 & H1 & H2) _]. unfold a_span. rewrite H1, H2. by destruct q. Qed.
  Lemma sync_in s1 s2 t : sync s1 s2 → head (a_rest s1) = Some t → sp_hi (t_span t) ≤ b.
  Proof.
    intros [H _ _ (q & v1 & v2 & H1 & H2) _] Ht. apply aok_pos in H as [H _]. rewrite H1 in H, Ht.
    destruct q as [|t' q]; cbn in Ht; injection Ht as ->; [done|]. cbn in H. destruct H as (_ & _ & H).
    destruct (spans_ok_in _ _ _ (t_span tk) H) as (? & ? & _); [|lia]. rewrite map_app. cbn. set_solver.
  Qed.
  Lemma sync_pos s1 s2 : sync s1 s2 → pos s1 ≤ b.
  Proof.
    intros [H _ _ (q & v1 & v2 & H1 & H2) _]. apply aok_pos in H as [H _]. rewrite H1 in H.
    destruct (spans_ok_in _ _ _ (t_span tk) H) as (? & ? & _); [|lia]. rewrite map_app. cbn. set_solver.
  Qed.

  Lemma two_runs {A} (K : M A → Prop) (m : M A) Q s1 s2 a1 s1' a2 s2' : cont K m → wps m s1 Q → sync s1 s2 →
    arun m s1 = ODone a1 s1' → arun m s2 = ODone a2 s2' →
    a1 = a2 ∨ ∃ m' t1 t2, K m' ∧ past t1 ∧ past t2 ∧ arun m' t1 = ODone a1 s1' ∧ arun m' t2 = ODone a2 s2'.
  Proof.
    revert s1 s2. induction m as [| |k IH|t k IH|k IH|k IH|k IH|sp k IH|sp sem k IH|es k IH];
      intros s1 s2 Hc Hw Hs E1 E2; cbn [EarlyFacts.cont wps arun] in *.
    - left. congruence.
    - done.
    - destruct (sync_head _ _ Hs) as [Hh _]. rewrite <- Hh in E2. by eapply IH.
    - destruct Hw as (Hh & x & Hx & Hw). rewrite Hx in E1.
      assert (token_src t (a_src s2) = Some x) as Hx2.
      { rewrite <- Hx. symmetry. apply (sy_src _ _ Hs). by eapply sync_in. }
      rewrite Hx2 in E2. by eapply IH.
    - assert (Hs' := Hs). destruct Hs' as [Ok1 Ok2 Hd (q & v1 & v2 & H1 & H2) Hsrc].
      unfold pop in Hw. rewrite H1 in E1, Hw. rewrite H2 in E2. destruct q as [|t q]; cbn [app head hd_error] in *.
      + right. exists (k (Some tk)). destruct (Hc (Some tk)) as [HK _].
        destruct (pop_adv1 s1 tk v1 H1) as [P1 _], (pop_adv1 s2 tk v2 H2) as [P2 _].
        assert (B1 := adv_pos _ _ _ P1). assert (B2 := adv_pos _ _ _ P2). cbn in B1, B2.
        unfold pop in P1, P2, B1, B2. rewrite H1 in P1, B1. rewrite H2 in P2, B2.
        do 2 eexists. split; [done|]. split; [|split; [|split; [exact E1|exact E2]]].
        * split; [by eapply adv_aok|]. rewrite B1. done.
        * split; [by eapply adv_aok|]. rewrite B2. done.
      + destruct (pop_adv1 s1 t _ H1) as [P1 _], (pop_adv1 s2 t _ H2) as [P2 _].
        unfold pop in P1, P2. rewrite H1 in P1. rewrite H2 in P2.
        eapply IH; [apply Hc|exact Hw| |exact E1|exact E2]. split.
        * by apply (adv_aok s1 [t]).
        * by apply (adv_aok s2 [t]).
        * cbn. by rewrite Hd.
        * cbn. eauto.
        * done.
    - assert (pos s1 = pos s2) as Hp by (unfold pos; by rewrite (sy_done _ _ Hs)).
      change (end_of (a_done s1)) with (pos s1) in E1. change (end_of (a_done s2)) with (pos s2) in E2.
      rewrite <- Hp in E2. by eapply IH.
    - destruct (sync_head _ _ Hs) as [_ Hh]. rewrite <- Hh in E2. by eapply IH.
    - destruct Hw as (Hn & x & Hx & Hw). rewrite Hx in E1.
      assert (span_get sp (a_src s2) = Some x) as Hx2.
      { rewrite <- Hx. symmetry. apply (sy_src _ _ Hs). assert (Hp := sync_pos _ _ Hs).
        destruct Hn as [[Hn|Hn] _]; [lia|]. destruct Hs as [_ _ _ (q & v1 & v2 & H1 & _) _]. rewrite H1 in Hn. by destruct q. }
      rewrite Hx2 in E2. by eapply IH.
    - eapply IH; [done|exact Hw| |exact E1|exact E2]. destruct Hs as [Ok1 Ok2 Hd Hr Hsrc]. split; [| | |done|done].
      + apply (adv_aok s1 []); [|exact Ok1]. apply mark_adv.
      + apply (adv_aok s2 []); [|exact Ok2]. apply mark_adv.
      + cbn. by rewrite Hd.
    - by eapply IH.
  Qed.

  Lemma dcd_two {A} (E : A → list perr) (m : M A) t1 t2 a1 s1' a2 s2' : dcd tk E m → past t1 → past t2 →
    arun m t1 = ODone a1 s1' → arun m t2 = ODone a2 s2' → E a2 = [] → ¬ early tk (E a1).
  Proof.
    intros [H|H] P1 P2 E1 E2 He.
    - specialize (H t1 P1). unfold wp in H. by rewrite E1 in H.
    - specialize (H t2 P2). unfold wp in H. by rewrite E2 in H.
  Qed.
  Lemma early_two env first follow jump f t s1 s2 r1 s1' r2 s2' : filled env t → sync s1 s2 →
    arun (produce env first follow jump f t) s1 = ODone r1 s1' → arun (produce env first follow jump f t) s2 = ODone r2 s2' →
    (unres r2).2 = [] → ¬ early tk (unres r1).2.
  Proof.
    intros Hf Hs E1 E2 He. destruct (produce_calm tk false eq_refl env first follow jump f t Hf) as [_ Hc].
    assert (Hok := sy_ok1 _ _ Hs). rewrite aok_eq in Hok.
    assert (Hw := produce_inv env first follow jump (a_src s1) (toks s1 ++ a_rest s1) Hok f t Hf s1 (conj eq_refl eq_refl)).
    destruct (two_runs _ _ _ _ _ _ _ _ _ Hc Hw Hs E1 E2) as [->|(m' & t1 & t2 & HK & P1 & P2 & F1 & F2)].
    - rewrite He. by intros ?%early_nil.
    - exact (dcd_two Er m' t1 t2 r1 s1' r2 s2' HK P1 P2 F1 F2 He).
  Qed.
End two.
