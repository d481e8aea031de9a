(** The first token that no sentence allows is reported. *)
From Coq Require Import String NArith.
From stdpp Require Import prelude list strings relations.
From Verif Require Import LexModel LexSpec LexFacts SynSetModel TableModel StreamModel StreamSpec StreamFacts
  TypeModel ProduceModel CfgSpec ParseSpec ProgFacts TreeFacts SoundFacts RunFacts InvFacts LookFacts LangFacts NodeFacts
  FuelFacts CompleteSpec CompleteFacts PrefixSpec EarlyFacts PrefixFacts.
Local Open Scope nat_scope.
#[local] Arguments ts_contains : simpl never.
#[local] Arguments ts_contains_e : simpl never.

Notation W := (wp True True).
Lemma wp_get_any {A} sp s (f : string → M A) Q : (∀ x, W (f x) s Q) → W (get_src sp ≫= f) s Q.
Proof.
  intros H. apply wp_bind. destruct (span_get sp (a_src s)) as [x|] eqn:E; [by eapply wp_get_src|].
  unfold wp, get_src. cbn [arun]. by rewrite E.
Qed.

(** * Failures with a single error *)
Section lone.
  Variable env : denv.
  Variables (first follow : prod → tset) (jump : prod → option tok → option nat).
  Notation produce := (produce env first follow jump).

  Definition single {A} (r : res A) : Prop := match r with RPanic es => ∃ e, es = [e] | _ => True end.
  Definition plain {A} (r : res A) : Prop := match r with RRec _ _ => False | RSucc _ => True | RPanic es => ∃ e, es = [e] end.
  Lemma single_unres {A} (r : res A) : single r → match unres r with (None, e) => ∃ x, e = [x] | _ => True end.
  Proof. by destruct r. Qed.
  Lemma single_map {A B} (f : A → B) r : single r → single (res_map f r).
  Proof. by destruct r. Qed.
  Lemma plain_map {A B} (f : A → B) r : plain r → plain (res_map f r).
  Proof. by destruct r. Qed.
  Lemma single_into {A} (a : A) es : single (res_into a es).
  Proof. by destruct es. Qed.

  Lemma seq_plain rec ts acc s : aok s → (∀ t s, t ∈ ts → aok s → W (rec t) s (λ r _, plain r)) →
    W (produce_seq rec ts acc []) s (λ r _, plain r).
  Proof.
    revert acc s. induction ts as [|t ts IH]; intros acc s Hok Hrec; cbn [produce_seq].
    - by apply wp_ret.
    - apply wp_bind. eapply wp_call; [apply Hrec; [set_solver|done]|done|]. intros r s1 l1 _ Hok1 H. cbn beta in H.
      destruct r as [x|x es|es]; cbn [unres]; [|done|].
      + cbn [app]. apply IH; [done|]. intros; apply Hrec; [set_solver|done].
      + apply wp_ret. exact H.
  Qed.
  Lemma produce_plain f t s : clean env t → aok s → W (produce f t) s (λ r _, plain r).
  Proof.
    revert t s. induction f as [|f IH]; intros t s Hc Hok; [done|].
    assert (Hsub : ∀ c s, c ∈ subs env t → aok s → W (produce f c) s (λ r _, plain r)).
    { intros c s' Hs Hok'. apply IH; [|done]. intros t' Ht. apply Hc. by eapply rtc_l. }
    assert (Hh := all_within_here _ _ _ Hc).
    destruct t as [n y [lit|]|n|ts|t|t|t|t|t|t|t|t|t d|t d|t r]; try done; cbn [ProduceModel.produce].
    - apply wp_bind, wp_parse_token. destruct (a_rest s) as [|t r]; [apply wp_ret; cbn; eauto|].
      case_decide; apply wp_ret; cbn; eauto.
    - destruct (env !! n) as [[fs|vs]|] eqn:En; [| |done].
      + apply wp_bind. eapply wp_call; [apply (seq_plain _ (map fst fs)); [done|]|done|].
        { intros c s' Hc'. apply Hsub. cbn. by rewrite En. }
        intros r s1 l1 _ Hok1 H. cbn beta in H. destruct r as [xs|xs es|es]; cbn [unres]; [|done|].
        * apply wp_bind. eapply wp_mono; [apply wp_true|]. intros _ s2 _. by apply wp_ret.
        * by apply wp_ret.
      + apply wp_bind, wp_peek_src; [done|]. destruct (_ ≫= _) as [[i [t' sem]]|] eqn:Ei.
        2: { apply wp_bind, wp_expecting, wp_ret. cbn. eauto. }
        assert (vs !! i = Some (t', sem)) as Hi.
        { destruct (jump (key (TNamed n)) (look s)) as [i'|]; [|done]. cbn in Ei.
          destruct (vs !! i') eqn:E; [|done]. cbn in Ei. injection Ei as -> ->. done. }
        apply wp_bind. eapply wp_call; [apply (Hsub t')|done|].
        { cbn. rewrite En. cbn. apply elem_of_list_lookup_2 in Hi. 
          apply elem_of_list_In, (in_map fst), elem_of_list_In in Hi. done. }
        { done. }
        intros r s1 l1 _ Hok1 H. cbn beta in H.
        destruct r as [x|x es|es]; [|done|]; destruct sem; try (by apply wp_ret); by apply wp_bind, wp_apply, wp_ret.
    - apply wp_bind. eapply wp_call; [apply (seq_plain _ ts); [done|]|done|].
      { intros c s' Hc'. by apply Hsub. }
      intros r s1 l1 _ Hok1 H. cbn beta in H. apply wp_ret. by apply plain_map.
    - apply Hsub; [cbn; set_solver|done].
    - apply wp_bind. eapply wp_call; [apply Hsub; [cbn; set_solver|done]|done|]. intros r s1 l1 _ Hok1 H. cbn beta in H.
      destruct r as [x|x es|es]; [|done|by apply wp_ret]. apply wp_get_any. intros str. by apply wp_ret.
    - apply wp_bind. eapply wp_call; [apply Hsub; [cbn; set_solver|done]|done|]. intros r s1 l1 _ Hok1 H. cbn beta in H.
      destruct r as [x|x es|es]; [|done|by apply wp_ret]. apply wp_get_any. intros str. by apply wp_ret.
  Qed.

  Lemma seq_single (S : ty → Prop) f ts acc s : aok s → lone_seq env S ts →
    (∀ t s, S t → aok s → W (produce f t) s (λ r _, single r)) →
    W (produce_seq (produce f) ts acc []) s (λ r _, single r).
  Proof.
    intros Hok Hl HS. revert acc s Hok. induction ts as [|t ts IH]; intros acc s Hok; cbn [produce_seq].
    - by apply wp_ret.
    - assert (Hl' : lone_seq env S ts).
      { intros l1 t' l2 ->. by apply (Hl (t :: l1) t' l2). }
      destruct (Hl [] t ts eq_refl) as [Ht Hc]. destruct ts as [|t2 ts].
      + apply wp_bind. eapply wp_call; [by apply HS|done|]. intros r s1 l1 _ Hok1 H. cbn beta in H.
        apply single_unres in H. revert H. destruct (unres r) as [[x|] e]; cbn [app produce_seq]; intros H; apply wp_ret; [apply single_into|done].
      + apply wp_bind. eapply wp_call; [apply produce_plain; [by apply Hc|done]|done|]. intros r s1 l1 _ Hok1 H. cbn beta in H.
        destruct r as [x|x es|es]; cbn [unres]; [|done|].
        * cbn [app]. by apply IH.
        * apply wp_ret. exact H.
  Qed.
  Lemma produce_single f t s : lone env t → aok s → W (produce f t) s (λ r _, single r).
  Proof.
    intros (S & HS & Hst). revert t s HS. induction f as [|f IH]; intros t s HS Hok; [done|].
    assert (Hh := Hst t HS).
    destruct t as [n y lit|n|ts|t|t|t|t|t|t|t|t|t d|t d|t r]; cbn [lone_by] in Hh; cbn [ProduceModel.produce].
    - apply wp_bind. destruct lit as [lit|].
      + apply wp_parse_token_lit; [done|]. destruct (a_rest s) as [|t r].
        * destruct (ts_contains_e _); apply wp_ret; cbn; eauto.
        * case_decide; [by apply wp_ret|]. destruct (ts_contains _ _); apply wp_ret; cbn; eauto.
      + apply wp_parse_token. destruct (a_rest s) as [|t r]; [apply wp_ret; cbn; eauto|].
        case_decide; apply wp_ret; cbn; eauto.
    - destruct (env !! n) as [[fs|vs]|] eqn:En; [| |done].
      + apply wp_bind. eapply wp_call; [by apply (seq_single S f (map fst fs))|done|].
        intros r s1 l1 _ Hok1 H. cbn beta in H. apply single_unres in H. revert H.
        destruct (unres r) as [[x|] e]; intros H.
        * apply wp_bind. eapply wp_mono; [apply wp_true|]. intros _ s2 _. apply wp_ret, single_into.
        * by apply wp_ret.
      + apply wp_bind, wp_peek_src; [done|]. destruct (_ ≫= _) as [[i [t' sem]]|] eqn:Ei.
        2: { apply wp_bind, wp_expecting, wp_ret. cbn. eauto. }
        assert (vs !! i = Some (t', sem)) as Hi.
        { destruct (jump (key (TNamed n)) (look s)) as [i'|]; [|done]. cbn in Ei.
          destruct (vs !! i') eqn:E; [|done]. cbn in Ei. injection Ei as -> ->. done. }
        apply wp_bind. eapply wp_call; [apply IH; [|done]|done|].
        { apply elem_of_list_lookup_2 in Hi. apply (Hh _ Hi). }
        intros r s1 l1 _ Hok1 H. cbn beta in H. assert (H' := single_map (TrVar i) r H).
        destruct r as [x|x es|es]; destruct sem; try (by apply wp_ret); by apply wp_bind, wp_apply, wp_ret.
    - apply wp_bind. eapply wp_call; [by apply (seq_single S f ts)|done|].
      intros r s1 l1 _ Hok1 H. cbn beta in H. apply wp_ret. by apply single_map.
    - by apply IH.
    - apply wp_bind. eapply (wp_mono _ _ _ _ (λ r _, single r)); [|intros r s1 H; apply wp_ret; by apply single_map].
      unfold produce_option. apply wp_bind, wp_peek_src; [done|].
      destruct (look s) as [x|]; [|by apply wp_bind, wp_empty_span, wp_ret].
      destruct (ts_contains _ _); [|by apply wp_bind, wp_empty_span, wp_ret].
      apply wp_bind. eapply wp_mono; [apply wp_true|]. intros r s1 _. destruct r; try (by apply wp_ret); by apply wp_bind, wp_empty_span, wp_ret.
    - apply wp_bind. eapply (wp_mono _ _ _ _ (λ r _, single r)); [|intros r s1 H; apply wp_ret; by apply single_map].
      unfold produce_option. apply wp_bind, wp_peek_src; [done|].
      destruct (look s) as [x|]; [|by apply wp_bind, wp_empty_span, wp_ret].
      destruct (ts_contains _ _); [|by apply wp_bind, wp_empty_span, wp_ret].
      apply wp_bind. eapply wp_mono; [apply wp_true|]. intros r s1 _. destruct r; try (by apply wp_ret); by apply wp_bind, wp_empty_span, wp_ret.
    - apply wp_bind. eapply wp_call; [by apply IH|done|]. intros r s1 l1 _ Hok1 H. cbn beta in H.
      destruct r as [x|x es|es]; [| |by apply wp_ret]; apply wp_get_any; intros str; by apply wp_ret.
    - apply wp_bind. eapply wp_call; [by apply IH|done|]. intros r s1 l1 _ Hok1 H. cbn beta in H.
      destruct r as [x|x es|es]; [| |by apply wp_ret]; apply wp_get_any; intros str; by apply wp_ret.
    - apply wp_bind. eapply (wp_mono _ _ _ _ (λ r _, single r)); [|intros r s1 H; apply wp_ret; by apply single_map].
      unfold produce_plus. apply wp_bind. eapply wp_call; [by apply IH|done|]. intros r s1 l1 _ Hok1 H. cbn beta in H.
      apply single_unres in H. revert H. destruct (unres r) as [[x|] e]; intros H.
      + apply wp_bind. eapply wp_mono; [apply wp_true|]. intros [[xs es] h] s2 _. apply wp_ret, single_into.
      + by apply wp_ret.
    - apply wp_bind. eapply (wp_mono _ _ _ _ (λ r _, single r)); [|intros r s1 H; apply wp_ret; by apply single_map].
      unfold produce_option. apply wp_bind, wp_peek_src; [done|].
      destruct (look s) as [x|]; [|by apply wp_bind, wp_empty_span, wp_ret].
      destruct (ts_contains _ _); [|by apply wp_bind, wp_empty_span, wp_ret].
      apply wp_bind. eapply wp_mono; [apply wp_true|]. intros r s1 _. destruct r; try (by apply wp_ret); by apply wp_bind, wp_empty_span, wp_ret.
    - apply wp_bind. eapply (wp_mono _ _ _ _ (λ r _, single r)); [|intros r s1 H; apply wp_ret; by apply single_map].
      unfold produce_loop. apply wp_bind. eapply wp_mono; [apply wp_true|]. intros [l es] s1 _.
      apply wp_bind. eapply wp_mono; [apply wp_true|]. intros sp s2 _. apply wp_ret, single_into.
    - unfold produce_split. apply wp_bind. eapply wp_call; [by apply IH|done|]. intros r s1 l1 _ Hok1 H. cbn beta in H.
      apply single_unres in H. revert H. destruct (unres r) as [[x|] e]; intros H.
      + apply wp_bind. eapply wp_mono; [apply wp_true|]. intros [[xs ps] es] s2 _. apply wp_ret, single_into.
      + by apply wp_ret.
    - unfold produce_punct. apply wp_bind. eapply wp_call; [by apply IH|done|]. intros r s1 l1 _ Hok1 H. cbn beta in H.
      apply single_unres in H. revert H. destruct (unres r) as [[x|] e]; intros H.
      + apply wp_bind. eapply wp_mono; [apply wp_true|]. intros [[xs ps] es] s2 _. apply wp_ret, single_into.
      + by apply wp_ret.
    - done.
  Qed.
End lone.

(** * Early errors stay *)
Section keep.
  Variable tk : token.
  Notation early := (early tk).

  Lemma early_l e1 e2 : early e1 → early (e1 ++ e2).
  Proof. rewrite early_app. auto. Qed.
  Lemma early_r e1 e2 : early e2 → early (e1 ++ e2).
  Proof. rewrite early_app. auto. Qed.
  Lemma early_merge_l p es : early (option_list p) → early (option_list (merge_panic p es)).
  Proof.
    unfold merge_panic. destruct (last es); [|done]. destruct p as [p|]; [|by intros ?%early_nil].
    cbn [option_list option_rect]. by rewrite !early_one.
  Qed.

  Lemma early_hi p hi : early (option_list (Some p)) → early (option_list (Some (set_hi p hi))).
  Proof. cbn [option_list option_rect]. by rewrite !early_one. Qed.

  Lemma seq_keep rec ts acc errs s : aok s → early errs → W (produce_seq rec ts acc errs) s (λ r _, early (unres r).2).
  Proof.
    revert acc errs s. induction ts as [|t ts IH]; intros acc errs s Hok He; cbn [produce_seq].
    - apply wp_ret. by rewrite unres_into.
    - apply wp_bind. eapply wp_call; [apply wp_true|done|]. intros r s1 l1 _ Hok1 _.
      destruct (unres r) as [[x|] e]; [by apply IH, early_l|]. apply wp_ret. by apply early_l.
  Qed.
  Lemma iter_keep p n set acc errs hi s : aok s → early errs → W (iter_loop n p set acc errs hi) s (λ '(_, es, _) _, early es).
  Proof.
    revert acc errs hi s. induction n as [|n IH]; intros acc errs hi s Hok He; cbn [iter_loop]; [done|].
    apply wp_bind, wp_peek_src; [done|]. destruct (look s) as [x|]; [|by apply wp_ret].
    destruct (ts_contains set (Some x)); [|by apply wp_ret].
    apply wp_bind. eapply wp_call; [apply wp_true|done|]. intros r s1 l1 _ Hok1 _.
    destruct (unres r) as [[y|] e]; [by apply IH, early_l|]. apply wp_ret. by apply early_l.
  Qed.
  Lemma loop_keep p n set acc errs s : aok s → early errs → W (loop_loop n p set acc errs) s (λ '(_, es) _, early es).
  Proof.
    revert acc errs s. induction n as [|n IH]; intros acc errs s Hok He; cbn [loop_loop]; [done|].
    apply wp_bind, wp_peek_src; [done|]. destruct (look s) as [x|]; [|by apply wp_ret].
    apply wp_bind. eapply (wp_call _ _ _ (λ '(_, es) _, early es)); [|done|].
    { destruct (ts_contains set (Some x)); [by apply wp_ret|].
      apply wp_bind, wp_cur_span. apply wp_bind, wp_consume.
      apply wp_bind, wp_peek_src; [by eapply adv_aok; [apply pop_adv|]|].
      apply wp_bind. eapply wp_mono; [apply wp_true|]. intros [t1 h] s2 _. apply wp_ret. by apply early_l. }
    intros [t1 es1] s1 l1 _ Hok1 He1. destruct t1; [|by apply wp_ret].
    apply wp_bind, wp_cur_span. apply wp_bind. eapply wp_call; [apply wp_true|done|]. intros r s2 l2 _ Hok2 _.
    destruct (unres r) as [o e]. apply wp_bind, wp_cur_span.
    destruct (_ =? _); [apply wp_ret; by apply early_l, early_l|]. by apply IH, early_l.
  Qed.
  Lemma split_inner_keep pT n ef pf fol panic errs s : aok s → early (errs ++ option_list panic) →
    W (split_inner n pT ef pf fol panic errs) s (λ '(_, es, _) _, early es).
  Proof.
    revert panic s. induction n as [|n IH]; intros panic s Hok He; cbn [split_inner]; [done|].
    apply wp_bind, wp_peek_src; [done|]. apply wp_bind.
    apply (wp_call _ _ _ (λ step _, match step with
      | inl (_, es) => early es | inr (_, p') => early (errs ++ option_list p') end)); [|done|].
    { rewrite early_app in He. destruct (_ || _).
      - apply wp_bind. eapply wp_call; [apply wp_true|done|]. intros r s1 l1 _ Hok1 _.
        destruct (unres r) as [[x|] e].
        + apply wp_ret. rewrite !early_app. tauto.
        + apply wp_bind, wp_peek_src; [done|]. apply wp_ret. rewrite early_app. destruct He; [by left|right]. by apply early_merge_l.
      - destruct panic as [p|].
        + apply wp_bind, wp_cur_span, wp_ret. rewrite early_app. destruct He as [?|He]; [by left|right; by apply early_hi].
        + apply wp_bind, wp_expecting, wp_ret. rewrite early_app. destruct He as [?|?%early_nil]; [by left|done]. }
    intros [[x es]|[tk' p']] s1 l1 _ Hok1 H; [by apply wp_ret|].
    destruct (ts_contains pf tk'); [by apply wp_ret|]. destruct (_ || _); [by apply wp_ret|].
    apply wp_bind, wp_consume. apply IH; [|done]. by eapply adv_aok; [apply pop_adv|].
  Qed.
  Lemma split_outer_keep pT pP n ef pf fol elems puncts errs s : aok s → early errs →
    W (split_outer n pT pP ef pf fol elems puncts errs) s (λ '(_, _, es) _, early es).
  Proof.
    revert elems puncts errs s. induction n as [|n IH]; intros elems puncts errs s Hok He; cbn [split_outer]; [done|].
    apply wp_bind, wp_peek_src; [done|]. destruct (look s) as [x|]; [|by apply wp_ret].
    destruct (ts_contains pf (Some x)); [|by apply wp_ret].
    apply wp_bind. eapply wp_call; [apply wp_true|done|]. intros r s1 l1 _ Hok1 _.
    destruct (unres r) as [[q|] e]; [|apply wp_ret; by apply early_l].
    apply wp_bind. eapply wp_call; [apply split_inner_keep; [done|by apply early_l, early_l]|done|].
    intros [[o es] c] s2 l2 _ Hok2 H2. destruct c; [by apply IH|by apply wp_ret].
  Qed.
  Lemma punct_inner_keep pT n ef pf fol panic errs s : aok s → early (errs ++ option_list panic) →
    W (punct_inner n pT ef pf fol panic errs) s (λ '(_, es, _) _, early es).
  Proof.
    revert panic s. induction n as [|n IH]; intros panic s Hok He; cbn [punct_inner]; [done|].
    apply wp_bind, wp_peek_src; [done|]. destruct (look s) as [x|]; [|by apply wp_ret].
    destruct (_ && _); [by apply wp_ret|]. apply wp_bind.
    apply (wp_call _ _ _ (λ step _, match step with
      | inl (_, es) => early es | inr p' => early (errs ++ option_list p') end)); [|done|].
    { rewrite early_app in He. destruct (ts_contains ef (Some x)).
      - apply wp_bind. eapply wp_call; [apply wp_true|done|]. intros r s1 l1 _ Hok1 _.
        destruct (unres r) as [[y|] e]; apply wp_ret.
        + rewrite !early_app. tauto.
        + rewrite early_app. destruct He; [by left|right]. by apply early_merge_l.
      - apply wp_bind, wp_cur_span, wp_ret. rewrite early_app. destruct He as [?|He]; [by left|].
        destruct panic as [p|]; [right; by apply early_hi|]. by apply early_nil in He. }
    intros [[y es]|p'] s1 l1 _ Hok1 H; [by apply wp_ret|]. apply wp_bind, wp_peek_src; [done|].
    destruct (ts_contains pf _); [by apply wp_ret|]. destruct (_ || _); [by apply wp_ret|].
    apply wp_bind, wp_consume. apply IH; [|done]. by eapply adv_aok; [apply pop_adv|].
  Qed.
  Lemma punct_outer_keep pT pP n ef pf fol elems puncts errs s : aok s → early errs →
    W (punct_outer n pT pP ef pf fol elems puncts errs) s (λ '(_, _, es) _, early es).
  Proof.
    revert elems puncts errs s. induction n as [|n IH]; intros elems puncts errs s Hok He; cbn [punct_outer]; [done|].
    apply wp_bind, wp_peek_src; [done|]. destruct (look s) as [x|]; [|by apply wp_ret].
    destruct (ts_contains pf (Some x)); [|by apply wp_ret].
    apply wp_bind. eapply wp_call; [apply wp_true|done|]. intros r s1 l1 _ Hok1 _.
    destruct (unres r) as [[q|] e]; [|apply wp_ret; by apply early_l].
    apply wp_bind. eapply wp_call; [apply punct_inner_keep; [done|by apply early_l, early_l]|done|].
    intros [[o es] c] s2 l2 _ Hok2 H2. destruct c; [by apply IH|by apply wp_ret].
  Qed.
End keep.

(** * Up to the token *)
Section offend.
  Variable tk : token.
  Variable env : denv.
  Notation early := (early tk).
  Notation lang := (lang env).
  Notation langs := (langs env).

  Definition before (s : ast) : Prop := aok s ∧ tk ∈ a_rest s.
  Lemma before_aok s : before s → aok s.
  Proof. by intros [? _]. Qed.
  Lemma before_look s : before s → ∃ x, look s = Some x.
  Proof. intros [_ H]. unfold look. destruct (a_rest s); [by apply elem_of_nil in H|eauto]. Qed.
  Lemma before_cur s : before s → sp_lo (a_span s) < sp_hi (t_span tk).
  Proof.
    intros [Hok H]. destruct (aok_pos _ Hok) as [H1 _]. unfold a_span. destruct (a_rest s) as [|t r]; [by apply elem_of_nil in H|].
    cbn in H1. destruct H1 as (_ & H1 & H2). apply elem_of_cons in H as [->|H]; [done|].
    destruct (spans_ok_in _ _ _ (t_span tk) H2) as (? & ? & _); [|lia]. apply elem_of_list_In, in_map, elem_of_list_In. done.
  Qed.
  Lemma before_err s e : before s → sp_lo (e_span e) = sp_lo (a_span s) → early [e].
  Proof. intros H E. rewrite early_one, E. by apply before_cur. Qed.

  (** The tokens up to [tk] begin a word in [L]. *)
  Definition cut (L : list tok → Prop) (s : ast) : Prop :=
    ∃ u v w, a_rest s = u ++ tk :: v ∧ Forall (λ x, snd x ≠ ""%string) w ∧ L (word (a_src s) (u ++ [tk]) ++ w).
  (** A result is there and its tokens, all before [tk], are a word in [L]. *)
  Definition done_ (L : list tok → Prop) (s s' : ast) : Prop := before s' ∧ ∃ l, adv s l s' ∧ L (word (a_src s) l).
  Definition got (ok : Prop) (L : list tok → Prop) (s : ast) (es : list perr) (s' : ast) : Prop :=
    early es ∨ (ok ∧ done_ L s s') ∨ cut L s.
  Definition offp (t : ty) (p : M (res tree)) : Prop :=
    ∀ s, before s → W p s (λ r s', got (is_Some (unres r).1) (lang t) s (unres r).2 s').

  Lemma word_app src l1 l2 : word src (l1 ++ l2) = word src l1 ++ word src l2.
  Proof. apply map_app. Qed.
  Lemma cut_mono (L L' : list tok → Prop) s : cut L s → (∀ w, L w → ∃ w', Forall (λ x, snd x ≠ ""%string) w' ∧ L' (w ++ w')) → cut L' s.
  Proof.
    intros (u & v & w & H1 & H2 & H3) H. destruct (H _ H3) as (w' & Hw' & Hl). exists u, v, (w ++ w'). split; [done|].
    split; [by apply Forall_app|]. by rewrite (assoc_L (++)).
  Qed.
  Lemma cut_imp (L L' : list tok → Prop) s : cut L s → (∀ w, L w → L' w) → cut L' s.
  Proof. intros H HL. eapply cut_mono; [done|]. intros w Hw. exists []. rewrite app_nil_r. auto. Qed.
  Lemma done_refl (L : list tok → Prop) s : before s → L [] → done_ L s s.
  Proof. intros H HL. split; [done|]. exists []. split; [apply adv_refl|done]. Qed.
  Lemma done_imp (L L' : list tok → Prop) s s' : done_ L s s' → (∀ w, L w → L' w) → done_ L' s s'.
  Proof. intros [H (l & H1 & H2)] HL. split; [done|]. eauto. Qed.
  Lemma done_adv L s s1 s2 : done_ L s s1 → adv s1 [] s2 → done_ L s s2.
  Proof.
    intros [[H1 H2] (l & Hl & HL)] Ha. split.
    - split; [by eapply adv_aok|]. by rewrite (proj1 (adv_nil _ _ Ha)).
    - exists l. split; [|done]. rewrite <- (app_nil_r l). by eapply adv_trans.
  Qed.
  Lemma got_imp (ok ok' : Prop) (L L' : list tok → Prop) s es s' : got ok L s es s' → (ok → ok') → (∀ w, L w → L' w) → got ok' L' s es s'.
  Proof. intros [H|[[H1 H2]|H]] Hok HL; [by left| |]; right; [left|right]; [split; [auto|by eapply done_imp]|by eapply cut_imp]. Qed.
  Lemma cut_seq (L1 L2 L : list tok → Prop) s s1 : done_ L1 s s1 → cut L2 s1 → (∀ w1 w2, L1 w1 → L2 w2 → L (w1 ++ w2)) → cut L s.
  Proof.
    intros [_ (l & Hl & H1)] (u & v & w & E & Hw & H2) HL. exists (l ++ u), v, w. split.
    { rewrite (adv_rest _ _ _ Hl), E. by rewrite (assoc_L (++)). }
    split; [done|]. rewrite <- (assoc_L (++)), word_app, <- (assoc_L (++)). apply HL; [done|].
    by rewrite <- (adv_src _ _ _ Hl).
  Qed.
  Lemma done_seq (L1 L2 L : list tok → Prop) s s1 s2 : done_ L1 s s1 → done_ L2 s1 s2 →
    (∀ w1 w2, L1 w1 → L2 w2 → L (w1 ++ w2)) → done_ L s s2.
  Proof.
    intros [_ (l & Hl & H1)] [Hb (l2 & Hl2 & H2)] HL. split; [done|]. exists (l ++ l2). split; [by eapply adv_trans|].
    rewrite word_app. apply HL; [done|]. by rewrite <- (adv_src _ _ _ Hl).
  Qed.
  Lemma done_pair (L1 L2 : list tok → Prop) s s1 s2 : done_ L1 s s1 → done_ L2 s1 s2 →
    done_ (λ w, ∃ w1 w2, w = w1 ++ w2 ∧ L1 w1 ∧ L2 w2) s s2.
  Proof. intros H1 H2. eapply done_seq; [exact H1|exact H2|]. eauto. Qed.
  Lemma got_seq ok (L1 L2 L : list tok → Prop) s s1 es s2 : done_ L1 s s1 → got ok L2 s1 es s2 →
    (∀ w1 w2, L1 w1 → L2 w2 → L (w1 ++ w2)) → got ok L s es s2.
  Proof.
    intros H1 [H2|[[H2 H3]|H2]] HL; [by left| |]; right; [left|right]; [split; [done|by eapply done_seq]|by eapply cut_seq].
  Qed.
  Lemma done_before L s s' : done_ L s s' → before s'.
  Proof. by intros [? _]. Qed.
  Lemma wp_cut {A} (m : M A) s1 (Q : A → ast → Prop) : (∀ a s', Q a s') → W m s1 Q.
  Proof. intros H. eapply wp_mono; [apply wp_true|]. auto. Qed.

  Lemma langs_viable ts : (∀ t, t ∈ ts → viable env t []) → ∃ w, Forall (λ x, snd x ≠ ""%string) w ∧ langs ts w.
  Proof.
    induction ts as [|t ts IH]; intros H; [exists []; split; [done|constructor]|].
    destruct (H t) as (w1 & Hw1 & L1); [set_solver|]. destruct IH as (w2 & Hw2 & L2); [set_solver|].
    exists (w1 ++ w2). split; [by apply Forall_app|]. by constructor.
  Qed.

  (** Terminals *)
  Lemma tok_got s t r (L : list tok → Prop) (ok : Prop) (es : list perr) : before s → a_rest s = t :: r → ok → L (word (a_src s) [t]) →
    got ok L s es (pop s).
  Proof.
    intros [Hok H] E Hk HL. right. rewrite E in H. destruct (pop_adv1 s t r E) as [Ha Hr].
    apply elem_of_cons in H as [<-|H].
    - right. exists [], r, []. split; [done|]. split; [done|]. by rewrite app_nil_r.
    - left. split; [done|]. split; [split; [by eapply adv_aok|by rewrite Hr]|]. eauto.
  Qed.
  Lemma look_word s x t r : aok s → a_rest s = t :: r → look s = Some x → word (a_src s) [t] = [x].
  Proof. intros _ E. unfold look. rewrite E. by intros [= <-]. Qed.

  (** Sequences *)
  Lemma seq_got rec ts acc errs s : before s → (∀ t, t ∈ ts → offp t (rec t)) → (∀ t, t ∈ ts → viable env t []) →
    W (produce_seq rec ts acc errs) s (λ r s', got (is_Some (unres r).1) (langs ts) s (unres r).2 s').
  Proof.
    revert acc errs s. induction ts as [|t ts IH]; intros acc errs s Hb Hrec Hv; cbn [produce_seq].
    - apply wp_ret. rewrite unres_into. right. left. split; [eauto|]. apply done_refl; [done|constructor].
    - apply wp_bind. eapply wp_call; [apply Hrec; [set_solver|done]|by apply before_aok|].
      intros r s1 l1 _ Hok1 H. cbn beta in H. destruct H as [H|[[H1 H2]|H]].
      + destruct (unres r) as [[x|] e]; cbn [snd] in H; [|apply wp_ret; left; by apply early_r].
        eapply wp_mono; [apply seq_keep; [done|by apply early_r]|]. intros r2 s2 H2. by left.
      + destruct (unres r) as [[x|] e]; cbn [fst] in H1; [|by destruct H1].
        eapply wp_mono; [apply IH; [by eapply done_before| |]|].
        { intros; apply Hrec; set_solver. }
        { intros; apply Hv; set_solver. }
        intros r2 s2 H3. cbn beta in H3. eapply got_seq; [done|done|]. intros w1 w2 ??. by constructor.
      + assert (Hc : cut (langs (t :: ts)) s).
        { eapply cut_mono; [done|]. intros w Hw. destruct (langs_viable ts) as (w' & Hw' & Hl); [intros; apply Hv; set_solver|].
          exists w'. split; [done|]. by constructor. }
        apply wp_cut. intros a s'. by right; right.
  Qed.
  Lemma option_got {X} (p : M (res X)) (sp : X → span) set (L : list tok → Prop) s : before s →
    W p s (λ r s', got (is_Some (unres r).1) L s (unres r).2 s') →
    W (produce_option p sp set) s (λ r s', got (is_Some (unres r).1) (λ w, w = [] ∨ L w) s (unres r).2 s').
  Proof.
    intros Hb Hp. unfold produce_option. assert (Hok := before_aok _ Hb). apply wp_bind, wp_peek_src; [done|].
    assert (Hnone : W (e ← empty_span; mret (RSucc (e, @None X))) s
      (λ r s', got (is_Some (unres r).1) (λ w, w = [] ∨ L w) s (unres r).2 s')).
    { apply wp_bind, wp_empty_span, wp_ret. right; left. split; [cbn; eauto|]. apply done_refl; [done|by left]. }
    destruct (look s) as [x|]; [|done]. destruct (ts_contains set (Some x)); [|done].
    apply wp_bind. eapply wp_call; [done|done|]. intros r s1 l1 Hl1 Hok1 H. cbn beta in H.
    destruct r as [y|y es|es]; [apply wp_ret|apply wp_ret|apply wp_bind, wp_empty_span, wp_ret]; cbn [unres fst snd] in *;
      (eapply got_imp; [exact H|intros; eauto|by right]).
  Qed.
  Lemma iter_got t p n set acc errs hi s : before s → offp t p →
    W (iter_loop n p set acc errs hi) s (λ '(_, es, _) s', got True (λ w, ∃ n, langs (replicate n t) w) s es s').
  Proof.
    intros Hb Hp. revert acc errs hi s Hb. induction n as [|n IH]; intros acc errs hi s Hb; cbn [iter_loop]; [done|].
    assert (Hok := before_aok _ Hb). apply wp_bind, wp_peek_src; [done|].
    assert (Hstop : ∀ es, got True (λ w, ∃ n, langs (replicate n t) w) s es s).
    { intros es. right; left. split; [done|]. apply done_refl; [done|]. exists 0. constructor. }
    destruct (look s) as [x|]; [|by apply wp_ret]. destruct (ts_contains set (Some x)); [|by apply wp_ret].
    apply wp_bind. eapply wp_call; [by apply Hp|done|]. intros r s1 l1 _ Hok1 H. cbn beta in H.
    destruct H as [H|[[H1 H2]|H]].
    - destruct (unres r) as [[y|] e]; cbn [snd] in H; [|apply wp_ret; left; by apply early_r].
      eapply wp_mono; [apply iter_keep; [done|by apply early_r]|]. intros [[xs es] h] s2 H2. by left.
    - destruct (unres r) as [[y|] e]; cbn [fst] in H1; [|by destruct H1].
      eapply wp_mono; [apply IH; by eapply done_before|]. intros [[xs es] h] s2 H3. eapply got_seq; [done|done|].
      intros w1 w2 Hw1 [k Hk]. exists (S k). by constructor.
    - assert (Hc : cut (λ w, ∃ n, langs (replicate n t) w) s).
      { eapply cut_imp; [done|]. intros w Hw. exists 1. by apply langs_one. }
      apply wp_cut. intros [[xs es] h] s'. by right; right.
  Qed.
  Lemma plus_got t p n set s : before s → offp t p →
    W (produce_plus n p set) s (λ r s', got (is_Some (unres r).1) (λ w, ∃ n, langs (replicate (S n) t) w) s (unres r).2 s').
  Proof.
    intros Hb Hp. assert (Hok := before_aok _ Hb). unfold produce_plus.
    apply wp_bind. eapply wp_call; [by apply Hp|done|]. intros r s1 l1 _ Hok1 H. cbn beta in H.
    destruct H as [H|[[H1 H2]|H]].
    - destruct (unres r) as [[y|] e]; cbn [snd] in H; [|apply wp_ret; by left].
      apply wp_bind. eapply wp_mono; [by apply (iter_keep tk)|]. intros [[xs es] h] s2 H2. apply wp_ret. left. by rewrite unres_into.
    - destruct (unres r) as [[y|] e]; cbn [fst] in H1; [|by destruct H1]. apply wp_bind.
      eapply wp_mono; [apply (iter_got t); [by eapply done_before|done]|]. intros [[xs es] h] s2 H3. apply wp_ret. rewrite unres_into.
      eapply got_seq; [done|eapply got_imp; [exact H3|cbn; eauto|by intros w Hw; exact Hw]|].
      intros w1 w2 Hw1 [k Hk]. exists k. by constructor.
    - assert (Hc : cut (λ w, ∃ n, langs (replicate (S n) t) w) s).
      { eapply cut_imp; [done|]. intros w Hw. exists 0. by apply langs_one. }
      apply wp_cut. intros r' s'. by right; right.
  Qed.

  Lemma loop_got t p n set acc errs s : before s → offp t p →
    W (loop_loop n p set acc errs) s (λ '(_, es) s', early es ∨ cut (λ w, ∃ n, langs (replicate (S n) t) w) s).
  Proof.
    intros Hb Hp. revert acc errs s Hb. induction n as [|n IH]; intros acc errs s Hb; cbn [loop_loop]; [done|].
    assert (Hok := before_aok _ Hb). apply wp_bind, wp_peek_src; [done|]. destruct (before_look _ Hb) as [x Hx]. rewrite Hx.
    apply wp_bind. destruct (ts_contains set (Some x)).
    2: { apply wp_bind, wp_cur_span. apply wp_bind, wp_consume.
      assert (Hok1 : aok (pop s)) by (by eapply adv_aok; [apply pop_adv|]).
      apply wp_bind, wp_peek_src; [done|].
      apply wp_bind. eapply wp_call; [apply wp_true|done|]. intros [t1 h] s2 l2 _ Hok2 _. apply wp_ret.
      assert (He : early (errs ++ [PErr (Span (sp_lo (a_span s)) h) UnexpectedTokens])) by (by apply early_r, (before_err s)).
      destruct t1; [|apply wp_ret; by left].
      apply wp_bind, wp_cur_span. apply wp_bind. eapply wp_call; [apply wp_true|done|]. intros r s3 l3 _ Hok3 _.
      destruct (unres r) as [o e]. apply wp_bind, wp_cur_span.
      destruct (_ =? _); [apply wp_ret; left; by apply early_l, early_l|].
      eapply wp_mono; [apply loop_keep; [done|by apply early_l]|]. intros [xs es] s4 H4. by left. }
    apply wp_ret. apply wp_bind, wp_cur_span. apply wp_bind. eapply wp_call; [by apply Hp|done|].
    intros r s1 l1 _ Hok1 H. cbn beta in H. destruct (unres r) as [o e]. cbn [fst snd] in H.
    apply wp_bind, wp_cur_span. destruct H as [H|[[H1 H2]|H]].
    - destruct (_ =? _); [apply wp_ret; left; by apply early_l, early_r|].
      eapply wp_mono; [apply loop_keep; [done|by apply early_r]|]. intros [xs es] s4 H4. by left.
    - destruct (_ =? _).
      + apply wp_ret. left. apply early_r. apply (before_err s1); [by eapply done_before|done].
      + eapply wp_mono; [apply IH; by eapply done_before|]. intros [xs es] s4 [H4|H4]; [by left|right].
        eapply cut_seq; [done|done|]. intros w1 w2 Hw1 [k Hk]. exists (S k). by constructor.
    - assert (Hc : cut (λ w, ∃ n, langs (replicate (S n) t) w) s).
      { eapply cut_imp; [done|]. intros w Hw. exists 0. by apply langs_one. }
      destruct (_ =? _); [apply wp_ret; by right|]. apply wp_cut. intros [xs es] s'. by right.
  Qed.

  Lemma split_inner_got t pT n ef pf fol errs s : before s → offp t pT → (∀ s, aok s → W pT s (λ r _, single r)) →
    W (split_inner n pT ef pf fol None errs) s (λ '(o, es, c) s',
      early es ∨ (is_Some o ∧ c = true ∧ done_ (lang t) s s') ∨ cut (lang t) s).
  Proof.
    intros Hb Hp Hs. destruct n as [|n]; cbn [split_inner]; [done|].
    assert (Hok := before_aok _ Hb). apply wp_bind, wp_peek_src; [done|]. apply wp_bind.
    apply (wp_call _ _ _ (λ step s1, cut (lang t) s ∨ match step with
      | inl (_, es) => early es ∨ done_ (lang t) s s1 | inr (_, p') => early (errs ++ option_list p') end)); [|done|].
    { destruct (_ || _).
      - apply wp_bind. eapply wp_call; [apply wp_and; [by apply Hp|by apply Hs]|done|].
        intros r s1 l1 _ Hok1 [H Hr]. cbn beta in H, Hr. apply single_unres in Hr. revert H Hr.
        destruct (unres r) as [[x|] e]; cbn [fst snd]; intros H Hr.
        + apply wp_ret. destruct H as [H|[[_ H]|H]]; [| |by left]; right; [left; by apply early_r, early_l|by right].
        + apply wp_bind, wp_peek_src; [done|]. apply wp_ret. destruct Hr as [y ->].
          destruct H as [H|[[[? ?] _]|H]]; [right|done|by left]. by apply early_r.
      - apply wp_bind, wp_expecting, wp_ret. right. apply early_r. by apply (before_err s). }
    intros [[x es]|[tk' p']] s1 l1 _ Hok1 H.
    - apply wp_ret. destruct H as [H|[H|H]]; [by right; right|by left|]. right; left. eauto.
    - destruct (ts_contains pf tk'); [apply wp_ret; destruct H; [by right; right|by left]|].
      destruct (_ || _); [apply wp_ret; destruct H; [by right; right|by left]|].
      apply wp_bind, wp_consume. destruct H as [H|H].
      + apply wp_cut. intros [[o es] c] s2. by right; right.
      + eapply wp_mono; [apply split_inner_keep; [by eapply adv_aok; [apply pop_adv|]|exact H]|]. intros [[o es] c] s2 H2. by left.
  Qed.
  Lemma split_outer_got t d pT pP n ef pf fol elems puncts errs s : before s → offp t pT → offp d pP →
    (∀ s, aok s → W pT s (λ r _, single r)) → viable env t [] →
    W (split_outer n pT pP ef pf fol elems puncts errs) s (λ '(_, _, es) s',
      got True (λ w, ∃ n, langs (concat (replicate n [d; t])) w) s es s').
  Proof.
    intros Hb Hp Hd Hs Hv. revert elems puncts errs s Hb.
    induction n as [|n IH]; intros elems puncts errs s Hb; cbn [split_outer]; [done|].
    assert (Hok := before_aok _ Hb). apply wp_bind, wp_peek_src; [done|].
    assert (Hstop : ∀ es, got True (λ w, ∃ n, langs (concat (replicate n [d; t])) w) s es s).
    { intros es. right; left. split; [done|]. apply done_refl; [done|]. exists 0. constructor. }
    assert (Hone : ∀ w1 w2, lang d w1 → lang t w2 → ∃ n, langs (concat (replicate n [d; t])) (w1 ++ w2)).
    { intros w1 w2 ??. exists 1. cbn. constructor; [done|]. by apply langs_one. }
    destruct (look s) as [x|]; [|by apply wp_ret]. destruct (ts_contains pf (Some x)); [|by apply wp_ret].
    apply wp_bind. eapply wp_call; [by apply Hd|done|]. intros r s1 l1 _ Hok1 H. cbn beta in H.
    destruct H as [H|[[H1 H2]|H]].
    - destruct (unres r) as [[y|] e]; cbn [snd] in H; [|apply wp_ret; left; by apply early_r].
      apply wp_bind. eapply wp_call; [apply split_inner_keep; [done|by apply early_l, early_r]|done|].
      intros [[o es] c] s2 l2 _ Hok2 H2. destruct c; [|apply wp_ret; by left].
      eapply wp_mono; [apply split_outer_keep; [done|exact H2]|]. intros [[xs ps] es'] s3 H3. by left.
    - destruct (unres r) as [[y|] e]; cbn [fst] in H1; [|by destruct H1].
      apply wp_bind. eapply wp_call; [apply (split_inner_got t); [by eapply done_before|done|done]|done|].
      intros [[o es] c] s2 l2 _ Hok2 H3. destruct H3 as [H3|[(_ & -> & H3)|H3]].
      + destruct c; [|apply wp_ret; by left].
        eapply wp_mono; [apply split_outer_keep; [done|exact H3]|]. intros [[xs ps] es'] s3 H4. by left.
      + eapply wp_mono; [apply IH; by eapply done_before|]. intros [[xs ps] es'] s3 H4.
        eapply got_seq; [exact (done_pair _ _ _ _ _ H2 H3)|exact H4|].
        intros w1 w2 (v1 & v2 & -> & Hv1 & Hv2) [k Hk]. exists (S k). cbn. rewrite <- (assoc_L (++)). by repeat constructor.
      + assert (Hc : cut (λ w, ∃ n, langs (concat (replicate n [d; t])) w) s) by (by eapply cut_seq).
        destruct c; [|apply wp_ret; by right; right]. apply wp_cut. intros [[xs ps] es'] s'. by right; right.
    - assert (Hc : cut (λ w, ∃ n, langs (concat (replicate n [d; t])) w) s).
      { eapply cut_mono; [done|]. intros w Hw. destruct Hv as (w' & Hw' & Hl). exists w'. auto. }
      apply wp_cut. intros [[xs ps] es'] s'. by right; right.
  Qed.
  Lemma split_got t d pT pP n ef pf fol s : before s → offp t pT → offp d pP →
    (∀ s, aok s → W pT s (λ r _, single r)) → viable env t [] →
    W (produce_split n pT pP ef pf fol) s (λ r s', got (is_Some (unres r).1) (lang (TSplit t d)) s (unres r).2 s').
  Proof.
    intros Hb Hp Hd Hs Hv. assert (Hok := before_aok _ Hb). unfold produce_split.
    apply wp_bind. eapply wp_call; [by apply Hp|done|]. intros r s1 l1 _ Hok1 H. cbn beta in H.
    destruct H as [H|[[H1 H2]|H]].
    - destruct (unres r) as [[y|] e]; cbn [snd] in H; [|apply wp_ret; by left].
      apply wp_bind. eapply wp_mono; [by apply (split_outer_keep tk)|]. intros [[xs ps] es] s2 H2. apply wp_ret. left. by rewrite unres_into.
    - destruct (unres r) as [[y|] e]; cbn [fst] in H1; [|by destruct H1]. apply wp_bind.
      eapply wp_mono; [apply (split_outer_got t d); [by eapply done_before|done..]|]. intros [[xs ps] es] s2 H3. apply wp_ret. rewrite unres_into.
      eapply got_seq; [done|eapply got_imp; [exact H3|cbn; eauto|by intros w Hw; exact Hw]|].
      intros w1 w2 Hw1 [k Hk]. apply (l_split _ _ _ k). by constructor.
    - assert (Hc : cut (lang (TSplit t d)) s).
      { eapply cut_imp; [done|]. intros w Hw. apply (l_split _ _ _ 0). by apply langs_one. }
      apply wp_cut. intros r' s'. by right; right.
  Qed.

  Lemma punct_inner_got t pT n ef pf fol errs s : before s → offp t pT → (∀ s, aok s → W pT s (λ r _, single r)) →
    W (punct_inner n pT ef pf fol None errs) s (λ '(o, es, c) s',
      early es ∨ (if c : bool then done_ (lang t) s s' else s' = s) ∨ cut (lang t) s).
  Proof.
    intros Hb Hp Hs. destruct n as [|n]; cbn [punct_inner]; [done|].
    assert (Hok := before_aok _ Hb). apply wp_bind, wp_peek_src; [done|]. destruct (before_look _ Hb) as [x Hx]. rewrite Hx.
    destruct (_ && _); [apply wp_ret; by right; left|]. apply wp_bind.
    apply (wp_call _ _ _ (λ step s1, cut (lang t) s ∨ match step with
      | inl (_, es) => early es ∨ done_ (lang t) s s1 | inr p' => early (errs ++ option_list p') end)); [|done|].
    { destruct (ts_contains ef (Some x)).
      - apply wp_bind. eapply wp_call; [apply wp_and; [by apply Hp|by apply Hs]|done|].
        intros r s1 l1 _ Hok1 [H Hr]. cbn beta in H, Hr. apply single_unres in Hr. revert H Hr.
        destruct (unres r) as [[y|] e]; cbn [fst snd]; intros H Hr; apply wp_ret.
        + destruct H as [H|[[_ H]|H]]; [| |by left]; right; [left; by apply early_r, early_r|by right].
        + destruct Hr as [y ->]. destruct H as [H|[[[? ?] _]|H]]; [right|done|by left]. by apply early_r.
      - apply wp_bind, wp_cur_span, wp_ret. right. apply early_r. by apply (before_err s). }
    intros [[y es]|p'] s1 l1 _ Hok1 H.
    - apply wp_ret. destruct H as [H|[H|H]]; [by right; right|by left|]. by right; left.
    - apply wp_bind, wp_peek_src; [done|]. destruct (ts_contains pf _); [apply wp_ret; destruct H; [by right; right|by left]|].
      destruct (_ || _); [apply wp_ret; destruct H; [by right; right|by left]|].
      apply wp_bind, wp_consume. destruct H as [H|H].
      + apply wp_cut. intros [[o es] c] s2. by right; right.
      + eapply wp_mono; [apply punct_inner_keep; [by eapply adv_aok; [apply pop_adv|]|exact H]|]. intros [[o es] c] s2 H2. by left.
  Qed.
  Definition tail_of (t d : ty) (w : list tok) : Prop :=
    ∃ n (b : bool), langs (concat (replicate n [d; t]) ++ if b then [d] else []) w.
  Lemma punct_outer_got t d pT pP n ef pf fol elems puncts errs s : before s → offp t pT → offp d pP →
    (∀ s, aok s → W pT s (λ r _, single r)) →
    W (punct_outer n pT pP ef pf fol elems puncts errs) s (λ '(_, _, es) s', got True (tail_of t d) s es s').
  Proof.
    intros Hb Hp Hd Hs. revert elems puncts errs s Hb.
    induction n as [|n IH]; intros elems puncts errs s Hb; cbn [punct_outer]; [done|].
    assert (Hok := before_aok _ Hb). apply wp_bind, wp_peek_src; [done|].
    assert (Hstop : ∀ es, got True (tail_of t d) s es s).
    { intros es. right; left. split; [done|]. apply done_refl; [done|]. exists 0, false. constructor. }
    assert (Hone : ∀ w1 w2, lang d w1 → lang t w2 → tail_of t d (w1 ++ w2)).
    { intros w1 w2 ??. exists 1, false. cbn. constructor; [done|]. by apply langs_one. }
    assert (Hzero : ∀ w1, lang d w1 → tail_of t d w1).
    { intros w1 ?. exists 0, true. cbn. by apply langs_one. }
    destruct (look s) as [x|]; [|by apply wp_ret]. destruct (ts_contains pf (Some x)); [|by apply wp_ret].
    apply wp_bind. eapply wp_call; [by apply Hd|done|]. intros r s1 l1 _ Hok1 H. cbn beta in H.
    destruct H as [H|[[H1 H2]|H]].
    - destruct (unres r) as [[y|] e]; cbn [snd] in H; [|apply wp_ret; left; by apply early_r].
      apply wp_bind. eapply wp_call; [apply punct_inner_keep; [done|by apply early_l, early_r]|done|].
      intros [[o es] c] s2 l2 _ Hok2 H2. destruct c; [|apply wp_ret; by left].
      eapply wp_mono; [apply punct_outer_keep; [done|exact H2]|]. intros [[xs ps] es'] s3 H3. by left.
    - destruct (unres r) as [[y|] e]; cbn [fst] in H1; [|by destruct H1].
      apply wp_bind. eapply wp_call; [apply (punct_inner_got t); [by eapply done_before|done|done]|done|].
      intros [[o es] c] s2 l2 _ Hok2 H3. destruct H3 as [H3|[H3|H3]].
      + destruct c; [|apply wp_ret; by left].
        eapply wp_mono; [apply punct_outer_keep; [done|exact H3]|]. intros [[xs ps] es'] s3 H4. by left.
      + destruct c.
        * eapply wp_mono; [apply IH; by eapply done_before|]. intros [[xs ps] es'] s3 H4.
          eapply got_seq; [exact (done_pair _ _ _ _ _ H2 H3)|exact H4|].
          intros w1 w2 (v1 & v2 & -> & Hv1 & Hv2) (k & b & Hk). exists (S k), b. cbn. rewrite <- (assoc_L (++)). by repeat constructor.
        * apply wp_ret. subst s2. right; left. split; [done|]. by eapply done_imp.
      + assert (Hc : cut (tail_of t d) s) by (by eapply cut_seq).
        destruct c; [|apply wp_ret; by right; right]. apply wp_cut. intros [[xs ps] es'] s'. by right; right.
    - assert (Hc : cut (tail_of t d) s) by (by eapply cut_imp).
      apply wp_cut. intros [[xs ps] es'] s'. by right; right.
  Qed.
  Lemma punct_got t d pT pP n ef pf fol s : before s → offp t pT → offp d pP →
    (∀ s, aok s → W pT s (λ r _, single r)) →
    W (produce_punct n pT pP ef pf fol) s (λ r s', got (is_Some (unres r).1) (lang (TPunct t d)) s (unres r).2 s').
  Proof.
    intros Hb Hp Hd Hs. assert (Hok := before_aok _ Hb). unfold produce_punct.
    apply wp_bind. eapply wp_call; [by apply Hp|done|]. intros r s1 l1 _ Hok1 H. cbn beta in H.
    destruct H as [H|[[H1 H2]|H]].
    - destruct (unres r) as [[y|] e]; cbn [snd] in H; [|apply wp_ret; by left].
      apply wp_bind. eapply wp_mono; [by apply (punct_outer_keep tk)|]. intros [[xs ps] es] s2 H2. apply wp_ret. left. by rewrite unres_into.
    - destruct (unres r) as [[y|] e]; cbn [fst] in H1; [|by destruct H1]. apply wp_bind.
      eapply wp_mono; [apply (punct_outer_got t d); [by eapply done_before|done..]|]. intros [[xs ps] es] s2 H3. apply wp_ret. rewrite unres_into.
      eapply got_seq; [done|eapply got_imp; [exact H3|cbn; eauto|by intros w Hw; exact Hw]|].
      intros w1 w2 Hw1 (k & b & Hk). apply (l_punct _ _ _ k b). by constructor.
    - assert (Hc : cut (lang (TPunct t d)) s).
      { eapply cut_imp; [done|]. intros w Hw. apply (l_punct _ _ _ 0 false). by apply langs_one. }
      apply wp_cut. intros r' s'. by right; right.
  Qed.

  Variables (first follow : prod → tset) (jump : prod → option tok → option nat).
  Notation produce := (produce env first follow jump).

  Lemma fields_adv fs xs s : W (apply_fields fs xs) s (λ _ s', adv s [] s').
  Proof.
    revert xs s. induction fs as [|[t [sem|]] fs IH]; intros [|x xs] s; cbn [apply_fields]; try (apply wp_ret, adv_refl); [|apply IH].
    apply wp_bind, wp_apply. eapply wp_mono; [apply IH|]. intros u s' H. cbn beta in H. exact (adv_trans _ _ _ _ _ (mark_adv s (tree_span x) sem) H).
  Qed.
  Lemma got_map {A B} (g : A → B) (r : res A) L s s' : got (is_Some (unres r).1) L s (unres r).2 s' →
    got (is_Some (unres (res_map g r)).1) L s (unres (res_map g r)).2 s'.
  Proof. intros H. rewrite unres_map. cbn [fst snd]. eapply got_imp; [exact H| |done]. rewrite fmap_is_Some. done. Qed.

  Lemma produce_off f t : all_viable env t → keeps_first env t → offp t (produce f t).
  Proof.
    revert t. induction f as [|f IH]; intros t Hv Hk s Hb; [done|].
    assert (Hsub : ∀ c, c ∈ subs env t → offp c (produce f c)).
    { intros c Hs. apply IH; intros t' Ht; [apply Hv|apply Hk]; by eapply rtc_l. }
    assert (Hvs : ∀ c, c ∈ subs env t → viable env c []).
    { intros c Hs. apply Hv. by apply rtc_once. }
    assert (Hh := all_within_here _ _ _ Hk). assert (Hok := before_aok _ Hb).
    destruct t as [n y lit|n|ts|t|t|t|t|t|t|t|t|t d|t d|t r]; cbn [ProduceModel.produce].
    - apply wp_bind. eapply (wp_mono _ _ _ _ (λ r s', got (is_Some (unres r).1) (lang (TTok n y lit)) s (unres r).2 s'));
        [|intros r s' H; apply wp_ret; by apply got_map].
      destruct Hb as [_ Hin]. destruct (a_rest s) as [|t r] eqn:Er; [by apply elem_of_nil in Hin|].
      assert (Hb : before s) by (split; [done|by rewrite Er]).
      assert (Hlk : look s = Some (t_ty t, default ""%string (text_of (a_src s) t))) by (unfold look; by rewrite Er).
      assert (Hs : a_span s = t_span t) by (unfold a_span; by rewrite Er).
      destruct lit as [lit|].
      + apply wp_parse_token_lit; [done|]. rewrite Er. case_decide as Hd.
        * eapply tok_got; [done|done|cbn; eauto|]. rewrite Hlk in Hd. injection Hd as H1 H2. cbn. rewrite H1, H2.
          constructor. split; [done|by right].
        * destruct (ts_contains _ _); left; apply (before_err s); [done|by rewrite Hs|done|by rewrite Hs].
      + apply wp_parse_token. rewrite Er. case_decide as Hd.
        * eapply tok_got; [done|done|cbn; eauto|]. cbn. rewrite Hd. constructor. split; [done|by left].
        * left. apply (before_err s); [done|by rewrite Hs].
    - destruct (env !! n) as [[fs|vs]|] eqn:En; [| |done].
      + apply wp_bind. eapply wp_call; [apply (seq_got (produce f) (map fst fs)); [done|..]|done|].
        { intros c Hc. apply Hsub. cbn. by rewrite En. }
        { intros c Hc. apply Hvs. cbn. by rewrite En. }
        intros r s1 l1 _ Hok1 H. cbn beta in H. revert H. destruct (unres r) as [[xs|] e]; cbn [fst snd]; intros H.
        * apply wp_bind. eapply wp_mono; [apply fields_adv|]. intros u s2 H2. cbn beta in H2. apply wp_ret. rewrite unres_into.
          destruct H as [H|[[_ H]|H]]; [by left| |]; right; [left|right].
          { split; [cbn; eauto|]. eapply done_adv; [|done]. eapply done_imp; [done|]. intros w Hw. by eapply l_struct. }
          { eapply cut_imp; [done|]. intros w Hw. by eapply l_struct. }
        * apply wp_ret. destruct H as [H|[[[? ?] _]|H]]; [by left|done|right; right].
          eapply cut_imp; [done|]. intros w Hw. by eapply l_struct.
      + apply wp_bind, wp_peek_src; [done|]. destruct (_ ≫= _) as [[i [t' sem]]|] eqn:Ei.
        2: { apply wp_bind, wp_expecting, wp_ret. left. by apply (before_err s). }
        assert (vs !! i = Some (t', sem)) as Hi.
        { destruct (jump (key (TNamed n)) (look s)) as [i'|]; [|done]. cbn in Ei.
          destruct (vs !! i') eqn:E; [|done]. cbn in Ei. injection Ei as -> ->. done. }
        assert (Hm := elem_of_list_lookup_2 _ _ _ Hi).
        apply wp_bind. eapply wp_call; [apply (Hsub t')|done|].
        { cbn. rewrite En. cbn. apply elem_of_list_In, (in_map fst), elem_of_list_In in Hm. done. }
        { done. }
        intros r s1 l1 _ Hok1 H. cbn beta in H.
        assert (H' : got (is_Some (unres r).1) (lang (TNamed n)) s (unres r).2 s1).
        { eapply got_imp; [exact H|done|]. intros w Hw. by eapply l_enum. }
        assert (H'' := got_map (TrVar i) r _ _ _ H').
        destruct r as [x|x es|es]; destruct sem as [sm|]; try (by apply wp_ret).
        * apply wp_bind, wp_apply, wp_ret. destruct H'' as [?|[[? ?]|?]]; [by left| |by right; right].
          right; left. split; [done|]. eapply done_adv; [done|apply mark_adv].
        * apply wp_bind, wp_apply, wp_ret. destruct H'' as [?|[[? ?]|?]]; [by left| |by right; right].
          right; left. split; [done|]. eapply done_adv; [done|apply mark_adv].
    - apply wp_bind. eapply wp_call; [apply (seq_got (produce f) ts); [done|..]|done|].
      { intros c Hc. by apply Hsub. }
      { intros c Hc. by apply Hvs. }
      intros r s1 l1 _ Hok1 H. cbn beta in H. apply wp_ret. apply got_map. eapply got_imp; [exact H|done|]. intros w Hw. by constructor.
    - eapply wp_mono; [apply (Hsub t); [cbn; set_solver|done]|]. intros r s1 H. cbn beta in H.
      eapply got_imp; [exact H|done|]. intros w Hw. by constructor.
    - apply wp_bind. eapply wp_mono; [apply (option_got _ _ _ (lang t)); [done|apply (Hsub t); [cbn; set_solver|done]]|].
      intros r s1 H. cbn beta in H. apply wp_ret. apply got_map. eapply got_imp; [exact H|done|]. intros w [->|Hw]; by constructor.
    - apply wp_bind. eapply wp_mono; [apply (option_got _ _ _ (lang t)); [done|apply (Hsub t); [cbn; set_solver|done]]|].
      intros r s1 H. cbn beta in H. apply wp_ret. apply got_map. eapply got_imp; [exact H|done|]. intros w [->|Hw]; by constructor.
    - apply wp_bind. eapply wp_mono; [apply (Hsub t); [cbn; set_solver|done]|]. intros r s1 H. cbn beta in H.
      assert (H' : got (is_Some (unres r).1) (lang (TQuote t)) s (unres r).2 s1).
      { eapply got_imp; [exact H|done|]. intros w Hw. by constructor. }
      destruct r as [x|x es|es]; [apply wp_get_any; intros str..|]; apply wp_ret; (eapply got_imp; [exact H'|cbn; eauto|done]).
    - apply wp_bind. eapply wp_mono; [apply (Hsub t); [cbn; set_solver|done]|]. intros r s1 H. cbn beta in H.
      assert (H' : got (is_Some (unres r).1) (lang (TParse t)) s (unres r).2 s1).
      { eapply got_imp; [exact H|done|]. intros w Hw. by constructor. }
      destruct r as [x|x es|es]; [apply wp_get_any; intros str..|]; apply wp_ret; (eapply got_imp; [exact H'|cbn; eauto|done]).
    - apply wp_bind. eapply wp_mono; [apply (plus_got t); [done|apply (Hsub t); cbn; set_solver]|].
      intros r s1 H. cbn beta in H. apply wp_ret. apply got_map. eapply got_imp; [exact H|done|]. intros w [k Hw]. by econstructor.
    - apply wp_bind. eapply wp_mono; [apply option_got; [done|apply (plus_got t); [done|apply (Hsub t); cbn; set_solver]]|].
      intros r s1 H. cbn beta in H. apply wp_ret. apply got_map. eapply got_imp; [exact H|done|].
      intros w [->|[k Hw]]; [apply (l_star _ _ 0); constructor|by eapply (l_star _ _ (S k))].
    - apply wp_bind. unfold produce_loop. apply wp_bind.
      eapply wp_call; [apply (loop_got t); [done|apply (Hsub t); cbn; set_solver]|done|].
      intros [xs es] s1 l1 _ Hok1 H. apply wp_bind. eapply wp_mono; [apply wp_true|]. intros sp s2 _. apply wp_ret, wp_ret.
      rewrite unres_map, unres_into. cbn [fst snd]. destruct H as [H|H]; [by left|right; right].
      eapply cut_imp; [done|]. intros w [k Hw]. by econstructor.
    - apply (split_got t d); [done|apply (Hsub t); cbn; set_solver|apply (Hsub d); cbn; set_solver| |apply Hvs; cbn; set_solver].
      intros s' Hok'. by apply produce_single.
    - apply (punct_got t d); [done|apply (Hsub t); cbn; set_solver|apply (Hsub d); cbn; set_solver|].
      intros s' Hok'. by apply produce_single.
    - done.
  Qed.
End offend.

(** * Runs *)
(** Tokens laid out one after the other are distinct. *)
Lemma spans_twice p n l1 (t : token) l2 u v : spans_ok p n (map t_span (l1 ++ t :: l2)) → l1 ++ t :: l2 = u ++ t :: v → l1 = u ∧ l2 = v.
Proof.
  revert p u. induction l1 as [|x l1 IH]; intros p [|y u] Hs E; cbn in *.
  - by injection E.
  - injection E as <- ->. destruct Hs as (_ & Hs1 & Hs2). exfalso.
    destruct (spans_ok_in _ _ _ (t_span t) Hs2) as (? & ? & _); [|lia]. rewrite map_app. cbn. set_solver.
  - injection E as -> <-. destruct Hs as (_ & Hs1 & Hs2). exfalso.
    destruct (spans_ok_in _ _ _ (t_span t) Hs2) as (? & ? & _); [|lia]. rewrite map_app. cbn. set_solver.
  - injection E as <- E. destruct Hs as (_ & _ & Hs). destruct (IH _ _ Hs E) as [-> ->]. done.
Qed.
Section runs.
  Context (extract : nat → bool) (env : denv).
  Notation abs := (StreamFacts.abs extract).

  (** A place where errors start: the start of a token or the end of the input. *)
  Lemma start_early t first follow jump f s u tk v r s' e : filled env t → state_ok s → to_come extract s = u ++ tk :: v →
    run extract (produce env first follow jump f t) s = ODone r s' → e ∈ errors_of r →
    (sp_lo (e_span e) < sp_hi (t_span tk) ↔ sp_lo (e_span e) ≤ sp_lo (t_span tk)) ∧
    (u = [] → sp_lo (t_span tk) ≤ sp_lo (e_span e)) ∧
    (∀ u' tk', u = u' ++ [tk'] → sp_hi (t_span tk') ≤ sp_lo (e_span e) → sp_lo (t_span tk) ≤ sp_lo (e_span e)).
  Proof.
    intros Hf Hok Hu Hr He. assert (Hs := error_starts _ _ _ _ _ _ _ _ _ _ Hok Hf Hr e He).
    assert (Ha := state_ok_abs extract s Hok). apply aok_pos in Ha as [Hsp _].
    change (a_rest (abs s)) with (to_come extract s) in Hsp. change (a_src (abs s)) with (p_src s) in Hsp. rewrite Hu in Hs, Hsp.
    assert (H1 := Hsp). apply spans_ok_pos in H1 as [Hpre H1]. cbn in H1. destruct H1 as (H1 & H2 & H3).
    assert (Hlen : sp_hi (t_span tk) ≤ String.length (p_src s)).
    { destruct (spans_ok_in _ _ _ (t_span tk) Hsp) as (_ & _ & H); [|done]. rewrite map_app. cbn. set_solver. }
    assert (Hv : ∀ x, x ∈ v → sp_hi (t_span tk) ≤ sp_lo (t_span x)).
    { intros x Hx. destruct (spans_ok_in _ _ _ (t_span x) H3) as (? & ? & _); [|done].
      apply elem_of_list_In, in_map, elem_of_list_In. done. }
    split_and!.
    - split; [|lia]. intros Hlt. destruct Hs as [Hs|(x & Hx & Hs)]; [lia|].
      apply elem_of_app in Hx as [Hx|Hx].
      + apply elem_of_list_split in Hx as (u1 & u2 & ->). rewrite <- (assoc_L (++)) in Hsp.
        apply spans_ok_pos in Hsp as [_ Hsp]. cbn in Hsp. destruct Hsp as (? & ? & Hsp).
        destruct (spans_ok_in _ _ _ (t_span tk) Hsp) as (? & ? & _); [|lia]. rewrite map_app. cbn. set_solver.
      + apply elem_of_cons in Hx as [->|Hx]; [lia|]. apply Hv in Hx. lia.
    - intros ->. destruct Hs as [Hs|(x & Hx & Hs)]; [lia|]. cbn [app] in Hx.
      apply elem_of_cons in Hx as [->|Hx]; [lia|]. apply Hv in Hx. lia.
    - intros u' tk' -> Hge. destruct Hs as [Hs|(x & Hx & Hs)]; [lia|]. apply elem_of_app in Hx as [Hx|Hx].
      + exfalso. apply elem_of_app in Hx as [Hx|Hx%elem_of_list_singleton].
        * apply elem_of_list_split in Hx as (u1 & u2 & ->). rewrite <- !(assoc_L (++)) in Hsp.
          apply spans_ok_pos in Hsp as [_ Hsp]. cbn in Hsp. destruct Hsp as (? & ? & Hsp).
          destruct (spans_ok_in _ _ _ (t_span tk') Hsp) as (? & ? & _); [|lia]. rewrite map_app. cbn. set_solver.
        * subst x. rewrite <- (assoc_L (++)) in Hsp.
          apply spans_ok_pos in Hsp as [_ Hsp]. cbn in Hsp. destruct Hsp as (? & ? & Hsp). lia.
      + apply elem_of_cons in Hx as [->|Hx]; [lia|]. apply Hv in Hx. lia.
  Qed.

  Lemma first_offender first follow jump t s u tk v f r s' : filled env t → all_viable env t → keeps_first env t →
    state_ok s → to_come extract s = u ++ tk :: v → ¬ viable env t (word (p_src s) (u ++ [tk])) →
    run extract (produce env first follow jump f t) s = ODone r s' →
    (∃ e, e ∈ errors_of r ∧ sp_lo (e_span e) ≤ sp_lo (t_span tk)) ∨
    (errors_of r = [] ∧ ∃ l u', took extract s l s' ∧ u = l ++ u' ∧ lang env t (word (p_src s) l)).
  Proof.
    intros Hf Hv Hk Hok Hu Hn Hr. assert (Hb : before tk (abs s)).
    { split; [by apply state_ok_abs|]. change (tk ∈ to_come extract s). rewrite Hu. set_solver. }
    assert (H := run_wp _ _ _ _ _ _ _ _ (produce_off tk env first follow jump f t Hv Hk (abs s) Hb) Hr). cbn beta in H.
    assert (Hsp := state_ok_abs extract s Hok). apply aok_pos in Hsp as [Hsp _].
    change (a_rest (abs s)) with (to_come extract s) in Hsp. rewrite Hu in Hsp.
    destruct H as [H|[[_ [[Hok' Hin] (l & Hl & HL)]]|H]].
    - left. unfold early in H. apply Exists_exists in H as (e & He & Hlt). exists e. split; [done|].
      by apply (start_early t first follow jump f s u tk v r s' e).
    - destruct (errors_of r) as [|e es] eqn:Ee.
      + right. split; [done|]. apply took_adv in Hl as Ht.
        assert (∃ u1 v1, to_come extract s' = u1 ++ tk :: v1) as (u1 & v1 & E).
        { change (tk ∈ to_come extract s') in Hin. by apply elem_of_list_split. }
        exists l, u1. split; [done|]. split; [|done]. destruct Ht as (_ & _ & Ht). rewrite Hu, E in Ht.
        rewrite (assoc_L (++)) in Ht. by destruct (spans_twice _ _ _ _ _ _ _ Hsp Ht).
      + left. exists e. split; [set_solver|].
        assert (Hine : e ∈ errors_of r) by (rewrite Ee; set_solver).
        destruct (produce_run_inv _ _ _ _ _ _ _ _ _ _ Hok Hf Hr) as [Hi _].
        unfold errs_in in Hi. rewrite Forall_forall in Hi. destruct (Hi e Hine) as (_ & _ & Hi').
        apply (start_early t first follow jump f s u tk v r s' e Hf Hok Hu Hr Hine).
        assert (Hc := before_cur tk _ (conj Hok' Hin)). unfold cur in Hi'. lia.
    - destruct Hn. destruct H as (u1 & v1 & w & E & Hw & HL). change (to_come extract s = u1 ++ tk :: v1) in E.
      rewrite Hu in E. destruct (spans_twice _ _ _ _ _ _ _ Hsp E) as [-> _]. by exists w.
  Qed.

  (** * The beginning of a sentence is read *)
  Lemma produce_local2 extract2 first follow jump f t s1 s2 r s1' l u : filled env t → state_ok s1 → state_ok s2 →
    run extract (produce env first follow jump f t) s1 = ODone r s1' → took extract s1 l s1' →
    p_tokens s2 = p_tokens s1 → to_come extract2 s2 = l ++ u → head u = head (to_come extract s1') →
    (∃ tk, head u = Some tk ∧ same_upto (sp_hi (t_span tk)) (p_src s1) (p_src s2)) →
    ∃ s2', run extract2 (produce env first follow jump f t) s2 = ODone r s2' ∧ to_come extract2 s2' = u.
  Proof.
    intros Hf Hok1 Hok2 Hr Hl Ht Hu Hh (tk & Htk & Hs).
    assert (Hr' := run_done _ _ _ _ _ Hr).
    destruct (wps_local _ (abs s1) _ _ _ l (to_come extract s1') u (p_tokens s1) (p_src s2)
      (produce_wps _ _ _ _ _ f t s1 Hok1 Hf) (state_ok_abs extract s1 Hok1) Hr') as (a2 & H2 & Ha & Hb & Hc); try done.
    { apply Hl. }
    { rewrite Hh in Htk. destruct (to_come extract s1') as [|t1 u1] eqn:E; [done|]. injection Htk as ->.
      cbn. intros sp Hsp. eapply span_get_same; [exact Hs| | |done].
      - apply (state_ok_abs extract) in Hok1. apply aok_pos in Hok1 as [Hok1 _]. cbn in Hok1.
        destruct Hl as (_ & _ & Hl). change (a_rest (abs s1)) with (to_come extract s1) in Hok1.
        destruct (spans_ok_in _ _ _ (t_span tk) Hok1) as (_ & _ & H); [|exact H].
        change (t_span tk ∈ map t_span (to_come extract s1)). rewrite Hl, E, map_app. cbn. set_solver.
      - apply (state_ok_abs extract2) in Hok2. apply aok_pos in Hok2 as [Hok2 _]. cbn in Hok2.
        change (a_rest (StreamFacts.abs extract2 s2)) with (to_come extract2 s2) in Hok2.
        destruct (spans_ok_in _ _ _ (t_span tk) Hok2) as (_ & _ & H); [|exact H].
        change (t_span tk ∈ map t_span (to_come extract2 s2)). rewrite Hu, map_app. destruct u as [|t2 u]; [done|]. cbn in Hh. injection Hh as ->. cbn. set_solver. }
    assert (H2' : arun (produce env first follow jump f t) (StreamFacts.abs extract2 s2) = ODone r a2).
    { assert (StreamFacts.abs extract2 s2 = Ast (p_src s2) (p_tokens s1) (l ++ u)) as ->; [|done].
      unfold StreamFacts.abs. change (stream extract2 s2) with (to_come extract2 s2). by rewrite Ht, Hu. }
    destruct (arun_done _ _ _ _ _ H2') as (s2' & H3 & H4). exists s2'. split; [done|].
    rewrite <- Hc, <- H4. done.
  Qed.
  Lemma viable_prefix t w1 w2 : Forall (λ x, snd x ≠ ""%string) w2 → viable env t (w1 ++ w2) → viable env t w1.
  Proof. intros H (w & Hw & Hl). exists (w2 ++ w). split; [by apply Forall_app|]. by rewrite (assoc_L (++)). Qed.
  Lemma token_text s t : state_ok s → t ∈ to_come extract s → default ""%string (text_of (p_src s) t) ≠ ""%string.
  Proof.
    intros Hok Ht. apply (state_ok_abs extract) in Hok. apply aok_pos in Hok as [Hsp _].
    change (a_rest (abs s)) with (to_come extract s) in Hsp. change (a_src (abs s)) with (p_src s) in Hsp.
    destruct (spans_ok_in _ _ _ (t_span t) Hsp) as (_ & H1 & H2).
    { apply elem_of_list_In, in_map, elem_of_list_In. done. }
    unfold text_of, token_src. destruct (span_get_spec (t_span t) (p_src s)) as (H & _).
    destruct H as (x & -> & Hx & _); [lia..|]. cbn. intros ->. cbn in Hx. lia.
  Qed.
  Lemma word_text s l : state_ok s → (∀ t, t ∈ l → t ∈ to_come extract s) → Forall (λ x, snd x ≠ ""%string) (word (p_src s) l).
  Proof.
    intros Hok H. unfold word. apply Forall_forall. intros x Hx. apply elem_of_list_fmap in Hx as (t & -> & Ht).
    apply token_text; [done|]. by apply H.
  Qed.

  Lemma reads_on root md s u tk v f r s' : accepted env root md → regular env root → state_ok s →
    to_come extract s = u ++ tk :: v → viable env root (word (p_src s) (u ++ [tk])) →
    run extract (produce_md env md f root) s = ODone r s' → ∃ l, took extract s (u ++ tk :: l) s'.
  Proof.
    intros Hacc Hreg Hok Hu Hv Hr. destruct (run_took _ _ _ _ _ Hr) as [l Hl].
    assert (Hc := proj2 (proj2 Hl)). rewrite Hu in Hc.
    destruct (decide (length u < length l)) as [Hlen|Hlen].
    { assert (∃ l', l = u ++ tk :: l') as [l' ->]; [|by exists l'].
      clear -Hc Hlen. revert l Hc Hlen. induction u as [|x u IH]; intros [|y l] Hc Hlen; cbn in *; try lia.
      - injection Hc as -> Hc. by exists l.
      - injection Hc as -> Hc. destruct (IH l Hc) as [l' ->]; [lia|]. by exists l'. }
    exfalso. assert (∃ x u2, u ++ [tk] = l ++ x :: u2 ∧ to_come extract s' = x :: u2 ++ v) as (x & u2 & E1 & E2).
    { clear -Hc Hlen. revert l Hc Hlen. induction u as [|y u IH]; intros [|z l] Hc Hlen; cbn in *; try lia.
      - exists tk, []. split; [done|by symmetry].
      - exists y, (u ++ [tk]). split; [done|]. by rewrite <- Hc, <- (assoc_L (++)).
      - injection Hc as -> Hc. destruct (IH l Hc) as (x & u2 & -> & H2); [lia|]. eauto. }
    assert (Hx : to_come extract s = l ++ x :: u2 ++ v).
    { rewrite (proj2 (proj2 Hl)). by rewrite E2. }
    assert (Hvx : viable env root (word (p_src s) (l ++ [x]))).
    { apply (viable_prefix root _ (word (p_src s) u2)).
      - apply word_text; [done|]. intros t Ht. rewrite Hx. set_solver.
      - rewrite <- word_app, <- (assoc_L (++)). cbn [app]. by rewrite <- E1. }
    destruct Hvx as (w & Hw & HL). destruct (state_to_ok extract s l x (u2 ++ v) w Hok Hx Hw) as [Hok2 Hb].
    rewrite <- (state_to_word extract s l x (u2 ++ v) w Hok Hx Hw) in HL.
    set (s2 := state_to s (l ++ [x]) w (sp_hi (t_span x))) in *.
    assert (Hok' := state_ok_abs (λ _, false) _ Hok2). apply aok_pos in Hok' as [Hsp _].
    destruct (lang_parses env (p_src s2) root _ HL (end_of (p_tokens s2)) (to_come (λ _, false) s2)) as [y Hy]; [by destruct Hreg|done|exact Hsp|].
    assert (Hacc' := Hacc). destruct Hacc' as (regs & iter & Hrg & Hperm & Hmeta).
    destruct (root_complete_ll1 (λ _, false) env root md regs Hacc Hrg (reg_filled _ _ Hreg) (reg_enums _ _ Hreg) (reg_delims _ _ Hreg) (reg_ll1 _ _ Hreg _ Hrg)
      (reg_punct _ _ Hreg _ Hrg) s2 y (reg_loop _ _ Hreg) Hok2 Hy) as (f0 & s2' & Ht2 & _ & H3).
    assert (Hs2 : to_come (λ _, false) s2 = l ++ x :: lay (sp_hi (t_span x)) w).
    { unfold s2. rewrite state_to_rest, <- (assoc_L (++)). done. }
    destruct (produce_local2 (λ _, false) _ _ _ f root s s2 r s' l (x :: lay (sp_hi (t_span x)) w) (reg_filled _ _ Hreg) Hok Hok2 Hr Hl eq_refl Hs2)
      as (s2'' & Hr2 & Hc2).
    { by rewrite E2. }
    { exists x. split; [done|]. by apply src_to_same. }
    assert (F1 : run (λ _, false) (produce_md env md (f0 + f) root) s2 = ODone (RSucc y) s2') by (apply H3; lia).
    assert (F2 : run (λ _, false) (produce_md env md (f0 + f) root) s2 = ODone r s2'').
    { rewrite <- Hr2. apply le_run; [apply produce_le; lia|by rewrite Hr2]. }
    rewrite F1 in F2. injection F2 as _ <-. destruct Ht2 as (_ & _ & Ht2). rewrite Hc2 in Ht2.
    apply (f_equal length) in Ht2. rewrite app_length in Ht2. cbn in Ht2. lia.
  Qed.

  (** The error at the first token that no sentence allows. *)
  Lemma first_error root md s u tk v f r s' : accepted env root md → regular env root → all_viable env root → keeps_first env root →
    state_ok s → to_come extract s = u ++ tk :: v →
    viable env root (word (p_src s) u) → ¬ viable env root (word (p_src s) (u ++ [tk])) →
    run extract (produce_md env md f root) s = ODone r s' →
    ((∃ e, e ∈ errors_of r ∧ sp_lo (e_span e) = sp_lo (t_span tk)) ∧
      (∀ e, e ∈ errors_of r → sp_lo (t_span tk) ≤ sp_lo (e_span e))) ∨
    (errors_of r = [] ∧ took extract s u s' ∧ lang env root (word (p_src s) u)).
  Proof.
    intros Hacc Hreg Hv Hk Hok Hu Hy Hn Hr. assert (Hf : filled env root) by (by destruct Hreg).
    assert (Hge : ∀ e, e ∈ errors_of r → sp_lo (t_span tk) ≤ sp_lo (e_span e)).
    { intros e He. destruct (start_early root _ _ _ f s u tk v r s' e Hf Hok Hu Hr He) as (_ & H1 & H2).
      destruct u as [|tk' u' _] using rev_ind; [by apply H1|]. apply (H2 u' tk' eq_refl).
      eapply (no_false_alarm extract env root md Hacc Hreg s u' tk' (tk :: v)); [done| |done|done|done].
      by rewrite <- (assoc_L (++)) in Hu. }
    destruct (first_offender _ _ _ root s u tk v f r s' Hf Hv Hk Hok Hu Hn Hr) as [(e & He & Hle)|(He & l & u' & Hl & -> & HL)].
    { left. split; [|done]. exists e. split; [done|]. specialize (Hge e He). lia. }
    right. split; [done|]. destruct u' as [|x u' _] using rev_ind; [by rewrite app_nil_r|]. exfalso.
    assert (Hu' : to_come extract s = (l ++ u') ++ x :: tk :: v) by (by rewrite Hu, <- !(assoc_L (++))).
    destruct (reads_on root md s (l ++ u') x (tk :: v) f r s' Hacc Hreg Hok Hu') as [l2 Hl2]; [by rewrite <- (assoc_L (++))|done|].
    destruct Hl as (_ & Hl & _), Hl2 as (_ & Hl2 & _). rewrite Hl in Hl2. apply (f_equal length) in Hl2.
    rewrite !app_length in Hl2. cbn in Hl2. lia.
  Qed.

  (** Whatever the grammar, some error is reported. *)
  Lemma some_error root md s u tk v f r s' : accepted env root md → regular env root → no_recover env root → no_loop env root →
    state_ok s → to_come extract s = u ++ tk :: v →
    viable env root (word (p_src s) u) → ¬ viable env root (word (p_src s) (u ++ [tk])) →
    run extract (produce_md env md f root) s = ODone r s' →
    (errors_of r ≠ [] ∧ ∀ e, e ∈ errors_of r → sp_lo (t_span tk) ≤ sp_lo (e_span e)) ∨
    (errors_of r = [] ∧ took extract s u s' ∧ lang env root (word (p_src s) u)).
  Proof.
    intros Hacc Hreg Hnr Hnl Hok Hu Hy Hn Hr. assert (Hf : filled env root) by (by destruct Hreg).
    destruct (decide (errors_of r = [])) as [He|He].
    - right. split; [done|]. assert (H := produce_run_sound0 _ _ _ _ _ _ _ _ _ _ Hok Hf Hnr Hr).
      destruct r as [x|x es|es]; cbn in He; [|done..]. destruct H as (l & Hl & Hp).
      apply parses_lang in Hp; [|done].
      assert (l = u) as ->; [|done].
      assert (∃ u1, l = u ++ u1) as [u1 ->].
      { destruct u as [|t u' _] using rev_ind; [by exists l|].
        assert (Hu' : to_come extract s = u' ++ t :: tk :: v) by (by rewrite <- (assoc_L (++)) in Hu).
        destruct (reads_on root md s u' t (tk :: v) f _ s' Hacc Hreg Hok Hu' Hy Hr) as [l2 Hl2].
        exists l2. destruct Hl as (_ & Hl & _), Hl2 as (_ & Hl2 & _). rewrite Hl in Hl2. apply app_inv_head in Hl2.
        by rewrite <- (assoc_L (++)). }
      destruct u1 as [|t u1]; [by rewrite app_nil_r|]. exfalso. apply Hn.
      assert (t = tk) as ->.
      { destruct Hl as (_ & _ & Hl). rewrite Hu, <- (assoc_L (++)) in Hl. apply app_inv_head in Hl. by injection Hl. }
      exists (word (p_src s) u1). split.
      + apply word_text; [done|]. intros t Ht. destruct Hl as (_ & _ & Hl). rewrite Hl. set_solver.
      + rewrite <- word_app, <- (assoc_L (++)). exact Hp.
    - left. split; [done|]. intros e He'. destruct (start_early root _ _ _ f s u tk v r s' e Hf Hok Hu Hr He') as (_ & H1 & H2).
      destruct u as [|tk' u' _] using rev_ind; [by apply H1|]. apply (H2 u' tk' eq_refl).
      eapply (no_false_alarm extract env root md Hacc Hreg s u' tk' (tk :: v)); [done| |done|done|done].
      by rewrite <- (assoc_L (++)) in Hu.
  Qed.
  (** The input ends too early: all errors are at its end. *)
  Lemma end_errors root md s f r s' : accepted env root md → regular env root → state_ok s →
    viable env root (word (p_src s) (to_come extract s)) → run extract (produce_md env md f root) s = ODone r s' →
    to_come extract s' = [] ∧ ∀ e, e ∈ errors_of r → sp_lo (e_span e) = String.length (p_src s).
  Proof.
    intros Hacc Hreg Hok Hv Hr. assert (Hf : filled env root) by (by destruct Hreg).
    assert (Hs := error_starts _ _ _ _ _ _ _ _ _ _ Hok Hf Hr).
    destruct (to_come extract s) as [|tk u _] eqn:E using rev_ind.
    { split.
      - destruct (run_took _ _ _ _ _ Hr) as (l & _ & _ & Hl). rewrite E in Hl. symmetry in Hl. by apply app_nil in Hl as [_ ->].
      - intros e He. destruct (Hs e He) as [?|(t & Ht%elem_of_nil & _)]; done. }
    split.
    - destruct (reads_on root md s u tk [] f r s' Hacc Hreg Hok E Hv Hr) as [l (_ & _ & Hl)]. rewrite E in Hl.
      rewrite <- (assoc_L (++)) in Hl. apply app_inv_head in Hl. injection Hl as Hl. symmetry in Hl. by apply app_nil in Hl as [_ ->].
    - intros e He. destruct (Hs e He) as [?|(t & Ht & Hlo)]; [done|]. exfalso.
      assert (Hge := no_false_alarm extract env root md Hacc Hreg s u tk [] f r s' Hok E Hv Hr e He).
      assert (Hsp := state_ok_abs extract s Hok). apply aok_pos in Hsp as [Hsp _].
      change (a_rest (abs s)) with (to_come extract s) in Hsp. rewrite E in Hsp.
      assert (H1 := Hsp). apply spans_ok_pos in H1 as [_ H1]. cbn in H1. destruct H1 as (? & ? & _).
      apply elem_of_app in Ht as [Ht|Ht%elem_of_list_singleton]; [|subst; lia].
      apply elem_of_list_split in Ht as (u1 & u2 & ->). rewrite <- (assoc_L (++)) in Hsp.
      apply spans_ok_pos in Hsp as [_ Hsp]. cbn in Hsp. destruct Hsp as (? & ? & Hsp).
      destruct (spans_ok_in _ _ _ (t_span tk) Hsp) as (? & ? & _); [|lia]. rewrite map_app. cbn. set_solver.
  Qed.
  (** The same of all errors recorded by [parse]. *)
  Lemma first_error_parse root md s u tk v f o s' : accepted env root md → regular env root → all_viable env root → keeps_first env root →
    state_ok s → to_come extract s = u ++ tk :: v →
    viable env root (word (p_src s) u) → ¬ viable env root (word (p_src s) (u ++ [tk])) →
    run extract (parse env f root (inr md)) s = ODone o s' →
    ∃ bad es, p_errors s' = p_errors s ++ map (λ sp, PErr sp UnexpectedCharacters) bad ++ es ∧
      (((∃ e, e ∈ es ∧ sp_lo (e_span e) = sp_lo (t_span tk)) ∧ ∀ e, e ∈ es → sp_lo (t_span tk) ≤ sp_lo (e_span e)) ∨
       (es = [] ∧ took extract s u s' ∧ lang env root (word (p_src s) u))).
  Proof.
    intros Hacc Hreg Hv Hk Hok Hu Hy Hn (x & -> & H)%parse_run.
    destruct (parse_with_run _ _ _ _ _ _ _ _ _ _ H) as (r & s1 & H1 & -> & Hs & He & Habs).
    destruct (produce_run_errors _ _ _ _ _ _ _ _ _ _ H1) as (bad & Hb1 & Hb2).
    exists bad, (unres r).2. split; [by rewrite He, Hb2, (assoc_L (++))|].
    destruct (first_error root md s u tk v f r s1 Hacc Hreg Hv Hk Hok Hu Hy Hn H1) as [?|(He' & Ht & HL)]; [by left|right].
    split; [done|]. split; [|done]. apply took_adv. rewrite Habs. by apply took_adv.
  Qed.
End runs.
