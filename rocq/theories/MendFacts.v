(** Parsing the repaired input. *)
From Coq Require Import String NArith.
From stdpp Require Import prelude list strings relations.
From Verif Require Import LexModel LexSpec LexFacts SynSetModel TableModel StreamModel StreamSpec StreamFacts TypeModel ProduceModel ParseSpec ProgFacts TreeFacts SoundFacts RunFacts InvFacts
  NodeFacts LeafSpec LeafFacts CompleteSpec CompleteFacts RepairSpec RepairFacts ExtendFacts.
Local Open Scope nat_scope.

Lemma evens_interleave {A} (a b : list A) : length a = S (length b) → evens (interleave a b) = a ∧ odds (interleave a b) = b.
Proof.
  revert b. induction a as [|x a IH]; intros [|y b] E; cbn in E; try done.
  - destruct a; by cbn in E.
  - destruct (IH b) as [H1 H2]; [lia|]. cbn [interleave]. rewrite evens_cons, odds_cons, odds_cons, evens_cons. by rewrite H1, H2.
Qed.
Lemma odds_map {A B} (f : A → B) l : odds (map f l) = map f (odds l).
Proof. destruct l as [|x l]; [done|]. cbn [map]. rewrite !odds_cons. apply evens_map. Qed.
Lemma bare_len (xs ys : list tree) : map bare xs = map bare ys → length xs = length ys.
Proof. intros E. apply (f_equal length) in E. by rewrite !map_length in E. Qed.

Section mend.
  Variables (env : denv) (src : string).
  Definition good (t : ty) : Prop := strict env t ∧ filled env t.
  Lemma good_sub t c : good t → c ∈ subs env t → good c.
  Proof. intros [H1 H2] Hc. split; [by eapply strict_sub|by apply (all_within_sub _ _ _ _ H2)]. Qed.
  Lemma good_subs t (ts : list ty) : good t → (∀ c : ty, c ∈ ts → c ∈ subs env t) → Forall good ts.
  Proof. intros H Hc. apply Forall_forall. intros c Hin. eapply good_sub; [exact H|]. by apply Hc. Qed.
  Lemma mends_parses t x ks : mends env t x ks → good t → ∀ p l, word src l = kept_word ks → spans_ok p (String.length src) (map t_span l) →
    ∃ y, parses env src p t l y ∧ bare y = bare x.
  Proof.
    revert t x ks. apply (mends_mut env (λ t x ks _, good t → ∀ p l, word src l = kept_word ks → spans_ok p (String.length src) (map t_span l) →
        ∃ y, parses env src p t l y ∧ bare y = bare x)
      (λ ts xs ks _, Forall good ts → ∀ p l, word src l = kept_word ks → spans_ok p (String.length src) (map t_span l) →
        ∃ ys, pseq env src p ts l ys ∧ map bare ys = map bare xs)).
    - intros n y lit k s Hy Hl _ p l E Hs. destruct l as [|a [|b l]]; try done. cbn in E. injection E as E1 E2.
      exists (TrTok a). split; [|cbn; by rewrite E1]. constructor. split; [by rewrite E1|]. destruct lit as [lit|]; [|done].
      cbn in Hs. destruct (text_of src a) eqn:E; [by destruct Hl as [?|[=->]]; [|cbn in E2; subst]|]. unfold text_of, token_src in E.
      destruct (span_get_spec (t_span a) src) as (_ & _ & H6). apply H6 in E. lia.
    - intros n fs xs ks En _ IH Hg p l E Hs. destruct (IH) with p l as (ys & Hy & Hb); [|done..|exists (TrSeq ys); split; [by econstructor|cbn; by rewrite Hb]].
      eapply good_subs; [exact Hg|]. intros c Hc. cbn. by rewrite En.
    - intros n vs i t sem x ks En Hi _ IH Hg p l E Hs. destruct (IH) with p l as (y & Hy & Hb); [|done..|exists (TrVar i y); split; [by econstructor|cbn; by rewrite Hb]].
      apply elem_of_list_lookup_2 in Hi. eapply good_sub; [exact Hg|]. cbn. rewrite En. cbn. apply elem_of_list_fmap. by exists (t, sem).
    - intros ts xs ks _ IH Hg p l E Hs. destruct (IH) with p l as (ys & Hy & Hb); [|done..|exists (TrSeq ys); split; [by econstructor|cbn; by rewrite Hb]].
      by eapply good_subs.
    - intros t x ks _ IH Hg p l E Hs. destruct (IH) with p l as (y & Hy & Hb); [|done..|exists y; split; [by econstructor|done]].
      eapply good_sub; [exact Hg|]. cbn. set_solver.
    - intros t sp _ p l E _. destruct l; [|done]. eexists. split; [constructor|done].
    - intros t x ks _ IH Hg p l E Hs. destruct (IH) with p l as (y & Hy & Hb); [|done..|eexists; split; [by apply p_some|cbn; by rewrite Hb]].
      eapply good_sub; [exact Hg|]. cbn. set_solver.
    - intros t sp _ p l E _. destruct l; [|done]. eexists. split; [constructor|done].
    - intros t x ks _ IH Hg p l E Hs. destruct (IH) with p l as (y & Hy & Hb); [|done..|eexists; split; [by eapply p_present|done]].
      eapply good_sub; [exact Hg|]. cbn. set_solver.
    - intros t x s ks _ IH Hg p l E Hs. assert (Hg1 : good t) by (eapply good_sub; [exact Hg|]; cbn; set_solver).
      destruct (IH Hg1 p l E Hs) as (y & Hy & Hb). destruct (parses_text _ _ _ _ _ _ Hy (proj2 Hg1) Hs) as [z Hz]. eexists. split; [by eapply p_quote|done].
    - intros t x s ks _ IH Hg p l E Hs. assert (Hg1 : good t) by (eapply good_sub; [exact Hg|]; cbn; set_solver).
      destruct (IH Hg1 p l E Hs) as (y & Hy & Hb). destruct (parses_text _ _ _ _ _ _ Hy (proj2 Hg1) Hs) as [z Hz]. eexists. split; [by eapply p_parse|done].
    - intros t sp x xs ks _ IH Hg p l E Hs. destruct (IH) with p l as (ys & Hy & Hb); [|done..|eexists; split; [by apply (p_plus _ _ _ _ (length xs))|]].
      + eapply good_subs; [exact Hg|]. intros c [->|Hc%in_replicate]%elem_of_cons; [|subst c]; cbn; set_solver.
      + cbn [bare]. by rewrite Hb.
    - intros t sp xs ks _ IH Hg p l E Hs. destruct (IH) with p l as (ys & Hy & Hb); [|done..|].
      + eapply good_subs; [exact Hg|]. intros c Hc%in_replicate. subst c. cbn; set_solver.
      + destruct xs as [|x xs].
        * destruct ys; [|done]. inversion Hy; subst. eexists. split; [apply p_star_none|done].
        * eexists. split; [by apply (p_star _ _ _ _ (length xs))|]. cbn [bare]. by rewrite Hb.
    - intros t sp xs ks _ _ [Hs _]. destruct (Hs (TLoop t)). apply rtc_refl.
    - intros t d sp a b ks Hlen _ IH Hg p l E Hs. destruct (IH) with p l as (ys & Hy & Hb); [|done..|eexists; split; [by eapply p_split|]].
      + eapply good_subs; [exact Hg|]. intros c [->| ->]%in_alternate; cbn; set_solver.
      + cbn [bare]. rewrite <- evens_map, <- odds_map, Hb, evens_map, odds_map. by destruct (evens_interleave a b Hlen) as [-> ->].
    - intros t d sp x gs ks _ _ [Hs _]. destruct (Hs (TPunct t d)). apply rtc_refl.
    - intros t r sp x y ks _ _ [Hs _]. destruct (Hs (TRecover t r)). apply rtc_refl.
    - intros t r sp y ks _ _ [Hs _]. destruct (Hs (TRecover t r)). apply rtc_refl.
    - intros _ p l E _. destruct l; [|done]. eexists. split; [constructor|done].
    - intros t ts x xs k1 k2 _ IH1 _ IH2 [Hg1 Hg2]%Forall_cons p l E Hs. rewrite kept_app in E.
      apply word_split in E as (l1 & l2 & -> & E1 & E2). apply spans_ok_pos in Hs as [Hs1 Hs2].
      destruct (IH1 Hg1 p l1 E1 Hs1) as (y & Hy & Hb). destruct (IH2 Hg2 (end_pos p l1) l2 E2 Hs2) as (ys & Hys & Hbs).
      eexists. split; [by econstructor|]. cbn. by rewrite Hb, Hbs.
  Qed.
End mend.

Lemma strict_no_loop env t : strict env t → no_loop env t.
Proof. intros H u Hu. specialize (H u Hu). by destruct u. Qed.
Lemma mend_again extract env root md f s x s' l : accepted env root md → regular env root → strict env root → state_ok s →
  run extract (parse env f root (inr md)) s = ODone (inr (Some x)) s' → took extract s l s' →
  ∃ ks es, mends env root x ks ∧
    repairs (p_src s) (missing env (tb_get (md_follow md)) root (p_src s) (all_tokens extract s)) (consumed s) l ks es ∧
    es `sublist_of` p_errors s' ∧
    ∀ s2, state_ok s2 → word (p_src s2) (to_come extract s2) = kept_word ks →
      ∃ f0 y s2', (∀ f, f0 ≤ f → run extract (parse env f root (inr md)) s2 = ODone (inr (Some y)) s2') ∧
        took extract s2 (to_come extract s2) s2' ∧ only_bad_text s2 s2' ∧ bare y = bare x.
Proof.
  intros Ha Hreg Hst Hok Hr Hl. destruct (repair_parse _ _ _ _ _ _ _ _ _ _ Hok Hr eq_refl Hl) as (ks & es & Hm & Hk & He).
  exists ks, es. split_and!; [done..|]. intros s2 Hok2 Hw.
  assert (Hok' := state_ok_abs extract _ Hok2). apply aok_pos in Hok' as [Hsp _].
  destruct (mends_parses env (p_src s2) root x ks Hm (conj Hst (reg_filled _ _ Hreg)) _ _ Hw Hsp) as (y & Hy & Hb).
  assert (Ha' := Ha). destruct Ha' as (regs & iter & Hreg' & _).
  destruct (produce_complete extract env root md Ha Hreg regs root s2 (to_come extract s2) [] y Hreg') as (f0 & s2' & H1 & H2 & H3);
    [apply rtc_refl|by apply strict_no_loop|done|by rewrite app_nil_r|done|done|].
  exists f0, y, s2'. split_and!; [|done..]. intros f' Hle. apply run_parse_succ. auto.
Qed.
