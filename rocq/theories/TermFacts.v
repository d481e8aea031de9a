(** Termination and progress of [produce] for accepted types. *)
From Coq Require Import String NArith.
From stdpp Require Import prelude list strings relations.
From Verif Require Import LexModel LexSpec LexFacts SynSetModel SynSetFacts TableModel StreamModel StreamSpec StreamFacts TypeModel TypeSpec TypeFacts CfgSpec CfgFacts MetaFacts ProduceModel ParseSpec ProgFacts FuelFacts TreeFacts SoundFacts LangFacts RunFacts InvFacts LookFacts MdFacts ParseFacts.
Local Open Scope nat_scope.
#[local] Arguments ts_contains : simpl never.
#[local] Arguments ts_contains_e : simpl never.
#[local] Arguments tb_get : simpl never.

(** * Runs that end with enough fuel *)
Definition term {A} (m : nat → M A) (s : ast) (Q : A → ast → Prop) : Prop :=
  ∃ f0 o, (∀ f, f0 ≤ f → arun (m f) s = o) ∧
    match o with OFuel => False | OCrash => True | ODone a s' => Q a s' end.
Lemma term_wp {A} (m : M A) s Q : wp False True m s Q → term (λ _, m) s Q.
Proof. intros H. exists 0, (arun m s). split; [done|]. unfold wp in H. by destruct (arun m s). Qed.
Lemma term_ret {A} (a : A) s (Q : A → ast → Prop) : Q a s → term (λ _, mret a) s Q.
Proof. intros H. by apply term_wp, wp_ret. Qed.
Lemma term_weaken {A} (m : nat → M A) s (Q Q' : A → ast → Prop) : term m s Q → (∀ a s', Q a s' → Q' a s') → term m s Q'.
Proof. intros (f0 & o & H & Ho) HQ. exists f0, o. split; [done|]. destruct o; auto. Qed.
Lemma term_adv {A} (m : nat → M A) s (Q : A → ast → Prop) : term m s (λ a s', ∀ l, adv s l s' → Q a s') → term m s Q.
Proof.
  intros (f0 & o & H & Ho). exists f0, o. split; [done|]. destruct o as [| |a s']; [done..|].
  destruct (arun_adv (m f0) s a s') as [l Hl]; [by apply H|]. by apply (Ho l).
Qed.
Lemma term_and_adv {A} (m : nat → M A) s (Q : A → ast → Prop) : term m s Q → term m s (λ a s', Q a s' ∧ ∃ l, adv s l s').
Proof. intros H. apply term_adv. eapply term_weaken; [exact H|]. intros a s' Ha l Hl. eauto. Qed.
Lemma term_bind {A B} (m : nat → M A) (k : nat → A → M B) s Q :
  term m s (λ a s', term (λ f, k f a) s' Q) → term (λ f, m f ≫= k f) s Q.
Proof.
  intros (f0 & o & H & Ho). destruct o as [| |a s']; [done| |].
  - exists f0, OCrash. split; [|done]. intros f Hf. by rewrite arun_bind, H.
  - destruct Ho as (f1 & o & H1 & Ho). exists (f0 `max` f1), o. split; [|done].
    intros f Hf. rewrite arun_bind, H by lia. apply H1. lia.
Qed.
Lemma term_bind_wp {A B} (m : M A) (k : nat → A → M B) s Q :
  wp False True m s (λ a s', term (λ f, k f a) s' Q) → term (λ f, m ≫= k f) s Q.
Proof. intros H. apply (term_bind (λ _, m)). by apply term_wp. Qed.
Lemma term_S {A} (m : nat → M A) s Q : term (λ f, m (S f)) s Q → term m s Q.
Proof.
  intros (f0 & o & H & Ho). exists (S f0), o. split; [|done]. intros [|f] Hf; [lia|]. apply H. lia.
Qed.
Lemma term_shift {A} (m : nat → M A) s Q : term m s Q → term (λ f, m (S f)) s Q.
Proof. intros (f0 & o & H & Ho). exists f0, o. split; [|done]. intros f Hf. apply H. lia. Qed.
Lemma term_ext {A} (m m' : nat → M A) s Q : (∀ f, m f = m' f) → term m s Q → term m' s Q.
Proof. intros E (f0 & o & H & Ho). exists f0, o. split; [|done]. intros f Hf. rewrite <- E. by apply H. Qed.

(** Less input left. *)
Definition shorter (s' s : ast) : Prop := length (a_rest s') < length (a_rest s).
Lemma adv_le s l s' : adv s l s' → length (a_rest s') ≤ length (a_rest s).
Proof. intros [_ _ H]. rewrite H, app_length. lia. Qed.
Lemma adv_short s l s' : adv s l s' → shorter s' s ∨ l = [].
Proof.
  intros [_ _ H]. unfold shorter. rewrite H, app_length. destruct l; [by right|left]. cbn. lia.
Qed.
Lemma adv_shorter s l s' s0 : adv s l s' → shorter s s0 → shorter s' s0.
Proof. unfold shorter. intros ?%adv_le ?. lia. Qed.
Lemma adv_look s s' : adv s [] s' → look s' = look s.
Proof. intros (?&?&?)%adv_nil. by apply look_eq. Qed.
(** Properties kept when more input is consumed. *)
Definition kept (R : ast → Prop) : Prop := ∀ a l b, adv a l b → R a → R b.
Lemma kept_true : kept (λ _, True).
Proof. done. Qed.
Lemma kept_shorter s : kept (λ s', shorter s' s).
Proof. intros a l b H. by eapply adv_shorter. Qed.
(** After a first part with [R] the remaining program only has to end. *)
Lemma term_bind_kept {A B} (R : ast → Prop) (m : nat → M A) (k : nat → A → M B) s : kept R →
  term m s (λ a s', R s' ∧ term (λ f, k f a) s' (λ _ _, True)) → term (λ f, m f ≫= k f) s (λ _, R).
Proof.
  intros HR H. apply term_bind. eapply term_weaken; [exact H|]. intros a s' [Hs Ht].
  apply term_and_adv in Ht. eapply term_weaken; [exact Ht|]. intros b s'' [_ [l Hl]]. by eapply HR.
Qed.
Lemma term_true {A} (m : nat → M A) s (Q : A → ast → Prop) : term m s Q → term m s (λ _ _, True).
Proof. intros H. by eapply term_weaken. Qed.

(** * Loops *)
Lemma iter_term (p : nat → M (res tree)) (F : tset) n :
  (∀ s x, aok s → length (a_rest s) < n → look s = Some x → ts_contains F (Some x) = true →
     term p s (λ _ s', shorter s' s)) →
  ∀ s, aok s → length (a_rest s) < n → ∀ acc errs hi, term (λ f, iter_loop f (p f) F acc errs hi) s (λ _ _, True).
Proof.
  intros Hp s. remember (length (a_rest s)) as k eqn:Ek. revert p Hp s Ek.
  induction k as [k IH] using lt_wf_ind. intros p Hp s Ek Hok Hk acc errs hi.
  apply term_S. cbn [iter_loop]. apply term_bind_wp, wp_peek_src; [done|].
  destruct (look s) as [x|] eqn:El; [|by apply term_ret].
  destruct (ts_contains F (Some x)) eqn:Ef; [|by apply term_ret].
  apply term_bind. apply term_shift. assert (Ht := term_and_adv _ _ _ (Hp s x Hok ltac:(lia) El Ef)).
  eapply term_weaken; [exact Ht|]. intros r s1 [Hs [l Hl]]. unfold shorter in Hs.
  destruct (unres r) as [[t|] e]; [|by apply term_ret].
  apply (IH (length (a_rest s1)) ltac:(lia) (λ f, p (S f))); [|done|by eapply adv_aok|lia].
  intros s2 x2 ????. apply term_shift. by apply (Hp s2 x2).
Qed.

Lemma plus_term (R : ast → Prop) (p : nat → M (res tree)) (F : tset) s : aok s → kept R →
  term p s (λ _ s1, R s1 ∧ (shorter s1 s ∨ match look s with Some x => ts_contains F (Some x) = false | None => True end)) →
  (∀ s1 x, aok s1 → shorter s1 s → look s1 = Some x → ts_contains F (Some x) = true → term p s1 (λ _ s', shorter s' s1)) →
  term (λ f, produce_plus f (p f) F) s (λ _, R).
Proof.
  intros Hok HR H1 H2. unfold produce_plus. apply term_bind_kept; [done|].
  apply term_and_adv in H1. eapply term_weaken; [exact H1|]. intros r s1 [[Hs1 Hs2] [l Hl]]. split; [done|].
  assert (Hok1 : aok s1) by (by eapply adv_aok).
  destruct (unres r) as [[t|] e]; [|by apply term_ret].
  apply (term_bind (λ f, iter_loop f (p f) F [t] e (tree_hi t)) (λ _ '(l, errs, hi), mret (res_into (Span (tree_lo t) hi, l) errs))).
  cut (term (λ f, iter_loop f (p f) F [t] e (tree_hi t)) s1 (λ _ _, True)).
  { intros H. eapply term_weaken; [exact H|]. intros [[? ?] ?] ? _. by apply term_ret. }
  destruct (adv_short _ _ _ Hl) as [Hsh| ->].
  - apply (iter_term p F (length (a_rest s))); [|done|done]. intros s2 x ? ? ? ?. by apply (H2 s2 x).
  - destruct Hs2 as [Hsh|Hno].
    + apply (iter_term p F (length (a_rest s))); [|done|done]. intros s2 x ? ? ? ?. by apply (H2 s2 x).
    + apply term_S. cbn [iter_loop]. apply term_bind_wp, wp_peek_src; [done|].
      rewrite (adv_look _ _ Hl). destruct (look s) as [x|]; [|by apply term_ret]. rewrite Hno. by apply term_ret.
Qed.

(** [p] ends on less input than [n], and consumes something when the next token is in [F]. *)
Definition ends (p : nat → M (res tree)) (n : nat) : Prop :=
  ∀ s, aok s → length (a_rest s) < n → term p s (λ _ _, True).
Definition goes (p : nat → M (res tree)) (F : tset) (n : nat) : Prop :=
  ∀ s x, aok s → length (a_rest s) < n → look s = Some x → ts_contains F (Some x) = true →
    term p s (λ _ s', shorter s' s).
Definition goes_at (p : nat → M (res tree)) (F : tset) (s : ast) : Prop :=
  ∀ x, look s = Some x → ts_contains F (Some x) = true → term p s (λ _ s', shorter s' s).
Lemma ends_shift p n : ends p n → ends (λ f, p (S f)) n.
Proof. intros H s ??. by apply term_shift, H. Qed.
Lemma goes_shift p F n : goes p F n → goes (λ f, p (S f)) F n.
Proof. intros H s x ????. by apply term_shift, (H s x). Qed.
Lemma ends_le p n n' : n' ≤ n → ends p n → ends p n'.
Proof. intros Hn H s ??. apply H; [done|lia]. Qed.
Lemma goes_le p F n n' : n' ≤ n → goes p F n → goes p F n'.
Proof. intros Hn H s x ????. apply (H s x); [done|lia|done..]. Qed.
Lemma goes_goes_at p F n s : goes p F n → aok s → length (a_rest s) < n → goes_at p F s.
Proof. intros H ?? x ??. by apply (H s x). Qed.

Lemma pop_shorter s x : look s = Some x → shorter (pop s) s.
Proof.
  intros (t & r & E & _)%look_some. unfold shorter. destruct (pop_adv1 _ _ _ E) as [_ ->]. rewrite E. cbn. lia.
Qed.
Lemma aok_pop s : aok s → aok (pop s).
Proof. intros H. eapply adv_aok; [apply pop_adv|done]. Qed.

Lemma skip_term F s : aok s → ∀ hi,
  term (λ f, skip_loop f F (look s) hi) s (λ r s', r.1 = look s' ∧ match r.1 with Some x => ts_contains F (Some x) = true | None => True end).
Proof.
  remember (length (a_rest s)) as k eqn:Ek. revert s Ek.
  induction k as [k IH] using lt_wf_ind. intros s Ek Hok hi. apply term_S. cbn [skip_loop].
  destruct (look s) as [x|] eqn:El; [|by apply term_ret].
  destruct (ts_contains F (Some x)) eqn:Ef; [by apply term_ret|].
  apply term_bind_wp, wp_cur_span, term_bind_wp, wp_consume, term_bind_wp, wp_peek_src; [by apply aok_pop|].
  assert (H := pop_shorter _ _ El). unfold shorter in H.
  apply (IH (length (a_rest (pop s)))); [lia|done|by apply aok_pop].
Qed.

Lemma loop_term (p : nat → M (res tree)) F s : aok s → goes p F (length (a_rest s)) → goes_at p F s →
  ∀ acc errs, term (λ f, loop_loop f (p f) F acc errs) s (λ _ _, True).
Proof.
  remember (length (a_rest s)) as k eqn:Ek. revert p s Ek.
  induction k as [k IH] using lt_wf_ind. intros p s Ek Hok Hp Hps acc errs. apply term_S. cbn [loop_loop].
  apply term_bind_wp, wp_peek_src; [done|]. destruct (look s) as [x|] eqn:El; [|by apply term_ret].
  (* the item *)
  assert (Hitem : ∀ s1 errs1, aok s1 → length (a_rest s1) ≤ k → goes_at p F s1 →
    match look s1 with Some x => ts_contains F (Some x) = true | None => True end →
    term (λ f, match look s1 with
      | None => mret (acc, errs1)
      | Some _ =>
        sp0 ← cur_span;
        r ← p (S f);
        let '(o, e) := unres r in
        let acc1 := acc ++ option_list o in
        let errs2 := errs1 ++ e in
        sp1 ← cur_span;
        if sp_lo sp0 =? sp_lo sp1 then mret (acc1, errs2 ++ [PErr sp1 NoAdvance])
        else loop_loop f (p (S f)) F acc1 errs2
      end) s1 (λ _ _, True)).
  { intros s1 errs1 Hok1 Hle Hs1 Hin. destruct (look s1) as [x1|] eqn:El1; [|by apply term_ret].
    apply term_bind_wp, wp_cur_span, term_bind, term_shift.
    assert (Ht := term_and_adv _ _ _ (Hs1 x1 El1 Hin)). eapply term_weaken; [exact Ht|].
    intros r s2 [Hsh [l Hl]]. unfold shorter in Hsh. destruct (unres r) as [o e].
    apply term_bind_wp, wp_cur_span. destruct (_ =? _); [by apply term_ret|].
    assert (Hok2 : aok s2) by (by eapply adv_aok).
    assert (Hg : goes (λ f, p (S f)) F k) by (by apply goes_shift).
    apply (IH (length (a_rest s2)) ltac:(lia) (λ f, p (S f))); [done|done| |].
    - eapply goes_le; [|exact Hg]. lia.
    - eapply goes_goes_at; [exact Hg|done|lia]. }
  destruct (ts_contains F (Some x)) eqn:Ef.
  - apply (term_bind_wp (mret (Some x, errs))), wp_ret.
    specialize (Hitem s errs Hok ltac:(lia) Hps). rewrite El in Hitem. by apply Hitem.
  - eapply (term_bind (λ f, sp ← cur_span; _ ← consume; tk' ← peek_src;
      '(tk1, hi) ← skip_loop f F tk' (sp_hi sp); mret (tk1, errs ++ [PErr (Span (sp_lo sp) hi) UnexpectedTokens]))).
    assert (Hsh := pop_shorter _ _ El). unfold shorter in Hsh.
    apply term_bind_wp, wp_cur_span, term_bind_wp, wp_consume, term_bind_wp, wp_peek_src; [by apply aok_pop|].
    apply (term_bind (λ f, skip_loop f F (look (pop s)) (sp_hi (a_span s)))).
    assert (Ht := term_and_adv _ _ _ (skip_term F (pop s) (aok_pop _ Hok) (sp_hi (a_span s)))).
    eapply term_weaken; [exact Ht|]. intros [tk1 hi] s1 [[Htk Hin] [l Hl]]. cbn [fst] in Htk, Hin. subst tk1.
    apply term_ret. assert (Hle := adv_le _ _ _ Hl). assert (Hok1 : aok s1) by (eapply adv_aok; [exact Hl|by apply aok_pop]).
    apply (Hitem s1 (errs ++ [PErr (Span (sp_lo (a_span s)) hi) UnexpectedTokens])); [done|lia|eapply goes_goes_at; [exact Hp|done|lia]|done].
Qed.

Section split.
  Variables ef pf fol : tset.
  Lemma split_inner_term pT s : aok s → ends pT (S (length (a_rest s))) → ∀ panic errs,
    term (λ f, split_inner f (pT f) ef pf fol panic errs) s (λ _ _, True).
  Proof.
    remember (length (a_rest s)) as k eqn:Ek. revert pT s Ek.
    induction k as [k IH] using lt_wf_ind. intros pT s Ek Hok HT panic errs. apply term_S. cbn [split_inner].
    apply term_bind_wp, wp_peek_src; [done|].
    apply (term_bind (λ f, if ts_contains ef (look s) || ts_contains_e ef then
         r ← pT (S f);
         match unres r with
         | (Some t, e) => mret (inl (t, errs ++ e ++ option_list panic))
         | (None, e) => tk' ← peek_src; mret (inr (tk', merge_panic panic e))
         end
       else
         match panic with
         | Some p => sp ← cur_span; mret (inr (look s, Some (set_hi p (sp_hi sp))))
         | None => e ← expecting ef; mret (inr (look s, Some e))
         end)).
    assert (Hnext : ∀ s1 panic', aok s1 → length (a_rest s1) ≤ k → 
      term (λ f, if ts_contains pf (look s1) then mret (None, errs ++ option_list panic', true)
      else
        if bool_decide (look s1 = None) || ts_contains fol (look s1)
        then mret (None, errs ++ option_list panic', false)
        else _ ← consume; split_inner f (pT (S f)) ef pf fol panic' errs) s1 (λ _ _, True)).
    { intros s1 panic' Hok1 Hle. destruct (ts_contains pf (look s1)); [by apply term_ret|].
      destruct (bool_decide (look s1 = None)) eqn:En; [by apply term_ret|].
      apply bool_decide_eq_false in En. destruct (look s1) as [x|] eqn:El; [|done].
      destruct (ts_contains fol (Some x)); [by apply term_ret|]. cbn [orb].
      apply term_bind_wp, wp_consume. assert (Hsh := pop_shorter _ _ El). unfold shorter in Hsh.
      apply (IH (length (a_rest (pop s1))) ltac:(lia) (λ f, pT (S f))); [done|by apply aok_pop|].
      apply ends_shift. eapply ends_le; [|exact HT]. lia. }
    destruct (ts_contains ef (look s) || ts_contains_e ef).
    - apply term_bind, term_shift. assert (Ht := term_and_adv _ _ _ (HT s Hok ltac:(lia))).
      eapply term_weaken; [exact Ht|]. intros r s1 [_ [l Hl]].
      destruct (unres r) as [[t|] e]; [by apply term_ret, term_ret|].
      assert (Hok1 : aok s1) by (by eapply adv_aok). assert (Hle := adv_le _ _ _ Hl).
      apply term_bind_wp, wp_peek_src; [done|]. apply term_ret. apply Hnext; [done|lia].
    - destruct panic as [p|].
      + apply term_bind_wp, wp_cur_span, term_ret. apply Hnext; [done|lia].
      + apply term_bind_wp, wp_expecting, term_ret. apply Hnext; [done|lia].
  Qed.
  Lemma split_outer_term pT pP s : aok s → ends pT (length (a_rest s)) → goes pP pf (length (a_rest s)) → goes_at pP pf s →
    ∀ elems puncts errs, term (λ f, split_outer f (pT f) (pP f) ef pf fol elems puncts errs) s (λ _ _, True).
  Proof.
    remember (length (a_rest s)) as k eqn:Ek. revert pT pP s Ek.
    induction k as [k IH] using lt_wf_ind. intros pT pP s Ek Hok HT HP HPs elems puncts errs. apply term_S. cbn [split_outer].
    apply term_bind_wp, wp_peek_src; [done|]. destruct (look s) as [x|] eqn:El; [|by apply term_ret].
    destruct (ts_contains pf (Some x)) eqn:Ef; [|by apply term_ret].
    apply term_bind, term_shift. assert (Ht := term_and_adv _ _ _ (HPs x El Ef)).
    eapply term_weaken; [exact Ht|]. intros r s1 [Hsh [l Hl]]. unfold shorter in Hsh.
    assert (Hok1 : aok s1) by (by eapply adv_aok).
    destruct (unres r) as [[p|] e]; [|by apply term_ret].
    apply (term_bind (λ f, split_inner f (pT (S f)) ef pf fol None (errs ++ e))).
    assert (Ht1 : term (λ f, split_inner f (pT (S f)) ef pf fol None (errs ++ e)) s1 (λ _ _, True)).
    { apply (split_inner_term (λ f, pT (S f)) s1 Hok1). apply ends_shift. eapply ends_le; [|exact HT]. lia. }
    apply term_and_adv in Ht1. eapply term_weaken; [exact Ht1|]. intros [[o errs'] cont] s2 [_ [l2 Hl2]].
    assert (Hok2 : aok s2) by (by eapply adv_aok). assert (Hle := adv_le _ _ _ Hl2).
    destruct cont; [|by apply term_ret].
    apply (IH (length (a_rest s2)) ltac:(lia) (λ f, pT (S f)) (λ f, pP (S f))); [done|done|..].
    - apply ends_shift. eapply ends_le; [|exact HT]. lia.
    - apply goes_shift. eapply goes_le; [|exact HP]. lia.
    - eapply goes_goes_at; [by apply goes_shift|done|lia].
  Qed.
  Lemma split_term (R : ast → Prop) pT pP s : aok s → kept R →
    ends pT (length (a_rest s)) → goes pP pf (length (a_rest s)) →
    term pT s (λ _ s1, R s1 ∧ (shorter s1 s ∨ goes_at pP pf s1)) ∨
    term pT s (λ r s1, adv s [] s1 ∧ (unres r).1 ≠ None ∧ ∃ x, look s = Some x ∧ ts_contains pf (Some x) = true ∧
      term pP s1 (λ _ s2, R s2 ∧ shorter s2 s1)) →
    term (λ f, produce_split f (pT f) (pP f) ef pf fol) s (λ _, R).
  Proof.
    intros Hok HR HT HP H.
    assert (Hfin : ∀ t e s1, aok s1 → length (a_rest s1) ≤ length (a_rest s) → (shorter s1 s ∨ goes_at pP pf s1) →
      term (λ f, '(elems, puncts, errs) ← split_outer f (pT f) (pP f) ef pf fol [t] [] e;
        let hi := match last elems with Some x => tree_hi x | None => tree_lo t end in
        mret (res_into (TrSplit (Span (tree_lo t) hi) elems puncts) errs)) s1 (λ _ _, True)).
    { intros t e s1 Hok1 Hle Hs1. apply (term_bind (λ f, split_outer f (pT f) (pP f) ef pf fol [t] [] e)).
      assert (Ht : term (λ f, split_outer f (pT f) (pP f) ef pf fol [t] [] e) s1 (λ _ _, True)).
      { apply split_outer_term; [done|by eapply ends_le|by eapply goes_le|].
        destruct Hs1 as [Hs1|Hs1]; [|done]. by eapply goes_goes_at. }
      eapply term_weaken; [exact Ht|]. intros [[? ?] ?] ? _. by apply term_ret. }
    destruct H as [H|H]; unfold produce_split.
    - apply term_bind_kept; [done|]. apply term_and_adv in H. eapply term_weaken; [exact H|].
      intros r s1 [[Hs1 Hs2] [l Hl]]. split; [done|]. destruct (unres r) as [[t|] e]; [|by apply term_ret].
      apply Hfin; [by eapply adv_aok|by eapply adv_le|done].
    - apply term_bind. eapply term_weaken; [exact H|]. intros r s1 (Hl & Hr & x & El & Ef & Ht).
      assert (Hok1 : aok s1) by (by eapply adv_aok). assert (Hr1 := adv_nil _ _ Hl). destruct Hr1 as (Hr1 & _ & _).
      destruct (unres r) as [[t|] e]; [|done].
      apply (term_bind_kept R (λ f, split_outer f (pT f) (pP f) ef pf fol [t] [] e)); [done|].
      cut (term (λ f, split_outer f (pT f) (pP f) ef pf fol [t] [] e) s1 (λ _ s2, R s2)).
      { intros H1. eapply term_weaken; [exact H1|]. intros [[? ?] ?] ? ?. split; [done|]. by apply term_ret. }
      apply term_S. cbn [split_outer]. apply term_bind_wp, wp_peek_src; [done|].
      rewrite (adv_look _ _ Hl), El, Ef. apply (term_bind_kept R (λ f, pP (S f))); [done|]. apply term_shift.
      apply term_and_adv in Ht. eapply term_weaken; [exact Ht|]. intros r2 s2 [[HR2 Hsh] [l2 Hl2]]. split; [done|].
      unfold shorter in Hsh. rewrite Hr1 in Hsh.
      assert (Hok2 : aok s2) by (by eapply adv_aok). destruct (unres r2) as [[p|] e2]; [|by apply term_ret].
      apply (term_bind (λ f, split_inner f (pT (S f)) ef pf fol None (e ++ e2))).
      assert (Ht1 : term (λ f, split_inner f (pT (S f)) ef pf fol None (e ++ e2)) s2 (λ _ _, True)).
      { apply (split_inner_term (λ f, pT (S f)) s2 Hok2). apply ends_shift. eapply ends_le; [|exact HT]. lia. }
      apply term_and_adv in Ht1. eapply term_weaken; [exact Ht1|]. intros [[o errs'] cont] s3 [_ [l3 Hl3]].
      assert (Hok3 : aok s3) by (by eapply adv_aok). assert (Hle := adv_le _ _ _ Hl3).
      destruct cont; [|by apply term_ret].
      apply (split_outer_term (λ f, pT (S f)) (λ f, pP (S f))); [done|..].
      + apply ends_shift. eapply ends_le; [|exact HT]. lia.
      + apply goes_shift. eapply goes_le; [|exact HP]. lia.
      + eapply goes_goes_at; [by apply goes_shift|done|lia].
  Qed.

  Lemma punct_inner_term pT s : aok s → ends pT (S (length (a_rest s))) → ∀ panic errs,
    term (λ f, punct_inner f (pT f) ef pf fol panic errs) s (λ _ _, True).
  Proof.
    remember (length (a_rest s)) as k eqn:Ek. revert pT s Ek.
    induction k as [k IH] using lt_wf_ind. intros pT s Ek Hok HT panic errs. apply term_S. cbn [punct_inner].
    apply term_bind_wp, wp_peek_src; [done|]. destruct (look s) as [x|] eqn:El; [|by apply term_ret].
    destruct (_ && _); [by apply term_ret|].
    apply (term_bind (λ f, if ts_contains ef (Some x) then
             r ← pT (S f);
             match unres r with
             | (Some t, e) => mret (inl (t, errs ++ option_list panic ++ e))
             | (None, e) => mret (inr (merge_panic panic e))
             end
           else
             sp ← cur_span;
             mret (inr (Some
               (match panic with
                | Some p => set_hi p (sp_hi sp)
                | None =>
                  PErr sp (Expecting (fst (fs_union_minus_eps (fst (ts_remove_e fol)) ef)))
                end))))).
    assert (Hnext : ∀ s1 panic', aok s1 → length (a_rest s1) ≤ k → 
      term (λ f, tk' ← peek_src;
          if ts_contains pf tk' then mret (None, errs ++ option_list panic', true)
          else
            if bool_decide (tk' = None) || ts_contains fol tk'
            then mret (None, errs ++ option_list panic', false)
            else _ ← consume; punct_inner f (pT (S f)) ef pf fol panic' errs) s1 (λ _ _, True)).
    { intros s1 panic' Hok1 Hle. apply term_bind_wp, wp_peek_src; [done|].
      destruct (ts_contains pf (look s1)); [by apply term_ret|].
      destruct (bool_decide (look s1 = None)) eqn:En; [by apply term_ret|].
      apply bool_decide_eq_false in En. destruct (look s1) as [x1|] eqn:El1; [|done].
      destruct (ts_contains fol (Some x1)); [by apply term_ret|]. cbn [orb].
      apply term_bind_wp, wp_consume. assert (Hsh := pop_shorter _ _ El1). unfold shorter in Hsh.
      apply (IH (length (a_rest (pop s1))) ltac:(lia) (λ f, pT (S f))); [done|by apply aok_pop|].
      apply ends_shift. eapply ends_le; [|exact HT]. lia. }
    destruct (ts_contains ef (Some x)).
    - apply term_bind, term_shift. assert (Ht := term_and_adv _ _ _ (HT s Hok ltac:(lia))).
      eapply term_weaken; [exact Ht|]. intros r s1 [_ [l Hl]].
      destruct (unres r) as [[t|] e]; [by apply term_ret, term_ret|].
      assert (Hok1 : aok s1) by (by eapply adv_aok). assert (Hle := adv_le _ _ _ Hl).
      apply term_ret. apply Hnext; [done|lia].
    - apply term_bind_wp, wp_cur_span, term_ret. apply Hnext; [done|lia].
  Qed.
  Lemma punct_outer_term pT pP s : aok s → ends pT (length (a_rest s)) → goes pP pf (length (a_rest s)) → goes_at pP pf s →
    ∀ elems puncts errs, term (λ f, punct_outer f (pT f) (pP f) ef pf fol elems puncts errs) s (λ _ _, True).
  Proof.
    remember (length (a_rest s)) as k eqn:Ek. revert pT pP s Ek.
    induction k as [k IH] using lt_wf_ind. intros pT pP s Ek Hok HT HP HPs elems puncts errs. apply term_S. cbn [punct_outer].
    apply term_bind_wp, wp_peek_src; [done|]. destruct (look s) as [x|] eqn:El; [|by apply term_ret].
    destruct (ts_contains pf (Some x)) eqn:Ef; [|by apply term_ret].
    apply term_bind, term_shift. assert (Ht := term_and_adv _ _ _ (HPs x El Ef)).
    eapply term_weaken; [exact Ht|]. intros r s1 [Hsh [l Hl]]. unfold shorter in Hsh.
    assert (Hok1 : aok s1) by (by eapply adv_aok).
    destruct (unres r) as [[p|] e]; [|by apply term_ret].
    apply (term_bind (λ f, punct_inner f (pT (S f)) ef pf fol None (errs ++ e))).
    assert (Ht1 : term (λ f, punct_inner f (pT (S f)) ef pf fol None (errs ++ e)) s1 (λ _ _, True)).
    { apply (punct_inner_term (λ f, pT (S f)) s1 Hok1). apply ends_shift. eapply ends_le; [|exact HT]. lia. }
    apply term_and_adv in Ht1. eapply term_weaken; [exact Ht1|]. intros [[o errs'] cont] s2 [_ [l2 Hl2]].
    assert (Hok2 : aok s2) by (by eapply adv_aok). assert (Hle := adv_le _ _ _ Hl2).
    destruct cont; [|by apply term_ret].
    apply (IH (length (a_rest s2)) ltac:(lia) (λ f, pT (S f)) (λ f, pP (S f))); [done|done|..].
    - apply ends_shift. eapply ends_le; [|exact HT]. lia.
    - apply goes_shift. eapply goes_le; [|exact HP]. lia.
    - eapply goes_goes_at; [by apply goes_shift|done|lia].
  Qed.
  Lemma punct_term (R : ast → Prop) pT pP s : aok s → kept R →
    ends pT (length (a_rest s)) → goes pP pf (length (a_rest s)) →
    term pT s (λ _ s1, R s1 ∧ (shorter s1 s ∨ goes_at pP pf s1)) →
    term (λ f, produce_punct f (pT f) (pP f) ef pf fol) s (λ _, R).
  Proof.
    intros Hok HR HT HP H. unfold produce_punct. apply term_bind_kept; [done|].
    apply term_and_adv in H. eapply term_weaken; [exact H|].
    intros r s1 [[Hs1 Hs2] [l Hl]]. split; [done|]. destruct (unres r) as [[t|] e]; [|by apply term_ret].
    assert (Hok1 : aok s1) by (by eapply adv_aok). assert (Hle := adv_le _ _ _ Hl).
    apply (term_bind (λ f, punct_outer f (pT f) (pP f) ef pf fol [t] [] e)).
    assert (Ht : term (λ f, punct_outer f (pT f) (pP f) ef pf fol [t] [] e) s1 (λ _ _, True)).
    { apply punct_outer_term; [done|by eapply ends_le|by eapply goes_le|].
      destruct Hs2 as [Hs2|Hs2]; [|done]. by eapply goes_goes_at. }
    eapply term_weaken; [exact Ht|]. intros [[? ?] ?] ? _. by apply term_ret.
  Qed.
End split.

Lemma recover_loop_term pR tf s : aok s → ends pR (length (a_rest s)) →
  (ts_contains_e tf = true ∨ (∃ x, look s = Some x ∧ ts_contains tf (Some x) = true) → term pR s (λ _ _, True)) →
  ∀ panic errs, term (λ f, recover_loop f (pR f) tf panic errs) s (λ _ _, True).
Proof.
  remember (length (a_rest s)) as k eqn:Ek. revert pR s Ek.
  induction k as [k IH] using lt_wf_ind. intros pR s Ek Hok HR Hs panic errs. apply term_S. cbn [recover_loop].
  apply term_bind_wp, wp_peek_src; [done|]. destruct (look s) as [x|] eqn:El.
  - apply (term_bind (λ f, if ts_contains tf (Some x) || ts_contains_e tf then
           r ← pR (S f);
           match unres r with
           | (Some x, e) => mret (inl (x, errs ++ e))
           | (None, e) => mret (inr (merge_panic panic e))
           end
         else mret (inr panic))).
    assert (Hnext : ∀ s1 panic', aok s1 → length (a_rest s1) ≤ k → 
      term (λ f, p ← match panic' with
            | Some p => sp ← cur_span; mret (set_hi p (sp_hi sp))
            | None => expecting tf
            end;
        _ ← consume;
        recover_loop f (pR (S f)) tf (Some p) errs) s1 (λ _ _, True)).
    { intros s1 panic' Hok1 Hle.
      assert (Hc : ∀ p : perr, term (λ f, _ ← consume; recover_loop f (pR (S f)) tf (Some p) errs) s1 (λ _ _, True)).
      { intros p. apply term_bind_wp, wp_consume. destruct (look s1) as [x1|] eqn:El1.
        - assert (Hsh := pop_shorter _ _ El1). unfold shorter in Hsh.
          apply (IH (length (a_rest (pop s1))) ltac:(lia) (λ f, pR (S f))); [done|by apply aok_pop| |].
          + apply ends_shift. eapply ends_le; [|exact HR]. lia.
          + intros _. apply term_shift. apply HR; [by apply aok_pop|lia].
        - assert (Er := proj1 (look_none s1) El1). unfold pop. rewrite Er.
          apply term_S. cbn [recover_loop]. apply term_bind_wp, wp_peek_src; [done|]. rewrite El1.
          destruct (ts_contains_e tf) eqn:Ee; [|by apply term_ret].
          apply (term_bind (λ f, pR (S (S f)))), (term_shift (λ f, pR (S f))), term_shift.
          assert (Hlt : length (a_rest s1) < k).
          { rewrite Er. cbn. apply look_some in El as (? & ? & E & _). rewrite E in Ek. cbn in Ek. lia. }
          eapply term_weaken; [by apply (HR s1)|]. intros r s2 _.
          destruct (unres r) as [[?|] ?]; by apply term_ret. }
      destruct panic' as [p|].
      - apply (term_bind_wp (sp ← cur_span; mret (set_hi p (sp_hi sp)))), wp_bind, wp_cur_span, wp_ret. apply Hc.
      - apply (term_bind_wp (expecting tf)), wp_expecting. apply Hc. }
    destruct (ts_contains tf (Some x) || ts_contains_e tf) eqn:Eg.
    + apply term_bind, term_shift. assert (Ht : term pR s (λ _ _, True)).
      { apply Hs. apply orb_true_iff in Eg as [?|?]; [right; eauto|by left]. }
      apply term_and_adv in Ht. eapply term_weaken; [exact Ht|]. intros r s1 [_ [l Hl]].
      assert (Hok1 : aok s1) by (by eapply adv_aok). assert (Hle := adv_le _ _ _ Hl).
      destruct (unres r) as [[y|] e]; [by apply term_ret, term_ret|]. apply term_ret. apply Hnext; [done|lia].
    + apply term_ret. apply Hnext; [done|lia].
  - destruct (ts_contains_e tf) eqn:Ee; [|by apply term_ret].
    apply term_bind, term_shift. eapply term_weaken; [apply Hs; by left|]. intros r s1 _.
    destruct (unres r) as [[?|] ?]; by apply term_ret.
Qed.
