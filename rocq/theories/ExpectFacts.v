(** What errors list as expected. *)
From Coq Require Import String NArith.
From stdpp Require Import prelude list strings relations.
From Verif Require Import LexModel LexSpec LexFacts SynSetModel SynSetFacts TableModel StreamModel StreamSpec StreamFacts TypeModel ProduceModel ParseSpec ProgFacts TreeFacts RunFacts InvFacts TermFacts LookFacts ParseFacts CompleteFacts LeafSpec ListSpec.
Local Open Scope nat_scope.
#[local] Arguments ts_contains : simpl never.
#[local] Arguments ts_contains_e : simpl never.
Notation wpt := (wp True True).

(** [mild]: the kinds of errors allowed. *)
Section kinds.
  Variable mild : ekind → Prop.
  Definition good (es : list perr) : Prop := Forall (λ e, mild (e_kind e)) es.
  Definition kp {A} (p : M (res A)) : Prop := ∀ s, aok s → wpt p s (λ r _, good (unres r).2).

  Lemma good_nil : good [].
  Proof. constructor. Qed.
  Lemma good_app a b : good a → good b → good (a ++ b).
  Proof. intros. by apply Forall_app. Qed.
  Lemma good_one sp k : mild k → good [PErr sp k].
  Proof. intros. by apply Forall_singleton. Qed.
  Lemma good_hi p n : good [p] → good [set_hi p n].
  Proof. intros [H _]%Forall_cons. by apply Forall_singleton. Qed.
  Lemma good_last e : good e → good (option_list (last e)).
  Proof.
    intros H. destruct (last e) as [x|] eqn:E; [|constructor]. apply last_Some_elem_of in E.
    apply Forall_singleton. unfold good in H. rewrite Forall_forall in H. by apply H.
  Qed.
  Lemma good_merge p e : good (option_list p) → good e → good (option_list (merge_panic p e)).
  Proof.
    intros Hp He. unfold merge_panic. apply good_last in He. destruct (last e) as [x|]; [|done]. cbn [option_list] in He.
    destruct p as [q|]; [|done]. cbn [option_list] in *. apply Forall_cons in Hp as [Hq _]. by apply Forall_singleton.
  Qed.
  Lemma kret {A} (a : A) es s : good es → wpt (mret (res_into a es)) s (λ r _, good (unres r).2).
  Proof. intros H. apply wp_ret. by rewrite unres_into. Qed.
  Lemma kcall {A B} (p : M (res A)) (k : res A → M B) s Q : aok s → kp p →
    (∀ r s', aok s' → good (unres r).2 → wpt (k r) s' Q) → wpt (p ≫= k) s Q.
  Proof.
    intros Hok Hp Hk. apply wp_bind, wp_adv. eapply wp_mono; [by apply Hp|]. intros r s' Hr l Hl. apply Hk; [by eapply adv_aok|done].
  Qed.
  Lemma kbind {A B} (m : M A) (k : A → M B) s (Q' : A → Prop) Q : aok s → wpt m s (λ a _, Q' a) →
    (∀ r s', aok s' → Q' r → wpt (k r) s' Q) → wpt (m ≫= k) s Q.
  Proof.
    intros Hok Hp Hk. apply wp_bind, wp_adv. eapply wp_mono; [exact Hp|]. intros r s' Hr l Hl. apply Hk; [by eapply adv_aok|done].
  Qed.
  Lemma aok_mark s sp sem : aok s → aok (mark s sp sem).
  Proof. intros H. eapply adv_aok; [apply mark_adv|done]. Qed.

  Lemma produce_seq_kinds rec ts : (∀ t, t ∈ ts → kp (rec t)) → ∀ acc errs, good errs → kp (produce_seq rec ts acc errs).
  Proof.
    induction ts as [|t ts IH]; intros Hr acc errs He s Hok; cbn [produce_seq].
    - by apply kret.
    - apply kcall; [done|apply Hr; set_solver|]. intros r s1 Hok1 H1. destruct (unres r) as [[x|] e].
      + apply IH; [set_solver|by apply good_app|done].
      + apply wp_ret. cbn. by apply good_app.
  Qed.
  Lemma produce_option_kinds {X} (p : M (res X)) sp set : kp p → kp (produce_option p sp set).
  Proof.
    intros Hp s Hok. unfold produce_option. apply wp_bind, wp_peek_src; [done|].
    destruct (look s) as [x|]; [destruct (ts_contains set (Some x))|].
    - apply kcall; [done..|]. intros r s1 Hok1 H1. destruct r as [t|t es|es]; cbn in H1; [by apply wp_ret..|].
      by apply wp_bind, wp_empty_span, wp_ret.
    - apply wp_bind, wp_empty_span, wp_ret. constructor.
    - apply wp_bind, wp_empty_span, wp_ret. constructor.
  Qed.
  Lemma iter_loop_kinds p set n : kp p → ∀ acc errs hi s, aok s → good errs →
    wpt (iter_loop n p set acc errs hi) s (λ q _, good q.1.2).
  Proof.
    intros Hp. induction n as [|n IH]; intros acc errs hi s Hok He; [done|]. cbn [iter_loop].
    apply wp_bind, wp_peek_src; [done|]. destruct (look s) as [x|]; [|by apply wp_ret].
    destruct (ts_contains set (Some x)); [|by apply wp_ret].
    apply kcall; [done..|]. intros r s1 Hok1 H1. destruct (unres r) as [[y|] e]; cbn in H1.
    - apply IH; [done|by apply good_app].
    - apply wp_ret. by apply good_app.
  Qed.
  Lemma produce_plus_kinds p set n : kp p → kp (produce_plus n p set).
  Proof.
    intros Hp s Hok. unfold produce_plus. apply kcall; [done..|]. intros r s1 Hok1 H1. destruct (unres r) as [[y|] e]; cbn in H1; [|by apply wp_ret].
    eapply kbind; [done|by apply iter_loop_kinds|]. intros [[l errs] hi] s2 _ He. by apply kret.
  Qed.
  Lemma skip_loop_kinds set n tk hi s : wpt (skip_loop n set tk hi) s (λ _ _, True).
  Proof. unfold wp. by destruct (arun _ _). Qed.
  Lemma loop_loop_kinds p set n : mild UnexpectedTokens → mild NoAdvance → kp p → ∀ acc errs s, aok s → good errs →
    wpt (loop_loop n p set acc errs) s (λ q _, good q.2).
  Proof.
    intros M1 M2 Hp. induction n as [|n IH]; intros acc errs s Hok He; [done|]. cbn [loop_loop].
    apply wp_bind, wp_peek_src; [done|]. destruct (look s) as [x|] eqn:El; [|by apply wp_ret].
    apply (kbind _ _ _ (λ q, good q.2)); [done| |].
    - destruct (ts_contains set (Some x)); [by apply wp_ret|].
      apply wp_bind, wp_cur_span, wp_bind, wp_consume, wp_bind, wp_peek_src; [by apply aok_pop|].
      eapply kbind; [by apply aok_pop|apply skip_loop_kinds|]. intros [tk hi] s1 _ _. apply wp_ret. apply good_app; [done|by apply good_one].
    - intros [tk errs1] s1 Hok1 He1. cbn in He1. destruct tk; [|by apply wp_ret].
      apply wp_bind, wp_cur_span. apply kcall; [done..|]. intros r s2 Hok2 Hr. destruct (unres r) as [o e]. cbn in Hr.
      apply wp_bind, wp_cur_span. case_match.
      + apply wp_ret. repeat apply good_app; [done..|by apply good_one].
      + apply IH; [done|by apply good_app].
  Qed.
  Lemma produce_loop_kinds p set n : mild UnexpectedTokens → mild NoAdvance → kp p → kp (produce_loop n p set).
  Proof.
    intros M1 M2 Hp s Hok. unfold produce_loop. eapply kbind; [done|apply loop_loop_kinds; [done..|apply good_nil]|].
    intros [l errs] s1 Hok1 He. apply (kbind _ _ _ (λ _, True)); [done|unfold wp; by destruct (arun _ _)|]. intros sp s2 _ _. by apply kret.
  Qed.
  Lemma split_inner_kinds pT ef pf fol n : mild (Expecting ef) → kp pT → ∀ panic errs s, aok s → good (option_list panic) → good errs →
    wpt (split_inner n pT ef pf fol panic errs) s (λ q _, good q.1.2).
  Proof.
    intros HM HT. induction n as [|n IH]; intros panic errs s Hok Hp He; [done|]. cbn [split_inner].
    apply wp_bind, wp_peek_src; [done|].
    apply (kbind _ _ _ (λ x, match x with inl (_, es) => good es | inr (_, p) => good (option_list p) end)); [done| |].
    - destruct (ts_contains ef (look s) || ts_contains_e ef).
      + apply kcall; [done..|]. intros r s1 Hok1 H1. destruct (unres r) as [[y|] e]; cbn in H1.
        * apply wp_ret. by repeat apply good_app.
        * apply wp_bind, wp_peek_src; [done|]. apply wp_ret. by apply good_merge.
      + destruct panic as [q|].
        * apply wp_bind, wp_cur_span, wp_ret. by apply good_hi.
        * apply wp_bind, wp_expecting, wp_ret. by apply good_one.
    - intros [[y es]|[tk' p']] s1 Hok1 H1; [by apply wp_ret|].
      destruct (ts_contains pf tk'); [apply wp_ret; by apply good_app|].
      destruct (bool_decide (tk' = None) || ts_contains fol tk'); [apply wp_ret; by apply good_app|].
      apply wp_bind, wp_consume. apply IH; [by apply aok_pop|done..].
  Qed.
  Lemma split_outer_kinds pT pP ef pf fol n : mild (Expecting ef) → kp pT → kp pP → ∀ elems puncts errs s, aok s → good errs →
    wpt (split_outer n pT pP ef pf fol elems puncts errs) s (λ q _, good q.2).
  Proof.
    intros HM HT HP. induction n as [|n IH]; intros elems puncts errs s Hok He; [done|]. cbn [split_outer].
    apply wp_bind, wp_peek_src; [done|]. destruct (look s) as [x|]; [|by apply wp_ret].
    destruct (ts_contains pf (Some x)); [|by apply wp_ret].
    apply kcall; [done..|]. intros r s1 Hok1 H1. destruct (unres r) as [[y|] e]; cbn in H1.
    - eapply kbind; [done|apply split_inner_kinds; [exact HM|exact HT|exact Hok1|apply good_nil|by apply good_app]|].
      intros [[o es] c] s2 Hok2 H2. cbn zeta. destruct c; [by apply IH|by apply wp_ret].
    - apply wp_ret. by apply good_app.
  Qed.
  Lemma produce_split_kinds pT pP ef pf fol n : mild (Expecting ef) → kp pT → kp pP → kp (produce_split n pT pP ef pf fol).
  Proof.
    intros HM HT HP s Hok. unfold produce_split. apply kcall; [done..|]. intros r s1 Hok1 H1. destruct (unres r) as [[y|] e]; cbn in H1; [|by apply wp_ret].
    eapply kbind; [done|by apply split_outer_kinds|]. intros [[l d] errs] s2 _ He. cbn zeta. by apply kret.
  Qed.
  Lemma punct_inner_kinds pT ef pf fol n : mild (Expecting (fst (fs_union_minus_eps (fst (ts_remove_e fol)) ef))) → kp pT → ∀ panic errs s, aok s → good (option_list panic) → good errs →
    wpt (punct_inner n pT ef pf fol panic errs) s (λ q _, good q.1.2).
  Proof.
    intros HM HT. induction n as [|n IH]; intros panic errs s Hok Hp He; [done|]. cbn [punct_inner].
    apply wp_bind, wp_peek_src; [done|]. destruct (look s) as [x|]; [|apply wp_ret; by apply good_app].
    destruct (negb (ts_contains ef (Some x)) && ts_contains fol (Some x)); [apply wp_ret; by apply good_app|].
    apply (kbind _ _ _ (λ x, match x with inl (_, es) => good es | inr p => good (option_list p) end)); [done| |].
    - destruct (ts_contains ef (Some x)).
      + apply kcall; [done..|]. intros r s1 Hok1 H1. destruct (unres r) as [[y|] e]; cbn in H1.
        * apply wp_ret. by repeat apply good_app.
        * apply wp_ret. by apply good_merge.
      + apply wp_bind, wp_cur_span, wp_ret. destruct panic as [q|]; [by apply good_hi|by apply good_one].
    - intros [[y es]|p'] s1 Hok1 H1; [by apply wp_ret|]. apply wp_bind, wp_peek_src; [done|].
      destruct (ts_contains pf (look s1)); [apply wp_ret; by apply good_app|].
      destruct (bool_decide (look s1 = None) || ts_contains fol (look s1)); [apply wp_ret; by apply good_app|].
      apply wp_bind, wp_consume. apply IH; [by apply aok_pop|done..].
  Qed.
  Lemma punct_outer_kinds pT pP ef pf fol n : mild (Expecting (fst (fs_union_minus_eps (fst (ts_remove_e fol)) ef))) → kp pT → kp pP → ∀ elems puncts errs s, aok s → good errs →
    wpt (punct_outer n pT pP ef pf fol elems puncts errs) s (λ q _, good q.2).
  Proof.
    intros HM HT HP. induction n as [|n IH]; intros elems puncts errs s Hok He; [done|]. cbn [punct_outer].
    apply wp_bind, wp_peek_src; [done|]. destruct (look s) as [x|]; [|by apply wp_ret].
    destruct (ts_contains pf (Some x)); [|by apply wp_ret].
    apply kcall; [done..|]. intros r s1 Hok1 H1. destruct (unres r) as [[y|] e]; cbn in H1.
    - eapply kbind; [done|apply punct_inner_kinds; [exact HM|exact HT|exact Hok1|apply good_nil|by apply good_app]|].
      intros [[o es] c] s2 Hok2 H2. cbn zeta. destruct c; [by apply IH|by apply wp_ret].
    - apply wp_ret. by apply good_app.
  Qed.
  Lemma produce_punct_kinds pT pP ef pf fol n : mild (Expecting (fst (fs_union_minus_eps (fst (ts_remove_e fol)) ef))) → kp pT → kp pP → kp (produce_punct n pT pP ef pf fol).
  Proof.
    intros HM HT HP s Hok. unfold produce_punct. apply kcall; [done..|]. intros r s1 Hok1 H1. destruct (unres r) as [[y|] e]; cbn in H1; [|by apply wp_ret].
    eapply kbind; [done|by apply punct_outer_kinds|]. intros [[l d] errs] s2 _ He. cbn zeta. by apply kret.
  Qed.
  Lemma recover_loop_kinds pR tf n : mild (Expecting tf) → kp pR → ∀ panic errs s, aok s → good (option_list panic) → good errs →
    wpt (recover_loop n pR tf panic errs) s (λ q _, good (option_list q.1.2) ∧ good q.2).
  Proof.
    intros HM HR. induction n as [|n IH]; intros panic errs s Hok Hp He; [done|]. cbn [recover_loop].
    apply wp_bind, wp_peek_src; [done|]. destruct (look s) as [x|].
    - apply (kbind _ _ _ (λ x, match x with inl (_, es) => good es | inr p => good (option_list p) end)); [done| |].
      + destruct (ts_contains tf (Some x) || ts_contains_e tf); [|by apply wp_ret].
        apply kcall; [done..|]. intros r s1 Hok1 H1. destruct (unres r) as [[y|] e]; cbn in H1; apply wp_ret; [by apply good_app|by apply good_merge].
      + intros [[y es]|p'] s1 Hok1 H1; [by apply wp_ret|].
        apply (kbind _ _ _ (λ p, good [p])); [done| |].
        * destruct p' as [q|]; [apply wp_bind, wp_cur_span, wp_ret; by apply good_hi|apply wp_expecting; by apply good_one].
        * intros p s2 Hok2 H2. apply wp_bind, wp_consume. apply IH; [by apply aok_pop|done..].
    - destruct (ts_contains_e tf); [|by apply wp_ret].
      apply kcall; [done..|]. intros r s1 Hok1 H1. destruct (unres r) as [[y|] e]; cbn in H1; apply wp_ret.
      + split; [done|by apply good_app].
      + split; [by apply good_merge|done].
  Qed.
  Lemma produce_recover_kinds pT pR hf tf n : mild (Expecting hf) → mild (Expecting tf) → kp pT → kp pR → kp (produce_recover n pT pR hf tf).
  Proof.
    intros HM HM' HT HR s Hok. unfold produce_recover. apply wp_bind, wp_peek_src; [done|].
    apply (kbind _ _ _ (λ q, good (option_list q.1.1.1) ∧ good q.2)); [done| |].
    - destruct (ts_contains hf (look s) || ts_contains_e hf).
      + apply kcall; [done..|]. intros r s1 Hok1 H1. destruct (unres r) as [[y|] e]; cbn in H1.
        * apply wp_ret. split; [apply good_nil|done].
        * apply wp_bind, wp_empty_span, wp_ret. split; [by apply good_last|apply good_nil].
      + apply wp_bind, wp_expecting, wp_bind, wp_empty_span, wp_ret. split; [by apply good_one|apply good_nil].
    - intros [[[p sp] hd] es] s1 Hok1 [H1 H2].
      eapply kbind; [done|by apply recover_loop_kinds|]. intros [[tl p'] es'] s2 Hok2 [H3 H4]. cbn zeta.
      destruct tl as [x|]; [apply kret; by apply good_app|apply wp_ret; by apply good_app].
  Qed.
  Lemma fields_kinds fs xs s : aok s → wpt (apply_fields fs xs) s (λ _ s', True).
  Proof. intros _. unfold wp. by destruct (arun _ _). Qed.
  Lemma src_kinds (c : span → string → tree) (r : res tree) s : good (unres r).2 →
    wpt (match r with
      | RSucc x => s ← get_src (tree_span x); mret (RSucc (c (tree_span x) s))
      | RRec x e => s ← get_src (tree_span x); mret (RRec (c (tree_span x) s) e)
      | RPanic e => mret (RPanic e) end) s (λ r _, good (unres r).2).
  Proof.
    intros H. destruct r as [x|x e|e]; cbn in H; [apply wp_bind..|by apply wp_ret].
    - unfold wp, get_src. cbn [arun]. destruct (span_get _ _); [|done]. apply good_nil.
    - unfold wp, get_src. cbn [arun]. destruct (span_get _ _); [|done]. done.
  Qed.
  Lemma map_kinds {A B} (g : A → B) (r : res A) s : good (unres r).2 → wpt (mret (res_map g r)) s (λ r _, good (unres r).2).
  Proof. intros H. apply wp_ret. by rewrite unres_map. Qed.
End kinds.

Section expect.
  Variable env : denv.
  Variables (first follow : prod → tset) (jump : prod → option tok → option nat).
  Variable root : ty.
  Notation rec := (produce env first follow jump).
  Definition mild (k : ekind) : Prop := match k with Expecting set => expected env first follow root set | _ => True end.
  Notation good := (good mild).
  Notation kp := (kp mild).
  Lemma mild_tok n y lit : within env root (TTok n y lit) → mild (Expecting (fs_one y lit)).
  Proof.
    intros Hw. exists (TTok n y lit). split; [done|]. intros [[y' x]|].
    - rewrite fs_one_contains. split; [intros [-> H]; eauto|]. by intros (x' & [= -> ->] & H).
    - split; [|by intros (x & ? & _)]. unfold fs_one. rewrite ts_contains_insert. by rewrite ts_contains_new.
  Qed.
  Lemma mild_punct a p : within env root (TPunct a p) →
    mild (Expecting (fst (fs_union_minus_eps (fst (ts_remove_e (follow (key (TPunct a p))))) (first (key a))))).
  Proof.
    intros Hw. exists (TPunct a p). split; [done|]. intros x. unfold fs_union_minus_eps. rewrite ts_contains_union, orb_true_iff.
    rewrite ts_remove_e_contains, bool_decide_eq_false_2 by done. cbn [negb andb]. rewrite andb_true_r. tauto.
  Qed.
  Lemma produce_kinds f t : within env root t → kp (rec f t).
  Proof.
    revert t. induction f as [|f IH]; intros t Hw s Hok; [done|].
    assert (Hsub : ∀ c, c ∈ subs env t → kp (rec f c)). { intros c Hc. apply IH. by eapply rtc_r. }
    destruct t as [n y lit|n|ts|t|t|t|t|t|t|t|t|t d|t d|t r]; cbn [produce]; cbn [subs] in Hsub.
    - apply wp_bind. assert (Hm := mild_tok _ _ _ Hw). destruct lit as [lit|].
      + apply wp_parse_token_lit; [done|]. destruct (a_rest s) as [|a l].
        * repeat (destruct (decide _) || destruct (ts_contains_e _)); apply map_kinds; try apply good_nil; by apply good_one.
        * destruct (decide _); [apply map_kinds, good_nil|]. destruct (ts_contains _ _); apply map_kinds; by apply good_one.
      + apply wp_parse_token. destruct (a_rest s) as [|a l]; [apply map_kinds; by apply good_one|].
        destruct (decide _); apply map_kinds; [apply good_nil|by apply good_one].
    - destruct (env !! n) as [[fs|vs]|] eqn:En; [| |done].
      + eapply kcall; [done|apply (produce_seq_kinds mild (rec f)); [done|apply good_nil]|]. intros r s1 Hok1 H1.
        destruct (unres r) as [[xs|] e]; cbn in H1; [|by apply wp_ret].
        eapply kbind; [done|by apply fields_kinds|]. intros [] s2 _ _. by apply kret.
      + apply wp_bind, wp_peek_src; [done|]. destruct (i ← _; _) as [[i [t' sem]]|] eqn:Ei.
        * assert (Ht : t' ∈ map fst vs).
          { destruct (jump _ _) as [j|]; [|done]. cbn in Ei. destruct (vs !! j) as [v|] eqn:Ev; [|done]. cbn in Ei. injection Ei as -> ->.
            apply elem_of_list_lookup_2 in Ev. apply elem_of_list_In, (in_map fst), elem_of_list_In in Ev. done. }
          eapply (kcall mild (rec f t')); [done|by apply Hsub|]. intros r s1 Hok1 H1.
          destruct r as [x|x e|e], sem as [sem|]; try (by apply map_kinds); apply wp_bind, wp_apply; by apply map_kinds.
        * apply wp_bind, wp_expecting, wp_ret. apply good_one. exists (TNamed n). eauto.
    - eapply kcall; [done|apply (produce_seq_kinds mild (rec f)); [done|apply good_nil]|]. intros r s1 Hok1 H1. by apply map_kinds.
    - apply Hsub; [set_solver|done].
    - eapply kcall; [done|apply produce_option_kinds, (Hsub t); set_solver|]. intros r s1 Hok1 H1. by apply map_kinds.
    - eapply kcall; [done|apply produce_option_kinds, (Hsub t); set_solver|]. intros r s1 Hok1 H1. by apply map_kinds.
    - eapply kcall; [done|apply (Hsub t); set_solver|]. intros r s1 Hok1 H1. by apply src_kinds.
    - eapply kcall; [done|apply (Hsub t); set_solver|]. intros r s1 Hok1 H1. by apply src_kinds.
    - eapply kcall; [done|apply produce_plus_kinds, (Hsub t); set_solver|]. intros r s1 Hok1 H1. by apply map_kinds.
    - eapply kcall; [done|apply produce_option_kinds, produce_plus_kinds, (Hsub t); set_solver|]. intros r s1 Hok1 H1. by apply map_kinds.
    - eapply kcall; [done|apply (produce_loop_kinds mild); [exact I|exact I|apply (Hsub t); set_solver]|]. intros r s1 Hok1 H1. by apply map_kinds.
    - apply (produce_split_kinds mild (rec f t) (rec f d)); [by exists (TSplit t d)|apply Hsub; set_solver..|done].
    - apply (produce_punct_kinds mild (rec f t) (rec f d)); [by apply mild_punct|apply Hsub; set_solver..|done].
    - apply (produce_recover_kinds mild (rec f t) (rec f r)); [exists (TRecover t r); by eauto..|apply Hsub; set_solver|apply Hsub; set_solver|done].
  Qed.
End expect.

Lemma expect_run extract env first follow jump f t s r s' e set : state_ok s →
  run extract (produce env first follow jump f t) s = ODone r s' → e ∈ errors_of r → e_kind e = Expecting set →
  expected env first follow t set.
Proof.
  intros Hok%(state_ok_abs extract) Hr He Hk.
  assert (H := run_wp extract _ _ _ _ _ _ _ (produce_kinds env first follow jump t f t (rtc_refl _ _) _ Hok) Hr).
  unfold good in H. rewrite Forall_forall in H. specialize (H e He). cbn in H. by rewrite Hk in H.
Qed.
