(** [tp::Loop]: what it does with the input, and that accepted grammars never report
    [NoAdvance]. *)
From Coq Require Import String NArith.
From stdpp Require Import prelude list strings relations.
From Verif Require Import LexModel LexSpec LexFacts SynSetModel SynSetFacts TableModel StreamModel StreamSpec StreamFacts TypeModel TypeSpec TypeFacts CfgSpec CfgFacts FollowFacts MetaFacts ProduceModel ParseSpec ProgFacts FuelFacts TreeFacts SoundFacts LangFacts RunFacts InvFacts LookFacts MdFacts ParseFacts TermFacts ProgressFacts EndFacts CompleteFacts LoopSpec.
Local Open Scope nat_scope.
#[local] Arguments ts_contains : simpl never.
#[local] Arguments ts_contains_e : simpl never.
#[local] Arguments tb_get : simpl never.
Notation wpt := (wp True True).

(** * Kinds of errors *)
Section kinds.
  Definition mild (k : ekind) : Prop := match k with NoAdvance => False | _ => True end.
  Definition good (es : list perr) : Prop := Forall (λ e, mild (e_kind e)) es.
  Definition kp {A} (p : M (res A)) : Prop := ∀ s, aok s → wpt p s (λ r _, good (unres r).2).

  Lemma good_nil : good [].
  Proof. constructor. Qed.
  Lemma good_app a b : good a → good b → good (a ++ b).
  Proof. intros. by apply Forall_app. Qed.
  Lemma good_one sp k : mild k → good [PErr sp k].
  Proof. intros. by apply Forall_singleton. Qed.
  Lemma good_hi p n : good [p] → good [set_hi p n].
  Proof. intros [H _]%Forall_cons. by apply Forall_singleton. Qed.
  Lemma good_last e : good e → good (option_list (last e)).
  Proof.
    intros H. destruct (last e) as [x|] eqn:E; [|constructor]. apply last_Some_elem_of in E.
    apply Forall_singleton. unfold good in H. rewrite Forall_forall in H. by apply H.
  Qed.
  Lemma good_merge p e : good (option_list p) → good e → good (option_list (merge_panic p e)).
  Proof.
    intros Hp He. unfold merge_panic. apply good_last in He. destruct (last e) as [x|]; [|done]. cbn [option_list] in He.
    destruct p as [q|]; [|done]. cbn [option_list] in *. apply Forall_cons in Hp as [Hq _]. by apply Forall_singleton.
  Qed.
  Lemma kret {A} (a : A) es s : good es → wpt (mret (res_into a es)) s (λ r _, good (unres r).2).
  Proof. intros H. apply wp_ret. by rewrite unres_into. Qed.
  Lemma kcall {A B} (p : M (res A)) (k : res A → M B) s Q : aok s → kp p →
    (∀ r s', aok s' → good (unres r).2 → wpt (k r) s' Q) → wpt (p ≫= k) s Q.
  Proof.
    intros Hok Hp Hk. apply wp_bind, wp_adv. eapply wp_mono; [by apply Hp|]. intros r s' Hr l Hl. apply Hk; [by eapply adv_aok|done].
  Qed.
  Lemma kbind {A B} (m : M A) (k : A → M B) s (Q' : A → Prop) Q : aok s → wpt m s (λ a _, Q' a) →
    (∀ r s', aok s' → Q' r → wpt (k r) s' Q) → wpt (m ≫= k) s Q.
  Proof.
    intros Hok Hp Hk. apply wp_bind, wp_adv. eapply wp_mono; [exact Hp|]. intros r s' Hr l Hl. apply Hk; [by eapply adv_aok|done].
  Qed.
  Lemma aok_mark s sp sem : aok s → aok (mark s sp sem).
  Proof. intros H. eapply adv_aok; [apply mark_adv|done]. Qed.

  Lemma produce_seq_kinds rec ts : (∀ t, t ∈ ts → kp (rec t)) → ∀ acc errs, good errs → kp (produce_seq rec ts acc errs).
  Proof.
    induction ts as [|t ts IH]; intros Hr acc errs He s Hok; cbn [produce_seq].
    - by apply kret.
    - apply kcall; [done|apply Hr; set_solver|]. intros r s1 Hok1 H1. destruct (unres r) as [[x|] e].
      + apply IH; [set_solver|by apply good_app|done].
      + apply wp_ret. cbn. by apply good_app.
  Qed.
  Lemma produce_option_kinds {X} (p : M (res X)) sp set : kp p → kp (produce_option p sp set).
  Proof.
    intros Hp s Hok. unfold produce_option. apply wp_bind, wp_peek_src; [done|].
    destruct (look s) as [x|]; [destruct (ts_contains set (Some x))|].
    - apply kcall; [done..|]. intros r s1 Hok1 H1. destruct r as [t|t es|es]; cbn in H1; [by apply wp_ret..|].
      by apply wp_bind, wp_empty_span, wp_ret.
    - apply wp_bind, wp_empty_span, wp_ret. constructor.
    - apply wp_bind, wp_empty_span, wp_ret. constructor.
  Qed.
  Lemma iter_loop_kinds p set n : kp p → ∀ acc errs hi s, aok s → good errs →
    wpt (iter_loop n p set acc errs hi) s (λ q _, good q.1.2).
  Proof.
    intros Hp. induction n as [|n IH]; intros acc errs hi s Hok He; [done|]. cbn [iter_loop].
    apply wp_bind, wp_peek_src; [done|]. destruct (look s) as [x|]; [|by apply wp_ret].
    destruct (ts_contains set (Some x)); [|by apply wp_ret].
    apply kcall; [done..|]. intros r s1 Hok1 H1. destruct (unres r) as [[y|] e]; cbn in H1.
    - apply IH; [done|by apply good_app].
    - apply wp_ret. by apply good_app.
  Qed.
  Lemma produce_plus_kinds p set n : kp p → kp (produce_plus n p set).
  Proof.
    intros Hp s Hok. unfold produce_plus. apply kcall; [done..|]. intros r s1 Hok1 H1. destruct (unres r) as [[y|] e]; cbn in H1; [|by apply wp_ret].
    eapply kbind; [done|by apply iter_loop_kinds|]. intros [[l errs] hi] s2 _ He. by apply kret.
  Qed.
  Lemma skip_loop_kinds set n tk hi s : wpt (skip_loop n set tk hi) s (λ _ _, True).
  Proof. unfold wp. by destruct (arun _ _). Qed.
  (** The item takes a token whenever it can start with the next one. *)
  Definition moves (p : M (res tree)) (set : tset) : Prop := ∀ s x, aok s → look s = Some x → ts_contains set (Some x) = true →
    wpt p s (λ _ s', shorter s' s).
  Lemma skip_loop_stop set n : ∀ s hi, aok s →
    wpt (skip_loop n set (look s) hi) s (λ '(tk, _) s', tk = look s' ∧ match tk with Some x => ts_contains set (Some x) = true | None => True end).
  Proof.
    induction n as [|n IH]; intros s hi Hok; [done|]. cbn [skip_loop]. destruct (look s) as [x|] eqn:El; [|by apply wp_ret].
    destruct (ts_contains set (Some x)) eqn:E; [by apply wp_ret|].
    apply wp_bind, wp_cur_span, wp_bind, wp_consume, wp_bind, wp_peek_src; [by apply aok_pop|]. apply IH. by apply aok_pop.
  Qed.
  (** The loop ends at the end of the input. *)
  Lemma loop_loop_kinds p set n : kp p → moves p set → ∀ acc errs s, aok s → good errs →
    wpt (loop_loop n p set acc errs) s (λ q s', good q.2 ∧ a_rest s' = []).
  Proof.
    intros Hp Hm. induction n as [|n IH]; intros acc errs s Hok He; [done|]. cbn [loop_loop].
    apply wp_bind, wp_peek_src; [done|]. destruct (look s) as [x|] eqn:El; [|apply wp_ret; split; [done|by apply look_none]].
    assert (Hitem : ∀ s1 errs1, aok s1 → good errs1 → match look s1 with Some x => ts_contains set (Some x) = true | None => True end →
      wpt (match look s1 with
      | None => mret (acc, errs1)
      | Some _ =>
        sp0 ← cur_span;
        r ← p;
        let '(o, e) := unres r in
        let acc1 := acc ++ option_list o in
        let errs2 := errs1 ++ e in
        sp1 ← cur_span;
        if sp_lo sp0 =? sp_lo sp1 then mret (acc1, errs2 ++ [PErr sp1 NoAdvance])
        else loop_loop n p set acc1 errs2
      end) s1 (λ q s', good q.2 ∧ a_rest s' = [])).
    { intros s1 errs1 Hok1 He1 H1. destruct (look s1) as [y|] eqn:El1; [|apply wp_ret; split; [done|by apply look_none]].
      apply wp_bind, wp_cur_span, wp_bind, wp_adv. eapply wp_mono; [apply wp_and; [by apply Hp|by apply (Hm s1 y)]|].
      intros r s2 [Hr Hs] l Hl. assert (Hok2 : aok s2) by (by eapply adv_aok). destruct (unres r) as [o e]. cbn in Hr.
      apply wp_bind, wp_cur_span. assert (l ≠ []) as Hne.
      { intros ->. unfold shorter in Hs. rewrite (proj1 (adv_nil _ _ Hl)) in Hs. lia. }
      assert (Hlt := cur_lt _ _ _ Hok1 Hl Hne). rewrite (proj2 (Nat.eqb_neq _ _)) by lia.
      apply IH; [done|by apply good_app]. }
    destruct (ts_contains set (Some x)) eqn:E.
    - apply wp_bind, wp_ret. specialize (Hitem s errs Hok He). rewrite El in Hitem. by apply Hitem.
    - apply wp_bind, wp_bind, wp_cur_span, wp_bind, wp_consume, wp_bind, wp_peek_src; [by apply aok_pop|].
      apply wp_bind, wp_adv. eapply wp_mono; [apply skip_loop_stop; by apply aok_pop|]. intros [tk hi] s1 [-> H1] l Hl.
      apply wp_ret. apply (Hitem s1); [by eapply adv_aok, aok_pop| |done]. apply good_app; [done|by apply good_one].
  Qed.
  Lemma produce_loop_kinds p set n : kp p → moves p set → ∀ s, aok s →
    wpt (produce_loop n p set) s (λ r s', good (unres r).2 ∧ a_rest s' = []).
  Proof.
    intros Hp Hm s Hok. unfold produce_loop. apply wp_bind. eapply wp_mono; [apply loop_loop_kinds; [done..|apply good_nil]|].
    intros [l errs] s1 [He Hs]. apply wp_bind. destruct (head l), (last l).
    2-4: apply wp_empty_span, wp_ret; split; [by rewrite unres_into|done].
    apply wp_ret, wp_ret. split; [by rewrite unres_into|done].
  Qed.
  Lemma split_inner_kinds pT ef pf fol n : kp pT → ∀ panic errs s, aok s → good (option_list panic) → good errs →
    wpt (split_inner n pT ef pf fol panic errs) s (λ q _, good q.1.2).
  Proof.
    intros HT. induction n as [|n IH]; intros panic errs s Hok Hp He; [done|]. cbn [split_inner].
    apply wp_bind, wp_peek_src; [done|].
    apply (kbind _ _ _ (λ x, match x with inl (_, es) => good es | inr (_, p) => good (option_list p) end)); [done| |].
    - destruct (ts_contains ef (look s) || ts_contains_e ef).
      + apply kcall; [done..|]. intros r s1 Hok1 H1. destruct (unres r) as [[y|] e]; cbn in H1.
        * apply wp_ret. by repeat apply good_app.
        * apply wp_bind, wp_peek_src; [done|]. apply wp_ret. by apply good_merge.
      + destruct panic as [q|].
        * apply wp_bind, wp_cur_span, wp_ret. by apply good_hi.
        * apply wp_bind, wp_expecting, wp_ret. by apply good_one.
    - intros [[y es]|[tk' p']] s1 Hok1 H1; [by apply wp_ret|].
      destruct (ts_contains pf tk'); [apply wp_ret; by apply good_app|].
      destruct (bool_decide (tk' = None) || ts_contains fol tk'); [apply wp_ret; by apply good_app|].
      apply wp_bind, wp_consume. apply IH; [by apply aok_pop|done..].
  Qed.
  Lemma split_outer_kinds pT pP ef pf fol n : kp pT → kp pP → ∀ elems puncts errs s, aok s → good errs →
    wpt (split_outer n pT pP ef pf fol elems puncts errs) s (λ q _, good q.2).
  Proof.
    intros HT HP. induction n as [|n IH]; intros elems puncts errs s Hok He; [done|]. cbn [split_outer].
    apply wp_bind, wp_peek_src; [done|]. destruct (look s) as [x|]; [|by apply wp_ret].
    destruct (ts_contains pf (Some x)); [|by apply wp_ret].
    apply kcall; [done..|]. intros r s1 Hok1 H1. destruct (unres r) as [[y|] e]; cbn in H1.
    - eapply kbind; [done|apply split_inner_kinds; [done..|apply good_nil|by apply good_app]|].
      intros [[o es] c] s2 Hok2 H2. cbn zeta. destruct c; [by apply IH|by apply wp_ret].
    - apply wp_ret. by apply good_app.
  Qed.
  Lemma produce_split_kinds pT pP ef pf fol n : kp pT → kp pP → kp (produce_split n pT pP ef pf fol).
  Proof.
    intros HT HP s Hok. unfold produce_split. apply kcall; [done..|]. intros r s1 Hok1 H1. destruct (unres r) as [[y|] e]; cbn in H1; [|by apply wp_ret].
    eapply kbind; [done|by apply split_outer_kinds|]. intros [[l d] errs] s2 _ He. cbn zeta. by apply kret.
  Qed.
  Lemma punct_inner_kinds pT ef pf fol n : kp pT → ∀ panic errs s, aok s → good (option_list panic) → good errs →
    wpt (punct_inner n pT ef pf fol panic errs) s (λ q _, good q.1.2).
  Proof.
    intros HT. induction n as [|n IH]; intros panic errs s Hok Hp He; [done|]. cbn [punct_inner].
    apply wp_bind, wp_peek_src; [done|]. destruct (look s) as [x|]; [|apply wp_ret; by apply good_app].
    destruct (negb (ts_contains ef (Some x)) && ts_contains fol (Some x)); [apply wp_ret; by apply good_app|].
    apply (kbind _ _ _ (λ x, match x with inl (_, es) => good es | inr p => good (option_list p) end)); [done| |].
    - destruct (ts_contains ef (Some x)).
      + apply kcall; [done..|]. intros r s1 Hok1 H1. destruct (unres r) as [[y|] e]; cbn in H1.
        * apply wp_ret. by repeat apply good_app.
        * apply wp_ret. by apply good_merge.
      + apply wp_bind, wp_cur_span, wp_ret. destruct panic as [q|]; [by apply good_hi|by apply good_one].
    - intros [[y es]|p'] s1 Hok1 H1; [by apply wp_ret|]. apply wp_bind, wp_peek_src; [done|].
      destruct (ts_contains pf (look s1)); [apply wp_ret; by apply good_app|].
      destruct (bool_decide (look s1 = None) || ts_contains fol (look s1)); [apply wp_ret; by apply good_app|].
      apply wp_bind, wp_consume. apply IH; [by apply aok_pop|done..].
  Qed.
  Lemma punct_outer_kinds pT pP ef pf fol n : kp pT → kp pP → ∀ elems puncts errs s, aok s → good errs →
    wpt (punct_outer n pT pP ef pf fol elems puncts errs) s (λ q _, good q.2).
  Proof.
    intros HT HP. induction n as [|n IH]; intros elems puncts errs s Hok He; [done|]. cbn [punct_outer].
    apply wp_bind, wp_peek_src; [done|]. destruct (look s) as [x|]; [|by apply wp_ret].
    destruct (ts_contains pf (Some x)); [|by apply wp_ret].
    apply kcall; [done..|]. intros r s1 Hok1 H1. destruct (unres r) as [[y|] e]; cbn in H1.
    - eapply kbind; [done|apply punct_inner_kinds; [done..|apply good_nil|by apply good_app]|].
      intros [[o es] c] s2 Hok2 H2. cbn zeta. destruct c; [by apply IH|by apply wp_ret].
    - apply wp_ret. by apply good_app.
  Qed.
  Lemma produce_punct_kinds pT pP ef pf fol n : kp pT → kp pP → kp (produce_punct n pT pP ef pf fol).
  Proof.
    intros HT HP s Hok. unfold produce_punct. apply kcall; [done..|]. intros r s1 Hok1 H1. destruct (unres r) as [[y|] e]; cbn in H1; [|by apply wp_ret].
    eapply kbind; [done|by apply punct_outer_kinds|]. intros [[l d] errs] s2 _ He. cbn zeta. by apply kret.
  Qed.
  Lemma recover_loop_kinds pR tf n : kp pR → ∀ panic errs s, aok s → good (option_list panic) → good errs →
    wpt (recover_loop n pR tf panic errs) s (λ q _, good (option_list q.1.2) ∧ good q.2).
  Proof.
    intros HR. induction n as [|n IH]; intros panic errs s Hok Hp He; [done|]. cbn [recover_loop].
    apply wp_bind, wp_peek_src; [done|]. destruct (look s) as [x|].
    - apply (kbind _ _ _ (λ x, match x with inl (_, es) => good es | inr p => good (option_list p) end)); [done| |].
      + destruct (ts_contains tf (Some x) || ts_contains_e tf); [|by apply wp_ret].
        apply kcall; [done..|]. intros r s1 Hok1 H1. destruct (unres r) as [[y|] e]; cbn in H1; apply wp_ret; [by apply good_app|by apply good_merge].
      + intros [[y es]|p'] s1 Hok1 H1; [by apply wp_ret|].
        apply (kbind _ _ _ (λ p, good [p])); [done| |].
        * destruct p' as [q|]; [apply wp_bind, wp_cur_span, wp_ret; by apply good_hi|apply wp_expecting; by apply good_one].
        * intros p s2 Hok2 H2. apply wp_bind, wp_consume. apply IH; [by apply aok_pop|done..].
    - destruct (ts_contains_e tf); [|by apply wp_ret].
      apply kcall; [done..|]. intros r s1 Hok1 H1. destruct (unres r) as [[y|] e]; cbn in H1; apply wp_ret.
      + split; [done|by apply good_app].
      + split; [by apply good_merge|done].
  Qed.
  Lemma produce_recover_kinds pT pR hf tf n : kp pT → kp pR → kp (produce_recover n pT pR hf tf).
  Proof.
    intros HT HR s Hok. unfold produce_recover. apply wp_bind, wp_peek_src; [done|].
    apply (kbind _ _ _ (λ q, good (option_list q.1.1.1) ∧ good q.2)); [done| |].
    - destruct (ts_contains hf (look s) || ts_contains_e hf).
      + apply kcall; [done..|]. intros r s1 Hok1 H1. destruct (unres r) as [[y|] e]; cbn in H1.
        * apply wp_ret. split; [apply good_nil|done].
        * apply wp_bind, wp_empty_span, wp_ret. split; [by apply good_last|apply good_nil].
      + apply wp_bind, wp_expecting, wp_bind, wp_empty_span, wp_ret. split; [by apply good_one|apply good_nil].
    - intros [[[p sp] hd] es] s1 Hok1 [H1 H2].
      eapply kbind; [done|by apply recover_loop_kinds|]. intros [[tl p'] es'] s2 Hok2 [H3 H4]. cbn zeta.
      destruct tl as [x|]; [apply kret; by apply good_app|apply wp_ret; by apply good_app].
  Qed.
End kinds.

(** * Accepted grammars *)
Set Default Proof Using "All".
Section md.
  Variable env : denv.
  Variable root : ty.
  Variable regs iter : grammar prod.
  Variable md : metadata prod.
  Hypothesis Hreg : register_root env (prod_of root) = Some regs.
  Hypothesis Hperm : iter ≡ₚ regs.
  Hypothesis Hmeta : meta_build regs iter (key root) = Some (inr md).
  Hypothesis Henums : plain_enums env root.
  Notation F := (tb_get (md_first md)).
  Notation W t := (within env root t).
  Notation fst_ := (MdFacts.fst_ regs).
  Notation "'MD' l" := (l env root regs iter md Hreg Hperm Hmeta) (at level 9, l at level 0, only parsing).
  Notation "'ME' l" := (l env root regs iter md Hreg Hperm Hmeta Henums) (at level 9, l at level 0, only parsing).
  Notation rec := (produce_md env md).

  Lemma item_moves f t : W (TLoop t) → moves (rec f t) (F (key (TLoop t))).
  Proof.
    intros Hw s x Hok El Hc. assert (Hwt : W t) by (apply (ME ProgressFacts.W_sub _ _ Hw); cbn; set_solver).
    apply (MD first_spec) in Hc. change (fst_ (TPlus t) x) in Hc.
    assert (Hv : visible env (key root) (key (TPlus t))) by exact (ME ProgressFacts.W_V _ Hw). apply (proj1 (MD fst_plus t x Hv)) in Hc.
    apply (ME goes_wpt t x); [|done..]. apply (MD fst_sta); [by apply (ME ProgressFacts.W_V)|done].
  Qed.
  Lemma fields_kinds fs xs s : aok s → wpt (apply_fields fs xs) s (λ _ s', True).
  Proof. intros _. unfold wp. by destruct (arun _ _). Qed.
  Lemma src_kinds (c : span → string → tree) (r : res tree) s : good (unres r).2 →
    wpt (match r with
      | RSucc x => s ← get_src (tree_span x); mret (RSucc (c (tree_span x) s))
      | RRec x e => s ← get_src (tree_span x); mret (RRec (c (tree_span x) s) e)
      | RPanic e => mret (RPanic e) end) s (λ r _, good (unres r).2).
  Proof.
    intros H. destruct r as [x|x e|e]; cbn in H; [apply wp_bind..|by apply wp_ret].
    - unfold wp, get_src. cbn [arun]. destruct (span_get _ _); [|done]. apply good_nil.
    - unfold wp, get_src. cbn [arun]. destruct (span_get _ _); [|done]. done.
  Qed.
  Lemma map_kinds {A B} (g : A → B) (r : res A) s : good (unres r).2 → wpt (mret (res_map g r)) s (λ r _, good (unres r).2).
  Proof. intros H. apply wp_ret. by rewrite unres_map. Qed.
  Lemma produce_kinds f t : W t → kp (rec f t).
  Proof.
    revert t. induction f as [|f IH]; intros t Hw s Hok; [done|].
    assert (Hsub : ∀ c, c ∈ subs env t → kp (rec f c)). { intros c Hc. apply IH. by apply (ME ProgressFacts.W_sub _ _ Hw). }
    unfold produce_md. destruct t as [n y lit|n|ts|t|t|t|t|t|t|t|t|t d|t d|t r]; cbn [produce]; cbn [subs] in Hsub.
    - apply wp_bind. destruct lit as [lit|].
      + apply wp_parse_token_lit; [done|]. destruct (a_rest s) as [|a l].
        * repeat (destruct (decide _) || destruct (ts_contains_e _)); apply map_kinds; try apply good_nil; by apply good_one.
        * destruct (decide _); [apply map_kinds, good_nil|]. destruct (ts_contains _ _); apply map_kinds; by apply good_one.
      + apply wp_parse_token. destruct (a_rest s) as [|a l]; [apply map_kinds; by apply good_one|].
        destruct (decide _); apply map_kinds; [apply good_nil|by apply good_one].
    - destruct (env !! n) as [[fs|vs]|] eqn:En; [| |done].
      + eapply kcall; [done|apply (produce_seq_kinds (rec f)); [done|apply good_nil]|]. intros r s1 Hok1 H1.
        destruct (unres r) as [[xs|] e]; cbn in H1; [|by apply wp_ret].
        eapply kbind; [done|by apply fields_kinds|]. intros [] s2 _ _. by apply kret.
      + apply wp_bind, wp_peek_src; [done|]. destruct (i ← _; _) as [[i [t' sem]]|] eqn:Ei.
        * assert (Ht : t' ∈ map fst vs).
          { destruct (jump_look_up _ _ _) as [j|]; [|done]. cbn in Ei. destruct (vs !! j) as [v|] eqn:Ev; [|done]. cbn in Ei. injection Ei as -> ->.
            apply elem_of_list_lookup_2 in Ev. apply elem_of_list_In, (in_map fst), elem_of_list_In in Ev. done. }
          eapply (kcall (rec f t')); [done|by apply Hsub|]. intros r s1 Hok1 H1.
          destruct r as [x|x e|e], sem as [sem|]; try (by apply map_kinds); apply wp_bind, wp_apply; by apply map_kinds.
        * apply wp_bind, wp_expecting, wp_ret. by apply good_one.
    - eapply kcall; [done|apply (produce_seq_kinds (rec f)); [done|apply good_nil]|]. intros r s1 Hok1 H1. by apply map_kinds.
    - apply Hsub; [set_solver|done].
    - eapply kcall; [done|apply produce_option_kinds, (Hsub t); set_solver|]. intros r s1 Hok1 H1. by apply map_kinds.
    - eapply kcall; [done|apply produce_option_kinds, (Hsub t); set_solver|]. intros r s1 Hok1 H1. by apply map_kinds.
    - eapply kcall; [done|apply (Hsub t); set_solver|]. intros r s1 Hok1 H1. by apply src_kinds.
    - eapply kcall; [done|apply (Hsub t); set_solver|]. intros r s1 Hok1 H1. by apply src_kinds.
    - eapply kcall; [done|apply produce_plus_kinds, (Hsub t); set_solver|]. intros r s1 Hok1 H1. by apply map_kinds.
    - eapply kcall; [done|apply produce_option_kinds, produce_plus_kinds, (Hsub t); set_solver|]. intros r s1 Hok1 H1. by apply map_kinds.
    - apply wp_bind. eapply wp_mono; [apply (produce_loop_kinds (rec f t)); [apply Hsub; set_solver|by apply item_moves|done]|].
      intros r s1 [H1 _]. by apply map_kinds.
    - apply (produce_split_kinds (rec f t) (rec f d)); [apply Hsub; set_solver..|done].
    - apply (produce_punct_kinds (rec f t) (rec f d)); [apply Hsub; set_solver..|done].
    - apply (produce_recover_kinds (rec f t) (rec f r)); [apply Hsub; set_solver..|done].
  Qed.
  Lemma loop_whole f t s : W (TLoop t) → aok s → wpt (rec f (TLoop t)) s (λ r s', a_rest s' = []).
  Proof.
    intros Hw Hok. destruct f as [|f]; [done|]. unfold produce_md. cbn [produce]. apply wp_bind.
    eapply wp_mono; [apply (produce_loop_kinds (rec f t)); [apply produce_kinds; apply (ME ProgressFacts.W_sub _ _ Hw); cbn; set_solver|by apply item_moves|done]|].
    intros r s1 [_ H]. by apply wp_ret.
  Qed.
End md.
Unset Default Proof Using.

(** * Runs *)
Section run.
  Context (extract : nat → bool).
  Notation run := (run extract).
  Notation abs := (abs extract).

  Lemma peek_src_run s a s' : aok (abs s) → run peek_src s = ODone a s' → a = look (abs s) ∧ abs s' = abs s.
  Proof. intros Hok H. apply (run_wp _ True True _ _ _ _ (λ a s', a = look (abs s) ∧ s' = abs s) (wp_peek_src _ _ _ _ Hok (conj eq_refl eq_refl)) H). Qed.
  Lemma cur_span_run' s a s' : run cur_span s = ODone a s' → a = a_span (abs s) ∧ abs s' = abs s.
  Proof. intros H. apply (run_wp _ True True _ _ _ _ (λ a s', a = a_span (abs s) ∧ s' = abs s) (wp_cur_span _ _ _ _ (conj eq_refl eq_refl)) H). Qed.
  Lemma consume_run' s a s' : run consume s = ODone a s' → abs s' = pop (abs s).
  Proof. intros H. apply (run_wp _ True True _ _ _ _ (λ a s', s' = pop (abs s)) (wp_consume _ _ _ _ eq_refl) H). Qed.
  Lemma run_bind_inv {A B} (m : M A) (k : A → M B) s b s' : run (m ≫= k) s = ODone b s' →
    ∃ a s1, run m s = ODone a s1 ∧ run (k a) s1 = ODone b s'.
  Proof. rewrite run_bind. destruct (run m s) as [| |a s1]; [done..|]. eauto. Qed.

  Lemma skip_loop_spec set n : ∀ s hi, aok s →
    wpt (skip_loop n set (look s) hi) s (λ q s', ∃ l, adv s l s' ∧ Forall (λ x, ts_contains set (Some x) = false) (word (a_src s) l) ∧
      q.2 = match last l with Some t => sp_hi (t_span t) | None => hi end ∧ q.1 = look s' ∧
      (∀ x, look s' = Some x → ts_contains set (Some x) = true)).
  Proof.
    induction n as [|n IH]; intros s hi Hok; [done|]. cbn [skip_loop]. destruct (look s) as [x|] eqn:El.
    2:{ apply wp_ret. exists []. split_and!; [apply adv_refl|constructor|done|done|]. intros x E. congruence. }
    destruct (ts_contains set (Some x)) eqn:E.
    { apply wp_ret. exists []. split_and!; [apply adv_refl|constructor|done|done|]. intros y E'. congruence. }
    apply wp_bind, wp_cur_span, wp_bind, wp_consume, wp_bind, wp_peek_src; [by apply aok_pop|].
    eapply wp_mono; [apply IH; by apply aok_pop|]. intros [tk hi'] s' (l & Hl & Hf & Hhi & Htk & Hn). cbn in Hhi, Htk.
    unfold look in El. unfold a_span in Hhi. destruct (a_rest s) as [|t r] eqn:Er; [done|]. destruct (pop_adv1 _ _ _ Er) as [Hp _].
    exists ([t] ++ l). split_and!; [by eapply adv_trans| |cbn [snd]|done|done].
    - cbn [app]. unfold word. cbn [map]. constructor; [|by rewrite <- (adv_src _ _ _ Hp)].
      injection El as <-. exact E.
    - rewrite Hhi. cbn [app]. destruct l as [|t' l]; [done|]. change (last (t :: t' :: l)) with (last (t' :: l)). destruct (last (t' :: l)) eqn:E'; [done|]. by apply last_None in E'.
  Qed.
  Lemma next_none s : next_tok extract s = None ↔ to_come extract s = [].
  Proof. unfold next_tok. by destruct (to_come extract s). Qed.

  Lemma loops_pre can item s s0 xs es s' : took extract s [] s0 → loops extract can item s0 xs es s' → loops extract can item s xs es s'.
  Proof.
    intros T H. destruct H as [s0 s' T' E|s0 l sp s1 xs es s' T' Hf Hn Hc Hl|s0 s1 x r s2 xs es s' T' Hn Hx Hi Hm Hl|s0 s1 x r s2 sp s' T' Hn Hx Hi Hm Hl].
    - apply loops_end; [|done]. by apply (took_trans _ _ [] _ []  _ T).
    - eapply (loops_skip _ _ _ _ l); [by apply (took_trans _ _ [] _ l _ T)| |done..]. destruct T as (<- & _). done.
    - eapply loops_item; [by apply (took_trans _ _ [] _ []  _ T)|done..].
    - eapply loops_stuck; [by apply (took_trans _ _ [] _ []  _ T)|done..].
  Qed.
  Lemma loop_loop_run p set n : ∀ acc errs s q s', aok (abs s) → run (loop_loop n p set acc errs) s = ODone q s' →
    ∃ xs es, loops extract (λ x, ts_contains set (Some x) = true) (λ s r s', run p s = ODone r s') s xs es s' ∧
      q = (acc ++ xs, errs ++ es).
  Proof.
    induction n as [|n IH]; intros acc errs s q s' Hok H; [done|]. cbn [loop_loop] in H.
    assert (Hitem : ∀ s0 s1 errs1, abs s1 = abs s0 → aok (abs s0) → (∀ x, look (abs s0) = Some x → ts_contains set (Some x) = true) →
      run (match look (abs s0) with
      | None => mret (acc, errs1)
      | Some _ =>
        sp0 ← cur_span;
        r ← p;
        let '(o, e) := unres r in
        let acc1 := acc ++ option_list o in
        let errs2 := errs1 ++ e in
        sp1 ← cur_span;
        if sp_lo sp0 =? sp_lo sp1 then mret (acc1, errs2 ++ [PErr sp1 NoAdvance])
        else loop_loop n p set acc1 errs2
      end) s1 = ODone q s' → ∃ xs es, loops extract (λ x, ts_contains set (Some x) = true) (λ s r s', run p s = ODone r s') s0 xs es s' ∧
      q = (acc ++ xs, errs1 ++ es)).
    { clear s H Hok. intros s0 s errs1 Eabs Hok Hcan H. rewrite <- Eabs in Hok, Hcan, H. 
      assert (T0 : took extract s0 [] s). { apply took_adv. rewrite Eabs. apply adv_refl. }
      destruct (look (abs s)) as [x|] eqn:El.
      2:{ injection H as <- <-. exists [], []. rewrite !app_nil_r. split; [|done]. apply loops_end; [done|].
          apply look_none in El. done. }
      apply run_bind_inv in H as (sp0 & s1 & H1 & H). apply run_bind_inv in H as (r & s2 & Hr & H).
      apply cur_span_run' in H1 as [-> E1]. destruct (unres r) as [o e] eqn:Eu.
      apply run_bind_inv in H as (sp1 & s3 & H3 & H). apply cur_span_run' in H3 as [-> E3].
      assert (Hok1 : aok (abs s1)) by (by rewrite E1).
      assert (Hn : next_tok extract s1 = Some x). { rewrite next_look, E1. done. }
      assert (T1 : took extract s0 [] s1). { apply took_adv. rewrite E1, Eabs. apply adv_refl. }
      assert (T3 : took extract s2 [] s3). { apply took_adv. rewrite E3. apply adv_refl. }
      destruct (run_took _ _ _ _ _ Hr) as [l Hl]. assert (Hl' := proj1 (took_adv _ _ _ _) Hl).
      assert (Hok3 : aok (abs s3)). { rewrite E3. by eapply adv_aok. }
      destruct (Nat.eqb_spec (sp_lo (a_span (abs s))) (sp_lo (a_span (abs s2)))) as [Eq|Ne].
      - injection H as <- <-. exists (option_list (value r)), (errors_of r ++ [PErr (a_span (abs s2)) NoAdvance]).
        split; [|unfold value, errors_of; rewrite Eu; cbn; by rewrite (assoc_L (++))].
        apply (loops_stuck _ _ _ s0 s1 x r s2 _ s3); [done..|by apply Hcan|done| |done].
        destruct l as [|t l]; [done|]. exfalso. assert (Hlt := cur_lt _ _ _ Hok1 Hl' ltac:(done)). rewrite E1 in Hlt. lia.
      - apply IH in H as (xs & es & Hloop & ->); [|done].
        exists (option_list (value r) ++ xs), (errors_of r ++ es). unfold value, errors_of. rewrite Eu. cbn. rewrite !(assoc_L (++)). split; [|done].
        assert (Ev : o = value r ∧ e = errors_of r). { unfold value, errors_of. by rewrite Eu. } destruct Ev as [-> ->].
        apply (loops_item _ _ _ s0 s1 x r s2); [done..|by apply Hcan|done| |].
        + intros T. apply Ne. apply took_adv, adv_nil in T as (T1' & _ & T2'). rewrite E1 in T1', T2'. unfold a_span. by rewrite T1', T2'.
        + by eapply loops_pre. }
    apply run_bind_inv in H as (tk & s1 & H1 & H). apply (peek_src_run _ _ _ Hok) in H1 as [-> E1].
    destruct (look (abs s)) as [x|] eqn:El.
    2:{ injection H as <- <-. exists [], []. rewrite !app_nil_r. split; [|done]. apply loops_end.
        - apply took_adv. rewrite E1. apply adv_refl.
        - change (a_rest (abs s1) = []). rewrite E1. by apply look_none. }
    apply run_bind_inv in H as ([tk1 errs1] & s2 & H2 & H).
    destruct (ts_contains set (Some x)) eqn:Ec.
    { injection H2 as <- <- <-. apply (Hitem s s1 errs); [done|done| |by rewrite El]. intros y Ey. rewrite El in Ey. congruence. }
    apply run_bind_inv in H2 as (sp & s3 & H3 & H2). apply run_bind_inv in H2 as (tc & s4 & H4 & H2).
    apply run_bind_inv in H2 as (tk' & s5 & H5 & H2). apply run_bind_inv in H2 as ([tk2 hi] & s6 & H6 & H2).
    injection H2 as <- <- <-. apply cur_span_run' in H3 as [-> E3]. apply consume_run' in H4.
    rewrite E3, E1 in H4. assert (Hok4 : aok (abs s4)) by (rewrite H4; by apply aok_pop).
    apply (peek_src_run _ _ _ Hok4) in H5 as [-> E5].
    assert (Hok5 : aok (abs s5)) by (by rewrite E5). rewrite <- E5 in H6.
    apply (run_wp _ _ _ _ _ _ _ _ (skip_loop_spec set n _ _ Hok5)) in H6 as (l & Hl & Hf & Hhi & Htk & Hn). cbn [fst snd] in Hhi, Htk. subst tk2.
    rewrite E5, H4 in Hl, Hf. unfold look in El. destruct (a_rest (abs s)) as [|t r] eqn:Er; [done|]. injection El as <-.
    destruct (pop_adv1 _ _ _ Er) as [Hp _]. assert (Hl2 := adv_trans _ _ _ _ _ Hp Hl).
    apply (Hitem s6 s6) in H as (xs & es & Hloop & ->); [|done|by eapply adv_aok|done].
    exists xs, (PErr (Span (sp_lo (a_span (abs s1))) hi) UnexpectedTokens :: es).
    split; [|by rewrite <- (assoc_L (++))].
    apply (loops_skip _ _ _ s ([t] ++ l) _ s6); [by apply took_adv| | | |done].
    - cbn [app]. unfold word. cbn [map]. constructor; [change (ts_contains set (Some (t_ty t, default ""%string (text_of (p_src s) t))) ≠ true)|].
      + intros E. assert (H0 := eq_trans (eq_sym E) Ec). discriminate H0.
      + rewrite (adv_src _ _ _ Hp) in Hf. eapply Forall_impl; [exact Hf|]. intros y Hy. cbn. by rewrite Hy.
    - intros y Hy. apply Hn. by rewrite <- next_look.
    - unfold cover. cbn [head hd_error app]. rewrite E1. unfold a_span in Hhi |- *. rewrite Er.
      change (stdpp.list.last (t :: l)) with (last (t :: l)).
      destruct l as [|t' l]; [cbn; rewrite Hhi, E1, Er; done|].
      change (last (t :: t' :: l)) with (last (t' :: l)). destruct (last (t' :: l)) eqn:E'; [by rewrite Hhi|]. by apply last_None in E'.
  Qed.
End run.

(** * [Loop] as a whole *)
Section loop.
  Context (extract : nat → bool).
  Notation run := (run extract).

  Lemma empty_span_run s a s' : run empty_span s = ODone a s' → s' = s.
  Proof. cbn. congruence. Qed.
  Lemma loop_run env first follow jump f t s r s' : state_ok s →
    run (produce env first follow jump (S f) (TLoop t)) s = ODone r s' →
    ∃ sp xs, value r = Some (TrList sp xs) ∧
      loops extract (λ x, ts_contains (first (key (TLoop t))) (Some x) = true)
        (λ s r s', run (produce env first follow jump f t) s = ODone r s') s xs (errors_of r) s'.
  Proof.
    intros Hok%(state_ok_abs extract) H. cbn [produce] in H. apply run_bind_inv in H as (r1 & s1 & H & H1). injection H1 as <- <-.
    unfold produce_loop in H. apply run_bind_inv in H as ([l errs] & s2 & H & H2).
    apply (loop_loop_run extract _ _ _ _ _ _ _ _ Hok) in H as (xs & es & Hl & E). cbn [app] in E. injection E as -> ->.
    apply run_bind_inv in H2 as (sp & s3 & H3 & H2). injection H2 as <- <-.
    assert (s3 = s2) as ->. { destruct (head xs), (last xs); try (by apply empty_span_run in H3). cbn in H3. congruence. }
    exists sp, xs. unfold value, errors_of. rewrite unres_map, unres_into. done.
  Qed.
  Lemma loops_over can item s xs es s' : loops extract can item s xs es s' →
    to_come extract s' = [] ∨ ∃ e es0, es = es0 ++ [e] ∧ e_kind e = NoAdvance.
  Proof.
    induction 1 as [s s' T E|s l sp s1 xs es s' T Hf Hn Hc _ IH|s s1 x r s2 xs es s' T Hn Hx Hi Hm _ IH|s s1 x r s2 sp s' T Hn Hx Hi Hm T']; [by left| | |].
    - destruct IH as [IH|(e & es0 & -> & He)]; [by left|]. right. exists e, (PErr sp UnexpectedTokens :: es0). done.
    - destruct IH as [IH|(e & es0 & -> & He)]; [by left|]. right. exists e, (errors_of r ++ es0). by rewrite (assoc_L (++)).
    - right. by eexists _, _.
  Qed.
  Lemma loop_over env first follow jump f t s r s' : state_ok s →
    run (produce env first follow jump f (TLoop t)) s = ODone r s' →
    to_come extract s' = [] ∨ ∃ e es, errors_of r = es ++ [e] ∧ e_kind e = NoAdvance.
  Proof. intros Hok H. destruct f as [|f]; [done|]. apply loop_run in H as (sp & xs & _ & Hl); [|done]. by apply loops_over in Hl. Qed.
  Lemma loops_mono (can can' : tok → Prop) item s xs es s' : (∀ x, can x ↔ can' x) → loops extract can item s xs es s' → loops extract can' item s xs es s'.
  Proof.
    intros Hc. induction 1 as [s s' T E|s l sp s1 xs es s' T Hf Hn Hcv _ IH|s s1 x r s2 xs es s' T Hn Hx Hi Hm _ IH|s s1 x r s2 sp s' T Hn Hx Hi Hm T'].
    - by apply loops_end.
    - eapply loops_skip; [done| | |done..].
      + eapply Forall_impl; [exact Hf|]. intros x Hx. by rewrite <- Hc.
      + intros x Hx. apply Hc. auto.
    - eapply loops_item; try done. by apply Hc.
    - eapply loops_stuck; try done. by apply Hc.
  Qed.
  Lemma good_advances es : good es → advances es.
  Proof. intros H. eapply Forall_impl; [exact H|]. intros [sp k] Hk E. cbn in *. by subst. Qed.
  Lemma produce_advances env root md f t s r s' : accepted env root md → plain_enums env root → within env root t → state_ok s →
    run (produce_md env md f t) s = ODone r s' → advances (errors_of r).
  Proof.
    intros (regs & iter & Hreg & Hperm & Hmeta) He Hw Hok%(state_ok_abs extract) H.
    apply (run_wp _ _ _ _ _ _ _ _ (produce_kinds _ _ _ _ _ Hreg Hperm Hmeta He f t Hw _ Hok)) in H. by apply good_advances.
  Qed.
  Lemma loop_accepted env root md regs f t s r s' : accepted env root md → register_root env (prod_of root) = Some regs →
    plain_enums env root → within env root (TLoop t) → state_ok s →
    run (produce_md env md (S f) (TLoop t)) s = ODone r s' →
    to_come extract s' = [] ∧ advances (errors_of r) ∧ ∃ sp xs, value r = Some (TrList sp xs) ∧
      loops extract (starts regs (key t)) (λ s r s', run (produce_md env md f t) s = ODone r s') s xs (errors_of r) s'.
  Proof.
    intros (regs' & iter & Hreg & Hperm & Hmeta) Hr He Hw Hok Hrun. assert (regs' = regs) as -> by congruence.
    assert (Hok' := state_ok_abs extract _ Hok). split_and!.
    - apply (run_wp _ _ _ _ _ _ _ _ (loop_whole _ _ _ _ _ Hreg Hperm Hmeta He (S f) t _ Hw Hok')) in Hrun. done.
    - eapply produce_advances; try done. by exists regs, iter.
    - destruct (loop_run _ _ _ _ _ _ _ _ _ Hok Hrun) as (sp & xs & Hv & Hl). exists sp, xs. split; [done|].
      eapply loops_mono; [|exact Hl]. intros x. cbn beta. rewrite (first_spec _ _ _ _ _ Hreg Hperm Hmeta).
      change (MdFacts.fst_ regs (TPlus t) x ↔ MdFacts.fst_ regs t x). apply (fst_plus _ _ _ _ _ Hreg Hperm Hmeta).
      exact (ProgressFacts.W_V _ _ _ _ _ Hreg Hperm Hmeta He _ Hw).
  Qed.
  Lemma parse_advances env root md f s o s' : accepted env root md → plain_enums env root → state_ok s →
    run (parse env f root (inr md)) s = ODone o s' → ∃ es, p_errors s' = p_errors s ++ es ∧ advances es.
  Proof.
    intros Ha He Hok H. apply parse_run in H as (x & -> & H). apply parse_with_run in H as (r & s1 & H & _ & _ & Hes & _).
    destruct (produce_run_errors _ _ _ _ _ _ _ _ _ _ H) as (bad & _ & Hb). rewrite Hb, <- (assoc_L (++)) in Hes. eexists. split; [exact Hes|].
    apply Forall_app. split; [|eapply (produce_advances env root md f root); try done; constructor].
    apply Forall_forall. intros e (sp & -> & _)%elem_of_list_fmap. done.
  Qed.
End loop.
