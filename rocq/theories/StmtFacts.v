(** Statements with an end: an error in one does not reach the next. *)
From Coq Require Import String NArith.
From stdpp Require Import prelude list strings relations.
From Verif Require Import LexModel LexSpec LexFacts SynSetModel TableModel StreamModel StreamSpec StreamFacts TypeModel TypeSpec TypeFacts CfgSpec CfgFacts FollowFacts
  MetaFacts ProduceModel ParseSpec ProgFacts FuelFacts TreeFacts SoundFacts LangFacts RunFacts InvFacts LookFacts MdFacts ParseFacts TermFacts CompleteSpec CompleteFacts
  NextFacts SynSetFacts LeafSpec LoopSpec LoopFacts LinearFacts EarlyFacts OffendFacts ReportFacts EndFacts ScatterFacts BrokenFacts StmtSpec.
Local Open Scope nat_scope.
#[local] Arguments ts_contains : simpl never.
#[local] Arguments ts_contains_e : simpl never.
Notation W := (wp True True).

(** * Places *)
Definition till (s : ast) : nat := sp_hi (a_span s).
Lemma st_self s : aok s → spans_ok 0 (String.length (a_src s)) (map t_span (toks s ++ a_rest s)) ∧ st (a_src s) (toks s ++ a_rest s) s.
Proof. intros H. rewrite aok_eq in H. split; [done|]. by split. Qed.
Lemma cur_till s : aok s → cur s ≤ till s.
Proof. intros [H1 H2]%st_self. exact (proj2 (proj2 (bnd_span _ _ H1 s H2))). Qed.
Lemma till_le s l s' : aok s → adv s l s' → till s ≤ till s'.
Proof.
  intros H Hl. assert (Hok := adv_aok _ _ _ Hl H). destruct l as [|a l].
  - apply adv_nil in Hl as (E1 & _ & E3). unfold till, a_span. by rewrite E1, E3.
  - assert (H0 := cur_till _ Hok). destruct (st_self _ Hok) as [H1 H2]. apply (pos_cur _ _ H1) in H2. rewrite (adv_pos _ _ _ Hl) in H2.
    assert (Hsp := adv_spans _ _ _ H Hl). cbn in Hsp. destruct Hsp as (_ & H4 & H5).
    change (a :: l) with ([a] ++ l) in H2. rewrite end_pos_app in H2. change (end_pos (pos s) [a]) with (sp_hi (t_span a)) in H2.
    apply end_pos_ge in H5. assert (E := adv_rest _ _ _ Hl). unfold till at 1, a_span. rewrite E. cbn. lia.
Qed.
Lemma till_in c : ∀ s k u, aok s → a_rest s = c ++ k :: u → till s ≤ sp_hi (t_span k).
Proof.
  induction c as [|b c IH]; intros s k u Hok E.
  - unfold till, a_span. by rewrite E.
  - destruct (pop_adv1 s b (c ++ k :: u) E) as [Ha E1]. etrans; [by eapply till_le|]. eapply IH; [by eapply adv_aok|done].
Qed.

(** * Parts that do not step over tokens *)
Section stay.
  Context (B : tok → Prop).
  (** From [s] to [s'] no token with [B] was consumed, and the errors lie between. *)
  Definition stay (s : ast) (es : list perr) (s' : ast) : Prop :=
    (∃ l, adv s l s' ∧ Forall (λ y, ¬ B y) (word (a_src s) l)) ∧ Forall (between (cur s) (till s')) es.
  Lemma stay_refl s : stay s [] s.
  Proof. split; [|constructor]. exists []. split; [apply adv_refl|constructor]. Qed.
  Lemma stay_here s k : aok s → stay s [PErr (a_span s) k] s.
  Proof. intros H. split; [exact (proj1 (stay_refl s))|]. repeat constructor; cbn; unfold cur, till; lia. Qed.
  Lemma stay_trans s e1 s1 e2 s2 : aok s → stay s e1 s1 → stay s1 e2 s2 → stay s (e1 ++ e2) s2.
  Proof.
    intros Hok [(l1 & A1 & B1) C1] [(l2 & A2 & B2) C2]. assert (Hok1 := adv_aok _ _ _ A1 Hok).
    assert (H1 := cur_le _ _ _ Hok A1). assert (H2 := till_le _ _ _ Hok1 A2). split.
    - exists (l1 ++ l2). split; [by eapply adv_trans|]. rewrite word_app. apply Forall_app. split; [done|]. by rewrite <- (adv_src _ _ _ A1).
    - apply Forall_app. split; (eapply Forall_impl; [eassumption|]); unfold between; cbn; intros e; lia.
  Qed.
  Lemma stay_mark s es s1 s2 : aok s → stay s es s1 → adv s1 [] s2 → stay s es s2.
  Proof.
    intros Hok H Ha. rewrite <- (app_nil_r es). eapply stay_trans; [done|done|]. split; [|constructor]. exists []. split; [done|constructor].
  Qed.
  Lemma stay_pop s a r : aok s → a_rest s = a :: r → Forall (λ y, ¬ B y) (word (a_src s) [a]) → stay s [] (pop s).
  Proof. intros Hok E H. split; [|constructor]. exists [a]. split; [by apply (pop_adv1 _ _ _ E)|done]. Qed.

  Lemma stay_sub s es es' s' : stay s es s' → (∀ e, e ∈ es' → e ∈ es) → stay s es' s'.
  Proof. intros [H1 H2] H. split; [done|]. rewrite Forall_forall in *. auto. Qed.
  Lemma stay_merge s0 errs p s e s1 : aok s0 → stay s0 (errs ++ option_list p) s → stay s e s1 → stay s0 (errs ++ option_list (merge_panic p e)) s1.
  Proof.
    intros Hok H1 H2. assert (H := stay_trans _ _ _ _ _ Hok H1 H2). destruct H as [Ha H]. split; [done|]. unfold merge_panic.
    destruct (last e) as [x|] eqn:E; [|by apply Forall_app in H as [? _]]. apply last_Some_elem_of in E.
    apply Forall_app in H as [H3 H4]. apply Forall_app in H3 as [H3 H5]. apply Forall_app. split; [done|].
    rewrite Forall_forall in H4. destruct (H4 _ E) as [H6 H7].
    destruct p as [p|]; (constructor; [|constructor]); [|done]. apply Forall_cons in H5 as [[H8 H9] _]. split; cbn; [exact H8|exact H7].
  Qed.
  Lemma stay_hi s0 errs p s : stay s0 (errs ++ [p]) s → stay s0 (errs ++ [set_hi p (till s)]) s.
  Proof.
    intros [Ha H]. split; [done|]. apply Forall_app in H as [H1 H2]. apply Forall_app. split; [done|]. apply Forall_cons in H2 as [[H3 H4] _].
    constructor; [|constructor]. split; cbn; [exact H3|done].
  Qed.
  Lemma stay_snoc s0 errs k s : aok s0 → aok s → stay s0 (errs ++ []) s → stay s0 (errs ++ [PErr (a_span s) k]) s.
  Proof. intros H0 H1 H. rewrite app_nil_r in H. eapply stay_trans; [done|done|]. by apply stay_here. Qed.
  (** A token that is not in the set where a list ends is stepped over. *)
  Lemma stay_step fol s0 es s : aok s0 → aok s → (∀ w, B w → ts_contains fol (Some w) = true) → stay s0 es s →
    bool_decide (look s = None) || ts_contains fol (look s) = false → stay s0 es (pop s).
  Proof.
    intros Hok0 Hok Hf H Hl. apply orb_false_iff in Hl as [H1 H2]. apply bool_decide_eq_false in H1.
    rewrite <- (app_nil_r es). eapply stay_trans; [done|exact H|]. unfold look in *. destruct (a_rest s) as [|a r] eqn:Er; [done|].
    eapply stay_pop; [done|done|]. constructor; [|constructor]. intros Hb. cbn in Hb. apply Hf in Hb. exact (diff_true_false (eq_trans (eq_sym Hb) H2)).
  Qed.

  Definition stays {A} (p : M (res A)) : Prop := ∀ s, aok s → W p s (λ r s', stay s (unres r).2 s').
  Lemma seq_stay rec ts acc errs s0 s : aok s0 → aok s → stay s0 errs s → (∀ t, t ∈ ts → stays (rec t)) →
    W (produce_seq rec ts acc errs) s (λ r s', stay s0 (unres r).2 s').
  Proof.
    intros Hok0. revert acc errs s. induction ts as [|t ts IH]; intros acc errs s Hok Hs Hrec; cbn [produce_seq].
    - apply wp_ret. by rewrite unres_into.
    - apply wp_bind. eapply wp_call; [apply Hrec; [set_solver|done]|done|]. intros r s1 l1 Hl Hok1 H. cbn beta in H.
      assert (stay s0 (errs ++ (unres r).2) s1) as H' by (by eapply stay_trans).
      revert H'. destruct (unres r) as [[x|] e]; cbn [snd]; intros H'.
      + apply IH; [done|done|]. intros; apply Hrec; set_solver.
      + by apply wp_ret.
  Qed.
  Lemma option_stay {X} (p : M (res X)) (sp : X → span) set : stays p → stays (produce_option p sp set).
  Proof.
    intros Hp s Hok. unfold produce_option. apply wp_bind, wp_peek_src; [done|].
    assert (Hnone : W (e ← empty_span; mret (RSucc (e, @None X))) s (λ r s', stay s (unres r).2 s')).
    { apply wp_bind, wp_empty_span, wp_ret. apply stay_refl. }
    destruct (look s) as [x|]; [|done]. destruct (ts_contains set (Some x)); [|done].
    apply wp_bind. eapply wp_call; [by apply Hp|done|]. intros r s1 l1 Hl Hok1 H. cbn beta in H.
    destruct r; [by apply wp_ret..|]. by apply wp_bind, wp_empty_span, wp_ret.
  Qed.
  Lemma iter_stay p n set acc errs hi s0 s : aok s0 → aok s → stay s0 errs s → stays p →
    W (iter_loop n p set acc errs hi) s (λ '(_, es, _) s', stay s0 es s').
  Proof.
    intros Hok0 Hok Hs Hp. revert acc errs hi s Hok Hs. induction n as [|n IH]; intros acc errs hi s Hok Hs; cbn [iter_loop]; [done|].
    apply wp_bind, wp_peek_src; [done|].
    destruct (look s) as [x|]; [|by apply wp_ret]. destruct (ts_contains set (Some x)); [|by apply wp_ret].
    apply wp_bind. eapply wp_call; [by apply Hp|done|]. intros r s1 l1 Hl Hok1 H. cbn beta in H.
    assert (stay s0 (errs ++ (unres r).2) s1) as H' by (by eapply stay_trans).
    revert H'. destruct (unres r) as [[y|] e]; cbn [snd]; intros H'; [by apply IH|by apply wp_ret].
  Qed.
  Lemma plus_stay p n set : stays p → stays (produce_plus n p set).
  Proof.
    intros Hp s Hok. unfold produce_plus. apply wp_bind. eapply wp_call; [by apply Hp|done|]. intros r s1 l1 Hl Hok1 H.
    cbn beta in H; revert H; destruct (unres r) as [[y|] e]; cbn [snd]; intros H; [|by apply wp_ret].
    apply wp_bind. eapply wp_mono; [by apply (iter_stay p n set [y] e (tree_hi y) s s1)|]. intros [[xs es] h] s2 H2.
    apply wp_ret. by rewrite unres_into.
  Qed.
  Lemma map_stay {A C} (g : A → C) (p : M (res A)) : stays p → stays (r ← p; mret (res_map g r)).
  Proof. intros H s Hok. apply wp_bind. eapply wp_mono; [by apply H|]. intros r s' H'. apply wp_ret. by destruct r. Qed.

  Lemma split_inner_stay pT n ef pf fol panic errs s0 s : (∀ w, B w → ts_contains fol (Some w) = true) → aok s0 → aok s →
    stay s0 (errs ++ option_list panic) s → stays pT → W (split_inner n pT ef pf fol panic errs) s (λ '(_, es, _) s', stay s0 es s').
  Proof.
    intros Hf Hok0 Hok Hs HT. revert panic errs s Hok Hs. induction n as [|n IH]; intros panic errs s Hok Hs; cbn [split_inner]; [done|].
    apply wp_bind, wp_peek_src; [done|]. apply wp_bind.
    apply (wp_call _ _ _ (λ step s', match step with
      | inl (_, es) => stay s0 es s'
      | inr (tk', p') => tk' = look s' ∧ stay s0 (errs ++ option_list p') s' end)); [|done|].
    { destruct (_ || _).
      - apply wp_bind. eapply wp_call; [by apply HT|done|]. intros r s1 l1 Hl Hok1 H. cbn beta in H.
        revert H. destruct (unres r) as [[x|] e]; cbn [snd]; intros H.
        + apply wp_ret. eapply stay_sub; [by eapply stay_trans|]. set_solver.
        + apply wp_bind, wp_peek_src; [done|]. apply wp_ret. split; [done|]. by eapply stay_merge.
      - destruct panic as [p|].
        + apply wp_bind, wp_cur_span, wp_ret. split; [done|]. by apply stay_hi.
        + apply wp_bind, wp_expecting, wp_ret. split; [done|]. by apply stay_snoc. }
    intros [[x es]|[tk' p']] s1 l1 Hl Hok1 H; [by apply wp_ret|]. destruct H as [-> H].
    destruct (ts_contains pf _); [by apply wp_ret|].
    destruct (_ || _) eqn:E; [by apply wp_ret|].
    apply wp_bind, wp_consume. apply IH; [by apply aok_pop|]. by apply (stay_step fol).
  Qed.
  Lemma split_outer_stay pT pP n ef pf fol elems puncts errs s0 s : (∀ w, B w → ts_contains fol (Some w) = true) → aok s0 → aok s →
    stay s0 errs s → stays pT → stays pP → W (split_outer n pT pP ef pf fol elems puncts errs) s (λ '(_, _, es) s', stay s0 es s').
  Proof.
    intros Hf Hok0 Hok Hs HT HP. revert elems puncts errs s Hok Hs. induction n as [|n IH]; intros elems puncts errs s Hok Hs; cbn [split_outer]; [done|].
    apply wp_bind, wp_peek_src; [done|].
    destruct (look s) as [x|]; [|by apply wp_ret]. destruct (ts_contains pf (Some x)); [|by apply wp_ret].
    apply wp_bind. eapply wp_call; [by apply HP|done|]. intros r s1 l1 Hl Hok1 H. cbn beta in H.
    assert (stay s0 (errs ++ (unres r).2) s1) as H' by (by eapply stay_trans).
    revert H'. destruct (unres r) as [[q|] e]; cbn [snd]; intros H'; [|by apply wp_ret].
    apply wp_bind. eapply wp_call; [apply (split_inner_stay _ _ _ _ _ _ _ s0); [done|done|done| |done]|done|].
    { cbn [option_list option_rect]. by rewrite app_nil_r. }
    intros [[o es] c] s2 l2 Hl2 Hok2 H2. destruct c; [by apply IH|by apply wp_ret].
  Qed.
  Lemma punct_inner_stay pT n ef pf fol panic errs s0 s : (∀ w, B w → ts_contains fol (Some w) = true) → aok s0 → aok s →
    stay s0 (errs ++ option_list panic) s → stays pT → W (punct_inner n pT ef pf fol panic errs) s (λ '(_, es, _) s', stay s0 es s').
  Proof.
    intros Hf Hok0 Hok Hs HT. revert panic errs s Hok Hs. induction n as [|n IH]; intros panic errs s Hok Hs; cbn [punct_inner]; [done|].
    apply wp_bind, wp_peek_src; [done|]. destruct (look s) as [x|]; [|by apply wp_ret].
    destruct (_ && _); [by apply wp_ret|]. apply wp_bind.
    apply (wp_call _ _ _ (λ step s', match step with
      | inl (_, es) => stay s0 es s'
      | inr p' => stay s0 (errs ++ option_list p') s' end)); [|done|].
    { destruct (ts_contains ef (Some x)).
      - apply wp_bind. eapply wp_call; [by apply HT|done|]. intros r s1 l1 Hl Hok1 H. cbn beta in H.
        revert H; destruct (unres r) as [[y|] e]; cbn [snd]; intros H; apply wp_ret.
        + rewrite (assoc_L (++)). by eapply stay_trans.
        + by eapply stay_merge.
      - apply wp_bind, wp_cur_span, wp_ret. destruct panic as [p|].
        + by apply stay_hi.
        + by apply stay_snoc. }
    intros [[y es]|p'] s1 l1 Hl Hok1 H; [by apply wp_ret|]. apply wp_bind, wp_peek_src; [done|].
    destruct (ts_contains pf _); [by apply wp_ret|].
    destruct (_ || _) eqn:E; [by apply wp_ret|].
    apply wp_bind, wp_consume. apply IH; [by apply aok_pop|]. by apply (stay_step fol).
  Qed.
  Lemma punct_outer_stay pT pP n ef pf fol elems puncts errs s0 s : (∀ w, B w → ts_contains fol (Some w) = true) → aok s0 → aok s →
    stay s0 errs s → stays pT → stays pP → W (punct_outer n pT pP ef pf fol elems puncts errs) s (λ '(_, _, es) s', stay s0 es s').
  Proof.
    intros Hf Hok0 Hok Hs HT HP. revert elems puncts errs s Hok Hs. induction n as [|n IH]; intros elems puncts errs s Hok Hs; cbn [punct_outer]; [done|].
    apply wp_bind, wp_peek_src; [done|].
    destruct (look s) as [x|]; [|by apply wp_ret]. destruct (ts_contains pf (Some x)); [|by apply wp_ret].
    apply wp_bind. eapply wp_call; [by apply HP|done|]. intros r s1 l1 Hl Hok1 H. cbn beta in H.
    assert (stay s0 (errs ++ (unres r).2) s1) as H' by (by eapply stay_trans).
    revert H'. destruct (unres r) as [[q|] e]; cbn [snd]; intros H'; [|by apply wp_ret].
    apply wp_bind. eapply wp_call; [apply (punct_inner_stay _ _ _ _ _ _ _ s0); [done|done|done| |done]|done|].
    { cbn [option_list option_rect]. by rewrite app_nil_r. }
    intros [[o es] c] s2 l2 Hl2 Hok2 H2. destruct c; [by apply IH|by apply wp_ret].
  Qed.
  Lemma split_stay pT pP n ef pf fol : (∀ w, B w → ts_contains fol (Some w) = true) → stays pT → stays pP → stays (produce_split n pT pP ef pf fol).
  Proof.
    intros Hf HT HP s Hok. unfold produce_split. apply wp_bind. eapply wp_call; [by apply HT|done|]. intros r s1 l1 Hl Hok1 H. cbn beta in H.
    revert H. destruct (unres r) as [[x|] e]; cbn [snd]; intros H; [|by apply wp_ret].
    apply wp_bind. eapply wp_mono; [by apply (split_outer_stay pT pP n ef pf fol [x] [] e s s1)|].
    intros [[l q] es] s2 H2. apply wp_ret. by rewrite unres_into.
  Qed.
  Lemma punct_stay pT pP n ef pf fol : (∀ w, B w → ts_contains fol (Some w) = true) → stays pT → stays pP → stays (produce_punct n pT pP ef pf fol).
  Proof.
    intros Hf HT HP s Hok. unfold produce_punct. apply wp_bind. eapply wp_call; [by apply HT|done|]. intros r s1 l1 Hl Hok1 H. cbn beta in H.
    revert H. destruct (unres r) as [[x|] e]; cbn [snd]; intros H; [|by apply wp_ret].
    apply wp_bind. eapply wp_mono; [by apply (punct_outer_stay pT pP n ef pf fol [x] [] e s s1)|].
    intros [[l q] es] s2 H2. apply wp_ret. by rewrite unres_into.
  Qed.

  Variable env : denv.
  Variables (first follow : prod → tset) (jump : prod → option tok → option nat).
  Notation produce := (produce env first follow jump).
  Definition spares : ty → Prop := all_within env (λ t, match t with TTok _ y lit => ∀ w, covers y lit w → ¬ B w
    | TLoop _ | TRecover _ _ => False | TSplit _ _ | TPunct _ _ => ∀ w, B w → ts_contains (follow (key t)) (Some w) = true | _ => True end).
  Lemma produce_stay f t : spares t → stays (produce f t).
  Proof.
    revert t. induction f as [|f IH]; intros t Ht; [done|].
    assert (Hsub : ∀ c, c ∈ subs env t → stays (produce f c)).
    { intros c Hc. apply IH. by eapply all_within_sub. }
    assert (Hh := all_within_here _ _ _ Ht).
    intros s Hok.
    destruct t as [n y lit|n|ts|t|t|t|t|t|t|t|t|t d|t d|t r]; cbn [ProduceModel.produce]; [| | | | | | | | | |done| | |done].
    - apply map_stay; [|done]. clear s Hok. intros s Hok.
      assert (Hpop : ∀ a r, a_rest s = a :: r → covers y lit (t_ty a, default ""%string (token_src a (a_src s))) → stay s [] (pop s)).
      { intros a r E H. eapply stay_pop; [done|done|]. cbn [word map]. constructor; [|constructor]. by apply Hh. }
      destruct lit as [l|].
      + apply wp_parse_token_lit; [done|]. destruct (a_rest s) as [|a r] eqn:Er.
        * assert (Es : eof_span (a_src s) = a_span s) by (unfold a_span; by rewrite Er).
          rewrite Es. destruct (ts_contains_e _); by apply stay_here.
        * assert (Es : t_span a = a_span s) by (unfold a_span; by rewrite Er). rewrite Es.
          case_decide as Hl; [|destruct (ts_contains _ _); by apply stay_here].
          eapply Hpop; [done|]. unfold look in Hl. rewrite Er in Hl. injection Hl as E1 E2. split; cbn; [done|right; congruence].
      + apply wp_parse_token. destruct (a_rest s) as [|a r] eqn:Er.
        * assert (Es : eof_span (a_src s) = a_span s) by (unfold a_span; by rewrite Er). rewrite Es. by apply stay_here.
        * assert (Es : t_span a = a_span s) by (unfold a_span; by rewrite Er). rewrite Es.
          case_decide as Hl; [|by apply stay_here]. eapply Hpop; [done|]. split; cbn; [done|by left].
    - cbn [subs] in Hsub. destruct (env !! n) as [[fs|vs]|] eqn:En; [| |done].
      + cbn in Hsub. apply wp_bind. eapply wp_call; [apply (seq_stay _ _ _ _ s); [done|done|apply stay_refl|done]|done|].
        intros r s1 l1 Hl Hok1 H. cbn beta in H. revert H. destruct (unres r) as [[xs|] e]; cbn [snd]; intros H; [|by apply wp_ret].
        apply wp_bind. eapply wp_mono; [apply apply_fields_adv|]. intros u s2 Ha. apply wp_ret. rewrite unres_into. by eapply stay_mark.
      + apply wp_bind, wp_peek_src; [done|].
        destruct (i ← jump _ _; v ← vs !! i; Some (i, v)) as [[i [t' sem]]|] eqn:Ej.
        2: { apply wp_bind, wp_expecting, wp_ret. by apply stay_here. }
        assert (vs !! i = Some (t', sem)) as Hi.
        { destruct (jump (key (TNamed n)) (look s)) as [i'|]; [|done]. cbn in Ej.
          destruct (vs !! i') eqn:E; [|done]. cbn in Ej. injection Ej as -> ->. done. }
        assert (Ht2 : t' ∈ map fst vs).
        { apply elem_of_list_lookup_2 in Hi. by apply elem_of_list_In, (in_map fst), elem_of_list_In in Hi. }
        apply wp_bind. eapply wp_call; [by apply (Hsub t')|done|]. intros r s1 l1 Hl Hok1 H. cbn beta in H.
        destruct r, sem; try (by apply wp_ret); apply wp_bind, wp_apply, wp_ret; (eapply stay_mark; [done|exact H|apply mark_adv]).
    - apply map_stay; [|done]. intros s1 Hok1. apply seq_stay; [done|done|apply stay_refl|done].
    - apply Hsub; [cbn; set_solver|done].
    - apply map_stay; [|done]. apply option_stay, Hsub. cbn; set_solver.
    - apply map_stay; [|done]. apply option_stay, Hsub. cbn; set_solver.
    - apply wp_bind. eapply wp_call; [apply Hsub; [cbn; set_solver|done]|done|]. intros r s1 l1 Hl Hok1 H. cbn beta in H.
      destruct r; [| |by apply wp_ret]; apply wp_get_any; intros ?; by apply wp_ret.
    - apply wp_bind. eapply wp_call; [apply Hsub; [cbn; set_solver|done]|done|]. intros r s1 l1 Hl Hok1 H. cbn beta in H.
      destruct r; [| |by apply wp_ret]; apply wp_get_any; intros ?; by apply wp_ret.
    - apply map_stay; [|done]. apply plus_stay, Hsub. cbn; set_solver.
    - apply map_stay; [|done]. apply option_stay, plus_stay, Hsub. cbn; set_solver.
    - apply split_stay; [exact Hh|apply Hsub; cbn; set_solver..|done].
    - apply punct_stay; [exact Hh|apply Hsub; cbn; set_solver..|done].
  Qed.
End stay.

(** * [tp::Recover] *)
Section recover.
  Context (src : string) (B : tok → Prop) (pR : M (res tree)) (tf : tset).
  Context (HB : ∀ y, ts_contains tf (Some y) = true ↔ B y) (He : ts_contains_e tf = false).
  Context (HR : ∀ s k u, aok s → a_src s = src → a_rest s = k :: u → Forall B (word src [k]) → W pR s (λ r s', r = RSucc (TrTok k) ∧ adv s [k] s')).
  Notation free l := (Forall (λ y, ¬ B y) (word src l)).
  (** The error held back: [s0] is where the statement begins. *)
  Definition held_in (a : nat) (s : ast) (panic : option perr) : Prop := Forall (between a (till s)) (option_list panic).
  Lemma held_le a s l s' p : aok s → adv s l s' → held_in a s p → held_in a s' p.
  Proof using. intros Hok Ha H. assert (Hl := till_le _ _ _ Hok Ha). eapply Forall_impl; [exact H|]. unfold between. cbn. intros e. lia. Qed.
  Lemma free_cons a l : free (a :: l) → (∃ y, word src [a] = [y] ∧ ¬ B y) ∧ free l.
  Proof using. intros H. apply Forall_cons in H as [H1 H2]. split; [|done]. eexists. split; [done|exact H1]. Qed.

  Lemma recover_loop_stmt n c : ∀ panic errs a s k u, aok s → a_src s = src → a_rest s = c ++ k :: u → free c → Forall B (word src [k]) →
    a ≤ cur s → held_in a s panic →
    W (recover_loop n pR tf panic errs) s (λ '(o, panic', es) s', o = Some (TrTok k) ∧ es = errs ∧ adv s (c ++ [k]) s' ∧
      (panic' = None ↔ panic = None ∧ c = []) ∧ Forall (between a (sp_hi (t_span k))) (option_list panic')).
  Proof using HB He HR.
    revert c. induction n as [|n IH]; intros c panic errs a s k u Hok Esrc Er Hc Hk Ha Hp; cbn [recover_loop]; [done|].
    apply wp_bind, wp_peek_src; [done|]. rewrite look_nxt, Esrc, Er. destruct c as [|b c].
    - cbn [app] in *. cbn [nxt word map head hd_error]. unfold nxt. cbn [word map head hd_error].
      apply Forall_cons in Hk as Hk'. destruct Hk' as [Hy _]. apply HB in Hy. rewrite Hy. cbn [orb].
      apply wp_bind, wp_bind. eapply wp_mono; [by apply (HR s k u)|]. intros r s1 [-> Ha1]. cbn [unres]. apply wp_ret, wp_ret.
      split_and!; [done|by rewrite app_nil_r|done|tauto|]. eapply Forall_impl; [exact Hp|]. unfold between, till, a_span. cbn. by rewrite Er.
    - apply free_cons in Hc as [(y & Ey & Hy) Hc]. unfold nxt. cbn [app word map head hd_error]. cbn [word map] in Ey. injection Ey as Ey. rewrite Ey.
      assert (Hf : ts_contains tf (Some y) = false) by (apply not_true_iff_false; by rewrite HB). rewrite Hf, He. cbn [orb].
      apply wp_bind, wp_ret. destruct (pop_adv1 s b (c ++ k :: u) Er) as [Hpop Er1].
      destruct (then_at src s [b] (pop s) (c ++ k :: u) Hok Esrc Er Hpop) as (Hok1 & Esrc1 & _ & _).
      assert (Hcur := cur_le _ _ _ Hok Hpop). assert (Htill := till_le _ _ _ Hok Hpop). assert (Hct := cur_till _ Hok).
      assert (Hgo : ∀ p, between a (till s) p → W (_ ← consume; recover_loop n pR tf (Some p) errs) s
        (λ '(o, panic', es) s', o = Some (TrTok k) ∧ es = errs ∧ adv s ((b :: c) ++ [k]) s' ∧
          (panic' = None ↔ panic = None ∧ b :: c = []) ∧ Forall (between a (sp_hi (t_span k))) (option_list panic'))).
      { intros p Hpb. apply wp_bind, wp_consume. eapply wp_mono; [apply (IH c (Some p) errs a (pop s) k u); try done|].
        - lia.
        - repeat constructor; unfold between in *; cbn in *; lia.
        - intros [[o q] es] s2 (-> & -> & Ha2 & Hq & Hb). split_and!; [done|done| | |done].
          + change ((b :: c) ++ [k]) with ([b] ++ c ++ [k]). by eapply adv_trans.
          + split; [|by intros [_ ?]]. intros H%Hq. by destruct H. }
      destruct panic as [p|].
      + apply wp_bind, wp_bind, wp_cur_span, wp_ret. apply Hgo. apply Forall_cons in Hp as [[H1 H2] _]. split; cbn; [done|]. by unfold till.
      + apply wp_bind, wp_expecting. apply Hgo. split; cbn; [exact Ha|]. by unfold till.
  Qed.
  Lemma recover_loop_open n c : ∀ panic errs a s, aok s → a_src s = src → a_rest s = c → free c →
    a ≤ cur s → held_in a s panic →
    W (recover_loop n pR tf panic errs) s (λ '(o, panic', es) s', o = None ∧ es = errs ∧ adv s c s' ∧
      (panic' = None ↔ panic = None ∧ c = []) ∧ Forall (between a (String.length src)) (option_list panic')).
  Proof using HB He.
    revert c. induction n as [|n IH]; intros c panic errs a s Hok Esrc Er Hc Ha Hp; cbn [recover_loop]; [done|].
    apply wp_bind, wp_peek_src; [done|]. rewrite look_nxt, Esrc, Er. destruct c as [|b c].
    - unfold nxt. cbn [word map head hd_error]. rewrite He. apply wp_ret. split_and!; [done|done|apply adv_refl|tauto|].
      eapply Forall_impl; [exact Hp|]. unfold between, till, a_span. rewrite Er. cbn. by rewrite Esrc.
    - apply free_cons in Hc as [(y & Ey & Hy) Hc]. unfold nxt. cbn [app word map head hd_error]. cbn [word map] in Ey. injection Ey as Ey. rewrite Ey.
      assert (Hf : ts_contains tf (Some y) = false) by (apply not_true_iff_false; by rewrite HB). rewrite Hf, He. cbn [orb].
      apply wp_bind, wp_ret. destruct (pop_adv1 s b c Er) as [Hpop Er1].
      assert (Hok1 := adv_aok _ _ _ Hpop Hok). assert (Esrc1 : a_src (pop s) = src) by (by rewrite (adv_src _ _ _ Hpop)).
      assert (Hcur := cur_le _ _ _ Hok Hpop). assert (Htill := till_le _ _ _ Hok Hpop). assert (Hct := cur_till _ Hok).
      assert (Hgo : ∀ p, between a (till s) p → W (_ ← consume; recover_loop n pR tf (Some p) errs) s
        (λ '(o, panic', es) s', o = None ∧ es = errs ∧ adv s (b :: c) s' ∧
          (panic' = None ↔ panic = None ∧ b :: c = []) ∧ Forall (between a (String.length src)) (option_list panic'))).
      { intros p Hpb. apply wp_bind, wp_consume. eapply wp_mono; [apply (IH c (Some p) errs a (pop s)); try done|].
        - lia.
        - repeat constructor; unfold between in *; cbn in *; lia.
        - intros [[o q] es] s2 (-> & -> & Ha2 & Hq & Hb). split_and!; [done|done| | |done].
          + change (b :: c) with ([b] ++ c). by eapply adv_trans.
          + split; [|by intros [_ ?]]. intros H%Hq. by destruct H. }
      destruct panic as [p|].
      + apply wp_bind, wp_bind, wp_cur_span, wp_ret. apply Hgo. apply Forall_cons in Hp as [[H1 H2] _]. split; cbn; [done|]. by unfold till.
      + apply wp_bind, wp_expecting. apply Hgo. split; cbn; [exact Ha|]. by unfold till.
  Qed.
End recover.

Lemma free_prefix (B : tok → Prop) src (l r c v : list token) : l ++ r = c ++ v → Forall (λ y, ¬ B y) (word src l) →
  (∀ y, head (word src v) = Some y → B y) → ∃ c2, c = l ++ c2 ∧ r = c2 ++ v.
Proof.
  revert c. induction l as [|a l IH]; intros [|b c] E Hl Hv; cbn in *; [by exists []|by exists (b :: c)| |].
  - apply Forall_cons in Hl as [Ha _]. subst v. destruct Ha. by apply Hv.
  - injection E as -> E. apply Forall_cons in Hl as [_ Hl]. destruct (IH c E Hl Hv) as (c2 & -> & ->). by exists c2.
Qed.

Section stmts.
  Context (env : denv) (root t : ty) (dn dy : nat) (dlit : option string) (regs iter : grammar prod) (md : metadata prod).
  Context (Hr : register_root env (prod_of root) = Some regs) (Hperm : iter ≡ₚ regs) (Hmeta : meta_build regs iter (key root) = Some (inr md)).
  Context (Hreg : regular env root) (Hprod : productive env root) (src : string).
  Notation d := (TTok dn dy dlit).
  Notation C := (TRecover t d).
  Notation F := (tb_get (md_first md)).
  Notation rec f := (produce_md env md f).
  Notation "'MD' l" := (l env root regs iter md Hr Hperm Hmeta) (at level 9, l at level 0, only parsing).
  Notation FL := (λ k x, follows regs (key root) k (Some x)).
  Notation "'CF' l" := (l env root regs iter md Hr Hperm Hmeta FL (reg_enums _ _ Hreg) (follows_seq env root regs Hr) (follows_last env root regs Hr)
    (follows_union env root regs Hr) (FL_clash env root regs iter md Hr Hperm Hmeta Hreg) (reg_filled _ _ Hreg) (reg_delims _ _ Hreg) (reg_punct _ _ Hreg _ Hr) src) (at level 9, l at level 0, only parsing).
  Context (Hw : within env root C) (Hns : keeps_end env regs root t d) (Hap : apart env t d).
  Notation B := (λ y, lang env d [y]).
  Notation free l := (Forall (λ y, ¬ B y) (word src l)).

  Lemma Hwt : within env root t. Proof using Hw. eapply rtc_r; [exact Hw|]. cbn. by left. Qed.
  Lemma Hwd : within env root d. Proof using Hw. eapply rtc_r; [exact Hw|]. apply elem_of_list_further, elem_of_list_here. Qed.
  Lemma t_spares : spares B env (tb_get (md_follow md)) t.
  Proof using Hr Hperm Hmeta Hns Hap.
    intros c Hc. assert (Hn := Hns c Hc). destruct c; try done; [intros w Hcov; apply (Hap _ _ _ w Hc); by constructor| |];
      intros w Hw0; apply (MD follow_spec); by apply Hn.
  Qed.
  Lemma end_has y : ts_contains (F (key d)) (Some y) = true ↔ B y.
  Proof using Hr Hperm Hmeta Hreg Hprod Hw.
    rewrite (begins env root regs iter md Hr Hperm Hmeta Hreg Hprod) by exact Hwd. split; [|by eexists]. intros [w H]. inversion H; subst. done.
  Qed.
  Lemma end_eps : ts_contains_e (F (key d)) = false.
  Proof using Hr Hperm Hmeta Hreg Hw.
    apply not_true_iff_false. intros H%(MD first_eps). apply (MD nul_lang) in H; [inversion H|]. apply (MD V_within), Hwd.
  Qed.
  Lemma end_run f s k u : aok s → a_src s = src → a_rest s = k :: u → Forall B (word src [k]) → W (rec f d) s (λ r s', r = RSucc (TrTok k) ∧ adv s [k] s').
  Proof using.
    intros Hok Esrc Er Hk. apply Forall_cons in Hk as [Hk _].
    apply (term_wpt (λ f, rec f d)); [intros ? ?; apply rec_le|]. by apply (delim_run env dn dy dlit md src s k u).
  Qed.

  Definition head_step (f : nat) (tk : option tok) : M (option perr * span * option tree * list perr) :=
    if ts_contains (F (key t)) tk || ts_contains_e (F (key t)) then
       r ← rec f t;
       match unres r with
       | (Some x, e) => mret (None, tree_span x, Some x, e)
       | (None, e) => sp ← empty_span; mret (last e, sp, None, [])
       end
     else e ← expecting (F (key t)); sp ← empty_span; mret (Some e, sp, None, []).
  Lemma head_stmt f s c v : aok s → a_src s = src → a_rest s = c ++ v → free c → (∀ y, head (word src v) = Some y → B y) →
    W (head_step f (look s)) s (λ '(panic, hsp, hd, errs) s1, ∃ c1 c2, c = c1 ++ c2 ∧ adv s c1 s1 ∧ held_in (cur s) s1 panic ∧
      Forall (between (cur s) (till s1)) errs ∧ (panic = None ∧ errs = [] ∧ c2 = [] ↔ lang env t (word src c)) ∧
      (lang env t (word src c) → ∃ p y, hd = Some y ∧ parses env src p t c y)).
  Proof using All.
    intros Hok Esrc Er Hc Hv. unfold head_step. destruct (_ || _) eqn:Ec.
    - apply wp_bind. eapply wp_call; [apply wp_and; [exact (produce_stay B env _ _ _ f t t_spares s Hok)|apply wp_and; [apply (produce_sound env _ _ _ False f t); [|exact Hok]|]]|exact Hok|].
      { split; [intros c' Hc'; apply (reg_filled _ _ Hreg); eapply rtc_transitive; [exact Hwt|done]|].
        intros c' Hc'. assert (Hn := Hns _ Hc'). by destruct c'. }
      { instantiate (1 := λ r s', lang env t (word src c) → ∃ p x, r = RSucc x ∧ adv s c s' ∧ parses env src p t c x).
        unfold wp. destruct (arun _ s) as [| |r s'] eqn:Ea; [done..|]. intros Hl.
        destruct (item_parses env root Hreg src t c v s Hwt Hok Esrc Er Hl) as [x Hx].
        assert (Hq : term (λ f, rec f t) s (λ r s', r = RSucc x ∧ adv s c s')).
        { eapply (CF parses_run (pos s) t c x Hx); [|done..|].
          - split; [exact Hwt|]. intros c' Hc'. assert (Hn := Hns _ Hc'). by destruct c'.
          - intros y Hy. apply (follows_seq env root regs Hr _ [] (key t) [key d] y (MD ent_recover _ _ (MD V_within _ Hw))). left.
            apply (starts_lang env root regs iter md Hr Hperm Hmeta Hreg Hprod); [exact Hwd|]. exists []. by apply Hv. }
        apply (term_wpt (λ f, rec f t) s _ (λ f f', rec_le env md t f f')) with (f := f) in Hq. unfold wp in Hq.
        rewrite Ea in Hq. destruct Hq as [-> Ha]. eauto. }
      intros r s1 l1 Hl1 Hok1 ([(l & Hadv & Hfree) Hes] & Hso & Hla). assert (l1 = l) as -> by (by eapply adv_inj).
      rewrite Esrc in Hfree. assert (E := adv_rest _ _ _ Hadv). rewrite Er in E.
      destruct (free_prefix B src l (a_rest s1) c v (eq_sym E) Hfree Hv) as (c2 & -> & Er1).
      assert (Hso' : match unres r with (Some x, []) => parses env src (pos s) t l x | (Some x, e) => True | (None, e) => e ≠ [] end).
      { apply sound_unres in Hso as [[[] _]|Hso]. destruct (unres r) as [[x|] e]; [|done]. destruct e; [|done]. rewrite <- Esrc. by apply Hso. }
      destruct (unres r) as [[x|] e] eqn:Eu; cbn [snd] in Hes.
      + apply wp_ret. exists l, c2. split_and!; [done|done|constructor|done| |].
        * split.
          -- intros (_ & -> & ->). rewrite app_nil_r. apply (parses_lang env src (pos s) t l x Hso').
             intros c' Hc'. assert (Hn := Hns _ Hc'). by destruct c'.
          -- intros Hl. destruct (Hla Hl) as (p & z & -> & Ha & _). cbn in Eu. injection Eu as <- <-. split_and!; [done|done|].
             assert (E2 := adv_inj _ _ _ _ Hadv Ha). rewrite <- (app_nil_r l) in E2 at 1. by apply app_inv_head in E2.
        * intros Hl. destruct (Hla Hl) as (p & z & -> & Ha & Hz). cbn in Eu. injection Eu as <- <-. eauto.
      + apply wp_bind, wp_empty_span, wp_ret. exists l, c2. split_and!; [done|done| |constructor| |].
        * destruct (last e) as [e0|] eqn:El; [|constructor]. apply last_Some_elem_of in El. rewrite Forall_forall in Hes.
          constructor; [by apply Hes|constructor].
        * split.
          -- intros [El _]. apply last_None in El. by destruct Hso'.
          -- intros Hl. destruct (Hla Hl) as (p & z & -> & Ha & _). done.
        * intros Hl. destruct (Hla Hl) as (p & z & -> & Ha & Hz). done.
    - apply orb_false_iff in Ec as [E1 E2]. assert (Hnl : ¬ lang env t (word src c)).
      { intros Hl. destruct c as [|a c].
        - apply not_true_iff_false in E2. apply E2. apply (MD first_eps), (MD nul_lang); [apply (MD V_within), Hwt|done].
        - rewrite look_nxt, Esrc, Er in E1. unfold nxt in E1. cbn [app word map head hd_error] in E1.
          apply (begins_not env root regs iter md Hr Hperm Hmeta Hreg Hprod) with (w := word src c) in E1; [done|exact Hwt]. }
      apply wp_bind, wp_expecting, wp_bind, wp_empty_span, wp_ret. exists [], c. split_and!; [done|apply adv_refl| |constructor| |done].
      + repeat constructor; cbn; unfold cur, till; lia.
      + split; [by intros [? _]|done].
  Qed.

  Lemma recover_stmt f s c k u : aok s → a_src s = src → a_rest s = c ++ k :: u → free c → Forall B (word src [k]) →
    W (rec f C) s (λ r s', ∃ x es, r = res_into x es ∧ stmt_result env t src c k x es ∧ adv s (c ++ [k]) s').
  Proof using All.
    intros Hok Esrc Er Hc Hk. destruct f as [|f]; [done|].
    change (W (produce_recover f (rec f t) (rec f d) (F (key t)) (F (key d))) s (λ r s', ∃ x es, r = res_into x es ∧ stmt_result env t src c k x es ∧ adv s (c ++ [k]) s')).
    unfold produce_recover. apply wp_bind, wp_peek_src; [done|]. apply wp_bind.
    eapply wp_call; [apply (head_stmt f s c (k :: u)); try done|done|].
    { intros y [= <-]. by apply Forall_cons in Hk as [? _]. }
    intros [[[panic hsp] hd] errs] s1 l1 Hl1 Hok1 (c1 & c2 & -> & Ha1 & Hh & Hes & Hiff & Hx). clear l1 Hl1.
    rewrite <- app_assoc in Er. destruct (then_at src s c1 s1 (c2 ++ k :: u) Hok Esrc Er Ha1) as (_ & Esrc1 & Er1 & _).
    assert (Hc2 : free c2) by (rewrite word_app in Hc; by apply Forall_app in Hc as [_ ?]).
    apply wp_bind. eapply wp_call; [apply (recover_loop_stmt src B (rec f d) (F (key d)) end_has end_eps (end_run f) f c2 panic errs (cur s) s1 k u); try done|done|].
    { by eapply cur_le. }
    intros [[o panic'] es'] s2 l2 Hl2 Hok2 (-> & -> & Ha2 & Hp & Hb). clear l2 Hl2. cbn zeta. apply wp_ret.
    assert (Htk : till s1 ≤ sp_hi (t_span k)).
    { by eapply till_in. }
    eexists _, _. split; [done|]. split; [|rewrite <- app_assoc; by eapply adv_trans].
    exists hsp, hd. split; [done|]. split; [|split; [done|]].
    - rewrite <- Hiff. split.
      + intros [-> Hp']%app_eq_nil. destruct panic'; [done|]. destruct (proj1 Hp eq_refl) as [-> ->]. done.
      + intros (H1 & -> & H2). assert (panic' = None) as -> by (by apply Hp). done.
    - assert (Ecur : cur s = sp_lo (at_next src ((c1 ++ c2) ++ [k]))).
      { unfold cur, a_span. rewrite Er. by destruct c1, c2. }
      rewrite <- Ecur. apply Forall_app. split; [|done]. eapply Forall_impl; [exact Hes|]. unfold between. cbn. intros e. lia.
  Qed.
  Lemma recover_open f s c : aok s → a_src s = src → a_rest s = c → free c →
    W (rec f C) s (λ r s', ∃ es, r = RPanic es ∧ (es = [] ↔ lang env t (word src c)) ∧
      Forall (between (sp_lo (at_next src c)) (String.length src)) es ∧ adv s c s').
  Proof using All.
    intros Hok Esrc Er Hc. destruct f as [|f]; [done|].
    change (W (produce_recover f (rec f t) (rec f d) (F (key t)) (F (key d))) s (λ r s', ∃ es, r = RPanic es ∧ (es = [] ↔ lang env t (word src c)) ∧
      Forall (between (sp_lo (at_next src c)) (String.length src)) es ∧ adv s c s')).
    unfold produce_recover. apply wp_bind, wp_peek_src; [done|]. apply wp_bind.
    eapply wp_call; [apply (head_stmt f s c []); try done|done|].
    { by rewrite app_nil_r. }
    intros [[[panic hsp] hd] errs] s1 l1 Hl1 Hok1 (c1 & c2 & -> & Ha1 & Hh & Hes & Hiff & Hx). clear l1 Hl1.
    destruct (then_at src s c1 s1 c2 Hok Esrc Er Ha1) as (_ & Esrc1 & Er1 & _).
    assert (Hc2 : free c2) by (rewrite word_app in Hc; by apply Forall_app in Hc as [_ ?]).
    apply wp_bind. eapply wp_call; [apply (recover_loop_open src B (rec f d) (F (key d)) end_has end_eps f c2 panic errs (cur s) s1); try done|done|].
    { by eapply cur_le. }
    intros [[o panic'] es'] s2 l2 Hl2 Hok2 (-> & -> & Ha2 & Hp & Hb). clear l2 Hl2. cbn zeta. apply wp_ret.
    assert (Htk : till s1 ≤ String.length src).
    { destruct (st_self _ Hok1) as [H1 H2]. destruct (bnd_span _ _ H1 s1 H2) as (_ & H3 & _). apply (bnd_le _ _ H1) in H3. by rewrite Esrc1 in H3. }
    eexists. split; [done|]. split; [|split; [|by eapply adv_trans]].
    - rewrite <- Hiff. split.
      + intros [-> Hp']%app_eq_nil. destruct panic'; [done|]. destruct (proj1 Hp eq_refl) as [-> ->]. done.
      + intros (H1 & -> & H2). assert (panic' = None) as -> by (by apply Hp). done.
    - assert (Ecur : cur s = sp_lo (at_next src (c1 ++ c2))).
      { unfold cur, a_span. rewrite Er. rewrite Esrc. by destruct c1, c2. }
      rewrite <- Ecur. apply Forall_app. split; [|done]. eapply Forall_impl; [exact Hes|]. unfold between. cbn. intros e. lia.
  Qed.
End stmts.

(** * [tp::Loop] of statements *)
Section loop.
  Context (extract : nat → bool) (env : denv) (t : ty) (dn dy : nat) (dlit : option string) (regs : grammar prod) (md : metadata prod).
  Notation d := (TTok dn dy dlit).
  Notation C := (TRecover t d).
  Notation root := (TLoop C).
  Context (Hacc : accepted env root md) (Hr : register_root env (prod_of root) = Some regs).
  Context (Hreg : regular env root) (Hprod : productive env root) (Hns : keeps_end env regs root t d) (Hap : apart env t d).
  Notation rec f := (produce_md env md f).
  Notation can := (starts regs (key C)).
  Lemma Hws : within env root C. Proof using. eapply rtc_l; [|constructor]. cbn. by left. Qed.
  Lemma can_begin y : can y ↔ begins_stmt env t d y.
  Proof using Hacc Hr Hreg Hprod.
    destruct Hacc as (regs' & iter & Hr' & Hperm & Hmeta). assert (regs' = regs) as -> by congruence.
    apply (starts_lang env root regs iter md Hr Hperm Hmeta Hreg Hprod). exact Hws.
  Qed.
  Lemma stmt_run f s r s' c k u : aok (abs extract s) → run extract (rec f C) s = ODone r s' → to_come extract s = c ++ k :: u →
    Forall (λ y, ¬ lang env d [y]) (word (p_src s) c) → lang env d (word (p_src s) [k]) →
    ∃ x es, r = res_into x es ∧ stmt_result env t (p_src s) c k x es ∧ took extract s (c ++ [k]) s'.
  Proof using Hacc Hr Hreg Hprod Hns Hap.
    intros Hok Hrun Eto Hc Hk. destruct Hacc as (regs' & iter & Hr' & Hperm & Hmeta). assert (regs' = regs) as -> by congruence.
    assert (H : wp True True (rec f C) (abs extract s) (λ r s', ∃ x es, r = res_into x es ∧ stmt_result env t (p_src s) c k x es ∧ adv (abs extract s) (c ++ [k]) s')).
    { apply (recover_stmt env root t dn dy dlit regs iter md Hr Hperm Hmeta Hreg Hprod (p_src s) Hws Hns Hap f (abs extract s) c k u); try done. by constructor. }
    destruct (run_wp extract _ _ _ _ _ _ _ H Hrun) as (x & es & E & Hs & Ha). exists x, es. split_and!; [done|done|by apply took_adv].
  Qed.
  Lemma open_run f s r s' c : aok (abs extract s) → run extract (rec f C) s = ODone r s' → to_come extract s = c →
    Forall (λ y, ¬ lang env d [y]) (word (p_src s) c) →
    ∃ es, r = RPanic es ∧ (es = [] ↔ lang env t (word (p_src s) c)) ∧
      Forall (between (sp_lo (at_next (p_src s) c)) (String.length (p_src s))) es ∧ took extract s c s'.
  Proof using Hacc Hr Hreg Hprod Hns Hap.
    intros Hok Hrun Eto Hc. destruct Hacc as (regs' & iter & Hr' & Hperm & Hmeta). assert (regs' = regs) as -> by congruence.
    assert (H := recover_open env root t dn dy dlit regs iter md Hr Hperm Hmeta Hreg Hprod (p_src s) Hws Hns Hap f (abs extract s) c Hok eq_refl Eto Hc).
    destruct (run_wp extract _ _ _ _ _ _ _ H Hrun) as (es & E & H1 & H2 & Ha). exists es. split_and!; [done|done|done|by apply took_adv].
  Qed.
  Lemma opens_can src l : opens env t d src l → ∃ y, head (word src l) = Some y ∧ can y.
  Proof using Hacc Hr Hreg Hprod. intros (y & H1 & H2). exists y. split; [done|by apply can_begin]. Qed.
  Lemma gap_no_can src g : Forall (λ y, ¬ begins_stmt env t d y) (word src g) → Forall (λ x, ¬ can x) (word src g).
  Proof using Hacc Hr Hreg Hprod. intros H. eapply Forall_impl; [exact H|]. cbn. intros y Hy Hc. by apply Hy, can_begin. Qed.

  Lemma segs_loops f s xs es s' gs : aok (abs extract s) →
    loops extract can (λ s r s', run extract (rec f C) s = ODone r s') s xs es s' →
    segs env t d (p_src s) (to_come extract s) gs →
    ∃ rs, Forall2 (seg_result env t (p_src s)) gs rs ∧ xs = omap fst rs ∧ es = concat (map snd rs).
  Proof using All.
    intros Hok H. revert gs Hok.
    induction H as [s s' T E|s l sp s1 xs es s' T Hf Hn Hc _ IH|s s1 x r s2 xs es s' T Hn Hx Hi Hm _ IH|s s1 x r s2 sp s' T Hn Hx Hi Hm T'];
      intros gs Hok Hsg.
    - assert (E0 : to_come extract s = []) by (by rewrite <- (took_gap extract _ _ _ T), E). rewrite E0 in Hsg.
      remember [] as L eqn:EL. destruct Hsg as [|g l r Hg _ _ _|c k l r _ _ _ _|c Ho _]; [by exists []| | |].
      + by apply app_eq_nil in EL as [-> _].
      + by apply app_eq_nil in EL as [_ ?].
      + subst c. by destruct Ho as (? & ? & _).
    - assert (Esrc : p_src s1 = p_src s) by apply T. assert (Eto := took_gap extract _ _ _ T).
      assert (Hok1 : aok (abs extract s1)) by (eapply adv_aok; [by apply took_adv|done]).
      assert (Hl : l ≠ []) by (by intros ->).
      assert (Hv : ∀ x, head (word (p_src s) (to_come extract s1)) = Some x → can x).
      { intros x Hx. apply Hn. unfold next_tok. by rewrite Esrc. }
      assert (Hno : ∀ l0 v, opens env t d (p_src s) l0 → l ++ to_come extract s1 = l0 ++ v → False).
      { intros l0 v (y & Hy & Hcy)%opens_can E. destruct l as [|a l]; [done|]. destruct l0 as [|b l0]; [done|]. injection E as -> _.
        cbn in Hy. injection Hy as <-. cbn in Hf. by apply Forall_cons in Hf as [? _]. }
      remember (to_come extract s) as L eqn:EL. destruct Hsg as [|g l0 r Hg Hgf Hnx Hr0|c k l0 r Ho _ _ _|c Ho _].
      + by destruct l.
      + destruct (gap_prefix C regs g l l0 (to_come extract s1) (p_src s)) as [-> ->]; [done|by apply gap_no_can|done| |done|].
        { intros y Hy. destruct Hnx as [->|(z & Hz & Hcz)%opens_can]; [done|]. congruence. }
        destruct (IH r) as (rs & H1 & H2 & H3); [done|by rewrite Esrc|]. rewrite Esrc in H1.
        exists ((None, [PErr sp UnexpectedTokens]) :: rs). split_and!; [constructor; [by exists sp|done]|done|cbn; by rewrite H3].
      + exfalso. apply (Hno (c ++ [k]) l0 Ho). by rewrite <- app_assoc.
      + exfalso. apply (Hno c [] Ho). by rewrite app_nil_r.
    - assert (Esrc : p_src s1 = p_src s) by apply T. assert (Eto := took_gap extract _ _ _ T). cbn in Eto.
      assert (Hok1 : aok (abs extract s1)) by (eapply adv_aok; [by apply took_adv|done]).
      assert (Hx1 : head (word (p_src s) (to_come extract s)) = Some x) by (unfold next_tok in Hn; by rewrite Esrc, Eto in Hn).
      remember (to_come extract s) as L eqn:EL. destruct Hsg as [|g l0 r0 Hg Hgf _ _|c k l0 r0 Ho Hcf Hk Hr0|c Ho Hcf]; [done| | |].
      + exfalso. apply gap_no_can in Hgf. destruct g; [done|]. cbn in Hx1. injection Hx1 as <-. by apply Forall_cons in Hgf as [? _].
      + destruct (stmt_run f s1 r s2 c k l0) as (y & es1 & -> & Hres & T2); [done|done|done|by rewrite Esrc|by rewrite Esrc|]. rewrite Esrc in Hres.
        assert (Esrc2 : p_src s2 = p_src s) by (rewrite <- Esrc; apply T2).
        assert (Eto2 : to_come extract s2 = l0).
        { assert (E2 := took_gap extract _ _ _ T2). rewrite Eto in E2. rewrite <- app_assoc in E2. apply app_inv_head in E2. by injection E2. }
        destruct (IH r0) as (rs & H1 & H2 & H3); [eapply adv_aok; [by apply took_adv|done]|by rewrite Esrc2, Eto2|]. rewrite Esrc2 in H1.
        exists ((Some y, es1) :: rs). split_and!; [constructor; [by exists y|done]| |].
        * unfold value. rewrite unres_into. cbn. by rewrite H2.
        * unfold errors_of. rewrite unres_into. cbn. by rewrite H3.
      + destruct (open_run f s1 r s2 c) as (es1 & -> & Hres & Hb & T2); [done|done|done|by rewrite Esrc|]. rewrite Esrc in Hres, Hb.
        assert (Esrc2 : p_src s2 = p_src s) by (rewrite <- Esrc; apply T2).
        assert (Eto2 : to_come extract s2 = []).
        { assert (E2 := took_gap extract _ _ _ T2). rewrite Eto in E2. rewrite <- (app_nil_r c) in E2 at 2. by apply app_inv_head in E2. }
        destruct (IH []) as (rs & H1 & H2 & H3); [eapply adv_aok; [by apply took_adv|done]|rewrite Eto2; constructor|]. inversion H1; subst rs.
        exists [(None, es1)]. split_and!; [constructor; [done|constructor]|done|cbn; by rewrite H3].
    - exfalso. assert (Esrc : p_src s1 = p_src s) by apply T. assert (Eto := took_gap extract _ _ _ T). cbn in Eto.
      assert (Hok1 : aok (abs extract s1)) by (eapply adv_aok; [by apply took_adv|done]).
      assert (Hx1 : head (word (p_src s) (to_come extract s)) = Some x) by (unfold next_tok in Hn; by rewrite Esrc, Eto in Hn).
      assert (E1 := took_gap extract _ _ _ Hm). cbn in E1.
      remember (to_come extract s) as L eqn:EL. destruct Hsg as [|g l0 r0 Hg Hgf _ _|c k l0 r0 Ho Hcf Hk Hr0|c Ho Hcf]; [done| | |].
      + apply gap_no_can in Hgf. destruct g; [done|]. cbn in Hx1. injection Hx1 as <-. by apply Forall_cons in Hgf as [? _].
      + destruct (stmt_run f s1 r s2 c k l0) as (y & es1 & -> & Hres & T2); [done|done|done|by rewrite Esrc|by rewrite Esrc|].
        assert (E2 := took_gap extract _ _ _ T2). rewrite <- E1 in E2. apply (f_equal length) in E2. rewrite !app_length in E2. cbn in E2. lia.
      + destruct (open_run f s1 r s2 c) as (es1 & -> & Hres & Hb & T2); [done|done|done|by rewrite Esrc|].
        assert (E2 := took_gap extract _ _ _ T2). rewrite <- E1 in E2. apply (f_equal length) in E2. rewrite !app_length in E2.
        destruct c; [by destruct Ho as (? & ? & _)|]. cbn in E2. lia.
  Qed.
  (** Every source can be divided. *)
  Lemma segs_total src l : ∃ gs, segs env t d src l gs.
  Proof using Hacc Hr Hreg Hprod.
    destruct Hacc as (regs' & iter & Hr' & Hperm & Hmeta). assert (regs' = regs) as -> by congruence.
    assert (Hdb : ∀ y, Decision (begins_stmt env t d y)).
    { intros y. destruct (ts_contains (tb_get (md_first md) (key C)) (Some y)) eqn:E.
      - left. by apply (begins env root regs iter md Hr Hperm Hmeta Hreg Hprod) in E; [|exact Hws].
      - right. apply not_true_iff_false in E. intros H. apply E. by apply (begins env root regs iter md Hr Hperm Hmeta Hreg Hprod C y Hws). }
    assert (Hdd : ∀ y, Decision (lang env d [y])).
    { intros y. destruct (decide (y.1 = dy ∧ (dlit = None ∨ dlit = Some y.2))) as [H|H]; [left; by constructor|].
      right. intros Hl. inversion Hl; subst. by apply H. }
    remember (length l) as n eqn:En. revert l En. induction (lt_wf n) as [n _ IH]. intros l ->.
    destruct l as [|a l]; [exists []; constructor|]. set (y := (t_ty a, default ""%string (token_src a src))).
    destruct (decide (begins_stmt env t d y)) as [Hb|Hb].
    - assert (Hsplit : ∀ l, Forall (λ y, ¬ lang env d [y]) (word src l) ∨ ∃ c k u, l = c ++ k :: u ∧ Forall (λ y, ¬ lang env d [y]) (word src c) ∧ lang env d (word src [k])).
      { clear -Hdd. induction l as [|a l IHl]; [left; constructor|]. set (y := (t_ty a, default ""%string (token_src a src))).
        destruct (decide (lang env d [y])) as [Hy|Hy]; [right; exists [], a, l; split_and!; [done|constructor|exact Hy]|].
        destruct IHl as [Hl|(c & k & u & -> & Hc & Hk)]; [left; by constructor|right]. exists (a :: c), k, u. split_and!; [done|by constructor|done]. }
      destruct (Hsplit (a :: l)) as [Hf|(c & k & u & E & Hc & Hk)].
      + exists [Open (a :: l)]. apply sg_open; [by exists y|done].
      + destruct (IH (length u)) with (l := u) as [gs Hgs]; [rewrite E, app_length; cbn; lia|done|]. rewrite E. exists (Stmt c k :: gs). apply sg_stmt; [|done..].
        exists y. split; [|done]. destruct c as [|b c]; injection E as <- E; done.
    - destruct (IH (length l)) with (l := l) as [gs Hgs]; [cbn; lia|done|].
      assert (Hone : ∀ r, segs env t d src l r → (l = [] ∨ opens env t d src l) → segs env t d src (a :: l) (Gap [a] :: r)).
      { intros r Hl Ho. apply (sg_gap env t d src [a] l r); [done|repeat constructor; exact Hb|done|done]. }
      remember l as L eqn:EL in Hgs. destruct Hgs as [|g l0 r Hg Hgf Hnx Hr0|c k l0 r Ho Hc Hk Hr0|c Ho Hc]; subst.
      + eexists. apply Hone; [constructor|by left].
      + exists (Gap (a :: g) :: r). apply (sg_gap env t d src (a :: g) l0 r); [done|by constructor|done|done].
      + eexists. apply Hone; [by apply sg_stmt|right]. destruct Ho as (z & Hz & Hbz). exists z. split; [|done]. by destruct c.
      + eexists. apply Hone; [by apply sg_open|by right].
  Qed.
End loop.
Lemma stmt_found extract env root md regs t dn dy dlit s c k u :
  accepted env root md → regular env root → productive env root → within env root (TRecover t (TTok dn dy dlit)) →
  register_root env (prod_of root) = Some regs → keeps_end env regs root t (TTok dn dy dlit) → apart env t (TTok dn dy dlit) → state_ok s → to_come extract s = c ++ k :: u →
  Forall (λ y, ¬ lang env (TTok dn dy dlit) [y]) (word (p_src s) c) → lang env (TTok dn dy dlit) (word (p_src s) [k]) →
  ∃ f0 x es s', (∀ f, f0 ≤ f → run extract (produce_md env md f (TRecover t (TTok dn dy dlit))) s = ODone (res_into x es) s') ∧
    stmt_result env t (p_src s) c k x es ∧ took extract s (c ++ [k]) s' ∧ only_bad_text s s'.
Proof.
  intros Hacc Hreg Hprod Hw Hr Hns Hap Hok Eto Hc Hk.
  destruct (produce_ends_productive extract env root md (TRecover t (TTok dn dy dlit)) s Hacc (reg_filled _ _ Hreg) (reg_enums _ _ Hreg) Hprod Hw Hok) as (f0 & r & s1 & Hrun).
  assert (H1 := Hrun f0 (le_n _)). destruct Hacc as (regs' & iter & Hr' & Hperm & Hmeta). assert (regs' = regs) as -> by congruence.
  assert (H := recover_stmt env root t dn dy dlit regs iter md Hr Hperm Hmeta Hreg Hprod (p_src s) Hw Hns Hap f0 (abs extract s) c k u
    (state_ok_abs extract _ Hok) eq_refl Eto Hc (Forall_cons_2 _ _ _ Hk (Forall_nil_2 _))).
  destruct (run_wp extract _ _ _ _ _ _ _ H H1) as (x & es & -> & Hs & Ha).
  exists f0, x, es, s1. split_and!; [done|done|by apply took_adv|by eapply produce_run_errors].
Qed.
Lemma stmts_parsed extract env md regs t dn dy dlit s gs :
  let root := TLoop (TRecover t (TTok dn dy dlit)) in
  accepted env root md → regular env root → productive env root →
  register_root env (prod_of root) = Some regs → keeps_end env regs root t (TTok dn dy dlit) → apart env t (TTok dn dy dlit) →
  state_ok s → segs env t (TTok dn dy dlit) (p_src s) (to_come extract s) gs →
  ∃ f0 sp rs bad s', (∀ f, f0 ≤ f → run extract (parse env f root (inr md)) s = ODone (inr (Some (TrList sp (omap fst rs)))) s') ∧
    to_come extract s' = [] ∧ Forall2 (seg_result env t (p_src s)) gs rs ∧
    p_invalid s' = p_invalid s ++ bad ∧
    p_errors s' = p_errors s ++ map (λ sp, PErr sp UnexpectedCharacters) bad ++ concat (map snd rs).
Proof.
  intros root Hacc Hreg Hprod Hr Hns Hap Hok Hsg. set (C := TRecover t (TTok dn dy dlit)).
  destruct (produce_ends_productive extract env root md root s Hacc (reg_filled _ _ Hreg) (reg_enums _ _ Hreg) Hprod) as (f0 & r & s1 & Hrun); [constructor|done|].
  assert (H1 := Hrun (S f0) (le_S _ _ (le_n _))).
  destruct (loop_accepted extract env root md regs f0 C s r s1 Hacc Hr (reg_enums _ _ Hreg)) as (Hend & _ & sp & xs & Hv & Hl); [constructor|done|done|].
  destruct (segs_loops extract env t dn dy dlit regs md Hacc Hr Hreg Hprod Hns Hap f0 s xs (errors_of r) s1 gs) as (rs & Hrs & -> & He);
    [by apply state_ok_abs|done|done|].
  destruct (produce_run_errors _ _ _ _ _ _ _ _ _ _ H1) as (bad & Hb1 & Hb2).
  set (s2 := Pst (p_src s1) (p_evs s1) (p_peeked s1) (p_invalid s1) (p_tokens s1) (p_extracted s1) (p_errors s1 ++ errors_of r)).
  exists f0, sp, rs, bad, s2. split_and!; [|done|done|done|cbn; by rewrite Hb2, <- He, <- app_assoc].
  intros f Hf. specialize (Hrun f Hf). unfold parse, parse_with. rewrite !run_bind. unfold produce_md in Hrun. rewrite Hrun.
  unfold value, errors_of in *. subst s2. destruct r as [x|x es|es]; cbn in *; [|by injection Hv as ->|done].
  injection Hv as ->. rewrite app_nil_r. by destruct s1.
Qed.
Lemma source_divided env md t dn dy dlit src l :
  let root := TLoop (TRecover t (TTok dn dy dlit)) in
  accepted env root md → regular env root → productive env root → ∃ gs, segs env t (TTok dn dy dlit) src l gs.
Proof.
  intros root Hacc Hreg Hprod. assert (Hacc' := Hacc). destruct Hacc' as (regs & iter & Hr & _). by eapply segs_total.
Qed.
