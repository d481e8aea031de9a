(** Failures end at the look-ahead; the traces of lists and of [Recover]. *)
From Coq Require Import String NArith.
From stdpp Require Import prelude list strings relations.
From Verif Require Import LexModel LexSpec LexFacts SynSetModel TableModel StreamModel StreamSpec StreamFacts TypeModel ProduceModel ParseSpec ProgFacts TreeFacts SoundFacts RunFacts ParseFacts InvFacts LookFacts NodeFacts CompleteFacts LoopFacts LeafSpec ListSpec.
Local Open Scope nat_scope.
#[local] Arguments ts_contains : simpl never.
#[local] Arguments ts_contains_e : simpl never.
Notation W := (wp True True).

(** * A failure ends with an error at the look-ahead *)
Section last.
  Variable env : denv.
  Variables (first follow : prod → tset) (jump : prod → option tok → option nat).
  Notation produce := (produce env first follow jump).

  Lemma wskip {A B} (m : M A) (k : A → M B) s Q : aok s →
    (∀ a s' l, adv s l s' → aok s' → W (k a) s' Q) → W (m ≫= k) s Q.
  Proof.
    intros Hok Hk. apply wp_bind, wp_adv. unfold wp. destruct (arun m s) as [| |a s']; [done..|].
    intros l Hl. apply (Hk a s' l Hl). by eapply adv_aok.
  Qed.
  Lemma wcall {A B} (m : M A) (k : A → M B) s (Q' : A → ast → Prop) Q : aok s → W m s Q' →
    (∀ a s' l, adv s l s' → aok s' → Q' a s' → W (k a) s' Q) → W (m ≫= k) s Q.
  Proof.
    intros Hok Hm Hk. apply wp_bind, wp_adv. eapply wp_mono; [exact Hm|]. intros a s' Ha l Hl.
    apply (Hk a s' l Hl); [by eapply adv_aok|done].
  Qed.

  (** [N]: no [Recover] involved. *)
  Definition atl (N : Prop) (es : list perr) (s : ast) : Prop :=
    (a_rest s = [] ∧ ¬ N) ∨ ∃ e, last es = Some e ∧ e_span e = a_span s.
  Definition lastp {X} (N : Prop) (p : M (res X)) : Prop :=
    ∀ s, aok s → W p s (λ r s', (unres r).1 = None → atl N (unres r).2 s').
  Lemma atl_app N es es' s : atl N es s → atl N (es' ++ es) s.
  Proof.
    intros [H|(e & H1 & H2)]; [by left|]. right. exists e. split; [|done].
    destruct es as [|x es _] using rev_ind; [done|]. rewrite (assoc_L (++)). by rewrite last_snoc in *.
  Qed.
  Lemma atl_mono (N N' : Prop) es s : (N' → N) → atl N es s → atl N' es s.
  Proof. intros H [[H1 H2]|H1]; [left|by right]. split; [done|]. auto. Qed.

  Lemma seq_last N rec ts : (∀ t, t ∈ ts → lastp N (rec t)) → ∀ xs errs, lastp N (produce_seq rec ts xs errs).
  Proof.
    induction ts as [|t ts IH]; intros Hr xs errs s Hok; cbn [produce_seq].
    - apply wp_ret. by rewrite unres_into.
    - assert (Ht : t ∈ t :: ts) by set_solver. apply (wcall _ _ _ _ _ Hok (Hr t Ht s Hok)). intros r s1 l Hl Hok1 Hx. destruct (unres r) as [[x|] e] eqn:Eu; cbn in Hx.
      + apply IH; [set_solver|done].
      + apply wp_ret. intros _. cbn. apply atl_app. auto.
  Qed.
  Lemma no_value {X} N (p : M (res X)) s : W p s (λ r _, (unres r).1 ≠ None) → W p s (λ r s', (unres r).1 = None → atl N (unres r).2 s').
  Proof. intros H. eapply wp_mono; [exact H|]. intros r s' H1 H2. by destruct H1. Qed.
  Lemma option_value {X} (p : M (res X)) sp set s : aok s → W (produce_option p sp set) s (λ r _, (unres r).1 ≠ None).
  Proof.
    intros Hok. unfold produce_option. apply wskip; [done|]. intros tk s1 l1 H1 Hok1. destruct tk as [x|]; [destruct (ts_contains set (Some x))|].
    - apply wskip; [done|]. intros r s2 l2 H2 Hok2. destruct r; [by apply wp_ret..|]. apply wskip; [done|]. intros. by apply wp_ret.
    - apply wskip; [done|]. intros. by apply wp_ret.
    - apply wskip; [done|]. intros. by apply wp_ret.
  Qed.
  Lemma map_value {X Z} (g : X → Z) (p : M (res X)) s : aok s → W p s (λ r _, (unres r).1 ≠ None) →
    W (r ← p; mret (res_map g r)) s (λ r _, (unres r).1 ≠ None).
  Proof. intros Hok H. eapply wcall; [done|exact H|]. intros r s' l _ _ Hr. apply wp_ret. rewrite unres_map. cbn beta in Hr. destruct (unres r) as [[x|] e]; cbn in *; done. Qed.
  Lemma map_last {X Z} N (g : X → Z) (p : M (res X)) : lastp N p → lastp N (r ← p; mret (res_map g r)).
  Proof.
    intros H s Hok. eapply wcall; [done|by apply H|]. intros r s' l _ _ Hr. apply wp_ret. rewrite unres_map. cbn beta in Hr. destruct (unres r) as [[x|] e]; cbn in *; [done|].
    auto.
  Qed.
  Lemma recover_over pR tf n : ∀ panic errs s, aok s → W (recover_loop n pR tf panic errs) s (λ q s', q.1.1 = None → a_rest s' = []).
  Proof.
    induction n as [|n IH]; intros panic errs s Hok; [done|]. cbn [recover_loop].
    apply wp_bind, wp_peek_src; [done|]. destruct (look s) as [x|] eqn:El.
    - apply wskip; [done|]. intros [[t es]|panic'] s2 l2 H2 Hok2; [by apply wp_ret|].
      apply wskip; [done|]. intros p s3 l3 H3 Hok3. apply wskip; [done|]. intros a s4 l4 H4 Hok4. by apply IH.
    - apply look_none in El. destruct (ts_contains_e tf); [|by apply wp_ret].
      apply wskip; [done|]. intros r s1 l Hl _. assert (a_rest s1 = []).
      { destruct Hl as [_ _ H]. rewrite El in H. symmetry in H. by apply app_nil in H as [_ ->]. }
      by destruct (unres r) as [[x|] e]; apply wp_ret.
  Qed.

  Lemma produce_last f t : lastp (no_recover env t) (produce f t).
  Proof.
    revert t. induction f as [|f IH]; intros t s Hok; [done|].
    assert (Hsub : ∀ c, c ∈ subs env t → lastp (no_recover env t) (produce f c)).
    { intros c Hc s0 Hok0. eapply wp_mono; [by apply IH|]. intros r s' H Hr. eapply atl_mono; [|by apply H].
      intros Hn. by eapply all_within_sub. }
    destruct t as [n y lit|n|ts|t|t|t|t|t|t|t|t|t d|t d|t r]; cbn [ProduceModel.produce].
    - apply map_last; [|done]. intros s0 Hok0. assert (Ha : ∀ k, atl (no_recover env (TTok n y lit)) [PErr (a_span s0) k] s0).
      { intros k. right. by eexists. }
      unfold a_span in Ha. destruct lit as [lit|]; [apply wp_parse_token_lit; [done|]|apply wp_parse_token];
        destruct (a_rest s0) as [|t0 r0] eqn:Er; repeat case_match; try done; intros _; apply Ha.
    - destruct (env !! n) as [[fs|vs]|] eqn:En; [| |done].
      + assert (Hs : lastp (no_recover env (TNamed n)) (produce_seq (produce f) (map fst fs) [] [])).
        { apply seq_last. intros c Hc. apply Hsub. cbn. by rewrite En. }
        apply (wcall _ _ _ _ _ Hok (Hs s Hok)).
        intros r s1 l Hl Hok1 Hr. destruct (unres r) as [[xs|] e]; cbn in Hr; [|apply wp_ret; cbn; auto].
        apply wskip; [done|]. intros. apply wp_ret. by rewrite unres_into.
      + apply wp_bind, wp_peek_src; [done|].
        destruct (_ ≫= _) as [[i [t' sem]]|] eqn:Ei.
        2:{ apply wp_bind, wp_expecting, wp_ret. intros _. right. by eexists. }
        assert (vs !! i = Some (t', sem)) as Hi.
        { destruct (jump (key (TNamed n)) (look s)) as [i'|]; [|done]. cbn in Ei.
          destruct (vs !! i') eqn:E; [|done]. cbn in Ei. injection Ei as -> ->. done. }
        assert (Ht' : t' ∈ subs env (TNamed n)).
        { cbn. rewrite En. cbn. apply elem_of_list_lookup_2 in Hi.
          apply elem_of_list_In, (in_map fst), elem_of_list_In in Hi. done. }
        apply (wcall _ _ _ _ _ Hok (Hsub t' Ht' s Hok)). intros r s1 l Hl Hok1 Hr.
        destruct r as [x|x es|es], sem; try (apply wskip; [done|]; intros); apply wp_ret; cbn in *; auto; done.
    - apply map_last; [|done]. apply seq_last. intros c Hc. by apply Hsub.
    - apply Hsub; [cbn; set_solver|done].
    - apply no_value, map_value, option_value; done.
    - apply no_value, map_value, option_value; done.
    - assert (Ht : lastp (no_recover env (TQuote t)) (produce f t)) by (apply Hsub; cbn; set_solver).
      apply (wcall _ _ _ _ _ Hok (Ht s Hok)). intros r s1 l Hl Hok1 Hr.
      destruct r; [apply wskip; [done|]; intros; by apply wp_ret..|]. apply wp_ret. by apply Hr.
    - assert (Ht : lastp (no_recover env (TParse t)) (produce f t)) by (apply Hsub; cbn; set_solver).
      apply (wcall _ _ _ _ _ Hok (Ht s Hok)). intros r s1 l Hl Hok1 Hr.
      destruct r; [apply wskip; [done|]; intros; by apply wp_ret..|]. apply wp_ret. by apply Hr.
    - apply map_last; [|done]. intros s0 Hok0. unfold produce_plus.
      assert (Ht : lastp (no_recover env (TPlus t)) (produce f t)) by (apply Hsub; cbn; set_solver).
      apply (wcall _ _ _ _ _ Hok0 (Ht s0 Hok0)).
      intros r s1 l Hl Hok1 Hr. destruct (unres r) as [[x|] e]; cbn in Hr; [|apply wp_ret; cbn; auto].
      apply wskip; [done|]. intros [[a b] c] ? ? ? ?. apply wp_ret. by rewrite unres_into.
    - apply no_value, map_value, option_value; done.
    - apply no_value, map_value; [done|]. unfold produce_loop. apply wskip; [done|]. intros [a b] s1 l1 _ Hok1. apply wskip; [done|]. intros.
      apply wp_ret. by rewrite unres_into.
    - unfold produce_split.
      assert (Ht : lastp (no_recover env (TSplit t d)) (produce f t)) by (apply Hsub; cbn; set_solver).
      apply (wcall _ _ _ _ _ Hok (Ht s Hok)).
      intros r s1 l Hl Hok1 Hr. destruct (unres r) as [[x|] e]; cbn in Hr; [|apply wp_ret; cbn; auto].
      apply wskip; [done|]. intros [[a b] c] ? ? ? ?. apply wp_ret. by rewrite unres_into.
    - unfold produce_punct.
      assert (Ht : lastp (no_recover env (TPunct t d)) (produce f t)) by (apply Hsub; cbn; set_solver).
      apply (wcall _ _ _ _ _ Hok (Ht s Hok)).
      intros r s1 l Hl Hok1 Hr. destruct (unres r) as [[x|] e]; cbn in Hr; [|apply wp_ret; cbn; auto].
      apply wskip; [done|]. intros [[a b] c] ? ? ? ?. apply wp_ret. by rewrite unres_into.
    - unfold produce_recover. apply wskip; [done|]. intros tk s1 l1 _ Hok1. apply wskip; [done|]. intros [[[a b] c] d] s2 l2 _ Hok2.
      apply (wcall _ _ _ _ _ Hok2 (recover_over _ _ _ _ _ _ Hok2)). intros [[tl p] e] s3 l3 _ Hok3 Ht. cbn in Ht. destruct tl as [x|]; apply wp_ret.
      + by rewrite unres_into.
      + intros _. left. split; [auto|]. intros Hn. by apply (Hn _ (rtc_refl _ _)).
  Qed.
End last.

Lemma last_run extract env first follow jump f t s es s' : state_ok s →
  run extract (produce env first follow jump f t) s = ODone (RPanic es) s' →
  (to_come extract s' = [] ∧ ¬ no_recover env t) ∨ ∃ e, last es = Some e ∧ e_span e = here extract s'.
Proof.
  intros Hok%(state_ok_abs extract) Hr.
  assert (H := run_wp extract _ _ _ _ _ _ _ (produce_last env first follow jump f t _ Hok) Hr). by apply H.
Qed.

(** * Traces *)
Section trace.
  Context (extract : nat → bool).
  Notation run := (run extract).
  Notation abs := (abs extract).
  Notation took := (took extract).
  Notation next_tok := (next_tok extract).
  Notation to_come := (to_come extract).
  Notation here := (here extract).

  Lemma here_abs s : here s = a_span (abs s).
  Proof. done. Qed.
  Lemma same_took s s' : abs s' = abs s → took s [] s'.
  Proof. intros E. apply took_adv. rewrite E. apply adv_refl. Qed.
  Lemma took_here s s' : took s [] s' → here s' = here s.
  Proof. intros (H1 & _ & H2). cbn in H2. unfold ListSpec.here. by rewrite H1, H2. Qed.
  Lemma took_next s s' : took s [] s' → next_tok s' = next_tok s.
  Proof. intros (H1 & _ & H2). cbn in H2. unfold ParseSpec.next_tok. by rewrite H1, H2. Qed.
  Lemma here_le s : state_ok s → sp_lo (here s) ≤ sp_hi (here s).
  Proof.
    intros H%(state_ok_abs extract). apply aok_pos in H as [H _]. unfold ListSpec.here, at_next. 
    change (a_rest (abs s)) with (to_come s) in H. destruct (to_come s) as [|t r]; [done|]. cbn in H. lia.
  Qed.
  Lemma here_step s l s' : state_ok s → took s l s' → sp_lo (here s) ≤ sp_lo (here s').
  Proof.
    intros H%(state_ok_abs extract) T%took_adv. destruct l as [|t l].
    - apply took_adv in T. by rewrite (took_here _ _ T).
    - rewrite !here_abs. assert (Hlt := cur_lt _ _ _ H T ltac:(done)). lia.
  Qed.
  Lemma here_tok s tk s' : state_ok s → took s [tk] s' → t_span tk = here s ∧ sp_hi (here s) ≤ sp_lo (here s').
  Proof.
    intros Hok T. assert (E : t_span tk = here s).
    { destruct T as (_ & _ & E). unfold ListSpec.here. by rewrite E. }
    split; [done|]. rewrite <- E. apply (state_ok_abs extract) in Hok. apply took_adv in T.
    assert (Ha := adv_aok _ _ _ T Hok). apply aok_pos in Ha as [H1 H2]. rewrite (adv_pos _ _ _ T) in H1, H2.
    change (end_pos (pos (abs s)) [tk]) with (sp_hi (t_span tk)) in *. rewrite here_abs. unfold a_span.
    destruct (a_rest (abs s')); cbn in H1 |- *; [done|lia].
  Qed.
  Lemma consume_took s a s' x : next_tok s = Some x → run consume s = ODone a s' → ∃ tk, took s [tk] s'.
  Proof.
    intros Hn H. assert (Hd : ∃ tk r, a_rest (abs s) = tk :: r).
    { change (a_rest (abs s)) with (to_come s). unfold ParseSpec.next_tok in Hn. destruct (to_come s) as [|tk r]; [done|eauto]. }
    destruct Hd as (tk & r & E). apply consume_run' in H. exists tk. apply took_adv. rewrite H. by apply (pop_adv1 _ _ r).
  Qed.
  Lemma next_some s : to_come s ≠ [] → ∃ x, next_tok s = Some x.
  Proof. intros H. destruct (next_tok s) eqn:E; [eauto|]. by apply next_none in E. Qed.
  Lemma peek_run s a s' : state_ok s → run peek_src s = ODone a s' → a = next_tok s' ∧ took s [] s' ∧ state_ok s'.
  Proof.
    intros Hok H. assert (Hok' := run_ok _ _ _ _ _ H Hok). apply peek_src_run in H as [-> E]; [|by apply state_ok_abs].
    split_and!; [|by apply same_took|done]. by rewrite next_look, E.
  Qed.
  Lemma span_run s a s' : state_ok s → run cur_span s = ODone a s' → a = here s' ∧ took s [] s' ∧ state_ok s'.
  Proof.
    intros Hok H. assert (Hok' := run_ok _ _ _ _ _ H Hok). apply cur_span_run' in H as [-> E].
    split_and!; [|by apply same_took|done]. by rewrite here_abs, E.
  Qed.
  Lemma expecting_run set s a s' : state_ok s → run (expecting set) s = ODone a s' → a = PErr (here s') (Expecting set) ∧ took s [] s' ∧ state_ok s'.
  Proof.
    intros Hok H. assert (Hok' := run_ok _ _ _ _ _ H Hok).
    assert (H' := run_wp extract True True _ _ _ _ (λ a s', a = PErr (a_span (abs s)) (Expecting set) ∧ s' = abs s) (wp_expecting _ _ _ _ _ (conj eq_refl eq_refl)) H).
    destruct H' as [-> E]. split_and!; [|by apply same_took|done]. by rewrite here_abs, E.
  Qed.

  Lemma reported_sub E E' sp : E ⊆ E' → reported E sp → reported E' sp.
  Proof. intros H (e & H1 & H2). exists e. split; [by apply H|done]. Qed.
  Lemma tries_sub can item stop trail N E E' s o s' : E ⊆ E' →
    tries extract can item stop trail N E s o s' → tries extract can item stop trail N E' s o s'.
  Proof.
    intros H. induction 1.
    - eapply tries_found; [done|set_solver].
    - by eapply tries_trail.
    - eapply tries_stop; [done..|]. intros Hg. eapply reported_sub; [exact H|auto].
    - eapply tries_skip; [done..| |done]. by eapply reported_sub.
  Qed.
  Lemma missing_ext (can can' : option tok → Prop) item s s' : (∀ o, can o ↔ can' o) → missing extract can item s s' → missing extract can' item s s'.
  Proof.
    intros Hc [? ? ? H|? ? ? ? ? ? H ? ? ?]; [apply missing_start; [done|by rewrite <- Hc]|]. eapply missing_fail; [done|by apply Hc|done..].
  Qed.
  Lemma found_ext (can can' : option tok → Prop) item s x es s' : (∀ o, can o ↔ can' o) → found extract can item s x es s' → found extract can' item s x es s'.
  Proof. intros Hc [? ? ? ? ? ? H ? ?]. eapply found_item; [done|by apply Hc|done..]. Qed.
  Lemma tries_ext (can can' : option tok → Prop) item stop trail N E s o s' : (∀ o, can o ↔ can' o) →
    tries extract can item stop trail N E s o s' → tries extract can' item stop trail N E s o s'.
  Proof.
    intros Hc. induction 1.
    - eapply tries_found; [by eapply found_ext|done].
    - eapply tries_trail; [done|by rewrite <- Hc|done].
    - eapply tries_stop; [by eapply missing_ext|done..].
    - eapply tries_skip; [by eapply missing_ext|done..].
  Qed.
  Lemma tails_ext (can can' : option tok → Prop) item E s o s' : (∀ o, can o ↔ can' o) →
    tails extract can item E s o s' → tails extract can' item E s o s'.
  Proof.
    intros Hc. induction 1.
    - eapply tails_found; [by eapply found_ext|done].
    - eapply tails_none; [by eapply missing_ext|done].
    - eapply tails_skip; [by eapply missing_ext|done..].
    - eapply tails_again; [by eapply missing_ext|done..].
  Qed.
  Lemma lists_ext (can can' : option tok → Prop) sep follows item sepr keep trail N E s xs ps s' : (∀ o, can o ↔ can' o) →
    lists extract can sep follows item sepr keep trail N E s xs ps s' → lists extract can' sep follows item sepr keep trail N E s xs ps s'.
  Proof.
    intros Hc. induction 1.
    - by apply lists_end.
    - by eapply lists_fail.
    - eapply lists_last; [done|done|by eapply tries_ext|done].
    - eapply lists_item; [done|done|by eapply tries_ext|done].
    - eapply lists_miss; [done|done|by eapply tries_ext|done..].
  Qed.
  Lemma missing_pre can item s s0 s' : took s [] s0 → missing extract can item s0 s' → missing extract can item s s'.
  Proof.
    intros T H. destruct H as [s0 s' T' Hc|s0 s1 r s2 s' T' Hc Hi Hv T2].
    - eapply missing_start; [|done]. exact (took_trans extract s [] s0 [] s' T T').
    - eapply missing_fail; [|done..]. exact (took_trans extract s [] s0 [] s1 T T').
  Qed.

  (** ** The pending error *)
  Section item.
    Context (N : Prop) (p : M (res tree)).
    Notation item := (λ s r s', run p s = ODone r s').
    Hypothesis Hlast : ∀ s r s', state_ok s → run p s = ODone r s' → value r = None →
      (to_come s' = [] ∧ ¬ N) ∨ ∃ e, last (errors_of r) = Some e ∧ e_span e = here s'.
    Hypothesis Hlo : ∀ s r s' e, state_ok s → run p s = ODone r s' → e ∈ errors_of r →
      sp_lo (here s) ≤ sp_lo (e_span e) ∧ sp_lo (e_span e) ≤ sp_hi (e_span e).

    (** The pending error is behind, and will end up among [E]. *)
    Definition behind (panic : option perr) (s : pst) : Prop :=
      ∀ e, panic = Some e → sp_lo (e_span e) ≤ sp_hi (e_span e) ∧ sp_hi (e_span e) ≤ sp_lo (here s).
    Definition kept (panic : option perr) (E : list perr) : Prop :=
      ∀ e, panic = Some e → ∃ e', e' ∈ E ∧ sp_lo (e_span e') = sp_lo (e_span e) ∧ sp_hi (e_span e) ≤ sp_hi (e_span e').
    (** After a failed attempt at [s]: *)
    Definition grown (panic panic' : option perr) (s : pst) : Prop :=
      kept panic (option_list panic') ∧
      (to_come s ≠ [] ∨ N → ∃ e, panic' = Some e ∧ sp_lo (e_span e) ≤ sp_lo (here s) ∧ sp_hi (e_span e) = sp_hi (here s)).
    Lemma grown_fail panic s r s' : state_ok s → behind panic s → run p s = ODone r s' → value r = None →
      grown panic (merge_panic panic (errors_of r)) s'.
    Proof.
      intros Hok Hb Hr Hv. assert (Hok' := run_ok _ _ _ _ _ Hr Hok). destruct (run_took _ _ _ _ _ Hr) as [l Hl].
      assert (Hle := here_step _ _ _ Hok Hl). split.
      - intros e ->. unfold merge_panic. destruct (Hb e eq_refl) as [H1 H2]. destruct (last (errors_of r)) as [e'|] eqn:El.
        + assert (He : e' ∈ errors_of r) by (by apply last_Some_elem_of). destruct (Hlo _ _ _ _ Hok Hr He) as [H3 H4].
          eexists. split; [by apply elem_of_list_singleton|]. cbn. split; [done|]. lia.
        + exists e. split; [by apply elem_of_list_singleton|done].
      - intros Hc. destruct (Hlast _ _ _ Hok Hr Hv) as [[H1 H2]|(e & He & Hs)].
        { by destruct Hc. }
        unfold merge_panic. rewrite He. eexists. split; [done|]. assert (Hh := here_le _ Hok').
        destruct panic as [e0|]; cbn.
        + destruct (Hb e0 eq_refl) as [H1 H2]. rewrite Hs. split; [lia|done].
        + rewrite Hs. done.
    Qed.
    Lemma grown_start panic s : state_ok s → behind panic s → ∀ k, grown panic (Some (match panic with Some e => set_hi e (sp_hi (here s)) | None => PErr (here s) k end)) s.
    Proof.
      intros Hok Hb k. assert (Hh := here_le _ Hok). split.
      - intros e ->. destruct (Hb e eq_refl) as [H1 H2]. eexists. split; [by apply elem_of_list_singleton|]. cbn. split; [done|lia].
      - intros _. eexists. split; [done|]. destruct panic as [e|]; cbn; [|done]. destruct (Hb e eq_refl) as [H1 H2]. split; [lia|done].
    Qed.
    Lemma grown_to panic panic' s s' : grown panic panic' s → took s [] s' → grown panic panic' s'.
    Proof. intros [H1 H2] T. split; [done|]. assert (Hc : to_come s = to_come s') by apply T. by rewrite (took_here _ _ T), <- Hc. Qed.
    Lemma grown_behind panic panic' s tk s' : state_ok s → grown panic panic' s → took s [tk] s' → behind panic' s'.
    Proof.
      intros Hok [_ H] T e ->. destruct (here_tok _ _ _ Hok T) as [H1 H2]. destruct H as (e0 & [= <-] & H3 & H4).
      { left. destruct T as (_ & _ & ->). done. }
      assert (Hh := here_le _ Hok). lia.
    Qed.
    Lemma grown_kept panic panic' s E : grown panic panic' s → kept panic' E → kept panic E.
    Proof.
      intros [H _] Hk e He. destruct (H e He) as (e1 & H1 & H2 & H3). destruct panic' as [p'|]; [|by apply elem_of_nil in H1].
      apply elem_of_list_singleton in H1 as ->. destruct (Hk p' eq_refl) as (e2 & H4 & H5 & H6). exists e2. split; [done|]. split; [congruence|lia].
    Qed.
    Lemma kept_in panic E : option_list panic ⊆ E → kept panic E.
    Proof. intros H e ->. exists e. split; [|done]. apply H. by apply elem_of_list_singleton. Qed.
    Lemma grown_report panic panic' s E : grown panic panic' s → kept panic' E → to_come s ≠ [] ∨ N → reported E (here s).
    Proof.
      intros [_ H] Hk Hc. destruct (H Hc) as (e & -> & H1 & H2). destruct (Hk e eq_refl) as (e' & H3 & H4 & H5).
      exists e'. split; [done|]. lia.
    Qed.
    Lemma behind_none s : behind None s.
    Proof. by intros e. Qed.
    Lemma kept_none E : kept None E.
    Proof. by intros e. Qed.

    Section split.
      Context (ef pf fol : tset).
      Notation can := (λ o, ts_contains ef o || ts_contains_e ef = true).
      Notation stop := (λ o, ts_contains pf o = true ∨ ts_contains fol o = true).
      Notation tries := (tries extract can item stop (λ _, False) N).
      Lemma split_inner_run n : ∀ panic errs s q s', state_ok s → behind panic s →
        run (split_inner n p ef pf fol panic errs) s = ODone q s' →
        tries q.1.2 s q.1.1 s' ∧ errs ⊆ q.1.2 ∧ kept panic q.1.2 ∧
        match q.1.1 with Some _ => q.2 = true | None => if q.2 then ts_contains pf (next_tok s') = true else next_tok s' = None ∨ ts_contains fol (next_tok s') = true end.
      Proof.
        induction n as [|n IH]; intros panic errs s q s' Hok Hb H; [done|]. cbn [split_inner] in H.
        apply run_bind_inv in H as (tk & s1 & H1 & H). apply (peek_run _ _ _ Hok) in H1 as (-> & T1 & Hok1).
        assert (Hb1 : behind panic s1). { intros e He. rewrite (took_here _ _ T1). by apply Hb. }
        apply run_bind_inv in H as (step & s2 & H2 & H). assert (Hok2 := run_ok _ _ _ _ _ H2 Hok1).
        assert (Hstep : match step with
          | inl (t, errs') => (∃ e, found extract can item s t e s2 ∧ errs' = errs ++ e ++ option_list panic)
          | inr (tk', panic') => tk' = next_tok s2 ∧ missing extract can item s s2 ∧ grown panic panic' s2
          end).
        { destruct (ts_contains ef (next_tok s1) || ts_contains_e ef) eqn:Ec.
          - apply run_bind_inv in H2 as (r & s3 & Hr & H2). destruct (unres r) as [[t|] e] eqn:Eu.
            + injection H2 as <- <-. exists e. split; [|done].
              assert (e = errors_of r) as -> by (unfold errors_of; by rewrite Eu).
              eapply found_item; [exact T1|done|exact Hr|unfold value; by rewrite Eu].
            + apply run_bind_inv in H2 as (tk & s4 & H4 & H2). injection H2 as <- <-.
              assert (Hok3 := run_ok _ _ _ _ _ Hr Hok1). apply (peek_run _ _ _ Hok3) in H4 as (-> & T4 & Hok4).
              assert (Hv : value r = None) by (unfold value; by rewrite Eu).
              assert (He : e = errors_of r) by (unfold errors_of; by rewrite Eu).
              split; [done|]. split.
              * eapply missing_fail; [exact T1|done|exact Hr|done|done].
              * rewrite He. eapply grown_to; [|exact T4]. by apply (grown_fail _ s1 r).
          - assert (Hm : ∀ s3, took s1 [] s3 → missing extract can item s s3).
            { intros s3 T3. apply missing_start; [exact (took_trans extract s [] s1 [] s3 T1 T3)|]. rewrite (took_next _ _ T3), Ec. done. }
            destruct panic as [e|].
            + apply run_bind_inv in H2 as (sp & s3 & H3 & H2). injection H2 as <- <-. apply (span_run _ _ _ Hok1) in H3 as (-> & T3 & Hok3).
              split; [by rewrite (took_next _ _ T3)|]. split; [by apply Hm|]. eapply (grown_start (Some e) s3); [done| |exact UnexpectedEof].
              intros e' He'. rewrite (took_here _ _ T3). by apply Hb1.
            + apply run_bind_inv in H2 as (e & s3 & H3 & H2). injection H2 as <- <-. apply (expecting_run _ _ _ _ Hok1) in H3 as (-> & T3 & Hok3).
              split; [by rewrite (took_next _ _ T3)|]. split; [by apply Hm|]. apply (grown_start None); [done|apply behind_none]. }
        destruct step as [[t errs']|[tk panic']].
        - destruct Hstep as (e & Hf & ->). injection H as <- <-. cbn [fst snd].
          split_and!; [|set_solver|apply kept_in; set_solver|done]. eapply tries_found; [exact Hf|set_solver].
        - destruct Hstep as (-> & Hm & Hg).
          assert (Hstop : ∀ E, option_list panic' ⊆ E → next_tok s2 = None ∨ stop (next_tok s2) → tries E s None s2).
          { intros E HE Hn. apply tries_stop; [done..|]. intros Hc. eapply grown_report; [exact Hg|by apply kept_in|done]. }
          destruct (ts_contains pf (next_tok s2)) eqn:Ep.
          { injection H as <- <-. cbn [fst snd]. split_and!; [|set_solver| |done].
            - apply Hstop; [set_solver|]. right. by left.
            - eapply grown_kept; [exact Hg|]. apply kept_in. set_solver. }
          destruct (bool_decide (next_tok s2 = None) || ts_contains fol (next_tok s2)) eqn:Ef.
          { assert (Hd : next_tok s2 = None ∨ ts_contains fol (next_tok s2) = true).
            { apply orb_true_iff in Ef as [E|E]; [left; by apply bool_decide_eq_true in E|by right]. }
            injection H as <- <-. cbn [fst snd]. split_and!; [|set_solver| |done].
            - apply Hstop; [set_solver|]. destruct Hd; [by left|right; by right].
            - eapply grown_kept; [exact Hg|]. apply kept_in. set_solver. }
          apply orb_false_iff in Ef as [En Ef]. apply bool_decide_eq_false in En.
          destruct (next_tok s2) as [x|] eqn:Ex; [|done].
          apply run_bind_inv in H as (c & s3 & H3 & H). assert (Hok3 := run_ok _ _ _ _ _ H3 Hok2).
          destruct (consume_took _ _ _ _ Ex H3) as [tk T3].
          apply IH in H as (H4 & H5 & H6 & H7); [|done|by eapply (grown_behind _ _ s2)].
          split_and!; [|done|by eapply grown_kept|done].
          eapply (tries_skip extract _ _ _ _ _ _ s s2 x tk s3); [done|done| |done| |done].
          + intros [?|?]; congruence.
          + destruct (here_tok _ _ _ Hok2 T3) as [-> _]. eapply grown_report; [exact Hg|exact H6|].
            left. intros Ec. apply next_none in Ec. congruence.
      Qed.
    End split.

    Section punct.
      Context (ef pf fol : tset).
      Notation can := (λ o, match o with Some _ => ts_contains ef o = true | None => False end).
      Notation stop := (λ o, ts_contains pf o = true ∨ ts_contains fol o = true).
      Notation trail := (λ o, o = None ∨ ts_contains fol o = true).
      Notation tries := (tries extract can item stop trail N).
      Lemma punct_inner_run n : ∀ panic errs s q s', state_ok s → behind panic s →
        run (punct_inner n p ef pf fol panic errs) s = ODone q s' →
        tries q.1.2 s q.1.1 s' ∧ errs ⊆ q.1.2 ∧ kept panic q.1.2 ∧
        match q.1.1 with Some _ => q.2 = true | None => if q.2 then ts_contains pf (next_tok s') = true else next_tok s' = None ∨ ts_contains fol (next_tok s') = true end.
      Proof.
        induction n as [|n IH]; intros panic errs s q s' Hok Hb H; [done|]. cbn [punct_inner] in H.
        apply run_bind_inv in H as (tk & s1 & H1 & H). apply (peek_run _ _ _ Hok) in H1 as (-> & T1 & Hok1).
        assert (Hb1 : behind panic s1). { intros e He. rewrite (took_here _ _ T1). by apply Hb. }
        destruct (next_tok s1) as [x|] eqn:E1.
        2:{ injection H as <- <-. cbn [fst snd]. split_and!; [|set_solver|apply kept_in; set_solver|by left].
            apply tries_trail; [done|rewrite E1; by intros []|]. by left. }
        destruct (negb (ts_contains ef (Some x)) && ts_contains fol (Some x)) eqn:Ed.
        { apply andb_true_iff in Ed as [Ec Ef]. apply negb_true_iff in Ec.
          injection H as <- <-. cbn [fst snd]. split_and!; [|set_solver|apply kept_in; set_solver|right; by rewrite E1].
          apply tries_trail; [done| |]; rewrite E1; [intros ?; congruence|by right]. }
        apply run_bind_inv in H as (step & s2 & H2 & H). assert (Hok2 := run_ok _ _ _ _ _ H2 Hok1).
        assert (Hstep : match step with
          | inl (t, errs') => (∃ e, found extract can item s t e s2 ∧ errs' = errs ++ option_list panic ++ e)
          | inr panic' => (∀ s3, took s2 [] s3 → missing extract can item s s3) ∧ grown panic panic' s2
          end).
        { destruct (ts_contains ef (Some x)) eqn:Ec.
          - apply run_bind_inv in H2 as (r & s3 & Hr & H2). destruct (unres r) as [[t|] e] eqn:Eu.
            + injection H2 as <- <-. exists e. split; [|done].
              assert (e = errors_of r) as -> by (unfold errors_of; by rewrite Eu).
              eapply found_item; [exact T1|by rewrite E1|exact Hr|unfold value; by rewrite Eu].
            + injection H2 as <- <-.
              assert (Hv : value r = None) by (unfold value; by rewrite Eu).
              assert (He : e = errors_of r) by (unfold errors_of; by rewrite Eu).
              split; [|rewrite He; by apply (grown_fail _ s1 r)].
              intros s4 T4. eapply missing_fail; [exact T1|by rewrite E1|exact Hr|done|done].
          - apply run_bind_inv in H2 as (sp & s3 & H3 & H2). injection H2 as <- <-. apply (span_run _ _ _ Hok1) in H3 as (-> & T3 & Hok3).
            split.
            + intros s4 T4. apply missing_start; [exact (took_trans extract s [] s1 [] s4 T1 (took_trans extract s1 [] s3 [] s4 T3 T4))|].
              rewrite (took_next _ _ T4), (took_next _ _ T3), E1. intros ?. congruence.
            + apply grown_start; [done|]. intros e' He'. rewrite (took_here _ _ T3). by apply Hb1. }
        destruct step as [[t errs']|panic'].
        - destruct Hstep as (e & Hf & ->). injection H as <- <-. cbn [fst snd].
          split_and!; [|set_solver|apply kept_in; set_solver|done]. eapply tries_found; [exact Hf|set_solver].
        - destruct Hstep as [Hm Hg].
          apply run_bind_inv in H as (tk & s3 & H3 & H). apply (peek_run _ _ _ Hok2) in H3 as (-> & T3 & Hok3).
          apply (grown_to _ _ _ _) with (2 := T3) in Hg. specialize (Hm _ T3).
          assert (Hstop : ∀ E, option_list panic' ⊆ E → next_tok s3 = None ∨ stop (next_tok s3) → tries E s None s3).
          { intros E HE Hn. apply tries_stop; [done..|]. intros Hc. eapply grown_report; [exact Hg|by apply kept_in|done]. }
          destruct (ts_contains pf (next_tok s3)) eqn:Ep.
          { injection H as <- <-. cbn [fst snd]. split_and!; [|set_solver| |done].
            - apply Hstop; [set_solver|]. right. by left.
            - eapply grown_kept; [exact Hg|]. apply kept_in. set_solver. }
          destruct (bool_decide (next_tok s3 = None) || ts_contains fol (next_tok s3)) eqn:Ef.
          { assert (Hd : next_tok s3 = None ∨ ts_contains fol (next_tok s3) = true).
            { apply orb_true_iff in Ef as [E|E]; [left; by apply bool_decide_eq_true in E|by right]. }
            injection H as <- <-. cbn [fst snd]. split_and!; [|set_solver| |done].
            - apply Hstop; [set_solver|]. destruct Hd; [by left|right; by right].
            - eapply grown_kept; [exact Hg|]. apply kept_in. set_solver. }
          apply orb_false_iff in Ef as [En Ef]. apply bool_decide_eq_false in En.
          destruct (next_tok s3) as [y|] eqn:Ex; [|done].
          apply run_bind_inv in H as (c & s4 & H4 & H). assert (Hok4 := run_ok _ _ _ _ _ H4 Hok3).
          destruct (consume_took _ _ _ _ Ex H4) as [tk T4].
          apply IH in H as (H5 & H6 & H7 & H8); [|done|by eapply (grown_behind _ _ s3)].
          split_and!; [|done|by eapply grown_kept|done].
          eapply (tries_skip extract _ _ _ _ _ _ s s3 y tk s4); [done|done| |done| |done].
          + intros [?|?]; congruence.
          + destruct (here_tok _ _ _ Hok3 T4) as [-> _]. eapply grown_report; [exact Hg|exact H7|].
            left. intros Ec. apply next_none in Ec. congruence.
      Qed.
    End punct.

    Section recover.
      Context (tf : tset).
      Notation can := (λ o, ts_contains tf o || ts_contains_e tf = true).
      Definition near (panic : option perr) (s : pst) : Prop :=
        to_come s ≠ [] → ∀ e, panic = Some e → sp_lo (e_span e) ≤ sp_lo (here s).
      Definition held (panic : option perr) (s : pst) (E : list perr) : Prop :=
        ∀ e, panic = Some e → ∃ e', e' ∈ E ∧ sp_lo (e_span e') = sp_lo (e_span e) ∧
          ∀ h, h ≤ sp_hi (e_span e) → h ≤ sp_lo (here s) → h ≤ sp_hi (e_span e').
      Lemma held_in panic s E : option_list panic ⊆ E → held panic s E.
      Proof. intros H e ->. exists e. split; [|done]. apply H. by apply elem_of_list_singleton. Qed.
      Lemma near_merge panic s r s' : state_ok s → near panic s → to_come s ≠ [] → run p s = ODone r s' → value r = None →
        near (merge_panic panic (errors_of r)) s'.
      Proof.
        intros Hok Hn Hc Hr Hv Hc' e He. destruct (run_took _ _ _ _ _ Hr) as [l Hl]. assert (Hle := here_step _ _ _ Hok Hl).
        destruct (Hlast _ _ _ Hok Hr Hv) as [[H _]|(e0 & H0 & Hs)]; [done|]. unfold merge_panic in He. rewrite H0 in He. injection He as <-.
        destruct panic as [e1|]; cbn; [|by rewrite Hs]. assert (H1 := Hn Hc e1 eq_refl). lia.
      Qed.
      Lemma held_merge panic s r s' : state_ok s → run p s = ODone r s' → held panic s (option_list (merge_panic panic (errors_of r))).
      Proof.
        intros Hok Hr e ->. unfold merge_panic. destruct (last (errors_of r)) as [e0|] eqn:E0.
        - assert (He : e0 ∈ errors_of r) by (by apply last_Some_elem_of). destruct (Hlo _ _ _ _ Hok Hr He).
          eexists. split; [by apply elem_of_list_singleton|]. cbn. split; [done|]. lia.
        - exists e. split; [by apply elem_of_list_singleton|done].
      Qed.
      Lemma held_trans panic panic' s s' E : held panic s (option_list panic') → held panic' s' E → sp_lo (here s) ≤ sp_lo (here s') → held panic s E.
      Proof.
        intros H1 H2 Hle e He. destruct (H1 e He) as (e1 & He1 & H3 & H4). destruct panic' as [e2|]; [|by apply elem_of_nil in He1].
        apply elem_of_list_singleton in He1 as ->. destruct (H2 e2 eq_refl) as (e3 & H5 & H6 & H7). exists e3. split; [done|]. split; [congruence|].
        intros h Hh Hs. apply H7; [by apply H4|lia].
      Qed.
      Lemma recover_loop_run n : ∀ panic errs s q s', state_ok s → near panic s →
        run (recover_loop n p tf panic errs) s = ODone q s' →
        (∀ E, q.2 ⊆ E → option_list q.1.2 ⊆ E → tails extract can item E s q.1.1 s') ∧ errs ⊆ q.2 ∧ held panic s (option_list q.1.2).
      Proof.
        induction n as [|n IH]; intros panic errs s q s' Hok Hb H; [done|]. cbn [recover_loop] in H.
        apply run_bind_inv in H as (tk & s1 & H1 & H). apply (peek_run _ _ _ Hok) in H1 as (-> & T1 & Hok1).
        assert (Ec1 : to_come s = to_come s1) by apply T1.
        assert (Hb1 : near panic s1). { intros Hc e He. rewrite (took_here _ _ T1). apply Hb; [congruence|done]. }
        assert (Hh1 : ∀ E, held panic s1 E → held panic s E). { intros E HE. unfold held. by rewrite <- (took_here _ _ T1). }
        destruct (next_tok s1) as [x|] eqn:E1.
        - assert (Hc1 : to_come s1 ≠ []). { intros E. apply next_none in E. congruence. }
          apply run_bind_inv in H as (step & s2 & H2 & H). assert (Hok2 := run_ok _ _ _ _ _ H2 Hok1).
          assert (Hstep : match step with
            | inl (t, errs') => (∃ e, found extract can item s t e s2 ∧ errs' = errs ++ e)
            | inr panic' => (∀ s3, took s2 [] s3 → missing extract can item s s3) ∧
                held panic s1 (option_list panic') ∧ near panic' s2
            end).
          { destruct (ts_contains tf (Some x) || ts_contains_e tf) eqn:Ec.
            - apply run_bind_inv in H2 as (r & s3 & Hr & H2). destruct (unres r) as [[t|] e] eqn:Eu.
              + injection H2 as <- <-. exists e. split; [|done].
                assert (e = errors_of r) as -> by (unfold errors_of; by rewrite Eu).
                eapply found_item; [exact T1|by rewrite E1|exact Hr|unfold value; by rewrite Eu].
              + injection H2 as <- <-.
                assert (Hv : value r = None) by (unfold value; by rewrite Eu).
                assert (He : e = errors_of r) by (unfold errors_of; by rewrite Eu). rewrite He. split_and!.
                * intros s4 T4. eapply missing_fail; [exact T1|by rewrite E1|exact Hr|done|done].
                * by eapply held_merge.
                * by apply (near_merge _ s1).
            - injection H2 as <- <-. split_and!; [|by apply held_in|done].
              intros s3 T3. apply missing_start; [exact (took_trans extract s [] s1 [] s3 T1 T3)|]. rewrite (took_next _ _ T3), E1. rewrite Ec. done. }
          assert (Hle2 : sp_lo (here s1) ≤ sp_lo (here s2)). { destruct (run_took _ _ _ _ _ H2) as [l Hl]. by eapply here_step. }
          destruct step as [[t errs']|panic'].
          + destruct Hstep as (e & Hf & ->). injection H as <- <-. cbn [fst snd]. split_and!; [|set_solver|by apply held_in].
            intros E HE _. eapply tails_found; [exact Hf|set_solver].
          + destruct Hstep as (Hm & Hk & Hn).
            apply run_bind_inv in H as (e & s3 & H3 & H).
            assert (He : took s2 [] s3 ∧ state_ok s3 ∧ sp_hi (e_span e) = sp_hi (here s3) ∧
              (to_come s3 ≠ [] → sp_lo (e_span e) ≤ sp_lo (here s3)) ∧ ∀ e0, panic' = Some e0 → sp_lo (e_span e0) = sp_lo (e_span e)).
            { destruct panic' as [e0|].
              - apply run_bind_inv in H3 as (sp & s4 & H4 & H3). injection H3 as <- <-. apply (span_run _ _ _ Hok2) in H4 as (-> & T4 & Hok4).
                split_and!; [done..| |by intros ? [= <-]]. intros Hc. cbn. rewrite (took_here _ _ T4). apply Hn; [|done].
                destruct T4 as (_ & _ & ->). done.
              - apply (expecting_run _ _ _ _ Hok2) in H3 as (-> & T3 & Hok3). by split_and!. }
            destruct He as (T3 & Hok3 & He1 & He2 & He3).
            apply run_bind_inv in H as (c & s4 & H4 & H). assert (Hok4 := run_ok _ _ _ _ _ H4 Hok3).
            destruct (run_took _ _ _ _ _ H4) as [l4 Hl4]. assert (Hle4 := here_step _ _ _ Hok3 Hl4).
            apply IH in H as (H5 & H6 & H7); [|done|].
            2:{ intros Hc e0 [= <-]. etransitivity; [apply He2|done]. destruct Hl4 as (_ & _ & ->). destruct l4; [|done]. done. }
            assert (Hh3 := here_le _ Hok3). assert (E3 := took_here _ _ T3).
            destruct (H7 e eq_refl) as (e' & H8 & H9 & H10).
            split_and!; [|done|].
            * intros E HE1 HE2. specialize (H5 E HE1 HE2). specialize (Hm _ T3).
              destruct (next_tok s3) as [y|] eqn:Ey.
              -- destruct (consume_took _ _ _ _ Ey H4) as [tk T4]. eapply tails_skip; [exact Hm|exact T4| |exact H5].
                 destruct (here_tok _ _ _ Hok3 T4) as [Et Hlt].
                 exists e'. split; [by apply HE2|]. assert (Hc3 : to_come s3 ≠ []). { intros E0. apply next_none in E0. congruence. }
                 specialize (He2 Hc3). split; [rewrite Et; lia|]. apply H10; rewrite Et; lia.
              -- apply next_none in Ey. eapply tails_again; [exact Hm|exact Ey| |exact H5].
                 destruct l4 as [|t4 l4]; [done|]. destruct Hl4 as (_ & _ & E4). rewrite Ey in E4. done.
            * apply Hh1. eapply (held_trans _ _ _ s2); [exact Hk| |exact Hle2].
              intros e0 He0. exists e'. split; [done|]. split; [rewrite (He3 e0 He0); done|].
              intros h Hh1' Hh2'. rewrite <- E3 in Hh2'. apply H10; [rewrite He1|]; lia.
        - assert (Hc1 : to_come s1 = []) by (by apply next_none).
          destruct (ts_contains_e tf) eqn:Ee.
          + apply run_bind_inv in H as (r & s2 & Hr & H). destruct (unres r) as [[t|] e] eqn:Eu; injection H as <- <-; cbn [fst snd].
            * assert (e = errors_of r) as -> by (unfold errors_of; by rewrite Eu).
              split_and!; [|set_solver|by apply held_in]. intros E HE _. eapply (tails_found extract _ _ _ s t (errors_of r)); [|set_solver].
              eapply found_item; [exact T1|by rewrite orb_true_r|exact Hr|unfold value; by rewrite Eu].
            * assert (Hv : value r = None) by (unfold value; by rewrite Eu).
              assert (He : e = errors_of r) by (unfold errors_of; by rewrite Eu).
              split_and!; [|done|apply Hh1; rewrite He; by eapply held_merge].
              intros E _ _. apply tails_none.
              -- eapply missing_fail; [exact T1|by rewrite orb_true_r|exact Hr|done|by apply same_took].
              -- destruct (run_took _ _ _ _ _ Hr) as (l & _ & _ & El). rewrite Hc1 in El. symmetry in El. by apply app_nil in El as [_ ?].
          + injection H as <- <-. cbn [fst snd]. split_and!; [|done|by apply held_in]. intros E _ _. apply tails_none; [|done].
            apply missing_start; [done|]. rewrite E1. change (ts_contains tf None) with (ts_contains_e tf). by rewrite Ee.
      Qed.
    End recover.
  End item.

  Section outer.
    Context (N : Prop) (pT pP : M (res tree)) (ef pf fol : tset).
    Notation item := (λ s r s', run pT s = ODone r s').
    Notation sepr := (λ s r s', run pP s = ODone r s').
    Hypothesis Hlast : ∀ s r s', state_ok s → run pT s = ODone r s' → value r = None →
      (to_come s' = [] ∧ ¬ N) ∨ ∃ e, last (errors_of r) = Some e ∧ e_span e = here s'.
    Hypothesis Hlo : ∀ s r s' e, state_ok s → run pT s = ODone r s' → e ∈ errors_of r →
      sp_lo (here s) ≤ sp_lo (e_span e) ∧ sp_lo (e_span e) ≤ sp_hi (e_span e).
    Notation sep := (λ o, ts_contains pf o = true).
    Notation follows := (λ o, ts_contains fol o = true).
    Notation split_list := (lists extract (λ o, ts_contains ef o || ts_contains_e ef = true) sep follows item sepr false (λ _, False) N).
    Lemma split_outer_run n : ∀ xs ps errs s q s', state_ok s → run (split_outer n pT pP ef pf fol xs ps errs) s = ODone q s' →
      ∃ xs' ps', split_list q.2 s xs' ps' s' ∧ q.1.1 = xs ++ xs' ∧ q.1.2 = ps ++ ps' ∧ errs ⊆ q.2.
    Proof.
      induction n as [|n IH]; intros xs ps errs s q s' Hok H; [done|]. cbn [split_outer] in H.
      apply run_bind_inv in H as (tk & s1 & H1 & H). apply (peek_run _ _ _ Hok) in H1 as (-> & T1 & Hok1).
      assert (Hend : (next_tok s1 = None ∨ ¬ sep (next_tok s1)) → run (mret (xs, ps, errs)) s1 = ODone q s' →
        ∃ xs' ps', split_list q.2 s xs' ps' s' ∧ q.1.1 = xs ++ xs' ∧ q.1.2 = ps ++ ps' ∧ errs ⊆ q.2).
      { intros Hn [= <- <-]. exists [], []. cbn [fst snd]. rewrite !app_nil_r. split_and!; [|done..]. by apply lists_end. }
      destruct (next_tok s1) as [x|] eqn:E1; [|apply Hend; auto].
      destruct (ts_contains pf (Some x)) eqn:Ep; [|apply Hend; [right; congruence|done]]. clear Hend.
      apply run_bind_inv in H as (r & s2 & Hr & H). assert (Hok2 := run_ok _ _ _ _ _ Hr Hok1).
      destruct (unres r) as [[p|] e] eqn:Eu.
      2:{ injection H as <- <-. exists [], []. cbn [fst snd]. rewrite !app_nil_r. split_and!; [|done|done|set_solver].
          eapply lists_fail; [exact T1|by rewrite E1|exact Hr|unfold value; by rewrite Eu|unfold errors_of; rewrite Eu; set_solver]. }
      assert (Hf : found extract sep sepr s p e s2).
      { assert (e = errors_of r) as -> by (unfold errors_of; by rewrite Eu).
        eapply found_item; [exact T1|by rewrite E1|exact Hr|unfold value; by rewrite Eu]. }
      apply run_bind_inv in H as ([[o errs'] cont] & s3 & H3 & H). assert (Hok3 := run_ok _ _ _ _ _ H3 Hok2).
      apply (split_inner_run N pT Hlast Hlo) in H3 as (H4 & H5 & _ & H6); [|done|apply behind_none]. cbn [fst snd] in H4, H5, H6.
      assert (Hep : e ⊆ errs') by set_solver.
      destruct cont.
      - apply IH in H as (xs' & ps' & H7 & -> & -> & H8); [|done]. destruct o as [y|].
        + exists (y :: xs'), (p :: ps'). split_and!; [|by rewrite <- (assoc_L (++))|by rewrite <- (assoc_L (++))|set_solver].
          eapply lists_item; [exact Hf|set_solver|by eapply tries_sub|done].
        + exists xs', ps'. cbn [option_list]. change (option_list None) with (@nil tree). rewrite app_nil_r. split_and!; [|done|done|set_solver].
          eapply (lists_miss _ _ _ _ _ _ false); [exact Hf|set_solver|by eapply tries_sub|exact H6|done].
      - injection H as <- <-. cbn [fst snd]. destruct o as [y|]; [done|].
        exists [], []. change (option_list None) with (@nil tree). rewrite !app_nil_r. split_and!; [|done|done|set_solver].
        eapply (lists_last _ _ _ _ _ _ false); [exact Hf|set_solver|exact H4|exact H6].
    Qed.
    Notation punct_list := (lists extract (λ o, match o with Some _ => ts_contains ef o = true | None => False end) sep follows item sepr true
      (λ o, o = None ∨ ts_contains fol o = true) N).
    Lemma punct_outer_run n : ∀ xs ps errs s q s', state_ok s → run (punct_outer n pT pP ef pf fol xs ps errs) s = ODone q s' →
      ∃ xs' ps', punct_list q.2 s xs' ps' s' ∧ q.1.1 = xs ++ xs' ∧ q.1.2 = ps ++ ps' ∧ errs ⊆ q.2.
    Proof.
      induction n as [|n IH]; intros xs ps errs s q s' Hok H; [done|]. cbn [punct_outer] in H.
      apply run_bind_inv in H as (tk & s1 & H1 & H). apply (peek_run _ _ _ Hok) in H1 as (-> & T1 & Hok1).
      assert (Hend : (next_tok s1 = None ∨ ¬ sep (next_tok s1)) → run (mret (xs, ps, errs)) s1 = ODone q s' →
        ∃ xs' ps', punct_list q.2 s xs' ps' s' ∧ q.1.1 = xs ++ xs' ∧ q.1.2 = ps ++ ps' ∧ errs ⊆ q.2).
      { intros Hn [= <- <-]. exists [], []. cbn [fst snd]. rewrite !app_nil_r. split_and!; [|done..]. by apply lists_end. }
      destruct (next_tok s1) as [x|] eqn:E1; [|apply Hend; auto].
      destruct (ts_contains pf (Some x)) eqn:Ep; [|apply Hend; [right; congruence|done]]. clear Hend.
      apply run_bind_inv in H as (r & s2 & Hr & H). assert (Hok2 := run_ok _ _ _ _ _ Hr Hok1).
      destruct (unres r) as [[p|] e] eqn:Eu.
      2:{ injection H as <- <-. exists [], []. cbn [fst snd]. rewrite !app_nil_r. split_and!; [|done|done|set_solver].
          eapply lists_fail; [exact T1|by rewrite E1|exact Hr|unfold value; by rewrite Eu|unfold errors_of; rewrite Eu; set_solver]. }
      assert (Hf : found extract sep sepr s p e s2).
      { assert (e = errors_of r) as -> by (unfold errors_of; by rewrite Eu).
        eapply found_item; [exact T1|by rewrite E1|exact Hr|unfold value; by rewrite Eu]. }
      apply run_bind_inv in H as ([[o errs'] cont] & s3 & H3 & H). assert (Hok3 := run_ok _ _ _ _ _ H3 Hok2).
      apply (punct_inner_run N pT Hlast Hlo) in H3 as (H4 & H5 & _ & H6); [|done|apply behind_none]. cbn [fst snd] in H4, H5, H6.
      assert (Hep : e ⊆ errs') by set_solver.
      destruct cont.
      - apply IH in H as (xs' & ps' & H7 & -> & -> & H8); [|done]. destruct o as [y|].
        + exists (y :: xs'), (p :: ps'). split_and!; [|by rewrite <- (assoc_L (++))|by rewrite <- (assoc_L (++))|set_solver].
          eapply lists_item; [exact Hf|set_solver|by eapply tries_sub|done].
        + exists xs', (p :: ps'). change (option_list None) with (@nil tree). rewrite app_nil_r. split_and!; [|done|by rewrite <- (assoc_L (++))|set_solver].
          eapply (lists_miss _ _ _ _ _ _ true); [exact Hf|set_solver|by eapply tries_sub|exact H6|done].
      - injection H as <- <-. cbn [fst snd]. destruct o as [y|]; [done|].
        exists [], [p]. change (option_list None) with (@nil tree). rewrite !app_nil_r. split_and!; [|done|done|set_solver].
        eapply (lists_last _ _ _ _ _ _ true); [exact Hf|set_solver|exact H4|exact H6].
    Qed.
  End outer.
End trace.

(** * Repetition and options *)
Section rep.
  Context (extract : nat → bool).
  Notation run := (run extract).
  Notation can set := (λ o, is_Some o ∧ ts_contains set o = true).
  Notation makes p := (λ s r s', run p s = ODone r s').
  Lemma iter_run p set n : ∀ acc errs hi s q s', state_ok s → run (iter_loop n p set acc errs hi) s = ODone q s' →
    ∃ xs, iters extract (can set) (makes p) q.1.2 s xs s' ∧ q.1.1 = acc ++ xs ∧ errs ⊆ q.1.2.
  Proof.
    induction n as [|n IH]; intros acc errs hi s q s' Hok H; [done|]. cbn [iter_loop] in H.
    apply run_bind_inv in H as (tk & s1 & H1 & H). apply (peek_run _ _ _ _ Hok) in H1 as (-> & T1 & Hok1).
    assert (Hend : ¬ can set (next_tok extract s1) → run (mret (acc, errs, hi)) s1 = ODone q s' →
      ∃ xs, iters extract (can set) (makes p) q.1.2 s xs s' ∧ q.1.1 = acc ++ xs ∧ errs ⊆ q.1.2).
    { intros Hn [= <- <-]. exists []. rewrite app_nil_r. split_and!; [|done..]. by apply iters_end. }
    destruct (next_tok extract s1) as [x|] eqn:E1; [|apply Hend; [by intros [[? ?] _]|done]].
    destruct (ts_contains set (Some x)) eqn:Es; [|apply Hend; [intros [_ ?]; congruence|done]]. clear Hend.
    assert (Hc : can set (next_tok extract s1)) by (by rewrite E1).
    apply run_bind_inv in H as (r & s2 & Hr & H). assert (Hok2 := run_ok _ _ _ _ _ Hr Hok1).
    destruct (unres r) as [[y|] e] eqn:Eu.
    - apply IH in H as (xs & H3 & -> & H5); [|done]. exists (y :: xs). split_and!; [|by rewrite <- (assoc_L (++))|set_solver].
      assert (e = errors_of r) as -> by (unfold errors_of; by rewrite Eu).
      eapply iters_item; [|instantiate (1 := errors_of r); set_solver|exact H3].
      eapply found_item; [exact T1|exact Hc|exact Hr|unfold value; by rewrite Eu].
    - injection H as <- <-. exists []. rewrite app_nil_r. split_and!; [|done|set_solver].
      eapply iters_fail; [exact T1|exact Hc|exact Hr|unfold value; by rewrite Eu|unfold errors_of; rewrite Eu; set_solver].
  Qed.
  Lemma plus_run p set n s r s' x : state_ok s → run (produce_plus n p set) s = ODone r s' → value r = Some x →
    ∃ y es s1 xs, x.2 = y :: xs ∧ found extract (λ _, True) (makes p) s y es s1 ∧ es ⊆ errors_of r ∧
      iters extract (can set) (makes p) (errors_of r) s1 xs s'.
  Proof.
    intros Hok H Hx. unfold produce_plus in H. apply run_bind_inv in H as (r0 & s1 & H0 & H).
    assert (Hok1 := run_ok _ _ _ _ _ H0 Hok). destruct (unres r0) as [[y|] e] eqn:Eu; [|injection H as <- <-; discriminate Hx].
    apply run_bind_inv in H as ([[l errs] hi] & s2 & H2 & H). injection H as <- <-. unfold value, errors_of in *. rewrite unres_into in *. cbn in Hx |- *.
    injection Hx as <-. apply iter_run in H2 as (xs & H3 & H4 & H5); [|done]. cbn in H3, H4, H5. exists y, e, s1, xs. split_and!; [done| |done|done].
    assert (e = errors_of r0) as -> by (unfold errors_of; by rewrite Eu). eapply found_item; [by apply same_took|done|exact H0|unfold value; by rewrite Eu].
  Qed.
  Lemma option_run {X} (p : M (res X)) sp set s r s' : state_ok s → run (produce_option p sp set) s = ODone r s' →
    (took extract s [] s' ∧ ¬ can set (next_tok extract s') ∧ errors_of r = [] ∧ snd <$> value r = Some None) ∨
    ∃ s1 r1 s2, took extract s [] s1 ∧ can set (next_tok extract s1) ∧ run p s1 = ODone r1 s2 ∧ took extract s2 [] s' ∧
      errors_of r = errors_of r1 ∧ snd <$> value r = Some (value r1).
  Proof.
    intros Hok H. unfold produce_option in H. apply run_bind_inv in H as (tk & s1 & H1 & H). apply (peek_run _ _ _ _ Hok) in H1 as (-> & T1 & Hok1).
    assert (Hend : ¬ can set (next_tok extract s1) → run (e ← empty_span; mret (RSucc (e, None))) s1 = ODone r s' →
      took extract s [] s' ∧ ¬ can set (next_tok extract s') ∧ errors_of r = [] ∧ snd <$> value r = Some None).
    { intros Hn H'. apply run_bind_inv in H' as (e & s2 & H2 & H'). apply empty_span_run in H2 as ->. injection H' as <- <-. by split_and!. }
    destruct (next_tok extract s1) as [x|] eqn:E1; [|left; apply Hend; [by intros [[? ?] _]|done]].
    destruct (ts_contains set (Some x)) eqn:Es; [|left; apply Hend; [intros [_ ?]; congruence|done]]. clear Hend. right.
    apply run_bind_inv in H as (r1 & s2 & Hr & H). exists s1, r1, s2.
    destruct r1 as [y|y es|es].
    1,2: injection H as <- <-; refine (conj T1 (conj _ (conj Hr (conj (same_took _ _ _ eq_refl) (conj eq_refl eq_refl))))); by rewrite E1.
    apply run_bind_inv in H as (e & s3 & H3 & H). apply empty_span_run in H3 as ->. injection H as <- <-. refine (conj T1 (conj _ (conj Hr (conj (same_took _ _ _ eq_refl) (conj eq_refl eq_refl))))); by rewrite E1.
  Qed.
End rep.

(** * The types *)
Section types.
  Context (extract : nat → bool) (env : denv) (first follow : prod → tset) (jump : prod → option tok → option nat).
  Notation makes f t := (λ s r s', run extract (produce env first follow jump f t) s = ODone r s').
  Notation has g o := (ts_contains g o = true).

  Lemma item_last f t s r s' : state_ok s → makes f t s r s' → value r = None →
    (to_come extract s' = [] ∧ ¬ no_recover env t) ∨ ∃ e, last (errors_of r) = Some e ∧ e_span e = here extract s'.
  Proof. intros Hok Hr Hv. destruct r as [x|x es|es]; [done..|]. by apply (last_run _ _ _ _ _ _ _ _ _ _ Hok Hr). Qed.
  Lemma item_lo f t s r s' e : filled env t → state_ok s → makes f t s r s' → e ∈ errors_of r →
    sp_lo (here extract s) ≤ sp_lo (e_span e) ∧ sp_lo (e_span e) ≤ sp_hi (e_span e).
  Proof.
    intros Hf Hok Hr He. destruct (produce_run_inv _ _ _ _ _ _ _ _ _ _ Hok Hf Hr) as [H _].
    unfold errs_in in H. rewrite Forall_forall in H. destruct (H e He) as [(H1 & _) [H2 _]]. done.
  Qed.

  Lemma split_run f t p s r s' x : state_ok s → filled env t → makes (S f) (TSplit t p) s r s' → value r = Some x →
    ∃ sp y es s1 xs ps, x = TrSplit sp (y :: xs) ps ∧ found extract (λ _, True) (makes f t) s y es s1 ∧ es ⊆ errors_of r ∧
      lists extract (λ o, has (first (key t)) o ∨ ts_contains_e (first (key t)) = true) (λ o, has (first (key p)) o) (λ o, has (follow (key (TSplit t p))) o)
        (makes f t) (makes f p) false (λ _, False) (no_recover env t) (errors_of r) s1 xs ps s'.
  Proof.
    intros Hok Hf H Hx. cbn [produce] in H. unfold produce_split in H. apply run_bind_inv in H as (r0 & s1 & H0 & H).
    assert (Hok1 := run_ok _ _ _ _ _ H0 Hok). destruct (unres r0) as [[y|] e] eqn:Eu; [|injection H as <- <-; unfold value in Hx; cbn in Hx; discriminate Hx].
    apply run_bind_inv in H as ([[a b] errs] & s2 & H2 & H). injection H as <- <-. unfold value, errors_of in *. rewrite unres_into in *. cbn in Hx |- *.
    injection Hx as <-. apply (split_outer_run extract (no_recover env t)) in H2 as (xs & ps & Hl & E1 & E2 & He); [|by intros *; apply item_last|by intros *; apply item_lo|done].
    cbn [fst snd app] in *. subst a b. eexists _, y, e, s1, xs, ps. split_and!; [done| |done|].
    - assert (e = errors_of r0) as -> by (unfold errors_of; by rewrite Eu). eapply found_item; [by apply same_took|done|exact H0|unfold value; by rewrite Eu].
    - eapply lists_ext; [|done..|exact Hl]. intros o. cbn. by rewrite orb_true_iff.
  Qed.
  Lemma punct_run f t p s r s' x : state_ok s → filled env t → makes (S f) (TPunct t p) s r s' → value r = Some x →
    ∃ sp y es s1 xs ps, x = TrPunct sp (y :: xs) ps ∧ found extract (λ _, True) (makes f t) s y es s1 ∧ es ⊆ errors_of r ∧
      lists extract (λ o, is_Some o ∧ has (first (key t)) o) (λ o, has (first (key p)) o) (λ o, has (follow (key (TPunct t p))) o)
        (makes f t) (makes f p) true (λ o, o = None ∨ has (follow (key (TPunct t p))) o) (no_recover env t) (errors_of r) s1 xs ps s'.
  Proof.
    intros Hok Hf H Hx. cbn [produce] in H. unfold produce_punct in H. apply run_bind_inv in H as (r0 & s1 & H0 & H).
    assert (Hok1 := run_ok _ _ _ _ _ H0 Hok). destruct (unres r0) as [[y|] e] eqn:Eu; [|injection H as <- <-; unfold value in Hx; cbn in Hx; discriminate Hx].
    apply run_bind_inv in H as ([[a b] errs] & s2 & H2 & H). injection H as <- <-. unfold value, errors_of in *. rewrite unres_into in *. cbn in Hx |- *.
    injection Hx as <-. apply (punct_outer_run extract (no_recover env t)) in H2 as (xs & ps & Hl & E1 & E2 & He); [|by intros *; apply item_last|by intros *; apply item_lo|done].
    cbn [fst snd app] in *. subst a b. eexists _, y, e, s1, xs, ps. split_and!; [done| |done|].
    - assert (e = errors_of r0) as -> by (unfold errors_of; by rewrite Eu). eapply found_item; [by apply same_took|done|exact H0|unfold value; by rewrite Eu].
    - eapply lists_ext; [|done..|exact Hl]. intros [o|]; cbn; [split; [done|intros [_ ?]; done]|]. split; [done|]. by intros [[? ?] _].
  Qed.
  Lemma recover_run f t u s r s' : state_ok s → filled env u → makes (S f) (TRecover t u) s r s' →
    ∃ hd o s1, (match hd with
      | Some y => ∃ es, found extract (λ o, has (first (key t)) o ∨ ts_contains_e (first (key t)) = true) (makes f t) s y es s1 ∧ es ⊆ errors_of r
      | None => missing extract (λ o, has (first (key t)) o ∨ ts_contains_e (first (key t)) = true) (makes f t) s s1 ∧
          (no_recover env t ∨ to_come extract s1 ≠ [] → ∃ e, e ∈ errors_of r ∧ sp_lo (e_span e) = sp_lo (here extract s1))
      end) ∧
      tails extract (λ o, has (first (key u)) o ∨ ts_contains_e (first (key u)) = true) (makes f u) (errors_of r) s1 o s' ∧
      match o with Some x => ∃ sp, value r = Some (TrRecover sp hd x) | None => value r = None end.
  Proof.
    intros Hok Hf H. cbn [produce] in H. unfold produce_recover in H. apply run_bind_inv in H as (tk & s1 & H1 & H).
    apply (peek_run _ _ _ _ Hok) in H1 as (-> & T1 & Hok1).
    apply run_bind_inv in H as ([[[panic hsp] hd] errs] & s2 & H2 & H). assert (Hok2 := run_ok _ _ _ _ _ H2 Hok1).
    apply run_bind_inv in H as ([[o panic'] errs'] & s3 & H3 & H).
    assert (Hhd : near extract panic s2 ∧ match hd with
      | Some y => panic = None ∧ found extract (λ o, has (first (key t)) o ∨ ts_contains_e (first (key t)) = true) (makes f t) s y errs s2
      | None => missing extract (λ o, has (first (key t)) o ∨ ts_contains_e (first (key t)) = true) (makes f t) s s2 ∧
         (no_recover env t ∨ to_come extract s2 ≠ [] → ∃ e, panic = Some e ∧ sp_lo (e_span e) = sp_lo (here extract s2))
      end).
    { destruct (ts_contains (first (key t)) (next_tok extract s1) || ts_contains_e (first (key t))) eqn:Ec.
      - apply orb_true_iff in Ec. apply run_bind_inv in H2 as (r0 & s4 & H0 & H2). destruct (unres r0) as [[y|] e] eqn:Eu.
        + injection H2 as <- <- <- <- <-. split; [by intros ? ?|]. split; [done|].
          assert (e = errors_of r0) as -> by (unfold errors_of; by rewrite Eu).
          eapply found_item; [exact T1|done|exact H0|unfold value; by rewrite Eu].
        + apply run_bind_inv in H2 as (sp & s5 & H5 & H2). injection H2 as <- <- <- <- <-. apply empty_span_run in H5 as ->.
          assert (Hv : value r0 = None) by (unfold value; by rewrite Eu).
          assert (e = errors_of r0) as -> by (unfold errors_of; by rewrite Eu).
          destruct (item_last _ _ _ _ _ Hok1 H0 Hv) as [[Hc Hn]|(e & He & Hs)].
          * split; [by intros ?|]. split; [|by intros [?|?]]. eapply missing_fail; [exact T1|done|exact H0|done|by apply same_took].
          * split; [intros _ e' He'; rewrite He in He'; injection He' as <-; by rewrite Hs|].
            split; [eapply missing_fail; [exact T1|done|exact H0|done|by apply same_took]|]. intros _. exists e. by rewrite Hs.
      - apply run_bind_inv in H2 as (e & s4 & H4 & H2). apply run_bind_inv in H2 as (sp & s5 & H5 & H2). injection H2 as <- <- <- <- <-.
        apply empty_span_run in H5 as ->. apply (expecting_run _ _ _ _ _ Hok1) in H4 as (-> & T4 & Hok4).
        split; [by intros _ e [= <-]|]. split; [|by eexists]. apply missing_start; [exact (took_trans extract s [] s1 [] s4 T1 T4)|].
        rewrite (took_next _ _ _ T4), <- orb_true_iff, Ec. done. }
    destruct Hhd as [Hn Hhd].
    apply (recover_loop_run extract (no_recover env u)) in H3 as (H5 & H6 & H7); [|by intros *; apply item_last|by intros *; apply item_lo|done|done].
    cbn [fst snd] in *.
    assert (Hr : errors_of r = errs' ++ option_list panic' ∧ s' = s3 ∧ match o with Some x => ∃ sp, value r = Some (TrRecover sp hd x) | None => value r = None end).
    { destruct o as [x|]; injection H as <- <-; unfold errors_of, value; [rewrite unres_into|]; eauto. }
    destruct Hr as (Er & -> & Hv). rewrite Er. exists hd, o, s2. split_and!; [| |done].
    - destruct hd as [y|].
      + destruct Hhd as [_ Hhd]. exists errs. split; [done|set_solver].
      + destruct Hhd as [Hm Hp]. split; [done|]. intros Hc. destruct (Hp Hc) as (e & He & Hlo).
        destruct (H7 e He) as (e' & He' & Hlo' & _). exists e'. split; [set_solver|congruence].
    - eapply tails_ext; [|apply H5; set_solver]. intros q. by rewrite orb_true_iff.
  Qed.
  Notation can c := (λ o, is_Some o ∧ has (first (key c)) o).
  Lemma plus_type_run f t s r s' x : state_ok s → makes (S f) (TPlus t) s r s' → value r = Some x →
    ∃ sp y es s1 xs, x = TrList sp (y :: xs) ∧ found extract (λ _, True) (makes f t) s y es s1 ∧ es ⊆ errors_of r ∧
      iters extract (can (TPlus t)) (makes f t) (errors_of r) s1 xs s'.
  Proof.
    intros Hok H Hx. cbn [produce] in H. apply run_bind_inv in H as (r0 & s1 & H0 & H). injection H as <- <-.
    unfold value in Hx. rewrite unres_map in Hx. destruct (unres r0) as [[[sp l]|] e] eqn:Eu; [|done]. cbn in Hx. injection Hx as <-.
    assert (Hv : value r0 = Some (sp, l)) by (unfold value; by rewrite Eu).
    apply (plus_run _ _ _ _ _ _ _ _ Hok H0) in Hv as (y & es & s2 & xs & E & H1 & H2 & H3). cbn in E. subst l.
    assert (He : errors_of (res_map (λ '(sp, l), TrList sp l) r0) = errors_of r0) by (unfold errors_of; by rewrite unres_map).
    rewrite He. exists sp, y, es, s2, xs. done.
  Qed.
  Lemma star_type_run f t s r s' : state_ok s → makes (S f) (TStar t) s r s' →
    ∃ sp xs, value r = Some (TrList sp xs) ∧
      (took extract s [] s' ∧ ¬ can (TPlus t) (next_tok extract s') ∧ errors_of r = [] ∧ xs = [] ∨
       ∃ s1 r1 s2, took extract s [] s1 ∧ can (TPlus t) (next_tok extract s1) ∧ makes (S f) (TPlus t) s1 r1 s2 ∧ took extract s2 [] s' ∧
         errors_of r = errors_of r1 ∧ match value r1 with Some x => ∃ sp', x = TrList sp' xs | None => xs = [] end).
  Proof.
    intros Hok H. cbn [produce] in H. apply run_bind_inv in H as (r0 & s1 & H0 & H). injection H as <- <-.
    unfold value, errors_of. rewrite !unres_map. cbn [fst snd].
    apply (option_run _ _ _ _ _ _ _ Hok) in H0. unfold value, errors_of in H0.
    destruct (unres r0) as [[[sp o]|] e] eqn:Eu; cbn in H0 |- *.
    2:{ exfalso. destruct H0 as [(_ & _ & _ & ?)|(? & ? & ? & _ & _ & _ & _ & _ & ?)]; done. }
    destruct H0 as [(T & Hn & -> & [= ->])|(s2 & r1 & s3 & T & Hc & Hr & T' & -> & [= ->])].
    - exists sp, []. split; [done|]. left. by split_and!.
    - set (r2 := res_map (λ '(sp, l), TrList sp l) r1).
      assert (Hr2 : makes (S f) (TPlus t) s2 r2 s3) by (change (run extract (produce_plus f (produce env first follow jump f t) (first (POneMore (prod_of t))) ≫= λ r, mret (res_map (λ '(sp, l), TrList sp l) r)) s2 = ODone r2 s3); by rewrite run_bind, Hr).
      assert (Hu : unres r2 = ((λ '(sp, l), TrList sp l) <$> (unres r1).1, (unres r1).2)) by (by unfold r2; rewrite unres_map).
      destruct (unres r1) as [[[sp' l]|] es] eqn:Eu1; cbn in Hu |- *.
      + exists sp', l. split; [done|]. right. exists s2, r2, s3. rewrite Hu.
        refine (conj T (conj Hc (conj Hr2 (conj T' (conj eq_refl _))))). by exists sp'.
      + exists sp, []. split; [done|]. right. exists s2, r2, s3. rewrite Hu.
        refine (conj T (conj Hc (conj Hr2 (conj T' (conj eq_refl _))))). done.
  Qed.
  Lemma opt_type_run f t s r s' : state_ok s → makes (S f) (TOpt t) s r s' →
    ∃ sp o, value r = Some (TrOpt sp o) ∧ maybe extract (can t) (makes f t) s o (errors_of r) s'.
  Proof.
    intros Hok H. cbn [produce] in H. apply run_bind_inv in H as (r0 & s1 & H0 & H). injection H as <- <-.
    apply (option_run _ _ _ _ _ _ _ Hok) in H0.
    assert (He : errors_of (res_map (λ '(sp, o), TrOpt sp o) r0) = errors_of r0) by (unfold errors_of; by rewrite unres_map). rewrite He. clear He.
    unfold value. rewrite unres_map. unfold value in H0. destruct (unres r0) as [[[sp o]|] e] eqn:Eu; cbn in H0 |- *.
    2:{ exfalso. destruct H0 as [(_ & _ & _ & ?)|(? & ? & ? & _ & _ & _ & _ & _ & ?)]; done. }
    exists sp, o. split; [done|]. destruct H0 as [(T & Hn & -> & [= ->])|(s2 & r1 & s3 & T & Hc & Hr & T' & -> & [= ->])].
    - by apply maybe_not.
    - by eapply maybe_item.
  Qed.
  Lemma exists_type_run f t s r s' : state_ok s → makes (S f) (TExists t) s r s' →
    ∃ sp o, value r = Some (TrExists sp (bool_decide (is_Some o))) ∧ maybe extract (can t) (makes f t) s o (errors_of r) s'.
  Proof.
    intros Hok H. cbn [produce] in H. apply run_bind_inv in H as (r0 & s1 & H0 & H). injection H as <- <-.
    apply (option_run _ _ _ _ _ _ _ Hok) in H0.
    assert (He : errors_of (res_map (λ '(sp, o), TrExists sp (bool_decide (is_Some o))) r0) = errors_of r0) by (unfold errors_of; by rewrite unres_map). rewrite He. clear He.
    unfold value. rewrite unres_map. unfold value in H0. destruct (unres r0) as [[[sp o]|] e] eqn:Eu; cbn in H0 |- *.
    2:{ exfalso. destruct H0 as [(_ & _ & _ & ?)|(? & ? & ? & _ & _ & _ & _ & _ & ?)]; done. }
    exists sp, o. split; [done|]. destruct H0 as [(T & Hn & -> & [= ->])|(s2 & r1 & s3 & T & Hc & Hr & T' & -> & [= ->])].
    - by apply maybe_not.
    - by eapply maybe_item.
  Qed.
  Lemma first_fail f c t s r s' : (∃ p, c = TSplit t p ∨ c = TPunct t p) ∨ c = TPlus t → makes (S f) c s r s' → value r = None →
    ∃ r1, makes f t s r1 s' ∧ value r1 = None ∧ errors_of r = errors_of r1.
  Proof.
    intros Hc H Hx. destruct Hc as [(p & [-> | ->])| ->]; cbn [produce] in H.
    1: unfold produce_split in H. 2: unfold produce_punct in H. 3: unfold produce_plus in H; apply run_bind_inv in H as (q & s0 & H & H');
      injection H' as <- <-; unfold value, errors_of in Hx |- *; rewrite unres_map in Hx |- *; cbn [fst snd] in Hx |- *.
    all: apply run_bind_inv in H as (r0 & s1 & H0 & H); exists r0; destruct (unres r0) as [[y|] e] eqn:Eu.
    1,3,5: exfalso; apply run_bind_inv in H as ([[a b] errs] & s2 & H2 & H); injection H as <- <-; unfold value in Hx; rewrite unres_into in Hx; discriminate Hx.
    all: injection H as <- <-; unfold value, errors_of; rewrite ?Eu; cbn; by split_and!.
  Qed.
End types.

Lemma last_parse extract env f root md s o s' : state_ok s → no_recover env root →
  run extract (parse env f root (inr md)) s = ODone o s' → o = inr None →
  ∃ e, last (p_errors s') = Some e ∧ e_span e = here extract s'.
Proof.
  intros Hok Hn H ->. apply parse_run in H as (x' & [= <-] & H). apply parse_with_run in H as (r & s1 & H & Hx & _ & He & Ha).
  destruct r as [x|x es|es]; [done..|]. destruct (last_run _ _ _ _ _ _ _ _ _ _ Hok H) as [[_ ?]|(e & H1 & H2)]; [done|].
  exists e. rewrite He. cbn. split; [|by rewrite H2, !here_abs, Ha].
  destruct es as [|e' es _] using rev_ind; [done|]. rewrite (assoc_L (++)). by rewrite last_snoc in *.
Qed.
