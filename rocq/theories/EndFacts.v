(** Termination and progress of [produce], at the level of runs. *)
From Coq Require Import String NArith.
From stdpp Require Import prelude list strings relations.
From Verif Require Import LexModel LexSpec LexFacts SynSetModel SynSetFacts TableModel StreamModel StreamSpec StreamFacts TypeModel TypeSpec TypeFacts CfgSpec CfgFacts MetaFacts ProduceModel ParseSpec ProgFacts FuelFacts TreeFacts SoundFacts LangFacts RunFacts InvFacts LookFacts MdFacts ParseFacts TermFacts ProgressFacts.
Local Open Scope nat_scope.
#[local] Arguments ts_contains : simpl never.
#[local] Arguments ts_contains_e : simpl never.
#[local] Arguments tb_get : simpl never.

(** * Runs with any fuel *)
Notation wpt := (wp True True).
Lemma term_wpt {A} (m : nat → M A) s Q : (∀ f f', f ≤ f' → le (m f) (m f')) → term m s Q → ∀ f, wpt (m f) s Q.
Proof.
  intros Hle (f0 & o & H & Ho) f. unfold wp.
  destruct (arun (m f) s) as [| |a s'] eqn:E; [done..|].
  assert (E' : arun (m (f `max` f0)) s = arun (m f) s) by (apply le_arun; [apply Hle; lia|by rewrite E]).
  rewrite H, E in E' by lia. by rewrite E' in Ho.
Qed.
Lemma wpt_any {A} (m : M A) s : wpt m s (λ _ s', ∃ l, adv s l s').
Proof. unfold wp. destruct (arun m s) as [| |a s'] eqn:E; [done..|]. by apply arun_adv in E. Qed.
Lemma wpt_kept {A B} (m : M A) (k : A → M B) s s0 : wpt m s (λ _ s', shorter s' s0) → wpt (m ≫= k) s (λ _ s', shorter s' s0).
Proof.
  intros H. apply wp_bind. eapply wp_mono; [exact H|]. intros a s' Hs. eapply wp_mono; [apply wpt_any|].
  intros b s2 [l Hl]. by eapply adv_shorter.
Qed.
Lemma rec_le env md t f f' : f ≤ f' → le (produce_md env md f t) (produce_md env md f' t).
Proof. apply produce_le. Qed.

Set Default Proof Using "All".
Section md.
  Variable env : denv.
  Variable root : ty.
  Variable regs iter : grammar prod.
  Variable md : metadata prod.
  Hypothesis Hreg : register_root env (prod_of root) = Some regs.
  Hypothesis Hperm : iter ≡ₚ regs.
  Hypothesis Hmeta : meta_build regs iter (key root) = Some (inr md).
  Hypothesis Henums : plain_enums env root.

  Notation F := (tb_get (md_first md)).
  Notation L := (tb_get (md_follow md)).
  Notation J := (jump_look_up (md_jump md)).
  Notation V t := (visible env (key root) (key t)).
  Notation W t := (within env root t).
  Notation nul := (MdFacts.nul regs).
  Notation fst_ := (MdFacts.fst_ regs).
  Notation "'MD' l" := (l env root regs iter md Hreg Hperm Hmeta) (at level 9, l at level 0, only parsing).
  Notation "'ME' l" := (l env root regs iter md Hreg Hperm Hmeta Henums) (at level 9, l at level 0, only parsing).
  Notation rec := (produce_md env md).
  Notation sta := (sta env).

  Lemma quiet_wpt t s : lang env t [] → W t → aok s → (∀ x, look s = Some x → ¬ fst_ t x) →
    ∀ f, wpt (rec f t) s (λ r s', (∃ x, r = RSucc x) ∧ adv s [] s').
  Proof.
    intros Hl Hw Hok Hx. apply term_wpt; [intros; by apply rec_le|]. by apply (ME nul_quiet).
  Qed.
  Lemma seq_wpt l1 t l2 acc x s f : Forall (λ t, W t) l1 → Forall (λ t, lang env t []) l1 →
    (∀ a c b, l1 = a ++ c :: b → ¬ fst_ c x) → aok s → look s = Some x →
    (∀ s', aok s' → look s' = Some x → wpt (rec f t) s' (λ _ s2, shorter s2 s')) →
    wpt (produce_seq (rec f) (l1 ++ t :: l2) acc []) s (λ _ s', shorter s' s).
  Proof.
    intros HW. revert acc s. induction HW as [|c l1 Hc HW IH]; intros acc s Hl1 Hno Hok El Ht; cbn [app produce_seq].
    - apply wpt_kept. by apply Ht.
    - apply Forall_cons in Hl1 as [Hlc Hl1]. apply wp_bind. eapply wp_mono.
      + apply quiet_wpt; try done. intros y Hy. assert (y = x) as -> by congruence. by apply (Hno [] c l1).
      + intros r s1 [[y ->] Hl]. cbn [unres]. cbn [app]. assert (Hr := proj1 (adv_nil _ _ Hl)).
        assert (H : wpt (produce_seq (rec f) (l1 ++ t :: l2) (acc ++ [y]) []) s1 (λ _ s', shorter s' s1)).
        { apply IH; try done; [|by eapply adv_aok|by rewrite (adv_look _ _ Hl)].
          intros a c' b ->. by apply (Hno (c :: a) c' b). }
        eapply wp_mono; [exact H|]. intros r s2 Hs2. unfold shorter in *. by rewrite Hr in Hs2.
  Qed.
  Lemma W_two t c d : subs env t = [c; d] → W t → W c ∧ W d.
  Proof. intros E Hw. assert (H := ME W_all t Hw). rewrite E in H. by apply Forall_cons in H as [? [? _]%Forall_cons]. Qed.

  Lemma goes_wpt t x : sta t x → W t → ∀ f s, aok s → look s = Some x → wpt (rec f t) s (λ _ s', shorter s' s).
  Proof.
    induction 1 as [nm y lit x Hc|m fs l1 t l2 x En Efs Hl1 Hs IH|m vs t x En Ht Hs IH|l1 t l2 x Hl1 Hs IH|t x Hs IH|t x Hs IH|t x Hs IH
      |t x Hs IH|t x Hs IH|t x Hs IH|t x Hs IH|t x Hs IH|t d x Hs IH|t d x Hnl Hs IH|t d x Hs IH|t r x Hs IH|t r x Hnl Hs IH]; intros Hw [|f] s Hok El; try done;
      assert (Hv := ME W_V _ Hw); unfold produce_md at 1; cbn [produce]; fold (rec f).
    - apply wpt_kept. assert (Hp := pop_shorter _ _ El). assert (El' := El). apply look_some in El' as (tk & rest & Er & Etk).
      destruct x as [y' l'], Hc as [E1 E2]. cbn in E1, E2, Etk. destruct lit as [l|].
      + apply wp_parse_token_lit; [done|]. rewrite Er. destruct (decide (look s = Some (y, l))) as [E|E]; [done|]. rewrite El in E. naive_solver.
      + apply wp_parse_token. rewrite Er. destruct (decide (t_ty tk = y)) as [E|E]; [done|]. congruence.
    - rewrite En. apply wpt_kept. assert (HW := ME W_struct _ _ Hw En). cbn [decl_fields] in HW. rewrite Efs in HW |- *.
      apply Forall_app in HW as [HW1 [HWt HW2]%Forall_cons]. apply (seq_wpt l1 t l2 [] x); try done; [|intros s' ??; by apply IH].
      intros a c b -> Hf. assert (HV := MD V_fields _ _ Hv En). cbn [decl_fields] in HV. rewrite Efs, <- app_assoc in HV. cbn [app] in HV.
      apply Forall_app in HV as [_ [HVc [HVb [HVt _]%Forall_cons]%Forall_app]%Forall_cons].
      apply Forall_app in Hl1 as [_ [Hc Hb]%Forall_cons].
      assert (Hin := MD ent_struct _ _ Hv En). rewrite Efs, <- app_assoc, map_app in Hin. cbn [app map] in Hin. rewrite map_app in Hin. cbn [map] in Hin.
      apply (MD no_seq_clash _ _ _ _ _ _ x Hin); [by apply (MD nul_lang)|by apply (MD lang_nul_all)|done|by apply (MD sta_fst)].
    - rewrite En. apply elem_of_list_fmap in Ht as ([t' sem] & Et & Ht). cbn in Et. subst t'.
      assert (HWt : W t). { assert (HW := ME W_struct _ _ Hw En). rewrite Forall_forall in HW. apply HW. apply elem_of_list_fmap. by exists (t, sem). }
      apply elem_of_list_lookup in Ht as [i Hi].
      assert (Hx : fst_ t x) by (by apply (MD sta_fst), (ME W_V)).
      assert (EJ : J (PNamed m) (Some x) = Some i) by (apply (MD jump_spec _ _ _ _ Hv En); eauto).
      apply wp_bind, wp_peek_src; [done|]. rewrite El. cbn [key prod_of pid]. rewrite EJ. cbn [mbind option_bind]. unfold field in *. rewrite Hi. cbn [mbind option_bind].
      apply wpt_kept. by apply IH.
    - apply wpt_kept. assert (HW := ME W_all _ Hw). cbn [subs] in HW. assert (HW' := HW).
      apply Forall_app in HW as [HW1 [HWt HW2]%Forall_cons]. apply (seq_wpt l1 t l2 [] x); try done; [|intros s' ??; by apply IH].
      intros a c b -> Hf. assert (HV : Forall (λ t, V t) ((a ++ c :: b) ++ t :: l2)) by (eapply Forall_impl; [exact HW'|]; intros ?; apply (ME W_V)).
      rewrite <- app_assoc in HV. cbn [app] in HV.
      apply Forall_app in HV as [_ [HVc [HVb [HVt _]%Forall_cons]%Forall_app]%Forall_cons].
      apply Forall_app in Hl1 as [_ [Hc Hb]%Forall_cons].
      assert (Hin' : (key (TTuple ((a ++ c :: b) ++ t :: l2)), ESeq (map key a ++ key c :: map key b ++ key t :: map key l2)) ∈ regs).
      { assert (E : map key ((a ++ c :: b) ++ t :: l2) = map key a ++ key c :: map key b ++ key t :: map key l2).
        { rewrite <- app_assoc. cbn [app]. rewrite map_app. cbn [map]. by rewrite map_app. }
        rewrite <- E. by apply (MD ent_tuple). }
      apply (MD no_seq_clash _ _ _ _ _ _ x Hin'); [by apply (MD nul_lang)|by apply (MD lang_nul_all)|done|by apply (MD sta_fst)].
    - apply IH; [apply (ME W_sub _ _ Hw); cbn; set_solver|done..].
    - apply wpt_kept. apply IH; [apply (ME W_sub _ _ Hw); cbn; set_solver|done..].
    - apply wpt_kept. apply IH; [apply (ME W_sub _ _ Hw); cbn; set_solver|done..].
    - assert (Hwt : W t) by (apply (ME W_sub _ _ Hw); cbn; set_solver). apply wpt_kept. unfold produce_option. apply wp_bind, wp_peek_src; [done|]. rewrite El.
      rewrite (proj2 (MD first_spec t x)) by (by apply (MD sta_fst), (ME W_V)). apply wpt_kept. by apply IH.
    - assert (Hwt : W t) by (apply (ME W_sub _ _ Hw); cbn; set_solver). apply wpt_kept. unfold produce_option. apply wp_bind, wp_peek_src; [done|]. rewrite El.
      rewrite (proj2 (MD first_spec t x)) by (by apply (MD sta_fst), (ME W_V)). apply wpt_kept. by apply IH.
    - assert (Hwt : W t) by (apply (ME W_sub _ _ Hw); cbn; set_solver). apply wpt_kept. unfold produce_plus. apply wpt_kept. by apply IH.
    - assert (Hwt : W t) by (apply (ME W_sub _ _ Hw); cbn; set_solver). apply wpt_kept. unfold produce_option. apply wp_bind, wp_peek_src; [done|]. rewrite El.
      rewrite (proj2 (MD first_spec (TPlus t) x)); [|by apply (MD fst_plus); [apply (MD V_star)|apply (MD sta_fst), (ME W_V)]].
      apply wpt_kept. unfold produce_plus. apply wpt_kept. by apply IH.
    - assert (Hwt : W t) by (apply (ME W_sub _ _ Hw); cbn; set_solver). apply wpt_kept. unfold produce_loop. apply wpt_kept.
      destruct f as [|f]; [done|]. cbn [loop_loop]. apply wp_bind, wp_peek_src; [done|]. rewrite El.
      rewrite (proj2 (MD first_spec (TLoop t) x)); [|by apply (MD fst_plus t x Hv), (MD sta_fst), (ME W_V)].
      apply wp_bind, wp_ret, wp_bind, wp_cur_span. apply wpt_kept. by apply IH.
    - destruct (W_two (TSplit t d) t d eq_refl Hw) as [W1 W2]. unfold produce_split. apply wpt_kept. by apply IH.
    - destruct (W_two (TSplit t d) t d eq_refl Hw) as [W1 W2].
      assert (Hx : fst_ d x) by (by apply (MD sta_fst), (ME W_V)). destruct (MD V_split _ _ Hv) as (V1 & V2 & V3 & V4 & V5).
      assert (Hnx : ¬ fst_ t x).
      { intros Hf. apply (MD no_seq_clash _ [] _ [] _ [] x (MD ent_split _ _ Hv)); [by apply (MD nul_lang)|done|done|].
        apply (MD fst_star _ _ V3). apply (MD fst_tuple _ _ V4). by left. }
      unfold produce_split. apply wp_bind. eapply wp_mono.
      + apply quiet_wpt; try done. intros y Hy. by assert (y = x) as -> by congruence.
      + intros r s1 [[y ->] Hl]. cbn [unres]. apply wpt_kept. assert (Hr := proj1 (adv_nil _ _ Hl)).
        destruct f as [|f]; [done|]. cbn [split_outer]. apply wp_bind, wp_peek_src; [by eapply adv_aok|].
        rewrite (adv_look _ _ Hl), El. rewrite (proj2 (MD first_spec d x) Hx). apply wpt_kept.
        eapply wp_mono; [apply IH; [done|by eapply adv_aok|by rewrite (adv_look _ _ Hl)]|].
        intros z s2 Hs2. unfold shorter in *. by rewrite Hr in Hs2.
    - destruct (W_two (TPunct t d) t d eq_refl Hw) as [W1 W2]. unfold produce_punct. apply wpt_kept. by apply IH.
    - destruct (W_two (TRecover t r) t r eq_refl Hw) as [W1 W2]. unfold produce_recover. apply wp_bind, wp_peek_src; [done|]. rewrite El.
      rewrite (proj2 (MD first_spec t x)) by (by apply (MD sta_fst), (ME W_V)). cbn [orb]. apply wpt_kept, wpt_kept. by apply IH.
    - destruct (W_two (TRecover t r) t r eq_refl Hw) as [W1 W2].
      assert (Hx : fst_ r x) by (by apply (MD sta_fst), (ME W_V)).
      assert (Hnx : ¬ fst_ t x).
      { intros Hf. apply (MD no_seq_clash _ [] _ [] _ [] x (MD ent_recover _ _ Hv)); [by apply (MD nul_lang); [apply (ME W_V)|]|done..]. }
      unfold produce_recover. apply wp_bind, wp_peek_src; [done|].
      rewrite (proj2 (MD first_eps t)), orb_true_r by (by apply (MD nul_lang); [apply (ME W_V)|]).
      apply wp_bind, wp_bind. eapply wp_mono.
      + apply quiet_wpt; try done. intros y Hy. by assert (y = x) as -> by congruence.
      + intros z s1 [[y ->] Hl]. cbn [unres]. apply wp_ret. apply wpt_kept. assert (Hr := proj1 (adv_nil _ _ Hl)).
        destruct f as [|f]; [done|]. cbn [recover_loop]. apply wp_bind, wp_peek_src; [by eapply adv_aok|].
        rewrite (adv_look _ _ Hl), El, (proj2 (MD first_spec r x) Hx). cbn [orb]. apply wpt_kept, wpt_kept.
        eapply wp_mono; [apply IH; [done|by eapply adv_aok|by rewrite (adv_look _ _ Hl)]|].
        intros z s2 Hs2. unfold shorter in *. by rewrite Hr in Hs2.
  Qed.
End md.
Unset Default Proof Using.

(** * Statements about runs *)
Section run.
  Variable extract : nat → bool.
  Notation run := (run extract).
  Notation abs := (abs extract).
  Lemma produce_ends env root md t s : accepted env root md → filled env root → plain_enums env root →
    all_within env (grounded env) root → within env root t → state_ok s →
    ∃ f0 r s', ∀ f, f0 ≤ f → run (produce_md env md f t) s = ODone r s'.
  Proof.
    intros (regs & iter & Hreg & Hperm & Hmeta) Hf He Hg Hw Hok.
    assert (Hok' : aok (abs s)) by (by apply state_ok_abs).
    destruct (md_ends_all _ _ _ _ _ Hreg Hperm Hmeta He Hg t (abs s) Hw Hok') as (f0 & o & Ho & Hq).
    assert (Hnf : run (produce_md env md f0 t) s ≠ OFuel).
    { intros E. assert (H := run_abs extract (produce_md env md f0 t) s). rewrite E, (Ho f0) in H by lia. cbn in H. by subst. }
    assert (Hnc : run (produce_md env md f0 t) s ≠ OCrash).
    { apply produce_no_crash; [done|]. intros c Hc. apply Hf. by eapply rtc_transitive. }
    destruct (run (produce_md env md f0 t) s) as [| |r s'] eqn:E; [done..|].
    exists f0, r, s'. intros f Hle. rewrite <- E. apply le_run; [by apply produce_le|by rewrite E].
  Qed.
  Lemma parse_ends env root md s : accepted env root md → filled env root → plain_enums env root →
    all_within env (grounded env) root → state_ok s →
    ∃ f0 o s', ∀ f, f0 ≤ f → run (parse env f root (inr md)) s = ODone (inr o) s'.
  Proof.
    intros Ha Hf He Hg Hok.
    destruct (produce_ends env root md root s Ha Hf He Hg (rtc_refl _ _) Hok) as (f0 & r & s' & H).
    destruct (run (parse env f0 root (inr md)) s) as [| |o s2] eqn:E.
    - exfalso. unfold parse, parse_with in E. rewrite !run_bind in E. specialize (H f0 ltac:(lia)). unfold produce_md in H. rewrite H in E.
      by destruct r.
    - exfalso. unfold parse, parse_with in E. rewrite !run_bind in E. specialize (H f0 ltac:(lia)). unfold produce_md in H. rewrite H in E.
      by destruct r.
    - destruct o as [e|o].
      + exfalso. unfold parse, parse_with in E. rewrite !run_bind in E. specialize (H f0 ltac:(lia)). unfold produce_md in H. rewrite H in E.
        by destruct r.
      + exists f0, o, s2. intros f Hle. rewrite <- E. apply le_run; [by apply parse_le|by rewrite E].
  Qed.
  Lemma produce_ends_productive env root md t s : accepted env root md → filled env root → plain_enums env root →
    productive env root → within env root t → state_ok s →
    ∃ f0 r s', ∀ f, f0 ≤ f → run (produce_md env md f t) s = ODone r s'.
  Proof. intros ??? H%productive_grounded. by apply produce_ends. Qed.
  Lemma parse_ends_productive env root md s : accepted env root md → filled env root → plain_enums env root →
    productive env root → state_ok s →
    ∃ f0 o s', ∀ f, f0 ≤ f → run (parse env f root (inr md)) s = ODone (inr o) s'.
  Proof. intros ??? H%productive_grounded. by apply parse_ends. Qed.

  Lemma produce_progress env root md regs f t x s r s' : accepted env root md → register_root env (prod_of root) = Some regs →
    plain_enums env root → within env root t → state_ok s → next_tok extract s = Some x → starts regs (key t) x →
    run (produce_md env md f t) s = ODone r s' → ∃ l, took extract s l s' ∧ l ≠ [].
  Proof.
    intros (regs' & iter & Hreg & Hperm & Hmeta) Hr He Hw Hok El Hx Hrun. assert (regs' = regs) as -> by congruence.
    rewrite next_look in El. assert (Hok' : aok (abs s)) by (by apply state_ok_abs).
    assert (H := goes_wpt _ _ _ _ _ Hreg Hperm Hmeta He t x).
    specialize (H (fst_sta _ _ _ _ _ Hreg Hperm Hmeta t x (V_within _ _ _ _ _ Hreg Hperm Hmeta _ Hw) Hx) Hw f (abs s) Hok' El).
    unfold wp in H. rewrite (run_done _ _ _ _ _ Hrun) in H. destruct (run_took _ _ _ _ _ Hrun) as [l Hl]. exists l. split; [done|].
    intros ->. apply took_adv in Hl. unfold shorter in H. rewrite (proj1 (adv_nil _ _ Hl)) in H. lia.
  Qed.
  Lemma produce_quiet env root md regs f t s r s' : accepted env root md → register_root env (prod_of root) = Some regs →
    plain_enums env root → within env root t → state_ok s → lang env t [] →
    match next_tok extract s with Some x => ¬ starts regs (key t) x | None => True end →
    run (produce_md env md f t) s = ODone r s' → (∃ x, r = RSucc x) ∧ took extract s [] s'.
  Proof.
    intros (regs' & iter & Hreg & Hperm & Hmeta) Hr He Hw Hok Hl Hx Hrun. assert (regs' = regs) as -> by congruence.
    rewrite next_look in Hx. assert (Hok' : aok (abs s)) by (by apply state_ok_abs).
    assert (H := quiet_wpt _ _ _ _ _ Hreg Hperm Hmeta He t (abs s) Hl Hw Hok').
    assert (H' : wpt (produce_md env md f t) (abs s) (λ r s', (∃ x, r = RSucc x) ∧ adv (abs s) [] s')).
    { apply H. intros x El. by rewrite El in Hx. }
    unfold wp in H'. rewrite (run_done _ _ _ _ _ Hrun) in H'. destruct H' as [H1 H2]. split; [done|]. by apply took_adv.
  Qed.
  Lemma produce_quiet_ends env root md regs t s : accepted env root md → register_root env (prod_of root) = Some regs →
    filled env root → plain_enums env root → within env root t → state_ok s → lang env t [] →
    match next_tok extract s with Some x => ¬ starts regs (key t) x | None => True end →
    ∃ f0 x s', took extract s [] s' ∧ ∀ f, f0 ≤ f → run (produce_md env md f t) s = ODone (RSucc x) s'.
  Proof.
    intros Hacc Hr Hf He Hw Hok Hl Hx. assert (Hacc' := Hacc). destruct Hacc' as (regs' & iter & Hreg & Hperm & Hmeta). assert (regs' = regs) as -> by congruence.
    assert (Hx' := Hx). rewrite next_look in Hx'. assert (Hok' : aok (abs s)) by (by apply state_ok_abs).
    assert (H := nul_quiet _ _ _ _ _ Hreg Hperm Hmeta He t Hl Hw (abs s) Hok').
    destruct H as (f0 & o & Ho & Hq). { intros x El. by rewrite El in Hx'. }
    assert (Hnc : run (produce_md env md f0 t) s ≠ OCrash).
    { apply produce_no_crash; [done|]. intros c Hc. apply Hf. by eapply rtc_transitive. }
    destruct (run (produce_md env md f0 t) s) as [| |r s'] eqn:E.
    - assert (H := run_abs extract (produce_md env md f0 t) s). rewrite E, (Ho f0) in H by lia. cbn in H. by subst.
    - done.
    - destruct (produce_quiet env root md regs f0 t s r s' Hacc Hr He Hw Hok Hl Hx E) as [[x ->] Ht].
      exists f0, x, s'. split; [done|]. intros f Hle. rewrite <- E. apply le_run; [by apply produce_le|by rewrite E].
  Qed.
End run.
