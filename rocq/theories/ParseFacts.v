(** Statements about whole runs of [produce] and [parse]. *)
From Coq Require Import String NArith.
From stdpp Require Import prelude list strings relations.
From Verif Require Import LexModel LexSpec LexFacts SynSetModel SynSetFacts TableModel StreamModel StreamSpec StreamFacts TypeModel TypeSpec TypeFacts CfgSpec MetaFacts ProduceModel ParseSpec ProgFacts FuelFacts TreeFacts SoundFacts LangFacts RunFacts InvFacts LookFacts MdFacts.
Local Open Scope nat_scope.
#[local] Arguments ts_contains : simpl never.
#[local] Arguments tb_get : simpl never.

(** * parse *)
Lemma root_metadata_total env t regs iter : register_root env (prod_of t) = Some regs → iter ≡ₚ regs →
  ∃ m, root_metadata env t iter = Some m.
Proof.
  intros Hr Hp. unfold root_metadata. rewrite Hr. cbn.
  destruct (register_root_spec _ _ _ Hr) as [Hf _]. by apply meta_build_total.
Qed.
Lemma parse_outcome extract env f t meta s r s' : run extract (parse env f t meta) s = ODone r s' →
  match meta with inl e => r = inl e ∧ s' = s | inr _ => ∃ o, r = inr o end.
Proof.
  destruct meta as [e|md]; [by intros [= <- <-]|]. intros H. apply parse_run in H as (x & -> & _). eauto.
Qed.
Lemma parse_error_run extract env f t e s : run extract (parse env f t (inl e)) s = ODone (inl e) s.
Proof. done. Qed.

(** * What any run leaves behind *)
Lemma run_keeps {A} extract (m : M A) s a s' : run extract m s = ODone a s' →
  ∃ l bad ex, took extract s l s' ∧ p_invalid s' = p_invalid s ++ bad ∧ p_extracted s' = p_extracted s ++ ex.
Proof.
  intros H. destruct (run_took _ _ _ _ _ H) as [l Hl].
  destruct (cv_grow _ _ _ (run_conserves _ _ _ _ _ H)) as ([b Hb] & [e He] & _). eauto 10.
Qed.

Lemma parse_calls_took extract s s' : parse_calls extract s s' →
  ∃ l es, took extract s l s' ∧ p_errors s' = p_errors s ++ es.
Proof.
  induction 1 as [s|s s1 s2 (env & f & t & meta & o & H) _ (l2 & es2 & H2 & E2)].
  - exists [], []. rewrite app_nil_r. split; [|done]. split; [done|]. by rewrite app_nil_r.
  - destruct (run_took _ _ _ _ _ H) as [l Hl].
    destruct (cv_grow _ _ _ (run_conserves _ _ _ _ _ H)) as (_ & _ & [e He]).
    exists (l ++ l2), (e ++ es2). split; [by eapply took_trans|]. by rewrite E2, He, (assoc_L (++)).
Qed.
Lemma parse_calls_ok extract s s' : parse_calls extract s s' → state_ok s → state_ok s'.
Proof. induction 1 as [|s s1 s2 (env & f & t & meta & o & H) _ IH]; [done|]. intros. by eapply IH, run_ok. Qed.

Lemma accepted_tails env root md B : accepted env root md → filled env root →
  recover_tails env (λ r, lang env r []) root → all_ok env (tb_get (md_first md)) B root.
Proof.
  intros (regs & iter & Hr & Hp & Hm) Hf Ht. split; [done|]. intros t' Hw. specialize (Ht t' Hw). destruct t' as [| | | | | | | | | | | | |h r]; try done.
  left. apply (first_eps env root regs iter md Hr Hp Hm r). apply (nul_lang env root regs iter md Hr Hp Hm); [|done].
  apply (V_within env root regs iter md Hr Hp Hm). eapply rtc_r; [exact Hw|]. cbn. set_solver.
Qed.
Lemma end_tails env first t : filled env t → all_ok env first True t.
Proof. intros Hf. split; [done|]. intros t' _. destruct t'; auto. Qed.

Lemma produce_sound_left extract env first follow jump f t s r s' : state_ok s → filled env t →
  run extract (produce env first follow jump f t) s = ODone r s' → to_come extract s' ≠ [] →
  match r with
  | RSucc x => ∃ l, took extract s l s' ∧ parses env (p_src s) (end_of (p_tokens s)) t l x
  | RRec _ es | RPanic es => es ≠ []
  end.
Proof.
  intros Hok Hf Hr Hne. apply (produce_run_sound _ _ _ _ _ True) in Hr; [|done|by apply end_tails].
  by destruct Hr as [?|[_ ?]].
Qed.
Lemma produce_sound_tails extract env root md f s r s' : accepted env root md → filled env root →
  recover_tails env (λ r, lang env r []) root → state_ok s →
  run extract (produce_md env md f root) s = ODone r s' →
  match r with
  | RSucc x => ∃ l, took extract s l s' ∧ parses env (p_src s) (end_of (p_tokens s)) root l x
  | RRec _ es | RPanic es => es ≠ []
  end.
Proof.
  intros Ha Hf Ht Hok Hr. apply (produce_run_sound _ _ _ _ _ False) in Hr; [|done|by apply accepted_tails].
  by destruct Hr as [?|[[] _]].
Qed.

Lemma parse_result0 extract env t md f s o s' : filled env t → no_recover env t → state_ok s →
  run extract (parse env f t (inr md)) s = ODone (inr o) s' → parse_result extract env t s o s'.
Proof.
  intros Hf Hn Hok (x & [= <-] & H)%parse_run.
  apply (parse_with_sound _ _ _ _ _ False) in H; [|done|by apply no_recover_ok]. by destruct H as [?|[[] _]].
Qed.
Lemma parse_result_left extract env t md f s o s' : filled env t → state_ok s →
  run extract (parse env f t (inr md)) s = ODone (inr o) s' → to_come extract s' ≠ [] → parse_result extract env t s o s'.
Proof.
  intros Hf Hok (x & [= <-] & H)%parse_run Hne.
  apply (parse_with_sound _ _ _ _ _ True) in H; [|done|by apply end_tails]. by destruct H as [?|[_ ?]].
Qed.
Lemma parse_result_tails extract env t md f s o s' : accepted env t md → filled env t →
  recover_tails env (λ r, lang env r []) t → state_ok s →
  run extract (parse env f t (inr md)) s = ODone (inr o) s' → parse_result extract env t s o s'.
Proof.
  intros Ha Hf Ht Hok (x & [= <-] & H)%parse_run.
  apply (parse_with_sound _ _ _ _ _ False) in H; [|done|by apply accepted_tails]. by destruct H as [?|[[] _]].
Qed.

(** * Option, Exists, Star *)
Section opt.
  Variable extract : nat → bool.
  Variable env : denv.
  Variables (first follow : prod → tset) (jump : prod → option tok → option nat).
  Notation produce := (produce env first follow jump).
  Notation abs := (abs extract).

  Lemma option_no_panic {X} (p : M (res X)) sp set s :
    wp True True (produce_option p sp set) s (λ r _, (unres r).1 ≠ None).
  Proof.
    unfold produce_option. apply wp_bind. unfold wp at 1. destruct (arun peek_src s) as [| |tk s1]; [done..|].
    destruct tk as [x|]; [|done]. destruct (ts_contains set (Some x)); [|done].
    apply wp_bind. unfold wp at 1. destruct (arun p s1) as [| |r s2]; [done..|]. by destruct r.
  Qed.
  Lemma optional_no_panic f t t' s es s' : optional t t' → run extract (produce f t) s ≠ ODone (RPanic es) s'.
  Proof.
    intros Ho Hr. destruct f as [|f]; [by destruct Ho as [-> |[-> | ->]]|].
    cut ((unres (@RPanic tree es)).1 ≠ None); [done|].
    eapply (run_wp extract True True _ s _ s' (λ r _, (unres r).1 ≠ None)); [|exact Hr].
    destruct Ho as [-> |[-> | ->]]; cbn [ProduceModel.produce]; apply wp_bind;
      (eapply wp_mono; [apply option_no_panic|]); intros [[? ?]|[? ?] ?|?] s2 H; done.
  Qed.
  Lemma next_look s : next_tok extract s = look (abs s).
  Proof.
    unfold next_tok, look. change (a_rest (abs s)) with (to_come extract s). change (a_src (abs s)) with (p_src s).
    unfold word. by destruct (to_come extract s).
  Qed.
  Lemma option_empty {X} (p : M (res X)) sp set s : aok s →
    match look s with Some x => ts_contains set (Some x) = false | None => True end →
    wp True True (produce_option p sp set) s (λ r s', r = RSucc (Span (pos s) (pos s), None) ∧ s' = s).
  Proof.
    intros Hok H. unfold produce_option. apply wp_bind, wp_peek_src; [done|].
    destruct (look s) as [x|]; [rewrite H|]; by apply wp_bind, wp_empty_span, wp_ret.
  Qed.
  Lemma optional_empty f t t' s r s' : optional t t' → state_ok s →
    match next_tok extract s with
    | Some x => ts_contains (first (match t with TStar _ => key (TPlus t') | _ => key t' end)) (Some x) = false
    | None => True
    end →
    run extract (produce f t) s = ODone r s' →
    r = RSucc (empty_of t (end_of (p_tokens s))) ∧ took extract s [] s'.
  Proof.
    intros Ho Hok Hn Hr. rewrite next_look in Hn. apply (state_ok_abs extract) in Hok.
    cut (r = RSucc (empty_of t (end_of (p_tokens s))) ∧ StreamFacts.abs extract s' = abs s).
    { intros [? H]. split; [done|]. apply took_adv. rewrite H. apply adv_refl. }
    destruct f as [|f]; [by destruct Ho as [-> |[-> | ->]]|].
    eapply (run_wp extract True True _ s _ s' (λ r s', r = RSucc (empty_of t (end_of (p_tokens s))) ∧ s' = abs s)); [|exact Hr].
    destruct Ho as [-> |[-> | ->]]; cbn [ProduceModel.produce]; apply wp_bind;
      (eapply wp_mono; [apply option_empty; done|]); intros a s2 [-> ->]; apply wp_ret; done.
  Qed.
End opt.
Lemma optional_empty_md extract env root md regs f t t' s r s' : accepted env root md →
  register_root env (prod_of root) = Some regs → within env root t → optional t t' → state_ok s →
  match next_tok extract s with Some x => ¬ starts regs (key t') x | None => True end →
  run extract (produce_md env md f t) s = ODone r s' →
  r = RSucc (empty_of t (end_of (p_tokens s))) ∧ took extract s [] s'.
Proof.
  intros (regs' & iter & Hr & Hp & Hm) Hr' Hw Ho Hok Hn. assert (regs' = regs) as -> by congruence. apply (optional_empty _ _ _ _ _ _ _ t'); [done..|].
  destruct (next_tok extract s) as [x|]; [|done].
  assert (Hv := V_within env root regs iter md Hr Hp Hm t Hw).
  destruct (ts_contains _ (Some x)) eqn:E; [|done]. exfalso. apply Hn.
  destruct Ho as [-> |[-> | ->]].
  - by apply (first_spec env root regs iter md Hr Hp Hm).
  - by apply (first_spec env root regs iter md Hr Hp Hm).
  - apply (first_spec env root regs iter md Hr Hp Hm (TPlus t')) in E.
    apply (proj1 (fst_plus env root regs iter md Hr Hp Hm t' x (V_star env root regs iter md Hr Hp Hm t' Hv))) in E. done.
Qed.

(** * Wrappers *)
Section wrap.
  Variable extract : nat → bool.
  Variable env : denv.
  Variables (first follow : prod → tset) (jump : prod → option tok → option nat).
  Notation produce := (produce env first follow jump).
  Notation abs := (abs extract).

  Lemma box_run f t s : run extract (produce (S f) (TBox t)) s = run extract (produce f t) s.
  Proof. done. Qed.

  (** The span of what is produced can be cut out of the source. *)
  Lemma value_text f t s r s' x : state_ok s → filled env t → run extract (produce f t) s = ODone r s' →
    value r = Some x → ∃ y, span_get (tree_span x) (p_src s') = Some y.
  Proof.
    intros Hok Hf Hr Hx. rewrite (run_src _ _ _ _ _ Hr).
    destruct (produce_run_inv _ _ _ _ _ _ _ _ _ _ Hok Hf Hr) as [_ H].
    assert (Hx' : (unres r).1 = Some x) by done. destruct (unres r) as [o e]; cbn in Hx'; subst o.
    destruct (run_took _ _ _ _ _ Hr) as [l Hl]. apply took_adv in Hl.
    destruct (abs_st extract s Hok) as [H1 H2].
    destruct (tree_text (p_src s) (all_tokens extract s) H1 (abs s) (StreamFacts.abs extract s') x) as (_ & y & _ & Hy); [|done|eauto].
    split; [done|]. eauto.
  Qed.

  Lemma quote_run f t s : state_ok s → filled env t →
    run extract (produce (S f) (TQuote t)) s =
    out_map (res_map (quoted TrQuote (p_src s))) (run extract (produce f t) s).
  Proof.
    intros Hok Hf. cbn [ProduceModel.produce]. rewrite run_bind.
    destruct (run extract (produce f t) s) as [| |r s'] eqn:E; [done..|]. cbn [out_map].
    assert (Hsrc := run_src _ _ _ _ _ E).
    destruct r as [x|x e|e]; cbn [res_map]; [| |done].
    - destruct (value_text _ _ _ _ _ x Hok Hf E eq_refl) as [y Hy]. cbn [mbind run bindM]. 
      unfold get_src. cbn. rewrite Hy. unfold quoted. rewrite <- Hsrc, Hy. done.
    - destruct (value_text _ _ _ _ _ x Hok Hf E eq_refl) as [y Hy]. cbn [mbind run bindM].
      unfold get_src. cbn. rewrite Hy. unfold quoted. rewrite <- Hsrc, Hy. done.
  Qed.
  Lemma parse_run_ f t s : state_ok s → filled env t →
    run extract (produce (S f) (TParse t)) s =
    out_map (res_map (quoted TrParse (p_src s))) (run extract (produce f t) s).
  Proof.
    intros Hok Hf. cbn [ProduceModel.produce]. rewrite run_bind.
    destruct (run extract (produce f t) s) as [| |r s'] eqn:E; [done..|]. cbn [out_map].
    assert (Hsrc := run_src _ _ _ _ _ E).
    destruct r as [x|x e|e]; cbn [res_map]; [| |done].
    - destruct (value_text _ _ _ _ _ x Hok Hf E eq_refl) as [y Hy]. cbn [mbind run bindM]. 
      unfold get_src. cbn. rewrite Hy. unfold quoted. rewrite <- Hsrc, Hy. done.
    - destruct (value_text _ _ _ _ _ x Hok Hf E eq_refl) as [y Hy]. cbn [mbind run bindM].
      unfold get_src. cbn. rewrite Hy. unfold quoted. rewrite <- Hsrc, Hy. done.
  Qed.
  Lemma exists_run f t s :
    run extract (produce (S f) (TExists t)) s = out_map (res_map exists_of) (run extract (produce (S f) (TOpt t)) s).
  Proof.
    cbn [ProduceModel.produce]. rewrite !run_bind. destruct (run extract _ s) as [| |r s']; [done..|].
    by destruct r as [[? ?]|[? ?] ?|?].
  Qed.
  Lemma star_run f t s :
    run extract (produce (S f) (TStar t)) s = out_map (res_map star_of) (run extract (produce (S (S f)) (TOpt (TPlus t))) s).
  Proof.
    cbn [ProduceModel.produce]. rewrite !run_bind. unfold produce_option. rewrite !run_bind.
    change (key (TPlus t)) with (POneMore (prod_of t)).
    destruct (run extract peek_src s) as [| |tk s1]; [done..|].
    destruct tk as [x|]; [|by rewrite !run_bind; cbn].
    destruct (ts_contains _ (Some x)); [|by rewrite !run_bind; cbn].
    rewrite !run_bind. destruct (run extract (produce_plus _ _ _) s1) as [| |r s2]; [done..|].
    destruct r as [[[? ?] ?]|[[? ?] ?] ?|?]; cbn; done.
  Qed.
End wrap.

(** * Forms used in the property files *)
Lemma produce_clean extract env first follow jump f t s x s' : filled env t → no_recover env t → state_ok s →
  run extract (produce env first follow jump f t) s = ODone (RSucc x) s' →
  ∃ l, took extract s l s' ∧ parses env (p_src s) (end_of (p_tokens s)) t l x.
Proof. intros Hf Hn Hok H. exact (produce_run_sound0 _ _ _ _ _ _ _ _ _ _ Hok Hf Hn H). Qed.
Lemma parse_clean extract env t md f s x s' : filled env t → no_recover env t → state_ok s →
  run extract (parse env f t (inr md)) s = ODone (inr (Some x)) s' → only_bad_text s s' →
  ∃ l, took extract s l s' ∧ parses env (p_src s) (end_of (p_tokens s)) t l x.
Proof. intros Hf Hn Hok H. exact (parse_result0 _ _ _ _ _ _ _ _ Hf Hn Hok H). Qed.
Lemma parses_derives env src p t l x regs : parses env src p t l x → no_loop env t →
  register_root env (prod_of t) = Some regs → derives regs [N (key t)] (map T (word src l)).
Proof. intros H Hl Hr. apply (register_root_lang _ _ _ _ Hr). by eapply parses_lang. Qed.
Lemma parse_none extract env t md f s s' : filled env t → no_recover env t → state_ok s →
  run extract (parse env f t (inr md)) s = ODone (inr None) s' → length (p_errors s) < length (p_errors s').
Proof.
  intros Hf Hn Hok H. destruct (parse_result0 _ _ _ _ _ _ _ _ Hf Hn Hok H) as (bad & es & _ & -> & Hne).
  rewrite !app_length. destruct es; [done|]. cbn. lia.
Qed.
Lemma produce_recovered extract env first follow jump f t s x es s' : filled env t → no_recover env t → state_ok s →
  run extract (produce env first follow jump f t) s = ODone (RRec x es) s' → es ≠ [].
Proof. intros Hf Hn Hok H. exact (produce_run_sound0 _ _ _ _ _ _ _ _ _ _ Hok Hf Hn H). Qed.
Lemma produce_panicked extract env first follow jump f t s es s' : filled env t → no_recover env t → state_ok s →
  run extract (produce env first follow jump f t) s = ODone (RPanic es) s' → es ≠ [].
Proof. intros Hf Hn Hok H. exact (produce_run_sound0 _ _ _ _ _ _ _ _ _ _ Hok Hf Hn H). Qed.
Lemma parse_outcome_iff extract env f t meta s r s' : run extract (parse env f t meta) s = ODone r s' →
  (∀ e, r = inl e ↔ meta = inl e) ∧ (∀ e, meta = inl e → s' = s).
Proof.
  intros H%parse_outcome. destruct meta as [e|md].
  - destruct H as [-> ->]. split; [|done]. intros e'. split; intros [= ->]; done.
  - destruct H as [o ->]. done.
Qed.
