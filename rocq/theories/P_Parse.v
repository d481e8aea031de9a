(** Property theorems about [produce] and [parse] (C31, C34, C35, C39-C43, C47, C53, C54).

    [run extract m s] runs [m] from the parser state [s]; [ODone r s'] is a finished run, a
    run that panics is [OCrash], one that needs more fuel [OFuel].  [state_ok s] is the
    invariant of parser states (C10): it holds initially and after any run.
    [parses] (ParseSpec) is the set of parse trees of a type for a token sequence; [took],
    [to_come], [only_bad_text], [parse_result] (ParseSpec) describe runs. *)
From Coq Require Import String NArith.
From stdpp Require Import prelude list strings relations.
From Verif Require Import LexModel LexSpec SynSetModel TableModel CfgSpec StreamModel StreamSpec TypeModel TypeSpec ProduceModel ParseSpec LangFacts RunFacts LookFacts ParseFacts ParseEx.
Local Open Scope nat_scope.

(** ** C31: [parse] reports grammar errors before touching the input *)
Theorem C31_metadata_total : ∀ env t regs iter,
  register_root env (prod_of t) = Some regs → iter ≡ₚ regs → ∃ m, root_metadata env t iter = Some m.
Proof. exact root_metadata_total. Qed.
Print Assumptions C31_metadata_total.
Theorem C31_grammar_errors_first : ∀ extract env f t meta s r s',
  run extract (parse env f t meta) s = ODone r s' →
  (∀ e, r = inl e ↔ meta = inl e) ∧ (∀ e, meta = inl e → s' = s).
Proof. exact parse_outcome_iff. Qed.
Print Assumptions C31_grammar_errors_first.
Theorem C31_grammar_error_returned : ∀ extract env f t e s,
  run extract (parse env f t (inl e)) s = ODone (inl e) s.
Proof. exact parse_error_run. Qed.
Print Assumptions C31_grammar_error_returned.
(** [(Option<a>, a)] is refused, [exE] is not. *)
Example C31_ex :
  match root_metadata [] (TTuple [TOpt tId; tId])
     (default [] (register_root [] (prod_of (TTuple [TOpt tId; tId])))) with Some (inl _) => True | _ => False end ∧
  match root_metadata ex_env exE (default [] (register_root ex_env (prod_of exE))) with Some (inr _) => True | _ => False end.
Proof. by vm_compute. Qed.

(** ** C34: error-free results are correct parses *)
Theorem C34_produce : ∀ extract env first follow jump f t s x s',
  filled env t → no_recover env t → state_ok s →
  run extract (produce env first follow jump f t) s = ODone (RSucc x) s' →
  ∃ l, took extract s l s' ∧ parses env (p_src s) (end_of (p_tokens s)) t l x.
Proof. exact produce_clean. Qed.
Print Assumptions C34_produce.
Theorem C34_parse : ∀ extract env t md f s x s',
  filled env t → no_recover env t → state_ok s →
  run extract (parse env f t (inr md)) s = ODone (inr (Some x)) s' → only_bad_text s s' →
  ∃ l, took extract s l s' ∧ parses env (p_src s) (end_of (p_tokens s)) t l x.
Proof. exact parse_clean. Qed.
Print Assumptions C34_parse.
(** A sequence with a parse tree is in the language of the type, and derives from the
    productions registered for it. *)
Theorem C34_language : ∀ env src p t l x, parses env src p t l x → no_loop env t → lang env t (word src l).
Proof. exact parses_lang. Qed.
Print Assumptions C34_language.
Theorem C34_derives : ∀ env src p t l x regs, parses env src p t l x → no_loop env t →
  register_root env (prod_of t) = Some regs → derives regs [N (key t)] (map T (word src l)).
Proof. exact parses_derives. Qed.
Print Assumptions C34_derives.
(** Not so for [tp::Loop]: it accepts the empty input, which its production does not derive. *)
Theorem C34_loop_refuted : ∃ env t md f s x s',
  accepted env t md ∧ filled env t ∧ no_recover env t ∧ state_ok s ∧
  run no_extract (parse env f t (inr md)) s = ODone (inr (Some x)) s' ∧ p_errors s' = [] ∧
  took no_extract s [] s' ∧ ¬ lang env t [].
Proof.
  exists [], (TLoop tId), (md_get [] (TLoop tId)), 60, (start "").
  eexists _, _. split; [apply md_get_accepted; by vm_compute|].
  split; [within [TLoop tId; tId]|]. split; [within [TLoop tId; tId]|]. split; [apply start_ok|].
  split; [vm_compute; reflexivity|]. split_and!; [done..|].
  intros H. inversion H as [| | | | | | | | | | | | |t n w Hw| | |]; subst.
  inversion Hw as [|t ts w1 w2 H1 H2 E1 E2]; subst. inversion H1; subst. done.
Qed.
Print Assumptions C34_loop_refuted.
Example C34_ex : accepted ex_env exE (md_get ex_env exE) ∧ filled ex_env exE ∧ no_recover ex_env exE ∧
  no_loop ex_env exE ∧ state_ok (start "( a,(b)?, c) d") ∧
  match ex_parse ex_env exE "( a,(b)?, c) d" with
  | ODone (inr (Some x)) s' => only_bad_text (start "( a,(b)?, c) d") s' ∧ length (nodes x) = 18 ∧
      length (p_tokens s') = 9 ∧ length (to_come no_extract s') = 1 ∧ length (p_errors s') = 1
  | _ => False
  end.
Proof.
  split; [apply ex_accepted|]. split; [apply ex_filled|]. split; [apply ex_no_recover|].
  split; [apply ex_no_loop|]. split; [apply start_ok|]. vm_compute. split_and!; try done.
  by exists [Span 7 8].
Qed.

(** ** C35, C40: with [tp::Recover] neither holds *)
(** [Recover<Recover<a, "(">, Option<",">>] accepts "a" without any error. *)
Theorem C35_refuted : ∃ env t md f s x s' l,
  accepted env t md ∧ filled env t ∧ state_ok s ∧
  run no_extract (parse env f t (inr md)) s = ODone (inr (Some x)) s' ∧ p_errors s' = [] ∧
  took no_extract s l s' ∧ ¬ lang env t (word (p_src s) l).
Proof.
  exists [], (TRecover (TRecover tId tL) (TOpt tC)), (md_get [] (TRecover (TRecover tId tL) (TOpt tC))), 60, (start "a").
  eexists _, _, [Token (Span 0 1) 0]. split; [apply md_get_accepted; by vm_compute|].
  split; [within [TRecover (TRecover tId tL) (TOpt tC); TRecover tId tL; tId; tL; TOpt tC; tC]|].
  split; [apply start_ok|]. split; [vm_compute; reflexivity|]. split_and!; [done..|].
  intros H. inversion H as [| | | | | | | | | | | | | | | |t r w Hw]; subst.
  inversion Hw as [|t ts w1 w2 H1 H2 E1 E2]; subst. clear Hw H.
  inversion H1 as [| | | | | | | | | | | | | | | |t r w Hw]; subst.
  inversion Hw as [|t ts w3 w4 H3 H4 E3 E4]; subst.
  inversion H4 as [|t ts w5 w6 H5 H6 E5 E6]; subst.
  inversion H3; subst. inversion H5; subst. done.
Qed.
Print Assumptions C35_refuted.
(** [Recover<a, "(">] on "a" returns no tree and records no error. *)
Theorem C40_refuted : ∃ env t md f s s',
  accepted env t md ∧ filled env t ∧ state_ok s ∧
  run no_extract (parse env f t (inr md)) s = ODone (inr None) s' ∧ p_errors s' = [].
Proof.
  exists [], (TRecover tId tL), (md_get [] (TRecover tId tL)), 60, (start "a").
  eexists. split; [apply md_get_accepted; by vm_compute|]. split; [within [TRecover tId tL; tId; tL]|].
  split; [apply start_ok|]. split; [vm_compute; reflexivity|done].
Qed.
Print Assumptions C40_refuted.
(** What holds (missing: runs that reach the end of the input with a [tp::Recover] whose
    recovery part cannot be empty): both properties hold when input is left, *)
Theorem C35_C40_input_left_partial : ∀ extract env t md f s o s',
  filled env t → state_ok s → run extract (parse env f t (inr md)) s = ODone (inr o) s' →
  to_come extract s' ≠ [] → parse_result extract env t s o s'.
Proof. exact parse_result_left. Qed.
Print Assumptions C35_C40_input_left_partial.
(** and when every recovery part can be empty. *)
Theorem C35_C40_nullable_tails_partial : ∀ extract env t md f s o s',
  accepted env t md → filled env t → recover_tails env (λ r, lang env r []) t → state_ok s →
  run extract (parse env f t (inr md)) s = ODone (inr o) s' → parse_result extract env t s o s'.
Proof. exact parse_result_tails. Qed.
Print Assumptions C35_C40_nullable_tails_partial.
Example C35_C40_ex :
  match ex_parse [] (TRecover tId tC) "(,a" with
  | ODone (inr (Some _)) s' => to_come no_extract s' ≠ [] ∧ length (p_errors s') = 1
  | _ => False
  end ∧
  accepted [] (TRecover tId (TOpt tC)) (md_get [] (TRecover tId (TOpt tC))) ∧
  recover_tails [] (λ r, lang [] r []) (TRecover tId (TOpt tC)) ∧
  match ex_parse [] (TRecover tId (TOpt tC)) "a" with
  | ODone (inr (Some _)) s' => p_errors s' = []
  | _ => False
  end.
Proof.
  split; [by vm_compute|]. split; [apply md_get_accepted; by vm_compute|].
  split; [|by vm_compute].
  apply (all_within_list _ _ [TRecover tId (TOpt tC); tId; TOpt tC; tC]); [set_solver|].
  repeat (apply Forall_cons; split; [split; [try done; constructor|cbn; repeat (apply Forall_cons; split; [set_solver|]); apply Forall_nil; done]|]).
  by apply Forall_nil.
Qed.

(** ** C39: a failed parse always records an error *)
Theorem C39_failure_has_error : ∀ extract env t md f s s',
  filled env t → no_recover env t → state_ok s →
  run extract (parse env f t (inr md)) s = ODone (inr None) s' → length (p_errors s) < length (p_errors s').
Proof. exact parse_none. Qed.
Print Assumptions C39_failure_has_error.
Theorem C39_panic_has_error : ∀ extract env first follow jump f t s es s',
  filled env t → no_recover env t → state_ok s →
  run extract (produce env first follow jump f t) s = ODone (RPanic es) s' → es ≠ [].
Proof. exact produce_panicked. Qed.
Print Assumptions C39_panic_has_error.
Example C39_ex : match ex_parse ex_env exE ")" with ODone (inr None) s' => length (p_errors s') = 1 | _ => False end.
Proof. by vm_compute. Qed.

(** ** C41: parsing only moves forward and keeps every token *)
(** [took] : the tokens recorded are the old ones followed by a prefix of the ones to come. *)
Theorem C41_forward : ∀ {A} extract (m : M A) s a s', run extract m s = ODone a s' →
  ∃ l bad ex, took extract s l s' ∧ p_invalid s' = p_invalid s ++ bad ∧ p_extracted s' = p_extracted s ++ ex.
Proof. exact @run_keeps. Qed.
Print Assumptions C41_forward.
Example C41_ex : match ex_parse ex_env exE "(a,?)" with
  | ODone _ s' => length (p_tokens s') = 4 ∧ p_invalid s' = [Span 3 4] | _ => False end.
Proof. by vm_compute. Qed.

(** ** C42: one token of look-ahead *)
(** Let a run from [s1] consume [l].  From a state [s2] with the same recorded tokens whose
    input continues with [l], then with the same next token (or also ends), the run has the
    same result and consumes [l], whatever follows. *)
Theorem C42_one_token : ∀ extract env first follow jump f t s1 s2 r s1' l u,
  filled env t → state_ok s1 → state_ok s2 →
  run extract (produce env first follow jump f t) s1 = ODone r s1' → took extract s1 l s1' →
  p_tokens s2 = p_tokens s1 → to_come extract s2 = l ++ u → head u = head (to_come extract s1') →
  match head u with
  | Some tk => same_upto (sp_hi (t_span tk)) (p_src s1) (p_src s2)
  | None => p_src s1 = p_src s2
  end →
  ∃ s2', run extract (produce env first follow jump f t) s2 = ODone r s2' ∧ took extract s2 l s2' ∧
    p_tokens s2' = p_tokens s1' ∧ to_come extract s2' = u.
Proof. exact produce_local. Qed.
Print Assumptions C42_one_token.
Example C42_ex :
  match ex_run ex_env exE "(a)b", ex_run ex_env exE "(a)b,(" with
  | ODone (RSucc x) s1, ODone (RSucc y) s2 => x = y ∧ length (to_come no_extract s1) = 1 ∧ length (to_come no_extract s2) = 3
  | _, _ => False
  end ∧ same_upto 4 "(a)b" "(a)b,(".
Proof.
  split; [by vm_compute|]. intros i Hi. do 4 (destruct i as [|i]; [done|]). lia.
Qed.

(** ** C43: Option, Exists and Star never panic *)
Theorem C43_no_panic : ∀ extract env first follow jump f t t' s es s',
  optional t t' → run extract (produce env first follow jump f t) s ≠ ODone (RPanic es) s'.
Proof. exact optional_no_panic. Qed.
Print Assumptions C43_no_panic.
(** [starts regs (key t') x]: a sentence derived from [t'] begins with [x]. *)
Theorem C43_empty : ∀ extract env root md regs f t t' s r s',
  accepted env root md → register_root env (prod_of root) = Some regs → within env root t → optional t t' →
  state_ok s → match next_tok extract s with Some x => ¬ starts regs (key t') x | None => True end →
  run extract (produce_md env md f t) s = ODone r s' →
  r = RSucc (empty_of t (end_of (p_tokens s))) ∧ took extract s [] s'.
Proof. exact optional_empty_md. Qed.
Print Assumptions C43_empty.
Example C43_ex : accepted [] (TTuple [TStar tId; tC]) (md_get [] (TTuple [TStar tId; tC])) ∧
  within [] (TTuple [TStar tId; tC]) (TStar tId) ∧ optional (TStar tId) tId ∧ state_ok (start ",") ∧
  next_tok no_extract (start ",") = Some (1, ","%string) ∧
  match run no_extract (produce_md [] (md_get [] (TTuple [TStar tId; tC])) 60 (TStar tId)) (start ",") with
  | ODone r s' => r = RSucc (TrList (Span 0 0) []) | _ => False end ∧
  match ex_run [] (TStar (TTuple [tId; tR; tL])) "a)aa," with
  | ODone (RRec (TrList _ l) es) s' => length es = 2 | _ => False end.
Proof.
  split; [apply md_get_accepted; by vm_compute|]. split; [apply rtc_once; cbn; set_solver|].
  split; [by right; right|]. split; [apply start_ok|]. by vm_compute.
Qed.

(** ** C47: recovered results carry at least one error *)
Theorem C47_recovered_has_error : ∀ extract env first follow jump f t s x es s',
  filled env t → no_recover env t → state_ok s →
  run extract (produce env first follow jump f t) s = ODone (RRec x es) s' → es ≠ [].
Proof. exact produce_recovered. Qed.
Print Assumptions C47_recovered_has_error.
Example C47_ex : match ex_run ex_env exE "(a,)(" with ODone (RSucc _) _ => True | _ => False end ∧
  match ex_run ex_env exE "(a,,a)" with ODone (RRec _ es) _ => length es = 1 | _ => False end.
Proof. by vm_compute. Qed.

(** ** C53: errors accumulate; repeated parses resume *)
(** Any number of calls: errors are only appended, and together the calls consume a prefix
    of the input; each goes on where the previous one stopped. *)
Theorem C53_resume : ∀ extract s s', parse_calls extract s s' →
  ∃ l es, took extract s l s' ∧ p_errors s' = p_errors s ++ es.
Proof. exact parse_calls_took. Qed.
Print Assumptions C53_resume.
Theorem C53_invariant : ∀ extract s s', parse_calls extract s s' → state_ok s → state_ok s'.
Proof. exact parse_calls_ok. Qed.
Print Assumptions C53_invariant.
Example C53_ex :
  match ex_parse ex_env exE "(a,,a)(a,,a)" with
  | ODone (inr (Some _)) s1 => match run no_extract (parse ex_env 60 exE (inr (md_get ex_env exE))) s1 with
      | ODone (inr (Some _)) s2 => length (p_errors s1) = 1 ∧ length (p_errors s2) = 2 ∧
          length (p_tokens s1) = 6 ∧ length (p_tokens s2) = 12 | _ => False end
  | _ => False end.
Proof. by vm_compute. Qed.

(** ** C54: transparent wrappers *)
Theorem C54_box : ∀ extract env first follow jump f t s,
  run extract (produce env first follow jump (S f) (TBox t)) s = run extract (produce env first follow jump f t) s.
Proof. exact box_run. Qed.
Print Assumptions C54_box.
Theorem C54_quote : ∀ extract env first follow jump f t s, state_ok s → filled env t →
  run extract (produce env first follow jump (S f) (TQuote t)) s =
  out_map (res_map (quoted TrQuote (p_src s))) (run extract (produce env first follow jump f t) s).
Proof. exact quote_run. Qed.
Print Assumptions C54_quote.
Theorem C54_parse : ∀ extract env first follow jump f t s, state_ok s → filled env t →
  run extract (produce env first follow jump (S f) (TParse t)) s =
  out_map (res_map (quoted TrParse (p_src s))) (run extract (produce env first follow jump f t) s).
Proof. exact parse_run_. Qed.
Print Assumptions C54_parse.
Theorem C54_exists : ∀ extract env first follow jump f t s,
  run extract (produce env first follow jump (S f) (TExists t)) s =
  out_map (res_map exists_of) (run extract (produce env first follow jump (S f) (TOpt t)) s).
Proof. exact exists_run. Qed.
Print Assumptions C54_exists.
Theorem C54_star : ∀ extract env first follow jump f t s,
  run extract (produce env first follow jump (S f) (TStar t)) s =
  out_map (res_map star_of) (run extract (produce env first follow jump (S (S f)) (TOpt (TPlus t))) s).
Proof. exact star_run. Qed.
Print Assumptions C54_star.
Example C54_ex :
  match run no_extract (produce_md ex_env (md_get ex_env exE) 60 (TQuote exE)) (start " (a, b) c") with
  | ODone (RSucc (TrQuote sp x)) _ => x = "(a, b)"%string | _ => False end.
Proof. by vm_compute. Qed.
