(** Where errors start: C88, C89.

    [viable] (PrefixSpec): the beginning of a sentence; [state_ok], [to_come], [word],
    [errors_of] (StreamSpec, ParseSpec) describe states and results; [regular] (CompleteSpec). *)
From Coq Require Import String NArith.
From stdpp Require Import prelude list strings relations.
From Verif Require Import LexModel LexSpec SynSetModel TableModel CfgSpec StreamModel StreamSpec TypeModel TypeSpec ProduceModel
  SynMacroModel SynMacroSpec SourceSpec ParseSpec CompleteSpec PrefixSpec PrefixFacts OffendFacts ParseEx CompleteEx PrefixEx ReadmeSpec ReadmeFacts OffendEx.
Local Open Scope nat_scope.

(** ** C88: errors start after the longest beginning of a sentence *)
(** No syntax error starts in or before a token up to which the input is the beginning of a
    sentence. *)
Theorem C88_no_false_alarm : ∀ extract env root md, accepted env root md → regular env root →
  ∀ s u tk v f r s', state_ok s → to_come extract s = u ++ tk :: v →
  viable env root (word (p_src s) (u ++ [tk])) →
  run extract (produce_md env md f root) s = ODone r s' →
  ∀ e, e ∈ errors_of r → sp_hi (t_span tk) ≤ sp_lo (e_span e).
Proof. exact no_false_alarm. Qed.
Print Assumptions C88_no_false_alarm.
(** All errors recorded by [parse]. *)
Theorem C88_parse : ∀ extract env root md, accepted env root md → regular env root →
  ∀ s u tk v f o s', state_ok s → to_come extract s = u ++ tk :: v →
  viable env root (word (p_src s) (u ++ [tk])) →
  run extract (parse env f root (inr md)) s = ODone o s' →
  ∃ es, p_errors s' = p_errors s ++ es ∧
    ∀ e, e ∈ es → e_kind e = UnexpectedCharacters ∨ sp_hi (t_span tk) ≤ sp_lo (e_span e).
Proof. exact no_false_alarm_parse. Qed.
Print Assumptions C88_parse.
(** "(a?,,b": "(a," is the beginning of a sentence; the errors are at the [?] and after it. *)
Example C88_ex : accepted ex_env exE (md_get ex_env exE) ∧ regular ex_env exE ∧ state_ok (start "(a?,,b") ∧
  match to_come no_extract (start "(a?,,b") with
  | t1 :: t2 :: t3 :: _ => viable ex_env exE (word "(a?,,b" ([t1; t2] ++ [t3])) ∧ t_span t3 = Span 3 4 | _ => False end ∧
  match ex_parse ex_env exE "(a?,,b" with
  | ODone _ s' => map e_span (p_errors s') = [Span 2 3; Span 4 5; Span 6 6] | _ => False end.
Proof.
  split; [exact ex_accepted|]. split; [exact ex_regular|]. split; [apply start_ok|].
  split; [split; [exact ex_viable|done]|by vm_compute].
Qed.
(** More generally, for any type, whatever the tables say: what is read up to the end of [tk]
    gives no error starting before that end, if some other input with this beginning is parsed
    without errors. *)
Theorem C88_same_beginning : ∀ extract env first follow jump t tk u v1 v2 s1 s2 extract2 f1 f2 r1 s1' r2 s2',
  filled env t → state_ok s1 → state_ok s2 → p_tokens s1 = p_tokens s2 →
  to_come extract s1 = u ++ tk :: v1 → to_come extract2 s2 = u ++ tk :: v2 →
  same_upto (sp_hi (t_span tk)) (p_src s1) (p_src s2) →
  run extract (produce env first follow jump f1 t) s1 = ODone r1 s1' →
  run extract2 (produce env first follow jump f2 t) s2 = ODone r2 s2' →
  errors_of r2 = [] → ∀ e, e ∈ errors_of r1 → sp_hi (t_span tk) ≤ sp_lo (e_span e).
Proof. exact same_beginning. Qed.
Print Assumptions C88_same_beginning.
Example C88_same_beginning_ex : filled ex_env exE ∧
  head (to_come no_extract (start "(a,,b")) = head (to_come no_extract (start "(a)")) ∧
  match ex_run ex_env exE "(a,,b", ex_run ex_env exE "(a)" with
  | ODone r1 _, ODone r2 _ => errors_of r1 ≠ [] ∧ errors_of r2 = [] | _, _ => False end.
Proof. split; [exact ex_filled|]. split; by vm_compute. Qed.

(** The parser reads on as long as the input is the beginning of a sentence. *)
Theorem C88_reads_on : ∀ extract env root md s u tk v f r s', accepted env root md → regular env root → state_ok s →
  to_come extract s = u ++ tk :: v → viable env root (word (p_src s) (u ++ [tk])) →
  run extract (produce_md env md f root) s = ODone r s' → ∃ l, took extract s (u ++ tk :: l) s'.
Proof. exact reads_on. Qed.
Print Assumptions C88_reads_on.
(** If the input ends too early it is read to its end, where all errors are. *)
Theorem C88_end : ∀ extract env root md s f r s', accepted env root md → regular env root → state_ok s →
  viable env root (word (p_src s) (to_come extract s)) → run extract (produce_md env md f root) s = ODone r s' →
  to_come extract s' = [] ∧ ∀ e, e ∈ errors_of r → sp_lo (e_span e) = String.length (p_src s).
Proof. exact end_errors. Qed.
Print Assumptions C88_end.
(** "(a,": two errors, both at the end. *)
Example C88_end_ex : viable ex_env exE (word "(a," (to_come no_extract (start "(a,"))) ∧
  match ex_run ex_env exE "(a," with
  | ODone r s' => to_come no_extract s' = [] ∧ map (λ e, sp_lo (e_span e)) (errors_of r) = [3] | _ => False end.
Proof. split; [exact ex_viable|by vm_compute]. Qed.

(** ** C89: the first token no sentence allows is reported *)
(** There need not be an error at the first token that no sentence allows: when an element of a
    list fails, only the last of its errors is kept.  [Punct<("(", ")", a, a), ",">] on
    "()aa,(a": the a at 6 cannot follow, but the only error is at the end.  If another a comes
    the error is at 6. *)
Theorem C89_refuted : ∃ env root md s u tk f r s',
  accepted env root md ∧ regular env root ∧ state_ok s ∧ to_come no_extract s = u ++ [tk] ∧
  viable env root (word (p_src s) u) ∧ ¬ viable env root (word (p_src s) (u ++ [tk])) ∧
  run no_extract (produce_md env md f root) s = ODone r s' ∧ errors_of r ≠ [] ∧
  ∀ e, e ∈ errors_of r → sp_hi (t_span tk) ≤ sp_lo (e_span e).
Proof. exact lost_error. Qed.
Print Assumptions C89_refuted.
Example C89_refuted_ex : match ex_run [] lostT "()aa,(a", ex_run [] lostT "()aa,(aa" with
  | ODone r1 _, ODone r2 _ => map e_span (errors_of r1) = [Span 7 7] ∧ map e_span (errors_of r2) = [Span 6 7]
  | _, _ => False end.
Proof. by vm_compute. Qed.
(** The same happens to the parser shown in README.md (E -> T ( + T )*, T -> F ( * F )*,
    F -> ( E ) | id): on "a*(a+*a b" the only error is at b, not at the second [*]. *)
Theorem C89_readme_refuted : ∃ env md s u tk v f r s',
  written true rd_names rd_items env ∧ accepted env (TNamed 0) md ∧ state_ok s ∧ to_come no_extract s = u ++ tk :: v ∧
  viable env (TNamed 0) (word (p_src s) u) ∧ ¬ viable env (TNamed 0) (word (p_src s) (u ++ [tk])) ∧
  run no_extract (produce_md env md f (TNamed 0)) s = ODone r s' ∧ errors_of r ≠ [] ∧
  ∀ e, e ∈ errors_of r → sp_hi (t_span tk) ≤ sp_lo (e_span e).
Proof. exact rd_lost. Qed.
Print Assumptions C89_readme_refuted.
Example C89_readme_refuted_ex : p_src lost_start = "a*(a+*a b"%string ∧ match rd_run rd_env with
  | ODone r _ => map e_span (errors_of r) = [Span 8 9] | _ => False end.
Proof. split; by vm_compute. Qed.

(** What holds for all such grammars: if [tk] is the first token that no sentence allows, then
    there is some error, in [tk] or after it, unless the tokens before [tk] are a sentence and
    were parsed as one. *)
Theorem C89_some_error_partial : ∀ extract env root md s u tk v f r s',
  accepted env root md → regular env root → no_recover env root → no_loop env root →
  state_ok s → to_come extract s = u ++ tk :: v →
  viable env root (word (p_src s) u) → ¬ viable env root (word (p_src s) (u ++ [tk])) →
  run extract (produce_md env md f root) s = ODone r s' →
  (errors_of r ≠ [] ∧ ∀ e, e ∈ errors_of r → sp_lo (t_span tk) ≤ sp_lo (e_span e)) ∨
  (errors_of r = [] ∧ took extract s u s' ∧ lang env root (word (p_src s) u)).
Proof. exact some_error. Qed.
Print Assumptions C89_some_error_partial.
(** The full claim, where lists have elements that fail with a single error ([keeps_first]):
    some error starts at [tk], and none starts before it. *)
Theorem C89_first_error_partial : ∀ extract env root md s u tk v f r s',
  accepted env root md → regular env root → all_viable env root → keeps_first env root →
  state_ok s → to_come extract s = u ++ tk :: v →
  viable env root (word (p_src s) u) → ¬ viable env root (word (p_src s) (u ++ [tk])) →
  run extract (produce_md env md f root) s = ODone r s' →
  ((∃ e, e ∈ errors_of r ∧ sp_lo (e_span e) = sp_lo (t_span tk)) ∧
    (∀ e, e ∈ errors_of r → sp_lo (t_span tk) ≤ sp_lo (e_span e))) ∨
  (errors_of r = [] ∧ took extract s u s' ∧ lang env root (word (p_src s) u)).
Proof. exact first_error. Qed.
Print Assumptions C89_first_error_partial.
(** [Punct<(a, Option<("(", a, ")")>), ",">] on "a,a(a),,a": the comma at 7 is reported. *)
Example C89_first_error_ex : accepted [] offT (md_get [] offT) ∧ regular [] offT ∧ all_viable [] offT ∧ keeps_first [] offT ∧
  state_ok (start "a,a(a),,a") ∧
  match to_come no_extract (start "a,a(a),,a") with
  | t1 :: t2 :: t3 :: t4 :: t5 :: t6 :: t7 :: tk :: _ =>
      viable [] offT (word "a,a(a),,a" [t1; t2; t3; t4; t5; t6; t7]) ∧
      ¬ viable [] offT (word "a,a(a),,a" ([t1; t2; t3; t4; t5; t6; t7] ++ [tk])) ∧ t_span tk = Span 7 8
  | _ => False end ∧
  match ex_run [] offT "a,a(a),,a" with ODone r _ => map e_span (errors_of r) = [Span 7 8] | _ => False end.
Proof.
  split; [exact off_accepted|]. split; [exact off_regular|]. split; [exact off_viable|]. split; [exact off_keeps|].
  split; [apply start_ok|]. split; [|by vm_compute]. split; [exact off_begin|]. split; [exact off_stop|done].
Qed.
(** Whatever the tables, for any type without [tp::Recover] whose list elements fail with a
    single error: an error starts at or before a token that no sentence allows, unless a
    sentence was parsed without errors before it. *)
Theorem C89_any_tables_partial : ∀ extract env first follow jump t s u tk v f r s',
  filled env t → all_viable env t → keeps_first env t →
  state_ok s → to_come extract s = u ++ tk :: v → ¬ viable env t (word (p_src s) (u ++ [tk])) →
  run extract (produce env first follow jump f t) s = ODone r s' →
  (∃ e, e ∈ errors_of r ∧ sp_lo (e_span e) ≤ sp_lo (t_span tk)) ∨
  (errors_of r = [] ∧ ∃ l u', took extract s l s' ∧ u = l ++ u' ∧ lang env t (word (p_src s) l)).
Proof. exact first_offender. Qed.
Print Assumptions C89_any_tables_partial.
(** All errors recorded by [parse]. *)
Theorem C89_parse_partial : ∀ extract env root md s u tk v f o s',
  accepted env root md → regular env root → all_viable env root → keeps_first env root →
  state_ok s → to_come extract s = u ++ tk :: v →
  viable env root (word (p_src s) u) → ¬ viable env root (word (p_src s) (u ++ [tk])) →
  run extract (parse env f root (inr md)) s = ODone o s' →
  ∃ bad es, p_errors s' = p_errors s ++ map (λ sp, PErr sp UnexpectedCharacters) bad ++ es ∧
    (((∃ e, e ∈ es ∧ sp_lo (e_span e) = sp_lo (t_span tk)) ∧ ∀ e, e ∈ es → sp_lo (t_span tk) ≤ sp_lo (e_span e)) ∨
     (es = [] ∧ took extract s u s' ∧ lang env root (word (p_src s) u))).
Proof. exact first_error_parse. Qed.
Print Assumptions C89_parse_partial.
(** In particular for the recursive parser of the README (tests/book_ex_recur.rs). *)
Theorem C89_readme_recursive : ∀ extract env md s u tk v f o s',
  written true rd_names rr_items env → accepted env (TNamed 0) md → state_ok s →
  to_come extract s = u ++ tk :: v → beginning (word (p_src s) u) → ¬ beginning (word (p_src s) (u ++ [tk])) →
  run extract (parse env f (TNamed 0) (inr md)) s = ODone o s' →
  ∃ bad es, p_errors s' = p_errors s ++ map (λ sp, PErr sp UnexpectedCharacters) bad ++ es ∧
    (((∃ e, e ∈ es ∧ sp_lo (e_span e) = sp_lo (t_span tk)) ∧ ∀ e, e ∈ es → sp_lo (t_span tk) ≤ sp_lo (e_span e)) ∨
     (es = [] ∧ took extract s u s' ∧ expression (word (p_src s) u))).
Proof. exact rr_first. Qed.
Print Assumptions C89_readme_recursive.
(** "a*(a+*a b": the second [*] is reported. *)
Example C89_readme_recursive_ex : written true rd_names rr_items rr_env ∧ accepted rr_env (TNamed 0) (md_get rr_env (TNamed 0)) ∧
  state_ok lost_start ∧ beginning rd_word ∧ ¬ beginning (rd_word ++ [(1, "*"%string)]) ∧
  match rd_run rr_env with ODone r _ => map e_span (errors_of r) = [Span 5 6; Span 5 6] | _ => False end.
Proof.
  split; [exact rr_written|]. split; [exact rr_accepted|]. split; [exact lost_start_ok|]. split; [|split; [|by vm_compute]].
  - destruct rd_begin as (w & H1 & H2). exists w. split; [done|]. by apply rd_expression.
  - intros (w & H1 & H2). apply rd_stop. exists w. split; [done|]. by apply rd_expression.
Qed.
