(** The order in which errors are listed (C90).

    [by_place], [tidy], [calls], [text_errors], [syntax_errors] are in ReportSpec; [errors_of],
    [accepted] in ParseSpec; [written] in SourceSpec. *)
From Coq Require Import String NArith.
From stdpp Require Import prelude list strings relations.
From Verif Require Import LexModel LexSpec SynSetModel TableModel CfgSpec StreamModel StreamSpec TypeModel TypeSpec ProduceModel
  SynMacroModel SynMacroSpec SourceSpec ParseSpec CompleteSpec ReportSpec ReportFacts ParseEx ReadmeSpec ReadmeFacts ReportEx.
Local Open Scope nat_scope.

(** ** C90: errors are listed in the order of the source *)
(** Not always: when a list element is given up and a later attempt at the element recovers, the
    errors of that attempt come before the one for the text skipped.  The parser shown in
    README.md on "a+*(a": first the missing [)] at 5, then the [*] at 2. *)
Theorem C90_readme_refuted : ∃ env md s f r s',
  written true rd_names rd_items env ∧ accepted env (TNamed 0) md ∧ state_ok s ∧
  run no_extract (produce_md env md f (TNamed 0)) s = ODone r s' ∧ ¬ by_place (errors_of r).
Proof. exact rd_disorder. Qed.
Print Assumptions C90_readme_refuted.
Example C90_readme_refuted_ex : p_src order_start = "a+*(a"%string ∧ match order_run rd_env with
  | ODone r _ => map e_span (errors_of r) = [Span 5 5; Span 2 3] | _ => False end.
Proof. split; by vm_compute. Qed.
(** [tp::Recover] does the same: [Recover<a, ("(", a, ")")>] on ",(a". *)
Theorem C90_recover_refuted : ∃ md s f r s',
  accepted [] (TRecover tId (TTuple [tL; tId; tR])) md ∧ state_ok s ∧
  run no_extract (produce_md [] md f (TRecover tId (TTuple [tL; tId; tR]))) s = ODone r s' ∧ ¬ by_place (errors_of r).
Proof. exact recover_disorder. Qed.
Print Assumptions C90_recover_refuted.
Example C90_recover_refuted_ex : match ex_run [] orderT ",(a" with
  | ODone r _ => map e_span (errors_of r) = [Span 3 3; Span 0 1] | _ => False end.
Proof. by vm_compute. Qed.

(** What holds: if elements of [tp::Split] and what a [tp::Recover] looks for are parsed without
    error or not at all, then the errors of any result are in order, whatever the tables. *)
Theorem C90_result_partial : ∀ extract env first follow jump f t s r s', state_ok s → tidy env t →
  run extract (produce env first follow jump f t) s = ODone r s' → by_place (errors_of r).
Proof. exact run_order. Qed.
Print Assumptions C90_result_partial.
(** "(a,,a,(,": three errors, in order. *)
Example C90_result_ex : tidy ex_env exE ∧ state_ok (start "(a,,a,(,") ∧
  match ex_run ex_env exE "(a,,a,(," with
  | ODone r _ => map e_span (errors_of r) = [Span 3 4; Span 7 8; Span 8 8] | _ => False end.
Proof. split; [exact ex_tidy|]. split; [apply start_ok|]. by vm_compute. Qed.
(** So is the list of syntax errors a parser has collected after any number of calls with such
    roots, the tables being any. *)
Theorem C90_calls_partial : ∀ extract src evs s, raw_ok (String.length src) evs →
  calls extract (λ env t, filled env t ∧ tidy env t) (pst_new src evs) s → by_place (syntax_errors (p_errors s)).
Proof. exact calls_syntax. Qed.
Print Assumptions C90_calls_partial.
(** For all roots, the errors about text that is no token are in order among themselves. *)
Theorem C90_text_partial : ∀ extract src evs s, raw_ok (String.length src) evs →
  calls extract filled (pst_new src evs) s → by_place (text_errors (p_errors s)).
Proof. exact calls_text. Qed.
Print Assumptions C90_text_partial.
(** "(a,,?a,(a?,,?a": text errors at 4, 9 and 12, syntax errors at 3, 11 and 14.  The list as a whole is not in
    order: text is reported when it is read, the rest when [parse] returns. *)
Example C90_calls_ex : filled ex_env exE ∧ tidy ex_env exE ∧ raw_ok 14 (lex_chars 0 "(a,,?a,(a?,,?a") ∧
  match ex_parse ex_env exE "(a,,?a,(a?,,?a" with
  | ODone _ s => map e_span (p_errors s) = [Span 4 5; Span 9 10; Span 12 13; Span 3 4; Span 11 12; Span 14 14; Span 14 14] | _ => False end.
Proof. split; [exact ex_filled|]. split; [exact ex_tidy|]. split; [vm_compute; repeat split; lia|]. by vm_compute. Qed.
(** The recursive parser of README.md is in order on all inputs. *)
Theorem C90_readme_partial : ∀ extract env first follow jump f s r s', written true rd_names rr_items env → state_ok s →
  run extract (produce env first follow jump f (TNamed 0)) s = ODone r s' → by_place (errors_of r).
Proof. exact rr_order. Qed.
Print Assumptions C90_readme_partial.
