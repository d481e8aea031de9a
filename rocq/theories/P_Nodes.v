(** Property theorems about the produced nodes and the errors (C45, C46, C48-C52).

    [value r = Some x] : the result [r] carries the tree [x] (success or recovery);
    [nodes x] are all nodes of [x], [errors_of r] the errors of [r] (ParseSpec). *)
From Coq Require Import String NArith.
From stdpp Require Import prelude list strings relations.
From Verif Require Import LexModel LexSpec SynSetModel TableModel CfgSpec StreamModel StreamSpec TypeModel TypeSpec ProduceModel ParseSpec LookFacts ParseFacts NodeFacts ParseEx.
Local Open Scope nat_scope.

(** ** C45: a Split has one more element than delimiters, in every outcome *)
Theorem C45_split_counts : ∀ extract env first follow jump f t s r s',
  state_ok s → filled env t → run extract (produce env first follow jump f t) s = ODone r s' →
  ∀ x sp a b, value r = Some x → TrSplit sp a b ∈ nodes x → length a = S (length b).
Proof. exact node_split. Qed.
Print Assumptions C45_split_counts.
Example C45_ex : match ex_run [] (TTuple [TSplit tId tC; tR]) "a,b,,,c)" with
  | ODone (RRec (TrSeq [TrSplit sp a b; _]) es) _ => length a = 3 ∧ length b = 2 ∧ length es = 2 | _ => False end.
Proof. by vm_compute. Qed.

(** ** C46: Punct *)
Theorem C46_punct_counts : ∀ extract env first follow jump f t s x s' sp a b,
  state_ok s → filled env t → no_recover env t →
  run extract (produce env first follow jump f t) s = ODone (RSucc x) s' → TrPunct sp a b ∈ nodes x →
  1 ≤ length a ∧ (length b = length a ∨ length b = length a - 1).
Proof. exact clean_punct. Qed.
Print Assumptions C46_punct_counts.
(** In every outcome: at least one element, and at most one more than delimiters. *)
Theorem C46_punct_nonempty : ∀ extract env first follow jump f t s r s',
  state_ok s → filled env t → run extract (produce env first follow jump f t) s = ODone r s' →
  ∀ x sp a b, value r = Some x → TrPunct sp a b ∈ nodes x → 1 ≤ length a ∧ length a ≤ S (length b).
Proof. exact node_punct. Qed.
Print Assumptions C46_punct_nonempty.
Example C46_ex :
  match ex_run [] (TTuple [TPunct tId tC; tR]) "a,b,)" with
  | ODone (RSucc (TrSeq [TrPunct sp a b; _])) _ => length a = 2 ∧ length b = 2 | _ => False end ∧
  match ex_run [] (TTuple [TPunct tId tC; tR]) "a,b)" with
  | ODone (RSucc (TrSeq [TrPunct sp a b; _])) _ => length a = 2 ∧ length b = 1 | _ => False end ∧
  match ex_run [] (TTuple [TPunct tId tC; tR]) "a,,,b)" with
  | ODone (RRec (TrSeq [TrPunct sp a b; _]) _) _ => length a = 2 ∧ length b = 3 | _ => False end.
Proof. by vm_compute. Qed.

(** ** C48: spans of error-free trees *)
(** Each node [y] of an error-free tree stands for a contiguous part [l'] of the tokens: it
    ends where the last of them ends (without tokens: where the previous token ends), starts at
    the first of them or at the end of the token before, exactly at the first if its type begins
    with a token ([solid]), is not reversed, in the source, and its parts follow each other.
    Missing for the full claim: the start may be early, see [C48_tight_refuted]. *)
Theorem C48_spans_partial : ∀ extract env first follow jump f t s x s' l y,
  state_ok s → filled env t → no_recover env t →
  run extract (produce env first follow jump f t) s = ODone (RSucc x) s' → took extract s l s' → y ∈ nodes x →
  ∃ l1 l' l2 t', l = l1 ++ l' ++ l2 ∧ within env t t' ∧
    let p := end_pos (end_of (p_tokens s)) l1 in
    parses env (p_src s) p t' l' y ∧
    tree_hi y = end_pos p l' ∧
    (tree_lo y = p ∨ ∃ tk, head l' = Some tk ∧ tree_lo y = sp_lo (t_span tk)) ∧
    (solid env t' → ∃ tk, head l' = Some tk ∧ tree_lo y = sp_lo (t_span tk)) ∧
    tree_lo y ≤ tree_hi y ∧ tree_hi y ≤ String.length (p_src s) ∧ in_order (parts_of y).
Proof. exact clean_nodes. Qed.
Print Assumptions C48_spans_partial.
(** [(Option<a>, ",")] on " ," starts at 0, its first token at 1. *)
Theorem C48_tight_refuted : ∃ env t md f s x s' tk,
  accepted env t md ∧ filled env t ∧ no_recover env t ∧ state_ok s ∧
  run no_extract (produce_md env md f t) s = ODone (RSucc x) s' ∧ took no_extract s [tk] s' ∧
  tree_lo x < sp_lo (t_span tk).
Proof.
  exists [], (TTuple [TOpt tId; tC]), (md_get [] (TTuple [TOpt tId; tC])), 60, (start " ,").
  eexists _, _, (Token (Span 1 2) 1). split; [apply md_get_accepted; by vm_compute|].
  split; [within [TTuple [TOpt tId; tC]; TOpt tId; tId; tC]|].
  split; [within [TTuple [TOpt tId; tC]; TOpt tId; tId; tC]|]. split; [apply start_ok|].
  split; [vm_compute; reflexivity|]. split; [done|]. cbn. lia.
Qed.
Print Assumptions C48_tight_refuted.
Example C48_ex : solid ex_env exE ∧
  match ex_run ex_env exE " ( a, (b) ) c" with
  | ODone (RSucc x) _ => tree_span x = Span 1 11 ∧ length (nodes x) = 15 | _ => False end.
Proof.
  split; [|by vm_compute]. eapply solid_enum; [reflexivity|]. intros v Hv.
  apply elem_of_cons in Hv as [->|Hv]; [constructor|]. apply elem_of_list_singleton in Hv as ->.
  eapply solid_struct; [reflexivity|]. constructor.
Qed.

(** ** C49: spans of recovered trees can be reversed *)
(** [(")", Option<a>)] on "   " inserts the bracket at the end of the source, position 3; the
    option then is at position 0, where the last token would end. *)
Theorem C49_refuted : ∃ env t md f s x es s',
  accepted env t md ∧ filled env t ∧ state_ok s ∧
  run no_extract (produce_md env md f t) s = ODone (RRec x es) s' ∧ tree_hi x < tree_lo x.
Proof.
  exists [], (TTuple [tR; TOpt tId]), (md_get [] (TTuple [tR; TOpt tId])), 60, (start "   ").
  eexists _, _, _. split; [apply md_get_accepted; by vm_compute|].
  split; [within [TTuple [tR; TOpt tId]; TOpt tId; tId; tR]|]. split; [apply start_ok|].
  split; [vm_compute; reflexivity|]. cbn. lia.
Qed.
Print Assumptions C49_refuted.
(** What holds in every outcome: the ends of every node are positions where the source, a
    token, starts or ends, so they lie in the source; and spans are in order unless the end of
    the input was reached (missing: exactly that case). *)
Theorem C49_in_source : ∀ extract env first follow jump f t s r s',
  state_ok s → filled env t → run extract (produce env first follow jump f t) s = ODone r s' →
  ∀ x y, value r = Some x → y ∈ nodes x →
  boundary extract s (tree_lo y) ∧ boundary extract s (tree_hi y).
Proof. exact node_boundary. Qed.
Print Assumptions C49_in_source.
Theorem C49_ordered_partial : ∀ extract env first follow jump f t s r s',
  state_ok s → filled env t → run extract (produce env first follow jump f t) s = ODone r s' →
  ∀ x y, value r = Some x → y ∈ nodes x → to_come extract s' ≠ [] →
  end_of (p_tokens s) ≤ tree_lo y ∧ tree_lo y ≤ tree_hi y ∧ tree_hi y ≤ end_of (p_tokens s').
Proof. exact node_ordered. Qed.
Print Assumptions C49_ordered_partial.
Example C49_ex : match ex_run [] (TTuple [tR; TOpt tId]) " a ," with
  | ODone (RRec x es) s' => to_come no_extract s' ≠ [] ∧ length es = 1 ∧ tree_span x = Span 0 2 | _ => False end.
Proof. by vm_compute. Qed.

(** ** C50: quoted text *)
Theorem C50_quote : ∀ extract env first follow jump f t s r s',
  state_ok s → filled env t → run extract (produce env first follow jump f t) s = ODone r s' →
  ∀ x sp str, value r = Some x → TrQuote sp str ∈ nodes x → span_get sp (p_src s) = Some str.
Proof. exact node_quote. Qed.
Print Assumptions C50_quote.
Theorem C50_parse : ∀ extract env first follow jump f t s r s',
  state_ok s → filled env t → run extract (produce env first follow jump f t) s = ODone r s' →
  ∀ x sp str, value r = Some x → TrParse sp str ∈ nodes x → span_get sp (p_src s) = Some str.
Proof. exact node_parse. Qed.
Print Assumptions C50_parse.
(** Slicing (and everything else) never panics. *)
Theorem C50_no_crash : ∀ extract env first follow jump f t s,
  state_ok s → filled env t → run extract (produce env first follow jump f t) s ≠ OCrash.
Proof. exact produce_no_crash. Qed.
Print Assumptions C50_no_crash.
Example C50_ex : match ex_run [] (TTuple [TQuote (TTuple [tL; TOpt tId; tR]); tC]) " ( a,," with
  | ODone (RRec (TrSeq [TrQuote sp x; _]) es) _ => x = "( a"%string ∧ length es = 1 | _ => False end.
Proof. by vm_compute. Qed.

(** ** C51: error positions are valid *)
Theorem C51_produce : ∀ extract env first follow jump f t s r s',
  state_ok s → filled env t → run extract (produce env first follow jump f t) s = ODone r s' →
  ∀ e, e ∈ errors_of r → sp_lo (e_span e) ≤ sp_hi (e_span e) ∧
    boundary extract s (sp_lo (e_span e)) ∧ boundary extract s (sp_hi (e_span e)) ∧
    sp_hi (e_span e) ≤ String.length (p_src s) ∧ end_of (p_tokens s) ≤ sp_lo (e_span e).
Proof. exact error_facts. Qed.
Print Assumptions C51_produce.
(** It starts where a token not read yet starts, or at the end of the source. *)
Theorem C51_starts : ∀ extract env first follow jump f t s r s',
  state_ok s → filled env t → run extract (produce env first follow jump f t) s = ODone r s' →
  ∀ e, e ∈ errors_of r → sp_lo (e_span e) = String.length (p_src s) ∨
    ∃ tk, tk ∈ to_come extract s ∧ sp_lo (e_span e) = sp_lo (t_span tk).
Proof. exact error_starts. Qed.
Print Assumptions C51_starts.
(** All errors recorded by [parse], those for unrecognised text included. *)
Theorem C51_parse : ∀ extract env t md f s o s', filled env t → state_ok s →
  run extract (parse env f t (inr md)) s = ODone o s' →
  ∃ es, p_errors s' = p_errors s ++ es ∧
    ∀ e, e ∈ es → sp_lo (e_span e) ≤ sp_hi (e_span e) ∧ sp_hi (e_span e) ≤ String.length (p_src s).
Proof. exact parse_error_spans. Qed.
Print Assumptions C51_parse.
Example C51_ex : match ex_parse ex_env exE "(a?,,b" with
  | ODone _ s' => map e_span (p_errors s') = [Span 2 3; Span 4 5; Span 6 6] | _ => False end.
Proof. by vm_compute. Qed.

(** ** C52: an Expecting error never lists the token that is there *)
Theorem C52_unlisted : ∀ extract env root md f t s r s' e set tk x,
  accepted env root md → filled env t → state_ok s →
  run extract (produce_md env md f t) s = ODone r s' → e ∈ errors_of r → e_kind e = Expecting set →
  tk ∈ all_tokens extract s → sp_lo (t_span tk) = sp_lo (e_span e) → text_of (p_src s) tk = Some x →
  ts_contains set (Some (t_ty tk, x)) = false.
Proof. exact accepted_unlisted. Qed.
Print Assumptions C52_unlisted.
Example C52_ex : match ex_run ex_env exE "(a a)" with
  | ODone (RPanic [PErr sp (Expecting set)]) _ => sp = Span 3 4 ∧ ts_contains set (Some (1, ")"%string)) = true ∧
      ts_contains set (Some (0, "a"%string)) = false | _ => False end.
Proof. by vm_compute. Qed.
