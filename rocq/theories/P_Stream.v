(** Property theorems about the token stream of a parser (C07-C10, C64).  [run extract m s]:
    program [m] (any finite history of calls, depending on earlier answers) run in state
    [s]; [extract ty]: tokens of type [ty] are extracted. *)
From Coq Require Import String.
From stdpp Require Import prelude list.
From Verif Require Import LexModel LexSpec SynSetModel StreamModel StreamSpec StreamFacts.
Local Open Scope nat_scope.

(** A source with a comment, two spots of bad text and three tokens. *)
Definition ex_src : string := "a?? #c b ! ,".
Definition ex_extract (ty : nat) : bool := ty =? 9.
Definition ex_evs : list raw :=
  [RTok 0 (Span 0 1); RErr (Span 1 2); RErr (Span 2 3); RTok 9 (Span 4 6); RTok 0 (Span 7 8);
   RErr (Span 9 10); RTok 1 (Span 11 12)].
Definition ex_start : pst := pst_new ex_src ex_evs.
(** State after consuming one token and looking at the next. *)
Definition ex_mid : pst :=
  Pst ex_src [RErr (Span 9 10); RTok 1 (Span 11 12)] (Some (Token (Span 7 8) 0))
    [Span 1 3] [Cell (Token (Span 0 1) 0) 0%N] [Token (Span 4 6) 9]
    [PErr (Span 1 3) UnexpectedCharacters].
Example ex_mid_reached :
  run ex_extract (x ← consume; y ← peek; mret (x, y)) ex_start =
  ODone (Some (Token (Span 0 1) 0), Some (Token (Span 7 8) 0)) ex_mid.
Proof. reflexivity. Qed.
Example ex_start_ok : raw_ok (String.length ex_src) ex_evs.
Proof. cbn. lia. Qed.
Example ex_mid_ok : state_ok ex_mid.
Proof. cbn. lia. Qed.

(** ** C07: the token stream is conserved *)
Theorem C07_tokens : ∀ extract A (m : M A) src evs a s,
  run extract m (pst_new src evs) = ODone a s →
  consumed s ++ to_come extract s = filter (λ t, extract (t_ty t) = false) (raw_tokens evs).
Proof. exact @run_new_tokens. Qed.
Print Assumptions C07_tokens.

Theorem C07_extracted : ∀ extract A (m : M A) src evs a s,
  run extract m (pst_new src evs) = ODone a s →
  p_extracted s ++ filter (λ t, extract (t_ty t) = true) (raw_tokens (p_evs s)) =
  filter (λ t, extract (t_ty t) = true) (raw_tokens evs).
Proof. exact @run_new_extracted. Qed.
Print Assumptions C07_extracted.

Theorem C07_extracted_never_reach_syntax : ∀ extract A (m : M A) src evs a s t,
  run extract m (pst_new src evs) = ODone a s →
  t ∈ consumed s ++ to_come extract s → extract (t_ty t) = false.
Proof. exact @run_new_kept. Qed.
Print Assumptions C07_extracted_never_reach_syntax.

Theorem C07_bad_text : ∀ extract A (m : M A) src evs a s,
  run extract m (pst_new src evs) = ODone a s →
  p_invalid s ++ bad_text (p_evs s) = bad_text evs.
Proof. exact @run_new_invalid. Qed.
Print Assumptions C07_bad_text.

Theorem C07_bad_text_errors : ∀ extract A (m : M A) src evs a s,
  no_extend m → run extract m (pst_new src evs) = ODone a s →
  p_errors s = map (λ sp, PErr sp UnexpectedCharacters) (p_invalid s).
Proof. exact @run_new_errors. Qed.
Print Assumptions C07_bad_text_errors.

(** At the end of input nothing is left unread. *)
Theorem C07_all_read : ∀ extract s s',
  run extract peek s = ODone None s' → p_evs s' = [].
Proof. exact peek_none. Qed.
Print Assumptions C07_all_read.

(** What the parser holds stays in source order and within the source. *)
Theorem C07_start_in_order : ∀ src evs, raw_ok (String.length src) evs → state_ok (pst_new src evs).
Proof. exact state_ok_new. Qed.
Print Assumptions C07_start_in_order.

Theorem C07_in_order : ∀ extract A (m : M A) s a s',
  run extract m s = ODone a s' → state_ok s → state_ok s'.
Proof. exact @run_ok. Qed.
Print Assumptions C07_in_order.

Example C07_ex :
  match run ex_extract (_ ← consume; _ ← parse_token 1; _ ← consume; _ ← consume; consume) ex_start with
  | ODone x s => x = None ∧
    consumed s = [Token (Span 0 1) 0; Token (Span 7 8) 0; Token (Span 11 12) 1] ∧
    p_extracted s = [Token (Span 4 6) 9] ∧ p_invalid s = [Span 1 3; Span 9 10] ∧
    p_errors s = [PErr (Span 1 3) UnexpectedCharacters; PErr (Span 9 10) UnexpectedCharacters]
  | _ => False
  end.
Proof. vm_compute. done. Qed.
Example C07_ex_bad_text : bad_text ex_evs = [Span 1 3; Span 9 10].
Proof. reflexivity. Qed.
Example C07_ex_no_extend :
  no_extend (_ ← consume; _ ← parse_token 1; parse_token_lit 1 "," (fs_one 0 None)).
Proof. cbn. intros. repeat (case_match; cbn; intros); done. Qed.

(** ** C08: peek and consume *)
Theorem C08_peek : ∀ extract s, ∃ s',
  run extract peek s = ODone (head (to_come extract s)) s' ∧
  p_tokens s' = p_tokens s ∧ to_come extract s' = to_come extract s.
Proof. exact peek_run. Qed.
Print Assumptions C08_peek.

Theorem C08_peek_twice : ∀ extract s,
  run extract (x ← peek; y ← peek; mret (x, y)) s = run extract (x ← peek; mret (x, x)) s.
Proof. exact peek_twice. Qed.
Print Assumptions C08_peek_twice.

(** An extra peek before [m] changes neither what [m] answers nor the state found by the
    next look at the stream. *)
Theorem C08_peek_invisible : ∀ extract A (m : M A) s, no_extend m →
  run extract (_ ← peek; a ← m; _ ← peek; mret a) s = run extract (a ← m; _ ← peek; mret a) s.
Proof. exact @peek_invisible. Qed.
Print Assumptions C08_peek_invisible.

Theorem C08_consume_is_peek : ∀ extract s,
  run extract (x ← peek; y ← consume; mret (x, y)) s = run extract (y ← consume; mret (y, y)) s.
Proof. exact peek_consume. Qed.
Print Assumptions C08_consume_is_peek.

Theorem C08_consume : ∀ extract s, ∃ s',
  run extract consume s = ODone (head (to_come extract s)) s' ∧
  match head (to_come extract s) with
  | Some t => consumed s' = consumed s ++ [t] ∧ to_come extract s = t :: to_come extract s'
  | None => consumed s' = consumed s ∧ to_come extract s' = []
  end.
Proof. exact consume_run. Qed.
Print Assumptions C08_consume.

Theorem C08_current_span : ∀ extract s, ∃ s',
  run extract cur_span s = ODone
    (match to_come extract s with t :: _ => t_span t | [] => at_end (p_src s) end) s' ∧
  p_tokens s' = p_tokens s ∧ to_come extract s' = to_come extract s.
Proof. exact cur_span_run. Qed.
Print Assumptions C08_current_span.

Example C08_ex : to_come ex_extract ex_mid = [Token (Span 7 8) 0; Token (Span 11 12) 1] ∧
  ∃ s, run ex_extract consume ex_mid = ODone (Some (Token (Span 7 8) 0)) s ∧
    to_come ex_extract s = [Token (Span 11 12) 1].
Proof. split; [reflexivity|]. eexists. split; reflexivity. Qed.

(** ** C09: parse_token *)
Theorem C09_parse_token : ∀ extract ty s, ∃ r s',
  run extract (parse_token ty) s = ODone r s' ∧
  match head (to_come extract s) with
  | Some t =>
    if decide (t_ty t = ty) then
      r = RSucc t ∧ consumed s' = consumed s ++ [t] ∧ to_come extract s = t :: to_come extract s'
    else r = RPanic [PErr (t_span t) (Expecting (fs_one ty None))] ∧
      p_tokens s' = p_tokens s ∧ to_come extract s' = to_come extract s
  | None => r = RPanic [PErr (at_end (p_src s)) (Expecting (fs_one ty None))] ∧
      p_tokens s' = p_tokens s ∧ to_come extract s' = to_come extract s
  end.
Proof. exact parse_token_run. Qed.
Print Assumptions C09_parse_token.

Example C09_ex :
  (∃ s, run ex_extract (parse_token 0) ex_mid = ODone (RSucc (Token (Span 7 8) 0)) s) ∧
  (∃ s, run ex_extract (parse_token 1) ex_mid =
        ODone (RPanic [PErr (Span 7 8) (Expecting (fs_one 1 None))]) s).
Proof. split; eexists; reflexivity. Qed.

(** ** C10: parse_token_lit *)
Theorem C10_parse_token_lit : ∀ extract ty lit fol s, state_ok s →
  ∃ r s', run extract (parse_token_lit ty lit fol) s = ODone r s' ∧
  match head (to_come extract s) with
  | Some t =>
    ∃ x, text_of (p_src s) t = Some x ∧
    if decide (t_ty t = ty ∧ x = lit) then
      r = RSucc t ∧ consumed s' = consumed s ++ [t] ∧ to_come extract s = t :: to_come extract s'
    else
      p_tokens s' = p_tokens s ∧ to_come extract s' = to_come extract s ∧
      let e := PErr (t_span t) (Expecting (fs_one ty (Some lit))) in
      r = (if ts_contains fol (Some (t_ty t, x))
           then RRec (Token (Span (end_of (p_tokens s)) (end_of (p_tokens s))) ty) [e]
           else RPanic [e])
  | None =>
      p_tokens s' = p_tokens s ∧ to_come extract s' = to_come extract s ∧
      let sp := at_end (p_src s) in
      r = (if ts_contains fol None then RRec (Token sp ty) [PErr sp (Expecting (fs_one ty (Some lit)))]
           else RPanic [PErr sp UnexpectedEof])
  end.
Proof. exact parse_token_lit_run. Qed.
Print Assumptions C10_parse_token_lit.

Example C10_ex :
  (∃ s, run ex_extract (parse_token_lit 0 "b" ts_new) ex_mid = ODone (RSucc (Token (Span 7 8) 0)) s) ∧
  (∃ s, run ex_extract (parse_token_lit 1 "," (fs_one 0 None)) ex_mid =
        ODone (RRec (Token (Span 1 1) 1) [PErr (Span 7 8) (Expecting (fs_one 1 (Some ","%string)))]) s) ∧
  (∃ s, run ex_extract (parse_token_lit 0 "x" ts_new) ex_mid =
        ODone (RPanic [PErr (Span 7 8) (Expecting (fs_one 0 (Some "x"%string)))]) s).
Proof. split_and!; eexists; vm_compute; reflexivity. Qed.

(** ** C64: remaining *)
Theorem C64_remaining : ∀ extract s, state_ok s → ∃ txt s',
  remaining extract s = (Some txt, s') ∧
  p_tokens s' = p_tokens s ∧ p_src s' = p_src s ∧ to_come extract s' = to_come extract s ∧
  ∃ pre, p_src s = String.append pre txt ∧
  match head (to_come extract s) with
  | Some t => String.length pre = sp_lo (t_span t) ∧
      ∃ x rest, text_of (p_src s) t = Some x ∧ txt = String.append x rest
  | None => txt = EmptyString
  end.
Proof. exact remaining_spec. Qed.
Print Assumptions C64_remaining.

Example C64_ex : state_ok ex_mid ∧ state_ok ex_start ∧
  fst (remaining ex_extract ex_mid) = Some "b ! ,"%string ∧
  fst (remaining ex_extract ex_start) = Some ex_src.
Proof. split_and!; [cbn; lia..|reflexivity|reflexivity]. Qed.
