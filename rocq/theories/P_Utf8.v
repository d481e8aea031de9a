(** Theorems about character boundaries (C76). *)
From Coq Require Import String.
From stdpp Require Import prelude list strings.
From Verif Require Import LexModel LexSpec SynSetModel TableModel StreamModel StreamSpec TypeModel ProduceModel CfgSpec ParseSpec ParseEx
  DebugModel Utf8Model Utf8Spec Utf8Facts Utf8TextFacts.
Local Open Scope string_scope.
Local Open Scope list_scope.
Local Open Scope nat_scope.

(** ** C76: no slice taken while parsing cuts a character *)
(** With the boundary test at every slice, a parse goes exactly as without it. *)
Theorem C76_parse : ∀ extract env t md f s, state_ok s → filled env t → chars_ok s →
  run_c extract (parse env f t md) s = run extract (parse env f t md) s.
Proof. exact parse_chars. Qed.
Print Assumptions C76_parse.
(** The condition holds again afterwards, whatever was done with the parser. *)
Theorem C76_kept : ∀ extract A (m : M A) s a s', chars_ok s → run extract m s = ODone a s' → chars_ok s'.
Proof. exact @chars_run. Qed.
Print Assumptions C76_kept.
(** Slicing the source with the span of a node, printing an error, and asking for the rest
    of the input do not cut a character either. *)
Theorem C76_nodes : ∀ extract env first follow jump f t s r s' x y, state_ok s → filled env t → chars_ok s →
  run extract (produce env first follow jump f t) s = ODone r s' → value r = Some x → y ∈ nodes x →
  span_get_c (tree_span y) (p_src s) = span_get (tree_span y) (p_src s).
Proof. exact nodes_chars. Qed.
Print Assumptions C76_nodes.
Theorem C76_messages : ∀ extract env ty_name t md f s o s', filled env t → state_ok s → chars_ok s →
  run extract (parse env f t md) s = ODone o s' →
  ∃ es, p_errors s' = p_errors s ++ es ∧ ∀ e, e ∈ es → message_c ty_name e (p_src s) = message ty_name e (p_src s).
Proof. exact parse_messages_chars. Qed.
Print Assumptions C76_messages.
Theorem C76_remaining : ∀ extract s, chars_ok s → remaining_c extract s = remaining extract s.
Proof. exact remaining_chars. Qed.
Print Assumptions C76_remaining.

(** The boundaries are those of the code points of the text in UTF-8, and a slice from one to
    another has exactly the code points in between. *)
Theorem C76_boundary : ∀ cs i, code_points cs → char_boundary (utf8 cs) i = true ↔ ∃ n, n ≤ length cs ∧ i = begins cs n.
Proof. exact boundary_iff. Qed.
Print Assumptions C76_boundary.
Theorem C76_slices : ∀ cs n m, code_points cs → n ≤ m → m ≤ length cs →
  span_get_c (Span (begins cs n) (begins cs m)) (utf8 cs) = Some (utf8 (drop n (take m cs))).
Proof. exact slices_chars. Qed.
Print Assumptions C76_slices.
(** One, two, three and four bytes. *)
Example C76_ex_utf8 : let cs := [40; 233; 8364; 128512]%N in
  code_points cs ∧ utf8 cs = "(é€😀" ∧ map (begins cs) [0; 1; 2; 3; 4] = [0; 1; 3; 6; 10].
Proof. cbv zeta. split; [repeat constructor|]. by vm_compute. Qed.

(** [(é,é)]: the identifiers take two bytes each. *)
Definition utf8_start : pst := pst_new "(é,é)"
  [RTok 1 (Span 0 1); RTok 0 (Span 1 3); RTok 1 (Span 3 4); RTok 0 (Span 4 6); RTok 1 (Span 6 7)].
Example C76_ex : state_ok utf8_start ∧ chars_ok utf8_start ∧
  char_boundary (p_src utf8_start) 2 = false ∧
  match run_c no_extract (parse ex_env 60 (TQuote exE) (inr (md_get ex_env exE))) utf8_start with
  | ODone (inr (Some (TrQuote _ x))) s' => x = "(é,é)" ∧ p_errors s' = [] | _ => False end.
Proof.
  split; [vm_compute; lia|]. split; [|by vm_compute].
  intros sp Hsp. cbn in Hsp. repeat (apply elem_of_cons in Hsp as [->|Hsp]; [by vm_compute|]). by apply elem_of_nil in Hsp.
Qed.
(** A tokenizer that splits [é] makes the first look at the token panic. *)
Example C76_cut_ex :
  let s := pst_new "é" [RErr (Span 0 1); RTok 0 (Span 1 2)] in
  state_ok s ∧ run_c no_extract (parse ex_env 60 exE (inr (md_get ex_env exE))) s = OCrash ∧
  (∃ o s', run no_extract (parse ex_env 60 exE (inr (md_get ex_env exE))) s = ODone o s').
Proof. split; [vm_compute; lia|]. split; [by vm_compute|]. eexists _, _. by vm_compute. Qed.
