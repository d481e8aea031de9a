(** The tokens of a tree, recovered trees included: C65.

    [yields], [embeds], [insertion] are in LeafSpec; [took], [value], [errors_of],
    [all_tokens], [within] in ParseSpec; [consumed] in StreamSpec. *)
From Coq Require Import String NArith.
From stdpp Require Import prelude list strings relations.
From Verif Require Import LexModel LexSpec SynSetModel TableModel StreamModel StreamSpec TypeModel ProduceModel ParseSpec LeafSpec LeafFacts ParseEx.
Local Open Scope nat_scope.

(** ** C65: the tokens of a tree are tokens of the input or announced insertions *)
(** Whatever the tables say and whether or not there were errors: the tokens in the tree, in
    source order, are tokens consumed by this very call, in order and each at most once, and
    tokens inserted for a missing literal, each explained by [insertion]. *)
Theorem C65_tokens : ∀ extract env first follow jump f t s r s' x l,
  state_ok s → run extract (produce env first follow jump f t) s = ODone r s' →
  value r = Some x → took extract s l s' →
  ∃ ks, yields x ks ∧
    embeds (insertion env follow t (p_src s) (all_tokens extract s) (errors_of r)) (consumed s) l ks.
Proof. exact leaf_run. Qed.
Print Assumptions C65_tokens.
(** Without errors nothing is inserted. *)
Theorem C65_success : ∀ extract env first follow jump f t s x s' l,
  state_ok s → run extract (produce env first follow jump f t) s = ODone (RSucc x) s' → took extract s l s' →
  ∃ ks, yields x ks ∧ ks `sublist_of` l.
Proof. exact leaf_success. Qed.
Print Assumptions C65_success.
(** For a whole parse the insertions are announced in the errors of the parser. *)
Theorem C65_parse : ∀ extract env f root md s o s' x l,
  state_ok s → run extract (parse env f root (inr md)) s = ODone o s' → o = inr (Some x) → took extract s l s' →
  ∃ ks, yields x ks ∧
    embeds (insertion env (tb_get (md_follow md)) root (p_src s) (all_tokens extract s) (p_errors s')) (consumed s) l ks.
Proof. exact leaf_parse. Qed.
Print Assumptions C65_parse.
(** The element missing in ["(a,,b"] is reported, the missing [")"] is inserted at the end. *)
Example C65_ex : state_ok (start "(a,,b") ∧
  match ex_parse ex_env exE "(a,,b" with
  | ODone (inr (Some (TrVar 1 (TrSeq [TrTok k; TrPunct _ [x; y] [p; q]; TrTok (Token (Span 5 5) 1)])))) s' =>
      k = Token (Span 0 1) 1 ∧ x = TrVar 0 (TrTok (Token (Span 1 2) 0)) ∧ y = TrVar 0 (TrTok (Token (Span 4 5) 0)) ∧
      p = TrTok (Token (Span 2 3) 1) ∧ q = TrTok (Token (Span 3 4) 1) ∧
      map e_span (p_errors s') = [Span 3 4; Span 5 5] ∧ length (consumed s') = 5
  | _ => False
  end.
Proof. split; [apply start_ok|]. by vm_compute. Qed.
(** [("(", ")", a)] on ["( a"]: the missing [")"] is put at the end of the token before it. *)
Example C65_ex_mid :
  match ex_parse [] (TTuple [tL; tR; tId]) "( a" with
  | ODone (inr (Some (TrSeq [_; TrTok (Token (Span 1 1) 1); TrTok (Token (Span 2 3) 0)]))) s' =>
      map e_span (p_errors s') = [Span 2 3]
  | _ => False
  end.
Proof. by vm_compute. Qed.
