(** Types written differently: C111.

    [alike] (RefactorSpec) are types that unfold to the same; [accepted], [only_bad_text] (ParseSpec) and [regular]
    (CompleteSpec) as in C36. *)
From Coq Require Import String NArith.
From stdpp Require Import prelude list strings relations.
From Verif Require Import LexModel LexSpec SynSetModel TableModel CfgSpec StreamModel StreamSpec TypeModel ProduceModel ParseSpec CompleteSpec ParseEx TermEx CompleteEx RefactorSpec RefactorFacts RefactorEx.
Local Open Scope nat_scope.

(** ** C111: names, numbers and copies of declarations, boxes, and tuples in place of structs do not matter: a source parsed
    to its end without errors by one root is parsed by any other that unfolds to the same, from the same tokens, with the
    same tree. *)
Theorem C111_parse : ∀ extract env env' root root' md md' f s x s',
  alike env env' root root' → accepted env' root' md' → regular env' root' → filled env root → no_recover env root → state_ok s →
  run extract (parse env f root (inr md)) s = ODone (inr (Some x)) s' → only_bad_text s s' → to_come extract s' = [] →
  ∃ f0 s'', (∀ f, f0 ≤ f → run extract (parse env' f root' (inr md')) s = ODone (inr (Some x)) s'') ∧
    only_bad_text s s'' ∧ consumed s'' = consumed s' ∧ to_come extract s'' = [].
Proof. exact alike_parse. Qed.
Print Assumptions C111_parse.
(** So it works in both directions. *)
Theorem C111_sym : ∀ env env' t t', alike env env' t t' → alike env' env t' t.
Proof. exact alike_sym. Qed.
Print Assumptions C111_sym.
Example C111_ex : alike ex_env rf_env exE (TBox rfE) ∧ accepted rf_env (TBox rfE) (md_get rf_env (TBox rfE)) ∧ regular rf_env (TBox rfE) ∧
  filled ex_env exE ∧ no_recover ex_env exE ∧ state_ok (start "(a,(b))") ∧
  match ex_parse ex_env exE "(a,(b))", ex_parse rf_env (TBox rfE) "(a,(b))" with
  | ODone (inr (Some x)) s', ODone (inr (Some y)) s'' => only_bad_text (start "(a,(b))") s' ∧ to_come no_extract s' = [] ∧ y = x
  | _, _ => False
  end.
Proof.
  split; [exact rf_alike|]. split; [exact rf_accepted|]. split; [exact rf_regular|]. split; [exact ex_filled|]. split; [exact ex_no_recover|].
  split; [apply start_ok|]. vm_compute. split; [by exists []|]. by split.
Qed.
