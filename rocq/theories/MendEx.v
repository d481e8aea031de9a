(** Example of parsing a repaired input. *)
From Coq Require Import String NArith.
From stdpp Require Import prelude list strings relations.
From Verif Require Import LexModel LexSpec SynSetModel TableModel CfgSpec StreamModel StreamSpec TypeModel ProduceModel ParseSpec CompleteSpec CompleteFacts
  ParseEx TermEx CompleteEx RepairSpec.
Local Open Scope nat_scope.

(** ("(", ")", Ident, Vec<(",", Ident)>) *)
Definition mdT := TTuple [tL; tR; tId; TStar (TTuple [tC; tId])].
Definition md_types := [mdT; tL; tR; tId; tC; TStar (TTuple [tC; tId]); TTuple [tC; tId]].
Lemma md_accepted : accepted [] mdT (md_get [] mdT).
Proof. apply md_get_accepted. by vm_compute. Qed.
Lemma md_strict : strict [] mdT.
Proof. within md_types. Qed.
Lemma md_regular : regular [] mdT.
Proof.
  apply (regular_interior _ _ _ md_accepted); [within md_types|within md_types|within md_types|within md_types|].
  apply interior_ok. by vm_compute.
Qed.
(** "(a,b": the tree is that of "()a,b" *)
Lemma md_ex : match ex_parse [] mdT "(a,b", ex_parse [] mdT "( ) a , b" with
  | ODone (inr (Some x)) s1, ODone (inr (Some y)) s2 =>
      length (p_errors s1) = 1 ∧ p_errors s2 = [] ∧ x ≠ y ∧ bare x = bare y ∧
      kept_word [(Token (Span 0 1) 1, "("); (Token (Span 1 1) 1, ")"); (Token (Span 1 2) 0, "a"); (Token (Span 2 3) 1, ","); (Token (Span 3 4) 0, "b")]%string =
        word (p_src s2) (consumed s2)
  | _, _ => False
  end.
Proof. vm_compute. split_and!; done. Qed.
(** Punct<Ident, ","> *)
Definition mdP := TPunct tId tC.
Lemma mdP_accepted : accepted [] mdP (md_get [] mdP).
Proof. apply md_get_accepted. by vm_compute. Qed.
Lemma mdP_regular : regular [] mdP.
Proof.
  apply (regular_interior _ _ _ mdP_accepted); [within [mdP; tId; tC]|within [mdP; tId; tC]|within [mdP; tId; tC]|within [mdP; tId; tC]|].
  apply interior_ok. by vm_compute.
Qed.
