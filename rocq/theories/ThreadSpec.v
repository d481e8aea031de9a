(** Specification of roots used by several threads. *)
From Coq Require Import String.
From stdpp Require Import prelude list strings relations.
From Verif Require Import LexModel SynSetModel TableModel StreamModel TypeModel ProduceModel DebugModel RootModel ThreadModel.
Local Open Scope nat_scope.

Section threads.
  Context (extract : nat → bool) (env : denv) (tn dn ln : nat → string) (f : nat) (lexer : string → list raw)
    (roots : nat → ty) (order : nat → list (prod * entry prod)).
  (** Any thread that can move may do so next. *)
  Definition any_step (s s' : sys) : Prop := ∃ i, step extract env tn dn ln f lexer roots order i s = Some s'.
  (** What a call gives in a program that makes only this call; [ms r] is the metadata of root [r]. *)
  Definition alone (ms : nat → gerr prod + metadata prod) (c : call) : answer :=
    match c with
    | CParse r src => AParse (root_parse extract env f (roots r) (ms r) src (lexer src))
    | CAssert r => AAssert (assert_ll1 tn dn ln (roots r) (ms r))
    end.
End threads.
