(** Model of the provided functions of [Root], packages/teleparse/src/parser/tree.rs 22-32 ([assert_ll1] is called by the
    code of macros/src/root.rs 33-52). *)
From Coq Require Import String.
From stdpp Require Import prelude list strings.
From Verif Require Import LexModel SynSetModel TableModel StreamModel TypeModel ProduceModel DebugModel.
Local Open Scope string_scope.

(** [Root::assert_ll1], parser/tree.rs 28-32: [Some text] if it panics with that text.  [m]: the metadata of the root.
    [tn], [dn], [ln]: names of terminals, declared types and token types, as for [debug] and [gerr_display]. *)
Definition assert_ll1 (tn dn ln : nat → string) (root : ty) (m : gerr prod + metadata prod) : option string :=
  match m with
  | inl e => Some (String.append (debug tn dn (prod_of root)) (String.append " is not LL(1): " (gerr_display tn dn ln e)))
  | inr _ => None
  end.
(** [Root::parse], parser/tree.rs 23-25: a fresh parser, one call of [Parser::parse]; the parser, with the errors it
    has recorded, is dropped.  [evs]: what the tokenizer makes of the source.  [None]: does not end. *)
Definition root_parse (extract : nat → bool) (env : denv) (f : nat) (root : ty) (m : gerr prod + metadata prod)
    (src : string) (evs : list raw) : option (gerr prod + option tree) :=
  match run extract (parse env f root m) (pst_new src evs) with
  | ODone r _ => Some r
  | _ => None
  end.
