(** The order of errors. *)
From Coq Require Import String NArith.
From stdpp Require Import prelude list strings.
From Verif Require Import LexModel SynSetModel TableModel StreamModel StreamSpec TypeModel ProduceModel CfgSpec ParseSpec PrefixSpec.
Local Open Scope nat_scope.

(** The errors are listed by the place where they start. *)
Definition by_place (es : list perr) : Prop :=
  ∀ i j a b, i < j → es !! i = Some a → es !! j = Some b → sp_lo (e_span a) ≤ sp_lo (e_span b).

(** The elements of [tp::Split]s and what [tp::Recover]s look for are parsed without error or
    not at all. *)
Definition tidy (env : denv) : ty → Prop :=
  all_within env (λ t, match t with TSplit t _ | TRecover _ t => clean env t | _ => True end).

(** Errors for text that is no token, and the others. *)
Definition is_text (e : perr) : bool := match e_kind e with UnexpectedCharacters => true | _ => false end.
Definition text_errors (es : list perr) : list perr := filter (λ e, is_text e = true) es.
Definition syntax_errors (es : list perr) : list perr := filter (λ e, is_text e = false) es.
(** Any number of calls of [Parser::parse], with any roots that satisfy [P]. *)
Definition calls (extract : nat → bool) (P : denv → ty → Prop) : pst → pst → Prop :=
  rtc (λ s s', ∃ env f t meta o, P env t ∧ run extract (parse env f t meta) s = ODone o s').
