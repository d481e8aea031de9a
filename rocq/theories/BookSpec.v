(** What a type accepted as (part of) a root must satisfy, in terms of sentences ([lang], ParseSpec) only.
    For the lists of common violations in the book: packages/book/src/tp/option.md "Common LL(1) Violations",
    tp/iter.md "Common LL(1) Violations", syntax_analysis/ll1.md. *)
From Coq Require Import String.
From stdpp Require Import prelude list strings.
From Verif Require Import LexModel SynSetModel TableModel TypeModel CfgSpec ParseSpec.
Local Open Scope nat_scope.

(** Token [x] begins a sentence of [t]. *)
Definition begins (env : denv) (t : ty) (x : nat * string) : Prop := ∃ w, lang env t (x :: w).
(** No token begins sentences of both. *)
Definition apart (env : denv) (a b : ty) : Prop := ∀ x, begins env a x → begins env b x → False.
(** A choice between [ts] can be made by one token: no two parts begin with the same token, at most one can
    be empty. *)
Definition choice_by_token (env : denv) (ts : list ty) : Prop :=
  ∀ i j a b, ts !! i = Some a → ts !! j = Some b → i ≠ j → apart env a b ∧ ¬ (lang env a [] ∧ lang env b []).
(** In the sequence [ts], whether a part is left empty can be decided by one token: nothing that can come
    right after it begins like it. *)
Definition skip_by_token (env : denv) (ts : list ty) : Prop :=
  ∀ l1 y l2 z l3, ts = l1 ++ y :: l2 ++ z :: l3 →
    lang env y [] → Forall (λ t, lang env t []) l2 → apart env y z.
(** The decisions in [t] itself, not those in its parts, can be made by one token. *)
Definition by_token (env : denv) (t : ty) : Prop :=
  match t with
  | TOpt t | TExists t | TPlus t | TStar t | TLoop t => ¬ lang env t []
  | TTuple ts => skip_by_token env ts
  | TRecover t r => skip_by_token env [t; r]
  | TSplit t d => skip_by_token env [t; d] ∧ skip_by_token env [d; t] ∧ ¬ (lang env t [] ∧ lang env d [])
  | TPunct t d => ¬ lang env t [] ∧ ¬ lang env d []
  | TNamed n =>
      match env !! n with
      | Some (DStruct fs) => skip_by_token env (map fst fs)
      | Some (DEnum vs) => choice_by_token env (map fst vs)
      | None => True
      end
  | TTok _ _ _ | TBox _ | TQuote _ | TParse _ => True
  end.
