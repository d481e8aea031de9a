(** Beginnings of sentences. *)
From Coq Require Import String NArith.
From stdpp Require Import prelude list strings.
From Verif Require Import LexModel SynSetModel TableModel StreamModel StreamSpec TypeModel ProduceModel CfgSpec ParseSpec.
Local Open Scope nat_scope.

(** [w] is the beginning of a sentence of [t]: it can be continued by tokens (which have some
    text) to one. *)
Definition viable (env : denv) (t : ty) (w : list tok) : Prop :=
  ∃ w', Forall (λ x, snd x ≠ ""%string) w' ∧ lang env t (w ++ w').

(** Every type used has a sentence of tokens that have some text. *)
Definition all_viable (env : denv) : ty → Prop := all_within env (λ t, viable env t []).

(** [t] is built of terminals without literal, structs, enums and tuples alone: it is parsed
    without error or not at all. *)
Definition clean (env : denv) : ty → Prop :=
  all_within env (λ t, match t with
    | TTok _ _ None | TNamed _ | TTuple _ | TBox _ | TQuote _ | TParse _ => True
    | _ => False end).
(** [t] fails with a single error: whatever comes before the part that fails is [clean].
    [S]: the types known to be so. *)
Definition lone_seq (env : denv) (S : ty → Prop) (ts : list ty) : Prop :=
  ∀ l1 t l2, ts = l1 ++ t :: l2 → S t ∧ (l2 ≠ [] → clean env t).
Definition lone_by (env : denv) (S : ty → Prop) (t : ty) : Prop :=
  match t with
  | TTok _ _ _ | TOpt _ | TExists _ | TStar _ | TLoop _ => True
  | TNamed n =>
    match env !! n with
    | Some (DStruct fs) => lone_seq env S (map fst fs)
    | Some (DEnum vs) => ∀ v, v ∈ vs → S (fst v)
    | None => True
    end
  | TTuple ts => lone_seq env S ts
  | TBox t | TQuote t | TParse t | TPlus t | TSplit t _ | TPunct t _ => S t
  | TRecover _ _ => False
  end.
Definition lone (env : denv) (t : ty) : Prop := ∃ S : ty → Prop, S t ∧ ∀ t', S t' → lone_by env S t'.
(** No [tp::Recover], and list elements fail with a single error. *)
Definition keeps_first (env : denv) : ty → Prop :=
  all_within env (λ t, match t with
    | TSplit t _ | TPunct t _ => lone env t | TRecover _ _ => False | _ => True end).
