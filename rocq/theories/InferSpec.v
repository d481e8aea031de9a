(** What a type begins with. *)
From Coq Require Import String.
From stdpp Require Import prelude list relations.
From Verif Require Import SynSetModel TableModel TypeModel CfgSpec ParseSpec.
Local Open Scope nat_scope.

(** [c] is in [ts] and everything before it can be empty. *)
Definition in_front (env : denv) (ts : list ty) (c : ty) : Prop :=
  ∃ l1 l2, ts = l1 ++ c :: l2 ∧ Forall (λ t, lang env t []) l1.
(** [t] can begin with [c], one of its parts. *)
Definition front (env : denv) (t c : ty) : Prop :=
  match t with
  | TTok _ _ _ => False
  | TNamed n =>
      match env !! n with
      | Some (DStruct fs) => in_front env (map fst fs) c
      | Some (DEnum vs) => c ∈ map fst vs
      | None => False
      end
  | TTuple ts => in_front env ts c
  | TBox t | TOpt t | TExists t | TQuote t | TParse t | TPlus t | TStar t | TLoop t => c = t
  | TSplit t d | TPunct t d | TRecover t d => in_front env [t; d] c
  end.
(** A type that can begin with itself. *)
Definition begins_itself (env : denv) (t : ty) : Prop := tc (front env) t t.

(** To find the lexicon of [t], that of [c] has to be found first (syntax_analysis/recursion.md): the first field or
    variant of a declared type, all parts of the other types. *)
Definition asks (env : denv) (t c : ty) : Prop :=
  match t with
  | TTok _ _ _ => False
  | TNamed n =>
      match env !! n with
      | Some (DStruct fs) => head (map fst fs) = Some c
      | Some (DEnum vs) => head (map fst vs) = Some c
      | None => False
      end
  | TTuple ts => c ∈ ts
  | TBox t | TOpt t | TExists t | TQuote t | TParse t | TPlus t | TStar t | TLoop t => c = t
  | TSplit t d | TPunct t d | TRecover t d => c = t ∨ c = d
  end.
(** Names are declared, declarations have fields or variants, tuples have elements. *)
Definition shaped (env : denv) : ty → Prop :=
  all_within env (λ t, match t with
    | TTuple [] => False
    | TNamed n => ∃ d, env !! n = Some d ∧ decl_fields d ≠ []
    | _ => True end).
(** All terminals used in [t] were declared in one enum ([tl]: the enum of a terminal). *)
Definition one_enum (env : denv) (tl : nat → nat) (t : ty) : Prop :=
  ∃ l, ∀ nm y lit, within env t (TTok nm y lit) → tl nm = l.
