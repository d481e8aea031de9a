(** Specification vocabulary for declarations and registration. *)
From Coq Require Import String NArith.
From stdpp Require Import prelude list strings relations.
From Verif Require Import SynSetModel TableModel TypeModel CfgSpec.
Local Open Scope nat_scope.

(** Every name used in a type is one of the [n] declared ones. *)
Fixpoint ty_declared (n : nat) (t : ty) : Prop :=
  match t with
  | TTok _ _ _ => True
  | TNamed i => i < n
  | TTuple l => (fix go l := match l with [] => True | x :: r => ty_declared n x ∧ go r end) l
  | TBox t | TOpt t | TExists t | TQuote t | TParse t | TPlus t | TStar t | TLoop t =>
      ty_declared n t
  | TSplit t p | TPunct t p | TRecover t p => ty_declared n t ∧ ty_declared n p
  end.
(** A Rust program: everything used is declared. *)
Definition env_declared (env : denv) : Prop :=
  ∀ d f, d ∈ env → f ∈ decl_fields d → ty_declared (length env) (fst f).

(** [q] is (the id of) a component of [p]. *)
Definition component (env : denv) (p q : prod) : Prop :=
  ∃ ks x, kids env p = Some ks ∧ x ∈ ks ∧ q = pid x.
(** The productions reachable from [p]. *)
Definition visible (env : denv) (p q : prod) : Prop := rtc (component env) p q.
