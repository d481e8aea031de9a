(** Specification of parsing without errors in different grammars. *)
From Coq Require Import String NArith.
From stdpp Require Import prelude list strings relations.
From Verif Require Import SynSetModel TableModel CfgSpec StreamModel StreamSpec TypeModel TypeSpec ProduceModel ParseSpec.
Local Open Scope nat_scope.

(** What may follow a [Punct] in [t] in the first grammar may follow it in the second. *)
Definition ends_within (env : denv) (regs1 : grammar prod) (root1 : ty) (regs2 : grammar prod) (root2 t : ty) : Prop :=
  all_within env (λ c, match c with
    | TPunct _ _ => ∀ y, near_follow regs1 (key root1) (key c) (Some y) → near_follow regs2 (key root2) (key c) (Some y)
    | _ => True end) t.
(** There is no [Punct] in [t]. *)
Definition no_punct (env : denv) : ty → Prop := all_within env (λ c, match c with TPunct _ _ => False | _ => True end).

(** Calls of [parse] for [t], one after the other, give the trees [xs], without syntax errors. *)
Inductive one_by_one (extract : nat → bool) (env : denv) (md : metadata prod) (t : ty) : pst → list tree → pst → Prop :=
| obo_nil s : one_by_one extract env md t s [] s
| obo_cons s f x s1 xs s2 : run extract (parse env f t (inr md)) s = ODone (inr (Some x)) s1 → only_bad_text s s1 →
    one_by_one extract env md t s1 xs s2 → one_by_one extract env md t s (x :: xs) s2.
