(** Specification of a part that two grammars have in common. *)
From Coq Require Import String NArith.
From stdpp Require Import prelude list strings relations.
From Verif Require Import SynSetModel TableModel CfgSpec StreamModel TypeModel TypeSpec ProduceModel ParseSpec.
Local Open Scope nat_scope.

(** The declarations that [t] uses are the same in both environments. *)
Definition same_decls (env1 env2 : denv) (t : ty) : Prop :=
  ∀ n, within env1 t (TNamed n) → env2 !! n = env1 !! n.
(** The same may follow in both grammars: the literals in [t] (a token or the end of the source), the separated lists in
    [t] (a token). *)
Definition same_ends (env : denv) (regs1 : grammar prod) (root1 : ty) (regs2 : grammar prod) (root2 t : ty) : Prop :=
  all_within env (λ c, match c with
    | TTok _ _ (Some _) => ∀ y, near_follow regs1 (key root1) (key c) y ↔ near_follow regs2 (key root2) (key c) y
    | TSplit _ _ | TPunct _ _ => ∀ y, near_follow regs1 (key root1) (key c) (Some y) ↔ near_follow regs2 (key root2) (key c) (Some y)
    | _ => True end) t.
(** There are no literals and no separated lists in [t]. *)
Definition closed (env : denv) (t : ty) : Prop :=
  all_within env (λ c, match c with TTok _ _ (Some _) | TSplit _ _ | TPunct _ _ => False | _ => True end) t.
