(** Specification of a list of statements inside a source: [tp::Star] or [tp::Plus] of [tp::Recover]. *)
From Coq Require Import String NArith.
From stdpp Require Import prelude list strings.
From Verif Require Import LexModel SynSetModel StreamModel StreamSpec TypeModel ProduceModel CfgSpec ParseSpec LeafSpec LoopSpec StmtSpec.
Local Open Scope nat_scope.

Section block.
  Context (env : denv) (t d : ty) (src : string).
  (** [block l gs u]: the tokens [l] are the statements [gs] and then [u].  The list ends before the first token that
      begins no statement; a statement goes on to the first end [d], whatever is in between. *)
  Inductive block : list token → list seg → list token → Prop :=
  | bk_end u : ¬ opens env t d src u → block u [] u
  | bk_stmt c k l r u : opens env t d src (c ++ [k]) → Forall (λ y, ¬ lang env d [y]) (word src c) → lang env d (word src [k]) →
      block l r u → block (c ++ k :: l) (Stmt c k :: r) u
  | bk_open c : opens env t d src c → Forall (λ y, ¬ lang env d [y]) (word src c) → block c [Open c] [].
End block.
