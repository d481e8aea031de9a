(** Specification of sources made of statements: [tp::Loop] of [tp::Recover] with a terminal at its end. *)
From Coq Require Import String NArith.
From stdpp Require Import prelude list strings.
From Verif Require Import LexModel SynSetModel TableModel StreamModel StreamSpec TypeModel ProduceModel CfgSpec ParseSpec LeafSpec LoopSpec BrokenSpec.
Local Open Scope nat_scope.

(** No part of [t] steps over a token that [d] takes: there is no [Loop] or [Recover] in [t], and the lists in [t] end
    before a [d] ([after_list]). *)
Definition keeps_end (env : denv) (regs : grammar prod) (root t d : ty) : Prop :=
  all_within env (λ c, match c with
    | TLoop _ | TRecover _ _ => False
    | TSplit _ _ | TPunct _ _ => ∀ y, lang env d [y] → after_list regs root c y
    | _ => True end) t.
(** No terminal of [t] is a token that the terminal [d] takes. *)
Definition apart (env : denv) (t d : ty) : Prop :=
  ∀ n y lit w, within env t (TTok n y lit) → lang env (TTok n y lit) [w] → ¬ lang env d [w].

(** A part of a source: a gap, a statement [c] with its end [k], a last statement without end. *)
Inductive seg := Gap (g : list token) | Stmt (c : list token) (k : token) | Open (c : list token).

Section stmts.
  Context (env : denv) (t d : ty) (src : string).
  (** The token [y] begins a statement. *)
  Definition begins_stmt (y : tok) : Prop := ∃ w, lang env (TRecover t d) (y :: w).
  Definition opens (l : list token) : Prop := ∃ y, head (word src l) = Some y ∧ begins_stmt y.
  (** [segs l r]: the tokens [l] are divided into [r].  A gap is what begins no statement.  A statement goes on to the
      first end [d], whatever is in between. *)
  Inductive segs : list token → list seg → Prop :=
  | sg_end : segs [] []
  | sg_gap g l r : g ≠ [] → Forall (λ y, ¬ begins_stmt y) (word src g) → (l = [] ∨ opens l) → segs l r → segs (g ++ l) (Gap g :: r)
  | sg_stmt c k l r : opens (c ++ [k]) → Forall (λ y, ¬ lang env d [y]) (word src c) → lang env d (word src [k]) →
      segs l r → segs (c ++ k :: l) (Stmt c k :: r)
  | sg_open c : opens c → Forall (λ y, ¬ lang env d [y]) (word src c) → segs c [Open c].

  Definition between (a b : nat) (e : perr) : Prop := a ≤ sp_lo (e_span e) ∧ sp_hi (e_span e) ≤ b.
  (** What comes of a statement with the end [k]: a node with that end; if the statement is a sentence of [t], its tree
      and no error, else some errors inside the statement. *)
  Definition stmt_result (c : list token) (k : token) (x : tree) (es : list perr) : Prop :=
    ∃ sp hd, x = TrRecover sp hd (TrTok k) ∧ (es = [] ↔ lang env t (word src c)) ∧
      (lang env t (word src c) → ∃ p y, hd = Some y ∧ parses env src p t c y) ∧
      Forall (between (sp_lo (at_next src (c ++ [k]))) (sp_hi (t_span k))) es.
  (** What comes of a part: an element, if any, and errors. *)
  Definition seg_result (g : seg) (q : option tree * list perr) : Prop :=
    match g with
    | Gap g => ∃ sp, cover g = Some sp ∧ q = (None, [PErr sp UnexpectedTokens])
    | Stmt c k => ∃ x, q.1 = Some x ∧ stmt_result c k x q.2
    | Open c => q.1 = None ∧ (q.2 = [] ↔ lang env t (word src c)) ∧
        Forall (between (sp_lo (at_next src c)) (String.length src)) q.2
    end.
End stmts.
