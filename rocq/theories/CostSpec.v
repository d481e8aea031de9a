(** Specification: the number of stream operations a run performs. *)
From Coq Require Import String NArith.
From stdpp Require Import prelude list strings.
From Verif Require Import LexModel SynSetModel StreamModel.
Local Open Scope nat_scope.

Section cost.
  Variable extract : nat → bool.
  (** The operations [run] performs on the parser from state [s]: look-aheads, texts asked for,
      tokens consumed, spans asked for, semantics applied, errors recorded. *)
  Fixpoint operations {A} (m : M A) (s : pst) : nat :=
    match m with
    | Ret _ | Fuel => 0
    | Peek k => let s' := fill extract s in S (operations (k (p_peeked s')) s')
    | ToSrc t k =>
      S match token_src t (p_src s) with Some x => operations (k (t_ty t, x)) s | None => 0 end
    | Consume k => let '(t, s') := take_peeked (fill extract s) in S (operations (k t) s')
    | EmptySpan k => S (operations (k (Span (end_of (p_tokens s)) (end_of (p_tokens s)))) s)
    | CurSpan k =>
      let s' := fill extract s in
      S (operations (k (match p_peeked s' with Some t => t_span t | None => eof_span (p_src s') end)) s')
    | GetSrc sp k =>
      S match span_get sp (p_src s) with Some x => operations (k x) s | None => 0 end
    | Apply sp sem k =>
      S (operations k (Pst (p_src s) (p_evs s) (p_peeked s) (p_invalid s)
                 (vec_apply_semantic (p_tokens s) sp sem) (p_extracted s) (p_errors s)))
    | Extend es k =>
      S (operations k (Pst (p_src s) (p_evs s) (p_peeked s) (p_invalid s) (p_tokens s)
                 (p_extracted s) (p_errors s ++ es)))
    end.
End cost.
