(** Specification of repairs where also what is left out has its error. *)
From Coq Require Import String NArith.
From stdpp Require Import prelude list strings relations.
From Verif Require Import LexModel SynSetModel TableModel StreamModel StreamSpec TypeModel ProduceModel ParseSpec LeafSpec RepairSpec.
Local Open Scope nat_scope.

(** [g] is a run of tokens behind the tokens [pre] of the input [all]; the error [e] starts
    inside the run, or where the token behind it starts (the end of the source if there is none). *)
Definition reports (src : string) (all pre g : list token) (e : perr) : Prop :=
  sp_lo (at_next src g) ≤ sp_lo (e_span e) ∧ sp_lo (e_span e) ≤ sp_lo (at_next src (drop (length (pre ++ g)) all)).

Section edits.
  Context (src : string) (all : list token) (ins : list token → kept → perr → Prop) (lost : Prop).
  (** [edits pre l ks es]: [ks] comes from the tokens [l], which are behind the tokens [pre], by
      leaving out runs of them and inserting others.  [es] are the errors, one for each run left
      out ([reports]) and one for each insertion ([ins], as in [repairs]).  Only if [lost], a
      run at the end of the input may be left out without an error. *)
  Inductive edits : list token → list token → list kept → list perr → Prop :=
  | ed_nil pre : edits pre [] [] []
  | ed_take pre t l ks es : edits (pre ++ [t]) l ks es →
      edits pre (t :: l) ((t, default ""%string (text_of src t)) :: ks) es
  | ed_ins pre k e l ks es : ins pre k e → edits pre l ks es → edits pre l (k :: ks) (e :: es)
  | ed_drop pre g e l ks es : g ≠ [] → reports src all pre g e → edits (pre ++ g) l ks es →
      edits pre (g ++ l) ks (e :: es)
  | ed_lost pre g l ks es : lost → drop (length (pre ++ g)) all = [] → edits (pre ++ g) l ks es →
      edits pre (g ++ l) ks es.
End edits.
