(** Specification of [tp::Loop]: a list that goes on to the end of the input and steps over what
    cannot start an item. *)
From Coq Require Import String NArith.
From stdpp Require Import prelude list strings.
From Verif Require Import LexModel SynSetModel StreamModel StreamSpec TypeModel ProduceModel ParseSpec.
Local Open Scope nat_scope.

(** The source from the start of the first to the end of the last of the tokens. *)
Definition cover (l : list token) : option span :=
  match head l, last l with
  | Some a, Some b => Some (Span (sp_lo (t_span a)) (sp_hi (t_span b)))
  | _, _ => None
  end.
(** No [NoAdvance] among the errors. *)
Definition advances (es : list perr) : Prop := Forall (λ e, e_kind e ≠ NoAdvance) es.

Section loops.
  (** [can]: the item can start with that token; [item]: what producing an item may do. *)
  Context (extract : nat → bool) (can : tok → Prop) (item : pst → res tree → pst → Prop).
  Notation took := (took extract).
  Notation next_tok := (next_tok extract).
  (** [loops s xs es s']: going from [s] to [s'], items [xs] were found and errors [es] reported. *)
  Inductive loops : pst → list tree → list perr → pst → Prop :=
  | loops_end s s' : took s [] s' → to_come extract s' = [] → loops s [] [] s'
  | loops_skip s l sp s1 xs es s' :
      took s l s1 → Forall (λ x, ¬ can x) (word (p_src s) l) → (∀ x, next_tok s1 = Some x → can x) →
      cover l = Some sp → loops s1 xs es s' → loops s xs (PErr sp UnexpectedTokens :: es) s'
  | loops_item s s1 x r s2 xs es s' :
      took s [] s1 → next_tok s1 = Some x → can x → item s1 r s2 → ¬ took s1 [] s2 →
      loops s2 xs es s' → loops s (option_list (value r) ++ xs) (errors_of r ++ es) s'
  | loops_stuck s s1 x r s2 sp s' :
      took s [] s1 → next_tok s1 = Some x → can x → item s1 r s2 → took s1 [] s2 → took s2 [] s' →
      loops s (option_list (value r)) (errors_of r ++ [PErr sp NoAdvance]) s'.
End loops.
