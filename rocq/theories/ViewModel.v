(** Queries on token slices, one after the other: [tokens.overlap_mut(a).inside_mut(b).apply_semantic(s)]
    (packages/teleparse/src/lex/vec.rs). *)
From Coq Require Import String NArith.
From stdpp Require Import prelude list.
From Verif Require Import LexModel.
Local Open Scope nat_scope.

(** [overlap(_mut)], [inside(_mut)], [ends_at_matches(_mut)], [begins_at_matches(_mut)], vec.rs 129-161, 238-264, 292-318.
    A predicate is total: a closure that panics is not modelled. *)
Inductive query :=
| QOverlap (sp : span)
| QInside (sp : span)
| QEnds (p : cell → bool) (pos : nat)
| QBegins (p : cell → bool) (pos : nat).
(** The [_bounds] function called, vec.rs 130, 141, 149, 157, 243, 260, 297, 314. *)
Definition bounds (q : query) (l : list cell) : option (nat * nat) :=
  match q with
  | QOverlap sp => overlap_bounds l sp
  | QInside sp => inside_bounds l sp
  | QEnds p pos => ends_at_matches_bounds p l pos
  | QBegins p pos => begins_at_matches_bounds p l pos
  end.
(** The slice returned: [overlap] and [inside] return an empty one without bounds (vec.rs 130-133, 149-152), the other two
    return [None] (vec.rs 243-246, 297-300). *)
Definition view (q : query) (l : list cell) : option (list cell) :=
  match bounds q l with
  | Some (lo, hi) => Some (slice l lo hi)
  | None => match q with QOverlap _ | QInside _ => Some [] | QEnds _ _ | QBegins _ _ => None end
  end.
(** Each query is asked of the slice the one before has returned ([?] on the [Option]s). *)
Fixpoint views (qs : list query) (l : list cell) : option (list cell) :=
  match qs with
  | [] => Some l
  | q :: qs => view q l ≫= views qs
  end.
(** The vector after [f] has changed the cells of the last slice in place: [&mut self.0[lo..hi]] (vec.rs 142, 158, 261, 315)
    is the same memory as the cells [lo..hi] of [self]; nothing is written through [&mut []] (vec.rs 143, 159). *)
Fixpoint views_mut (qs : list query) (f : list cell → list cell) (l : list cell) : list cell :=
  match qs with
  | [] => f l
  | q :: qs =>
    match bounds q l with
    | Some (lo, hi) => take lo l ++ views_mut qs f (slice l lo hi) ++ drop hi l
    | None => l
    end
  end.
(** [….apply_semantic(sem)], vec.rs 226-230, at the end of the chain *)
Definition views_apply (qs : list query) (sem : N) : list cell → list cell := views_mut qs (map (cell_apply sem)).

(** Several such statements one after the other *)
Definition marks (ops : list (list query * N)) (l : list cell) : list cell := fold_left (λ l op, views_apply op.1 op.2 l) ops l.

(** [Cell::types], vec.rs 393-397 ([Cell::semantics], vec.rs 402-404, is [c_sem]); [n] tokens in the lexicon, [None] = panic *)
Definition cell_types (dbg : bool) (n : nat) (c : cell) : option N := set_insert dbg n (c_sem c) (t_ty (c_tok c)).
