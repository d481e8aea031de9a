(** Specification of the lists with separators and of [Recover]: what they step over when a
    part is missing. *)
From Coq Require Import String NArith.
From stdpp Require Import prelude list strings.
From Verif Require Import LexModel SynSetModel StreamModel StreamSpec TypeModel ProduceModel ParseSpec LeafSpec.
Local Open Scope nat_scope.

(** The place of the look-ahead. *)
Definition here (extract : nat → bool) (s : pst) : span := at_next (p_src s) (to_come extract s).
(** One of the errors covers the place. *)
Definition reported (es : list perr) (sp : span) : Prop :=
  ∃ e, e ∈ es ∧ sp_lo (e_span e) ≤ sp_lo sp ∧ sp_hi sp ≤ sp_hi (e_span e).

Section lists.
  Context (extract : nat → bool).
  Notation took := (took extract).
  Notation next_tok := (next_tok extract).
  Notation here := (here extract).
  Section tries.
    (** [can]: an item is tried with that look-ahead; [item]: what producing an item may do. *)
    Context (can : option tok → Prop) (item : pst → res tree → pst → Prop).
    (** There is no item: it cannot start here, or it failed on the way. *)
    Inductive missing : pst → pst → Prop :=
    | missing_start s s' : took s [] s' → ¬ can (next_tok s') → missing s s'
    | missing_fail s s1 r s2 s' : took s [] s1 → can (next_tok s1) → item s1 r s2 → value r = None → took s2 [] s' →
        missing s s'.
    Inductive found : pst → tree → list perr → pst → Prop :=
    | found_item s s1 r x s' : took s [] s1 → can (next_tok s1) → item s1 r s' → value r = Some x →
        found s x (errors_of r) s'.

    (** An item is looked for up to the next token with [stop].  What is stepped over is
        neither an item nor such a token, and is reported in [E].  At such a token, and at the
        end of the input, the item is given up; that is reported too ([given_up]), unless the
        item does not even start and [trail] allows the list to end before that token.
        ([norec]: an item is known to fail only with an error; without that the report at the
        end of the input may be missing.) *)
    Context (stop trail : option tok → Prop) (norec : Prop) (E : list perr).
    Definition given_up (s : pst) : Prop := to_come extract s ≠ [] ∨ norec → reported E (here s).
    Inductive tries : pst → option tree → pst → Prop :=
    | tries_found s x es s' : found s x es s' → es ⊆ E → tries s (Some x) s'
    | tries_trail s s' : took s [] s' → ¬ can (next_tok s') → trail (next_tok s') → tries s None s'
    | tries_stop s s' : missing s s' → (next_tok s' = None ∨ stop (next_tok s')) → given_up s' → tries s None s'
    | tries_skip s s1 x tk s2 o s' : missing s s1 → next_tok s1 = Some x → ¬ stop (Some x) →
        took s1 [tk] s2 → reported E (t_span tk) → tries s2 o s' → tries s o s'.
  End tries.

  (** The rest of a list behind its first item: items [xs] and separators [ps].  A separator
      without an item behind it is kept only if [keep]. *)
  Context (can sep follows : option tok → Prop) (item sepr : pst → res tree → pst → Prop)
    (keep : bool) (trail : option tok → Prop) (norec : Prop) (E : list perr).
  Notation tries' := (tries can item (λ o, sep o ∨ follows o) trail norec E).
  Inductive lists : pst → list tree → list tree → pst → Prop :=
  | lists_end s s' : took s [] s' → (next_tok s' = None ∨ ¬ sep (next_tok s')) → lists s [] [] s'
  | lists_fail s s1 r s' : took s [] s1 → sep (next_tok s1) → sepr s1 r s' → value r = None → errors_of r ⊆ E →
      lists s [] [] s'
  | lists_last s p es s1 s' : found sep sepr s p es s1 → es ⊆ E → tries' s1 None s' →
      (next_tok s' = None ∨ follows (next_tok s')) →
      lists s [] (if keep then [p] else []) s'
  | lists_item s p es s1 x s2 xs ps s' : found sep sepr s p es s1 → es ⊆ E → tries' s1 (Some x) s2 → lists s2 xs ps s' →
      lists s (x :: xs) (p :: ps) s'
  | lists_miss s p es s1 s2 xs ps s' : found sep sepr s p es s1 → es ⊆ E → tries' s1 None s2 →
      sep (next_tok s2) → lists s2 xs ps s' →
      lists s xs (if keep then p :: ps else ps) s'.
End lists.

Section tails.
  Context (extract : nat → bool).
  (** The tail of [Recover] is looked for to the end of the input: what is stepped over does
      not start the tail, or starts a tail that fails, and is reported in [E].  (At the end of
      the input a failed tail is tried once more.) *)
  Context (can : option tok → Prop) (item : pst → res tree → pst → Prop) (E : list perr).
  Inductive tails : pst → option tree → pst → Prop :=
  | tails_found s x es s' : found extract can item s x es s' → es ⊆ E → tails s (Some x) s'
  | tails_none s s' : missing extract can item s s' → to_come extract s' = [] → tails s None s'
  | tails_skip s s1 tk s2 o s' : missing extract can item s s1 →
      took extract s1 [tk] s2 → reported E (t_span tk) → tails s2 o s' → tails s o s'
  | tails_again s s1 s2 o s' : missing extract can item s s1 → to_come extract s1 = [] →
      took extract s1 [] s2 → tails s2 o s' → tails s o s'.
End tails.

Section iters.
  Context (extract : nat → bool) (can : option tok → Prop) (item : pst → res tree → pst → Prop) (E : list perr).
  (** Items are taken as long as one can start, or until one fails. *)
  Inductive iters : pst → list tree → pst → Prop :=
  | iters_end s s' : took extract s [] s' → ¬ can (next_tok extract s') → iters s [] s'
  | iters_fail s s1 r s' : took extract s [] s1 → can (next_tok extract s1) → item s1 r s' → value r = None → errors_of r ⊆ E →
      iters s [] s'
  | iters_item s x es s1 xs s' : found extract can item s x es s1 → es ⊆ E → iters s1 xs s' → iters s (x :: xs) s'.
  (** An optional item is tried exactly when it can start; [es] are its errors. *)
  Inductive maybe : pst → option tree → list perr → pst → Prop :=
  | maybe_not s s' : took extract s [] s' → ¬ can (next_tok extract s') → maybe s None [] s'
  | maybe_item s s1 r s2 s' : took extract s [] s1 → can (next_tok extract s1) → item s1 r s2 → took extract s2 [] s' →
      maybe s (value r) (errors_of r) s'.
End iters.

(** [set] is what is listed as expected somewhere in [t]: a terminal, what an enum, an element of
    [Split], or the head or tail of a [Recover] can start with, or what can start an element
    of a [Punct] or follow the list. *)
Definition expected (env : denv) (first follow : prod → tset) (t : ty) (set : tset) : Prop :=
  ∃ c, within env t c ∧
    match c with
    | TTok _ y lit => ∀ o, ts_contains set o = true ↔ ∃ x, o = Some (y, x) ∧ (lit = None ∨ lit = Some x)
    | TNamed n => (∃ vs, env !! n = Some (DEnum vs)) ∧ set = first (key c)
    | TSplit a _ => set = first (key a)
    | TRecover a b => set = first (key a) ∨ set = first (key b)
    | TPunct a p => ∀ x, ts_contains set (Some x) = true ↔
        ts_contains (first (key a)) (Some x) = true ∨ ts_contains (follow (key c)) (Some x) = true
    | _ => False
    end.
