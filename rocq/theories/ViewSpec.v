(** Specification of queries on slices: which tokens of the vector a chain of queries gives. *)
From Coq Require Import String NArith.
From stdpp Require Import prelude list.
From Verif Require Import LexModel LexSpec ViewModel.
Local Open Scope nat_scope.

(** [choose q l D i]: of the tokens [l] whose number is in [D], the query gives the [i]-th: it touches or lies in the span; or
    from it to the one that ends at [pos] (from the one that begins at [pos] to it) all are in [D] and satisfy the predicate. *)
Definition choose (q : query) (l : list cell) (D : nat → Prop) (i : nat) : Prop :=
  match q with
  | QOverlap sp => D i ∧ ∃ c, l !! i = Some c ∧ sp_lo sp < c_hi c ∧ c_lo c < sp_hi sp
  | QInside sp => D i ∧ ∃ c, l !! i = Some c ∧ sp_lo sp ≤ c_lo c ∧ c_hi c ≤ sp_hi sp
  | QEnds p pos => ∃ j, i ≤ j ∧ (∃ c, l !! j = Some c ∧ c_hi c = pos) ∧
      ∀ k, i ≤ k → k ≤ j → D k ∧ ∃ c, l !! k = Some c ∧ p c = true
  | QBegins p pos => ∃ j, j ≤ i ∧ (∃ c, l !! j = Some c ∧ c_lo c = pos) ∧
      ∀ k, j ≤ k → k ≤ i → D k ∧ ∃ c, l !! k = Some c ∧ p c = true
  end.
Fixpoint chooses (qs : list query) (l : list cell) (D : nat → Prop) (i : nat) : Prop :=
  match qs with
  | [] => D i
  | q :: qs => chooses qs l (choose q l D) i
  end.
(** By all queries in turn, from the whole vector. *)
Definition chosen (qs : list query) (l : list cell) : nat → Prop := chooses qs l (λ i, i < length l).

(** Queries by spans only; a token meets such a query. *)
Definition by_span (q : query) : Prop := match q with QOverlap _ | QInside _ => True | _ => False end.
Definition meets (c : cell) (q : query) : Prop :=
  match q with
  | QOverlap sp => sp_lo sp < c_hi c ∧ c_lo c < sp_hi sp
  | QInside sp => sp_lo sp ≤ c_lo c ∧ c_hi c ≤ sp_hi sp
  | _ => False
  end.
#[global] Instance meets_dec c q : Decision (meets c q).
Proof. destruct q; cbn; apply _. Defined.
