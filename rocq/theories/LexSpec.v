(** Specifications for the lexing layer, independent of the modelled code. *)
From Coq Require Import String Ascii.
From stdpp Require Import prelude list.
From Verif Require Import LexModel.
Local Open Scope nat_scope.

(** Mathematical meaning of a program over sets of token types. *)
Fixpoint set_member (e : set_expr) (id : nat) : Prop :=
  match e with
  | SNew => False
  | SInsert e i => id = i ∨ set_member e id
  | SRemove e i => id ≠ i ∧ set_member e id
  | SUnion a b => set_member a id ∨ set_member b id
  | STokenSet ids => id ∈ ids
  end.

(** The same when types with equal remainders modulo 32 count as one type: is the type
    with remainder [r] in the set? *)
Fixpoint folded (e : set_expr) (r : nat) : Prop :=
  match e with
  | SNew => False
  | SInsert e i => r = i mod 32 ∨ folded e r
  | SRemove e i => r ≠ i mod 32 ∧ folded e r
  | SUnion a b => folded a r ∨ folded b r
  | STokenSet ids => ∃ i, i ∈ ids ∧ r = i mod 32
  end.

(** All token types mentioned are variants of the lexicon. *)
Fixpoint set_expr_ok (n : nat) (e : set_expr) : Prop :=
  match e with
  | SNew => True
  | SInsert e i => i < n ∧ set_expr_ok n e
  | SRemove e i => i < n ∧ set_expr_ok n e
  | SUnion a b => set_expr_ok n a ∧ set_expr_ok n b
  | STokenSet ids => ∀ i, i ∈ ids → i < n
  end.

(** Non-empty spans in increasing order, without overlap, from position [from]
    and not beyond [len]. *)
Fixpoint spans_ok (from len : nat) (l : list span) : Prop :=
  match l with
  | [] => from ≤ len
  | s :: r => from ≤ sp_lo s ∧ sp_lo s < sp_hi s ∧ spans_ok (sp_hi s) len r
  end.

(** The contract on the external tokenizer. *)
Definition raw_ok (len : nat) (evs : list raw) : Prop := spans_ok 0 len (map raw_span evs).

(** Stored tokens are in order. *)
Definition cells_ok (len : nat) (l : list cell) : Prop :=
  spans_ok 0 len (map (λ c, t_span (c_tok c)) l).

(** The valid tokens among the tokenizer's events. *)
Fixpoint raw_tokens (evs : list raw) : list token :=
  match evs with
  | [] => []
  | RTok ty sp :: r => Token sp ty :: raw_tokens r
  | RErr _ :: r => raw_tokens r
  end.

(** The hull of a block of errors: from the start of the first to the end of the last. *)
Definition hull (l : list span) : option span :=
  match l with
  | [] => None
  | s :: _ => Some (Span (sp_lo s) (sp_hi (default s (last l))))
  end.

(** The spans returned by a sequence of lexer calls, in order. *)
Definition out_spans (l : list (option span * option token)) : list span :=
  flat_map (λ '(i, t), match i with Some s => [s] | None => [] end ++
                       match t with Some t => [t_span t] | None => [] end) l.

(** errors preceding each valid token, and the trailing ones *)
Fixpoint raw_blocks (acc : list span) (evs : list raw) : list (list span * option token) :=
  match evs with
  | [] => [(acc, None)]
  | RTok ty sp :: r => (acc, Some (Token sp ty)) :: raw_blocks [] r
  | RErr sp :: r => raw_blocks (acc ++ [sp]) r
  end.

(** The stored token lies within the query span. *)
Definition is_inside (sp : span) (c : cell) : Prop := sp_lo sp ≤ c_lo c ∧ c_hi c ≤ sp_hi sp.
#[global] Instance is_inside_dec sp c : Decision (is_inside sp c).
Proof. unfold is_inside. apply _. Defined.

(** a position common to the half-open intervals of the query and the token *)
Definition is_overlapping (sp : span) (c : cell) : Prop :=
  Nat.max (sp_lo sp) (c_lo c) < Nat.min (sp_hi sp) (c_hi c).
#[global] Instance is_overlapping_dec sp c : Decision (is_overlapping sp c).
Proof. unfold is_overlapping. apply _. Defined.
