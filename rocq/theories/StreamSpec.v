(** Specification vocabulary for the token stream. *)
From Coq Require Import String.
From stdpp Require Import prelude list.
From Verif Require Import LexModel LexSpec SynSetModel StreamModel.
Local Open Scope nat_scope.

(** Everything the parser has and will get is in order and within the source. *)
Definition state_ok (s : pst) : Prop :=
  spans_ok 0 (String.length (p_src s))
    (map (λ c, t_span (c_tok c)) (p_tokens s) ++
     match p_peeked s with Some t => [t_span t] | None => [] end ++
     map raw_span (p_evs s)).

(** The tokens the syntax will still see, the look-ahead first. *)
Definition to_come (extract : nat → bool) (s : pst) : list token :=
  match p_peeked s with Some t => [t] | None => [] end ++
  filter (λ t, extract (t_ty t) = false) (raw_tokens (p_evs s)).

(** The tokens consumed so far. *)
Definition consumed (s : pst) : list token := map c_tok (p_tokens s).

(** The empty span at the end of the source. *)
Definition at_end (src : string) : span := Span (String.length src) (String.length src).

(** The text of a token of the source. *)
Definition text_of (src : string) (t : token) : option string := token_src t src.

(** The program itself writes no errors (all stream API calls and all [produce] functions). *)
Fixpoint no_extend {A} (m : M A) : Prop :=
  match m with
  | Ret _ | Fuel => True
  | Peek k => ∀ x, no_extend (k x)
  | ToSrc _ k => ∀ x, no_extend (k x)
  | Consume k => ∀ x, no_extend (k x)
  | EmptySpan k => ∀ x, no_extend (k x)
  | CurSpan k => ∀ x, no_extend (k x)
  | GetSrc _ k => ∀ x, no_extend (k x)
  | Apply _ _ k => no_extend k
  | Extend _ _ => False
  end.

(** Blocks of unrecognised text among the events, each merged into one span. *)
Definition bad_text (evs : list raw) : list span := omap (λ b, hull b.1) (raw_blocks [] evs).
