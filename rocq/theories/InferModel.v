(** Model of the inference of the lexicon type, [Production::L], by the Rust compiler from the implementations in
    tp_impl/*.rs and the derived ones (macros/src/syntax.rs, lexicon.rs).  The compiler resolves the requirement
    [P: Production] with its [L] by going through the requirements of the implementation for [P]; if these go round in
    a circle it gives up ("overflow evaluating the requirement", packages/book/src/syntax_analysis/recursion.md).
    No proofs in this file. *)
From Coq Require Import String.
From stdpp Require Import prelude list.
From Verif Require Import SynSetModel TableModel TypeModel.
Local Open Scope nat_scope.

(** Resolved to lexicon [l]; given up; no implementation or contradicting requirements. *)
Inductive lres := LOk (l : nat) | LOverflow | LMismatch.
(** Bounds [Production<L = ..>] on several parts, the first of which gives [L]. *)
Fixpoint agree (r : lres) (rs : list lres) : lres :=
  match rs with
  | [] => r
  | r' :: rs =>
    match r, r' with
    | LOverflow, _ | _, LOverflow => LOverflow
    | LOk l, LOk l' => if l =? l' then agree r rs else LMismatch
    | _, _ => LMismatch
    end
  end.

Section infer.
  Variable env : denv.
  (** The enum a terminal struct was declared in. *)
  Variable tl : nat → nat.

  (** [<P as Production>::L].  The fuel is the compiler's recursion limit, which is counted per step here.
      Terminals lexicon.rs 452; declared types: that of the first field or variant, syntax.rs 105, 194, 313;
      tuples tuple.rs 8-12; [OptionProd] option.rs 14-15; [OneOrMore] iter.rs 13-14; [PunctProd] punct.rs 12-14;
      [Box] boxed.rs 5-7 with ast.rs 50.  [Epsilon<L>] (ast.rs 9-10) only occurs as [Epsilon<T::L>], after [T] has been
      resolved, and is not asked for. *)
  Fixpoint lexicon (f : nat) (p : prod) : lres :=
    match f with
    | O => LOverflow
    | S f =>
      match p with
      | PTok name _ _ => LOk (tl name)
      | PNamed n =>
        match env !! n with
        | Some d => match decl_fields d with (t, _) :: _ => lexicon f (prod_of t) | [] => LMismatch end
        | None => LMismatch
        end
      | PTuple (p :: ps) => agree (lexicon f p) (map (lexicon f) ps)
      | PTuple [] => LMismatch
      | POpt p | POneMore p | PBox p => lexicon f p
      | PPunct p q => agree (lexicon f p) [lexicon f q]
      | PEps => LMismatch
      end
    end.
  (** The code derived for the [n]th declaration compiles, as far as lexicons go: in [register] (syntax.rs 109-111) and
      [produce] (122-136) every field or variant must be of the lexicon [Self::L]. *)
  Definition checks (f n : nat) : Prop :=
    ∃ l d, lexicon f (PNamed n) = LOk l ∧ env !! n = Some d ∧
      Forall (λ p, lexicon f p = LOk l) (field_prods (decl_fields d)).
  (** All declarations do. *)
  Definition compiles (f : nat) : Prop := ∀ n, n < length env → checks f n.
End infer.
