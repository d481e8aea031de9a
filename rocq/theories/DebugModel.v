(** Model of the printed names of productions ([Production::debug]) and of terminal sets,
    which appear in the texts of grammar errors, and of [Error::message].  No proofs in this file. *)
From Coq Require Import String Ascii.
From stdpp Require Import prelude list strings.
From Verif Require Import LexModel SynSetModel TableModel TypeModel StreamModel.
Local Open Scope string_scope.
Local Open Scope nat_scope.

(** [str::strip_suffix] of the standard library, for a suffix of two characters. *)
Fixpoint strip_suffix2 (suf s : string) : option string :=
  if String.eqb s suf then Some "" else
  match s with
  | EmptyString => None
  | String c r => match strip_suffix2 suf r with Some x => Some (String c x) | None => None end
  end.

(** [OptionProd::debug], option.rs 17-28 *)
Definition opt_debug (inner : string) : string :=
  let dflt := String.append "(" (String.append inner ")?") in
  match inner with
  | String "("%char rest =>
      match strip_suffix2 ")+" rest with
      | Some x => String.append "(" (String.append x ")*")
      | None =>
          match strip_suffix2 "]+" rest with
          | Some x => String.append "(" (String.append x "]*")
          | None => dflt
          end
      end
  | _ => dflt
  end.

Section debug.
  (** Names of the terminal structs and of the declared structs and enums. *)
  Variable tok_name : nat → string.
  Variable decl_name : nat → string.

  (** [Production::debug]: terminals lexicon.rs 405-408 and 453-455, declarations syntax.rs
      107-109, 196-198, 315-317, tuples tuple.rs 13-21, [OptionProd] option.rs 17-28, [OneOrMore]
      iter.rs 16-18, [PunctProd] punct.rs 16-18, [Epsilon] ast.rs 12-14, [Box] ast.rs 56-58 *)
  Fixpoint debug (p : prod) : string :=
    match p with
    | PTok n _ (Some lit) => lit
    | PTok n _ None => tok_name n
    | PNamed n => decl_name n
    | PTuple l => String.concat " " (map debug l)
    | POpt q => opt_debug (debug q)
    | POneMore q => String.append "( " (String.append (debug q) " )+")
    | PPunct q r =>
        String.append "( " (String.append (debug q) (String.append " )[" (String.append (debug r) "]+")))
    | PEps => "()"
    | PBox q => debug q
    end.

  (** Name of a token type ([format!("{ty:?}")]). *)
  Variable ty_name : nat → string.
  (** Printed items of a set, term_set.rs 202-245 *)
  Definition repr_string (r : repr) : string :=
    match r with
    | REmpty => "<empty>"
    | RLit s => String.append """" (String.append s """")
    | RTy ty => ty_name ty
    end.
  (** Insertion into a [BTreeSet<String>]. *)
  Fixpoint bt_insert (x : string) (l : list string) : list string :=
    match l with
    | [] => [x]
    | y :: r => if String.eqb x y then l else if String.leb x y then x :: l else y :: bt_insert x r
    end.
  (** The items of a [BTreeSet<String>] joined by ", " (metadata.rs 219-222, error.rs 34). *)
  Definition reprs_string (rs : list repr) : string :=
    String.concat ", " (foldr bt_insert [] (map repr_string rs)).

  (** The texts of a [GrammarError], lib.rs 66-84, filled in at metadata.rs 107-112, 213-228,
      255-264, 292-299 *)
  Definition gerr_strings (e : gerr prod) : list string :=
    match e with
    | GLeftRecursion st t =>
        [String.append (String.concat " -> " (map debug st)) (String.append " -> " (debug t))]
    | GFirstFirst self a b r => [debug self; debug a; debug b; reprs_string r]
    | GFirstFollow self r => [debug self; reprs_string r]
    | GSeq self a b r => [debug self; debug a; debug b; reprs_string r]
    end.

  (** [Display] of [GrammarError], the formats of lib.rs 69-76 *)
  Definition gerr_display (e : gerr prod) : string :=
    match gerr_strings e, e with
    | [x], GLeftRecursion _ _ => String.append "Left recursion detected in the grammar! Stack: " x
    | [x; y; z; w], GFirstFirst _ _ _ _ =>
        String.concat "" ["The non-terminal `"; x; "` has a FIRST/FIRST conflict producing either `"; y; "` or `"; z;
          "`. The conflicting terminals are: "; w]
    | [x; y; z; w], GSeq _ _ _ _ =>
        String.concat "" ["The non-terminal `"; x; "` has a FIRST/FOLLOW conflict producing `"; y; "` followed by `"; z;
          "`. `"; y; "` can be empty and both can start with: "; w]
    | [x; y], GFirstFollow _ _ =>
        String.concat "" ["The non-terminal `"; x; "` has conflict in its FIRST and FOLLOW sets. The conflicting terminals are: "; y]
    | _, _ => ""
    end.

  (** [Error::message], syntax/error.rs 24-41.  [None]: the slice in [Span::get] panics. *)
  Definition message (e : perr) (input : string) : option string :=
    match e_kind e with
    | UnexpectedCharacters => option_map (String.append "Unexpected: ") (span_get (e_span e) input)
    | UnexpectedTokens => option_map (String.append "Unexpected token(s): ") (span_get (e_span e) input)
    | Expecting s => Some (String.append "Expecting one of " (reprs_string (ts_to_repr s)))
    | UnexpectedEof => Some "Unexpected end of file"
    | NoAdvance => Some "Unexpected: Parser did not advance in a loop. The grammar is probably not LL(1), and this is a bug since the parser should catch that before parsing."
    end.
End debug.
