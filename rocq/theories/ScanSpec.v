(** A contract for the external tokenizer in terms of the rules it is generated from: longest
    match.  Then the lexicon of README.md and the expressions as texts. *)
From Coq Require Import String Ascii.
From stdpp Require Import prelude list strings.
From Verif Require Import LexModel MacroModel MacroSpec.
Local Open Scope nat_scope.

Section Scan.
  (** [rx_match r w]: the text [w] as a whole is described by the regex [r]. *)
  Variable rx_match : string → string → Prop.
  (** The texts of [ignore(..)], [#[logos(skip ..)]] in lexicon.rs 286, and the rules of the generated enum. *)
  Variable ignore : list string.
  Variable rules : list (list rule * nat).
  (** [w] is described by a rule of token type [ty] ([Some ty]), or is to be ignored ([None]). *)
  Definition is_a (o : option nat) (w : string) : Prop :=
    match o with
    | None => ∃ r, r ∈ ignore ∧ rx_match r w
    | Some ty => ∃ rs r, (rs, ty) ∈ rules ∧ r ∈ rs ∧ rule_matches rx_match r w
    end.
  (** [w] is a longest non-empty beginning of [w ++ rest] that any rule describes, and [o] is its kind. *)
  Definition longest (o : option nat) (w rest : string) : Prop :=
    w ≠ ""%string ∧ is_a o w ∧
    ∀ o' w' rest', w +:+ rest = w' +:+ rest' → is_a o' w' → String.length w' ≤ String.length w.
  (** From position [p] on, where the text [s] is left, the tokenizer reports [evs].  What is
      skipped as an error is some non-empty text where no rule applies.  If texts of the same
      length are of several kinds, any of these may be taken. *)
  Inductive scan : nat → string → list raw → Prop :=
  | scan_end p : scan p "" []
  | scan_skip p w rest evs : longest None w rest → scan (p + String.length w) rest evs → scan p (w +:+ rest) evs
  | scan_token p ty w rest evs : longest (Some ty) w rest → scan (p + String.length w) rest evs →
      scan p (w +:+ rest) (RTok ty (Span p (p + String.length w)) :: evs)
  | scan_error p w rest evs : w ≠ ""%string →
      (∀ o w' rest', w +:+ rest = w' +:+ rest' → is_a o w' → w' = ""%string) →
      scan (p + String.length w) rest evs → scan p (w +:+ rest) (RErr (Span p (p + String.length w)) :: evs).
  (** No part of [s] is of two kinds. *)
  Definition untied (s : string) : Prop := ∀ o o' a w b, s = a +:+ w +:+ b → w ≠ ""%string → is_a o w → is_a o' w → o = o'.
End Scan.
(** Everything was recognised. *)
Definition no_error (evs : list raw) : Prop := ∀ sp, RErr sp ∉ evs.

(** * README.md *)
(** packages/teleparse/README.md 61-75, tests/book_ex_simple.rs 3-12 *)
Definition rd_lex : lexdecl := LexDecl ["\s+"%string]
  [ Variant [MRegex ["\w+"]; MTerminal [TmAny "Ident"]] true;
    Variant [MTerminal [TmLit "OpAdd" "+"; TmLit "OpMul" "*"]] true;
    Variant [MTerminal [TmLit "ParenOpen" "("; TmLit "ParenClose" ")"]] true ]%string.
Fixpoint all_chars (P : ascii → bool) (s : string) : bool :=
  match s with EmptyString => true | String c s => P c && all_chars P s end.
Definition is_ascii (c : ascii) : bool := nat_of_ascii c <? 128.
Definition between (a b : nat) (c : ascii) : bool := (a <=? nat_of_ascii c) && (nat_of_ascii c <=? b).
(** Letters, digits and the underscore; tab, line feed, vertical tab, form feed, carriage return and space. *)
Definition letter (c : ascii) : bool := between 65 90 c || between 97 122 c || between 48 57 c || between 95 95 c.
Definition white (c : ascii) : bool := between 9 13 c || between 32 32 c.
Definition blank (s : string) : Prop := all_chars white s = true.
(** A non-empty run of letters. *)
Definition name (s : string) : Prop := s ≠ ""%string ∧ all_chars letter s = true.
(** What the two regexes describe among ASCII texts. *)
Definition ascii_classes (rx_match : string → string → Prop) : Prop := ∀ w, all_chars is_ascii w = true →
  (rx_match "\w+"%string w ↔ name w) ∧ (rx_match "\s+"%string w ↔ w ≠ ""%string ∧ blank w).

(** Expressions as text: names, [+], [*] and parentheses, with white space anywhere but inside names. *)
Inductive sum_text : string → Prop :=
| sum_one s : product_text s → sum_text s
| sum_more s1 s2 : product_text s1 → sum_text s2 → sum_text (s1 +:+ "+" +:+ s2)
with product_text : string → Prop :=
| product_one s : factor_text s → product_text s
| product_more s1 s2 : factor_text s1 → product_text s2 → product_text (s1 +:+ "*" +:+ s2)
with factor_text : string → Prop :=
| factor_name s : name s → factor_text s
| factor_paren s : sum_text s → factor_text ("(" +:+ s +:+ ")")
| factor_space g s h : blank g → blank h → factor_text s → factor_text (g +:+ s +:+ h).
