(** The two parsers for arithmetic expressions shown in README.md, and an independent
    description of the expressions. *)
From Coq Require Import String NArith.
From stdpp Require Import prelude list strings.
From Verif Require Import SynSetModel TypeModel ProduceModel SynMacroModel.
Local Open Scope nat_scope.

(** The lexicon, README.md 59-75 (tests/book_ex_simple.rs 3-13): Ident is 0, Op 1, Paren 2. *)
Definition rd_names : list string := ["Ident"; "Op"; "Paren"]%string.
Definition rdIdent := TTok 0 0 None.
Definition rdAdd := TTok 1 1 (Some "+"%string).
Definition rdMul := TTok 2 1 (Some "*"%string).
Definition rdOpen := TTok 3 2 (Some "("%string).
Definition rdClose := TTok 4 2 (Some ")"%string).
Definition tuple_struct (l : list ty) : sdata := SdStruct (FsUnnamed (map (SField [] "") l)).
Definition tuple_variant (name : string) (t : ty) : svariant := SVariant [] name false (FsUnnamed [SField [] "" t]).
(** README.md 77-86: E -> T ( + T )*, T -> F ( * F )*, F -> ( E ) | id *)
Definition rd_items : list sitem :=
  [ SItem [ATele (Some [RmRoot])] (tuple_struct [TSplit (TNamed 1) rdAdd]);
    SItem [] (tuple_struct [TSplit (TNamed 2) rdMul]);
    SItem [] (SdEnum [tuple_variant "Ident" rdIdent; tuple_variant "Paren" (TTuple [rdOpen; TBox (TNamed 0); rdClose])]) ].
(** tests/book_ex_recur.rs 15-53 and README.md 42-47, with recursion: E -> T E',
    E' -> + T E' | epsilon, T -> F T', T' -> * F T' | epsilon.
    E 0, Eprime 1, Eplus 2, T 3, Tprime 4, Tstar 5, F 6 *)
Definition named_struct (l : list (string * ty)) : sdata := SdStruct (FsNamed (map (λ f, SField [] (fst f) (snd f)) l)).
Definition rr_items : list sitem :=
  [ SItem [ATele (Some [RmRoot])] (named_struct [("first", TNamed 3); ("rest", TNamed 1)])%string;
    SItem [] (tuple_struct [TOpt (TNamed 2)]);
    SItem [] (named_struct [("op", rdAdd); ("_t", TNamed 3); ("rest", TBox (TNamed 1))])%string;
    SItem [] (named_struct [("first", TNamed 6); ("rest", TNamed 4)])%string;
    SItem [] (tuple_struct [TOpt (TNamed 5)]);
    SItem [] (named_struct [("op", rdMul); ("_f", TNamed 6); ("rest", TBox (TNamed 4))])%string;
    SItem [] (SdEnum [tuple_variant "Ident" rdIdent; tuple_variant "Paren" (TTuple [rdOpen; TBox (TNamed 0); rdClose])]) ].

(** What the generated code implements (see the example [C86_written]). *)
Definition rd_env : denv :=
  [ DStruct [(TSplit (TNamed 1) rdAdd, None)]; DStruct [(TSplit (TNamed 2) rdMul, None)];
    DEnum [(rdIdent, None); (TTuple [rdOpen; TBox (TNamed 0); rdClose], None)] ].
Definition rr_env : denv :=
  [ DStruct [(TNamed 3, None); (TNamed 1, None)]; DStruct [(TOpt (TNamed 2), None)];
    DStruct [(rdAdd, None); (TNamed 3, None); (TBox (TNamed 1), None)];
    DStruct [(TNamed 6, None); (TNamed 4, None)]; DStruct [(TOpt (TNamed 5), None)];
    DStruct [(rdMul, None); (TNamed 6, None); (TBox (TNamed 4), None)];
    DEnum [(rdIdent, None); (TTuple [rdOpen; TBox (TNamed 0); rdClose], None)] ].

(** Words of [P], one or more, with [op] between them. *)
Inductive joined (op : tok) (P : list tok → Prop) : list tok → Prop :=
| j_one w : P w → joined op P w
| j_more w1 w2 : P w1 → joined op P w2 → joined op P (w1 ++ op :: w2).
(** Sums of products of factors; a factor is an identifier or a sum in parentheses. *)
Inductive factor : list tok → Prop :=
| f_ident x : factor [(0, x)]
| f_paren w : joined (1, "+"%string) (joined (1, "*"%string) factor) w →
    factor ((2, "("%string) :: w ++ [(2, ")"%string)]).
Definition expression : list tok → Prop := joined (1, "+"%string) (joined (1, "*"%string) factor).
(** Beginnings of expressions (by tokens that have some text). *)
Definition beginning (w : list tok) : Prop := ∃ w' : list tok, Forall (λ x, snd x ≠ ""%string) w' ∧ expression (w ++ w').
