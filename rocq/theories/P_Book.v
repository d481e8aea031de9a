(** Property theorems about the violations listed in the book (C95).

    [lang env t w] (ParseSpec): [w] is a sentence of the type [t].  [begins], [apart], [skip_by_token],
    [choice_by_token], [by_token] (BookSpec): what it means that one token decides. *)
From Coq Require Import String.
From stdpp Require Import prelude list strings.
From Verif Require Import LexModel LexSpec SynSetModel TableModel StreamModel TypeModel TypeSpec ProduceModel DebugModel RootModel
  CfgSpec ParseSpec ParseEx CompleteEx BookSpec BookFacts.
Local Open Scope string_scope.
Local Open Scope list_scope.
Local Open Scope nat_scope.

(** ** C95: what one token cannot decide is refused *)
(** In an accepted root, for every type used in it, one token decides: between the variants of an enum; whether a
    nullable part of a sequence is there; whether an optional or repeated part is there, which is never itself
    nullable; elements and delimiters of a list are not both nullable. *)
Theorem C95_by_token : ∀ env root md, accepted env root md → all_within env (by_token env) root.
Proof. exact accepted_by_token. Qed.
Print Assumptions C95_by_token.
Example C95_ex : accepted ex_env exE (md_get ex_env exE) ∧ accepted [] inT (md_get [] inT).
Proof. split; [exact ex_accepted|]. apply md_get_accepted. by vm_compute. Qed.
(** This is so when the test generated for the root passes. *)
Theorem C95_test : ∀ tn dn ln env root regs iter m,
  register_root env (prod_of root) = Some regs → iter ≡ₚ regs → meta_build regs iter (key root) = Some m →
  assert_ll1 tn dn ln root m = None → all_within env (by_token env) root.
Proof. exact tested_by_token. Qed.
Print Assumptions C95_test.
(** And the test passes for every accepted root, whatever the names are. *)
Theorem C95_test_passes : ∀ tn dn ln env root regs iter m,
  register_root env (prod_of root) = Some regs → iter ≡ₚ regs → meta_build regs iter (key root) = Some m →
  assert_ll1 tn dn ln root m = None ↔ ∃ md, m = inr md ∧ accepted env root md.
Proof. exact tested_accepted. Qed.
Print Assumptions C95_test_passes.
(** The cases named in the book: [Option<Option<T>>], [Vec<Option<T>>], [(Option<T>, T)] (here anywhere in a tuple).
    For the last one [T] must have a sentence at all. *)
Theorem C95_option_option : ∀ env root md t, accepted env root md → ¬ within env root (TOpt (TOpt t)).
Proof. exact no_opt_opt. Qed.
Print Assumptions C95_option_option.
Theorem C95_vec_option : ∀ env root md t, accepted env root md → ¬ within env root (TStar (TOpt t)).
Proof. exact no_star_opt. Qed.
Print Assumptions C95_vec_option.
Theorem C95_nev_option : ∀ env root md t, accepted env root md → ¬ within env root (TPlus (TOpt t)).
Proof. exact no_plus_opt. Qed.
Print Assumptions C95_nev_option.
Theorem C95_option_before : ∀ env root md l1 t l2, accepted env root md → (∃ w, lang env t w) →
  ¬ within env root (TTuple (l1 ++ TOpt t :: t :: l2)).
Proof. exact no_opt_before. Qed.
Print Assumptions C95_option_before.
(** The example of syntax_analysis/ll1.md: [Decl => PubEnum | PubStruct], both beginning with "pub", with the text the
    book shows; the rewritten one passes. *)
Example C95_book_ex :
  let kw n x := TTok n 0 (Some x) in
  let decl := [DEnum [(TNamed 1, None); (TNamed 2, None)]; DStruct [(kw 0 "pub", None); (kw 1 "enum", None)];
               DStruct [(kw 0 "pub", None); (kw 2 "struct", None)]] in
  let fixed := [DStruct [(kw 0 "pub", None); (TNamed 1, None)]; DEnum [(kw 1 "enum", None); (kw 2 "struct", None)]] in
  let names l n := default "" (l !! n) in
  let test env := match register_root env (PNamed 0) with
    | Some regs => match meta_build regs regs (PNamed 0) with
      | Some m => Some (assert_ll1 (names ["KwPub"; "KwEnum"; "KwStruct"]) (names ["Decl"; "PubEnum"; "PubStruct"])
                          (names ["Keyword"]) (TNamed 0) m)
      | None => None end
    | None => None end in
  test decl = Some (Some "Decl is not LL(1): The non-terminal `Decl` has a FIRST/FIRST conflict producing either `PubEnum` or `PubStruct`. The conflicting terminals are: ""pub""") ∧
  test fixed = Some None.
Proof. by vm_compute. Qed.
