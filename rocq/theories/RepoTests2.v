(** The repository's remaining unit tests replayed on the model: packages/teleparse/src/lex,
    src/syntax, and packages/teleparse/tests.  These are tests of the model, not proofs of
    properties. *)
From Coq Require Import String Ascii NArith.
From stdpp Require Import prelude list strings.
From Verif Require Import LexModel SynSetModel TableModel StreamModel TypeModel ProduceModel ParseEx DebugModel TestKit MacroModel.
Local Open Scope string_scope.
Local Open Scope list_scope.
Local Open Scope nat_scope.

Notation "a ~ b" := (Span a b) (at level 5, b at level 0).

(** * lex/set.rs, with the seven token types of src/test.rs 6-15 *)
Definition iter7 (ids : list nat) (k : nat) : option (list (option nat)) :=
  match token_set true 7 ids with Some s => iter_calls true 7 s k iter_START | None => None end.
Example set_new_empty : set_is_empty set_new = true.
Proof. replay. Qed.
Example set_insert_one : match set_insert true 7 set_new 0 with
  | Some s => set_contains true 7 s 0 = Some true ∧ set_is_empty s = false ∧ Some s = token_set true 7 [0]
  | None => False end.
Proof. replay. Qed.
Example set_remove_one : match token_set true 7 [0; 1; 2] with
  | Some s => match set_remove true 7 s 1 with
      | Some s' => set_contains true 7 s' 1 = Some false ∧ Some s' = token_set true 7 [0; 2]
      | None => False end
  | None => False end.
Proof. replay. Qed.
Example set_iter : iter7 [] 1 = Some [None] ∧ iter7 [0] 2 = Some [Some 0; None] ∧
  iter7 [0; 1; 2] 4 = Some [Some 0; Some 1; Some 2; None] ∧
  iter7 [0; 2] 3 = Some [Some 0; Some 2; None] ∧
  iter7 [0; 2; 3; 6] 5 = Some [Some 0; Some 2; Some 3; Some 6; None].
Proof. replay. Qed.

(** * lex/token.rs *)
Example token_src_tests : token_src (Token 0~1 0) "abc" = Some "a" ∧
  token_src (Token 0~0 0) "abc" = Some "" ∧ token_src (Token 1~1 0) "abc" = Some "" ∧
  token_src (Token 1~0 0) "abc" = Some "" ∧ token_src (Token 0~100 0) "abc" = Some "abc".
Proof. replay. Qed.

(** * lex/vec.rs *)
Definition example : list cell :=
  let l := foldl vec_push [] [Token 1~2 1; Token 3~4 2; Token 4~5 2; Token 7~9 1; Token 11~13 2; Token 15~17 2] in
  let l := vec_apply_semantic l 4~9 1 in
  let l := vec_apply_semantic l 3~13 8 in
  vec_apply_semantic l 1~17 16.
Example vec_semantics : map c_sem example = [16; 24; 25; 25; 24; 16]%N.
Proof. replay. Qed.
Example vec_at_span_none : Forall (λ sp, at_span example sp = None) [0~1; 2~3; 1~4; 1~1; 16~17].
Proof. vm_compute. repeat constructor. Qed.
Example vec_at_span_ok : at_span example 1~2 = example !! 0 ∧ at_span example 1~3 = example !! 0 ∧
  at_span example 3~4 = example !! 1 ∧ at_span example 15~18 = example !! 5.
Proof. replay. Qed.
Example vec_overlap_empty : overlap example 2~2 = [] ∧ overlap example 7~7 = [] ∧
  Forall (λ sp, overlap [] sp = []) [0~0; 0~1; 1~2; 2~2; 0~2] ∧ inside [] 2~2 = [] ∧ inside [] 7~7 = [].
Proof. vm_compute. repeat constructor. Qed.
Example vec_overlap_none : overlap example 2~3 = [] ∧ overlap example 9~10 = [] ∧
  inside example 2~3 = [] ∧ inside example 9~10 = [].
Proof. replay. Qed.
(** The matrix of both ends inside, partially inside, outside, touching: span, overlap, inside. *)
Definition matrix : list (span * (nat * nat) * (nat * nat)) :=
  [ (1~9, (0, 4), (0, 4)); (3~8, (1, 4), (1, 3)); (1~10, (0, 4), (0, 4)); (1~15, (0, 5), (0, 5));
    (7~100, (3, 6), (3, 6)); (8~13, (3, 5), (4, 5)); (8~16, (3, 6), (4, 5)); (8~14, (3, 5), (4, 5));
    (8~15, (3, 5), (4, 5)); (12~100, (4, 6), (5, 6)); (6~13, (3, 5), (3, 5)); (6~12, (3, 5), (3, 4));
    (6~14, (3, 5), (3, 5)); (6~15, (3, 5), (3, 5)); (6~100, (3, 6), (3, 6)); (2~13, (1, 5), (1, 5));
    (2~12, (1, 5), (1, 4)); (2~10, (1, 4), (1, 4)); (2~15, (1, 5), (1, 5)); (2~100, (1, 6), (1, 6));
    (0~13, (0, 5), (0, 5)); (0~8, (0, 4), (0, 3)); (0~6, (0, 3), (0, 3)); (0~11, (0, 4), (0, 4));
    (0~100, (0, 6), (0, 6)) ].
Example vec_matrix : Forall (λ '(sp, (a, b), (c, d)),
  overlap example sp = slice example a b ∧ inside example sp = slice example c d) matrix.
Proof. vm_compute. repeat constructor. Qed.
Example vec_both_partially_inside : inside example 8~12 = [].
Proof. replay. Qed.
Example vec_search_lo : map (search_lo example) [0; 4; 8; 5; 14; 16] = [inr 0; inl 2; inr 4; inr 3; inr 5; inr 6].
Proof. replay. Qed.
Example vec_search_hi : map (search_hi example) [0; 1; 2; 4; 6; 13; 18] = [inr 0; inr 0; inl 0; inl 1; inr 3; inl 4; inr 6].
Proof. replay. Qed.
Definition has (id : nat) (c : cell) : bool := N.testbit (c_sem c) (N.of_nat id).
Example vec_begins : begins_at_matches_bounds (λ _, true) example 5 = None ∧
  begins_at_matches_bounds (λ _, true) example 8 = None ∧ begins_at_matches_bounds (has 6) example 11 = None ∧
  begins_at_matches_bounds (has 0) example 7 = Some (3, 4) ∧ begins_at_matches_bounds (has 3) example 7 = Some (3, 5) ∧
  begins_at_matches_bounds (has 4) example 7 = Some (3, 6) ∧ begins_at_matches_bounds (λ _, true) example 7 = Some (3, 6).
Proof. replay. Qed.
Example vec_ends : ends_at_matches_bounds (λ _, true) example 7 = None ∧
  ends_at_matches_bounds (λ _, true) example 10 = None ∧ ends_at_matches_bounds (has 6) example 13 = None ∧
  ends_at_matches_bounds (has 0) example 5 = Some (2, 3) ∧ ends_at_matches_bounds (has 3) example 5 = Some (1, 3) ∧
  ends_at_matches_bounds (has 4) example 5 = Some (0, 3) ∧ ends_at_matches_bounds (λ _, true) example 5 = Some (0, 3).
Proof. replay. Qed.

(** * syntax/lit_set.rs *)
Definition lits (l : list string) : litset := LMatch (list_to_set l).
Notation eqs x y := (bool_decide (x = y) = true).
#[local] Instance litset_dec : EqDecision litset.
Proof. solve_decision. Defined.
Example lit_universe : Forall (λ x, lit_contains LAny x = true) ["" ; "a"; "b"; "c"].
Proof. vm_compute. repeat constructor. Qed.
Example lit_contains_tests : lit_contains (fst (lit_insert lit_new "a")) "a" = true ∧
  lit_contains (fst (lit_insert lit_new "a")) "b" = false.
Proof. replay. Qed.
Example lit_union_universe_tests : lit_union_universe lit_new = (LAny, true) ∧
  lit_union_universe (lits ["a"]) = (LAny, true) ∧ lit_union_universe LAny = (LAny, false).
Proof. replay. Qed.
Example lit_union_tests :
  eqs (fst (lit_union (lits ["a"; "b"]) (lits ["b"; "c"]))) (lits ["a"; "b"; "c"]) ∧
  snd (lit_union (lits ["a"; "b"]) (lits ["b"; "c"])) = true ∧
  snd (lit_union (lits ["a"; "b"]) lit_new) = false ∧
  snd (lit_union (lits ["a"; "b"]) (lits ["a"])) = false ∧
  snd (lit_union (lits ["a"; "b"]) (lits ["a"; "b"])) = false ∧
  eqs (fst (lit_union (lits ["a"; "b"]) (lits ["d"; "c"]))) (lits ["a"; "b"; "c"; "d"]) ∧
  snd (lit_union (lits ["a"; "b"]) (lits ["d"; "c"])) = true.
Proof. replay. Qed.
Example lit_intersects_tests :
  lit_intersects lit_new lit_new = false ∧ lit_intersects lit_new LAny = false ∧
  lit_intersects LAny lit_new = false ∧ lit_intersects LAny LAny = true ∧
  lit_intersects LAny (lits ["a"; "b"]) = true ∧ lit_intersects (lits ["a"; "b"]) LAny = true ∧
  eqs (lit_intersection LAny (lits ["a"; "b"])) (lits ["a"; "b"]) ∧
  eqs (lit_intersection (lits ["a"; "b"]) LAny) (lits ["a"; "b"]) ∧
  lit_intersects (lits ["a"; "b"]) (lits ["c"; "d"]) = false ∧
  lit_intersects (lits ["c"; "d"]) (lits ["a"; "b"]) = false ∧
  eqs (lit_intersection (lits ["a"; "b"]) (lits ["c"; "d"])) lit_new ∧
  eqs (lit_intersection (lits ["c"; "d"]) (lits ["a"; "b"])) lit_new.
Proof. replay. Qed.
Example lit_intersects_tests2 :
  lit_intersects (lits ["a"; "b"]) (lits ["a"]) = true ∧ lit_intersects (lits ["a"]) (lits ["a"; "b"]) = true ∧
  eqs (lit_intersection (lits ["a"]) (lits ["a"; "b"])) (lits ["a"]) ∧
  eqs (lit_intersection (lits ["a"; "b"]) (lits ["a"])) (lits ["a"]) ∧
  lit_intersects (lits ["a"; "b"]) lit_new = false ∧ lit_intersects lit_new (lits ["a"; "b"]) = false ∧
  eqs (lit_intersection lit_new (lits ["a"; "b"])) lit_new ∧
  eqs (lit_intersection (lits ["a"; "b"]) lit_new) lit_new ∧
  eqs (lit_intersection (lits ["a"; "b"; "c"]) (lits ["a"; "c"; "d"])) (lits ["a"; "c"]) ∧
  eqs (lit_intersection (lits ["a"; "c"; "d"]) (lits ["a"; "b"; "c"])) (lits ["a"; "c"]).
Proof. replay. Qed.

(** * syntax/term_set.rs *)
Example term_insert_epsilon :
  let s1 := ts_insert_e ts_new in let s2 := ts_insert_e (fst s1) in
  ts_contains_e ts_new = false ∧ ts_contains ts_new None = false ∧ snd s1 = true ∧
  ts_contains_e (fst s1) = true ∧ ts_contains (fst s1) None = true ∧ snd s2 = false ∧
  ts_contains_e (fst s2) = true ∧ ts_contains (fst s2) None = true.
Proof. replay. Qed.
Example term_insert :
  let s1 := ts_insert ts_new 0 (Some "a") in let s2 := ts_insert (fst s1) 0 (Some "a") in
  let s3 := ts_insert (fst s2) 0 None in let s4 := ts_insert (fst s3) 1 (Some "a") in
  snd s1 = true ∧ ts_contains (fst s1) (Some (0, "a")) = true ∧ snd s2 = false ∧ snd s3 = true ∧
  ts_contains (fst s3) (Some (0, "a")) = true ∧ ts_contains (fst s3) (Some (0, "b")) = true ∧
  ts_contains (fst s3) (Some (1, "a")) = false ∧ snd s4 = true ∧
  ts_contains (fst s4) (Some (1, "a")) = true ∧ ts_contains (fst s4) (Some (1, "b")) = false.
Proof. replay. Qed.
(** A set with the given members, every insertion reporting a change. *)
Fixpoint terms (l : list (nat * option string)) (s : tset) : option tset :=
  match l with
  | [] => Some s
  | (ty, lit) :: l => let '(s', ch) := ts_insert s ty lit in if ch then terms l s' else None
  end.
Definition after_union (a b : list (nat * option string)) : option (string * bool) :=
  match terms a ts_new, terms b ts_new with
  | Some x, Some y => let '(s, ch) := ts_union x y true in Some (reprs_string (λ n, nth n ["A"; "B"] "") (ts_to_repr s), ch)
  | _, _ => None
  end.
Example term_union_empty : ts_union ts_new ts_new true = (ts_new, false).
Proof. replay. Qed.
Example term_union_disjoint :
  after_union [(0, Some "a"); (0, Some "b")] [(1, None)] = Some ("""a"", ""b"", B", true) ∧
  after_union [(1, None)] [(0, Some "a"); (0, Some "b"); (1, None)] = Some ("""a"", ""b"", B", true).
Proof. replay. Qed.
Example term_union_exclude_e :
  match terms [(0, Some "a"); (1, Some "b")] ts_new with
  | Some a => let b := fst (ts_insert_e a) in snd (ts_insert_e a) = true ∧
      ts_e a ≠ ts_e b ∧ snd (ts_union a b false) = false ∧ snd (ts_union a b true) = true
  | None => False end.
Proof. vm_compute. repeat split; congruence. Qed.
Example term_union_to_any :
  after_union [(0, Some "a"); (1, None)] [(0, None); (1, Some "b")] = Some ("A, B", true).
Proof. replay. Qed.

(** * tests/first_follow.rs (and book_ex_recur.rs, the same grammar) *)
Definition word_cls (c : ascii) : cclass :=
  if char_in c " " then CSkip
  else if is_letter c || is_digit c then CRun 0
  else if char_in c "+*=" then CSingle 1
  else if char_in c "()" then CSingle 2
  else CBad.
Definition gE := TNamed 0.
Definition gEprime := TNamed 1.
Definition gEplus := TNamed 2.
Definition gT := TNamed 3.
Definition gTprime := TNamed 4.
Definition gTstar := TNamed 5.
Definition gF := TNamed 6.
Definition textbook : denv :=
  [ struct [gT; gEprime]; struct [TOpt gEplus]; struct [OpAdd; gT; TBox gEprime];
    struct [gF; gTprime]; struct [TOpt gTstar]; struct [OpMul; gF; TBox gTprime];
    enum [Ident; TTuple [POpen; TBox gE; PClose]] ].
Definition first_of (t : ty) : list repr := ts_to_repr (tb_get (md_first (md_get textbook gE)) (key t)).
Definition follow_of (t : ty) : list repr := ts_to_repr (tb_get (md_follow (md_get textbook gE)) (key t)).
Example first_table : map first_of [gE; gT; gF; gEprime; gTprime] =
  [[RTy 0; RLit "("]; [RTy 0; RLit "("]; [RTy 0; RLit "("]; [REmpty; RLit "+"]; [REmpty; RLit "*"]].
Proof. replay. Qed.
Example follow_table : map follow_of [gE; gEprime; gT; gTprime] =
  [[REmpty; RLit ")"]; [REmpty; RLit ")"]; [REmpty; RLit "+"; RLit ")"]; [REmpty; RLit "+"; RLit ")"]] ∧
  Permutation (follow_of gF) [REmpty; RLit "*"; RLit "+"; RLit ")"].
Proof. split; [reflexivity|]. vm_compute. first [reflexivity|apply perm_skip, perm_swap]. Qed.
Example textbook_parse : on word_cls textbook "a+b*c"
  [Parse gE (Some (TrSeq [TrSeq [TrVar 0 (ident 0 1); TrSeq [TrOpt 1~1 None]];
     TrSeq [TrOpt 1~5 (Some (TrSeq [op 1 2;
       TrSeq [TrVar 0 (ident 2 3);
         TrSeq [TrOpt 3~5 (Some (TrSeq [op 3 4; TrVar 0 (ident 4 5); TrSeq [TrOpt 5~5 None]]))]];
       TrSeq [TrOpt 5~5 None]]))]]))].
Proof. replay. Qed.
(** Texts of the tokens of a tree, in order. *)
Fixpoint leaf_texts (src : string) (x : tree) : list string :=
  match x with
  | TrTok t => match token_src t src with Some s => [s] | None => ["?"] end
  | TrSeq l => flat_map (leaf_texts src) l
  | TrVar _ y => leaf_texts src y
  | TrOpt _ o => match o with Some y => leaf_texts src y | None => [] end
  | TrList _ l => flat_map (leaf_texts src) l
  | TrSplit _ a b | TrPunct _ a b => flat_map (leaf_texts src) a ++ flat_map (leaf_texts src) b
  | TrRecover _ o y => match o with Some x => leaf_texts src x | None => [] end ++ leaf_texts src y
  | _ => []
  end.
Definition parse_texts (cls : ascii → cclass) (env : denv) (t : ty) (src : string)
  : option (list string * list (nat * nat * terr)) :=
  match run no_extract (parse env 60 t (inr (md_get env t))) (pst_new src (lex_from cls None 0 src)) with
  | ODone (inr (Some x)) s => Some (leaf_texts src x, map show_err (p_errors s))
  | _ => None
  end.
Example textbook_paren : parse_texts word_cls textbook gE "(a+b)*(c+d)" =
  Some (["("; "a"; "+"; "b"; ")"; "*"; "("; "c"; "+"; "d"; ")"], []).
Proof. replay. Qed.
(** [to_string] of the test prints "a + (b) + c": the partial [* ] factor is dropped. *)
Example textbook_error : parse_texts word_cls textbook gE "a+(b*)+c" =
  Some (["a"; "+"; "("; "b"; ")"; "+"; "c"], [(5, 6, TExpecting [RTy 0; RLit "("])]).
Proof. replay. Qed.

(** * tests/book_ex_simple.rs *)
Definition simple : denv :=
  [ struct [TSplit (TNamed 1) OpAdd]; struct [TSplit (TNamed 2) OpMul];
    enum [Ident; TTuple [POpen; TBox (TNamed 0); PClose]] ].
Example book_simple : match parse_texts word_cls simple (TNamed 0) "(a+b)*(c+d)" with
  | Some (_, []) => True | _ => False end.
Proof. by vm_compute. Qed.
(** * tests/book_terminal.rs *)
Example book_terminal : on word_cls [struct [Ident; Ident; Ident]] "a b c"
  [Parse (TNamed 0) (Some (TrSeq [ident 0 1; ident 2 3; ident 4 5]))] ∧
  on word_cls [] "pizza" [Parse Ident (Some (ident 0 5))].
Proof. replay. Qed.
(** * tests/doc_lex_term_regex.rs *)
Definition KwClass := TTok 1 0 (Some "class").
Example doc_term_regex :
  on word_cls [] "class" [Parse Ident (Some (ident 0 5))] ∧ on word_cls [] "class" [Parse KwClass (Some (ident 0 5))] ∧
  on word_cls [] "javascript" [Parse Ident (Some (ident 0 10))] ∧ on word_cls [] "javascript" [Parse KwClass None].
Proof. replay. Qed.

(** * tests/semantic.rs: token type 3 is Variable *)
Definition OpEq := TTok 6 1 (Some "=").
Definition semantic_env : denv :=
  [ DStruct [(Ident, Some 8%N); (OpEq, None); (TNamed 1, None)];
    struct [TSplit (TNamed 2) OpAdd]; struct [TSplit (TNamed 3) OpMul];
    enum [Ident; TTuple [POpen; TBox (TNamed 1); PClose]] ].
Example semantic_simple :
  match run no_extract (parse semantic_env 60 (TNamed 0) (inr (md_get semantic_env (TNamed 0))))
          (pst_new "a = b + c * d" (lex_from word_cls None 0 "a = b + c * d")) with
  | ODone (inr (Some (TrSeq [v; _; TrSeq [TrSplit _ (b :: _) _]]))) s =>
      option_map (has 3) (at_span (p_tokens s) (tree_span v)) = Some true ∧
      option_map (has 3) (at_span (p_tokens s) (tree_span b)) = Some false
  | _ => False
  end.
Proof. replay. Qed.

(** * tests/lexer.rs: Integer 0, Operator 1, Param 2 *)
Definition lexer_cls (c : ascii) : cclass :=
  if char_in c " " then CSkip
  else if is_digit c then CRun 0
  else if char_in c "+-*/" then CSingle 1
  else if char_in c "()" then CSingle 2
  else CBad.
Definition lexed (src : string) (k : nat) : list (option span * option token) :=
  lexer_calls k (lex_from lexer_cls None 0 src).
Notation tk a b ty := (None, Some (Token (Span a b) ty)).
Example lexer_empty : lexed "" 1 = [(None, None)] ∧ lexed "   " 1 = [(None, None)].
Proof. replay. Qed.
Example lexer_single : lexed "3" 1 = [tk 0 1 0] ∧ lexed "(" 1 = [tk 0 1 2] ∧ lexed "*" 1 = [tk 0 1 1].
Proof. replay. Qed.
Example lexer_basic : lexed "3+4*(5-6)/7" 12 =
  [tk 0 1 0; tk 1 2 1; tk 2 3 0; tk 3 4 1; tk 4 5 2; tk 5 6 0; tk 6 7 1; tk 7 8 0; tk 8 9 2; tk 9 10 1;
   tk 10 11 0; (None, None)].
Proof. replay. Qed.
Example lexer_ignore : lexed "3 + 4  *( 5 -6" 9 =
  [tk 0 1 0; tk 2 3 1; tk 4 5 0; tk 7 8 1; tk 8 9 2; tk 10 11 0; tk 12 13 1; tk 13 14 0; (None, None)].
Proof. replay. Qed.
Example lexer_invalid : lexed "3+ 4 what is (this 5)   invalid" 7 =
  [tk 0 1 0; tk 1 2 1; tk 3 4 0; (Some 5~12, Some (Token 13~14 2)); (Some 14~18, Some (Token 19~20 0));
   tk 20 21 2; (Some 24~31, None)].
Proof. replay. Qed.

(** * tests/ui: declarations refused by [derive_lexicon], and tests/expand.  The regex crate is
    given by its answers on the texts used. *)
Definition rx_valid (r : string) : bool := negb (String.eqb r "\").
Definition rx_find (r s : string) : option (nat * nat) :=
  if String.eqb r "" then Some (0, 0)
  else if String.eqb r "foo" then None
  else if String.eqb r "key" then if String.eqb s "keyboard" then Some (0, 3) else None
  else if String.eqb r "board" then if String.eqb s "keyboard" then Some (3, 8) else None
  else if String.eqb s "" then None else Some (0, String.length s).
Definition lexicon (ignore : list string) (ms : list meta) : merr + acc :=
  expand rx_valid rx_find (LexDecl ignore [Variant ms true]).
Example ui_matches_empty : lexicon [] [MRegex [""]] = inl EEmptyRegex.
Proof. replay. Qed.
Example ui_invalid_ignore : lexicon ["\"] [] = inl EBadRegex.
Proof. replay. Qed.
Example ui_invalid_regex : lexicon [] [MRegex ["\"]] = inl EBadRegex.
Proof. replay. Qed.
Example ui_dupe_literal : lexicon [] [MTerminal [TmLit "Zero" "0"; TmLit "Another" "0"]] = inl EDupLit.
Proof. replay. Qed.
Example ui_dupe_no_literal : lexicon [] [MRegex ["\d+"]; MTerminal [TmAny "Integer"; TmAny "FancyInteger"]] = inl EMultiBare.
Proof. replay. Qed.
Example ui_redundant : lexicon []
  [MTerminal [TmLit "OpAdd" "+"; TmLit "OpSub" "-"; TmLit "OpMul" "*"; TmLit "OpDiv" "/"]; MRegex ["[\+\-\*/]"]] = inl ERedundant.
Proof. replay. Qed.
Example ui_no_match : lexicon [] [MRegex ["foo"]; MTerminal [TmAny "Key"; TmLit "Bar" "bar"]] = inl ENoMatch.
Proof. replay. Qed.
Example ui_prefix : lexicon [] [MRegex ["key"]; MTerminal [TmAny "Key"; TmLit "Keyboard" "keyboard"]] = inl EPrefix.
Proof. replay. Qed.
Example ui_not_start : lexicon [] [MRegex ["board"]; MTerminal [TmAny "Board"; TmLit "Keyboard" "keyboard"]] = inl ENotAtStart.
Proof. replay. Qed.
(** tests/doc_lex_comment.rs: a variant without terminals is extracted. *)
Example doc_comment : match lexicon [] [MRegex ["/\*([^\*]|(\*[^/]))*\*/"]] with
  | inr a => should_extract a 0 = true ∧ derived_logos a = [([RRegex "/\*([^\*]|(\*[^/]))*\*/"], 0)]
  | inl _ => False end.
Proof. replay. Qed.
(** tests/expand/pizza.rs *)
Example expand_pizza : lexicon [] [MTerminal [TmLit "Pizza" "pizza"; TmLit "Pasta" "pasta"]] =
  inr (Acc [0] [[RToken "pizza"; RToken "pasta"]] [] [Terminal "Pizza" 0 (Some "pizza"); Terminal "Pasta" 0 (Some "pasta")]).
Proof. replay. Qed.

(** * tests/expand/syntax_example.rs: both enums are refused and emitted as they are *)
From Verif Require Import SynMacroModel.
Definition union_test : sitem :=
  SItem [] (SdEnum [SVariant [] "Foo" false FsUnit; SVariant [] "Bar" false FsUnit; SVariant [] "Biz" false FsUnit]).
Definition union_override : sitem :=
  SItem [] (SdEnum [SVariant [] "Foo" false FsUnit; SVariant [] "Bar" false (FsUnnamed [SField [] "" (TNamed 0)]);
    SVariant [] "Biz" false (FsUnnamed [SField [] "" (TBox (TNamed 1))])]).
Example expand_syntax_example : expand_syntax union_test = (union_test, inl XOneField) ∧
  expand_syntax union_override = (union_override, inl XOneField).
Proof. done. Qed.
