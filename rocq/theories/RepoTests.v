(** The repository's unit tests of packages/teleparse/src/tp_impl replayed on the model: same
    declarations, same inputs, same expected trees, errors and remaining texts.  These are
    tests of the model, not proofs of properties. *)
From Coq Require Import String NArith.
From stdpp Require Import prelude list strings.
From Verif Require Import LexModel SynSetModel TableModel StreamModel TypeModel ProduceModel ParseEx DebugModel TestKit.
Local Open Scope string_scope.
Local Open Scope list_scope.
Local Open Scope nat_scope.

Notation R0 := (TNamed 0).
Notation one x := (Some (TrSeq [x])).
Notation "a ~ b" := (Span a b) (at level 5, b at level 0).
Notation EIdent := (TExpecting [RTy 0]).
Notation EAdd := (TExpecting [RLit "+"]).
Notation EOpen := (TExpecting [RLit "("]).
Notation EClose := (TExpecting [RLit ")"]).

(** * iter.rs *)
Definition IdentList := [struct [TPlus Ident]].
Example iter_single : math IdentList "a" [Parse R0 (one (TrList 0~1 [ident 0 1]))].
Proof. replay. Qed.
Example iter_two : math IdentList "a b" [Parse R0 (one (TrList 0~3 [ident 0 1; ident 2 3]))].
Proof. replay. Qed.
Example iter_many : math IdentList "a b c  d e"
  [Parse R0 (one (TrList 0~10 [ident 0 1; ident 2 3; ident 4 5; ident 7 8; ident 9 10]))].
Proof. replay. Qed.
Example iter_panic : math IdentList "a b c+e"
  [Parse R0 (one (TrList 0~5 [ident 0 1; ident 2 3; ident 4 5]));
   Remaining "+e"; Parse R0 None; Remaining "+e"; ConsumeTok;
   Parse R0 (one (TrList 6~7 [ident 6 7]))].
Proof. replay. Qed.
Definition ListPlusList := [struct [TPlus Ident; OpAdd; TPlus Ident]].
Example iter_single_each : math ListPlusList "a+ b"
  [Parse R0 (Some (TrSeq [TrList 0~1 [ident 0 1]; op 1 2; TrList 3~4 [ident 3 4]]))] ∧
  tree_span (TrSeq [TrList 0~1 [ident 0 1]; op 1 2; TrList 3~4 [ident 3 4]]) = 0~4.
Proof. replay. Qed.
Example iter_multiple_each : math ListPlusList "a b c + b c d"
  [Parse R0 (Some (TrSeq [TrList 0~5 [ident 0 1; ident 2 3; ident 4 5]; op 6 7;
                          TrList 8~13 [ident 8 9; ident 10 11; ident 12 13]]))].
Proof. replay. Qed.
Example iter_list_of_option : not_ll1 [struct [TPlus (TOpt Ident)]] ["ListOfOption"] R0 =
  Some ["FirstFollowSeqConflict"; "( (Ident)? )+"; "(Ident)?"; "( (Ident)? )*"; "Ident"].
Proof. replay. Qed.
Example iter_same_list : not_ll1 [struct [TPlus OpAdd; TPlus OpAdd]] ["SameList"] R0 =
  Some ["FirstFollowConflict"; "( + )*"; """+"""].
Proof. replay. Qed.
Definition SeparatedList := [struct [Ident; TPlus (TTuple [OpAdd; Ident])]].
Example iter_separated : math SeparatedList "a + b + c"
  [Parse R0 (Some (TrSeq [ident 0 1; TrList 2~9 [TrSeq [op 2 3; ident 4 5]; TrSeq [op 6 7; ident 8 9]]]))].
Proof. replay. Qed.
Example iter_separated_multiple : math SeparatedList "a  +b c+e"
  [Parse R0 (Some (TrSeq [ident 0 1; TrList 3~5 [TrSeq [op 3 4; ident 4 5]]])); Remaining "c+e";
   Parse R0 (Some (TrSeq [ident 6 7; TrList 7~9 [TrSeq [op 7 8; ident 8 9]]])); Remaining ""].
Proof. replay. Qed.
Example iter_separated_panic : math SeparatedList "a + b + +e"
  [Parse R0 (Some (TrSeq [ident 0 1; TrList 2~5 [TrSeq [op 2 3; ident 4 5]]])); Remaining "+e";
   Errors [(8, 9, EIdent)]].
Proof. replay. Qed.
Definition IdentListStar := [struct [TStar Ident]].
Example iter_star : math IdentListStar "" [Parse R0 (one (TrList 0~0 []))] ∧
  math IdentListStar "a b c" [Parse R0 (one (TrList 0~5 [ident 0 1; ident 2 3; ident 4 5]))].
Proof. replay. Qed.
Example iter_consecutive_star : not_ll1 [struct [TStar Ident; TStar Ident]] ["ConsecutiveStar"] R0 =
  Some ["FirstFollowSeqConflict"; "ConsecutiveStar"; "( Ident )*"; "( Ident )*"; "Ident"].
Proof. replay. Qed.
Definition LoopRoot := [struct [TLoop Ident]].
Example iter_loop : math LoopRoot "" [Parse R0 (one (TrList 0~0 []))] ∧
  math LoopRoot "+++" [Parse R0 (one (TrList 3~3 []))] ∧
  math LoopRoot "a b c" [Parse R0 (one (TrList 0~5 [ident 0 1; ident 2 3; ident 4 5]))].
Proof. replay. Qed.
Example iter_loop_recover : math LoopRoot "+a+ b++ c"
  [Parse R0 (one (TrList 1~9 [ident 1 2; ident 4 5; ident 8 9]));
   Errors [(0, 1, TUnexpectedTokens); (2, 3, TUnexpectedTokens); (5, 7, TUnexpectedTokens)]].
Proof. replay. Qed.
Example iter_loop_option : not_ll1 [struct [TLoop (TOpt Ident)]] ["LoopOption"] R0 =
  Some ["FirstFollowSeqConflict"; "( (Ident)? )+"; "(Ident)?"; "( (Ident)? )*"; "Ident"].
Proof. replay. Qed.
Example iter_loop_not_stuck : math [struct [TLoop (TRecover Ident (TOpt OpAdd))]] "(((("
  [Parse R0 (one (TrList 4~4 [])); Errors [(0, 4, TUnexpectedTokens)]].
Proof. replay. Qed.
Example iter_loop_recover_option :
  not_ll1 [struct [TLoop (TRecover (TOpt Ident) (TOpt OpAdd))]] ["LoopRecover2"] R0 =
  Some ["FirstFollowSeqConflict"; "( (Ident)? (+)? )+"; "(Ident)? (+)?"; "( (Ident)? (+)? )*"; """+"", Ident"].
Proof. replay. Qed.

(** * option.rs *)
Definition OptIdent := [struct [TOpt Ident]].
Example option_none : math OptIdent "+" [Parse R0 (one (TrOpt 0~0 None))].
Proof. replay. Qed.
Example option_some : math OptIdent "a" [Parse R0 (one (TrOpt 0~1 (Some (ident 0 1))))].
Proof. replay. Qed.
Example option_seq : not_ll1 [struct [TOpt OpAdd; OpAdd]] ["Seq"] R0 =
  Some ["FirstFollowSeqConflict"; "Seq"; "(+)?"; "+"; """+"""].
Proof. replay. Qed.
Example option_seq2 : math [struct [OpAdd; TOpt OpAdd]] "+    "
  [Parse R0 (Some (TrSeq [op 0 1; TrOpt 1~1 None]))].
Proof. replay. Qed.
Example option_nested : not_ll1 [struct [TOpt (TOpt Ident)]] ["Nested"] R0 =
  Some ["FirstFirstConflict"; "((Ident)?)?"; "(Ident)?"; "()"; "<empty>"].
Proof. replay. Qed.
Example option_exist : math [struct [TExists Ident]] "a" [Parse R0 (one (TrExists 0~1 true))] ∧
  math [struct [TExists Ident]] "+" [Parse R0 (one (TrExists 0~0 false))].
Proof. replay. Qed.

(** * tuple.rs *)
Definition Tuple2 := [struct [Ident; Ident]].
Example tuple_2 : math Tuple2 "a b" [Parse R0 (Some (TrSeq [ident 0 1; ident 2 3]))] ∧
  math Tuple2 "+" [Parse R0 None] ∧
  math Tuple2 "a b c" [Parse R0 (Some (TrSeq [ident 0 1; ident 2 3]))].
Proof. replay. Qed.
Example tuple_3 : math [struct [Ident; OpAdd; Ident]] "a+b"
  [Parse R0 (Some (TrSeq [ident 0 1; op 1 2; ident 2 3]))].
Proof. replay. Qed.
Definition mulpair := TTuple [Ident; OpMul; Ident].
Example tuple_nested : math [struct [mulpair; OpAdd; mulpair]] "a*b + c*d"
  [Parse R0 (Some (TrSeq [TrSeq [ident 0 1; op 1 2; ident 2 3]; op 4 5;
                          TrSeq [ident 6 7; op 7 8; ident 8 9]]))].
Proof. replay. Qed.

(** * string.rs.  [Parse] keeps the text; [456] and [314] are what [FromStr] is given. *)
Example string_quote : math [struct [TQuote Ident]] "a" [Parse R0 (one (TrQuote 0~1 "a"))].
Proof. replay. Qed.
Example string_parse : math [struct [TParse Ident; TParse Integer; TParse Integer]] "abc 456 314"
  [Parse R0 (Some (TrSeq [TrParse 0~3 "abc"; TrParse 4~7 "456"; TrParse 8~11 "314"]))].
Proof. replay. Qed.

(** * punct.rs *)
Definition PunctTest := [struct [TPunct Ident OpAdd]].
Example punct_empty : math PunctTest "(" [Parse R0 None; Errors [(0, 1, EIdent)]].
Proof. replay. Qed.
Example punct_one : math PunctTest "a" [Parse R0 (one (TrPunct 0~1 [ident 0 1] []))].
Proof. replay. Qed.
Example punct_one_trailing : math PunctTest "a+" [Parse R0 (one (TrPunct 0~2 [ident 0 1] [op 1 2]))].
Proof. replay. Qed.
Example punct_two : math PunctTest "a+b" [Parse R0 (one (TrPunct 0~3 [ident 0 1; ident 2 3] [op 1 2]))].
Proof. replay. Qed.
Example punct_two_trailing : math PunctTest "a+b+"
  [Parse R0 (one (TrPunct 0~4 [ident 0 1; ident 2 3] [op 1 2; op 3 4]))].
Proof. replay. Qed.
Example punct_many : math PunctTest "a+b+c+d"
  [Parse R0 (one (TrPunct 0~7 [ident 0 1; ident 2 3; ident 4 5; ident 6 7] [op 1 2; op 3 4; op 5 6])); Errors []].
Proof. replay. Qed.
Example punct_many_trailing : math PunctTest "a+b+c+d+"
  [Parse R0 (one (TrPunct 0~8 [ident 0 1; ident 2 3; ident 4 5; ident 6 7] [op 1 2; op 3 4; op 5 6; op 7 8])); Errors []].
Proof. replay. Qed.
Example punct_stop_expecting_split : math PunctTest "a + b c + d"
  [Parse R0 (one (TrPunct 0~5 [ident 0 1; ident 4 5] [op 2 3])); Remaining "c + d";
   Parse R0 (one (TrPunct 6~11 [ident 6 7; ident 10 11] [op 8 9]))].
Proof. replay. Qed.
Example punct_stop_expecting_item : math [struct [POpen; TPunct Ident OpAdd]] "(a + b + (c + d"
  [Parse R0 (Some (TrSeq [paren 0 1;
     TrPunct 1~15 [ident 1 2; ident 5 6; ident 10 11; ident 14 15] [op 3 4; op 7 8; op 12 13]]));
   Remaining ""; Errors [(9, 10, EIdent)]].
Proof. replay. Qed.
Example punct_recover_with_follow : math [struct [TPunct Ident OpAdd; PClose]] "a+b+1 1 1)"
  [Parse R0 (Some (TrSeq [TrPunct 0~4 [ident 0 1; ident 2 3] [op 1 2; op 3 4]; paren 9 10]));
   Remaining ""; Errors [(4, 9, TExpecting [RTy 0; RLit ")"])]].
Proof. replay. Qed.
Definition item := TTuple [POpen; Ident; PClose].
Definition it (lo : nat) : tree := TrSeq [paren lo (lo + 1); ident (lo + 1) (lo + 2); paren (lo + 2) (lo + 3)].
Definition it_fill (lo : nat) : tree := TrSeq [paren lo (lo + 1); ident (lo + 1) (lo + 2); paren (lo + 2) (lo + 2)].
Definition Punct2 := [struct [TPunct item OpAdd]].
Example punct_autofill : math Punct2 "(a)+(b+(c)"
  [Parse R0 (one (TrPunct 0~10 [it 0; it_fill 4; it 7] [op 3 4; op 6 7])); Remaining ""; Errors [(6, 7, EClose)]].
Proof. replay. Qed.
Example punct_autofill_trailing : math Punct2 "(a)+(b+(c)+"
  [Parse R0 (one (TrPunct 0~11 [it 0; it_fill 4; it 7] [op 3 4; op 6 7; op 10 11]));
   Remaining ""; Errors [(6, 7, EClose)]].
Proof. replay. Qed.
Example punct_skip : math Punct2 "(a)+(+(c)"
  [Parse R0 (one (TrPunct 0~9 [it 0; it 6] [op 3 4; op 5 6])); Remaining ""; Errors [(5, 6, EIdent)]].
Proof. replay. Qed.
Example punct_recover_trailing : math Punct2 "(a)+(+"
  [Parse R0 (one (TrPunct 0~6 [it 0] [op 3 4; op 5 6])); Remaining ""; Errors [(5, 6, EIdent)]].
Proof. replay. Qed.
Definition PunctSame := [struct [TPunct Ident Ident]].
Example punct_same : math PunctSame "a b c d e"
  [Parse R0 (one (TrPunct 0~9 [ident 0 1; ident 4 5; ident 8 9] [ident 2 3; ident 6 7])); Remaining ""].
Proof. replay. Qed.
Example punct_same_trailing : math PunctSame "a b c d e f"
  [Parse R0 (one (TrPunct 0~11 [ident 0 1; ident 4 5; ident 8 9] [ident 2 3; ident 6 7; ident 10 11])); Remaining ""].
Proof. replay. Qed.
Example punct_option : not_ll1 [struct [TPunct (TOpt Ident) OpAdd]] ["PunctOfOption"] R0 =
  Some ["FirstFirstConflict"; "( (Ident)? )[+]*"; "( (Ident)? )[+]+"; "()"; "<empty>"].
Proof. replay. Qed.
Example punct_option_sep : not_ll1 [struct [TPunct Ident (TOpt OpAdd)]] ["PunctOfOptionSep"] R0 =
  Some ["FirstFirstConflict"; "((+)? ( Ident )[(+)?]*)?"; "(+)? ( Ident )[(+)?]*"; "()"; "<empty>"].
Proof. replay. Qed.
Example punct_both_option : not_ll1 [struct [TPunct (TOpt Ident) (TOpt OpAdd)]] ["PunctBothOption"] R0 =
  Some ["FirstFollowSeqConflict"; "( (Ident)? )[(+)?]+"; "(Ident)?"; "((+)? ( (Ident)? )[(+)?]*)?"; "Ident"].
Proof. replay. Qed.

(** * split.rs *)
Definition SplitTest := [struct [TSplit Ident OpAdd]].
Example split_empty : math SplitTest "(" [Parse R0 None; Errors [(0, 1, EIdent)]].
Proof. replay. Qed.
Example split_one : math SplitTest "a" [Parse R0 (one (TrSplit 0~1 [ident 0 1] []))].
Proof. replay. Qed.
Example split_two : math SplitTest "a+b" [Parse R0 (one (TrSplit 0~3 [ident 0 1; ident 2 3] [op 1 2]))].
Proof. replay. Qed.
Example split_many : math SplitTest "a+b+c+d"
  [Parse R0 (one (TrSplit 0~7 [ident 0 1; ident 2 3; ident 4 5; ident 6 7] [op 1 2; op 3 4; op 5 6])); Errors []].
Proof. replay. Qed.
Example split_stop : math SplitTest "a + b c + d"
  [Parse R0 (one (TrSplit 0~5 [ident 0 1; ident 4 5] [op 2 3])); Remaining "c + d";
   Parse R0 (one (TrSplit 6~11 [ident 6 7; ident 10 11] [op 8 9]))].
Proof. replay. Qed.
Example split_recover_item : math SplitTest "a+(c)+"
  [Parse R0 (one (TrSplit 0~4 [ident 0 1; ident 3 4] [op 1 2])); Remaining ")+"; Errors [(2, 3, EIdent)]].
Proof. replay. Qed.
Example split_recover_separator : math SplitTest "a+(+c"
  [Parse R0 (one (TrSplit 0~5 [ident 0 1; ident 4 5] [op 3 4])); Remaining ""; Errors [(2, 4, EIdent)]].
Proof. replay. Qed.
Example split_recover_multiple : math SplitTest "a+((+c"
  [Parse R0 (one (TrSplit 0~6 [ident 0 1; ident 5 6] [op 4 5])); Remaining ""; Errors [(2, 5, EIdent)]].
Proof. replay. Qed.
Example split_recover_follow : math [struct [TSplit Ident OpAdd; PClose]] "a+c+()"
  [Parse R0 (Some (TrSeq [TrSplit 0~3 [ident 0 1; ident 2 3] [op 1 2]; paren 5 6]));
   Remaining ""; Errors [(4, 6, EIdent)]].
Proof. replay. Qed.
Example split_option : math [struct [TSplit (TOpt Ident) OpAdd]] "a+++c"
  [Parse R0 (one (TrSplit 0~5 [TrOpt 0~1 (Some (ident 0 1)); TrOpt 2~2 None; TrOpt 3~3 None;
                               TrOpt 4~5 (Some (ident 4 5))] [op 1 2; op 2 3; op 3 4])); Remaining ""].
Proof. replay. Qed.
Example split_same : math [struct [TSplit Ident Ident]] "a b c d e"
  [Parse R0 (one (TrSplit 0~9 [ident 0 1; ident 4 5; ident 8 9] [ident 2 3; ident 6 7])); Remaining ""].
Proof. replay. Qed.
Example split_option_same : not_ll1 [struct [TSplit (TOpt Ident) Ident]] ["SplitOptionSame"] R0 =
  Some ["FirstFollowSeqConflict"; "(Ident)? ( Ident (Ident)? )*"; "(Ident)?"; "( Ident (Ident)? )*"; "Ident"].
Proof. replay. Qed.
Example split_option_sep_same : not_ll1 [struct [TSplit Ident (TOpt Ident)]] ["SplitOptionSepSame"] R0 =
  Some ["FirstFollowSeqConflict"; "(Ident)? Ident"; "(Ident)?"; "Ident"; "Ident"].
Proof. replay. Qed.
Definition Split2 := [struct [TSplit item OpAdd]].
Example split_autofill : math Split2 "(a)+(b+(c)"
  [Parse R0 (one (TrSplit 0~10 [it 0; it_fill 4; it 7] [op 3 4; op 6 7])); Remaining ""; Errors [(6, 7, EClose)]].
Proof. replay. Qed.
Example split_skip : math Split2 "(a)+(+(c)"
  [Parse R0 (one (TrSplit 0~9 [it 0; it 6] [op 5 6])); Remaining ""; Errors [(5, 6, EIdent)]].
Proof. replay. Qed.
Example split_both_option : not_ll1 [struct [TSplit (TOpt Ident) (TOpt OpAdd)]] ["SplitBothOption"] R0 =
  Some ["FirstFollowSeqConflict"; "(Ident)? ( (+)? (Ident)? )*"; "(Ident)?"; "( (+)? (Ident)? )*"; "Ident"].
Proof. replay. Qed.

(** * recover.rs.  The span of [Recover] is that of its head node and tail. *)
Definition RecoverTest := [struct [TRecover item OpAdd]].
Example recover_ok : math RecoverTest "(a)+" [Parse R0 (one (TrRecover 0~3 (Some (it 0)) (op 3 4)))].
Proof. replay. Qed.
Example recover_no_first_no_skip : math RecoverTest "+"
  [Parse R0 (one (TrRecover 0~0 None (op 0 1))); Errors [(0, 1, EOpen)]].
Proof. replay. Qed.
Example recover_no_first_skip : math RecoverTest "a)+"
  [Parse R0 (one (TrRecover 0~0 None (op 2 3))); Errors [(0, 2, EOpen)]].
Proof. replay. Qed.
Example recover_first_no_skip : math RecoverTest "(+"
  [Parse R0 (one (TrRecover 1~1 None (op 1 2))); Errors [(1, 2, EIdent)]].
Proof. replay. Qed.
Example recover_first_skip : math RecoverTest "()a+"
  [Parse R0 (one (TrRecover 1~1 None (op 3 4))); Errors [(1, 3, EIdent)]].
Proof. replay. Qed.
Definition Recover2 := [struct [TRecover item (TTuple [POpen; OpAdd; Ident; PClose])]].
Example recover_tail_no_first : math Recover2 "(a)+"
  [Parse R0 None; Errors [(3, 4, EOpen)]; Remaining ""].
Proof. replay. Qed.
Example recover_tail_no_skip : math Recover2 "(a)(+)(+b)"
  [Parse R0 (one (TrRecover 0~3 (Some (it 0)) (TrSeq [paren 6 7; op 7 8; ident 8 9; paren 9 10])));
   Errors [(5, 6, EIdent)]].
Proof. replay. Qed.
Example recover_tail_skip : math Recover2 "(a)(+)ccc(+b)"
  [Parse R0 (one (TrRecover 0~3 (Some (it 0)) (TrSeq [paren 9 10; op 10 11; ident 11 12; paren 12 13])));
   Errors [(5, 9, EIdent)]].
Proof. replay. Qed.
Definition RecoverOption := [struct [TRecover (TOpt Ident) OpAdd]].
Example recover_option_none : math RecoverOption "+"
  [Parse R0 (one (TrRecover 0~0 (Some (TrOpt 0~0 None)) (op 0 1))); Errors []].
Proof. replay. Qed.
Example recover_option_some : math RecoverOption "a+"
  [Parse R0 (one (TrRecover 0~1 (Some (TrOpt 0~1 (Some (ident 0 1)))) (op 1 2))); Errors []].
Proof. replay. Qed.
Example recover_option_some_skip : math RecoverOption "a((+"
  [Parse R0 (one (TrRecover 0~1 (Some (TrOpt 0~1 (Some (ident 0 1)))) (op 3 4))); Errors [(1, 3, EAdd)]].
Proof. replay. Qed.
Definition RecoverOption2 := [struct [TRecover Ident (TOpt OpAdd)]].
Example recover_option2_none : math RecoverOption2 "a"
  [Parse R0 (one (TrRecover 0~1 (Some (ident 0 1)) (TrOpt 1~1 None))); Errors []].
Proof. replay. Qed.
Example recover_option2_recover : math RecoverOption2 "("
  [Parse R0 (one (TrRecover 0~0 None (TrOpt 0~0 None))); Errors [(0, 1, EIdent)]; Remaining "("].
Proof. replay. Qed.
