(** Examples for longest match tokenizers. *)
From Coq Require Import String Ascii.
From stdpp Require Import prelude list strings.
From Verif Require Import LexModel LexSpec SynSetModel MacroModel MacroSpec StreamModel StreamSpec TypeModel ProduceModel ParseSpec CompleteSpec ParseEx ReadmeSpec ReadmeFacts ScanSpec ScanFacts ReadmeText.
Local Open Scope nat_scope.

(** The two regexes of the README, on any text. *)
Definition rd_match (r w : string) : Prop :=
  w ≠ ""%string ∧ ((r = "\w+"%string ∧ all_chars letter w = true) ∨ (r = "\s+"%string ∧ all_chars white w = true)).
#[global] Instance rd_match_dec r w : Decision (rd_match r w).
Proof. unfold rd_match. apply _. Defined.
Lemma rd_match_ok : ascii_classes rd_match.
Proof.
  intros w _. unfold rd_match, name, blank. split; split.
  - intros [H [[_ H']|[? _]]]; [done|discriminate].
  - intros [H H']. split; [done|]. by left.
  - intros [H [[? _]|[_ H']]]; [discriminate|done].
  - intros [H H']. split; [done|]. by right.
Qed.
Definition rd_find (r s : string) : option (nat * nat) := match s with ""%string => None | _ => Some (0, String.length s) end.
Definition rd_out : acc := Acc [0; 1; 2] [[RRegex "\w+"]; [RToken "+"; RToken "*"]; [RToken "("; RToken ")"]]%string []
  [Terminal "Ident" 0 None; Terminal "OpAdd" 1 (Some "+"); Terminal "OpMul" 1 (Some "*"); Terminal "ParenOpen" 2 (Some "("); Terminal "ParenClose" 2 (Some ")")]%string.
Lemma rd_lex_ok : expand (λ _, true) rd_find rd_lex = inr rd_out.
Proof. by vm_compute. Qed.

(** "(x + y1)*z " *)
Lemma rd_text : sum_text "(x + y1)*z ".
Proof.
  apply sum_one, (product_more "(x + y1)" "z ").
  - apply (factor_paren "x + y1"). apply (sum_more "x " " y1"); [apply product_one|apply sum_one, product_one].
    + by apply (factor_space "" "x" " "), factor_name.
    + by apply (factor_space " " "y1" ""), factor_name.
  - by apply product_one, (factor_space "" "z" " "), factor_name.
Qed.
Lemma rd_text_scan : ∃ evs, scan rd_match (d_ignore rd_lex) (derived_logos rd_out) 0 "(x + y1)*z " evs ∧ no_error evs ∧
  word "(x + y1)*z " (raw_tokens evs) = [(2, "("); (0, "x"); (1, "+"); (0, "y1"); (2, ")"); (1, "*"); (0, "z")]%string.
Proof.
  destruct (laid_scan rd_match rd_match_ok [(2, "("); (0, "x"); (1, "+"); (0, "y1"); (2, ")"); (1, "*"); (0, "z")]%string "(x + y1)*z ") with (p := 0) as (evs & H1 & H2 & H3).
  - assert (good (0, "x") ∧ good (0, "y1") ∧ good (0, "z"))%string as (G1 & G2 & G3) by (split_and!; by left).
    assert (good (1, "+") ∧ good (1, "*") ∧ good (2, "(") ∧ good (2, ")"))%string as (G4 & G5 & G6 & G7)
      by (split_and!; right; first [left; split; [done|by auto]|right; split; [done|by auto]]).
    apply (laid_tok "" (2, "("%string)); [done..|]. apply (laid_tok "" (0, "x"%string)); [done..|]. apply (laid_tok " " (1, "+"%string)); [done..|].
    apply (laid_tok " " (0, "y1"%string)); [done..|]. apply (laid_tok "" (2, ")"%string)); [done..|]. apply (laid_tok "" (1, "*"%string)); [done..|].
    apply (laid_tok "" (0, "z"%string)); [done..|]. by constructor.
  - cbn. split_and!; try done.
  - done.
  - exists evs. split; [done|]. split; [done|]. exact (H3 ""%string eq_refl).
Qed.
(** "a b": two tokens, not an expression. *)
Definition ab_evs : list raw := [RTok 0 (Span 0 1); RTok 0 (Span 2 3)].
Lemma ab_scan : scan rd_match (d_ignore rd_lex) (derived_logos rd_out) 0 "a b" ab_evs.
Proof.
  change (scan rd_match ["\s+"%string] rd_rules 0 "a b" ab_evs).
  apply (scan_token _ _ _ 0 0 "a" " b"); [|apply (scan_skip _ _ _ 1 " " "b"); [|apply (scan_token _ _ _ 2 0 "b" ""); [|apply scan_end]]].
  - apply (run_longest rd_match rd_match_ok letter); [done|done| |by right|done|done]. apply (is_a_eq rd_match rd_match_ok); [done|]. by left.
  - apply (run_longest rd_match rd_match_ok white); [done|done| |by left|done|done]. by apply (is_a_eq rd_match rd_match_ok).
  - apply (run_longest rd_match rd_match_ok letter); [done|done| |by right|done|done]. apply (is_a_eq rd_match rd_match_ok); [done|]. by left.
Qed.
Lemma ab_not : ¬ sum_text "a b".
Proof.
  intros H. apply (scan_sum rd_match rd_match_ok "a b" ab_evs eq_refl ab_scan) in H as [_ Hx].
  set (s := pst_new "a b" ab_evs). assert (Hok : state_ok s) by (vm_compute; repeat split; lia).
  assert (parsed_whole no_extract rd_env (md_get rd_env (TNamed 0)) (TNamed 0) s) as Hw by (apply (rd_decides _ _ _ _ rd_written rd_accepted Hok); exact Hx).
  revert Hw. apply (CompleteEx.not_whole _ _ _ _ _ 60); by vm_compute.
Qed.
