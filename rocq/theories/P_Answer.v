(** Property theorems about [Root::parse] (C98).

    [root_parse] (RootModel): the answer, [None] if it does not end.  [raw_ok n evs] (StreamSpec): what the tokenizer
    yields for a source of [n] bytes.  [lang], [parses], [word] (ParseSpec); [regular] (CompleteSpec); [clean] (PrefixSpec). *)
From Coq Require Import String NArith.
From stdpp Require Import prelude list strings relations.
From Verif Require Import LexModel LexSpec SynSetModel TableModel CfgSpec StreamModel StreamSpec TypeModel TypeSpec ProduceModel ParseSpec CompleteSpec PrefixSpec RepairSpec
  RootModel SyntaxEx ParseEx AnswerFacts NextEx.
Local Open Scope nat_scope.

(** ** C98: what the answer of [Root::parse] tells *)
(** A sentence is answered by its tree. *)
Theorem C98_sentence : ∀ extract env root md src evs,
  raw_ok (String.length src) evs → accepted env root md → regular env root →
  let toks := filter (λ t, extract (t_ty t) = false) (raw_tokens evs) in
  lang env root (word src toks) →
  ∃ f0 x, parses env src 0 root toks x ∧ ∀ f, f0 ≤ f → root_parse extract env f root (inr md) src evs = Some (inr (Some x)).
Proof. exact answer_sentence. Qed.
Print Assumptions C98_sentence.
Example C98_sentence_ex : raw_ok (String.length "(a)") (lex_chars 0 "(a)") ∧ accepted ex_env exE (md_get ex_env exE) ∧ regular ex_env exE ∧
  lang ex_env exE (word "(a)" (filter (λ t, no_extract (t_ty t) = false) (raw_tokens (lex_chars 0 "(a)")))).
Proof. split; [apply chars_ok|]. split; [exact ex_accepted|]. split; [exact CompleteEx.ex_regular|exact CompleteEx.ex_lang]. Qed.
(** The answer that there is no tree is only given for what is no sentence. *)
Theorem C98_none : ∀ extract env root md src evs,
  raw_ok (String.length src) evs → ∀ f, accepted env root md → regular env root →
  root_parse extract env f root (inr md) src evs = Some (inr None) →
  ¬ lang env root (word src (filter (λ t, extract (t_ty t) = false) (raw_tokens evs))).
Proof. exact answer_none. Qed.
Print Assumptions C98_none.
Example C98_none_ex : raw_ok (String.length ")") (lex_chars 0 ")") ∧ root_parse no_extract [] 60 tId (inr (md_get [] tId)) ")" (lex_chars 0 ")") = Some (inr None).
Proof. split; [apply chars_ok|]. by vm_compute. Qed.
(** Other answers tell less.  For types of terminals without literals, structs, enums and tuples alone, the tree is that of
    a beginning of the source. *)
Theorem C98_clean : ∀ extract env root md src evs,
  raw_ok (String.length src) evs → ∀ f x, filled env root → clean env root →
  root_parse extract env f root (inr md) src evs = Some (inr (Some x)) →
  ∃ l u, filter (λ t, extract (t_ty t) = false) (raw_tokens evs) = l ++ u ∧ parses env src 0 root l x.
Proof. exact answer_clean. Qed.
Print Assumptions C98_clean.
Example C98_clean_ex : filled [] tId ∧ clean [] tId ∧
  ∃ x, root_parse no_extract [] 60 tId (inr (md_get [] tId)) "a)" (lex_chars 0 "a)") = Some (inr (Some x)).
Proof. split; [exact (reg_filled _ _ id_regular)|]. split; [exact id_clean|]. eexists. by vm_compute. Qed.
(** In general it is that of a beginning of the source with tokens left out and literals put in; without [tp::Punct],
    [tp::Recover] and [tp::Loop] this is a sentence ([mends], [repairs], [missing], [strict]: RepairSpec). *)
Theorem C98_tree : ∀ extract env root md src evs,
  raw_ok (String.length src) evs → ∀ f x,
  let toks := filter (λ t, extract (t_ty t) = false) (raw_tokens evs) in
  root_parse extract env f root (inr md) src evs = Some (inr (Some x)) →
  ∃ l u ks es, toks = l ++ u ∧ mends env root x ks ∧ repairs src (missing env (tb_get (md_follow md)) root src toks) [] l ks es ∧
    (strict env root → lang env root (kept_word ks)).
Proof. exact answer_tree. Qed.
Print Assumptions C98_tree.
Example C98_tree_ex : raw_ok (String.length "a") (lex_chars 0 "a") ∧ strict [] madeT ∧
  ∃ x, root_parse no_extract [] 60 madeT (inr (md_get [] madeT)) "a" (lex_chars 0 "a") = Some (inr (Some x)).
Proof. split; [apply chars_ok|]. split; [unfold strict; within [madeT; tId; tR]|]. eexists. by vm_compute. Qed.
(** A sentence and a source that is none may have the same answer: what comes after the sentence is not looked at. *)
Theorem C98_trailing_refuted : ∃ env root md src evs src' evs' x,
  accepted env root md ∧ regular env root ∧ raw_ok (String.length src) evs ∧ raw_ok (String.length src') evs' ∧
  lang env root (word src (raw_tokens evs)) ∧ ¬ lang env root (word src' (raw_tokens evs')) ∧
  ∀ f, 1 ≤ f → root_parse no_extract env f root (inr md) src evs = Some (inr (Some x)) ∧
    root_parse no_extract env f root (inr md) src' evs' = Some (inr (Some x)).
Proof.
  exists [], tId, (md_get [] tId), "a"%string, (lex_chars 0 "a"), "a)"%string, (lex_chars 0 "a)").
  eexists. split; [exact id_accepted|]. split; [exact id_regular|]. split; [apply chars_ok|]. split; [apply chars_ok|].
  split; [exact id_a|]. split; [exact id_not|]. exact id_same.
Qed.
Print Assumptions C98_trailing_refuted.
(** There may be a tree although no beginning of the source is a sentence: the errors are dropped with the parser. *)
Theorem C98_errors_refuted : ∃ env root md src evs x,
  accepted env root md ∧ regular env root ∧ raw_ok (String.length src) evs ∧
  root_parse no_extract env 60 root (inr md) src evs = Some (inr (Some x)) ∧
  ∀ l u, raw_tokens evs = l ++ u → ¬ lang env root (word src l).
Proof.
  exists [], madeT, (md_get [] madeT), "a"%string, (lex_chars 0 "a"). eexists. split; [exact made_accepted|]. split; [exact made_regular|].
  split; [apply chars_ok|]. split; [exact made_some|exact made_none].
Qed.
Print Assumptions C98_errors_refuted.
