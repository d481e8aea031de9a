(** C115: parts of an accepted grammar are accepted.

    [extends ρ env env'] (ExtendSpec): [env'] has the declarations of [env], enums perhaps with more variants, variant [i] of
    enum [n] being number [ρ n i]; [apart]: different variants stay different.
    [within env root t] (ParseSpec): the type [t] is used in [root]. *)
From Coq Require Import String NArith.
From stdpp Require Import prelude list strings relations.
From Verif Require Import LexModel LexSpec SynSetModel TableModel CfgSpec StreamModel StreamSpec TypeModel TypeSpec ProduceModel ParseSpec
  CompleteSpec ParseEx PartEx ExtendSpec ExtendEx FewerFacts FewerEx.
Local Open Scope nat_scope.

(** A type used in an accepted grammar, with all or fewer variants, is accepted as a root of its own. *)
Theorem C115_accepted : ∀ ρ env env' root t md', extends ρ env env' → apart ρ env →
  env_declared env → ty_declared (length env) t → accepted env' root md' → within env' root t → ∃ md, accepted env t md.
Proof. exact fewer_accepted. Qed.
Print Assumptions C115_accepted.

(** Its tables are parts of the tables of the grammar: FIRST, FOLLOW but for the end of the input, and the predictive
    table with the numbers of the variants there. *)
Theorem C115_tables : ∀ ρ env env' root t md md', extends ρ env env' → apart ρ env →
  accepted env t md → accepted env' root md' → within env' root t →
  (∀ u o, ts_contains (tb_get (md_first md) (key u)) o = true → ts_contains (tb_get (md_first md') (key u)) o = true) ∧
  (∀ u a, ts_contains (tb_get (md_follow md) (key u)) (Some a) = true → ts_contains (tb_get (md_follow md') (key u)) (Some a) = true) ∧
  ∀ n vs o i, within env t (TNamed n) → env !! n = Some (DEnum vs) →
    jump_look_up (md_jump md) (key (TNamed n)) o = Some i → jump_look_up (md_jump md') (key (TNamed n)) o = Some (ρ n i).
Proof. exact fewer_tables. Qed.
Print Assumptions C115_tables.
(** Lists "a,(b)" of the expressions of [ex_env], within those of [ev_env], which has another variant. *)
Example C115_ex : extends ev_num ex_env ev_env ∧ apart ev_num ex_env ∧ env_declared ex_env ∧ ty_declared (length ex_env) ex_list ∧
  accepted ev_env exE (md_get ev_env exE) ∧ within ev_env exE ex_list ∧ accepted ex_env ex_list (md_get ex_env ex_list).
Proof. exact fewer_ex. Qed.
(** The end of the input is the exception: it follows the root. *)
Example C115_end_ex : within [] beforeC tR ∧ accepted [] beforeC (md_get [] beforeC) ∧ accepted [] tR (md_get [] tR) ∧
  ts_contains (tb_get (md_follow (md_get [] tR)) (key tR)) None = true ∧
  ts_contains (tb_get (md_follow (md_get [] beforeC)) (key tR)) None = false.
Proof. exact end_ex. Qed.
(** [apart] matters: a variant listed twice is a conflict. *)
Example C115_apart_ex : extends (λ _ _, 0) [DEnum [(tId, None); (tId, None)]] [DEnum [(tId, None)]] ∧
  ¬ apart (λ _ _, 0) [DEnum [(tId, None); (tId, None)]] ∧
  accepted [DEnum [(tId, None)]] (TNamed 0) (md_get [DEnum [(tId, None)]] (TNamed 0)) ∧
  md_of [DEnum [(tId, None); (tId, None)]] (TNamed 0) = None.
Proof. exact twice_ex. Qed.

(** Every part parses all of its sentences when used as a root: under the conditions of C36 on the grammar (not on
    the part). *)
Theorem C115_parse : ∀ extract env root t md, env_declared env → ty_declared (length env) root → accepted env root md → within env root t →
  filled env root → plain_enums env root → solid_delims env root → no_loop env root →
  (∀ regs, register_root env (prod_of root) = Some regs → no_nullable_interior regs) →
  ∃ md', accepted env t md' ∧ ∀ s, state_ok s → lang env t (word (p_src s) (to_come extract s)) → parsed_whole extract env md' t s.
Proof. exact part_parses. Qed.
Print Assumptions C115_parse.
Example C115_parse_ex : env_declared ex_env ∧ ty_declared (length ex_env) exE ∧ accepted ex_env exE (md_get ex_env exE) ∧ within ex_env exE ex_list ∧
  filled ex_env exE ∧ plain_enums ex_env exE ∧ solid_delims ex_env exE ∧ no_loop ex_env exE ∧
  (∀ regs, register_root ex_env (prod_of exE) = Some regs → no_nullable_interior regs) ∧
  match ex_parse ex_env ex_list "a,(b)" with ODone (inr (Some _)) s => p_errors s = [] ∧ to_come no_extract s = [] | _ => False end.
Proof. exact part_ex. Qed.
