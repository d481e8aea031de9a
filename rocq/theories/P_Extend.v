(** Declarations with more variants: C110.

    [extends], [renum] (ExtendSpec) are larger declarations and the trees with the new numbers of the variants; [lang],
    [accepted], [only_bad_text] (ParseSpec), [regular] (CompleteSpec) and [open_marks] (MarkSpec) as in C36, C55. *)
From Coq Require Import String NArith.
From stdpp Require Import prelude list strings relations.
From Verif Require Import LexModel LexSpec SynSetModel TableModel CfgSpec StreamModel StreamSpec TypeModel ProduceModel ParseSpec MarkSpec CompleteSpec ParseEx TermEx ExtendSpec ExtendFacts ExtendEx.
Local Open Scope nat_scope.

(** ** C110: more variants, in any order: every sentence stays one ... *)
Theorem C110_language : ∀ ρ env env' t w, extends ρ env env' → lang env t w → lang env' t w.
Proof. exact extend_lang. Qed.
Print Assumptions C110_language.
(** ... and a source that was parsed to its end without errors still is, from the same tokens, with the same tree (the
    variants under their new numbers). *)
Theorem C110_parse : ∀ ρ extract env env' root md md' f s x s',
  extends ρ env env' → accepted env' root md' → regular env' root → filled env root → no_recover env root → state_ok s →
  run extract (parse env f root (inr md)) s = ODone (inr (Some x)) s' → only_bad_text s s' → to_come extract s' = [] →
  ∃ f0 s'', (∀ f, f0 ≤ f → run extract (parse env' f root (inr md')) s = ODone (inr (Some (renum ρ env root x))) s'') ∧
    only_bad_text s s'' ∧ consumed s'' = consumed s' ∧ to_come extract s'' = [].
Proof. exact extend_parse. Qed.
Print Assumptions C110_parse.
(** The semantic types on the tokens are the same too. *)
Theorem C110_marks : ∀ ρ extract env env' root md md' f f' s x s' s'',
  extends ρ env env' → filled env root → no_recover env root → open_marks env root →
  filled env' root → no_recover env' root → open_marks env' root → state_ok s →
  run extract (parse env f root (inr md)) s = ODone (inr (Some x)) s' → only_bad_text s s' →
  run extract (parse env' f' root (inr md')) s = ODone (inr (Some (renum ρ env root x))) s'' → only_bad_text s s'' →
  consumed s'' = consumed s' → p_tokens s'' = p_tokens s'.
Proof. exact extend_marks. Qed.
Print Assumptions C110_marks.
(** "(a,(b))" with and without negative expressions. *)
Example C110_ex : extends ev_num ex_env ev_env ∧ accepted ev_env exE (md_get ev_env exE) ∧ regular ev_env exE ∧
  filled ex_env exE ∧ no_recover ex_env exE ∧ open_marks ex_env exE ∧ filled ev_env exE ∧ no_recover ev_env exE ∧ open_marks ev_env exE ∧
  state_ok (start "(a,(b))") ∧
  match ex_parse ex_env exE "(a,(b))", ex_parse ev_env exE "(a,(b))" with
  | ODone (inr (Some x)) s', ODone (inr (Some y)) s'' =>
      only_bad_text (start "(a,(b))") s' ∧ only_bad_text (start "(a,(b))") s'' ∧ to_come no_extract s' = [] ∧ consumed s'' = consumed s' ∧
      y = renum ev_num ex_env exE x ∧ y ≠ x ∧ map c_sem (p_tokens s'') = [0; 3; 2; 2; 3; 2; 0]%N
  | _, _ => False
  end ∧
  (** ... and something new *)
  match ex_parse ev_env exE "(-a)" with ODone (inr (Some _)) s' => p_errors s' = [] | _ => False end.
Proof.
  split; [exact ev_extends|]. split; [exact ev_accepted|]. split; [exact ev_regular|]. split; [exact ex_filled|].
  split; [exact ex_no_recover|]. split; [within ex_types|]. split; [exact ev_filled|]. split; [exact ev_no_recover|]. split; [exact ev_open|].
  split; [apply start_ok|]. split; [|by vm_compute].
  vm_compute. split; [by exists []|]. split; [by exists []|]. repeat split; discriminate.
Qed.
