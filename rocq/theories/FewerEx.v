(** Examples for parts of grammars. *)
From Coq Require Import String NArith.
From stdpp Require Import prelude list strings relations.
From Verif Require Import LexModel LexSpec SynSetModel TableModel CfgSpec StreamModel StreamSpec TypeModel TypeSpec ProduceModel ParseSpec
  MarkSpec CompleteSpec CompleteFacts ParseEx TermEx CompleteEx PartEx ExtendSpec ExtendEx.
Local Open Scope nat_scope.

Lemma ev_apart : apart ev_num ex_env.
Proof.
  intros [|[|n]] vs i j [= <-]; cbn. destruct i as [|[|i]], j as [|[|j]]; cbn; lia.
Qed.
(** A list of expressions "a,(b)" is part of the parenthesised ones. *)
Definition ex_list := TPunct (TBox exE) tC.
Lemma ex_list_within : within ex_env exE ex_list.
Proof. eapply rtc_l; [|apply rtc_once]; [cbn|instantiate (1 := exP); cbn]; set_solver. Qed.
Lemma fewer_ex : extends ev_num ex_env ev_env ∧ apart ev_num ex_env ∧ env_declared ex_env ∧ ty_declared (length ex_env) ex_list ∧
  accepted ev_env exE (md_get ev_env exE) ∧ within ev_env exE ex_list ∧ accepted ex_env ex_list (md_get ex_env ex_list).
Proof.
  split; [exact ev_extends|]. split; [exact ev_apart|]. split; [exact ex_env_declared|]. split; [cbn; lia|]. split; [exact ev_accepted|].
  split; [|apply md_get_accepted; by vm_compute]. eapply rtc_l; [|apply rtc_once]; [cbn|instantiate (1 := exP); cbn]; set_solver.
Qed.
Lemma part_ex : env_declared ex_env ∧ ty_declared (length ex_env) exE ∧ accepted ex_env exE (md_get ex_env exE) ∧ within ex_env exE ex_list ∧
  filled ex_env exE ∧ plain_enums ex_env exE ∧ solid_delims ex_env exE ∧ no_loop ex_env exE ∧
  (∀ regs, register_root ex_env (prod_of exE) = Some regs → no_nullable_interior regs) ∧
  match ex_parse ex_env ex_list "a,(b)" with ODone (inr (Some _)) s => p_errors s = [] ∧ to_come no_extract s = [] | _ => False end.
Proof.
  split; [exact ex_env_declared|]. split; [cbn; lia|]. split; [exact ex_accepted|]. split; [exact ex_list_within|]. split; [exact ex_filled|].
  split; [exact ex_plain_enums|]. split; [exact ex_solid_delims|]. split; [exact ex_no_loop|]. split; [apply interior_ok; by vm_compute|by vm_compute].
Qed.
(** The end of the input follows a part only when it is the root. *)
Lemma end_ex : within [] beforeC tR ∧ accepted [] beforeC (md_get [] beforeC) ∧ accepted [] tR (md_get [] tR) ∧
  ts_contains (tb_get (md_follow (md_get [] tR)) (key tR)) None = true ∧
  ts_contains (tb_get (md_follow (md_get [] beforeC)) (key tR)) None = false.
Proof.
  split; [apply rtc_once; cbn; set_solver|]. split; [exact beforeC_accepted|]. split; [apply md_get_accepted; by vm_compute|]. split; by vm_compute.
Qed.
(** A variant listed twice does not stay apart. *)
Lemma twice_ex : extends (λ _ _, 0) [DEnum [(tId, None); (tId, None)]] [DEnum [(tId, None)]] ∧
  ¬ apart (λ _ _, 0) [DEnum [(tId, None); (tId, None)]] ∧
  accepted [DEnum [(tId, None)]] (TNamed 0) (md_get [DEnum [(tId, None)]] (TNamed 0)) ∧
  md_of [DEnum [(tId, None); (tId, None)]] (TNamed 0) = None.
Proof.
  split; [intros [|n] d [= <-]; eexists; split; [done|]; intros [|[|i]] v [= <-]; done|].
  split; [intros H; specialize (H 0 _ 0 1 eq_refl); cbn in H; lia|]. split; [apply md_get_accepted; by vm_compute|by vm_compute].
Qed.
