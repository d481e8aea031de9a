(** C108: a part is parsed the same in every grammar. *)
From Coq Require Import String NArith.
From stdpp Require Import prelude list strings relations.
From Verif Require Import SynSetModel TableModel CfgSpec StreamModel TypeModel TypeSpec ProduceModel ParseSpec ParseEx PartSpec PartFacts PartEx.
Local Open Scope nat_scope.

(** A type used in two accepted grammars gives the same result, errors and final state in both, if its declarations are
    the same and the same may follow its literals and its lists. *)
Theorem C108_part : ∀ extract env1 env2 root1 root2 t regs1 regs2 md1 md2 f s,
  accepted env1 root1 md1 → accepted env2 root2 md2 →
  register_root env1 (prod_of root1) = Some regs1 → register_root env2 (prod_of root2) = Some regs2 →
  within env1 root1 t → within env2 root2 t → same_decls env1 env2 t → same_ends env1 regs1 root1 regs2 root2 t →
  run extract (produce_md env1 md1 f t) s = run extract (produce_md env2 md2 f t) s.
Proof. exact part_same. Qed.
Print Assumptions C108_part.
Example C108_part_ex : accepted ex_env exE (md_get ex_env exE) ∧ accepted pt_env ptR (md_get pt_env ptR) ∧
  register_root ex_env (prod_of exE) = Some ex_regs ∧ register_root pt_env (prod_of ptR) = Some pt_regs ∧
  within ex_env exE exE ∧ within pt_env ptR exE ∧ same_decls ex_env pt_env exE ∧ same_ends ex_env ex_regs exE pt_regs ptR exE.
Proof.
  split; [exact ex_accepted|]. split; [exact pt_accepted|]. split; [exact ex_registered|]. split; [exact pt_registered|].
  split; [apply rtc_refl|]. split; [exact pt_within|]. split; [exact pt_decls|exact pt_ends].
Qed.
(** The hypothesis about what follows is needed: a ")" missing before a "," is put in where a "," may follow it. *)
Example C108_needed_ex : accepted [] beforeC (md_get [] beforeC) ∧ accepted [] beforeI (md_get [] beforeI) ∧
  within [] beforeC tR ∧ within [] beforeI tR ∧ same_decls [] [] tR ∧
  match run no_extract (produce_md [] (md_get [] beforeC) 9 tR) (start ","), run no_extract (produce_md [] (md_get [] beforeI) 9 tR) (start ",") with
  | ODone (RRec _ _) _, ODone (RPanic _) _ => True
  | _, _ => False
  end.
Proof.
  split; [exact beforeC_accepted|]. split; [exact beforeI_accepted|]. split; [apply rtc_once; cbn; set_solver|].
  split; [apply rtc_once; cbn; set_solver|]. split; [done|by vm_compute].
Qed.

(** Without literals and separated lists, nothing else matters. *)
Theorem C108_closed : ∀ extract env1 env2 root1 root2 t md1 md2 f s,
  accepted env1 root1 md1 → accepted env2 root2 md2 →
  within env1 root1 t → within env2 root2 t → same_decls env1 env2 t → closed env1 t →
  run extract (produce_md env1 md1 f t) s = run extract (produce_md env2 md2 f t) s.
Proof. exact part_closed. Qed.
Print Assumptions C108_closed.
Example C108_closed_ex : accepted cl_env clA (md_get cl_env clA) ∧ accepted cl_env2 clB (md_get cl_env2 clB) ∧
  within cl_env clA clV ∧ within cl_env2 clB clV ∧ same_decls cl_env cl_env2 clV ∧ closed cl_env clV ∧
  match run no_extract (produce_md cl_env (md_get cl_env clA) 20 clV) (start "a)b") with
  | ODone (RSucc (TrVar 0 (TrSeq [TrTok _; TrTok _]))) _ => True
  | _ => False
  end.
Proof.
  split; [exact clA_accepted|]. split; [exact clB_accepted|]. split; [exact clA_within|]. split; [exact clB_within|].
  split; [exact cl_decls|]. split; [exact cl_closed|by vm_compute].
Qed.

(** Declarations that a root does not use change nothing: the metadata, or the error that rejects the grammar, and every
    parse are the same. *)
Theorem C108_unused : ∀ extract env1 env2 root, env_declared env1 → ty_declared (length env1) root →
  env_declared env2 → ty_declared (length env2) root → same_decls env1 env2 root →
  (∀ iter, root_metadata env2 root iter = root_metadata env1 root iter) ∧
  ∀ meta f s, run extract (parse env1 f root meta) s = run extract (parse env2 f root meta) s.
Proof. exact unused_same. Qed.
Print Assumptions C108_unused.
Example C108_unused_ex : env_declared ex_env ∧ ty_declared (length ex_env) exE ∧ env_declared pt_env ∧ ty_declared (length pt_env) exE ∧
  same_decls ex_env pt_env exE ∧ ex_env ≠ pt_env ∧ ∃ md, root_metadata ex_env exE ex_regs = Some (inr md).
Proof.
  split; [exact ex_env_declared|]. split; [cbn; lia|]. split; [exact pt_env_declared|]. split; [cbn; lia|].
  split; [exact pt_decls|]. split; [done|exact ex_metadata].
Qed.
