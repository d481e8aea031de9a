(** C112: the order and the numbers of lexicon variants, declarations and terminals do not matter. *)
From Coq Require Import String NArith.
From stdpp Require Import prelude list gmap strings.
From Verif Require Import SynSetModel TableModel CfgSpec TypeModel TypeSpec StreamModel ProduceModel ParseEx RenameSpec RenameFacts RenameEx.
Local Open Scope nat_scope.

(** The same productions are registered, in the same order. *)
Theorem C112_registered : ∀ r env env' t, distinct r → redeclared r env env' → env_declared env → env_declared env' → ty_declared (length env) t →
  ∃ regs, register_root env (prod_of t) = Some regs ∧ register_root env' (prod_of (re_ty r t)) = Some (map (re_reg r) regs).
Proof. exact renamed_register. Qed.
Print Assumptions C112_registered.

(** The same verdict: the same grammar error, or tables with the same answers.  Each side may visit its productions in its own order. *)
Theorem C112_verdict : ∀ r env env' t regs iter iter', distinct r → redeclared r env env' → env_declared env → env_declared env' → ty_declared (length env) t →
  register_root env (prod_of t) = Some regs → iter ≡ₚ regs → iter' ≡ₚ map (re_reg r) regs →
  ∃ m m', root_metadata env t iter = Some m ∧ root_metadata env' (re_ty r t) iter' = Some m' ∧ same_meta r m m'.
Proof. exact renamed_verdict. Qed.
Print Assumptions C112_verdict.

(** The same parser: from the same state the same tree, the same errors, the same tokens with the same semantic types, also for wrong input. *)
Theorem C112_parse : ∀ r env env' t m m' extract extract' f s s', distinct r → redeclared r env env' → same_meta r m m' →
  (∀ y, extract' (rn_type r y) = extract y) → same_state r s s' →
  same_out r (same_answer r) (run extract (parse env f t m) s) (run extract' (parse env' f (re_ty r t) m') s').
Proof. exact renamed_run. Qed.
Print Assumptions C112_parse.

(** Together, for a source whose tokens are the same. *)
Theorem C112_program : ∀ r env env' t regs iter iter', distinct r → redeclared r env env' → env_declared env → env_declared env' → ty_declared (length env) t →
  register_root env (prod_of t) = Some regs → iter ≡ₚ regs → iter' ≡ₚ map (re_reg r) regs →
  ∃ m m', root_metadata env t iter = Some m ∧ root_metadata env' (re_ty r t) iter' = Some m' ∧
    ∀ extract extract' f x evs, (∀ y, extract' (rn_type r y) = extract y) →
      same_out r (same_answer r) (run extract (parse env f t m) (pst_new x evs)) (run extract' (parse env' f (re_ty r t) m') (pst_new x (map (re_raw r) evs))).
Proof. exact renamed_program. Qed.
Print Assumptions C112_program.

Example C112_ex : distinct rx ∧ redeclared rx ex_env rx_env ∧ env_declared ex_env ∧ env_declared rx_env ∧ ty_declared (length ex_env) exE ∧
  length rx_env = 3 ∧ re_ty rx exE = TNamed 2 ∧ ∀ y, no_extract (rn_type rx y) = no_extract y.
Proof. split; [exact rx_distinct|]. split; [exact rx_redeclared|]. destruct rx_declared as (H1 & H2 & H3). done. Qed.
(** A run without and one with errors, on both sides *)
Example C112_run_ex :
  rx_out (rx_parse "(a,b)") = rx_map (rx_out (ex_parse ex_env exE "(a,b)")) ∧
  rx_tokens (rx_out (ex_parse ex_env exE "(a,b)")) = [(1, 0%N); (0, 3%N); (1, 2%N); (0, 3%N); (1, 0%N)] ∧
  rx_tokens (rx_out (rx_parse "(a,b)")) = [(0, 0%N); (2, 5%N); (0, 1%N); (2, 5%N); (0, 0%N)] ∧
  rx_out (rx_parse "(a)b,,?") = rx_map (rx_out (ex_parse ex_env exE "(a)b,,?")) ∧
  rx_out (rx_parse "(,(?") = rx_map (rx_out (ex_parse ex_env exE "(,(?")) ∧
  rx_errors (rx_out (rx_parse "(,(?")) ≠ [].
Proof. vm_compute. done. Qed.
