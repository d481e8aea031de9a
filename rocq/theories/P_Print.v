(** C109: equality and debug output of sets and tables. *)
From Coq Require Import String.
From stdpp Require Import prelude list gmap strings relations.
From Verif Require Import SynSetModel TableModel StreamModel TypeModel ProduceModel ParseSpec ParseEx PrintModel PrintFacts PrintEx.
Local Open Scope nat_scope.

(** Sets compare equal exactly if they have the same members. *)
Theorem C109_equal : ∀ s o, ts_eqb s o = true ↔ ∀ t, ts_contains s t = ts_contains o t.
Proof. exact ts_eqb_spec. Qed.
Print Assumptions C109_equal.
Example C109_equal_ex : ts_eqb pr_set pr_set2 = true ∧ ts_eqb pr_set (fst (ts_remove_e pr_set)) = false ∧ ts_eqb pr_set (fst (ts_insert pr_set 1 None)) = false.
Proof. by vm_compute. Qed.

(** A set is printed without repetition: the empty symbol if it is in, a type if all its tokens are in, a literal if it is in
    but not all tokens of its type. *)
Theorem C109_entries : ∀ s, NoDup (ts_entries s) ∧ (EnEmpty ∈ ts_entries s ↔ ts_contains s None = true) ∧
  (∀ ty, EnAll ty ∈ ts_entries s ↔ ∀ x, ts_contains s (Some (ty, x)) = true) ∧
  ∀ ty x, EnLit ty x ∈ ts_entries s ↔ ts_contains s (Some (ty, x)) = true ∧ ∃ y, ts_contains s (Some (ty, y)) = false.
Proof. exact entries_spec. Qed.
Print Assumptions C109_entries.
Example C109_entries_ex : ts_entries pr_set ≡ₚ [EnEmpty; EnLit 1 "+"; EnLit 1 "-"; EnAll 3]%string.
Proof. vm_compute. solve_Permutation. Qed.

(** Two sets are printed the same exactly if they have the same members. *)
Theorem C109_same : ∀ s o, ts_entries s = ts_entries o ↔ ∀ t, ts_contains s t = ts_contains o t.
Proof. exact entries_same. Qed.
Print Assumptions C109_same.
Example C109_same_ex : ts_entries pr_set = ts_entries pr_set2 ∧ ts_entries pr_set = ts_entries (fst (ts_insert pr_set 3 (Some "x"%string))) ∧
  length (ts_entries (fst (ts_insert pr_set 1 (Some "x"%string)))) = 5.
Proof. by vm_compute. Qed.

(** The jump table of an enum of an accepted grammar is printed with the FIRST set of each variant at its index, and no other. *)
Theorem C109_jump : ∀ env root md n vs j, accepted env root md → within env root (TNamed n) → env !! n = Some (DEnum vs) →
  bt_get (md_jump md) (PNamed n) = Some j →
  (∀ i, tb_get (jt_reverse j) i = match vs !! i with Some (t, _) => tb_get (md_first md) (key t) | None => ts_new end) ∧
  ∀ i, is_Some (bt_get (jt_reverse j) i) → ∃ t sem x, vs !! i = Some (t, sem) ∧ ts_contains (tb_get (md_first md) (key t)) x = true.
Proof. exact jump_print. Qed.
Print Assumptions C109_jump.
Example C109_jump_ex : accepted ex_env exE (md_get ex_env exE) ∧ within ex_env exE (TNamed 0) ∧
  ex_env !! 0 = Some (DEnum [(tId, Some 1%N); (exP, None)]) ∧ bt_get (md_jump (md_get ex_env exE)) (PNamed 0) = Some pr_jump ∧
  ts_entries (tb_get (jt_reverse pr_jump) 0) = [EnAll 0] ∧ ts_entries (tb_get (jt_reverse pr_jump) 1) = [EnLit 1 "("%string].
Proof. split; [exact ex_accepted|]. split; [apply rtc_refl|]. split; [done|]. split; [exact pr_jump_get|by vm_compute]. Qed.
