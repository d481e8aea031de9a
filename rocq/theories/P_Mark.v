(** Semantic types on recorded tokens: C55.

    [tagged c b]: bit [b] is set on the token [c]; [carries c sem]: all bits of [sem] are;
    [part env t x sp sem]: the tree [x] of type [t] has a field or variant annotated [sem] with
    span [sp]; [part_made]: the same for a value produced on the way, kept in the tree or not
    (MarkSpec).  [value r]: the tree of a result, with or without errors (ParseSpec). *)
From Coq Require Import String NArith.
From stdpp Require Import prelude list strings relations.
From Verif Require Import LexModel LexSpec SynSetModel TableModel StreamModel StreamSpec TypeModel ProduceModel ParseSpec MarkSpec SemFacts ParseEx.
Local Open Scope nat_scope.

(** ** C55: semantic types mark exactly the annotated parts *)
(** Error-free results: exactly. *)
Theorem C55_exact : ∀ extract env first follow jump f t s x s' i c b,
  state_ok s → filled env t → no_recover env t → open_marks env t →
  run extract (produce env first follow jump f t) s = ODone (RSucc x) s' → p_tokens s' !! i = Some c →
  tagged c b ↔ (∃ c0, p_tokens s !! i = Some c0 ∧ tagged c0 b) ∨
    ∃ sp sem, part env t x sp sem ∧ N.testbit sem b = true ∧ is_inside sp c.
Proof. exact sem_exact. Qed.
Print Assumptions C55_exact.
Theorem C55_exact_parse : ∀ extract env md f t s x s' i c b,
  state_ok s → filled env t → no_recover env t → open_marks env t →
  run extract (parse env f t (inr md)) s = ODone (inr (Some x)) s' → only_bad_text s s' → p_tokens s' !! i = Some c →
  tagged c b ↔ (∃ c0, p_tokens s !! i = Some c0 ∧ tagged c0 b) ∨
    ∃ sp sem, part env t x sp sem ∧ N.testbit sem b = true ∧ is_inside sp c.
Proof. exact parse_exact. Qed.
Print Assumptions C55_exact_parse.
(** Any result, with whatever tables: the tokens inside an annotated part of the tree are marked ... *)
Theorem C55_kept : ∀ extract env first follow jump f t s r s' x sp sem c,
  state_ok s → run extract (produce env first follow jump f t) s = ODone r s' → value r = Some x →
  part env t x sp sem → c ∈ p_tokens s' → is_inside sp c → carries c sem.
Proof. exact sem_kept. Qed.
Print Assumptions C55_kept.
Theorem C55_kept_parse : ∀ extract env md f t s x s' sp sem c,
  state_ok s → run extract (parse env f t (inr md)) s = ODone (inr (Some x)) s' →
  part env t x sp sem → c ∈ p_tokens s' → is_inside sp c → carries c sem.
Proof. exact parse_kept. Qed.
Print Assumptions C55_kept_parse.
(** ... and every mark stems from an annotated part that was produced around the token. *)
Theorem C55_justified : ∀ extract env first follow jump f t s r s' i c b,
  state_ok s → run extract (produce env first follow jump f t) s = ODone r s' →
  p_tokens s' !! i = Some c → tagged c b →
  (∃ c0, p_tokens s !! i = Some c0 ∧ tagged c0 b) ∨
  ∃ x sem, part_made extract env first follow jump t s x sem s' ∧ N.testbit sem b = true ∧ is_inside (tree_span x) c.
Proof. exact sem_justified. Qed.
Print Assumptions C55_justified.
Theorem C55_justified_parse : ∀ extract env md f t s o s' i c b,
  state_ok s → run extract (parse env f t (inr md)) s = ODone o s' → p_tokens s' !! i = Some c → tagged c b →
  (∃ c0, p_tokens s !! i = Some c0 ∧ tagged c0 b) ∨
  ∃ x sem, part_made extract env (tb_get (md_first md)) (tb_get (md_follow md)) (jump_look_up (md_jump md)) t s x sem s' ∧
    N.testbit sem b = true ∧ is_inside (tree_span x) c.
Proof. exact parse_justified. Qed.
Print Assumptions C55_justified_parse.
(** No program over the stream API changes a recorded token or takes a mark away. *)
Theorem C55_stable : ∀ extract A (m : M A) s a s', state_ok s → run extract m s = ODone a s' →
  ∀ i c, p_tokens s !! i = Some c → ∃ c', p_tokens s' !! i = Some c' ∧ c_tok c' = c_tok c ∧ carries c' (c_sem c).
Proof. exact @sem_stable. Qed.
Print Assumptions C55_stable.

(** "(a,(b))": 1 on the identifiers, 2 inside the lists (ParseEx). *)
Example C55_ex : state_ok (start "(a,(b))") ∧ filled ex_env exE ∧ no_recover ex_env exE ∧ open_marks ex_env exE ∧
  match ex_run ex_env exE "(a,(b))" with
  | ODone (RSucc x) s' => map c_sem (p_tokens s') = [0; 3; 2; 2; 3; 2; 0]%N
  | _ => False
  end.
Proof.
  split; [apply start_ok|]. split; [apply ex_filled|]. split; [apply ex_no_recover|]. split; [within ex_types|]. by vm_compute.
Qed.
(** With errors: "(a,,b)" keeps the marks of the list and its elements; in "(a(" the identifier
    is produced and marked although there is no tree in the end. *)
Example C55_ex_errors :
  match ex_run ex_env exE "(a,,b)" with
  | ODone (RRec (TrVar 1 (TrSeq [_; TrPunct (Span 1 5) [_; _] _; _])) _) s' => map c_sem (p_tokens s') = [0; 3; 2; 2; 3; 0]%N
  | _ => False
  end ∧
  match ex_run ex_env exE "(a(" with
  | ODone (RPanic _) s' => map c_sem (p_tokens s') = [0; 1]%N
  | _ => False
  end.
Proof. by vm_compute. Qed.
