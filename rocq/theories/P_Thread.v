(** C105: roots can be used by many threads. *)
From Coq Require Import String.
From stdpp Require Import prelude list strings relations.
From Verif Require Import LexModel SynSetModel TableModel StreamModel TypeModel ProduceModel DebugModel RootModel SyntaxEx ParseEx ThreadModel ThreadSpec ThreadFacts ThreadEx.
Local Open Scope nat_scope.

(** In every state of every schedule, each thread has got, for the calls it has made, what they would have given alone. *)
Theorem C105_answers : ∀ extract env tn dn ln f lexer roots order ms,
  (∀ r, root_metadata env (roots r) (order r) = Some (ms r)) →
  ∀ css s i cs t, rtc (any_step extract env tn dn ln f lexer roots order) (sys_start css) s →
    css !! i = Some cs → sy_ths s !! i = Some t →
    th_done t `prefix_of` map (alone extract env tn dn ln f lexer roots ms) cs.
Proof. exact threads_answers. Qed.
Print Assumptions C105_answers.
(** The metadata of a root is built at most once. *)
Theorem C105_once : ∀ extract env tn dn ln f lexer roots order ms,
  (∀ r, root_metadata env (roots r) (order r) = Some (ms r)) →
  ∀ css s, rtc (any_step extract env tn dn ln f lexer roots order) (sys_start css) s → NoDup (sy_built s).
Proof. exact threads_once. Qed.
Print Assumptions C105_once.
(** No deadlock: when no thread can move, all of them have all their answers. *)
Theorem C105_end : ∀ extract env tn dn ln f lexer roots order ms,
  (∀ r, root_metadata env (roots r) (order r) = Some (ms r)) →
  ∀ css s, rtc (any_step extract env tn dn ln f lexer roots order) (sys_start css) s →
    (∀ s', ¬ any_step extract env tn dn ln f lexer roots order s s') →
    map th_done (sy_ths s) = map (map (alone extract env tn dn ln f lexer roots ms)) css.
Proof. exact threads_end. Qed.
Print Assumptions C105_end.
(** Every schedule ends. *)
Theorem C105_bound : ∀ extract env tn dn ln f lexer roots order css n s,
  nsteps (any_step extract env tn dn ln f lexer roots order) n (sys_start css) s → n ≤ 3 * sum_list_with length css.
Proof. exact threads_bound. Qed.
Print Assumptions C105_bound.

(** Two roots, the second one refused; three threads, the second waits for the first. *)
Example C105_ex : (∀ r, root_metadata [] (thR r) (thO r) = Some (thM r)) ∧
  (∃ s, th_run [0] (sys_start thC) = Some s ∧ th_step 1 s = None) ∧
  (∃ s, th_run [0; 2; 0; 1; 0; 1; 2; 0; 2; 0] (sys_start thC) = Some s ∧ sy_built s = [0; 1] ∧
    match map th_done (sy_ths s) with
    | [[AParse (Some (inr (Some _))); AAssert (Some _)]; [AParse (Some (inr None))]; [AParse (Some (inl _))]] => True
    | _ => False
    end).
Proof.
  split; [|split].
  - intros [|r]; vm_compute; reflexivity.
  - eexists. split; [reflexivity|]. reflexivity.
  - eexists. split; [reflexivity|]. split; [by vm_compute|by vm_compute].
Qed.
