(** Threads that share roots, for the example of P_Thread. *)
From Coq Require Import String.
From stdpp Require Import prelude list strings relations.
From Verif Require Import LexModel SynSetModel TableModel StreamModel TypeModel ProduceModel DebugModel RootModel SyntaxEx ParseEx ThreadModel ThreadSpec.
Local Open Scope nat_scope.

(** Two roots, the second one refused; three threads, the second waits for the first. *)
Definition thR (r : nat) : ty := match r with 0 => tId | _ => TTuple [TOpt tId; tId] end.
Definition thO (r : nat) : list (prod * entry prod) := default [] (register_root [] (prod_of (thR r))).
Definition thM (r : nat) : gerr prod + metadata prod := default (inr (md_get [] tId)) (root_metadata [] (thR r) (thO r)).
Definition thC : list (list call) := [[CParse 0 "a"; CAssert 1]; [CParse 0 ")"]; [CParse 1 "a"]].
Definition th_step := step no_extract [] (λ _, "t"%string) (λ _, "d"%string) (λ _, "l"%string) 60 (lex_chars 0) thR thO.
Fixpoint th_run (l : list nat) (s : sys) : option sys :=
  match l with [] => Some s | i :: l => s' ← th_step i s; th_run l s' end.
Lemma th_run_rtc l : ∀ s s', th_run l s = Some s' →
  nsteps (any_step no_extract [] (λ _, "t"%string) (λ _, "d"%string) (λ _, "l"%string) 60 (lex_chars 0) thR thO) (length l) s s'.
Proof.
  induction l as [|i l IH]; cbn; intros s s' H; [injection H as ->; constructor|].
  destruct (th_step i s) as [s1|] eqn:E; [|done]. econstructor; [by exists i|]. by apply IH.
Qed.
