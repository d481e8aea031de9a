(** Statements scattered over a source, for the example of P_Scatter. *)
From Coq Require Import String NArith.
From stdpp Require Import prelude list strings relations.
From Verif Require Import LexModel LexSpec SynSetModel TableModel CfgSpec CfgFacts StreamModel StreamSpec TypeModel TypeSpec ProduceModel ParseSpec ProgFacts CompleteSpec CompleteFacts
  SyntaxEx ParseEx TermEx CompleteEx NextSpec NextFacts NextEx ScatterSpec.
Local Open Scope nat_scope.

Definition scT := TLoop stT.
Lemma sc_accepted : accepted [] scT (md_get [] scT).
Proof. apply md_get_accepted. by vm_compute. Qed.
Definition sc_types := scT :: st_types.
Lemma sc_regular : regular [] scT.
Proof. apply (regular_interior _ _ _ sc_accepted); [within sc_types|within sc_types|within sc_types|exact st_no_loop|]. apply interior_ok. by vm_compute. Qed.
Lemma sc_productive : productive [] scT.
Proof.
  eapply (productive_intro _ _ ([(0, "a"%string)] ++ [(1, ","%string)])).
  - apply (l_loop _ _ 0). rewrite <- (app_nil_r ([_] ++ _)). apply (ls_cons _ _ []); [|constructor]. by apply (st_lang 0); [|repeat constructor].
  - cbn. intros c ->%elem_of_list_singleton. exact st_productive.
Qed.
Lemma sc_no_punct : no_punct_end [] scT stT.
Proof.
  intros regs t d _ Hw. exfalso. assert (H : all_within [] (λ t, match t with TPunct _ _ => False | _ => True end) scT) by within sc_types.
  exact (H _ Hw).
Qed.
Lemma st_not x w : ¬ covers 0 None x → ¬ covers 1 (Some ","%string) x → ¬ lang [] stT (x :: w).
Proof.
  intros H0 H1 H. destruct (lang_covered _ _ _ H x) as (n & y & lit & Hw & Hc); [by left|].
  assert (HH : all_within [] (λ c, match c with TTok _ y lit => (y, lit) = (0, None) ∨ (y, lit) = (1, Some ","%string) | _ => True end) stT)
    by (apply (all_within_list _ _ st_types); [set_solver|]; repeat (apply Forall_cons; split; [split; [cbn; auto|cbn; repeat (apply Forall_cons; split; [set_solver|]); apply Forall_nil; done]|]); apply Forall_nil; done).
  destruct (HH _ Hw) as [[= -> ->]|[= -> ->]]; done.
Qed.
Lemma st_ends y : ends_before [] stT y.
Proof. apply terminated_both, tId_within. Qed.
(** "(a b,))c,": "(" and "))" are between and before the statements. *)
Definition sc_src : string := "(a b,))c,".
Definition sc_tok (i y : nat) : token := Token (Span i (S i)) y.
Definition sc_items : list (list token) := [[sc_tok 1 0; sc_tok 3 0; sc_tok 4 1]; [sc_tok 7 0; sc_tok 8 1]].
Definition sc_gaps : list (list token) := [[sc_tok 0 1]; [sc_tok 5 1; sc_tok 6 1]].
Lemma sc_scattered : scattered [] stT sc_src (to_come no_extract (start sc_src)) sc_items sc_gaps.
Proof.
  apply (sc_gap _ _ _ [sc_tok 0 1] [sc_tok 1 0; sc_tok 3 0; sc_tok 4 1] [sc_tok 5 1; sc_tok 6 1; sc_tok 7 0; sc_tok 8 1]); [done| |].
  { apply Forall_cons; split; [|apply Forall_nil; done]. intros w. apply st_not; unfold covers; cbn; intros [? [?|?]]; done. }
  apply si_item; [done|by apply (st_lang 1 [(0, "a"%string); (0, "b"%string)]); [|repeat constructor]|intros; apply st_ends|].
  apply (sc_gap _ _ _ [sc_tok 5 1; sc_tok 6 1] [sc_tok 7 0; sc_tok 8 1] []); [done| |].
  { do 2 (apply Forall_cons; split; [intros w; apply st_not; unfold covers; cbn; intros [? [?|?]]; done|]). apply Forall_nil; done. }
  apply si_item; [done|by apply (st_lang 0 [(0, "c"%string)]); [|repeat constructor]|done|]. apply sc_end.
Qed.
