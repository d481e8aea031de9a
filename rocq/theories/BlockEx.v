(** Lists of statements inside a source, for the examples of P_Block. *)
From Coq Require Import String NArith.
From stdpp Require Import prelude list strings relations.
From Verif Require Import LexModel LexSpec SynSetModel TableModel CfgSpec CfgFacts StreamModel StreamSpec TypeModel TypeSpec ProduceModel ParseSpec ProgFacts CompleteSpec CompleteFacts
  SyntaxEx ParseEx TermEx CompleteEx LeafSpec LoopSpec NextFacts NextEx BrokenSpec BrokenFacts StmtSpec ScatterEx BrokenEx StmtEx BlockSpec.
Local Open Scope nat_scope.

(** A "(", statements, and a ",". *)
Definition bkA := TStar sgS.
Definition bkR := TTuple [tL; bkA; tC].
Lemma bk_accepted : accepted [] bkR (md_get [] bkR).
Proof. apply md_get_accepted. by vm_compute. Qed.
Definition bk_types := [bkR; bkA; tL; sgS; sgT; sgI; tId; tC; tR].
Lemma bk_regular : regular [] bkR.
Proof.
  apply (regular_follow _ _ _ bk_accepted); [within bk_types|within bk_types| | |].
  { apply (all_within_list _ _ bk_types); [set_solver|]; unfold bk_types.
    repeat (apply Forall_cons; split; [split; [cbn; try done; intros H; inversion H|cbn; repeat (apply Forall_cons; split; [set_solver|]); apply Forall_nil; done]|]).
    apply Forall_nil; done. }
  { cbn. within bk_types. }
  apply follow_check; [by vm_compute|within bk_types].
Qed.
Lemma bkA_lang : lang [] bkA ([(0, "a"%string); (1, ","%string); (0, "a"%string); (1, ")"%string)] ++ []).
Proof. apply (l_star _ _ 1). apply (ls_cons _ _ []); [apply sg_stmt_lang|constructor]. Qed.
Lemma bk_productive : productive [] bkR.
Proof.
  apply (all_within_list _ _ bk_types); [set_solver|]. unfold bk_types.
  repeat (apply Forall_cons; split; [split; [|cbn; repeat (apply Forall_cons; split; [set_solver|]); apply Forall_nil; done]|]); [..|apply Forall_nil; done].
  - eexists. constructor. eapply ls_cons; [apply l_lit|]. eapply ls_cons; [apply bkA_lang|].
    eapply ls_cons; [apply l_lit|constructor].
  - eexists. apply bkA_lang.
  - eexists. apply l_lit.
  - eexists. apply (sg_stmt_lang "a" "a").
  - eexists. apply (sg_lang "a" "a").
  - eexists. apply (sgI_lang "a").
  - eexists. apply (id_lang "a").
  - eexists. apply l_lit.
  - eexists. apply l_lit.
Qed.
Definition bk_regs : grammar prod := default [] (register_root [] (prod_of bkR)).
Lemma bk_registered : register_root [] (prod_of bkR) = Some bk_regs.
Proof. by vm_compute. Qed.
Lemma bk_keeps : keeps_end [] bk_regs bkR sgT tR.
Proof.
  apply (all_within_list _ _ [sgT; sgI; tId; tC]); [set_solver|].
  repeat (apply Forall_cons; split; [split; [|cbn; repeat (apply Forall_cons; split; [set_solver|]); apply Forall_nil; done]|]); [..|apply Forall_nil; done]; try done.
  intros y Hy. inversion Hy; subst. match goal with H : covers _ _ y |- _ => destruct H as [E1 [E2|E2]] end; [done|]. destruct y as [y1 y2]. cbn in *. subst y1. injection E2 as <-.
  apply (after_list_spec _ _ _ _ _ _ bk_accepted bk_registered). by vm_compute.
Qed.
Lemma bk_within_list : within [] bkR bkA.
Proof. apply rtc_once. cbn. set_solver. Qed.
Lemma bk_within : within [] bkR sgS.
Proof. eapply rtc_r; [exact bk_within_list|]. cbn. by left. Qed.

(** A "(", at least one statement, and a ",". *)
Definition bpA := TPlus sgS.
Definition bpR := TTuple [tL; bpA; tC].
Lemma bp_accepted : accepted [] bpR (md_get [] bpR).
Proof. apply md_get_accepted. by vm_compute. Qed.
Definition bp_types := [bpR; bpA; tL; sgS; sgT; sgI; tId; tC; tR].
Lemma bp_regular : regular [] bpR.
Proof.
  apply (regular_follow _ _ _ bp_accepted); [within bp_types|within bp_types| | |].
  { apply (all_within_list _ _ bp_types); [set_solver|]; unfold bp_types.
    repeat (apply Forall_cons; split; [split; [cbn; try done; intros H; inversion H|cbn; repeat (apply Forall_cons; split; [set_solver|]); apply Forall_nil; done]|]).
    apply Forall_nil; done. }
  { cbn. within bp_types. }
  apply follow_check; [by vm_compute|within bp_types].
Qed.
Lemma bpA_lang : lang [] bpA ([(0, "a"%string); (1, ","%string); (0, "a"%string); (1, ")"%string)] ++ []).
Proof. apply (l_plus _ _ 0). apply (ls_cons _ _ []); [apply sg_stmt_lang|constructor]. Qed.
Lemma bp_productive : productive [] bpR.
Proof.
  apply (all_within_list _ _ bp_types); [set_solver|]. unfold bp_types.
  repeat (apply Forall_cons; split; [split; [|cbn; repeat (apply Forall_cons; split; [set_solver|]); apply Forall_nil; done]|]); [..|apply Forall_nil; done].
  - eexists. constructor. eapply ls_cons; [apply l_lit|]. eapply ls_cons; [apply bpA_lang|].
    eapply ls_cons; [apply l_lit|constructor].
  - eexists. apply bpA_lang.
  - eexists. apply l_lit.
  - eexists. apply (sg_stmt_lang "a" "a").
  - eexists. apply (sg_lang "a" "a").
  - eexists. apply (sgI_lang "a").
  - eexists. apply (id_lang "a").
  - eexists. apply l_lit.
  - eexists. apply l_lit.
Qed.
Definition bp_regs : grammar prod := default [] (register_root [] (prod_of bpR)).
Lemma bp_registered : register_root [] (prod_of bpR) = Some bp_regs.
Proof. by vm_compute. Qed.
Lemma bp_keeps : keeps_end [] bp_regs bpR sgT tR.
Proof.
  apply (all_within_list _ _ [sgT; sgI; tId; tC]); [set_solver|].
  repeat (apply Forall_cons; split; [split; [|cbn; repeat (apply Forall_cons; split; [set_solver|]); apply Forall_nil; done]|]); [..|apply Forall_nil; done]; try done.
  intros y Hy. inversion Hy; subst. match goal with H : covers _ _ y |- _ => destruct H as [E1 [E2|E2]] end; [done|]. destruct y as [y1 y2]. cbn in *. subst y1. injection E2 as <-.
  apply (after_list_spec _ _ _ _ _ _ bp_accepted bp_registered). by vm_compute.
Qed.
Lemma bp_within_list : within [] bpR bpA.
Proof. apply rtc_once. cbn. set_solver. Qed.
Lemma bp_within : within [] bpR sgS.
Proof. eapply rtc_r; [exact bp_within_list|]. cbn. by left. Qed.

(** "a,b)a(,c),d": two statements, the second one broken, and then ",d". *)
Definition bk_src : string := "a,b)a(,c),d".
Definition bk_segs : list seg := [Stmt [sc_tok 0 0; sc_tok 1 1; sc_tok 2 0] (sc_tok 3 1); Stmt [sc_tok 4 0; sc_tok 5 1; sc_tok 6 1; sc_tok 7 0] (sc_tok 8 1)].
Definition bk_rest : list token := [sc_tok 9 1; sc_tok 10 0].
Lemma bk_tokens : to_come no_extract (start bk_src) = [sc_tok 0 0; sc_tok 1 1; sc_tok 2 0] ++ sc_tok 3 1 ::
  [sc_tok 4 0; sc_tok 5 1; sc_tok 6 1; sc_tok 7 0] ++ sc_tok 8 1 :: bk_rest.
Proof. by vm_compute. Qed.
Lemma bk_tail : block [] sgT tR bk_src ([sc_tok 4 0; sc_tok 5 1; sc_tok 6 1; sc_tok 7 0] ++ sc_tok 8 1 :: bk_rest) (tail bk_segs) bk_rest.
Proof.
  apply bk_stmt; [eexists; split; [done|]; apply sg_begins| |apply l_lit|].
  { repeat (apply Forall_cons; split; [by apply not_end|]). apply Forall_nil; done. }
  apply bk_end. intros (y & Hy & Hb). cbn in Hy. injection Hy as <-. by apply sg_not_begins in Hb.
Qed.
Lemma bk_block : block [] sgT tR bk_src (to_come no_extract (start bk_src)) bk_segs bk_rest.
Proof.
  rewrite bk_tokens. apply bk_stmt; [eexists; split; [done|]; apply sg_begins| |apply l_lit|exact bk_tail].
  repeat (apply Forall_cons; split; [by apply not_end|]). apply Forall_nil; done.
Qed.
