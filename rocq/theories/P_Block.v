(** C107: lists of statements inside a source. *)
From Coq Require Import String NArith.
From stdpp Require Import prelude list strings relations.
From Verif Require Import LexModel SynSetModel TableModel CfgSpec StreamModel StreamSpec TypeModel TypeSpec ProduceModel ParseSpec CompleteSpec LoopSpec LeafSpec BrokenSpec StmtSpec BlockSpec BlockFacts
  SyntaxEx ParseEx TermEx CompleteEx NextEx ScatterEx BrokenEx StmtEx BlockEx.
Local Open Scope nat_scope.

(** A [Star<Recover<T, D>>] anywhere in a grammar, [D] a terminal that is no terminal of [T] and before which the lists
    in [T] end.  The tokens to come are statements, divided by their ends alone, and then a token that begins none (or a
    last statement without end).  Each statement gives an element, and errors, inside of it, if and only if it is no [T];
    the parsing goes on right after the last one. *)
Theorem C107_star : ∀ extract env root md regs t dn dy dlit s gs u,
  accepted env root md → regular env root → productive env root → within env root (TStar (TRecover t (TTok dn dy dlit))) →
  register_root env (prod_of root) = Some regs → keeps_end env regs root t (TTok dn dy dlit) → apart env t (TTok dn dy dlit) →
  state_ok s → block env t (TTok dn dy dlit) (p_src s) (to_come extract s) gs u →
  ∃ f0 r sp rs s', (∀ f, f0 ≤ f → run extract (produce_md env md f (TStar (TRecover t (TTok dn dy dlit)))) s = ODone r s') ∧
    value r = Some (TrList sp (omap fst rs)) ∧ errors_of r = concat (map snd rs) ∧ Forall2 (seg_result env t (p_src s)) gs rs ∧
    to_come extract s' = u ∧ only_bad_text s s'.
Proof. exact star_found. Qed.
Print Assumptions C107_star.
(** "a,b)a(,c),d": two statements, the second one broken, and then ",d". *)
Example C107_star_ex : accepted [] bkR (md_get [] bkR) ∧ regular [] bkR ∧ productive [] bkR ∧ within [] bkR (TStar (TRecover sgT tR)) ∧
  register_root [] (prod_of bkR) = Some bk_regs ∧ keeps_end [] bk_regs bkR sgT tR ∧ apart [] sgT tR ∧
  state_ok (start bk_src) ∧ block [] sgT tR bk_src (to_come no_extract (start bk_src)) bk_segs bk_rest.
Proof.
  split; [exact bk_accepted|]. split; [exact bk_regular|]. split; [exact bk_productive|]. split; [exact bk_within_list|].
  split; [exact bk_registered|]. split; [exact bk_keeps|]. split; [exact sg_apart|]. split; [apply start_ok|exact bk_block].
Qed.
(** "(a,b)a(,c),": the "(" before and the "," after the statements are found. *)
Example C107_run_ex : match ex_parse [] bkR "(a,b)a(,c)," with
  | ODone (inr (Some (TrSeq [TrTok _; TrList _ [TrRecover _ (Some _) _; TrRecover _ None _]; TrTok _]))) s' =>
      map e_span (p_errors s') = [Span 6 9] ∧ to_come no_extract s' = []
  | _ => False
  end.
Proof. by vm_compute. Qed.
(** No statement at all, and a last one without its end: the "," after it is lost in it. *)
Example C107_none_ex : match ex_parse [] bkR "(," with
  | ODone (inr (Some (TrSeq [TrTok _; TrList _ []; TrTok _]))) s' => p_errors s' = []
  | _ => False
  end.
Proof. by vm_compute. Qed.
Example C107_open_ex : match ex_run [] bkR "(a,b)c(," with
  | ODone (RRec (TrSeq [TrTok _; TrList _ [TrRecover _ (Some _) _]; TrTok _]) es) s' => map e_span es = [Span 6 8; Span 8 8] ∧ to_come no_extract s' = []
  | _ => False
  end.
Proof. by vm_compute. Qed.

(** A [Plus<Recover<T, D>>]: the first statement is what is before the first [D], whatever it begins with. *)
Theorem C107_plus : ∀ extract env root md regs t dn dy dlit s c k l gs u,
  accepted env root md → regular env root → productive env root → within env root (TPlus (TRecover t (TTok dn dy dlit))) →
  register_root env (prod_of root) = Some regs → keeps_end env regs root t (TTok dn dy dlit) → apart env t (TTok dn dy dlit) →
  state_ok s → to_come extract s = c ++ k :: l →
  Forall (λ y, ¬ lang env (TTok dn dy dlit) [y]) (word (p_src s) c) → lang env (TTok dn dy dlit) (word (p_src s) [k]) →
  block env t (TTok dn dy dlit) (p_src s) l gs u →
  ∃ f0 r sp rs s', (∀ f, f0 ≤ f → run extract (produce_md env md f (TPlus (TRecover t (TTok dn dy dlit)))) s = ODone r s') ∧
    value r = Some (TrList sp (omap fst rs)) ∧ errors_of r = concat (map snd rs) ∧ Forall2 (seg_result env t (p_src s)) (Stmt c k :: gs) rs ∧
    to_come extract s' = u ∧ only_bad_text s s'.
Proof. exact plus_found. Qed.
Print Assumptions C107_plus.
Example C107_plus_ex : accepted [] bpR (md_get [] bpR) ∧ regular [] bpR ∧ productive [] bpR ∧ within [] bpR (TPlus (TRecover sgT tR)) ∧
  register_root [] (prod_of bpR) = Some bp_regs ∧ keeps_end [] bp_regs bpR sgT tR ∧ apart [] sgT tR ∧
  state_ok (start bk_src) ∧
  to_come no_extract (start bk_src) = [sc_tok 0 0; sc_tok 1 1; sc_tok 2 0] ++ sc_tok 3 1 :: [sc_tok 4 0; sc_tok 5 1; sc_tok 6 1; sc_tok 7 0] ++ sc_tok 8 1 :: bk_rest ∧
  Forall (λ y, ¬ lang [] tR [y]) (word bk_src [sc_tok 0 0; sc_tok 1 1; sc_tok 2 0]) ∧ lang [] tR (word bk_src [sc_tok 3 1]) ∧
  block [] sgT tR bk_src ([sc_tok 4 0; sc_tok 5 1; sc_tok 6 1; sc_tok 7 0] ++ sc_tok 8 1 :: bk_rest) (tail bk_segs) bk_rest.
Proof.
  split; [exact bp_accepted|]. split; [exact bp_regular|]. split; [exact bp_productive|]. split; [exact bp_within_list|].
  split; [exact bp_registered|]. split; [exact bp_keeps|]. split; [exact sg_apart|]. split; [apply start_ok|]. split; [exact bk_tokens|].
  split; [repeat (apply Forall_cons; split; [by apply not_end|]); apply Forall_nil; done|]. split; [apply l_lit|exact bk_tail].
Qed.
(** No [D] to come: the list fails, everything is consumed. *)
Theorem C107_plus_open : ∀ extract env root md regs t dn dy dlit s,
  accepted env root md → regular env root → productive env root → within env root (TPlus (TRecover t (TTok dn dy dlit))) →
  register_root env (prod_of root) = Some regs → keeps_end env regs root t (TTok dn dy dlit) → apart env t (TTok dn dy dlit) → state_ok s →
  Forall (λ y, ¬ lang env (TTok dn dy dlit) [y]) (word (p_src s) (to_come extract s)) →
  ∃ f0 es s', (∀ f, f0 ≤ f → run extract (produce_md env md f (TPlus (TRecover t (TTok dn dy dlit)))) s = ODone (RPanic es) s') ∧
    seg_result env t (p_src s) (Open (to_come extract s)) (None, es) ∧ to_come extract s' = [] ∧ only_bad_text s s'.
Proof. exact plus_not_found. Qed.
Print Assumptions C107_plus_open.
Example C107_plus_open_ex : accepted [] bpR (md_get [] bpR) ∧ regular [] bpR ∧ productive [] bpR ∧ within [] bpR (TPlus (TRecover sgT tR)) ∧
  register_root [] (prod_of bpR) = Some bp_regs ∧ keeps_end [] bp_regs bpR sgT tR ∧ apart [] sgT tR ∧
  state_ok (start "a,,") ∧ Forall (λ y, ¬ lang [] tR [y]) (word "a,," (to_come no_extract (start "a,,"))).
Proof.
  split; [exact bp_accepted|]. split; [exact bp_regular|]. split; [exact bp_productive|]. split; [exact bp_within_list|].
  split; [exact bp_registered|]. split; [exact bp_keeps|]. split; [exact sg_apart|]. split; [apply start_ok|].
  repeat (apply Forall_cons; split; [by apply not_end|]); apply Forall_nil; done.
Qed.

(** The tokens to come can always be divided, and in one way only. *)
Theorem C107_divided : ∀ env root md t dn dy dlit src l,
  accepted env root md → regular env root → productive env root → within env root (TRecover t (TTok dn dy dlit)) →
  ∃ gs u, block env t (TTok dn dy dlit) src l gs u.
Proof. exact block_divided. Qed.
Print Assumptions C107_divided.
Example C107_divided_ex : accepted [] bkR (md_get [] bkR) ∧ regular [] bkR ∧ productive [] bkR ∧ within [] bkR (TRecover sgT tR).
Proof. split; [exact bk_accepted|]. split; [exact bk_regular|]. split; [exact bk_productive|exact bk_within]. Qed.
Theorem C107_once : ∀ env t d src l gs u, block env t d src l gs u → ∀ gs' u', block env t d src l gs' u' → gs' = gs ∧ u' = u.
Proof. exact block_once. Qed.
Print Assumptions C107_once.
Example C107_once_ex : block [] sgT tR bk_src (to_come no_extract (start bk_src)) bk_segs bk_rest.
Proof. exact bk_block. Qed.
