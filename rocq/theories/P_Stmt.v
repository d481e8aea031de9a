(** C104: errors stay inside their statement. *)
From Coq Require Import String NArith.
From stdpp Require Import prelude list strings relations.
From Verif Require Import LexModel SynSetModel TableModel CfgSpec StreamModel StreamSpec TypeModel TypeSpec ProduceModel ParseSpec CompleteSpec LoopSpec LeafSpec BrokenSpec StmtSpec StmtFacts
  SyntaxEx ParseEx TermEx CompleteEx NextEx ScatterEx BrokenEx StmtEx.
Local Open Scope nat_scope.

(** A [Recover<T, D>] anywhere in a grammar, [D] a terminal that is no terminal of [T] and before which the lists in [T]
    end: if there is a [D] to come, the
    result is a node with the first [D], everything up to it is consumed, and there are errors, all of them inside, if and
    only if what is before it is no [T]. *)
Theorem C104_recover : ∀ extract env root md regs t dn dy dlit s c k u,
  accepted env root md → regular env root → productive env root → within env root (TRecover t (TTok dn dy dlit)) →
  register_root env (prod_of root) = Some regs → keeps_end env regs root t (TTok dn dy dlit) → apart env t (TTok dn dy dlit) →
  state_ok s → to_come extract s = c ++ k :: u →
  Forall (λ y, ¬ lang env (TTok dn dy dlit) [y]) (word (p_src s) c) → lang env (TTok dn dy dlit) (word (p_src s) [k]) →
  ∃ f0 x es s', (∀ f, f0 ≤ f → run extract (produce_md env md f (TRecover t (TTok dn dy dlit))) s = ODone (res_into x es) s') ∧
    stmt_result env t (p_src s) c k x es ∧ took extract s (c ++ [k]) s' ∧ only_bad_text s s'.
Proof. exact stmt_found. Qed.
Print Assumptions C104_recover.
(** "a(,c)d,": a broken statement up to the [")"]. *)
Example C104_recover_ex : accepted [] sgL (md_get [] sgL) ∧ regular [] sgL ∧ productive [] sgL ∧ within [] sgL (TRecover sgT tR) ∧
  register_root [] (prod_of sgL) = Some sg_regs ∧ keeps_end [] sg_regs sgL sgT tR ∧ apart [] sgT tR ∧ state_ok (start "a(,c)d,") ∧
  to_come no_extract (start "a(,c)d,") = [sc_tok 0 0; sc_tok 1 1; sc_tok 2 1; sc_tok 3 0] ++ sc_tok 4 1 :: [sc_tok 5 0; sc_tok 6 1] ∧
  Forall (λ y, ¬ lang [] tR [y]) (word "a(,c)d," [sc_tok 0 0; sc_tok 1 1; sc_tok 2 1; sc_tok 3 0]) ∧ lang [] tR (word "a(,c)d," [sc_tok 4 1]).
Proof.
  split; [exact sg_accepted|]. split; [exact sg_regular|]. split; [exact sg_productive|]. split; [exact sg_within|].
  split; [exact sg_registered|]. split; [exact sg_keeps|]. split; [exact sg_apart|]. split; [apply start_ok|]. split; [by vm_compute|].
  split; [|apply l_lit]. repeat (apply Forall_cons; split; [by apply not_end|]). apply Forall_nil; done.
Qed.

(** [Parser::parse] with [Loop<Recover<T, D>>]: the source is divided into gaps and statements by the ends alone.  Each
    statement gives an element, and errors, inside of it, if and only if it is no [T]; each gap gives one error.  A last
    statement without an end gives no element, and an error only if it is no [T]. *)
Theorem C104_parse : ∀ extract env md regs t dn dy dlit s gs,
  let root := TLoop (TRecover t (TTok dn dy dlit)) in
  accepted env root md → regular env root → productive env root →
  register_root env (prod_of root) = Some regs → keeps_end env regs root t (TTok dn dy dlit) → apart env t (TTok dn dy dlit) →
  state_ok s → segs env t (TTok dn dy dlit) (p_src s) (to_come extract s) gs →
  ∃ f0 sp rs bad s', (∀ f, f0 ≤ f → run extract (parse env f root (inr md)) s = ODone (inr (Some (TrList sp (omap fst rs)))) s') ∧
    to_come extract s' = [] ∧ Forall2 (seg_result env t (p_src s)) gs rs ∧
    p_invalid s' = p_invalid s ++ bad ∧ p_errors s' = p_errors s ++ map (λ sp, PErr sp UnexpectedCharacters) bad ++ concat (map snd rs).
Proof. exact stmts_parsed. Qed.
Print Assumptions C104_parse.
(** "(a,b)a(,c)d,": a gap, a statement, a broken one, and one without end. *)
Example C104_parse_ex : accepted [] sgL (md_get [] sgL) ∧ regular [] sgL ∧ productive [] sgL ∧ register_root [] (prod_of sgL) = Some sg_regs ∧ keeps_end [] sg_regs sgL sgT tR ∧ apart [] sgT tR ∧
  state_ok (start sg_src) ∧ segs [] sgT tR sg_src (to_come no_extract (start sg_src)) sg_segs.
Proof.
  split; [exact sg_accepted|]. split; [exact sg_regular|]. split; [exact sg_productive|].
  split; [exact sg_registered|]. split; [exact sg_keeps|]. split; [exact sg_apart|]. split; [apply start_ok|exact sg_divided].
Qed.
Example C104_run_ex : match ex_parse [] sgL sg_src with
  | ODone (inr (Some (TrList _ [TrRecover _ (Some _) _; TrRecover _ None _]))) s' =>
      map e_span (p_errors s') = [Span 0 1; Span 6 9; Span 12 12] ∧ to_come no_extract s' = []
  | _ => False
  end.
Proof. by vm_compute. Qed.

(** Every source can be divided. *)
Theorem C104_divided : ∀ env md t dn dy dlit src l,
  let root := TLoop (TRecover t (TTok dn dy dlit)) in
  accepted env root md → regular env root → productive env root →
  ∃ gs, segs env t (TTok dn dy dlit) src l gs.
Proof. exact source_divided. Qed.
Print Assumptions C104_divided.
Example C104_divided_ex : accepted [] sgL (md_get [] sgL) ∧ regular [] sgL ∧ productive [] sgL.
Proof. split; [exact sg_accepted|]. split; [exact sg_regular|exact sg_productive]. Qed.
(** A last statement without its end is a sentence: no element and no error. *)
Example C104_open_ex : match ex_parse [] sgL "a,b)c,d" with
  | ODone (inr (Some (TrList _ [TrRecover _ (Some _) _]))) s' => p_errors s' = [] ∧ to_come no_extract s' = []
  | _ => False
  end.
Proof. by vm_compute. Qed.
(** Without [keeps_end]: the list in "a,)" steps over the [")"], and the two statements become one. *)
Example C104_swallow_ex : match ex_parse [] swL "a,)a()" with
  | ODone (inr (Some (TrList _ [TrRecover _ (Some _) _]))) s' => map e_span (p_errors s') = [Span 2 3] ∧ to_come no_extract s' = []
  | _ => False
  end.
Proof. by vm_compute. Qed.
(** The list in a statement recovers by itself: "a,b,(c)d,e)". *)
Example C104_list_ex : match ex_parse [] sgL "a,b,(c)d,e)" with
  | ODone (inr (Some (TrList _ [TrRecover _ (Some _) _; TrRecover _ (Some _) _]))) s' => map e_span (p_errors s') = [Span 4 5] ∧ to_come no_extract s' = []
  | _ => False
  end.
Proof. by vm_compute. Qed.
