(** Completeness and unambiguity: C36, C37, C38.

    [parses], [lang] (ParseSpec) define the parse trees and sentences of a type; [took],
    [to_come], [only_bad_text] (ParseSpec) describe runs; [regular], [fits], [parsed_whole]
    (CompleteSpec) are the conditions and the claim. *)
From Coq Require Import String NArith.
From stdpp Require Import prelude list strings relations.
From Verif Require Import LexModel LexSpec SynSetModel TableModel CfgSpec StreamModel StreamSpec TypeModel TypeSpec ProduceModel ParseSpec CompleteSpec CompleteFacts ParseEx TermEx CompleteEx.
Local Open Scope nat_scope.

(** ** C36: every sentence of an accepted, regular root is parsed without errors into its tree *)
Theorem C36_parse : ∀ extract env root md,
  accepted env root md → regular env root → ∀ s, state_ok s →
  lang env root (word (p_src s) (to_come extract s)) →
  ∃ f0 x s', parses env (p_src s) (end_of (p_tokens s)) root (to_come extract s) x ∧
    took extract s (to_come extract s) s' ∧ only_bad_text s s' ∧
    ∀ f, f0 ≤ f → run extract (parse env f root (inr md)) s = ODone (inr (Some x)) s'.
Proof. exact parse_complete. Qed.
Print Assumptions C36_parse.
Example C36_parse_ex : accepted ex_env exE (md_get ex_env exE) ∧ regular ex_env exE ∧ state_ok (start "(a)") ∧
  lang ex_env exE (word "(a)" (to_come no_extract (start "(a)"))).
Proof. split; [exact ex_accepted|]. split; [exact ex_regular|]. split; [apply start_ok|exact ex_lang]. Qed.
(** The root may be a [tp::Loop]. *)
Example C36_loop_ex : accepted ex_env exL (md_get ex_env exL) ∧ regular ex_env exL ∧ state_ok (start "a b") ∧
  lang ex_env exL (word "a b" (to_come no_extract (start "a b"))).
Proof. split; [exact exL_accepted|]. split; [exact exL_regular|]. split; [apply start_ok|exact exL_lang]. Qed.

(** The same for every part: a tree of [t] for the next tokens is what [t] produces, if what
    comes after it can follow [t]. *)
Theorem C36_produce : ∀ extract env root md,
  accepted env root md → regular env root → ∀ regs t s l u x,
  register_root env (prod_of root) = Some regs → within env root t → no_loop env t →
  state_ok s → to_come extract s = l ++ u → fits regs root t (p_src s) u →
  parses env (p_src s) (end_of (p_tokens s)) t l x →
  ∃ f0 s', took extract s l s' ∧ only_bad_text s s' ∧
    ∀ f, f0 ≤ f → run extract (produce_md env md f t) s = ODone (RSucc x) s'.
Proof. exact produce_complete. Qed.
Print Assumptions C36_produce.
Example C36_produce_ex : within ex_env exE exE ∧ no_loop ex_env exE ∧ to_come no_extract (start "(a)") = to_come no_extract (start "(a)") ++ [] ∧
  (∃ x, parses ex_env "(a)" 0 exE (to_come no_extract (start "(a)")) x) ∧
  (∀ regs, fits regs exE exE "(a)" []).
Proof. split; [constructor|]. split; [exact ex_no_loop|]. split; [by rewrite app_nil_r|]. split; [exact ex_tree|done]. Qed.

(** The last two conditions of [regular] hold when no sequence has a nullable element strictly
    inside ... *)
Theorem C36_interior : ∀ env root md,
  accepted env root md → filled env root → plain_enums env root → solid_delims env root → no_loop_below env root →
  (∀ regs, register_root env (prod_of root) = Some regs → no_nullable_interior regs) → regular env root.
Proof. exact regular_interior. Qed.
Print Assumptions C36_interior.
Example C36_interior_ex : solid_delims ex_env exE ∧ ∀ regs, register_root ex_env (prod_of exE) = Some regs → no_nullable_interior regs.
Proof. split; [exact ex_solid_delims|]. apply interior_ok. by vm_compute. Qed.
(** ... and more generally when no token that both starts and follows a nullable choice is missed
    in its FOLLOW set, and none that follows a [tp::Punct]. *)
Theorem C36_follow : ∀ env root md,
  accepted env root md → filled env root → plain_enums env root → solid_delims env root → no_loop_below env root →
  (∀ regs, register_root env (prod_of root) = Some regs → ∀ k x,
    (∃ l, (k, EUnion l) ∈ regs ∧ nullable regs k ∧ starts regs k x) ∨
    (∃ t d, k = key (TPunct t d) ∧ within env root (TPunct t d)) →
    follows regs (key root) k (Some x) → near_follow regs (key root) k (Some x)) → regular env root.
Proof. exact regular_follow. Qed.
Print Assumptions C36_follow.
(** [("(", Option<a>, Star<",">, ")")] has nullable elements inside; FOLLOW of the option misses ")". *)
Example C36_follow_ex : regular [] inT ∧ accepted [] inT (md_get [] inT) ∧
  (∀ regs, register_root [] (prod_of inT) = Some regs → ¬ no_nullable_interior regs) ∧
  lang [] inT (word "(a,)" (to_come no_extract (start "(a,)"))) ∧
  match run no_extract (parse [] 60 inT (inr (md_get [] inT))) (start "(a,)") with
  | ODone (inr (Some (TrSeq [_; TrOpt _ (Some _); TrList _ [_]; _]))) s' => p_errors s' = [] | _ => False end.
Proof.
  split; [exact in_regular|]. split; [exact in_accepted|]. split; [exact in_interior|]. split; [exact in_lang|by vm_compute].
Qed.

(** ** C37: acceptance alone does not make all sentences parse *)
(** A nullable element inside a sequence: [(Nev<a>, Option<b>, a)] on "a a".  [FOLLOW] of the
    list misses the second a. *)
Theorem C37_refuted : ∃ env root md s,
  accepted env root md ∧ filled env root ∧ state_ok s ∧
  lang env root (word (p_src s) (to_come no_extract s)) ∧ ¬ parsed_whole no_extract env md root s.
Proof.
  exists [], gapT, (md_get [] gapT), (start "a a"). split; [apply md_get_accepted; by vm_compute|].
  split; [within [gapT; TPlus tA; TOpt tB; tA; tB]|]. split; [apply start_ok|]. split; [exact gap_lang|].
  apply (not_whole _ _ _ _ _ 60); by vm_compute.
Qed.
Print Assumptions C37_refuted.
(** The same for a list with a trailing delimiter, where the grammar is not ambiguous:
    [(Punct<a, ",">, Option<b>, c)] on "a,c". *)
Theorem C37_trailing_refuted : ∃ env root md s,
  accepted env root md ∧ filled env root ∧ state_ok s ∧
  lang env root (word (p_src s) (to_come no_extract s)) ∧ ¬ parsed_whole no_extract env md root s.
Proof.
  exists [], trailT, (md_get [] trailT), (start "a,c"). split; [apply md_get_accepted; by vm_compute|].
  split; [within [trailT; TPunct tA tC; TOpt tB; tCc; tA; tC; tB]|]. split; [apply start_ok|]. split; [exact trail_lang|].
  apply (not_whole _ _ _ _ _ 60); by vm_compute.
Qed.
Print Assumptions C37_trailing_refuted.
(** A variant that may be empty: [enum E { A(Option<a>) }], [(E, b)] on "b". *)
Theorem C37_enum_refuted : ∃ env root md s,
  accepted env root md ∧ filled env root ∧ state_ok s ∧
  lang env root (word (p_src s) (to_come no_extract s)) ∧ ¬ parsed_whole no_extract env md root s.
Proof.
  exists nulE_env, nulE, (md_get nulE_env nulE), (start "b"). split; [apply md_get_accepted; by vm_compute|].
  split; [within [nulE; TNamed 0; tB; TOpt tA; tA]|]. split; [apply start_ok|]. split; [exact nulE_lang|].
  apply (not_whole _ _ _ _ _ 60); by vm_compute.
Qed.
Print Assumptions C37_enum_refuted.
(** A delimiter that may be empty: [Split<a, Option<",">>] on "a a". *)
Theorem C37_delimiter_refuted : ∃ env root md s,
  accepted env root md ∧ filled env root ∧ state_ok s ∧
  lang env root (word (p_src s) (to_come no_extract s)) ∧ ¬ parsed_whole no_extract env md root s.
Proof.
  exists [], splitT, (md_get [] splitT), (start "a a"). split; [apply md_get_accepted; by vm_compute|].
  split; [within [splitT; tA; TOpt tC; tC]|]. split; [apply start_ok|]. split; [exact split_lang|].
  apply (not_whole _ _ _ _ _ 60); by vm_compute.
Qed.
Print Assumptions C37_delimiter_refuted.
(** [tp::Loop] below the root takes everything to the end: [(Loop<a>, b)] on "a b". *)
Theorem C37_loop_refuted : ∃ env root md s,
  accepted env root md ∧ filled env root ∧ state_ok s ∧
  lang env root (word (p_src s) (to_come no_extract s)) ∧ ¬ parsed_whole no_extract env md root s.
Proof.
  exists [], loopT, (md_get [] loopT), (start "a b"). split; [apply md_get_accepted; by vm_compute|].
  split; [within [loopT; TLoop tA; tA; tB]|]. split; [apply start_ok|]. split; [exact loop_lang|].
  apply (not_whole _ _ _ _ _ 60); by vm_compute.
Qed.
Print Assumptions C37_loop_refuted.

(** ** C38: at most one parse tree *)
Theorem C38_part : ∀ env root md t src p l x x',
  accepted env root md → regular env root → within env root t → no_loop env t →
  spans_ok p (String.length src) (map t_span l) →
  parses env src p t l x → parses env src p t l x' → x = x'.
Proof. exact unambiguous_at. Qed.
Print Assumptions C38_part.
Theorem C38_root : ∀ env root md src p l x x',
  accepted env root md → regular env root → spans_ok p (String.length src) (map t_span l) →
  parses env src p root l x → parses env src p root l x' → x = x'.
Proof. exact unambiguous_root. Qed.
Print Assumptions C38_root.
Example C38_ex : accepted ex_env exE (md_get ex_env exE) ∧ regular ex_env exE ∧
  ∃ x, parses ex_env "(a)" 0 exE (to_come no_extract (start "(a)")) x.
Proof. split; [exact ex_accepted|]. split; [exact ex_regular|exact ex_tree]. Qed.
(** Without the condition on sequences accepted grammars can be ambiguous:
    [(Nev<a>, Option<b>, Vec<a>)] on "a a". *)
Theorem C38_interior_refuted : ∃ env root md src l x x',
  accepted env root md ∧ filled env root ∧ plain_enums env root ∧ solid_delims env root ∧ no_loop env root ∧
  spans_ok 0 (String.length src) (map t_span l) ∧
  parses env src 0 root l x ∧ parses env src 0 root l x' ∧ x ≠ x'.
Proof.
  exists [], ambT, (md_get [] ambT), "a a"%string, [amb0; amb2], amb_x, amb_y. split; [apply md_get_accepted; by vm_compute|].
  split; [within [ambT; TPlus tA; TOpt tB; TStar tA; tA; tB]|]. split; [within [ambT; TPlus tA; TOpt tB; TStar tA; tA; tB]|].
  split; [within [ambT; TPlus tA; TOpt tB; TStar tA; tA; tB]|]. split; [within [ambT; TPlus tA; TOpt tB; TStar tA; tA; tB]|].
  split; [cbn; lia|]. split; [exact amb_parses_x|]. split; [exact amb_parses_y|discriminate].
Qed.
Print Assumptions C38_interior_refuted.
