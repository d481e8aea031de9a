(** Property theorems about lists with broken elements (C103).

    [broken_list env regs root pu t d src u l its ks sps] (BrokenSpec): the tokens [l], after the first element of a list and
    before the tokens [u], are delimiters, each with an element, stray tokens and an element, or just stray tokens behind it;
    [its] are the elements, [ks] the delimiters to keep, [sps] the places to report.  [list_ty pu]: [tp::Punct] or
    [tp::Split].  [after_list], [wants_element] (BrokenSpec), [regular] (CompleteSpec), [took], [parses], [lang] (ParseSpec). *)
From Coq Require Import String NArith.
From stdpp Require Import prelude list strings relations.
From Verif Require Import LexModel LexSpec SynSetModel TableModel CfgSpec StreamModel StreamSpec TypeModel TypeSpec ProduceModel ParseSpec CompleteSpec
  BrokenSpec BrokenFacts SyntaxEx ParseEx ScatterEx BrokenEx.
Local Open Scope nat_scope.

(** ** C103: a list finds its elements in spite of broken ones *)
(** A list whose delimiter is a terminal, anywhere in a grammar: the result has the trees of exactly the elements, in order,
    the whole list is consumed, and each place without an element, or with stray tokens before it, is reported by one
    error saying that an element is expected. *)
Theorem C103_list : ∀ extract env root md regs pu t dn dy dlit s i l u its ks sps,
  accepted env root md → register_root env (prod_of root) = Some regs → regular env root → productive env root →
  within env root (list_ty pu t (TTok dn dy dlit)) → no_loop env (list_ty pu t (TTok dn dy dlit)) → ¬ lang env t [] →
  state_ok s → to_come extract s = i ++ l ++ u → lang env t (word (p_src s) i) →
  (∀ y, head (word (p_src s) u) = Some y → after_list regs root (list_ty pu t (TTok dn dy dlit)) y) →
  broken_list env regs root pu t (TTok dn dy dlit) (p_src s) u l its ks sps →
  ∃ f0 sp xs es s', (∀ f, f0 ≤ f → run extract (produce_md env md f (list_ty pu t (TTok dn dy dlit))) s =
      ODone (res_into (list_tree pu sp xs (map TrTok ks)) es) s') ∧
    took extract s (i ++ l) s' ∧ only_bad_text s s' ∧
    Forall2 (λ i x, ∃ p, parses env (p_src s) p t i x) (i :: its) xs ∧ map e_span es = sps ∧
    Forall (wants_element env pu t (after_list regs root (list_ty pu t (TTok dn dy dlit)))) es.
Proof. exact list_found. Qed.
Print Assumptions C103_list.
(** "a,(,b,(c,()" in a grammar with a ")" behind the list. *)
Example C103_list_ex : ∀ pu, accepted [] (brT pu) (md_get [] (brT pu)) ∧ register_root [] (prod_of (brT pu)) = Some (br_regs pu) ∧
  regular [] (brT pu) ∧ productive [] (brT pu) ∧ within [] (brT pu) (list_ty pu tId tC) ∧ no_loop [] (list_ty pu tId tC) ∧ ¬ lang [] tId [] ∧
  state_ok (start br_src) ∧ ∃ l, to_come no_extract (start br_src) = [sc_tok 0 0] ++ l ++ [sc_tok 10 1] ∧
  lang [] tId (word br_src [sc_tok 0 0]) ∧ (∀ y, head (word br_src [sc_tok 10 1]) = Some y → after_list (br_regs pu) (brT pu) (list_ty pu tId tC) y) ∧
  broken_list [] (br_regs pu) (brT pu) pu tId tC br_src [sc_tok 10 1] l br_items (br_kept pu) (br_places pu).
Proof.
  intros pu. split; [apply br_accepted|]. split; [apply br_registered|]. split; [apply br_regular|]. split; [apply br_productive|].
  split; [apply br_within|]. split; [apply br_no_loop|]. split; [exact id_not_nil|]. split; [apply start_ok|].
  eexists. split; [exact br_tokens|]. split; [by apply id_one; split; [|left]|]. split; [|apply br_broken].
  intros y [= <-]. apply br_stops.
Qed.
Example C103_run_ex : ∀ pu, match ex_parse [] (brT pu) br_src with
  | ODone (inr (Some x)) s' => map e_span (p_errors s') = br_places pu ∧ to_come no_extract s' = []
  | _ => False
  end.
Proof. intros []; by vm_compute. Qed.

(** The same for [Parser::parse] and a source that is one list. *)
Theorem C103_parse : ∀ extract env md regs pu t dn dy dlit s i l its ks sps,
  let c := list_ty pu t (TTok dn dy dlit) in
  accepted env c md → register_root env (prod_of c) = Some regs → regular env c → productive env c → no_loop env c → ¬ lang env t [] →
  state_ok s → to_come extract s = i ++ l → lang env t (word (p_src s) i) →
  broken_list env regs c pu t (TTok dn dy dlit) (p_src s) [] l its ks sps →
  ∃ f0 sp xs es bad s', (∀ f, f0 ≤ f → run extract (parse env f c (inr md)) s = ODone (inr (Some (list_tree pu sp xs (map TrTok ks)))) s') ∧
    to_come extract s' = [] ∧
    Forall2 (λ i x, ∃ p, parses env (p_src s) p t i x) (i :: its) xs ∧ map e_span es = sps ∧
    Forall (wants_element env pu t (after_list regs c c)) es ∧
    p_invalid s' = p_invalid s ++ bad ∧ p_errors s' = p_errors s ++ map (λ sp, PErr sp UnexpectedCharacters) bad ++ es.
Proof. exact list_parsed. Qed.
Print Assumptions C103_parse.
(** "a,),(b,". *)
Example C103_parse_ex : ∀ pu, accepted [] (brL pu) (md_get [] (brL pu)) ∧ register_root [] (prod_of (brL pu)) = Some (brL_regs pu) ∧
  regular [] (brL pu) ∧ productive [] (brL pu) ∧ no_loop [] (brL pu) ∧ ¬ lang [] tId [] ∧ state_ok (start brL_src) ∧
  ∃ l, to_come no_extract (start brL_src) = [sc_tok 0 0] ++ l ∧ lang [] tId (word brL_src [sc_tok 0 0]) ∧
  broken_list [] (brL_regs pu) (brL pu) pu tId tC brL_src [] l [[sc_tok 5 0]] (brL_kept pu) (brL_places pu).
Proof.
  intros pu. split; [apply brL_accepted|]. split; [apply brL_registered|]. split; [apply brL_regular|]. split; [apply brL_productive|].
  split; [apply br_no_loop|]. split; [exact id_not_nil|]. split; [apply start_ok|].
  eexists. split; [exact brL_tokens|]. split; [by apply id_one; split; [|left]|apply brL_broken].
Qed.
Example C103_parse_run_ex : ∀ pu, match ex_parse [] (list_ty pu tId tC) brL_src with
  | ODone (inr (Some x)) s' => map e_span (p_errors s') = (if pu then [Span 2 4; Span 4 5] else [Span 2 4; Span 4 5; Span 7 7]) ∧
      to_come no_extract s' = []
  | _ => False
  end.
Proof. intros []; by vm_compute. Qed.
