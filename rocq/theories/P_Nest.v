(** C119: [Punct] is a recursive struct.

    [nested_decl] and [nested] are in PunctSpec; [produce_md] in ProduceModel, [near_follow] in CfgSpec, [word] in ParseSpec. *)
From Coq Require Import String NArith.
From stdpp Require Import prelude list strings relations.
From Verif Require Import LexModel LexSpec SynSetModel TableModel CfgSpec StreamModel StreamSpec TypeModel TypeSpec ProduceModel ParseSpec ParseEx CleanSpec SugarSpec
  SugarEx PunctSpec PunctFacts PunctEx.
Local Open Scope nat_scope.

(** Where [Punct<T, D>] parses without errors, in any accepted grammar, [struct P { a: T, b: Option<(D, Option<Box<P>>)> }] does so
    in any accepted grammar, with the same elements and delimiters, taking the same tokens. *)
Theorem C119_nest : ∀ extract env root1 root2 t d n md1 md2 f s r s', accepted env root1 md1 → accepted env root2 md2 →
  within env root1 (TPunct t d) → within env root2 (TNamed n) → env !! n = Some (nested_decl t d n) →
  no_recover env t → no_punct env t → no_recover env d → no_punct env d → state_ok s →
  run extract (produce_md env md1 f (TPunct t d)) s = ODone r s' → errors_of r = [] →
  ∃ sp xs ds f' z u, r = RSucc (TrPunct sp xs ds) ∧ nested z xs ds ∧
    run extract (produce_md env md2 f' (TNamed n)) s = ODone (RSucc z) u ∧ p_tokens u = p_tokens s' ∧ to_come extract u = to_come extract s'.
Proof. exact punct_nest. Qed.
Print Assumptions C119_nest.
(** The other way round this holds if the last delimiter is before an element, or if the [Punct] may be followed by the next token. *)
Theorem C119_unnest : ∀ extract env root1 root2 t d n regs1 md1 md2 f s r s', accepted env root1 md1 → accepted env root2 md2 →
  register_root env (prod_of root1) = Some regs1 →
  within env root1 (TPunct t d) → within env root2 (TNamed n) → env !! n = Some (nested_decl t d n) →
  no_recover env (TNamed n) → no_punct env (TNamed n) → state_ok s →
  run extract (produce_md env md2 f (TNamed n)) s = ODone r s' → errors_of r = [] →
  ∃ z xs ds, r = RSucc z ∧ nested z xs ds ∧
    (length ds < length xs ∨ (∀ y, head (word (p_src s') (to_come extract s')) = Some y → near_follow regs1 (key root1) (key (TPunct t d)) (Some y)) →
     ∃ sp f' u, run extract (produce_md env md1 f' (TPunct t d)) s = ODone (RSucc (TrPunct sp xs ds)) u ∧
       p_tokens u = p_tokens s' ∧ to_come extract u = to_come extract s').
Proof. exact nest_punct. Qed.
Print Assumptions C119_unnest.
(** Otherwise it does not: an error-free [Punct] ends with an element, or with a delimiter before a token that may follow. *)
Theorem C119_trailing : ∀ extract env root t d regs md f s r s', accepted env root md → register_root env (prod_of root) = Some regs → within env root (TPunct t d) →
  no_recover env t → no_punct env t → no_recover env d → no_punct env d → state_ok s →
  run extract (produce_md env md f (TPunct t d)) s = ODone r s' → errors_of r = [] →
  ∃ sp xs ds, r = RSucc (TrPunct sp xs ds) ∧ (length xs = S (length ds) ∨ length xs = length ds ∧
    ∀ y, head (word (p_src s') (to_come extract s')) = Some y → near_follow regs (key root) (key (TPunct t d)) (Some y)).
Proof. exact punct_trail. Qed.
Print Assumptions C119_trailing.
(** "a(), b, c)" and "a, b,)"; in "a, (" the [Punct] finds an error that the struct does not. *)
Example C119_ex : accepted pn_env pnP (md_get pn_env pnP) ∧ accepted pn_env pnN (md_get pn_env pnN) ∧ is_Some (register_root pn_env (prod_of pnP)) ∧
  within pn_env pnP (TPunct sgT tC) ∧ within pn_env pnN (TNamed 0) ∧ pn_env !! 0 = Some (nested_decl sgT tC 0) ∧
  (no_recover pn_env sgT ∧ no_punct pn_env sgT ∧ no_recover pn_env tC ∧ no_punct pn_env tC) ∧ (no_recover pn_env (TNamed 0) ∧ no_punct pn_env (TNamed 0)) ∧
  state_ok (start "a(), b, c)") ∧
  match run no_extract (produce_md pn_env (md_get pn_env pnP) 60 (TPunct sgT tC)) (start "a(), b, c)"),
        run no_extract (produce_md pn_env (md_get pn_env pnN) 60 (TNamed 0)) (start "a(), b, c)") with
  | ODone (RSucc (TrPunct _ [x1; x2; x3] [d1; d2])) s,
    ODone (RSucc (TrSeq [y1; TrOpt _ (Some (TrSeq [e1; TrOpt _ (Some (TrSeq [y2; TrOpt _ (Some (TrSeq [e2; TrOpt _ (Some (TrSeq [y3; TrOpt _ None]))]))]))]))])) s' =>
      [x1; x2; x3] = [y1; y2; y3] ∧ [d1; d2] = [e1; e2] ∧ length (to_come no_extract s') = 1
  | _, _ => False
  end ∧
  match run no_extract (produce_md pn_env (md_get pn_env pnP) 60 (TPunct sgT tC)) (start "a, b,)"),
        run no_extract (produce_md pn_env (md_get pn_env pnN) 60 (TNamed 0)) (start "a, b,)") with
  | ODone (RSucc (TrPunct _ [x1; x2] [d1; d2])) s,
    ODone (RSucc (TrSeq [y1; TrOpt _ (Some (TrSeq [e1; TrOpt _ (Some (TrSeq [y2; TrOpt _ (Some (TrSeq [e2; TrOpt _ None]))]))]))])) s' =>
      [x1; x2] = [y1; y2] ∧ [d1; d2] = [e1; e2] ∧ length (to_come no_extract s') = 1
  | _, _ => False
  end ∧
  match run no_extract (produce_md pn_env (md_get pn_env pnP) 60 (TPunct sgT tC)) (start "a, ("),
        run no_extract (produce_md pn_env (md_get pn_env pnN) 60 (TNamed 0)) (start "a, (") with
  | ODone r s, ODone r' s' => length (errors_of r) = 1 ∧ errors_of r' = []
  | _, _ => False
  end.
Proof.
  split; [exact pnP_accepted|]. split; [exact pnN_accepted|]. split; [by vm_compute; eexists|]. split; [apply rtc_once; cbn; set_solver|].
  split; [apply rtc_once; cbn; set_solver|]. split; [done|]. split; [exact pn_plain|]. split; [exact pn_plain_N|]. split; [apply start_ok|].
  split; [by vm_compute|]. split; by vm_compute.
Qed.
