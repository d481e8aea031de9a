(** C118: types that are abbreviations.

    [plainly], [plainly_decl], [spelled_out], [pairs] are in SugarSpec; [root_metadata] and [produce_md] in ProduceModel. *)
From Coq Require Import String NArith.
From stdpp Require Import prelude list strings relations.
From Verif Require Import LexModel LexSpec SynSetModel TableModel CfgSpec StreamModel StreamSpec TypeModel TypeSpec ProduceModel ParseSpec ParseEx CleanSpec SugarSpec
  SugarTableFacts SugarFacts SugarRecFacts SugarLoopFacts SugarPlusFacts SugarEx.
Local Open Scope nat_scope.

(** For the analysis, [Split<T, D>] is [(T, Vec<(D, T)>)], [Recover<T, R>] is [(T, R)], [Exists<T>] is [Option<T>], [Loop<T>] is [Nev<T>],
    and [Quote<T>], [Parse<.., T>] are [T], everywhere in a grammar: the tables are the same, and so are the reasons to refuse it. *)
Theorem C118_tables : ∀ env root iter, root_metadata (map plainly_decl env) (plainly root) iter = root_metadata env root iter.
Proof. exact plain_metadata. Qed.
Print Assumptions C118_tables.
Theorem C118_accepted : ∀ env root md, accepted (map plainly_decl env) (plainly root) md ↔ accepted env root md.
Proof. exact plain_accepted. Qed.
Print Assumptions C118_accepted.
Example C118_accepted_ex : accepted sg_env (TNamed 0) (md_get sg_env (TNamed 0)) ∧
  map plainly_decl sg_env =
    [DStruct [(TTuple [tId; TStar (TTuple [tC; tId])], None); (TOpt tL, None); (TTuple [tR; tId], None)];
     DEnum [(TTuple [tId; TStar (TTuple [tC; tId])], None); (tId, None)]] ∧
  match register_root sg_env (PNamed 1) with Some regs => rejected (root_metadata sg_env (TNamed 1) regs) = true | None => False end.
Proof. split; [exact sg_accepted|]. split; [done|by vm_compute]. Qed.

(** Parsing without errors, at any place in any accepted grammars: [Split<T, D>] and [(T, Vec<(D, T)>)] consume the same tokens,
    with the same marks, and have the same elements and delimiters. *)
Theorem C118_split : ∀ extract env root1 root2 t n y lit md1 md2 f s r s', accepted env root1 md1 → accepted env root2 md2 →
  within env root1 (TSplit t (TTok n y lit)) → within env root2 (spelled_out t (TTok n y lit)) → no_recover env t → no_punct env t → state_ok s →
  run extract (produce_md env md1 f (TSplit t (TTok n y lit))) s = ODone r s' → errors_of r = [] →
  ∃ sp x xs ds f' sp' u, r = RSucc (TrSplit sp (x :: xs) ds) ∧ length ds = length xs ∧
    run extract (produce_md env md2 f' (spelled_out t (TTok n y lit))) s = ODone (RSucc (TrSeq [x; TrList sp' (pairs ds xs)])) u ∧
    p_tokens u = p_tokens s' ∧ to_come extract u = to_come extract s'.
Proof. exact split_out. Qed.
Print Assumptions C118_split.
Theorem C118_unsplit : ∀ extract env root1 root2 t n y lit md1 md2 f s r s', accepted env root1 md1 → accepted env root2 md2 →
  within env root1 (TSplit t (TTok n y lit)) → within env root2 (spelled_out t (TTok n y lit)) →
  filled env t → no_recover env t → no_punct env t → no_loop env t → state_ok s →
  run extract (produce_md env md2 f (spelled_out t (TTok n y lit))) s = ODone r s' → errors_of r = [] →
  ∃ sp x xs ds f' sp' u, r = RSucc (TrSeq [x; TrList sp' (pairs ds xs)]) ∧ length ds = length xs ∧
    run extract (produce_md env md1 f' (TSplit t (TTok n y lit))) s = ODone (RSucc (TrSplit sp (x :: xs) ds)) u ∧
    p_tokens u = p_tokens s' ∧ to_come extract u = to_come extract s'.
Proof. exact out_split. Qed.
Print Assumptions C118_unsplit.
Example C118_split_ex : accepted [] sgS (md_get [] sgS) ∧ accepted [] sgS' (md_get [] sgS') ∧
  within [] sgS (TSplit sgT tC) ∧ within [] sgS' (spelled_out sgT tC) ∧
  (filled [] sgT ∧ no_recover [] sgT ∧ no_punct [] sgT ∧ no_loop [] sgT) ∧ state_ok (start "a(), b, c())") ∧
  match run no_extract (produce_md [] (md_get [] sgS) 60 (TSplit sgT tC)) (start "a(), b, c())"),
        run no_extract (produce_md [] (md_get [] sgS') 60 (spelled_out sgT tC)) (start "a(), b, c())") with
  | ODone (RSucc (TrSplit _ (x :: xs) ds)) s, ODone (RSucc (TrSeq [x'; TrList _ l])) s' => x' = x ∧ l = pairs ds xs ∧ length l = 2 ∧ length (to_come no_extract s) = 1
  | _, _ => False
  end ∧
  match run no_extract (produce_md [] (md_get [] sgS) 60 (TSplit sgT tC)) (start "a, (, b)"),
        run no_extract (produce_md [] (md_get [] sgS') 60 (spelled_out sgT tC)) (start "a, (, b)") with
  | ODone r s, ODone r' s' => length (errors_of r) = 1 ∧ length (errors_of r') = 1 ∧ length (to_come no_extract s) < length (to_come no_extract s')
  | _, _ => False
  end.
Proof.
  split; [exact sgS_accepted|]. split; [exact sgS'_accepted|]. split; [apply rtc_once; cbn; set_solver|]. split; [apply rtc_once; cbn; set_solver|].
  split; [exact sg_plain|]. split; [apply start_ok|]. split; [by vm_compute|]. vm_compute. repeat split; lia.
Qed.

(** The same for [Recover<T, R>] and [(T, R)]. *)
Theorem C118_recover : ∀ extract env root1 root2 t e md1 md2 f s z s', accepted env root1 md1 → accepted env root2 md2 →
  within env root1 (TRecover t e) → within env root2 (TTuple [t; e]) →
  no_recover env t → no_punct env t → no_recover env e → no_punct env e → state_ok s →
  run extract (produce_md env md1 f (TRecover t e)) s = ODone (RSucc z) s' →
  ∃ x y u, z = TrRecover (tree_span x) (Some x) y ∧
    run extract (produce_md env md2 f (TTuple [t; e])) s = ODone (RSucc (TrSeq [x; y])) u ∧ p_tokens u = p_tokens s' ∧ to_come extract u = to_come extract s'.
Proof. exact recover_pair. Qed.
Print Assumptions C118_recover.
Theorem C118_unrecover : ∀ extract env root1 root2 t e md1 md2 f s r s', accepted env root1 md1 → accepted env root2 md2 →
  within env root1 (TRecover t e) → within env root2 (TTuple [t; e]) →
  filled env t → no_recover env t → no_punct env t → no_loop env t →
  filled env e → no_recover env e → no_punct env e → no_loop env e → state_ok s →
  run extract (produce_md env md2 f (TTuple [t; e])) s = ODone r s' → errors_of r = [] →
  ∃ x y u, r = RSucc (TrSeq [x; y]) ∧
    run extract (produce_md env md1 (S (S f)) (TRecover t e)) s = ODone (RSucc (TrRecover (tree_span x) (Some x) y)) u ∧
    p_tokens u = p_tokens s' ∧ to_come extract u = to_come extract s'.
Proof. exact out_recover. Qed.
Print Assumptions C118_unrecover.
Example C118_recover_ex : accepted [] sgR (md_get [] sgR) ∧ accepted [] sgR' (md_get [] sgR') ∧
  within [] sgR (TRecover sgT tC) ∧ within [] sgR' (TTuple [sgT; tC]) ∧
  (filled [] sgT ∧ no_recover [] sgT ∧ no_punct [] sgT ∧ no_loop [] sgT) ∧ (filled [] tC ∧ no_recover [] tC ∧ no_punct [] tC ∧ no_loop [] tC) ∧
  state_ok (start "a(),)") ∧
  match run no_extract (produce_md [] (md_get [] sgR) 60 (TRecover sgT tC)) (start "a(),)"),
        run no_extract (produce_md [] (md_get [] sgR') 60 (TTuple [sgT; tC])) (start "a(),)") with
  | ODone (RSucc (TrRecover sp (Some x) y)) s, ODone (RSucc (TrSeq [x'; y'])) s' => x' = x ∧ y' = y ∧ length (to_come no_extract s) = 1
  | _, _ => False
  end.
Proof.
  split; [exact sgR_accepted|]. split; [exact sgR'_accepted|]. split; [apply rtc_once; cbn; set_solver|]. split; [apply rtc_once; cbn; set_solver|].
  split; [exact sg_plain|]. split; [exact sg_plain_C|]. split; [apply start_ok|]. by vm_compute.
Qed.

(** [Loop<T>] parses without errors where [Vec<T>] does so and leaves no tokens, with the same elements. *)
Theorem C118_loop : ∀ extract env root1 root2 t md1 md2 f s r s', accepted env root1 md1 → accepted env root2 md2 →
  within env root1 (TLoop t) → within env root2 (TStar t) → no_recover env t → no_punct env t → state_ok s →
  run extract (produce_md env md1 f (TLoop t)) s = ODone r s' → errors_of r = [] →
  ∃ sp xs f' sp' u, r = RSucc (TrList sp xs) ∧ to_come extract s' = [] ∧
    run extract (produce_md env md2 f' (TStar t)) s = ODone (RSucc (TrList sp' xs)) u ∧ p_tokens u = p_tokens s' ∧ to_come extract u = [].
Proof. exact loop_list. Qed.
Print Assumptions C118_loop.
Theorem C118_unloop : ∀ extract env root1 root2 t md1 md2 f s r s', accepted env root1 md1 → accepted env root2 md2 →
  within env root1 (TLoop t) → within env root2 (TStar t) → filled env t → no_recover env t → no_punct env t → no_loop env t → state_ok s →
  run extract (produce_md env md2 f (TStar t)) s = ODone r s' → errors_of r = [] → to_come extract s' = [] →
  ∃ sp xs f' sp' u, r = RSucc (TrList sp xs) ∧
    run extract (produce_md env md1 f' (TLoop t)) s = ODone (RSucc (TrList sp' xs)) u ∧ p_tokens u = p_tokens s' ∧ to_come extract u = [].
Proof. exact list_loop. Qed.
Print Assumptions C118_unloop.
Example C118_loop_ex : accepted [] sgL (md_get [] sgL) ∧ accepted [] sgL' (md_get [] sgL') ∧
  within [] sgL (TLoop sgT) ∧ within [] sgL' (TStar sgT) ∧
  (filled [] sgT ∧ no_recover [] sgT ∧ no_punct [] sgT ∧ no_loop [] sgT) ∧ state_ok (start "a() b c()") ∧
  match run no_extract (produce_md [] (md_get [] sgL) 60 sgL) (start "a() b c()"),
        run no_extract (produce_md [] (md_get [] sgL') 60 sgL') (start "a() b c()") with
  | ODone (RSucc (TrList _ xs)) s, ODone (RSucc (TrList _ xs')) s' => xs' = xs ∧ length xs = 3 ∧ to_come no_extract s' = []
  | _, _ => False
  end ∧
  match run no_extract (produce_md [] (md_get [] sgL) 60 sgL) (start "a, b"),
        run no_extract (produce_md [] (md_get [] sgL') 60 sgL') (start "a, b") with
  | ODone r s, ODone r' s' => length (errors_of r) = 1 ∧ errors_of r' = [] ∧ length (to_come no_extract s') = 2
  | _, _ => False
  end.
Proof.
  split; [exact sgL_accepted|]. split; [exact sgL'_accepted|]. split; [apply rtc_refl|]. split; [apply rtc_refl|].
  split; [exact sg_plain|]. split; [apply start_ok|]. split; by vm_compute.
Qed.

(** [Nev<T>] and [(T, Vec<T>)]. *)
Theorem C118_plus : ∀ extract env root1 root2 t md1 md2 f s r s', accepted env root1 md1 → accepted env root2 md2 →
  within env root1 (TPlus t) → within env root2 (TTuple [t; TStar t]) → no_recover env t → no_punct env t → state_ok s →
  run extract (produce_md env md1 f (TPlus t)) s = ODone r s' → errors_of r = [] →
  ∃ sp x xs f' sp' u, r = RSucc (TrList sp (x :: xs)) ∧
    run extract (produce_md env md2 f' (TTuple [t; TStar t])) s = ODone (RSucc (TrSeq [x; TrList sp' xs])) u ∧
    p_tokens u = p_tokens s' ∧ to_come extract u = to_come extract s'.
Proof. exact plus_pair. Qed.
Print Assumptions C118_plus.
Theorem C118_unplus : ∀ extract env root1 root2 t md1 md2 f s r s', accepted env root1 md1 → accepted env root2 md2 →
  within env root1 (TPlus t) → within env root2 (TTuple [t; TStar t]) → no_recover env t → no_punct env t → state_ok s →
  run extract (produce_md env md2 f (TTuple [t; TStar t])) s = ODone r s' → errors_of r = [] →
  ∃ sp x xs f' sp' u, r = RSucc (TrSeq [x; TrList sp' xs]) ∧
    run extract (produce_md env md1 f' (TPlus t)) s = ODone (RSucc (TrList sp (x :: xs))) u ∧
    p_tokens u = p_tokens s' ∧ to_come extract u = to_come extract s'.
Proof. exact pair_plus. Qed.
Print Assumptions C118_unplus.
Example C118_plus_ex : accepted [] sgN (md_get [] sgN) ∧ accepted [] sgN' (md_get [] sgN') ∧
  within [] sgN (TPlus sgT) ∧ within [] sgN' (TTuple [sgT; TStar sgT]) ∧ (no_recover [] sgT ∧ no_punct [] sgT) ∧ state_ok (start "a() b c(),") ∧
  match run no_extract (produce_md [] (md_get [] sgN) 60 (TPlus sgT)) (start "a() b c(),"),
        run no_extract (produce_md [] (md_get [] sgN') 60 (TTuple [sgT; TStar sgT])) (start "a() b c(),") with
  | ODone (RSucc (TrList _ (x :: xs))) s, ODone (RSucc (TrSeq [x'; TrList _ xs'])) s' => x' = x ∧ xs' = xs ∧ length xs = 2 ∧ length (to_come no_extract s') = 1
  | _, _ => False
  end.
Proof.
  split; [exact sgN_accepted|]. split; [exact sgN'_accepted|]. split; [apply rtc_once; cbn; set_solver|]. split; [apply rtc_once; cbn; set_solver|].
  split; [split; apply sg_plain|]. split; [apply start_ok|]. by vm_compute.
Qed.
