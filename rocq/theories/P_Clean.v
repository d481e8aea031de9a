(** C117: what parses without errors parses the same everywhere.

    [produce_md env md f t] (ProduceModel) is the parser of the type [t] in the grammar with the tables [md];
    [errors_of], [only_bad_text], [no_recover], [within] are in ParseSpec, [same_decls] in PartSpec,
    [ends_within], [no_punct], [one_by_one] in CleanSpec. *)
From Coq Require Import String NArith.
From stdpp Require Import prelude list strings relations.
From Verif Require Import LexModel LexSpec SynSetModel TableModel CfgSpec StreamModel StreamSpec TypeModel TypeSpec ProduceModel ParseSpec ParseEx
  PartSpec CleanSpec EachFacts CleanEx.
Local Open Scope nat_scope.

(** A type used in two accepted grammars, on any input: if there is no error in the first grammar, then the result and the final
    state are the same in the second. What may follow the type does not matter (with errors it does: C108), except after
    a [Punct], which looks there whether its last separator is a trailing one. *)
Theorem C117_same : ∀ extract env1 env2 root1 root2 t regs1 regs2 md1 md2 f s r s',
  accepted env1 root1 md1 → accepted env2 root2 md2 →
  register_root env1 (prod_of root1) = Some regs1 → register_root env2 (prod_of root2) = Some regs2 →
  within env1 root1 t → within env2 root2 t → same_decls env1 env2 t → no_recover env1 t → ends_within env1 regs1 root1 regs2 root2 t →
  run extract (produce_md env1 md1 f t) s = ODone r s' → errors_of r = [] → run extract (produce_md env2 md2 f t) s = ODone r s'.
Proof. exact free_same. Qed.
Print Assumptions C117_same.
(** "(a,b)" parses the same before a "," and before an identifier. "(ab" has an error, and there only the grammar in which an
    identifier may follow inserts the missing ")". *)
Example C117_same_ex : accepted [] cgC (md_get [] cgC) ∧ accepted [] cgI (md_get [] cgI) ∧
  register_root [] (prod_of cgC) = Some (regs_get [] cgC) ∧ register_root [] (prod_of cgI) = Some (regs_get [] cgI) ∧
  within [] cgC cgT ∧ within [] cgI cgT ∧ same_decls [] [] cgT ∧ no_recover [] cgT ∧ ends_within [] (regs_get [] cgC) cgC (regs_get [] cgI) cgI cgT ∧
  match run no_extract (produce_md [] (md_get [] cgC) 60 cgT) (start "(a,b),") with ODone r s => errors_of r = [] ∧ length (p_tokens s) = 5 | _ => False end ∧
  run no_extract (produce_md [] (md_get [] cgC) 60 cgT) (start "(a(") = run no_extract (produce_md [] (md_get [] cgI) 60 cgT) (start "(a(") ∧
  run no_extract (produce_md [] (md_get [] cgC) 60 cgT) (start "(ab") ≠ run no_extract (produce_md [] (md_get [] cgI) 60 cgT) (start "(ab").
Proof.
  split; [exact cgC_accepted|]. split; [exact cgI_accepted|]. split; [exact cgC_registered|]. split; [exact cgI_registered|].
  split; [apply rtc_once; cbn; set_solver|]. split; [apply rtc_once; cbn; set_solver|]. split; [done|].
  split; [exact cg_no_recover|]. split; [exact cg_ends|]. split; [by vm_compute|]. split; [by vm_compute|by vm_compute].
Qed.

(** What parses alone parses the same inside a grammar. *)
Theorem C117_inside : ∀ extract env root t md md' f s r s', accepted env root md → accepted env t md' → within env root t → no_recover env t →
  run extract (produce_md env md' f t) s = ODone r s' → errors_of r = [] → run extract (produce_md env md f t) s = ODone r s'.
Proof. exact free_inside. Qed.
Print Assumptions C117_inside.
Example C117_inside_ex : accepted [] cgQ (md_get [] cgQ) ∧ accepted [] cgP (md_get [] cgP) ∧ within [] cgQ cgP ∧ no_recover [] cgP ∧
  match run no_extract (produce_md [] (md_get [] cgP) 60 cgP) (start "a,b)") with ODone r s => errors_of r = [] ∧ length (p_tokens s) = 3 | _ => False end.
Proof.
  split; [exact cgQ_accepted|]. split; [exact cgP_accepted|]. split; [apply rtc_once; cbn; set_solver|]. split; [exact cgP_no_recover|by vm_compute].
Qed.
(** And back, if there is no [Punct]. *)
Theorem C117_alone : ∀ extract env root t md md' f s r s', accepted env root md → accepted env t md' → within env root t →
  no_recover env t → no_punct env t →
  run extract (produce_md env md f t) s = ODone r s' → errors_of r = [] → run extract (produce_md env md' f t) s = ODone r s'.
Proof. exact free_alone. Qed.
Print Assumptions C117_alone.
Example C117_alone_ex : accepted [] cgC (md_get [] cgC) ∧ accepted [] cgT (md_get [] cgT) ∧ within [] cgC cgT ∧ no_recover [] cgT ∧ no_punct [] cgT ∧
  match run no_extract (produce_md [] (md_get [] cgC) 60 cgT) (start "(a,b),") with ODone r s => errors_of r = [] ∧ length (p_tokens s) = 5 | _ => False end.
Proof.
  split; [exact cgC_accepted|]. split; [exact cgT_accepted|]. split; [apply rtc_once; cbn; set_solver|]. split; [exact cg_no_recover|].
  split; [exact cg_no_punct|by vm_compute].
Qed.
(** "a,)": inside, ")" may follow and the "," is a trailing one; alone it is an error. *)
Example C117_punct_ex : accepted [] cgQ (md_get [] cgQ) ∧ accepted [] cgP (md_get [] cgP) ∧ within [] cgQ cgP ∧
  match run no_extract (produce_md [] (md_get [] cgQ) 60 cgP) (start "a,)"), run no_extract (produce_md [] (md_get [] cgP) 60 cgP) (start "a,)") with
  | ODone r1 s1, ODone r2 s2 => errors_of r1 = [] ∧ length (errors_of r2) = 1
  | _, _ => False
  end.
Proof. split; [exact cgQ_accepted|]. split; [exact cgP_accepted|]. split; [apply rtc_once; cbn; set_solver|by vm_compute]. Qed.

(** [Vec<T>] or one call for each [T]. What parses as a [Vec<T>] without syntax errors gives the same trees, marks and
    rest when [T] is parsed again and again. *)
Theorem C117_each : ∀ extract env t md md1 f s x s', accepted env (TStar t) md → accepted env t md1 → no_recover env t → no_punct env t → state_ok s →
  run extract (parse env f (TStar t) (inr md)) s = ODone (inr (Some x)) s' → only_bad_text s s' →
  ∃ sp xs s2, x = TrList sp xs ∧ one_by_one extract env md1 t s xs s2 ∧ p_tokens s2 = p_tokens s' ∧ to_come extract s2 = to_come extract s'.
Proof. exact list_each. Qed.
Print Assumptions C117_each.
(** What parses by calls for [T] to the end, parses as a [Vec<T>], with the same trees and marks. *)
Theorem C117_list : ∀ extract env t md md1 s xs s2, accepted env (TStar t) md → accepted env t md1 →
  filled env t → no_recover env t → no_loop env t → state_ok s →
  one_by_one extract env md1 t s xs s2 → to_come extract s2 = [] →
  ∃ f0 sp s', (∀ f, f0 ≤ f → run extract (parse env f (TStar t) (inr md)) s = ODone (inr (Some (TrList sp xs))) s') ∧
    only_bad_text s s' ∧ p_tokens s' = p_tokens s2 ∧ to_come extract s' = [].
Proof. exact each_list. Qed.
Print Assumptions C117_list.
Example C117_each_ex : accepted [] (TStar cgT) (md_get [] (TStar cgT)) ∧ accepted [] cgT (md_get [] cgT) ∧
  filled [] cgT ∧ no_recover [] cgT ∧ no_punct [] cgT ∧ no_loop [] cgT ∧ state_ok (start "(a,b) (c)") ∧
  match ex_parse [] (TStar cgT) "(a,b) (c)", ex_parse [] cgT "(a,b) (c)" with
  | ODone (inr (Some (TrList _ [x; y]))) s, ODone (inr (Some x')) s1 =>
      p_errors s = [] ∧ x' = x ∧ p_errors s1 = [] ∧ length (to_come no_extract s1) = 3 ∧
      match run no_extract (parse [] 60 cgT (inr (md_get [] cgT))) s1 with
      | ODone (inr (Some y')) s2 => y' = y ∧ p_errors s2 = [] ∧ to_come no_extract s2 = [] ∧ p_tokens s2 = p_tokens s
      | _ => False
      end
  | _, _ => False
  end.
Proof.
  split; [exact cgV_accepted|]. split; [exact cgT_accepted|]. split; [exact cg_filled|]. split; [exact cg_no_recover|]. split; [exact cg_no_punct|].
  split; [exact cg_no_loop|]. split; [apply start_ok|by vm_compute].
Qed.
