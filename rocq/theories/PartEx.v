(** Grammars with a common part, for the examples of P_Part. *)
From Coq Require Import String NArith.
From stdpp Require Import prelude list strings relations.
From Verif Require Import SynSetModel TableModel CfgSpec StreamModel TypeModel TypeSpec ProduceModel ParseSpec ParseEx PartSpec PartFacts.
Local Open Scope nat_scope.

(** The expressions of [ex_env], one more declaration: an identifier and an expression. *)
Definition pt_env : denv := ex_env ++ [DStruct [(tId, None); (exE, None)]].
Definition ptR := TNamed 2.
Lemma pt_accepted : accepted pt_env ptR (md_get pt_env ptR).
Proof. apply md_get_accepted. by vm_compute. Qed.
Definition ex_regs : grammar prod := default [] (register_root ex_env (prod_of exE)).
Lemma ex_registered : register_root ex_env (prod_of exE) = Some ex_regs.
Proof. by vm_compute. Qed.
Definition pt_regs : grammar prod := default [] (register_root pt_env (prod_of ptR)).
Lemma pt_registered : register_root pt_env (prod_of ptR) = Some pt_regs.
Proof. by vm_compute. Qed.
Lemma pt_within : within pt_env ptR exE.
Proof. apply rtc_once. cbn. set_solver. Qed.
Lemma pt_decls : same_decls ex_env pt_env exE.
Proof.
  assert (H : all_within ex_env (λ c, match c with TNamed n => pt_env !! n = ex_env !! n | _ => True end) exE) by within ex_types.
  intros n Hn. apply (H _ Hn).
Qed.
Lemma pt_ends : same_ends ex_env ex_regs exE pt_regs ptR exE.
Proof.
  apply (same_ends_check ex_env pt_env exE ptR _ _ _ _ _ ex_accepted pt_accepted ex_registered pt_registered).
  apply (all_within_list _ _ ex_types); [set_solver|].
  repeat (apply Forall_cons; split; [split; [by vm_compute|cbn; repeat (apply Forall_cons; split; [set_solver|]); apply Forall_nil; done]|]).
  apply Forall_nil; done.
Qed.
(** Both are programs. *)
Lemma pt_declared env n : Forall (λ d, Forall (λ f, ty_declared n (fst f)) (decl_fields d)) env → ∀ d f, d ∈ env → f ∈ decl_fields d → ty_declared n (fst f).
Proof. intros H d f Hd Hf. rewrite Forall_forall in H. specialize (H d Hd). rewrite Forall_forall in H. by apply H. Qed.
Lemma ex_env_declared : env_declared ex_env.
Proof. refine (pt_declared ex_env (length ex_env) _). repeat constructor; cbn; lia. Qed.
Lemma pt_env_declared : env_declared pt_env.
Proof. refine (pt_declared pt_env (length pt_env) _). repeat constructor; cbn; lia. Qed.

Lemma ex_metadata : ∃ md, root_metadata ex_env exE ex_regs = Some (inr md).
Proof.
  assert (H : match root_metadata ex_env exE ex_regs with Some (inr _) => true | _ => false end = true) by (by vm_compute).
  destruct (root_metadata ex_env exE ex_regs) as [[e|md]|]; [done|by exists md|done].
Qed.

(** enum V { S(P), Sym(any symbol) }   struct P(Ident, any symbol): no literals and no lists. *)
Definition tAny := TTok 9 1 None.
Definition clV := TNamed 0.
Definition cl_env : denv := [DEnum [(TNamed 1, None); (tAny, None)]; DStruct [(tId, None); (tAny, None)]].
Definition clA := TTuple [clV; tId].
Definition cl_env2 : denv := cl_env ++ [DStruct [(tL, None); (TStar clV, None)]].
Definition clB := TNamed 2.
Definition cl_types := [clV; TNamed 1; tAny; tId].
Lemma clA_accepted : accepted cl_env clA (md_get cl_env clA).
Proof. apply md_get_accepted. by vm_compute. Qed.
Lemma clB_accepted : accepted cl_env2 clB (md_get cl_env2 clB).
Proof. apply md_get_accepted. by vm_compute. Qed.
Lemma clA_within : within cl_env clA clV.
Proof. apply rtc_once. cbn. set_solver. Qed.
Lemma clB_within : within cl_env2 clB clV.
Proof. eapply rtc_l; [|apply (rtc_once (TStar clV))]; cbn; set_solver. Qed.
Lemma cl_decls : same_decls cl_env cl_env2 clV.
Proof.
  assert (H : all_within cl_env (λ c, match c with TNamed n => cl_env2 !! n = cl_env !! n | _ => True end) clV) by within cl_types.
  intros n Hn. apply (H _ Hn).
Qed.
Lemma cl_closed : closed cl_env clV.
Proof. within cl_types. Qed.

(** A ")" before a "," and before an identifier. *)
Definition beforeC := TTuple [tR; tC].
Definition beforeI := TTuple [tR; tId].
Lemma beforeC_accepted : accepted [] beforeC (md_get [] beforeC).
Proof. apply md_get_accepted. by vm_compute. Qed.
Lemma beforeI_accepted : accepted [] beforeI (md_get [] beforeI).
Proof. apply md_get_accepted. by vm_compute. Qed.
