(** Examples of parsing without errors in different grammars. *)
From Coq Require Import String NArith.
From stdpp Require Import prelude list strings relations.
From Verif Require Import LexModel LexSpec SynSetModel TableModel CfgSpec StreamModel StreamSpec TypeModel TypeSpec ProduceModel ParseSpec ParseEx PartSpec CleanSpec.
Local Open Scope nat_scope.

(** ("(", Split<Ident, ",">, ")"): alone, before a comma, before an identifier, in a list *)
Definition cgT := TTuple [tL; TSplit tId tC; tR].
Definition cgC := TTuple [cgT; tC].
Definition cgI := TTuple [cgT; tId].
Definition cg_types := [cgT; tL; TSplit tId tC; tR; tId; tC].
Definition regs_get (env : denv) (t : ty) : grammar prod := default [] (register_root env (prod_of t)).
Lemma cgT_accepted : accepted [] cgT (md_get [] cgT).
Proof. apply md_get_accepted. by vm_compute. Qed.
Lemma cgC_accepted : accepted [] cgC (md_get [] cgC).
Proof. apply md_get_accepted. by vm_compute. Qed.
Lemma cgI_accepted : accepted [] cgI (md_get [] cgI).
Proof. apply md_get_accepted. by vm_compute. Qed.
Lemma cgV_accepted : accepted [] (TStar cgT) (md_get [] (TStar cgT)).
Proof. apply md_get_accepted. by vm_compute. Qed.
Lemma cgC_registered : register_root [] (prod_of cgC) = Some (regs_get [] cgC).
Proof. by vm_compute. Qed.
Lemma cgI_registered : register_root [] (prod_of cgI) = Some (regs_get [] cgI).
Proof. by vm_compute. Qed.
Lemma cg_no_recover : no_recover [] cgT.
Proof. within cg_types. Qed.
Lemma cg_no_punct : no_punct [] cgT.
Proof. within cg_types. Qed.
Lemma cg_no_loop : no_loop [] cgT.
Proof. within cg_types. Qed.
Lemma cg_filled : filled [] cgT.
Proof. within cg_types. Qed.
Lemma cg_ends : ends_within [] (regs_get [] cgC) cgC (regs_get [] cgI) cgI cgT.
Proof. intros c Hc. assert (H := cg_no_punct c Hc). by destruct c. Qed.
(** (Punct<Ident, ",">, ")") *)
Definition cgP := TPunct tId tC.
Definition cgQ := TTuple [cgP; tR].
Lemma cgP_accepted : accepted [] cgP (md_get [] cgP).
Proof. apply md_get_accepted. by vm_compute. Qed.
Lemma cgQ_accepted : accepted [] cgQ (md_get [] cgQ).
Proof. apply md_get_accepted. by vm_compute. Qed.
Lemma cgP_no_recover : no_recover [] cgP.
Proof. within [cgP; tId; tC]. Qed.
