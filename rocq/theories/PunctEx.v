(** Examples of [Punct] as a recursive struct. *)
From Coq Require Import String NArith.
From stdpp Require Import prelude list strings relations.
From Verif Require Import LexModel LexSpec SynSetModel TableModel CfgSpec StreamModel StreamSpec TypeModel TypeSpec ProduceModel ParseSpec ParseEx CleanSpec SugarSpec SugarEx PunctSpec.
Local Open Scope nat_scope.

(** struct P { a: (Ident, Option<("(", ")")>), b: Option<(",", Option<Box<P>>)> }, before a ")" *)
Definition pn_env := [nested_decl sgT tC 0].
Definition pnP := TTuple [TPunct sgT tC; tR].
Definition pnN := TTuple [TNamed 0; tR].
Definition pn_types := TNamed 0 :: rest_of tC 0 :: TTuple [tC; TOpt (TBox (TNamed 0))] :: tC :: TOpt (TBox (TNamed 0)) :: TBox (TNamed 0) :: sg_types.
Lemma pnP_accepted : accepted pn_env pnP (md_get pn_env pnP).
Proof. apply md_get_accepted. by vm_compute. Qed.
Lemma pnN_accepted : accepted pn_env pnN (md_get pn_env pnN).
Proof. apply md_get_accepted. by vm_compute. Qed.
Lemma pn_plain_N : no_recover pn_env (TNamed 0) ∧ no_punct pn_env (TNamed 0).
Proof. split; within pn_types. Qed.
Lemma pn_plain : no_recover pn_env sgT ∧ no_punct pn_env sgT ∧ no_recover pn_env tC ∧ no_punct pn_env tC.
Proof. split; [within sg_types|]. split; [within sg_types|]. split; within [tC]. Qed.
