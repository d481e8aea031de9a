(** Examples of types as abbreviations. *)
From Coq Require Import String NArith.
From stdpp Require Import prelude list strings relations.
From Verif Require Import LexModel LexSpec SynSetModel TableModel CfgSpec StreamModel StreamSpec TypeModel TypeSpec ProduceModel ParseSpec ParseEx CleanSpec SugarSpec.
Local Open Scope nat_scope.

(** (Ident, Option<("(", ")")>), separated by commas or ended by a comma, before a ")" *)
Definition sgT := TTuple [tId; TOpt (TTuple [tL; tR])].
Definition sg_types := [sgT; tId; TOpt (TTuple [tL; tR]); TTuple [tL; tR]; tL; tR].
Definition sgS := TTuple [TSplit sgT tC; tR].
Definition sgS' := TTuple [spelled_out sgT tC; tR].
Definition sgR := TTuple [TRecover sgT tC; tR].
Definition sgR' := TTuple [TTuple [sgT; tC]; tR].
Lemma sgS_accepted : accepted [] sgS (md_get [] sgS).
Proof. apply md_get_accepted. by vm_compute. Qed.
Lemma sgS'_accepted : accepted [] sgS' (md_get [] sgS').
Proof. apply md_get_accepted. by vm_compute. Qed.
Lemma sgR_accepted : accepted [] sgR (md_get [] sgR).
Proof. apply md_get_accepted. by vm_compute. Qed.
Lemma sgR'_accepted : accepted [] sgR' (md_get [] sgR').
Proof. apply md_get_accepted. by vm_compute. Qed.
Definition sgL := TLoop sgT.
Definition sgL' := TStar sgT.
Lemma sgL_accepted : accepted [] sgL (md_get [] sgL).
Proof. apply md_get_accepted. by vm_compute. Qed.
Lemma sgL'_accepted : accepted [] sgL' (md_get [] sgL').
Proof. apply md_get_accepted. by vm_compute. Qed.
Definition sgN := TTuple [TPlus sgT; tC].
Definition sgN' := TTuple [TTuple [sgT; TStar sgT]; tC].
Lemma sgN_accepted : accepted [] sgN (md_get [] sgN).
Proof. apply md_get_accepted. by vm_compute. Qed.
Lemma sgN'_accepted : accepted [] sgN' (md_get [] sgN').
Proof. apply md_get_accepted. by vm_compute. Qed.
Lemma sg_plain : filled [] sgT ∧ no_recover [] sgT ∧ no_punct [] sgT ∧ no_loop [] sgT.
Proof. split; [within sg_types|]. split; [within sg_types|]. split; [within sg_types|within sg_types]. Qed.
Lemma sg_plain_C : filled [] tC ∧ no_recover [] tC ∧ no_punct [] tC ∧ no_loop [] tC.
Proof. split; [within [tC]|]. split; [within [tC]|]. split; [within [tC]|within [tC]]. Qed.
(** struct S { a: Split<Quote<Ident>, ",">, b: Exists<"(">, #[teleparse(semantic(..))] c: Recover<")", Ident> } and a broken one *)
Definition sg_env := [DStruct [(TSplit (TQuote tId) tC, None); (TExists tL, None); (TRecover tR tId, Some 8%N)]; DEnum [(TSplit tId tC, None); (TQuote tId, None)]].
Lemma sg_accepted : accepted sg_env (TNamed 0) (md_get sg_env (TNamed 0)).
Proof. apply md_get_accepted. by vm_compute. Qed.
Definition rejected (o : option (gerr prod + metadata prod)) : bool := match o with Some (inl _) => true | _ => false end.
