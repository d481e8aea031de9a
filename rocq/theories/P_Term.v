(** Property theorems about termination and progress (C32, C33, C59, C60).

    A run that ends, ends in the same way with any larger amount of fuel; a run that does not
    end is out of fuel ([OFuel]) whatever the amount.  [accepted], [filled], [plain_enums],
    [grounded], [productive], [within], [took], [next_tok] are in ParseSpec, [starts] in CfgSpec. *)
From Coq Require Import String NArith.
From stdpp Require Import prelude list strings relations.
From Verif Require Import LexModel LexSpec SynSetModel TableModel CfgSpec StreamModel StreamSpec TypeModel TypeSpec ProduceModel ParseSpec EndFacts ParseEx TermEx.
Local Open Scope nat_scope.

(** ** C32: parsing terminates *)
Theorem C32_parse : ∀ extract env root md s,
  accepted env root md → filled env root → plain_enums env root → productive env root → state_ok s →
  ∃ f0 o s', ∀ f, f0 ≤ f → run extract (parse env f root (inr md)) s = ODone (inr o) s'.
Proof. exact parse_ends_productive. Qed.
Print Assumptions C32_parse.
Theorem C32_produce : ∀ extract env root md t s,
  accepted env root md → filled env root → plain_enums env root → productive env root → within env root t → state_ok s →
  ∃ f0 r s', ∀ f, f0 ≤ f → run extract (produce_md env md f t) s = ODone r s'.
Proof. exact produce_ends_productive. Qed.
Print Assumptions C32_produce.
(** It is enough that no type contains itself by way of structs, tuples and non-empty lists. *)
Theorem C32_grounded : ∀ extract env root md t s,
  accepted env root md → filled env root → plain_enums env root → all_within env (grounded env) root →
  within env root t → state_ok s →
  ∃ f0 r s', ∀ f, f0 ≤ f → run extract (produce_md env md f t) s = ODone r s'.
Proof. exact produce_ends. Qed.
Print Assumptions C32_grounded.
Example C32_ex : accepted ex_env exE (md_get ex_env exE) ∧ filled ex_env exE ∧ plain_enums ex_env exE ∧
  productive ex_env exE ∧ state_ok (start "(a,,(") ∧
  match ex_parse ex_env exE "(a,,(" with ODone (inr o) _ => True | _ => False end.
Proof.
  split; [apply ex_accepted|]. split; [apply ex_filled|]. split; [apply ex_plain_enums|].
  split; [apply ex_productive|]. split; [apply start_ok|]. by vm_compute.
Qed.

(** ** C33: acceptance alone does not make parsing terminate *)
(** [Nev<Recover<(E, "("), Option<",">>>] with [enum E { A(Option<a>) }] on "(": every type is
    productive, but the enum panics on "(" and the recovery part is empty, so the list never
    ends. *)
Theorem C33_refuted : ∃ env root md s,
  accepted env root md ∧ filled env root ∧ productive env root ∧ state_ok s ∧
  ∀ f, run no_extract (parse env f root (inr md)) s = OFuel.
Proof.
  exists lp_env, (TPlus lpT), (md_get lp_env (TPlus lpT)), (start "(").
  split; [exact lp_accepted|]. split; [exact lp_filled|]. split; [exact lp_productive|].
  split; [apply start_ok|exact lp_diverges].
Qed.
Print Assumptions C33_refuted.
(** The same without [tp::Recover] and [tp::Loop]: [Nev<(Option<(E, "(")>, ",")>] on "(".  The
    option takes the failure of the enum for an absent content, the missing "," is made up, and
    the list begins its next round where it was. *)
Theorem C33_option_refuted : ∃ env root md s,
  accepted env root md ∧ filled env root ∧ productive env root ∧
  all_within env (λ t, match t with TRecover _ _ | TLoop _ => False | _ => True end) root ∧ state_ok s ∧
  ∀ f, run no_extract (parse env f root (inr md)) s = OFuel.
Proof.
  exists lp_env, (TPlus opT), (md_get lp_env (TPlus opT)), (start "(").
  split; [exact op_accepted|]. split; [exact op_filled|]. split; [exact op_productive|].
  split; [exact op_plain|]. split; [apply start_ok|exact op_diverges].
Qed.
Print Assumptions C33_option_refuted.
(** [struct S(Box<S>, a)] on any input: no nullable enum, but [S] has no finite sentence. *)
Theorem C33_unproductive_refuted : ∃ env root md,
  accepted env root md ∧ filled env root ∧ plain_enums env root ∧
  ∀ extract s f, run extract (parse env f root (inr md)) s = OFuel.
Proof.
  exists rc_env, (TNamed 0), (md_get rc_env (TNamed 0)).
  split; [exact rc_accepted|]. split; [exact rc_filled|]. split; [exact rc_plain_enums|exact rc_diverges].
Qed.
Print Assumptions C33_unproductive_refuted.

(** ** C59: progress on a startable item *)
Theorem C59_progress : ∀ extract env root md regs f t x s r s',
  accepted env root md → register_root env (prod_of root) = Some regs →
  plain_enums env root → within env root t → state_ok s →
  next_tok extract s = Some x → starts regs (key t) x →
  run extract (produce_md env md f t) s = ODone r s' → ∃ l, took extract s l s' ∧ l ≠ [].
Proof. exact produce_progress. Qed.
Print Assumptions C59_progress.
(** The outcome may be a failure: "(" then ")" where an [E] is required. *)
Example C59_ex : plain_enums ex_env exE ∧
  next_tok no_extract (start "()") = Some (1, "("%string) ∧
  (∀ regs, register_root ex_env (prod_of exE) = Some regs → starts regs (key exE) (1, "("%string)) ∧
  match ex_run ex_env exE "()" with ODone (RPanic _) s' => length (p_tokens s') = 1 | _ => False end.
Proof.
  split; [apply ex_plain_enums|]. split; [done|]. split; [exact ex_starts|by vm_compute].
Qed.

(** ** C60: empty symbols do not disturb the input *)
Theorem C60_quiet : ∀ extract env root md regs t s,
  accepted env root md → register_root env (prod_of root) = Some regs →
  filled env root → plain_enums env root → within env root t → state_ok s → lang env t [] →
  match next_tok extract s with Some x => ¬ starts regs (key t) x | None => True end →
  ∃ f0 x s', took extract s [] s' ∧ ∀ f, f0 ≤ f → run extract (produce_md env md f t) s = ODone (RSucc x) s'.
Proof. exact produce_quiet_ends. Qed.
Print Assumptions C60_quiet.
Example C60_ex : lang [] (TTuple [TStar tId; TOpt tC]) [] ∧
  accepted [] (TTuple [TTuple [TStar tId; TOpt tC]; tR]) (md_get [] (TTuple [TTuple [TStar tId; TOpt tC]; tR])) ∧
  match run no_extract (produce_md [] (md_get [] (TTuple [TTuple [TStar tId; TOpt tC]; tR])) 60 (TTuple [TStar tId; TOpt tC])) (start ")") with
  | ODone (RSucc (TrSeq [TrList _ []; TrOpt _ None])) s' => length (to_come no_extract s') = 1 | _ => False end.
Proof.
  split; [|split; [apply md_get_accepted; by vm_compute|by vm_compute]].
  constructor. apply (ls_cons [] (TStar tId) [TOpt tC] [] []); [apply (l_star [] _ 0); constructor|].
  apply (ls_cons [] (TOpt tC) [] [] []); constructor.
Qed.
