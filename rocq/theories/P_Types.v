(** Property theorems about declarations and their registration (C30).

    [env] are the declared structs and enums, [t] the root type.  [lang] (ParseSpec) is the
    language of a type, read off the type; [derives] (CfgSpec) is derivability from the
    recorded productions. *)
From Coq Require Import String NArith.
From stdpp Require Import prelude list strings relations.
From Verif Require Import SynSetModel TableModel CfgSpec TypeModel TypeSpec TypeFacts ParseSpec LangFacts ParseEx.
Local Open Scope nat_scope.

(** ** C30: registration visits every reachable production exactly once and terminates *)
Theorem C30_terminates : ∀ env t, env_declared env → ty_declared (length env) t →
  ∃ regs, register_root env (prod_of t) = Some regs.
Proof. exact register_root_total. Qed.
Print Assumptions C30_terminates.
Theorem C30_visits_once : ∀ env p regs, register_root env p = Some regs →
  NoDup regs.*1 ∧
  ∀ k e, (k, e) ∈ regs ↔ visible env (pid p) k ∧ entry_of env k = Some e.
Proof. exact register_root_spec. Qed.
Print Assumptions C30_visits_once.
Theorem C30_fuel_irrelevant : ∀ env f f' p regs regs', f ≤ f' →
  register env f p regs = Some regs' → register env f' p regs = Some regs'.
Proof. exact register_fuel. Qed.
Print Assumptions C30_fuel_irrelevant.
Theorem C30_all_reachable : ∀ env p regs k e, register_root env p = Some regs →
  (k, e) ∈ regs → reachable regs (pid p) k.
Proof. exact register_reachable. Qed.
Print Assumptions C30_all_reachable.
(** What is recorded is the declared grammar: it derives exactly the language of the type. *)
Theorem C30_language : ∀ env t regs w, register_root env (prod_of t) = Some regs →
  derives regs [N (key t)] (map T w) ↔ lang env t w.
Proof. exact register_root_lang. Qed.
Print Assumptions C30_language.

Example C30_ex : env_declared ex_env ∧ ty_declared (length ex_env) exE ∧
  (∃ regs, register_root ex_env (prod_of exE) = Some regs ∧ length regs = 11) ∧
  component ex_env (PNamed 0) (PNamed 1) ∧ visible ex_env (PNamed 1) (PNamed 0).
Proof.
  split.
  { intros d f Hd Hf. repeat (apply elem_of_cons in Hd as [->|Hd]; [cbn in Hf;
      repeat (apply elem_of_cons in Hf as [->|Hf]; [cbn; lia|]); by apply elem_of_nil in Hf|]).
    by apply elem_of_nil in Hd. }
  split; [cbn; lia|].
  split; [eexists; split; vm_compute; reflexivity|].
  split; [eexists _, (PNamed 1); split; [reflexivity|]; split; [set_solver|done]|].
  eapply (rtc_l _ _ (PPunct (PBox (PNamed 0)) (prod_of tC))).
  - eexists _, (PPunct (PBox (PNamed 0)) (prod_of tC)). split; [reflexivity|]. split; [set_solver|done].
  - apply rtc_once. eexists _, (PBox (PNamed 0)). split; [reflexivity|]. split; [set_solver|done].
Qed.
Example C30_lang_ex : lang ex_env exE [(1, "("%string); (0, "a"%string); (1, ","%string); (1, ")"%string)].
Proof.
  eapply (l_enum _ _ _ exP None); [reflexivity|set_solver|]. eapply l_struct; [reflexivity|]. cbn [map fst].
  apply (ls_cons _ _ _ [(1, "("%string)]); [by repeat constructor|].
  apply (ls_cons _ _ _ [(0, "a"%string); (1, ","%string)]).
  - apply (l_punct _ _ _ 0 true). apply (ls_cons _ _ _ [(0, "a"%string)]).
    + constructor. eapply (l_enum _ _ _ tId (Some 1%N)); [reflexivity|set_solver|]. by repeat constructor.
    + apply (ls_cons _ _ _ [(1, ","%string)] []); [constructor; split; cbn; auto|constructor].
  - apply (ls_cons _ _ _ [(1, ")"%string)] []); [constructor; split; cbn; auto|constructor].
Qed.
