(** Types used in the examples of P_Term. *)
From Coq Require Import String NArith.
From stdpp Require Import prelude list strings relations.
From Verif Require Import LexModel LexSpec SynSetModel TableModel CfgSpec CfgFacts StreamModel StreamSpec StreamFacts TypeModel TypeSpec ProduceModel ParseSpec ProgFacts FuelFacts LangFacts RunFacts LookFacts MdFacts ParseFacts ParseEx.
Local Open Scope nat_scope.

(** * [exE] *)
Lemma no_empty_tok env n y lit : ¬ lang env (TTok n y lit) [].
Proof. intros H. inversion H. Qed.
Lemma langs_head env t ts : langs env (t :: ts) [] → lang env t [].
Proof. intros (w1 & w2 & E & H1 & _)%langs_cons. symmetry in E. by apply app_nil in E as [-> _]. Qed.
Lemma ex_plain_enums : plain_enums ex_env exE.
Proof.
  apply (all_within_list _ _ ex_types); [set_solver|].
  repeat (apply Forall_cons; split; [split; [|cbn; repeat (apply Forall_cons; split; [set_solver|]); apply Forall_nil; done]|]); try done.
  intros v Hv. cbn in Hv. apply elem_of_cons in Hv as [->|Hv]; [apply no_empty_tok|].
  apply elem_of_list_singleton in Hv as ->. cbn [fst]. intros H. inversion H as [|n fs w En Hl E1 E2|n vs t sem w En Ht Hl E1 E2| | | | | | | | | | | | | |]; [|done].
  cbn in En. injection En as <-. apply langs_head in Hl. by apply no_empty_tok in Hl.
Qed.
Notation tk_a := (pair 0 "a"%string).
Lemma ex_E_a : lang ex_env exE [tk_a].
Proof. apply (l_enum _ 0 _ tId (Some 1%N)) with (1 := eq_refl); [set_solver|apply l_tok; split; cbn; auto]. Qed.
Lemma ls_one env t ts w1 w2 w : lang env t w1 → langs env ts w2 → w = w1 ++ w2 → langs env (t :: ts) w.
Proof. intros H1 H2 ->. by constructor. Qed.
Lemma ex_L_a : lang ex_env (TPunct (TBox exE) tC) [tk_a].
Proof. apply (l_punct _ _ _ 0 false). apply (ls_one _ _ _ [tk_a] []); [constructor; apply ex_E_a|constructor|done]. Qed.
Lemma ex_P_a : lang ex_env exP [(1, "("%string); tk_a; (1, ")"%string)].
Proof.
  apply (l_struct _ 1) with (1 := eq_refl). cbn [map fst].
  apply (ls_one _ _ _ [(1, "("%string)] [tk_a; (1, ")"%string)]); [apply l_tok; split; cbn; auto| |done].
  apply (ls_one _ _ _ [tk_a] [(1, ")"%string)]); [apply ex_L_a| |done].
  apply (ls_one _ _ _ [(1, ")"%string)] []); [apply l_tok; split; cbn; auto|constructor|done].
Qed.
Lemma ex_productive : productive ex_env exE.
Proof.
  apply (all_within_list _ _ ex_types); [set_solver|].
  repeat (apply Forall_cons; split; [split; [|cbn; repeat (apply Forall_cons; split; [set_solver|]); apply Forall_nil; done]|]); [..|by apply Forall_nil].
  - exists [tk_a]. apply ex_E_a.
  - eexists. apply ex_P_a.
  - exists [tk_a]. apply l_tok; split; cbn; auto.
  - exists [(1, "("%string)]. apply l_tok; split; cbn; auto.
  - exists [(1, ")"%string)]. apply l_tok; split; cbn; auto.
  - exists [(1, ","%string)]. apply l_tok; split; cbn; auto.
  - exists [tk_a]. constructor. apply ex_E_a.
  - exists [tk_a]. apply ex_L_a.
Qed.
Lemma ex_starts regs : register_root ex_env (prod_of exE) = Some regs → starts regs (key exE) (1, "("%string).
Proof.
  intros Hr. exists (map T [tk_a; (1, ")"%string)]). apply (proj2 (register_root_lang _ _ _ [_; _; _] Hr)).
  apply (l_enum _ 0 _ exP None) with (1 := eq_refl); [set_solver|apply ex_P_a].
Qed.

(** * A list that never ends *)
Definition lpE := TNamed 0.
Definition lp_env : denv := [DEnum [(TOpt tId, None)]].
Definition lpT := TRecover (TTuple [lpE; tL]) (TOpt tC).
Definition lp_types := [TPlus lpT; lpT; TTuple [lpE; tL]; lpE; TOpt tId; tId; tL; TOpt tC; tC].
Lemma lp_accepted : accepted lp_env (TPlus lpT) (md_get lp_env (TPlus lpT)).
Proof. apply md_get_accepted. by vm_compute. Qed.
Lemma lp_filled : filled lp_env (TPlus lpT).
Proof. within lp_types. Qed.
Lemma lp_lang : lang lp_env lpT [(1, "("%string)].
Proof.
  constructor. apply (ls_one _ _ _ [(1, "("%string)] []); [|apply (ls_one _ _ _ [] []); constructor|done].
  constructor. apply (ls_one _ _ _ [] [(1, "("%string)]); [|apply (ls_one _ _ _ [(1, "("%string)] []); [apply l_tok; split; cbn; auto|constructor|done]|done].
  apply (l_enum _ 0 _ (TOpt tId) None) with (1 := eq_refl); [set_solver|constructor].
Qed.
Lemma lp_productive : productive lp_env (TPlus lpT).
Proof.
  apply (all_within_list _ _ lp_types); [set_solver|].
  repeat (apply Forall_cons; split; [split; [|cbn; repeat (apply Forall_cons; split; [set_solver|]); apply Forall_nil; done]|]); [..|by apply Forall_nil].
  - exists [(1, "("%string)]. apply (l_plus _ _ 0). apply (ls_one _ _ _ [(1, "("%string)] []); [apply lp_lang|constructor|done].
  - exists [(1, "("%string)]. apply lp_lang.
  - exists [(1, "("%string)]. constructor. apply (ls_one _ _ _ [] [(1, "("%string)]); [|apply (ls_one _ _ _ [(1, "("%string)] []); [apply l_tok; split; cbn; auto|constructor|done]|done].
    apply (l_enum _ 0 _ (TOpt tId) None) with (1 := eq_refl); [set_solver|constructor].
  - exists []. apply (l_enum _ 0 _ (TOpt tId) None) with (1 := eq_refl); [set_solver|constructor].
  - exists []. constructor.
  - exists [tk_a]. apply l_tok; split; cbn; auto.
  - exists [(1, "("%string)]. apply l_tok; split; cbn; auto.
  - exists []. constructor.
  - exists [(1, ","%string)]. apply l_tok; split; cbn; auto.
Qed.
Definition lp_s : ast := abs no_extract (start "(").
Definition lp_err := PErr (Span 0 1) (Expecting (TSet [LAny] true)).
Definition lp_x := TrRecover (Span 0 0) None (TrOpt (Span 0 0) None).
Lemma lp_round f : arun (produce_md lp_env (md_get lp_env (TPlus lpT)) (6 + f) lpT) lp_s = ODone (RRec lp_x [lp_err]) lp_s.
Proof. by vm_compute. Qed.
Lemma lp_peek : arun peek_src lp_s = ODone (Some (1, "("%string)) lp_s.
Proof. by vm_compute. Qed.
Lemma lp_again : ts_contains (tb_get (md_first (md_get lp_env (TPlus lpT))) (key (TPlus lpT))) (Some (1, "("%string)) = true.
Proof. by vm_compute. Qed.
(** A list whose item succeeds without taking anything although the list could go on. *)
Lemma stuck_iter p first x e a tk n acc errs hi : arun p a = ODone (RRec x e) a → arun peek_src a = ODone (Some tk) a →
  ts_contains first (Some tk) = true → arun (iter_loop n p first acc errs hi) a = OFuel.
Proof.
  intros Hp Ha Hf. revert acc errs hi. induction n as [|n IH]; intros acc errs hi; [done|]. cbn [iter_loop].
  rewrite arun_bind, Ha. cbv beta iota. rewrite Hf, arun_bind, Hp. cbn [unres]. apply IH.
Qed.
Lemma stuck_plus env md f t x e a tk : arun (produce_md env md f t) a = ODone (RRec x e) a → arun peek_src a = ODone (Some tk) a →
  ts_contains (tb_get (md_first md) (key (TPlus t))) (Some tk) = true → arun (produce_md env md (S f) (TPlus t)) a = OFuel.
Proof.
  intros Hp Ha Hf. unfold produce_md. cbn [produce]. fold (produce_md env md f t). rewrite arun_bind. unfold produce_plus.
  rewrite arun_bind, Hp. cbn [unres]. rewrite arun_bind. by erewrite stuck_iter.
Qed.
Lemma stuck_parse extract env md f t s : arun (produce_md env md f t) (abs extract s) = OFuel →
  run extract (parse env f t (inr md)) s = OFuel.
Proof.
  intros H. unfold parse, parse_with. rewrite !run_bind. fold (produce_md env md f t).
  assert (H' := run_abs extract (produce_md env md f t) s). rewrite H in H'.
  by destruct (run extract (produce_md env md f t) s).
Qed.
Lemma parse_less extract env md f f' t s : f ≤ f' → run extract (parse env f' t (inr md)) s = OFuel →
  run extract (parse env f t (inr md)) s = OFuel.
Proof.
  intros Hf H. assert (H' := le_run extract _ _ s (parse_le env f f' t (inr md) Hf)). rewrite H in H'.
  destruct (run extract (parse env f t (inr md)) s); [done|..]; symmetry; by apply H'.
Qed.
Lemma lp_diverges f : run no_extract (parse lp_env f (TPlus lpT) (inr (md_get lp_env (TPlus lpT)))) (start "(") = OFuel.
Proof.
  apply (parse_less _ _ _ f (S (6 + f))); [lia|]. apply stuck_parse.
  exact (stuck_plus _ _ _ _ _ _ _ _ (lp_round f) lp_peek lp_again).
Qed.

(** The same without [Recover]: the option takes the failure of its content, and the missing
    "," is made up because "(" can follow it. *)
Definition opT := TTuple [TOpt (TTuple [lpE; tL]); tC].
Definition op_types := [TPlus opT; opT; TOpt (TTuple [lpE; tL]); TTuple [lpE; tL]; lpE; TOpt tId; tId; tL; tC].
Lemma op_accepted : accepted lp_env (TPlus opT) (md_get lp_env (TPlus opT)).
Proof. apply md_get_accepted. by vm_compute. Qed.
Lemma op_filled : filled lp_env (TPlus opT).
Proof. within op_types. Qed.
Lemma op_plain : all_within lp_env (λ t, match t with TRecover _ _ | TLoop _ => False | _ => True end) (TPlus opT).
Proof. within op_types. Qed.
Lemma op_lang : lang lp_env opT [(1, ","%string)].
Proof.
  constructor. apply (ls_one _ _ _ [] [(1, ","%string)]); [constructor| |done].
  apply (ls_one _ _ _ [(1, ","%string)] []); [apply l_tok; split; cbn; auto|constructor|done].
Qed.
Lemma op_productive : productive lp_env (TPlus opT).
Proof.
  apply (all_within_list _ _ op_types); [set_solver|].
  repeat (apply Forall_cons; split; [split; [|cbn; repeat (apply Forall_cons; split; [set_solver|]); apply Forall_nil; done]|]); [..|by apply Forall_nil].
  - exists [(1, ","%string)]. apply (l_plus _ _ 0). apply (ls_one _ _ _ [(1, ","%string)] []); [apply op_lang|constructor|done].
  - exists [(1, ","%string)]. apply op_lang.
  - exists []. constructor.
  - exists [(1, "("%string)]. constructor. apply (ls_one _ _ _ [] [(1, "("%string)]); [|apply (ls_one _ _ _ [(1, "("%string)] []); [apply l_tok; split; cbn; auto|constructor|done]|done].
    apply (l_enum _ 0 _ (TOpt tId) None) with (1 := eq_refl); [set_solver|constructor].
  - exists []. apply (l_enum _ 0 _ (TOpt tId) None) with (1 := eq_refl); [set_solver|constructor].
  - exists []. constructor.
  - exists [tk_a]. apply l_tok; split; cbn; auto.
  - exists [(1, "("%string)]. apply l_tok; split; cbn; auto.
  - exists [(1, ","%string)]. apply l_tok; split; cbn; auto.
Qed.
Lemma op_round f : ∃ x e, arun (produce_md lp_env (md_get lp_env (TPlus opT)) (6 + f) opT) lp_s = ODone (RRec x e) lp_s.
Proof. eexists _, _. vm_compute. reflexivity. Qed.
Lemma op_again : ts_contains (tb_get (md_first (md_get lp_env (TPlus opT))) (key (TPlus opT))) (Some (1, "("%string)) = true.
Proof. by vm_compute. Qed.
Lemma op_diverges f : run no_extract (parse lp_env f (TPlus opT) (inr (md_get lp_env (TPlus opT)))) (start "(") = OFuel.
Proof.
  apply (parse_less _ _ _ f (S (6 + f))); [lia|]. apply stuck_parse. destruct (op_round f) as (x & e & H).
  exact (stuck_plus _ _ _ _ _ _ _ _ H lp_peek op_again).
Qed.

(** * A type without finite sentences *)
Definition rc_env : denv := [DStruct [(TBox (TNamed 0), None); (tId, None)]].
Lemma rc_accepted : accepted rc_env (TNamed 0) (md_get rc_env (TNamed 0)).
Proof. apply md_get_accepted. by vm_compute. Qed.
Lemma rc_filled : filled rc_env (TNamed 0).
Proof. within [TNamed 0; TBox (TNamed 0); tId]. Qed.
Lemma rc_plain_enums : plain_enums rc_env (TNamed 0).
Proof. within [TNamed 0; TBox (TNamed 0); tId]. Qed.
Lemma rc_produce first follow jump extract s f : run extract (produce rc_env first follow jump f (TNamed 0)) s = OFuel ∧
  run extract (produce rc_env first follow jump f (TBox (TNamed 0))) s = OFuel.
Proof.
  induction f as [|f [IH1 IH2]]; [done|]. split; [|exact IH1].
  change (produce rc_env first follow jump (S f) (TNamed 0)) with
    (r ← produce_seq (produce rc_env first follow jump f) [TBox (TNamed 0); tId] [] [];
          match unres r with
          | (Some xs, e) => _ ← apply_fields [(TBox (TNamed 0), None); (tId, None)] xs; mret (res_into (TrSeq xs) e)
          | (None, e) => mret (RPanic e)
          end).
  rewrite run_bind. cbn [produce_seq]. by rewrite run_bind, IH2.
Qed.
Lemma rc_diverges extract s f : run extract (parse rc_env f (TNamed 0) (inr (md_get rc_env (TNamed 0)))) s = OFuel.
Proof. unfold parse, parse_with. rewrite !run_bind. by rewrite (proj1 (rc_produce _ _ _ extract s f)). Qed.
