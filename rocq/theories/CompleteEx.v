(** Types used in the examples of P_Complete. *)
From Coq Require Import String NArith.
From stdpp Require Import prelude list strings relations.
From Verif Require Import LexModel LexSpec SynSetModel TableModel CfgSpec CfgFacts StreamModel StreamSpec StreamFacts TypeModel TypeSpec ProduceModel ParseSpec ProgFacts FuelFacts LangFacts RunFacts LookFacts MdFacts ParseFacts CompleteSpec CompleteFacts SyntaxEx ParseEx TermEx.
Local Open Scope nat_scope.

Lemma interior_ok env root :
  match register_root env (prod_of root) with
  | Some G => forallb (λ kx, match snd kx with
       | ESeq l => forallb (λ y, negb (firstb G y None)) (removelast (tail l))
       | _ => true end) G
  | None => true
  end = true → ∀ regs, register_root env (prod_of root) = Some regs → no_nullable_interior regs.
Proof. intros H regs E. rewrite E in H. by apply no_interior_ok. Qed.
Lemma ex_solid_delims : solid_delims ex_env exE.
Proof. within ex_types. Qed.
Lemma ex_regular : regular ex_env exE.
Proof.
  apply (regular_interior _ _ _ ex_accepted); [apply ex_filled|apply ex_plain_enums|apply ex_solid_delims|apply ex_no_loop|].
  apply interior_ok. by vm_compute.
Qed.
(** The list type [Loop<E>] as root. *)
Definition exL := TLoop exE.
Lemma exL_accepted : accepted ex_env exL (md_get ex_env exL).
Proof. apply md_get_accepted. by vm_compute. Qed.
Lemma sub_within env (P : ty → Prop) t c : P t → subs env t = [c] → all_within env P c → all_within env P t.
Proof.
  intros H E Hc t' Hw. inversion Hw as [|? t2 ? Ht]; subst; [done|]. rewrite E in Ht. apply elem_of_list_singleton in Ht as ->. by apply Hc.
Qed.
Lemma exL_regular : regular ex_env exL.
Proof.
  apply (regular_interior _ _ _ exL_accepted); [eapply sub_within; [done|done|apply ex_filled]|eapply sub_within; [done|done|apply ex_plain_enums]|
    eapply sub_within; [done|done|apply ex_solid_delims]|apply ex_no_loop|].
  apply interior_ok. by vm_compute.
Qed.
(** A sequence with nullable elements inside: ["(" a? ","* ")"]. *)
Definition inT := TTuple [tL; TOpt tId; TStar tC; tR].
Definition in_types := [inT; tL; TOpt tId; tId; TStar tC; tC; tR].
Lemma in_accepted : accepted [] inT (md_get [] inT).
Proof. apply md_get_accepted. by vm_compute. Qed.
Lemma follow_check env root :
  match register_root env (prod_of root) with
  | Some G => forallb (λ kx, match snd kx with
       | EUnion l => negb (ts_intersects (follow_set (add_far G (PTok 999 0 None)) (key root) (fst kx)) (first_set G (fst kx)) false)
       | _ => true end) G
  | None => true
  end = true →
  all_within env (λ t, match t with TPunct _ _ => False | _ => True end) root →
  ∀ regs, register_root env (prod_of root) = Some regs → ∀ k x,
    (∃ l, (k, EUnion l) ∈ regs ∧ nullable regs k ∧ starts regs k x) ∨ (∃ t d, k = key (TPunct t d) ∧ within env root (TPunct t d)) →
    follows regs (key root) k (Some x) → near_follow regs (key root) k (Some x).
Proof.
  intros H HP regs E. rewrite E in H. rewrite forallb_forall in H. intros k x [(l & Hin & _ & Hs)|(t & d & -> & Hw)] Hf.
  - apply elem_of_list_In in Hin. specialize (H _ Hin). cbn in H. apply negb_true_iff in H.
    exfalso. exact (follows_apart _ _ _ _ _ H Hs Hf).
  - destruct (HP _ Hw).
Qed.
Lemma in_regular : regular [] inT.
Proof.
  apply (regular_follow _ _ _ in_accepted); [within in_types..| |].
  { within in_types. }
  apply follow_check; [by vm_compute|within in_types].
Qed.
Lemma in_interior regs : register_root [] (prod_of inT) = Some regs → ¬ no_nullable_interior regs.
Proof.
  intros E. vm_compute in E. injection E as <-. intros H.
  eapply (H (key inT) _ 1 (key (TOpt tId))); [by left|done|lia|cbn; lia|]. apply firstb_nullable. by vm_compute.
Qed.
Lemma in_lang : lang [] inT (word "(a,)" (to_come no_extract (start "(a,)"))).
Proof.
  constructor. apply (ls_one _ _ _ [(1, "("%string)] [tk_a; (1, ","%string); (1, ")"%string)]); [apply l_tok; split; cbn; auto| |done].
  apply (ls_one _ _ _ [tk_a] [(1, ","%string); (1, ")"%string)]); [constructor; apply l_tok; split; cbn; auto| |done].
  apply (ls_one _ _ _ [(1, ","%string)] [(1, ")"%string)]); [| |done].
  - apply (l_star _ _ 1). apply (ls_one _ _ _ [(1, ","%string)] []); [apply l_tok; split; cbn; auto|constructor|done].
  - apply (ls_one _ _ _ [(1, ")"%string)] []); [apply l_tok; split; cbn; auto|constructor|done].
Qed.
Lemma exL_lang : lang ex_env exL (word "a b" (to_come no_extract (start "a b"))).
Proof.
  apply (l_loop _ _ 1). apply (ls_one _ _ _ [tk_a] [(0, "b"%string)]); [apply ex_E_a| |done].
  apply (ls_one _ _ _ [(0, "b"%string)] []); [|constructor|done].
  apply (l_enum _ 0 _ tId (Some 1%N)) with (1 := eq_refl); [set_solver|apply l_tok; split; cbn; auto].
Qed.
Lemma ex_lang : lang ex_env exE (word "(a)" (to_come no_extract (start "(a)"))).
Proof. apply (l_enum _ 0 _ exP None) with (1 := eq_refl); [set_solver|apply ex_P_a]. Qed.
Lemma ex_tree : ∃ x, parses ex_env "(a)" 0 exE (to_come no_extract (start "(a)")) x.
Proof. apply (lang_parses _ _ _ _ ex_lang); [apply ex_filled|done|vm_compute; repeat split; lia]. Qed.

(** * Sentences that are not parsed *)
Definition not_whole_check (extract : nat → bool) (o : out (gerr prod + option tree) pst) : bool :=
  match o with
  | ODone (inr (Some x)) s' => (length (p_invalid s') =? 0) && negb ((length (p_errors s') =? 0) && (length (to_come extract s') =? 0))
  | ODone _ _ => true
  | _ => false
  end.
Lemma not_whole extract env md root s f : p_errors s = [] → p_invalid s = [] →
  not_whole_check extract (run extract (parse env f root (inr md)) s) = true → ¬ parsed_whole extract env md root s.
Proof.
  intros He Hi Hc (f' & x & s' & Hr & (_ & _ & Ht) & (bad & Hb & Hb')).
  assert (E : run extract (parse env f root (inr md)) s = ODone (inr (Some x)) s').
  { destruct (Nat.le_ge_cases f' f) as [Hle|Hle].
    - rewrite <- Hr. apply le_run; [by apply parse_le|]. by rewrite Hr.
    - rewrite <- Hr. symmetry. apply le_run; [by apply parse_le|]. intros E. by rewrite E in Hc. }
  rewrite E in Hc. cbn in Hc. apply andb_true_iff in Hc as [H1 H2]. apply Nat.eqb_eq in H1.
  rewrite Hb, Hi in H1. cbn in H1. destruct bad; [|done]. cbn in Hb'. rewrite app_nil_r in Hb'.
  rewrite Hb', He in H2. assert (to_come extract s' = []) as E2.
  { rewrite <- (app_nil_r (to_come extract s)) in Ht at 1. by apply app_inv_head in Ht. }
  rewrite E2 in H2. done.
Qed.
Definition tA := TTok 4 0 (Some "a"%string).
Definition tB := TTok 5 0 (Some "b"%string).
Definition tCc := TTok 6 0 (Some "c"%string).
Lemma l_lit env n y x : lang env (TTok n y (Some x)) [(y, x)].
Proof. apply l_tok. split; cbn; auto. Qed.
Notation tk_b := (pair 0 "b"%string).
Notation tk_c := (pair 0 "c"%string).
Notation tk_comma := (pair 1 ","%string).

(** [(Nev<a>, Option<b>, a)] on "a a" *)
Definition gapT := TTuple [TPlus tA; TOpt tB; tA].
Lemma gap_lang : lang [] gapT (word "a a" (to_come no_extract (start "a a"))).
Proof.
  constructor. apply (ls_one _ _ _ [tk_a] [tk_a]); [|apply (ls_one _ _ _ [] [tk_a]); [constructor| |done]|done].
  - apply (l_plus _ _ 0). apply (ls_one _ _ _ [tk_a] []); [apply l_lit|constructor|done].
  - apply (ls_one _ _ _ [tk_a] []); [apply l_lit|constructor|done].
Qed.
(** [(Punct<a, ",">, Option<b>, c)] on "a,c" *)
Definition trailT := TTuple [TPunct tA tC; TOpt tB; tCc].
Lemma trail_lang : lang [] trailT (word "a,c" (to_come no_extract (start "a,c"))).
Proof.
  constructor. apply (ls_one _ _ _ [tk_a; tk_comma] [tk_c]); [|apply (ls_one _ _ _ [] [tk_c]); [constructor| |done]|done].
  - apply (l_punct _ _ _ 0 true). apply (ls_one _ _ _ [tk_a] [tk_comma]); [apply l_lit| |done].
    apply (ls_one _ _ _ [tk_comma] []); [apply l_lit|constructor|done].
  - apply (ls_one _ _ _ [tk_c] []); [apply l_lit|constructor|done].
Qed.
(** [enum E { A(Option<a>) }], [(E, b)] on "b" *)
Definition nulE_env : denv := [DEnum [(TOpt tA, None)]].
Definition nulE := TTuple [TNamed 0; tB].
Lemma nulE_lang : lang nulE_env nulE (word "b" (to_come no_extract (start "b"))).
Proof.
  constructor. apply (ls_one _ _ _ [] [tk_b]); [|apply (ls_one _ _ _ [tk_b] []); [apply l_lit|constructor|done]|done].
  apply (l_enum _ 0 _ (TOpt tA) None) with (1 := eq_refl); [set_solver|constructor].
Qed.
(** [Split<a, Option<",">>] on "a a" *)
Definition splitT := TSplit tA (TOpt tC).
Lemma split_lang : lang [] splitT (word "a a" (to_come no_extract (start "a a"))).
Proof.
  apply (l_split _ _ _ 1). apply (ls_one _ _ _ [tk_a] [tk_a]); [apply l_lit| |done].
  apply (ls_one _ _ _ [] [tk_a]); [constructor| |done]. apply (ls_one _ _ _ [tk_a] []); [apply l_lit|constructor|done].
Qed.
(** [(Loop<a>, b)] on "a b" *)
Definition loopT := TTuple [TLoop tA; tB].
Lemma loop_lang : lang [] loopT (word "a b" (to_come no_extract (start "a b"))).
Proof.
  constructor. apply (ls_one _ _ _ [tk_a] [tk_b]); [|apply (ls_one _ _ _ [tk_b] []); [apply l_lit|constructor|done]|done].
  apply (l_loop _ _ 0). apply (ls_one _ _ _ [tk_a] []); [apply l_lit|constructor|done].
Qed.

(** [(Nev<a>, Option<b>, Vec<a>)] on "a a" has two trees. *)
Definition ambT := TTuple [TPlus tA; TOpt tB; TStar tA].
Definition amb0 := Token (Span 0 1) 0.
Definition amb2 := Token (Span 2 3) 0.
Definition amb_x := TrSeq [TrList (Span 0 3) [TrTok amb0; TrTok amb2]; TrOpt (Span 3 3) None; TrList (Span 3 3) []].
Definition amb_y := TrSeq [TrList (Span 0 1) [TrTok amb0]; TrOpt (Span 1 1) None; TrList (Span 2 3) [TrTok amb2]].
Lemma amb_tok p t : t = amb0 ∨ t = amb2 → parses [] "a a" p tA [t] (TrTok t).
Proof. by intros [->| ->]; apply p_tok. Qed.
Lemma amb_parses_x : parses [] "a a" 0 ambT [amb0; amb2] amb_x.
Proof.
  apply p_tuple. apply (s_cons _ _ _ _ _ [amb0; amb2] []).
  - apply (p_plus _ _ 0 tA 1 _ [TrTok amb0; TrTok amb2]). apply (s_cons _ _ _ _ _ [amb0] [amb2]); [apply amb_tok; auto|].
    apply (s_cons _ _ _ _ _ [amb2] []); [apply amb_tok; auto|apply s_nil].
  - apply (s_cons _ _ _ _ _ [] []); [apply (p_none _ _ 3)|].
    apply (s_cons _ _ _ _ _ [] []); [apply (p_star_none _ _ 3)|]. apply s_nil.
Qed.
Lemma amb_parses_y : parses [] "a a" 0 ambT [amb0; amb2] amb_y.
Proof.
  apply p_tuple. apply (s_cons _ _ _ _ _ [amb0] [amb2]).
  - apply (p_plus _ _ 0 tA 0 _ [TrTok amb0]). apply (s_cons _ _ _ _ _ [amb0] []); [apply amb_tok; auto|apply s_nil].
  - apply (s_cons _ _ _ _ _ [] [amb2]); [apply (p_none _ _ 1)|].
    apply (s_cons _ _ _ _ _ [amb2] []); [|apply s_nil].
    apply (p_star _ _ _ tA 0 _ [TrTok amb2]). apply (s_cons _ _ _ _ _ [amb2] []); [apply amb_tok; auto|apply s_nil].
Qed.
