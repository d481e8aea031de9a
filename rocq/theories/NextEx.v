(** Types used in the examples of P_Next. *)
From Coq Require Import String NArith.
From stdpp Require Import prelude list strings relations.
From Verif Require Import LexModel LexSpec SynSetModel TableModel CfgSpec CfgFacts StreamModel StreamSpec TypeModel TypeSpec ProduceModel ParseSpec ProgFacts RunFacts FuelFacts CompleteSpec CompleteFacts PrefixSpec
  RootModel SyntaxEx ParseEx TermEx CompleteEx NextSpec NextFacts AnswerFacts.
Local Open Scope nat_scope.

(** Statements: one or more names and a comma. *)
Definition stT := TTuple [TPlus tId; tC].
Definition st_types := [stT; TPlus tId; tId; tC].
Lemma st_accepted : accepted [] stT (md_get [] stT).
Proof. apply md_get_accepted. by vm_compute. Qed.
Lemma st_regular : regular [] stT.
Proof. apply (regular_interior _ _ _ st_accepted); [within st_types..|]. apply interior_ok. by vm_compute. Qed.
Lemma st_filled : filled [] stT.
Proof. within st_types. Qed.
Lemma st_no_recover : no_recover [] stT.
Proof. within st_types. Qed.
Lemma st_no_loop : no_loop [] stT.
Proof. within st_types. Qed.
Lemma st_no_punct : no_punct_last [] stT.
Proof.
  intros regs t d _ Hw. exfalso. assert (H : all_within [] (λ t, match t with TPunct _ _ => False | _ => True end) stT) by within st_types.
  exact (H _ Hw).
Qed.
Lemma tId_within : all_within [] (λ c, match c with TTok _ y' lit' => ¬ covers y' lit' (1, ","%string) | _ => True end) (TPlus tId).
Proof. apply (all_within_list _ _ [TPlus tId; tId]); [set_solver|]. repeat (apply Forall_cons; split; [split; [cbn; unfold covers; cbn; naive_solver|cbn; repeat (apply Forall_cons; split; [set_solver|]); apply Forall_nil; done]|]). apply Forall_nil; done. Qed.
Lemma st_delimits : self_delimiting [] stT.
Proof. apply terminated_delimits, tId_within. Qed.
Lemma l_names n ws : length ws = S n → Forall (λ x, fst x = 0) ws → lang [] (TPlus tId) ws.
Proof.
  intros E H. apply (l_plus _ _ n). rewrite <- E. clear E. induction H as [|[a b] l Hx _ IH]; cbn; [constructor|].
  apply (ls_cons _ _ _ [(a, b)] l); [|done]. apply l_tok. cbn in Hx. subst a. split; cbn; auto.
Qed.
Lemma st_lang n ws : length ws = S n → Forall (λ x, fst x = 0) ws → lang [] stT (ws ++ [(1, ","%string)]).
Proof.
  intros E H. apply l_tuple, ls_cons; [by eapply l_names|]. apply (ls_cons _ _ _ [(1, ","%string)] []); [|constructor].
  apply l_lit.
Qed.
Lemma st_productive : productive [] stT.
Proof.
  apply (all_within_list _ _ st_types); [set_solver|]. unfold st_types. 
  repeat (apply Forall_cons; split; [split; [|cbn; repeat (apply Forall_cons; split; [set_solver|]); apply Forall_nil; done]|]); [..|apply Forall_nil; done].
  - exists ([(0, "a"%string)] ++ [(1, ","%string)]). by apply (st_lang 0); [|repeat constructor].
  - exists [(0, "a"%string)]. by apply (l_names 0); [|repeat constructor].
  - exists [(0, "a"%string)]. apply l_tok. split; cbn; auto.
  - exists [(1, ","%string)]. apply l_lit.
Qed.
(** "a b, a, b": two sentences, then a name. *)
Definition st_src : string := "a b, a, b".
Lemma st_langs : langs [] (replicate 2 stT) (word st_src (take 5 (to_come no_extract (start st_src)))).
Proof.
  apply (ls_cons _ _ _ ([(0, "a"%string); (0, "b"%string)] ++ [(1, ","%string)]) ([(0, "a"%string)] ++ [(1, ","%string)])).
  - by apply (st_lang 1); [|repeat constructor].
  - rewrite <- (app_nil_r ([_] ++ _)). apply ls_cons; [|constructor]. by apply (st_lang 0); [|repeat constructor].
Qed.
Lemma st_reads : match ex_parse [] stT st_src with
  | ODone (inr (Some x)) s1 => tree_span x = Span 0 4 ∧ p_errors s1 = [] ∧
     match run no_extract (parse [] 60 stT (inr (md_get [] stT))) s1 with
     | ODone (inr (Some y)) s2 => tree_span y = Span 5 7 ∧ p_errors s2 = [] ∧ length (to_come no_extract s2) = 1
     | _ => False
     end
  | _ => False
  end.
Proof. by vm_compute. Qed.

(** * A list with a trailing delimiter at the end of the root *)
Definition puT := TPunct tId tC.
Definition pu_types := [puT; tId; tC].
Lemma pu_accepted : accepted [] puT (md_get [] puT).
Proof. apply md_get_accepted. by vm_compute. Qed.
Lemma pu_regular : regular [] puT.
Proof. apply (regular_interior _ _ _ pu_accepted); [within pu_types..|]. apply interior_ok. by vm_compute. Qed.
Lemma pu_no_loop : no_loop [] puT.
Proof. within pu_types. Qed.
Lemma pu_lang : lang [] puT [(0, "a"%string); (1, ","%string)].
Proof.
  apply (l_punct _ _ _ 0 true). apply (ls_cons _ _ _ [(0, "a"%string)] [(1, ","%string)]); [apply l_tok; split; cbn; auto|].
  apply (ls_cons _ _ _ [(1, ","%string)] []); [apply l_lit|constructor].
Qed.
Lemma pu_productive : productive [] puT.
Proof.
  apply (all_within_list _ _ pu_types); [set_solver|]. unfold pu_types.
  repeat (apply Forall_cons; split; [split; [|cbn; repeat (apply Forall_cons; split; [set_solver|]); apply Forall_nil; done]|]); [..|apply Forall_nil; done].
  - eexists. apply pu_lang.
  - exists [(0, "a"%string)]. apply l_tok. split; cbn; auto.
  - exists [(1, ","%string)]. apply l_lit.
Qed.
Lemma pu_ends : ends_before [] puT (1, "("%string).
Proof.
  intros w w' _ H. destruct (lang_covered _ _ _ H (1, "("%string)) as (n & y & lit & Hw & Hc); [set_solver|]. revert Hw Hc.
  assert (Ha : all_within [] (λ c, match c with TTok _ y' lit' => ¬ covers y' lit' (1, "("%string) | _ => True end) puT).
  { apply (all_within_list _ _ pu_types); [set_solver|]. unfold pu_types.
    repeat (apply Forall_cons; split; [split; [cbn; unfold covers; cbn; naive_solver|cbn; repeat (apply Forall_cons; split; [set_solver|]); apply Forall_nil; done]|]).
    apply Forall_nil; done. }
  intros Hw. exact (Ha _ Hw).
Qed.
Definition not_clean_check (o : out (gerr prod + option tree) pst) : bool :=
  match o with ODone _ s => (length (p_invalid s) =? 0) && negb (length (p_errors s) =? 0) | _ => false end.
Lemma not_clean extract env md root s f : p_errors s = [] → not_clean_check (run extract (parse env f root (inr md)) s) = true →
  ¬ ∃ f' x s', run extract (parse env f' root (inr md)) s = ODone (inr (Some x)) s' ∧ only_bad_text s s'.
Proof.
  intros He Hc (f' & x & s' & Hr & (bad & Hb & Hb')).
  assert (E : run extract (parse env f root (inr md)) s = ODone (inr (Some x)) s').
  { destruct (Nat.le_ge_cases f' f) as [Hle|Hle].
    - rewrite <- Hr. apply le_run; [by apply parse_le|]. by rewrite Hr.
    - rewrite <- Hr. symmetry. apply le_run; [by apply parse_le|]. intros E. by rewrite E in Hc. }
  rewrite E in Hc. cbn in Hc. apply andb_true_iff in Hc as [H1 H2]. apply Nat.eqb_eq in H1.
  rewrite Hb, app_length in H1. destruct bad; [|cbn in H1; lia]. cbn in Hb'. rewrite app_nil_r in Hb'. by rewrite Hb', He in H2.
Qed.
Lemma pu_skips : ¬ ∃ f x s', run no_extract (parse [] f puT (inr (md_get [] puT))) (start "a,(") = ODone (inr (Some x)) s' ∧
  only_bad_text (start "a,(") s'.
Proof. apply (not_clean no_extract [] (md_get [] puT) puT (start "a,(") 60); [reflexivity|]. by vm_compute. Qed.
Lemma pu_other : match ex_parse [] puT "a,(", ex_parse [] puT "a(" with
  | ODone (inr (Some x)) s1, ODone (inr (Some y)) s2 =>
      map e_span (p_errors s1) = [Span 2 3] ∧ to_come no_extract s1 = [] ∧ p_errors s2 = [] ∧ length (to_come no_extract s2) = 1
  | _, _ => False
  end.
Proof. by vm_compute. Qed.

(** * What [Root::parse] does not tell *)
Lemma id_accepted : accepted [] tId (md_get [] tId).
Proof. apply md_get_accepted. by vm_compute. Qed.
Lemma id_regular : regular [] tId.
Proof. apply (regular_interior _ _ _ id_accepted); [within [tId]..|]. apply interior_ok. by vm_compute. Qed.
Lemma id_clean : clean [] tId.
Proof. within [tId]. Qed.
Definition madeT := TTuple [tId; tR].
Definition made_types := [madeT; tId; tR].
Lemma made_accepted : accepted [] madeT (md_get [] madeT).
Proof. apply md_get_accepted. by vm_compute. Qed.
Lemma made_regular : regular [] madeT.
Proof. apply (regular_interior _ _ _ made_accepted); [within made_types..|]. apply interior_ok. by vm_compute. Qed.
Lemma made_length w : lang [] madeT w → length w = 2.
Proof. intros H. apply terminated_word in H as (w1 & -> & H). rewrite app_length. by inversion H; subst. Qed.
Lemma id_a : lang [] tId (word "a" (raw_tokens (lex_chars 0 "a"))).
Proof. apply (l_tok _ 0 0 None (0, "a"%string)). split; cbn; auto. Qed.
Lemma id_not : ¬ lang [] tId (word "a)" (raw_tokens (lex_chars 0 "a)"))).
Proof. intros H. inversion H. Qed.
Definition id_tree : tree := TrTok (Token (Span 0 1) 0).
Lemma id_same f : 1 ≤ f → root_parse no_extract [] f tId (inr (md_get [] tId)) "a" (lex_chars 0 "a") = Some (inr (Some id_tree)) ∧
  root_parse no_extract [] f tId (inr (md_get [] tId)) "a)" (lex_chars 0 "a)") = Some (inr (Some id_tree)).
Proof. intros Hf. split; (apply (answer_fuel _ _ _ _ _ _ 1); [done|]; by vm_compute). Qed.
Definition made_tree : tree := Eval vm_compute in
  match root_parse no_extract [] 60 madeT (inr (md_get [] madeT)) "a" (lex_chars 0 "a") with Some (inr (Some x)) => x | _ => id_tree end.
Lemma made_some : root_parse no_extract [] 60 madeT (inr (md_get [] madeT)) "a" (lex_chars 0 "a") = Some (inr (Some made_tree)).
Proof. by vm_compute. Qed.
Lemma made_none l u : raw_tokens (lex_chars 0 "a") = l ++ u → ¬ lang [] madeT (word "a" l).
Proof.
  intros E H. apply made_length in H. unfold word in H. rewrite map_length in H. apply (f_equal length) in E. rewrite app_length in E.
  change (1 = length l + length u) in E. lia.
Qed.
Lemma chars_ok x : raw_ok (String.length x) (lex_chars 0 x).
Proof. exact (start_ok x). Qed.
