(** Grammars and inputs used in the theorems about the first offending token. *)
From Coq Require Import String NArith.
From stdpp Require Import prelude list strings relations.
From Verif Require Import LexModel LexSpec LexFacts SynSetModel TableModel StreamModel StreamSpec StreamFacts TypeModel TypeSpec
  ProduceModel SynMacroModel SynMacroSpec SourceSpec CfgSpec ParseSpec LangFacts CompleteSpec CompleteFacts SyntaxEx ParseEx CompleteEx
  ReadmeSpec ReadmeFacts PrefixSpec PrefixEx OffendFacts.
Local Open Scope nat_scope.
Local Open Scope list_scope.

(** Punct<(a, Option<("(", a, ")")>), ","> *)
Definition offO := TTuple [tL; tId; tR].
Definition offE := TTuple [tId; TOpt offO].
Definition offT := TPunct offE tC.
Definition off_types := [offT; offE; tC; tId; TOpt offO; offO; tL; tR].
Lemma off_accepted : accepted [] offT (md_get [] offT).
Proof. apply md_get_accepted. by vm_compute. Qed.
Lemma off_regular : regular [] offT.
Proof.
  apply (regular_interior _ _ _ off_accepted); [within off_types..|].
  apply interior_ok. by vm_compute.
Qed.
Notation texts := (Forall (λ x : tok, snd x ≠ ""%string)).
Lemma some_word env t w : texts w → lang env t w → viable env t [].
Proof. intros H1 H2. by exists w. Qed.
Lemma lit_word env n y x : lang env (TTok n y (Some x)) [(y, x)].
Proof. constructor. split; [done|by right]. Qed.
Lemma id_word env n y x : lang env (TTok n y None) [(y, x)].
Proof. constructor. split; [done|by left]. Qed.
Lemma off_item : lang [] offE [tok_a].
Proof. constructor. apply (ls_cons _ _ _ [_]); [apply id_word|]. apply LangFacts.langs_one. constructor. Qed.
Lemma off_paren : lang [] offO [tok_l; tok_a; tok_r].
Proof.
  constructor. apply (ls_cons _ _ _ [_]); [apply lit_word|]. apply (ls_cons _ _ _ [_]); [apply id_word|].
  apply LangFacts.langs_one, lit_word.
Qed.
Ltac texts_ok := repeat (apply Forall_cons; split; [done|]); by apply Forall_nil.
Ltac each L := apply (all_within_list _ _ L); [set_solver|];
  repeat (apply Forall_cons; split; [split; [|cbn; repeat (apply Forall_cons; split; [set_solver|]); apply Forall_nil; done]|]); try done.
Lemma off_viable : all_viable [] offT.
Proof.
  each off_types.
  - apply (some_word _ _ [tok_a]); [texts_ok|]. apply (l_punct _ _ _ 0 false). apply LangFacts.langs_one, off_item.
  - apply (some_word _ _ [tok_a]); [texts_ok|]. apply off_item.
  - apply (some_word _ _ [tok_c]); [texts_ok|]. apply lit_word.
  - apply (some_word _ _ [tok_a]); [texts_ok|]. apply id_word.
  - apply (some_word _ _ []); [texts_ok|]. constructor.
  - apply (some_word _ _ [tok_l; tok_a; tok_r]); [texts_ok|]. apply off_paren.
  - apply (some_word _ _ [tok_l]); [texts_ok|]. apply lit_word.
  - apply (some_word _ _ [tok_r]); [texts_ok|]. apply lit_word.
Qed.
Lemma clean_tok env n y : clean env (TTok n y None).
Proof. intros t H. apply rtc_inv in H as [<-|(x & H & _)]; [done|]. by apply elem_of_nil in H. Qed.
Lemma off_lone : lone [] offE.
Proof.
  exists (λ t, t ∈ [offE; tId; TOpt offO]). split; [set_solver|]. intros t Ht.
  repeat (apply elem_of_cons in Ht as [->|Ht]); [|done..|by apply elem_of_nil in Ht].
  intros [|? [|? [|]]] t' l2 E; cbn in E; try done; injection E as <-; subst; (split; [set_solver|]); intros ?; [apply clean_tok|done].
Qed.
Lemma off_keeps : keeps_first [] offT.
Proof. each off_types. exact off_lone. Qed.

(** "a,a(a)," can be continued, "a,a(a),," cannot. *)
Definition off_word := [tok_a; tok_c; tok_a; tok_l; tok_a; tok_r; tok_c].
Lemma off_begin : viable [] offT off_word.
Proof.
  exists []. split; [done|]. apply (l_punct _ _ _ 1 true). cbn.
  apply (ls_cons _ _ _ [tok_a]); [exact off_item|]. apply (ls_cons _ _ _ [tok_c]); [apply lit_word|].
  apply (ls_cons _ _ _ [tok_a; tok_l; tok_a; tok_r] [tok_c]).
  - constructor. apply (ls_cons _ _ _ [_]); [apply id_word|]. apply LangFacts.langs_one, l_some, off_paren.
  - apply LangFacts.langs_one, lit_word.
Qed.
(** No two operators next to each other, none at the start or the end ([b]: an operand is due). *)
Fixpoint fine (op : tok → bool) (b : bool) (w : list tok) : bool :=
  match w with [] => negb b | x :: r => if op x then negb b && fine op true r else fine op false r end.
Lemma fine_app op b w1 w2 : fine op b w1 = true → fine op b (w1 ++ w2) = fine op false w2.
Proof.
  revert b. induction w1 as [|x w1 IH]; intros b H; cbn in *; [by destruct b|].
  destruct (op x); [|by apply IH]. apply andb_true_iff in H as [-> H]. by apply IH.
Qed.
Lemma fine_weak op w : fine op true w = true → fine op false w = true.
Proof. destruct w as [|x w]; cbn; [done|]. by destruct (op x). Qed.

Definition comma (x : tok) : bool := bool_decide (x = tok_c).
Lemma off_elem w : lang [] offE w → fine comma true w = true.
Proof.
  intros (w1 & w2 & -> & (x & -> & [Hx _])%PrefixEx.lang_tok & H)%PrefixEx.lang_tuple%LangFacts.langs_cons.
  apply LangFacts.langs_one in H. assert (comma x = false) as E.
  { unfold comma. apply bool_decide_eq_false. intros ->. done. }
  cbn. rewrite E. inversion H as [| | | | |t|t w Ho| | | | | | | | | |]; subst; [done|].
  apply PrefixEx.lang_tuple, LangFacts.langs_cons in Ho as (v1 & v2 & -> & (y1 & -> & Hy1)%PrefixEx.lang_tok & Ho).
  apply LangFacts.langs_cons in Ho as (v3 & v4 & -> & (y2 & -> & Hy2)%PrefixEx.lang_tok & Ho).
  apply LangFacts.langs_one, PrefixEx.lang_tok in Ho as (y3 & -> & Hy3). cbn.
  assert (comma y1 = false ∧ comma y2 = false ∧ comma y3 = false) as (-> & -> & ->); [|done].
  unfold comma. rewrite !bool_decide_eq_false. split_and!; intros ->.
  - by destruct Hy1 as [_ [?|[=]]].
  - by destruct Hy2.
  - by destruct Hy3 as [_ [?|[=]]].
Qed.
Lemma off_tail n (b : bool) w : langs [] (concat (replicate n [tC; offE]) ++ if b then [tC] else []) w →
  ∃ z, fine comma false (w ++ z) = true.
Proof.
  assert (Hc : ∀ v, lang [] tC v → v = [tok_c]).
  { intros v (x & -> & [H1 [?|H]])%PrefixEx.lang_tok; [done|]. destruct x as [y z]. cbn in H1, H. injection H as <-. by subst. }
  revert w. induction n as [|n IH]; intros w H.
  - destruct b; cbn in H; [apply LangFacts.langs_one, Hc in H as ->; by exists [tok_a]|]. apply langs_nil in H as ->. by exists [].
  - cbn [replicate concat app] in H. apply LangFacts.langs_cons in H as (w1 & w2 & -> & ->%Hc & H).
    apply LangFacts.langs_cons in H as (w3 & w4 & -> & H3%off_elem & H). destruct (IH _ H) as [z Hz].
    exists z. cbn. rewrite <- (assoc_L (++)). by rewrite (fine_app _ _ _ _ H3).
Qed.
Lemma off_stop : ¬ viable [] offT (off_word ++ [tok_c]).
Proof.
  intros (w' & _ & H). apply lang_punct_inv in H as (n & b & H). unfold alternate in H. cbn [app] in H.
  apply LangFacts.langs_cons in H as (w1 & w2 & E & H1%off_elem & H2). destruct (off_tail _ _ _ H2) as [z Hz].
  assert (Hf : fine comma true ((w1 ++ w2) ++ z) = true) by (by rewrite <- (assoc_L (++)), (fine_app _ _ _ _ H1)).
  rewrite <- E in Hf. cbn in Hf. done.
Qed.

(** * The README's parsers *)
Definition oper (x : tok) : bool := fst x =? 1.
Lemma joined_fine op (P : list tok → Prop) w : oper op = true → (∀ v, P v → fine oper true v = true) → joined op P w → fine oper true w = true.
Proof.
  intros Ho HP. induction 1 as [w H|w1 w2 H1 _ IH]; [by apply HP|]. rewrite (fine_app _ _ _ _ (HP _ H1)). cbn. by rewrite Ho.
Qed.
Lemma factor_fine n w : length w ≤ n → factor w → fine oper true w = true.
Proof.
  revert w. induction n as [|n IH]; intros w Hn H; [by inversion H; subst; cbn in Hn; lia|].
  inversion H as [x|v Hv]; subst; [done|]. cbn. 
  assert (Hf : fine oper true v = true).
  { assert (Hv' : joined (1, "+"%string) (joined (1, "*"%string) (λ v, fine oper true v = true)) v).
    { eapply joined_mono; [exact Hv|]. intros v1 L1 H1. eapply joined_mono; [exact H1|]. intros v2 L2. apply IH.
      unfold tok in *. cbn in Hn. rewrite app_length in Hn. cbn in Hn. lia. }
    eapply (joined_fine (1, "+"%string)); [done| |exact Hv']. intros v1 H1. eapply (joined_fine (1, "*"%string)); [done| |exact H1]. auto. }
  rewrite (fine_app _ _ _ _ (fine_weak _ _ Hf)). done.
Qed.
Lemma expression_fine w : expression w → fine oper true w = true.
Proof.
  intros H. eapply (joined_fine (1, "+"%string)); [done| |exact H]. intros v1 H1. eapply (joined_fine (1, "*"%string)); [done| |exact H1].
  intros v2 H2. by apply (factor_fine (length v2)).
Qed.
(** "a*(a+" can be continued, "a*(a+*" cannot. *)
Definition rd_word : list tok := [aa; (1, "*"%string); (2, "("%string); aa; (1, "+"%string)].
Lemma rd_begin : viable rd_env (TNamed 0) rd_word.
Proof.
  exists [aa; (2, ")"%string)]. split; [texts_ok|]. apply rd_expression.
  apply j_one. apply (j_more _ _ [aa]); [apply f_ident|]. apply j_one. apply (f_paren [aa; (1, "+"%string); aa]).
  apply (j_more _ _ [aa]); [apply j_one, f_ident|apply j_one, j_one, f_ident].
Qed.
Lemma rd_stop : ¬ viable rd_env (TNamed 0) (rd_word ++ [(1, "*"%string)]).
Proof. intros (w & _ & H). apply rd_expression, expression_fine in H. done. Qed.

(** "a*(a+*a b" *)
Definition lost_raws : list raw :=
  [RTok 0 (Span 0 1); RTok 1 (Span 1 2); RTok 2 (Span 2 3); RTok 0 (Span 3 4); RTok 1 (Span 4 5); RTok 1 (Span 5 6);
   RTok 0 (Span 6 7); RTok 0 (Span 8 9)].
Definition lost_start : pst := pst_new "a*(a+*a b" lost_raws.
Lemma lost_start_ok : state_ok lost_start.
Proof. vm_compute. repeat split; lia. Qed.
Definition rd_run (env : denv) : out (res tree) pst := run no_extract (produce_md env (md_get env (TNamed 0)) 60 (TNamed 0)) lost_start.
Lemma rd_run_eq env : rd_run env = run no_extract (produce_md env (md_get env (TNamed 0)) 60 (TNamed 0)) lost_start.
Proof. done. Qed.
(** The [*] at 5 goes unreported. *)
Lemma rd_lost : ∃ env md s u tk v f r s',
  written true rd_names rd_items env ∧ accepted env (TNamed 0) md ∧ state_ok s ∧ to_come no_extract s = u ++ tk :: v ∧
  viable env (TNamed 0) (word (p_src s) u) ∧ ¬ viable env (TNamed 0) (word (p_src s) (u ++ [tk])) ∧
  run no_extract (produce_md env md f (TNamed 0)) s = ODone r s' ∧ errors_of r ≠ [] ∧
  ∀ e, e ∈ errors_of r → sp_hi (t_span tk) ≤ sp_lo (e_span e).
Proof.
  assert (H : match rd_run rd_env with
    | ODone r _ => map (λ e, sp_lo (e_span e)) (errors_of r) = [8] | _ => False end) by by vm_compute.
  destruct (rd_run rd_env) as [| |r s'] eqn:E; [destruct H..|].
  exists rd_env, (md_get rd_env (TNamed 0)), lost_start, (take 5 (to_come no_extract lost_start)), (Token (Span 5 6) 1),
    [Token (Span 6 7) 0; Token (Span 8 9) 0], 60, r, s'.
  split; [exact rd_written|]. split; [exact rd_accepted|]. split; [exact lost_start_ok|]. split; [by vm_compute|].
  assert (word (p_src lost_start) (take 5 (to_come no_extract lost_start)) = rd_word) as -> by by vm_compute.
  assert (word (p_src lost_start) (take 5 (to_come no_extract lost_start) ++ [Token (Span 5 6) 1]) = rd_word ++ [(1, "*"%string)]) as -> by by vm_compute.
  split; [exact rd_begin|]. split; [exact rd_stop|]. split; [rewrite <- rd_run_eq; exact E|].
  clear E. destruct (errors_of r) as [|e [|]]; [done| |done]. injection H as He. split; [done|].
  intros e' ->%elem_of_list_singleton. rewrite He. cbn. lia.
Qed.

Lemma rr_viable : all_viable rr_env (TNamed 0).
Proof.
  assert (HF : lang rr_env (TNamed 6) [aa]) by (by eapply (factor_lang _ 6 0)).
  assert (HT' : lang rr_env (TNamed 4) []) by (by apply (lang_struct rr_env 4 _ _ eq_refl), ReadmeFacts.langs_one, lang_opt; left).
  assert (HE' : lang rr_env (TNamed 1) []) by (by apply (lang_struct rr_env 1 _ _ eq_refl), ReadmeFacts.langs_one, lang_opt; left).
  assert (HT : lang rr_env (TNamed 3) [aa]).
  { apply (lang_struct rr_env 3 _ _ eq_refl), LangFacts.langs_cons. exists [aa], []. split; [done|]. split; [done|by apply LangFacts.langs_one]. }
  assert (HE : lang rr_env (TNamed 0) [aa]) by apply rr_expression, expression_a.
  assert (HP : lang rr_env (TNamed 2) [(1, "+"%string); aa]).
  { apply (lang_struct rr_env 2 _ _ eq_refl), langs_lit. exists [aa]. split; [done|]. apply LangFacts.langs_cons. exists [aa], [].
    split; [done|]. split; [done|]. by apply LangFacts.langs_one, lang_box. }
  assert (HM : lang rr_env (TNamed 5) [(1, "*"%string); aa]).
  { apply (lang_struct rr_env 5 _ _ eq_refl), langs_lit. exists [aa]. split; [done|]. apply LangFacts.langs_cons. exists [aa], [].
    split; [done|]. split; [done|]. by apply LangFacts.langs_one, lang_box. }
  each rr_types; (eapply some_word; [|first [by apply lang_lit|eassumption|apply ident_lang|by apply paren_lang|by apply (proj2 (lang_box _ _ _))|by apply l_none]]);
    try texts_ok; cbn; texts_ok.
Qed.
Lemma rr_keeps : keeps_first rr_env (TNamed 0).
Proof. within rr_types. Qed.
Lemma rr_first extract env md s u tk v f o s' : written true rd_names rr_items env → accepted env (TNamed 0) md → state_ok s →
  to_come extract s = u ++ tk :: v → beginning (word (p_src s) u) → ¬ beginning (word (p_src s) (u ++ [tk])) →
  run extract (parse env f (TNamed 0) (inr md)) s = ODone o s' →
  ∃ bad es, p_errors s' = p_errors s ++ map (λ sp, PErr sp UnexpectedCharacters) bad ++ es ∧
    (((∃ e, e ∈ es ∧ sp_lo (e_span e) = sp_lo (t_span tk)) ∧ ∀ e, e ∈ es → sp_lo (t_span tk) ≤ sp_lo (e_span e)) ∨
     (es = [] ∧ took extract s u s' ∧ expression (word (p_src s) u))).
Proof.
  intros Hw Ha Hok Hu Hb Hn Hr. rewrite (written_unique _ _ _ _ _ Hw rr_written) in *.
  assert (Hv : ∀ w, viable rr_env (TNamed 0) w ↔ beginning w).
  { intros w. split; intros (w' & H1 & H2); exists w'; (split; [done|]); by apply rr_expression. }
  destruct (first_error_parse extract rr_env (TNamed 0) md s u tk v f o s' Ha rr_regular rr_viable rr_keeps Hok Hu) as (bad & es & H1 & H2);
    [by apply Hv|by intros ?%Hv|done|].
  exists bad, es. split; [done|]. rewrite <- rr_expression. done.
Qed.
