(** Proofs for P_Readme. *)
From Coq Require Import String NArith.
From stdpp Require Import prelude list strings relations.
From Verif Require Import LexModel LexSpec SynSetModel TableModel CfgSpec CfgFacts StreamModel StreamSpec StreamFacts TypeModel TypeSpec ProduceModel SynMacroModel SynMacroSpec ParseSpec ProgFacts FuelFacts LangFacts RunFacts LookFacts MdFacts ParseFacts CompleteSpec CompleteFacts EndFacts SourceSpec SyntaxEx ParseEx TermEx CompleteEx ReadmeSpec.
Local Open Scope nat_scope.

(** * Accepted and regular: parsing decides the language *)
Lemma whole_lang extract env root md s : filled env root → no_recover env root → no_loop env root → state_ok s →
  parsed_whole extract env md root s → lang env root (word (p_src s) (to_come extract s)).
Proof.
  intros Hf Hn Hl Hok (f & x & s' & Hr & Ht & Hb).
  destruct (parse_clean extract env root md f s x s' Hf Hn Hok Hr Hb) as (l & Ht' & Hp).
  assert (l = to_come extract s) as ->.
  { destruct Ht as (_ & Hc & _), Ht' as (_ & Hc' & _). rewrite Hc in Hc'. by apply app_inv_head in Hc'. }
  by eapply parses_lang.
Qed.
Lemma decides extract env root md s : accepted env root md → regular env root → no_recover env root → no_loop env root →
  state_ok s → parsed_whole extract env md root s ↔ lang env root (word (p_src s) (to_come extract s)).
Proof.
  intros Ha Hr Hn Hl Hok. split; [apply whole_lang; [apply Hr|done..]|].
  intros H. destruct (parse_complete extract env root md Ha Hr s Hok H) as (f0 & x & s' & _ & H1 & H2 & H3).
  exists f0, x, s'. split; [by apply H3|done].
Qed.

(** * Languages of the constructors *)
Section inv.
  Variable env : denv.
  Notation lang := (lang env). Notation langs := (langs env).
  Lemma lang_struct n fs w : env !! n = Some (DStruct fs) → lang (TNamed n) w ↔ langs (map fst fs) w.
  Proof.
    intros E. split; [|by apply l_struct]. intros H. inversion H as [|n' fs' w' E' Hl|n' vs t sem w' E'| | | | | | | | | | | | | |]; subst; [|congruence].
    rewrite E in E'. by injection E' as <-.
  Qed.
  Lemma lang_enum n vs w : env !! n = Some (DEnum vs) → lang (TNamed n) w ↔ ∃ t sem, (t, sem) ∈ vs ∧ lang t w.
  Proof.
    intros E. split; [|intros (t & sem & H1 & H2); by eapply l_enum].
    intros H. inversion H as [|n' fs' w' E' Hl|n' vs' t sem w' E' Ht Hl| | | | | | | | | | | | | |]; subst; [congruence|].
    rewrite E in E'. injection E' as <-. eauto.
  Qed.
  Lemma lang_tok n y lit w : lang (TTok n y lit) w ↔ ∃ t, w = [t] ∧ covers y lit t.
  Proof. split; [intros H; inversion H; subst; eauto|intros (t & -> & H); by constructor]. Qed.
  Lemma lang_tuple ts w : lang (TTuple ts) w ↔ langs ts w.
  Proof. split; [intros H; by inversion H|by constructor]. Qed.
  Lemma lang_box t w : lang (TBox t) w ↔ lang t w.
  Proof. split; [intros H; by inversion H|by constructor]. Qed.
  Lemma lang_opt t w : lang (TOpt t) w ↔ w = [] ∨ lang t w.
  Proof. split; [intros H; inversion H; subst; auto|intros [->|H]; by constructor]. Qed.
  Lemma langs_one t w : langs [t] w ↔ lang t w.
  Proof.
    rewrite langs_cons. setoid_rewrite langs_nil. split.
    - intros (w1 & w2 & -> & H & ->). by rewrite app_nil_r.
    - intros H. exists w, []. by rewrite app_nil_r.
  Qed.
  Lemma lang_lit n y x w : lang (TTok n y (Some x)) w ↔ w = [(y, x)].
  Proof.
    rewrite lang_tok. split.
    - intros ([a b] & -> & [Ha Hb]). cbn in Ha, Hb. destruct Hb as [?|[= ->]]; [done|by subst].
    - intros ->. exists (y, x). split; [done|]. split; [done|by right].
  Qed.
  Lemma langs_lit n y x ts w : langs (TTok n y (Some x) :: ts) w ↔ ∃ w', w = (y, x) :: w' ∧ langs ts w'.
  Proof.
    rewrite langs_cons. split.
    - intros (w1 & w2 & -> & ->%lang_lit & H). by exists w2.
    - intros (w' & -> & H). exists [(y, x)], w'. split; [done|]. split; [by apply lang_lit|done].
  Qed.
  Lemma lang_split t n y x w : lang (TSplit t (TTok n y (Some x))) w ↔ joined (y, x) (lang t) w.
  Proof.
    split.
    - intros H. inversion H as [| | | | | | | | | | | | | |t' d' k w' Hl| |]; subst. clear H. revert w Hl.
      induction k as [|k IH]; intros w; unfold alternate; cbn [replicate concat app].
      + intros H%langs_one. by constructor.
      + rewrite langs_cons. intros (w1 & w2 & -> & H1 & H2). apply langs_lit in H2 as (w3 & -> & H3).
        apply j_more; [done|]. apply IH. exact H3.
    - intros H. assert (∃ k, langs (alternate k t (TTok n y (Some x))) w) as [k Hk]; [|by econstructor].
      induction H as [w H|w1 w2 H1 H2 [k IH]].
      + exists 0. by apply langs_one.
      + exists (S k). unfold alternate. cbn [replicate concat app]. apply langs_cons. exists w1, ((y, x) :: w2).
        split; [done|]. split; [done|]. apply langs_lit. exists w2. split; [done|exact IH].
  Qed.
  (** [A -> t A'], [A' -> op t A' | epsilon] *)
  Lemma lang_repeat t a b n y x w : env !! a = Some (DStruct [(TOpt (TNamed b), None)]) →
    env !! b = Some (DStruct [(TTok n y (Some x), None); (t, None); (TBox (TNamed a), None)]) →
    langs [t; TNamed a] w ↔ joined (y, x) (lang t) w.
  Proof.
    intros Ea Eb.
    assert (Ht : ∀ v, lang (TNamed a) v ↔ v = [] ∨ ∃ v', v = (y, x) :: v' ∧ langs [t; TNamed a] v').
    { intros v. rewrite (lang_struct _ _ _ Ea). cbn [map fst]. rewrite langs_one, lang_opt, (lang_struct _ _ _ Eb).
      cbn [map fst]. rewrite langs_lit. do 2 (apply or_iff_compat_l || f_equiv). intros v'.
      rewrite !langs_cons. setoid_rewrite langs_cons. setoid_rewrite lang_box. done. }
    split.
    - remember (length w) as m eqn:Em. revert w Em. induction m as [m IH] using lt_wf_ind. intros w ->.
      rewrite langs_cons. intros (w1 & w2 & -> & H1 & H2%langs_one). apply Ht in H2 as [->|(v & -> & Hv)].
      + rewrite app_nil_r. by constructor.
      + apply j_more; [done|]. eapply IH; [|done|done]. rewrite app_length. cbn. lia.
    - induction 1 as [w H|w1 w2 H1 H2 IH]; apply langs_cons.
      + exists w, []. rewrite app_nil_r. split; [done|]. split; [done|]. apply langs_one, Ht. by left.
      + exists w1, ((y, x) :: w2). split; [done|]. split; [done|]. apply langs_one, Ht. right. by exists w2.
  Qed.
End inv.

Lemma joined_mono op (P Q : list tok → Prop) w : joined op P w → (∀ v, length v ≤ length w → P v → Q v) → joined op Q w.
Proof.
  induction 1 as [w H|w1 w2 H1 H2 IH]; intros Hpq.
  - constructor. by apply Hpq.
  - apply j_more.
    + apply Hpq; [|done]. rewrite app_length. lia.
    + apply IH. intros v Hv. apply Hpq. rewrite app_length. cbn. lia.
Qed.
Lemma joined_iff op (P Q : list tok → Prop) w : (∀ v, length v ≤ length w → P v ↔ Q v) → joined op P w ↔ joined op Q w.
Proof. intros H. split; intros Hj; (eapply joined_mono; [exact Hj|]); intros v Hv; by apply H. Qed.

(** Any grammar with these two equations describes the expressions. *)
Lemma expressions (E F : list tok → Prop) :
  (∀ w, F w ↔ (∃ x, w = [(0, x)]) ∨ ∃ v : list tok, w = (2, "("%string) :: v ++ [(2, ")"%string)] ∧ E v) →
  (∀ w, E w ↔ joined (1, "+"%string) (joined (1, "*"%string) F) w) →
  ∀ w, E w ↔ expression w.
Proof.
  intros HF HE.
  assert (H : ∀ n w, length w ≤ n → F w ↔ factor w).
  { induction n as [|n IH]; intros w Hw.
    - destruct w; [|cbn in Hw; lia]. split; intros H.
      + apply HF in H as [(x & ?)|(v & ? & _)]; done.
      + inversion H.
    - assert (HE' : ∀ v, length v ≤ n → E v ↔ expression v).
      { intros v Hv. rewrite HE. apply joined_iff. intros v1 H1. apply joined_iff. intros v2 H2. apply IH. lia. }
      rewrite HF. split.
      + intros [(x & ->)|(v & -> & Hv)]; [constructor|]. constructor. apply HE'; [|done].
        unfold tok in *. cbn in Hw. rewrite app_length in Hw. cbn in Hw. lia.
      + intros Hf. inversion Hf as [x|v Hv]; subst; [by left; exists x|]. right. exists v. split; [done|].
        apply HE'; [|done]. unfold tok in *. cbn in Hw. rewrite app_length in Hw. cbn in Hw. lia. }
  intros w. rewrite HE. apply joined_iff. intros v1 H1. apply joined_iff. intros v2 H2. by apply (H (length v2)).
Qed.
Lemma factor_rule env n e w : env !! n = Some (DEnum [(rdIdent, None); (TTuple [rdOpen; TBox (TNamed e); rdClose], None)]) →
  lang env (TNamed n) w ↔ (∃ x, w = [(0, x)]) ∨ ∃ v : list tok, w = (2, "("%string) :: v ++ [(2, ")"%string)] ∧ lang env (TNamed e) v.
Proof.
  intros En. rewrite (lang_enum _ _ _ _ En). split.
  - intros (t & sem & Ht & Hl). apply elem_of_cons in Ht as [[= -> ->]|Ht].
    + left. apply lang_tok in Hl as ([y x] & -> & [Hy _]). cbn in Hy. subst. by exists x.
    + apply elem_of_list_singleton in Ht as [= -> ->]. right. apply lang_tuple, langs_lit in Hl as (w' & -> & Hl).
      apply langs_cons in Hl as (v & w2 & -> & Hv & Hc). apply (proj1 (lang_box _ _ _)) in Hv. exists v. split; [|done].
      apply langs_one, lang_lit in Hc as ->. done.
  - intros [(x & ->)|(v & -> & Hv)].
    + exists rdIdent, None. split; [by left|]. apply lang_tok. exists (0, x). split; [done|]. split; [done|by left].
    + exists (TTuple [rdOpen; TBox (TNamed e); rdClose]), None. split; [right; by left|]. apply lang_tuple, langs_lit.
      eexists. split; [done|]. apply langs_cons. exists v, [(2, ")"%string)]. split; [done|]. split; [by apply (proj2 (lang_box _ _ _))|].
      by apply langs_one, lang_lit.
Qed.

Lemma rd_expression w : lang rd_env (TNamed 0) w ↔ expression w.
Proof.
  apply (expressions _ (lang rd_env (TNamed 2))).
  - intros v. by apply factor_rule.
  - intros v. rewrite (lang_struct rd_env 0 _ _ eq_refl). cbn [map fst]. rewrite langs_one. unfold rdAdd. rewrite lang_split.
    apply joined_iff. intros v1 _. rewrite (lang_struct rd_env 1 _ _ eq_refl). cbn [map fst]. rewrite langs_one. unfold rdMul. apply lang_split.
Qed.
Lemma rr_expression w : lang rr_env (TNamed 0) w ↔ expression w.
Proof.
  apply (expressions _ (lang rr_env (TNamed 6))).
  - intros v. by apply factor_rule.
  - intros v. rewrite (lang_struct rr_env 0 _ _ eq_refl). cbn [map fst].
    rewrite (lang_repeat rr_env (TNamed 3) 1 2 1 1 "+" v eq_refl eq_refl).
    apply joined_iff. intros v1 _. rewrite (lang_struct rr_env 3 _ _ eq_refl). cbn [map fst].
    apply (lang_repeat rr_env (TNamed 6) 4 5 2 1 "*" v1 eq_refl eq_refl).
Qed.

(** * The generated parsers *)
Definition rd_types := [TNamed 0; TSplit (TNamed 1) rdAdd; TNamed 1; rdAdd; TSplit (TNamed 2) rdMul; TNamed 2; rdMul; rdIdent;
  TTuple [rdOpen; TBox (TNamed 0); rdClose]; rdOpen; TBox (TNamed 0); rdClose].
Definition rr_types := [TNamed 0; TNamed 3; TNamed 1; TOpt (TNamed 2); TNamed 2; rdAdd; TBox (TNamed 1); TNamed 6; TNamed 4;
  TOpt (TNamed 5); TNamed 5; rdMul; TBox (TNamed 4); rdIdent; TTuple [rdOpen; TBox (TNamed 0); rdClose]; rdOpen; TBox (TNamed 0); rdClose].
Lemma rd_written : written true rd_names rd_items rd_env.
Proof.
  split; [apply (bool_decide_unpack _); by vm_compute|]. split; [cbn; lia|].
  repeat constructor; cbn [distinct_names rd_items si_data];
    try (apply (bool_decide_unpack _); by vm_compute); eexists; (split; [reflexivity|by vm_compute]).
Qed.
Lemma rr_written : written true rd_names rr_items rr_env.
Proof.
  split; [apply (bool_decide_unpack _); by vm_compute|]. split; [cbn; lia|].
  repeat constructor; cbn [distinct_names rr_items si_data];
    try (apply (bool_decide_unpack _); by vm_compute); eexists; (split; [reflexivity|by vm_compute]).
Qed.
Lemma rd_accepted : accepted rd_env (TNamed 0) (md_get rd_env (TNamed 0)).
Proof. apply md_get_accepted. by vm_compute. Qed.
Lemma rr_accepted : accepted rr_env (TNamed 0) (md_get rr_env (TNamed 0)).
Proof. apply md_get_accepted. by vm_compute. Qed.
Lemma factor_solid env e t sem : (t, sem) ∈ [(rdIdent, None : option BinNums.N); (TTuple [rdOpen; TBox (TNamed e); rdClose], None)] → ¬ lang env t [].
Proof.
  intros H Hl. apply elem_of_cons in H as [[= -> ->]|H]; [by apply lang_tok in Hl as (x & ? & _)|].
  apply elem_of_list_singleton in H as [= -> ->]. by apply lang_tuple, langs_lit in Hl as (w & ? & _).
Qed.
Ltac rd_enums L := apply (all_within_list _ _ L); [set_solver|];
  repeat (apply Forall_cons; split; [split; [|cbn; repeat (apply Forall_cons; split; [set_solver|]); apply Forall_nil; done]|]); try done.
Lemma rd_plain_enums : plain_enums rd_env (TNamed 0).
Proof. rd_enums rd_types. cbn. intros [t sem] Hv. by eapply factor_solid. Qed.
Lemma rr_plain_enums : plain_enums rr_env (TNamed 0).
Proof. rd_enums rr_types. cbn. intros [t sem] Hv. by eapply factor_solid. Qed.
Lemma lit_solid env n y x : ¬ lang env (TTok n y (Some x)) [].
Proof. by intros ?%lang_lit. Qed.
Lemma rd_regular : regular rd_env (TNamed 0).
Proof.
  apply (regular_interior _ _ _ rd_accepted); [within rd_types|exact rd_plain_enums| |within rd_types|].
  - rd_enums rd_types; apply lit_solid.
  - apply interior_ok. by vm_compute.
Qed.
Lemma rr_regular : regular rr_env (TNamed 0).
Proof.
  apply (regular_follow _ _ _ rr_accepted); [within rr_types|exact rr_plain_enums|within rr_types|within rr_types|].
  apply follow_check; [by vm_compute|within rr_types].
Qed.
Lemma written_unique dbg names items env env' : written dbg names items env → written dbg names items env' → env = env'.
Proof.
  intros (_ & _ & H1) (_ & _ & H2). revert env' H2. induction H1 as [|it d items env (_ & o & Ho & Hd) _ IH]; intros env' H2.
  - by inversion H2.
  - inversion H2 as [|? d' ? env2 (_ & o' & Ho' & Hd') H2']; subst. f_equal; [|by apply IH].
    rewrite Ho in Ho'. injection Ho' as <-. rewrite Hd in Hd'. by injection Hd'.
Qed.
Lemma rd_decides extract env md s : written true rd_names rd_items env → accepted env (TNamed 0) md → state_ok s →
  parsed_whole extract env md (TNamed 0) s ↔ expression (word (p_src s) (to_come extract s)).
Proof.
  intros Hw Ha Hok. rewrite (written_unique _ _ _ _ _ Hw rd_written) in *. rewrite <- rd_expression.
  apply decides; [done|exact rd_regular|within rd_types|within rd_types|done].
Qed.
Lemma rr_decides extract env md s : written true rd_names rr_items env → accepted env (TNamed 0) md → state_ok s →
  parsed_whole extract env md (TNamed 0) s ↔ expression (word (p_src s) (to_come extract s)).
Proof.
  intros Hw Ha Hok. rewrite (written_unique _ _ _ _ _ Hw rr_written) in *. rewrite <- rr_expression.
  apply decides; [done|exact rr_regular|within rr_types|within rr_types|done].
Qed.

(** * They always end *)
Definition aa : tok := (0, "a"%string).
Lemma ident_lang env : lang env rdIdent [aa].
Proof. apply lang_tok. exists aa. split; [done|]. split; [done|by left]. Qed.
Lemma factor_lang env n e : env !! n = Some (DEnum [(rdIdent, None); (TTuple [rdOpen; TBox (TNamed e); rdClose], None)]) →
  lang env (TNamed n) [aa].
Proof. intros En. apply (factor_rule _ _ _ _ En). left. by exists "a"%string. Qed.
Lemma expression_a : expression [aa].
Proof. do 2 constructor. apply f_ident. Qed.
Lemma paren_lang env e w : lang env (TNamed e) w → lang env (TTuple [rdOpen; TBox (TNamed e); rdClose]) ((2, "("%string) :: w ++ [(2, ")"%string)]).
Proof.
  intros H. apply lang_tuple, langs_lit. eexists. split; [done|]. apply langs_cons. exists w, [(2, ")"%string)].
  split; [done|]. split; [by apply (proj2 (lang_box _ _ _))|]. by apply langs_one, lang_lit.
Qed.
Lemma rd_productive : productive rd_env (TNamed 0).
Proof.
  assert (HF : lang rd_env (TNamed 2) [aa]) by (by eapply (factor_lang _ 2 0)).
  assert (HS : lang rd_env (TSplit (TNamed 2) rdMul) [aa]) by (by apply lang_split, j_one).
  assert (HT : lang rd_env (TNamed 1) [aa]) by (by apply (lang_struct rd_env 1 _ _ eq_refl), langs_one).
  assert (HS' : lang rd_env (TSplit (TNamed 1) rdAdd) [aa]) by (by apply lang_split, j_one).
  assert (HE : lang rd_env (TNamed 0) [aa]) by apply rd_expression, expression_a.
  rd_enums rd_types; try (eexists; first [by apply lang_lit|eassumption|apply ident_lang|by apply paren_lang|by apply (proj2 (lang_box _ _ _))]).
Qed.
Lemma rr_productive : productive rr_env (TNamed 0).
Proof.
  assert (HF : lang rr_env (TNamed 6) [aa]) by (by eapply (factor_lang _ 6 0)).
  assert (HT' : lang rr_env (TNamed 4) []) by (by apply (lang_struct rr_env 4 _ _ eq_refl), langs_one, lang_opt; left).
  assert (HE' : lang rr_env (TNamed 1) []) by (by apply (lang_struct rr_env 1 _ _ eq_refl), langs_one, lang_opt; left).
  assert (HT : lang rr_env (TNamed 3) [aa]).
  { apply (lang_struct rr_env 3 _ _ eq_refl), langs_cons. exists [aa], []. split; [done|]. split; [done|by apply langs_one]. }
  assert (HE : lang rr_env (TNamed 0) [aa]) by apply rr_expression, expression_a.
  assert (HP : lang rr_env (TNamed 2) [(1, "+"%string); aa]).
  { apply (lang_struct rr_env 2 _ _ eq_refl), langs_lit. exists [aa]. split; [done|]. apply langs_cons. exists [aa], [].
    split; [done|]. split; [done|]. by apply langs_one, lang_box. }
  assert (HM : lang rr_env (TNamed 5) [(1, "*"%string); aa]).
  { apply (lang_struct rr_env 5 _ _ eq_refl), langs_lit. exists [aa]. split; [done|]. apply langs_cons. exists [aa], [].
    split; [done|]. split; [done|]. by apply langs_one, lang_box. }
  rd_enums rr_types; try (eexists; first [by apply lang_lit|eassumption|apply ident_lang|by apply paren_lang|by apply (proj2 (lang_box _ _ _))|by apply l_none]).
Qed.
Lemma rd_ends extract env items md s : items = rd_items ∨ items = rr_items → written true rd_names items env →
  accepted env (TNamed 0) md → state_ok s →
  ∃ f0 o s', ∀ f, f0 ≤ f → run extract (parse env f (TNamed 0) (inr md)) s = ODone (inr o) s'.
Proof.
  intros [->| ->] Hw Ha Hok.
  - rewrite (written_unique _ _ _ _ _ Hw rd_written) in *.
    apply parse_ends_productive; [done|within rd_types|exact rd_plain_enums|exact rd_productive|done].
  - rewrite (written_unique _ _ _ _ _ Hw rr_written) in *.
    apply parse_ends_productive; [done|within rr_types|exact rr_plain_enums|exact rr_productive|done].
Qed.

(** "(a+b)*(c+d)", the source of the README. *)
Definition rd_raws : list raw :=
  [RTok 2 (Span 0 1); RTok 0 (Span 1 2); RTok 1 (Span 2 3); RTok 0 (Span 3 4); RTok 2 (Span 4 5); RTok 1 (Span 5 6);
   RTok 2 (Span 6 7); RTok 0 (Span 7 8); RTok 1 (Span 8 9); RTok 0 (Span 9 10); RTok 2 (Span 10 11)].
Lemma rd_ex_expression : expression (word "(a+b)*(c+d)" (to_come no_extract (pst_new "(a+b)*(c+d)" rd_raws))).
Proof.
  assert (H : ∀ x y, factor [(2, "("%string); (0, x); (1, "+"%string); (0, y); (2, ")"%string)]).
  { intros x y. apply (f_paren [(0, x); (1, "+"%string); (0, y)]). apply (j_more _ _ [(0, x)] [(0, y)]).
    - apply j_one, f_ident.
    - apply j_one, j_one, f_ident. }
  apply j_one. exact (j_more _ _ _ _ (H "a"%string "b"%string) (j_one _ _ _ (H "c"%string "d"%string))).
Qed.
