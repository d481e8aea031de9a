(** Accepted types: every decision can be made by one token (C95). *)
From Coq Require Import String.
From stdpp Require Import prelude list strings.
From Verif Require Import LexModel SynSetModel TableModel TypeModel TypeSpec ProduceModel CfgSpec ParseSpec LangFacts MdFacts DebugModel RootModel BookSpec.
Local Open Scope nat_scope.

Set Default Proof Using "All".
Section md.
  Variable env : denv.
  Variable root : ty.
  Variable regs iter : grammar prod.
  Variable md : metadata prod.
  Hypothesis Hreg : register_root env (prod_of root) = Some regs.
  Hypothesis Hperm : iter ≡ₚ regs.
  Hypothesis Hmeta : meta_build regs iter (key root) = Some (inr md).
  Notation V t := (visible env (key root) (key t)).
  Notation "'MD' l" := (l env root regs iter md Hreg Hperm Hmeta) (at level 9, l at level 0, only parsing).

  Lemma null_of t : V t → lang env t [] → nullable regs (key t).
  Proof. intros Hv H. by apply (MD nul_lang). Qed.
  Lemma nulls_of ts : (∀ t, t ∈ ts → V t) → Forall (λ t, lang env t []) ts → Forall (nullable regs) (map key ts).
  Proof. intros Hv H. apply Forall_fmap. rewrite Forall_forall in H |- *. intros t Ht. apply null_of; auto. Qed.
  Lemma starts_of t x : V t → begins env t x → starts regs (key t) x.
  Proof. intros Hv [w H]. by apply (MD lang_fst _ _ w). Qed.

  Lemma seq_skip k ts : (k, ESeq (map key ts)) ∈ regs → (∀ t, t ∈ ts → V t) → skip_by_token env ts.
  Proof.
    intros Hin Hv l1 y l2 z l3 -> Hy Hl x Hx Hz.
    rewrite map_app in Hin. cbn [map] in Hin. rewrite map_app in Hin. cbn [map] in Hin.
    apply (MD no_seq_clash _ _ _ _ _ _ x Hin).
    - apply null_of; [apply Hv; set_solver|done].
    - apply nulls_of; [|done]. intros t Ht. apply Hv. set_solver.
    - apply starts_of; [apply Hv; set_solver|done].
    - apply starts_of; [apply Hv; set_solver|done].
  Qed.
  Lemma union_choice k ts : (k, EUnion (map key ts)) ∈ regs → (∀ t, t ∈ ts → V t) → choice_by_token env ts.
  Proof.
    intros Hin Hv i j a b Ha Hb Hij.
    assert (Va : V a) by (apply Hv; by eapply elem_of_list_lookup_2).
    assert (Vb : V b) by (apply Hv; by eapply elem_of_list_lookup_2).
    assert (Hc : ¬ clash regs (key a) (key b)).
    { apply (MD no_clash _ _ i j _ _ Hin); [..|done]; by rewrite list_lookup_fmap, ?Ha, ?Hb. }
    split.
    - intros x Hx Hy. apply Hc. left. exists x. split; by apply starts_of.
    - intros [Hx Hy]. apply Hc. right. split; by apply null_of.
  Qed.
  Lemma decided t : V t → by_token env t.
  Proof.
    assert (nn : ∀ t, V t → ¬ MdFacts.nul regs t → ¬ lang env t []).
    { intros c Hc Hn H. by apply Hn, (MD nul_lang). }
    destruct t as [nm y lit|n|ts|t|t|t|t|t|t|t|t|t d|t d|t r]; cbn [by_token]; intros Hv; try done.
    - destruct (env !! n) as [[fs|vs]|] eqn:En; [| |done].
      + eapply seq_skip; [by apply (MD ent_struct)|]. intros t Ht. by eapply (MD V_named).
      + eapply union_choice; [by apply (MD ent_enum)|]. intros t Ht. by eapply (MD V_named).
    - eapply seq_skip; [by apply (MD ent_tuple)|]. intros t Ht. by eapply (MD V_tuple).
    - apply nn; [by apply (MD V_opt)|]. by apply (MD opt_not_null).
    - apply nn; [by apply (MD V_opt)|]. by apply (MD opt_not_null).
    - apply nn; [by apply (MD V_plus)|]. by apply (MD plus_not_null).
    - apply nn; [by apply (MD V_plus), (MD V_star)|]. by apply (MD star_not_null).
    - apply nn; [by apply (MD V_plus)|]. by apply (MD plus_not_null).
    - destruct (MD V_split _ _ Hv) as (V1&V2&V3&V4&V5).
      assert (Hboth : ¬ (lang env t [] ∧ lang env d [])).
      { intros [H1 H2]. apply (MD split_not_null _ _ Hv). split; by apply (MD nul_lang). }
      split; [|split; [|done]].
      + intros l1 y l2 z l3 E Hy Hl x Hx Hz.
        assert (l1 = [] ∧ y = t ∧ l2 = [] ∧ z = d) as (->&->&->&->).
        { destruct l1 as [|? [|? [|]]], l2 as [|? [|]]; cbn in E; simplify_eq; done. }
        refine (MD no_seq_clash _ [] (key t) [] _ [] x (MD ent_split _ _ Hv) _ _ _ _).
        * by apply null_of.
        * constructor.
        * by apply starts_of.
        * apply (MD fst_star); [done|]. apply (MD fst_tuple); [done|]. left. by apply starts_of.
      + eapply seq_skip; [by apply (MD ent_tuple)|]. intros c Hc. by eapply (MD V_tuple).
    - destruct (MD V_punct _ _ Hv) as (V1&V2&_). destruct (MD punct_not_null _ _ Hv). split; by apply nn.
    - eapply seq_skip; [by apply (MD ent_recover)|]. intros c Hc. by apply (MD V_tuple [t; r]).
  Qed.
End md.

Lemma accepted_by_token env root md : accepted env root md → all_within env (by_token env) root.
Proof.
  intros (regs & iter & Hreg & Hperm & Hmeta) t Ht.
  eapply decided; [done..|]. by eapply V_within.
Qed.

(** * The book's lists *)
Lemma no_opt_opt env root md t : accepted env root md → ¬ within env root (TOpt (TOpt t)).
Proof. intros H Hw. apply (accepted_by_token _ _ _ H _ Hw). apply l_none. Qed.
Lemma no_star_opt env root md t : accepted env root md → ¬ within env root (TStar (TOpt t)).
Proof. intros H Hw. apply (accepted_by_token _ _ _ H _ Hw). apply l_none. Qed.
Lemma no_plus_opt env root md t : accepted env root md → ¬ within env root (TPlus (TOpt t)).
Proof. intros H Hw. apply (accepted_by_token _ _ _ H _ Hw). apply l_none. Qed.
Lemma no_opt_before env root md l1 t l2 : accepted env root md → (∃ w, lang env t w) →
  ¬ within env root (TTuple (l1 ++ TOpt t :: t :: l2)).
Proof.
  intros H [w Hl] Hw. assert (Hwo : within env root (TOpt t)).
  { eapply rtc_r; [exact Hw|]. cbn [subs]. set_solver. }
  assert (Hn := accepted_by_token _ _ _ H _ Hwo). cbn [by_token] in Hn.
  destruct w as [|x w]; [done|].
  apply (accepted_by_token _ _ _ H _ Hw l1 (TOpt t) [] t l2 eq_refl) with x.
  - apply l_none.
  - constructor.
  - exists w. by apply l_some.
  - by exists w.
Qed.

Lemma tested_by_token tn dn ln env root regs iter m : register_root env (prod_of root) = Some regs → iter ≡ₚ regs →
  meta_build regs iter (key root) = Some m → assert_ll1 tn dn ln root m = None → all_within env (by_token env) root.
Proof. intros Hr Hp Hm Ha. destruct m as [e|md]; [done|]. eapply accepted_by_token. by exists regs, iter. Qed.
Lemma tested_accepted tn dn ln env root regs iter m : register_root env (prod_of root) = Some regs → iter ≡ₚ regs →
  meta_build regs iter (key root) = Some m → assert_ll1 tn dn ln root m = None ↔ ∃ md, m = inr md ∧ accepted env root md.
Proof.
  intros Hr Hp Hm. split.
  - intros Ha. destruct m as [e|md]; [done|]. exists md. split; [done|]. by exists regs, iter.
  - by intros (md & -> & _).
Qed.
