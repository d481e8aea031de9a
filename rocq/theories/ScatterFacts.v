(** [tp::Loop] finds the items scattered over a source. *)
From Coq Require Import String NArith.
From stdpp Require Import prelude list strings relations.
From Verif Require Import LexModel LexSpec SynSetModel TableModel StreamModel StreamSpec StreamFacts TypeModel TypeSpec TypeFacts CfgSpec CfgFacts
  MetaFacts ProduceModel ParseSpec ProgFacts FuelFacts TreeFacts SoundFacts LangFacts RunFacts MdFacts ParseFacts TermFacts CompleteSpec CompleteFacts
  NextSpec NextFacts LoopSpec LoopFacts LinearFacts EndFacts ScatterSpec.
Local Open Scope nat_scope.

Section scatter.
  Context (extract : nat → bool) (env : denv) (root t : ty) (regs : grammar prod) (md : metadata prod).
  Context (Hacc : accepted env root md) (Hreg : regular env root) (Hprod : productive env root)
    (Hrs : register_root env (prod_of root) = Some regs)
    (Hw : within env root (TLoop t)) (Hnl : no_loop env t) (Hpl : no_punct_end env root t).
  Notation can := (starts regs (key t)).

  Lemma Hwt : within env root t.
  Proof using Hw. eapply rtc_r; [exact Hw|]. cbn. by left. Qed.
  Lemma can_lang x : can x ↔ ∃ w, lang env t (x :: w).
  Proof using All.
    destruct Hacc as (regs' & iter & Hr & Hperm & Hmeta). assert (regs' = regs) as -> by congruence.
    assert (Hv := V_within env root regs iter md Hr Hperm Hmeta _ Hwt). split.
    - intros [β Hβ]. destruct (form_word env root regs iter md Hr Hperm Hmeta Hprod β) as [w Hw'].
      { intros j Hj. eapply (form_vis env root regs iter md Hr Hperm Hmeta); [exact Hβ| |set_solver].
        intros i Hi%elem_of_list_singleton. by injection Hi as ->. }
      exists w. apply (md_lang env root regs iter md Hr Hperm Hmeta); [done|]. etrans; [exact Hβ|].
      cbn [map]. by apply (derives_app_l regs β (map T w) [T x]).
    - intros [w Hl]. by eapply (lang_fst env root regs iter md Hr Hperm Hmeta).
  Qed.
  Lemma item_run f s1 r s2 i l : aok (abs extract s1) → run extract (produce_md env md f t) s1 = ODone r s2 →
    to_come extract s1 = i ++ l → lang env t (word (p_src s1) i) →
    (∀ y, head (word (p_src s1) l) = Some y → ends_before env t y) →
    ∃ x, r = RSucc x ∧ took extract s1 i s2 ∧ parses env (p_src s1) (end_of (p_tokens s1)) t i x.
  Proof using All.
    intros Hok Hrun Eto Hl He.
    assert (Hsp := Hok). apply aok_pos in Hsp as [Hsp _].
    change (a_rest (abs extract s1)) with (to_come extract s1) in Hsp. rewrite Eto in Hsp. apply spans_ok_pos in Hsp as [Hsp _].
    destruct (lang_parses env (p_src s1) t _ Hl (end_of (p_tokens s1)) i) as [x Hx]; [|done|exact Hsp|].
    { intros c Hc. apply (reg_filled _ _ Hreg). eapply rtc_transitive; [exact Hwt|done]. }
    destruct (before_term env root md t (abs extract s1) i l x Hacc Hreg Hprod Hwt Hnl Hpl Hok Eto He Hx) as (f0 & o & Ho & Hq).
    assert (Ha := run_abs extract (produce_md env md f t) s1). rewrite Hrun in Ha. cbn [abs_out] in Ha.
    assert (E : arun (produce_md env md (Nat.max f f0) t) (abs extract s1) = ODone r (abs extract s2)).
    { rewrite Ha. apply le_arun; [apply produce_le; lia|]. by rewrite <- Ha. }
    rewrite Ho in E by lia. subst o. destruct Hq as [-> Hq]. exists x. split; [done|]. split; [by apply took_adv|done].
  Qed.

  Lemma gap_prefix (g l u v : list token) src : g ++ u = l ++ v → Forall (λ x, ¬ can x) (word src g) → Forall (λ x, ¬ can x) (word src l) →
    (∀ x, head (word src u) = Some x → can x) → (∀ x, head (word src v) = Some x → can x) → g = l ∧ u = v.
  Proof using.
    revert l. induction g as [|a g IH]; intros [|b l] E Hg Hl Hu Hv; cbn in *.
    - done.
    - subst u. apply Forall_cons in Hl as [H _]. destruct H. by apply Hu.
    - subst v. apply Forall_cons in Hg as [H _]. destruct H. by apply Hv.
    - injection E as <- E. apply Forall_cons in Hg as [_ Hg]. apply Forall_cons in Hl as [_ Hl].
      destruct (IH l E Hg Hl Hu Hv) as [-> ->]. done.
  Qed.
  Lemma no_can src g : Forall (λ y, ∀ w, ¬ lang env t (y :: w)) (word src g) → Forall (λ x, ¬ can x) (word src g).
  Proof using All. intros H. eapply Forall_impl; [exact H|]. cbn. intros y Hy [w Hw']%can_lang. by apply (Hy w). Qed.
  Lemma item_starts src l its gs x : scattered_item env t src l its gs → head (word src l) = Some x → can x.
  Proof using All.
    intros [i l' its' gs' Hne Hlang _ _] Hh. apply can_lang. destruct i as [|a i]; [done|].
    cbn in Hh. injection Hh as <-. eauto.
  Qed.
  Lemma next_item src L its gs x : scattered env t src L its gs → head (word src L) = Some x → can x → scattered_item env t src L its gs.
  Proof using All.
    intros Hsc Hx Hc. destruct Hsc as [|g Hg Hgf|g i l0 its0 gs0 Hg Hgf Hit|L its0 gs0 Hit]; [done| | |done]; exfalso.
    - apply no_can in Hgf. destruct g; [done|]. cbn in Hx. injection Hx as <-. by apply Forall_cons in Hgf as [? _].
    - apply no_can in Hgf. destruct g; [done|]. cbn in Hx. injection Hx as <-. by apply Forall_cons in Hgf as [? _].
  Qed.
  Lemma took_gap s l s1 : took extract s l s1 → l ++ to_come extract s1 = to_come extract s.
  Proof using. by intros (_ & _ & ->). Qed.

  Lemma scattered_loops f s xs es s' its gs : aok (abs extract s) →
    loops extract can (λ s r s', run extract (produce_md env md f t) s = ODone r s') s xs es s' →
    scattered env t (p_src s) (to_come extract s) its gs →
    Forall2 (λ i x, ∃ p, parses env (p_src s) p t i x) its xs ∧
    Forall2 (λ g e, cover g = Some (e_span e) ∧ e_kind e = UnexpectedTokens) gs es.
  Proof using All.
    intros Hok H. revert its gs Hok.
    induction H as [s s' T E|s l sp s1 xs es s' T Hf Hn Hc _ IH|s s1 x r s2 xs es s' T Hn Hx Hi Hm _ IH|s s1 x r s2 sp s' T Hn Hx Hi Hm T'];
      intros its gs Hok Hsc.
    - assert (E0 : to_come extract s = []) by (by rewrite <- (took_gap _ _ _ T), E).
      remember (to_come extract s) as L eqn:EL. destruct Hsc as [|g Hg _|g i l0 its0 gs0 Hg _ _|L its0 gs0 Hit]; [by split; constructor|done| |].
      + by apply app_eq_nil in E0 as [-> _].
      + destruct Hit as [i l0 its0 gs0 Hg _ _ _]. by apply app_eq_nil in E0 as [-> _].
    - assert (Esrc : p_src s1 = p_src s) by apply T. assert (Eto := took_gap _ _ _ T).
      assert (Hok1 : aok (abs extract s1)) by (eapply adv_aok; [by apply took_adv|done]).
      assert (Hl : l ≠ []) by (by intros ->).
      assert (Hv : ∀ x, head (word (p_src s) (to_come extract s1)) = Some x → can x).
      { intros x Hx. apply Hn. unfold next_tok. by rewrite Esrc. }
      remember (to_come extract s) as L eqn:EL. destruct Hsc as [|g Hg Hgf|g i l0 its0 gs0 Hg Hgf Hit|L its0 gs0 Hit].
      + by destruct l.
      + assert (Hp : g = l ∧ [] = to_come extract s1).
        { apply (gap_prefix _ _ _ _ (p_src s)); [by rewrite Eto, app_nil_r|by apply no_can|done..]. }
        destruct Hp as [<- Et]. destruct (IH [] []) as [H1 H2]; [done|rewrite <- Et; constructor|]. rewrite Esrc in H1. split; [exact H1|].
        constructor; [|done]. cbn. done.
      + destruct (gap_prefix _ _ _ _ (p_src s) (eq_sym Eto) (no_can _ _ Hgf) Hf) as [-> Et]; [intros x; by eapply item_starts|done|].
        destruct (IH (i :: its0) gs0) as [H1 H2]; [done|rewrite <- Et, Esrc; by apply sc_item|]. rewrite Esrc in H1. split; [exact H1|].
        constructor; [|done]. done.
      + exfalso. destruct l as [|a l]; [done|]. cbn in Hf. apply Forall_cons in Hf as [Ha _]. apply Ha.
        eapply item_starts; [exact Hit|by rewrite <- Eto].
    - assert (Esrc : p_src s1 = p_src s) by apply T. assert (Eto := took_gap _ _ _ T). cbn in Eto.
      assert (Hok1 : aok (abs extract s1)) by (eapply adv_aok; [by apply took_adv|done]).
      assert (Hx1 : head (word (p_src s) (to_come extract s)) = Some x) by (unfold next_tok in Hn; by rewrite Esrc, Eto in Hn).
      assert (Hit : scattered_item env t (p_src s) (to_come extract s) its gs).
      { by apply (next_item _ _ _ _ x). }
      remember (to_come extract s) as L eqn:EL. destruct Hit as [i l its0 gs0 Hne Hlang He Hrest].
      destruct (item_run f s1 r s2 i l) as (y & -> & T2 & Hy); [done..|by rewrite Eto|by rewrite Esrc|by rewrite Esrc|].
      assert (Esrc2 : p_src s2 = p_src s) by (rewrite <- Esrc; apply T2).
      assert (Eto2 : to_come extract s2 = l).
      { assert (E2 := took_gap _ _ _ T2). rewrite Eto in E2. by apply app_inv_head in E2. }
      destruct (IH its0 gs0) as [H1 H2]; [eapply adv_aok; [by apply took_adv|done]|by rewrite Esrc2, Eto2|].
      rewrite Esrc2 in H1. rewrite Esrc in Hy. split; [constructor; [by eexists|done]|done].
    - exfalso. assert (Esrc : p_src s1 = p_src s) by apply T. assert (Eto := took_gap _ _ _ T). cbn in Eto.
      assert (Hok1 : aok (abs extract s1)) by (eapply adv_aok; [by apply took_adv|done]).
      assert (Hx1 : head (word (p_src s) (to_come extract s)) = Some x) by (unfold next_tok in Hn; by rewrite Esrc, Eto in Hn).
      assert (Hit : scattered_item env t (p_src s) (to_come extract s) its gs).
      { by apply (next_item _ _ _ _ x). }
      remember (to_come extract s) as L eqn:EL. destruct Hit as [i l its0 gs0 Hne Hlang He Hrest].
      destruct (item_run f s1 r s2 i l) as (y & -> & T2 & Hy); [done..|by rewrite Eto|by rewrite Esrc|by rewrite Esrc|].
      assert (E1 := took_gap _ _ _ Hm). assert (E2 := took_gap _ _ _ T2). cbn in E1. rewrite <- E1 in E2.
      apply (f_equal length) in E2. rewrite app_length in E2. destruct i; [done|]. cbn in E2. lia.
  Qed.
End scatter.
Lemma loop_finds extract env t md s its gs :
  accepted env (TLoop t) md → regular env (TLoop t) → productive env (TLoop t) → no_punct_end env (TLoop t) t →
  state_ok s → scattered env t (p_src s) (to_come extract s) its gs →
  ∃ f0 sp xs es bad s', (∀ f, f0 ≤ f → run extract (parse env f (TLoop t) (inr md)) s = ODone (inr (Some (TrList sp xs))) s') ∧
    to_come extract s' = [] ∧ Forall2 (λ i x, ∃ p, parses env (p_src s) p t i x) its xs ∧
    Forall2 (λ g e, cover g = Some (e_span e) ∧ e_kind e = UnexpectedTokens) gs es ∧
    p_invalid s' = p_invalid s ++ bad ∧ p_errors s' = p_errors s ++ map (λ sp, PErr sp UnexpectedCharacters) bad ++ es.
Proof.
  intros Hacc Hreg Hprod Hpl Hok Hsc.
  destruct (produce_ends_productive extract env (TLoop t) md (TLoop t) s Hacc (reg_filled _ _ Hreg) (reg_enums _ _ Hreg) Hprod) as (f0 & r & s1 & Hrun); [constructor|done|].
  assert (Hacc' := Hacc). destruct Hacc' as (regs & iter & Hr & Hperm & Hmeta).
  assert (H1 := Hrun (S f0) (le_S _ _ (le_n _))).
  destruct (loop_accepted extract env (TLoop t) md regs f0 t s r s1 Hacc Hr (reg_enums _ _ Hreg)) as (Hend & _ & sp & xs & Hv & Hl); [constructor|done|done|].
  assert (Hnl : no_loop env t) by exact (reg_loop _ _ Hreg).
  destruct (scattered_loops extract env (TLoop t) t regs md Hacc Hreg Hprod Hr (rtc_refl _ _) Hnl Hpl f0 s xs (errors_of r) s1 its gs) as [Hx He];
    [by apply state_ok_abs|done|done|].
  destruct (produce_run_errors _ _ _ _ _ _ _ _ _ _ H1) as (bad & Hb1 & Hb2).
  set (s2 := Pst (p_src s1) (p_evs s1) (p_peeked s1) (p_invalid s1) (p_tokens s1) (p_extracted s1) (p_errors s1 ++ errors_of r)).
  exists f0, sp, xs, (errors_of r), bad, s2. split_and!; [|done|done|done|done|cbn; by rewrite Hb2, <- app_assoc].
  intros f Hf. specialize (Hrun f Hf). unfold parse, parse_with. rewrite !run_bind. unfold produce_md in Hrun. rewrite Hrun.
  unfold value, errors_of in *. subst s2. destruct r as [x|x es|es]; cbn in *; [|by injection Hv as ->|done].
  injection Hv as ->. rewrite app_nil_r. by destruct s1.
Qed.
