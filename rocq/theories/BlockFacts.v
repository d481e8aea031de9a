(** Lists of statements inside a source. *)
From Coq Require Import String NArith.
From stdpp Require Import prelude list strings relations.
From Verif Require Import LexModel LexSpec LexFacts SynSetModel TableModel StreamModel StreamSpec StreamFacts TypeModel TypeSpec TypeFacts CfgSpec CfgFacts FollowFacts
  MetaFacts ProduceModel ParseSpec ProgFacts FuelFacts TreeFacts SoundFacts LangFacts RunFacts InvFacts LookFacts MdFacts ParseFacts TermFacts CompleteSpec CompleteFacts
  NextFacts SynSetFacts LeafSpec LoopSpec LoopFacts LinearFacts EarlyFacts OffendFacts ReportFacts EndFacts ScatterFacts BrokenFacts StmtSpec StmtFacts BlockSpec.
Local Open Scope nat_scope.
#[local] Arguments ts_contains : simpl never.
#[local] Arguments ts_contains_e : simpl never.

Section block.
  Context (env : denv) (root t : ty) (dn dy : nat) (dlit : option string) (regs iter : grammar prod) (md : metadata prod).
  Context (Hr : register_root env (prod_of root) = Some regs) (Hperm : iter ≡ₚ regs) (Hmeta : meta_build regs iter (key root) = Some (inr md)).
  Context (Hreg : regular env root) (Hprod : productive env root) (src : string).
  Notation d := (TTok dn dy dlit).
  Notation C := (TRecover t d).
  Notation F := (tb_get (md_first md)).
  Notation rec f := (produce_md env md f).
  Notation "'MD' l" := (l env root regs iter md Hr Hperm Hmeta) (at level 9, l at level 0, only parsing).
  Notation "'ST' l" := (l env root t dn dy dlit regs iter md Hr Hperm Hmeta Hreg Hprod src) (at level 9, l at level 0, only parsing).
  Context (Hw : within env root C) (Hns : keeps_end env regs root t d) (Hap : apart env t d).
  Notation block := (block env t d src).
  Notation results := (Forall2 (seg_result env t src)).
  Context (Hv : visible env (key root) (key (TPlus C))).

  Lemma plus_begins y : ts_contains (F (key (TPlus C))) (Some y) = true ↔ begins_stmt env t d y.
  Proof using Hr Hperm Hmeta Hreg Hprod Hw Hv.
    etrans; [apply (MD first_spec)|]. etrans; [exact (MD fst_plus C y Hv)|].
    by apply (starts_lang env root regs iter md Hr Hperm Hmeta Hreg Hprod).
  Qed.
  Lemma block_begin l gs u : block l gs u → gs ≠ [] → opens env t d src l.
  Proof using.
    intros [v H|c k v r w (y & Hy & Hb) _ _ _|c H _] Hg; [done| |done]. exists y. split; [|done]. by destruct c.
  Qed.
  Lemma iter_block f n l gs u acc errs hi s : block l gs u → aok s → a_src s = src → a_rest s = l →
    W (iter_loop n (rec f C) (F (key (TPlus C))) acc errs hi) s (λ '(xs, es, _) s', ∃ rs l0, xs = acc ++ omap fst rs ∧
      es = errs ++ concat (map snd rs) ∧ results gs rs ∧ l = l0 ++ u ∧ adv s l0 s').
  Proof using All.
    intros Hb. revert n acc errs hi s. induction Hb as [u Hno|c k l r u Ho Hc Hk Hb IH|c Ho Hc]; intros n acc errs hi s Hok Esrc Er;
      (destruct n as [|n]; [done|]); cbn [iter_loop]; (apply wp_bind, wp_peek_src; [done|]); rewrite look_nxt, Esrc, Er; unfold nxt.
    - assert (Hend : ∃ rs l0, acc = acc ++ omap fst rs ∧ errs = errs ++ concat (map snd rs) ∧ results [] rs ∧ u = l0 ++ u ∧ adv s l0 s).
      { exists [], []. split_and!; [by rewrite app_nil_r|by rewrite app_nil_r|constructor|done|apply adv_refl]. }
      destruct (head (word src u)) as [y|] eqn:Ey; [|by apply wp_ret].
      assert (E : ts_contains (F (key (TPlus C))) (Some y) = false).
      { apply not_true_iff_false. intros H%plus_begins. apply Hno. by exists y. }
      rewrite E. by apply wp_ret.
    - destruct Ho as (y & Ey & Hy). assert (Ey' : head (word src (c ++ k :: l)) = Some y) by (by destruct c).
      rewrite Ey'. assert (E : ts_contains (F (key (TPlus C))) (Some y) = true) by (by apply plus_begins). rewrite E.
      apply wp_bind. eapply wp_call; [apply (ST recover_stmt Hw Hns Hap f s c k l); try done; by constructor|done|].
      intros q s1 l1 _ Hok1 (x & es & -> & Hres & Ha). rewrite unres_into.
      assert (Er' : a_rest s = (c ++ [k]) ++ l) by (by rewrite <- app_assoc).
      destruct (then_at src s (c ++ [k]) s1 l Hok Esrc Er' Ha) as (_ & Esrc1 & Er1 & _).
      eapply wp_mono; [by apply IH|]. intros [[xs es'] h] s2 (rs & l0 & -> & -> & Hrs & E2 & Ha2). 
      exists ((Some x, es) :: rs), ((c ++ [k]) ++ l0). cbn [omap list_omap fst snd map concat]. split_and!.
      + by rewrite <- app_assoc.
      + by rewrite <- app_assoc.
      + constructor; [by exists x|done].
      + rewrite E2. by rewrite <- !app_assoc.
      + by eapply adv_trans.
    - destruct Ho as (y & Ey & Hy). rewrite Ey. assert (E : ts_contains (F (key (TPlus C))) (Some y) = true) by (by apply plus_begins). rewrite E.
      apply wp_bind. eapply wp_call; [by apply (ST recover_open Hw Hns Hap f s c)|done|].
      intros q s1 l1 _ Hok1 (es & -> & H1 & H2 & Ha). cbn [unres]. apply wp_ret. exists [(None, es)], c.
      cbn [omap list_omap fst snd map concat]. split_and!; [by rewrite app_nil_r|by rewrite app_nil_r| |by rewrite app_nil_r|done].
      constructor; [done|constructor].
  Qed.
  Lemma plus_block f n s c k l gs u : aok s → a_src s = src → a_rest s = c ++ k :: l → Forall (λ y, ¬ lang env d [y]) (word src c) → lang env d (word src [k]) →
    block l gs u →
    W (produce_plus n (rec f C) (F (key (TPlus C)))) s (λ q s', ∃ sp rs l0, q = res_into (sp, omap fst rs) (concat (map snd rs)) ∧
      results (Stmt c k :: gs) rs ∧ c ++ k :: l = l0 ++ u ∧ adv s l0 s').
  Proof using All.
    intros Hok Esrc Er Hc Hk Hb. unfold produce_plus. apply wp_bind.
    eapply wp_call; [apply (ST recover_stmt Hw Hns Hap f s c k l); try done; by constructor|done|].
    intros q s1 l1 _ Hok1 (x & es & -> & Hres & Ha). rewrite unres_into.
    assert (Er' : a_rest s = (c ++ [k]) ++ l) by (by rewrite <- app_assoc).
    destruct (then_at src s (c ++ [k]) s1 l Hok Esrc Er' Ha) as (_ & Esrc1 & Er1 & _).
    apply wp_bind. eapply wp_mono; [by apply (iter_block f n l gs u [x] es (tree_hi x) s1)|].
    intros [[xs es'] h] s2 (rs & l0 & -> & -> & Hrs & E2 & Ha2). apply wp_ret.
    exists (Span (tree_lo x) h), ((Some x, es) :: rs), ((c ++ [k]) ++ l0). cbn [omap list_omap fst snd map concat app]. split_and!.
    - done.
    - constructor; [by exists x|done].
    - rewrite E2. by rewrite <- !app_assoc.
    - by eapply adv_trans.
  Qed.
  Lemma plus_open f n s c : aok s → a_src s = src → a_rest s = c → Forall (λ y, ¬ lang env d [y]) (word src c) →
    W (produce_plus n (rec f C) (F (key (TPlus C)))) s (λ q s', ∃ es, q = RPanic es ∧ seg_result env t src (Open c) (None, es) ∧ adv s c s').
  Proof using All.
    intros Hok Esrc Er Hc. unfold produce_plus. apply wp_bind. eapply wp_call; [by apply (ST recover_open Hw Hns Hap f s c)|done|].
    intros q s1 l1 _ Hok1 (es & -> & H1 & H2 & Ha). cbn [unres]. apply wp_ret. by exists es.
  Qed.
  Lemma star_block f s l gs u : aok s → a_src s = src → a_rest s = l → block l gs u →
    W (rec f (TStar C)) s (λ q s', ∃ sp rs l0, value q = Some (TrList sp (omap fst rs)) ∧ errors_of q = concat (map snd rs) ∧
      results gs rs ∧ l = l0 ++ u ∧ adv s l0 s').
  Proof using All.
    intros Hok Esrc Er Hb. destruct f as [|f]; [done|]. unfold produce_md. cbn [ProduceModel.produce].
    change (ProduceModel.produce env (tb_get (md_first md)) (tb_get (md_follow md)) (jump_look_up (md_jump md)) f C) with (rec f C).
    apply wp_bind. unfold produce_option. apply wp_bind, wp_peek_src; [done|]. rewrite look_nxt, Esrc, Er. unfold nxt.
    destruct Hb as [u Hno|c k l r u Ho Hc Hk Hb|c Ho Hc].
    - assert (Hend : W (e ← empty_span; mret (RSucc (e, @None (span * list tree)))) s (λ x s', W (mret (res_map (λ '(sp, o),
          match o with Some (sp', l) => TrList sp' l | None => TrList sp [] end) x)) s' (λ q s', ∃ sp rs l0, value q = Some (TrList sp (omap fst rs)) ∧
          errors_of q = concat (map snd rs) ∧ results [] rs ∧ u = l0 ++ u ∧ adv s l0 s'))).
      { apply wp_bind, wp_empty_span, wp_ret, wp_ret. eexists _, [], []. split_and!; [done|done|constructor|done|apply adv_refl]. }
      destruct (head (word src u)) as [y|] eqn:Ey; [|done].
      assert (E : ts_contains (F (key (TPlus C))) (Some y) = false).
      { apply not_true_iff_false. intros H%plus_begins. apply Hno. by exists y. }
      by rewrite E.
    - destruct Ho as (y & Ey & Hy). assert (Ey' : head (word src (c ++ k :: l)) = Some y) by (by destruct c).
      rewrite Ey'. assert (E : ts_contains (F (key (TPlus C))) (Some y) = true) by (by apply plus_begins). rewrite E.
      apply wp_bind. eapply wp_mono; [by apply (plus_block f f s c k l r u)|]. intros q s1 (sp & rs & l0 & -> & Hrs & El & Ha).
      unfold res_into. destruct (concat (map snd rs)) as [|e es] eqn:Ee; apply wp_ret, wp_ret; exists sp, rs, l0; cbn; by rewrite ?Ee.
    - destruct Ho as (y & Ey & Hy). rewrite Ey. assert (E : ts_contains (F (key (TPlus C))) (Some y) = true) by (by apply plus_begins). rewrite E.
      apply wp_bind. eapply wp_mono; [by apply (plus_open f f s c)|]. intros q s1 (es & -> & Hres & Ha).
      apply wp_bind, wp_empty_span, wp_ret, wp_ret. eexists _, [(None, es)], c. cbn [omap list_omap fst snd map concat]. rewrite !app_nil_r.
      split_and!; [done|done|by constructor; [|constructor]|done|done].
  Qed.
  Lemma plus_block_tree f s c k l gs u : aok s → a_src s = src → a_rest s = c ++ k :: l → Forall (λ y, ¬ lang env d [y]) (word src c) → lang env d (word src [k]) →
    block l gs u →
    W (rec f (TPlus C)) s (λ q s', ∃ sp rs l0, value q = Some (TrList sp (omap fst rs)) ∧ errors_of q = concat (map snd rs) ∧
      results (Stmt c k :: gs) rs ∧ c ++ k :: l = l0 ++ u ∧ adv s l0 s').
  Proof using All.
    intros Hok Esrc Er Hc Hk Hb. destruct f as [|f]; [done|]. unfold produce_md. cbn [ProduceModel.produce].
    change (ProduceModel.produce env (tb_get (md_first md)) (tb_get (md_follow md)) (jump_look_up (md_jump md)) f C) with (rec f C).
    apply wp_bind. eapply wp_mono; [by apply (plus_block f f s c k l gs u)|]. intros q s1 (sp & rs & l0 & -> & Hrs & El & Ha).
    apply wp_ret. exists sp, rs, l0. unfold res_into. destruct (concat (map snd rs)) as [|e es] eqn:Ee; cbn; by rewrite ?Ee.
  Qed.
  Lemma plus_open_tree f s c : aok s → a_src s = src → a_rest s = c → Forall (λ y, ¬ lang env d [y]) (word src c) →
    W (rec f (TPlus C)) s (λ q s', ∃ es, q = RPanic es ∧ seg_result env t src (Open c) (None, es) ∧ adv s c s').
  Proof using All.
    intros Hok Esrc Er Hc. destruct f as [|f]; [done|]. unfold produce_md. cbn [ProduceModel.produce].
    change (ProduceModel.produce env (tb_get (md_first md)) (tb_get (md_follow md)) (jump_look_up (md_jump md)) f C) with (rec f C).
    apply wp_bind. eapply wp_mono; [by apply (plus_open f f s c)|]. intros q s1 (es & -> & Hres & Ha). apply wp_ret. by exists es.
  Qed.
End block.

Lemma star_found extract env root md regs t dn dy dlit s gs u :
  accepted env root md → regular env root → productive env root → within env root (TStar (TRecover t (TTok dn dy dlit))) →
  register_root env (prod_of root) = Some regs → keeps_end env regs root t (TTok dn dy dlit) → apart env t (TTok dn dy dlit) → state_ok s →
  block env t (TTok dn dy dlit) (p_src s) (to_come extract s) gs u →
  ∃ f0 r sp rs s', (∀ f, f0 ≤ f → run extract (produce_md env md f (TStar (TRecover t (TTok dn dy dlit)))) s = ODone r s') ∧
    value r = Some (TrList sp (omap fst rs)) ∧ errors_of r = concat (map snd rs) ∧ Forall2 (seg_result env t (p_src s)) gs rs ∧
    to_come extract s' = u ∧ only_bad_text s s'.
Proof.
  intros Hacc Hreg Hprod Hw Hr Hns Hap Hok Hb.
  destruct (produce_ends_productive extract env root md _ s Hacc (reg_filled _ _ Hreg) (reg_enums _ _ Hreg) Hprod Hw Hok) as (f0 & r & s1 & Hrun).
  assert (H1 := Hrun f0 (le_n _)). destruct Hacc as (regs' & iter & Hr' & Hperm & Hmeta). assert (regs' = regs) as -> by congruence.
  assert (Hw' : within env root (TRecover t (TTok dn dy dlit))) by (eapply rtc_r; [exact Hw|]; cbn; by left).
  assert (Hv := V_star env root regs iter md Hr Hperm Hmeta _ (V_within env root regs iter md Hr Hperm Hmeta _ Hw)).
  assert (H := star_block env root t dn dy dlit regs iter md Hr Hperm Hmeta Hreg Hprod (p_src s) Hw' Hns Hap Hv f0 (abs extract s) _ gs u
    (state_ok_abs extract _ Hok) eq_refl eq_refl Hb).
  destruct (run_wp extract _ _ _ _ _ _ _ H H1) as (sp & rs & l0 & E1 & E2 & Hrs & El & Ha).
  exists f0, r, sp, rs, s1. split_and!; [done..| |by eapply produce_run_errors].
  apply took_adv in Ha. assert (Eto := took_gap extract _ _ _ Ha). change (a_rest (abs extract s)) with (to_come extract s) in El. rewrite El in Eto. by apply app_inv_head in Eto.
Qed.
Lemma plus_found extract env root md regs t dn dy dlit s c k l gs u :
  accepted env root md → regular env root → productive env root → within env root (TPlus (TRecover t (TTok dn dy dlit))) →
  register_root env (prod_of root) = Some regs → keeps_end env regs root t (TTok dn dy dlit) → apart env t (TTok dn dy dlit) → state_ok s →
  to_come extract s = c ++ k :: l → Forall (λ y, ¬ lang env (TTok dn dy dlit) [y]) (word (p_src s) c) → lang env (TTok dn dy dlit) (word (p_src s) [k]) →
  block env t (TTok dn dy dlit) (p_src s) l gs u →
  ∃ f0 r sp rs s', (∀ f, f0 ≤ f → run extract (produce_md env md f (TPlus (TRecover t (TTok dn dy dlit)))) s = ODone r s') ∧
    value r = Some (TrList sp (omap fst rs)) ∧ errors_of r = concat (map snd rs) ∧ Forall2 (seg_result env t (p_src s)) (Stmt c k :: gs) rs ∧
    to_come extract s' = u ∧ only_bad_text s s'.
Proof.
  intros Hacc Hreg Hprod Hw Hr Hns Hap Hok Eto0 Hc Hk Hb.
  destruct (produce_ends_productive extract env root md _ s Hacc (reg_filled _ _ Hreg) (reg_enums _ _ Hreg) Hprod Hw Hok) as (f0 & r & s1 & Hrun).
  assert (H1 := Hrun f0 (le_n _)). destruct Hacc as (regs' & iter & Hr' & Hperm & Hmeta). assert (regs' = regs) as -> by congruence.
  assert (Hw' : within env root (TRecover t (TTok dn dy dlit))) by (eapply rtc_r; [exact Hw|]; cbn; by left).
  assert (Hv := V_within env root regs iter md Hr Hperm Hmeta _ Hw).
  assert (H := plus_block_tree env root t dn dy dlit regs iter md Hr Hperm Hmeta Hreg Hprod (p_src s) Hw' Hns Hap Hv f0 (abs extract s) c k l gs u
    (state_ok_abs extract _ Hok) eq_refl Eto0 Hc Hk Hb).
  destruct (run_wp extract _ _ _ _ _ _ _ H H1) as (sp & rs & l0 & E1 & E2 & Hrs & El & Ha).
  exists f0, r, sp, rs, s1. split_and!; [done..| |by eapply produce_run_errors].
  apply took_adv in Ha. assert (Eto := took_gap extract _ _ _ Ha). rewrite Eto0, El in Eto. by apply app_inv_head in Eto.
Qed.
Lemma plus_not_found extract env root md regs t dn dy dlit s :
  accepted env root md → regular env root → productive env root → within env root (TPlus (TRecover t (TTok dn dy dlit))) →
  register_root env (prod_of root) = Some regs → keeps_end env regs root t (TTok dn dy dlit) → apart env t (TTok dn dy dlit) → state_ok s →
  Forall (λ y, ¬ lang env (TTok dn dy dlit) [y]) (word (p_src s) (to_come extract s)) →
  ∃ f0 es s', (∀ f, f0 ≤ f → run extract (produce_md env md f (TPlus (TRecover t (TTok dn dy dlit)))) s = ODone (RPanic es) s') ∧
    seg_result env t (p_src s) (Open (to_come extract s)) (None, es) ∧ to_come extract s' = [] ∧ only_bad_text s s'.
Proof.
  intros Hacc Hreg Hprod Hw Hr Hns Hap Hok Hc.
  destruct (produce_ends_productive extract env root md _ s Hacc (reg_filled _ _ Hreg) (reg_enums _ _ Hreg) Hprod Hw Hok) as (f0 & r & s1 & Hrun).
  assert (H1 := Hrun f0 (le_n _)). destruct Hacc as (regs' & iter & Hr' & Hperm & Hmeta). assert (regs' = regs) as -> by congruence.
  assert (Hw' : within env root (TRecover t (TTok dn dy dlit))) by (eapply rtc_r; [exact Hw|]; cbn; by left).
  assert (Hv := V_within env root regs iter md Hr Hperm Hmeta _ Hw).
  assert (H := plus_open_tree env root t dn dy dlit regs iter md Hr Hperm Hmeta Hreg Hprod (p_src s) Hw' Hns Hap Hv f0 (abs extract s) (to_come extract s)
    (state_ok_abs extract _ Hok) eq_refl eq_refl Hc).
  destruct (run_wp extract _ _ _ _ _ _ _ H H1) as (es & -> & Hres & Ha).
  exists f0, es, s1. split_and!; [done..| |by eapply produce_run_errors].
  apply took_adv in Ha. assert (Eto := took_gap extract _ _ _ Ha). rewrite <- (app_nil_r (to_come extract s)) in Eto at 2. by apply app_inv_head in Eto.
Qed.
Lemma block_divided env root md t dn dy dlit src l :
  accepted env root md → regular env root → productive env root → within env root (TRecover t (TTok dn dy dlit)) →
  ∃ gs u, block env t (TTok dn dy dlit) src l gs u.
Proof.
  intros (regs & iter & Hr & Hperm & Hmeta) Hreg Hprod Hw.
  assert (Hdb : ∀ l, Decision (opens env t (TTok dn dy dlit) src l)).
  { intros l0. destruct (head (word src l0)) as [y|] eqn:Ey; [|right; intros (? & ? & _); congruence].
    destruct (ts_contains (tb_get (md_first md) (key (TRecover t (TTok dn dy dlit)))) (Some y)) eqn:E.
    - left. exists y. split; [done|]. by apply (begins env root regs iter md Hr Hperm Hmeta Hreg Hprod) in E.
    - right. apply not_true_iff_false in E. intros (z & Ez & H). assert (z = y) as -> by congruence. apply E.
      by apply (begins env root regs iter md Hr Hperm Hmeta Hreg Hprod _ y Hw). }
  assert (Hdd : ∀ y, Decision (lang env (TTok dn dy dlit) [y])).
  { intros y. destruct (decide (y.1 = dy ∧ (dlit = None ∨ dlit = Some y.2))) as [H|H]; [left; by constructor|].
    right. intros Hl. inversion Hl; subst. by apply H. }
  assert (Hsplit : ∀ l, Forall (λ y, ¬ lang env (TTok dn dy dlit) [y]) (word src l) ∨
    ∃ c k u, l = c ++ k :: u ∧ Forall (λ y, ¬ lang env (TTok dn dy dlit) [y]) (word src c) ∧ lang env (TTok dn dy dlit) (word src [k])).
  { clear -Hdd. induction l as [|a l IHl]; [left; constructor|]. set (y := (t_ty a, default ""%string (token_src a src))).
    destruct (decide (lang env (TTok dn dy dlit) [y])) as [Hy|Hy]; [right; exists [], a, l; split_and!; [done|constructor|exact Hy]|].
    destruct IHl as [Hl|(c & k & u & -> & Hc & Hk)]; [left; by constructor|right]. exists (a :: c), k, u. split_and!; [done|by constructor|done]. }
  remember (length l) as n eqn:En. revert l En. induction (lt_wf n) as [n _ IH]. intros l ->.
  destruct (decide (opens env t (TTok dn dy dlit) src l)) as [Ho|Ho]; [|by exists [], l; constructor].
  destruct (Hsplit l) as [Hf|(c & k & u & -> & Hc & Hk)]; [exists [Open l], []; by constructor|].
  destruct (IH (length u)) with (l := u) as (gs & v & Hgs); [rewrite app_length; cbn; lia|done|].
  exists (Stmt c k :: gs), v. apply bk_stmt; [|done..]. destruct Ho as (y & Hy & Hb). exists y. split; [|done]. by destruct c.
Qed.
Lemma block_once env t d src l gs u : block env t d src l gs u → ∀ gs' u', block env t d src l gs' u' → gs' = gs ∧ u' = u.
Proof.
  assert (Hlen : ∀ c k l c' k' l', c ++ k :: l = c' ++ k' :: l' → Forall (λ y, ¬ lang env d [y]) (word src c) → lang env d (word src [k]) →
    Forall (λ y, ¬ lang env d [y]) (word src c') → lang env d (word src [k']) → c = c' ∧ k = k' ∧ l = l').
  { induction c as [|a c IH]; intros k v [|a' c'] k' v' E H1 H2 H3 H4; cbn in E; injection E as -> E.
    - done.
    - apply Forall_cons in H3 as [H3 _]. by destruct H3.
    - apply Forall_cons in H1 as [H1 _]. by destruct H1.
    - apply Forall_cons in H1 as [_ H1]. apply Forall_cons in H3 as [_ H3]. destruct (IH _ _ _ _ _ E H1 H2 H3 H4) as (-> & -> & ->). done. }
  assert (Ho2 : ∀ c k v, opens env t d src (c ++ [k]) → opens env t d src (c ++ k :: v)).
  { intros c k v (y & Hy & Hb). exists y. split; [|done]. by destruct c. }
  assert (Hin : ∀ c k v, Forall (λ y, ¬ lang env d [y]) (word src (c ++ k :: v)) → lang env d (word src [k]) → False).
  { intros c k v H Hk. rewrite word_app in H. apply Forall_app in H as [_ H]. apply Forall_cons in H as [H _]. by apply H. }
  induction 1 as [u Hno|c k l r u Ho Hc Hk Hb IH|c Ho Hc]; intros gs' u' H.
  - destruct H as [|c' k' l' r' v Ho' _ _ _|c' Ho' _]; [done| |done]. destruct Hno. by apply Ho2.
  - remember (c ++ k :: l) as L eqn:EL. destruct H as [v Hno|c' k' l' r' v Ho' Hc' Hk' Hb'|c' Ho' Hc'].
    + destruct Hno. subst v. by apply Ho2.
    + destruct (Hlen _ _ _ _ _ _ EL Hc' Hk' Hc Hk) as (-> & -> & ->). by destruct (IH _ _ Hb') as [-> ->].
    + subst c'. destruct (Hin _ _ _ Hc' Hk).
  - destruct H as [v Hno|c' k' l' r' v Ho' Hc' Hk' Hb'|c' Ho' Hc']; [done| |done]. destruct (Hin _ _ _ Hc Hk').
Qed.
