(** Lists with broken elements: the elements are found, the rest is reported. *)
From Coq Require Import String NArith.
From stdpp Require Import prelude list strings relations.
From Verif Require Import LexModel LexSpec SynSetModel TableModel StreamModel StreamSpec StreamFacts TypeModel TypeSpec TypeFacts CfgSpec CfgFacts FollowFacts
  MetaFacts ProduceModel ParseSpec ProgFacts FuelFacts TreeFacts SoundFacts LangFacts RunFacts InvFacts LookFacts MdFacts ParseFacts TermFacts CompleteSpec CompleteFacts
  NextFacts SynSetFacts LeafSpec LoopSpec LoopFacts LinearFacts EndFacts BrokenSpec.
Local Open Scope nat_scope.

(** The error held back while the tokens [g] are stepped over. *)
Definition hold (kd : ekind) (panic : option perr) (g : list token) : option perr :=
  fold_left (λ p a, Some (match p with Some e => set_hi e (sp_hi (t_span a)) | None => PErr (t_span a) kd end)) g panic.
Lemma hold_some kd g e : hold kd (Some e) g = Some (PErr (Span (sp_lo (e_span e)) (match last g with Some b => sp_hi (t_span b) | None => sp_hi (e_span e) end)) (e_kind e)).
Proof.
  revert e. induction g as [|a g IH]; intros e; [by destruct e as [[] ?]|].
  change (hold kd (Some e) (a :: g)) with (hold kd (Some (set_hi e (sp_hi (t_span a)))) g). rewrite IH, last_cons. cbn. by destruct (last g).
Qed.
Lemma hold_none kd a g : hold kd None (a :: g) = Some (PErr (Span (sp_lo (t_span a)) (match last g with Some b => sp_hi (t_span b) | None => sp_hi (t_span a) end)) kd).
Proof. change (hold kd None (a :: g)) with (hold kd (Some (PErr (t_span a) kd)) g). by rewrite hold_some. Qed.
Lemma hold_cover kd g : map e_span (option_list (hold kd None g)) = option_list (cover g).
Proof. destruct g as [|a g]; [done|]. rewrite hold_none. unfold cover. rewrite last_cons. cbn. by destruct (last g). Qed.
Lemma hold_kind kd g e : hold kd None g = Some e → e_kind e = kd.
Proof. destruct g as [|a g]; [done|]. rewrite hold_none. by intros [= <-]. Qed.
Definition holds_to (kd : ekind) (panic : option perr) (sp : span) : perr :=
  match panic with Some e => set_hi e (sp_hi sp) | None => PErr sp kd end.
Lemma holds_to_miss kd src u g l : e_span (holds_to kd (hold kd None g) (at_next src (l ++ u))) = 
  Span (sp_lo (at_next src (g ++ l ++ u))) (sp_hi (at_next src (l ++ u))).
Proof. destruct g as [|a g]; [cbn; by destruct (at_next _ _)|]. by rewrite hold_none. Qed.
Lemma holds_to_kind kd g sp : e_kind (holds_to kd (hold kd None g) sp) = kd.
Proof. destruct g as [|a g]; [done|]. by rewrite hold_none. Qed.
Lemma a_span_next s : a_span s = at_next (a_src s) (a_rest s).
Proof. unfold a_span. by destruct (a_rest s). Qed.

Lemma then_at src s l s' u : aok s → a_src s = src → a_rest s = l ++ u → adv s l s' →
  aok s' ∧ a_src s' = src ∧ a_rest s' = u ∧ pos s' = end_pos (pos s) l.
Proof.
  intros Hok Hsrc E Ha. split_and!; [by eapply adv_aok|by rewrite (adv_src _ _ _ Ha)|by eapply adv_end|by apply adv_pos].
Qed.

Section inner.
  Context (src : string) (pT : nat → M (res tree)) (ef pf fol : tset).
  Definition passed (y : tok) : Prop := ts_contains ef (Some y) = false ∧ ts_contains pf (Some y) = false ∧ ts_contains fol (Some y) = false.
  Lemma passed_step s a r : aok s → a_src s = src → a_rest s = a :: r → Forall passed (word src [a]) →
    ∃ y, look s = Some y ∧ passed y ∧ aok (pop s) ∧ a_src (pop s) = src ∧ a_rest (pop s) = r ∧ adv s [a] (pop s) ∧ a_span s = t_span a.
  Proof.
    intros Hok Esrc Er Hp. rewrite look_nxt, Esrc, Er. destruct (pop_adv1 _ _ _ Er) as [Ha _].
    destruct (then_at src s [a] (pop s) r Hok Esrc Er Ha) as (H1 & H2 & H3 & _).
    eexists. split; [done|]. split; [by apply Forall_cons in Hp as [? _]|]. split_and!; [done..|]. by rewrite a_span_next, Er.
  Qed.

  Notation kd := (Expecting ef).
  Lemma split_skip g : ts_contains_e ef = false → ∀ k s panic errs v Q, aok s → a_src s = src → a_rest s = g ++ v →
    Forall passed (word src g) →
    (∀ k s1, aok s1 → a_src s1 = src → a_rest s1 = v → adv s g s1 →
      term (λ f, split_inner f (pT (k + f)) ef pf fol (hold kd panic g) errs) s1 Q) →
    term (λ f, split_inner f (pT (k + f)) ef pf fol panic errs) s Q.
  Proof.
    intros He. induction g as [|a g IH]; intros k s panic errs v Q Hok Esrc Er Hp H.
    - apply H; [done..|apply adv_refl].
    - change (a :: g) with ([a] ++ g) in Hp. rewrite word_app in Hp. apply Forall_app in Hp as [Ha Hp].
      destruct (passed_step s a (g ++ v) Hok Esrc Er Ha) as (y & Ey & (H1 & H2 & H3) & Hok1 & Esrc1 & Er1 & Ha1 & Esp).
      apply term_S. cbn [split_inner]. apply term_bind_wp, wp_peek_src; [done|]. rewrite Ey, H1, He. cbn [orb].
      set (panic' := Some (match panic with Some e => set_hi e (sp_hi (t_span a)) | None => PErr (t_span a) kd end)).
      apply term_bind_wp.
      assert (Hn : term (λ f, if ts_contains pf (Some y) then mret (None, errs ++ option_list panic', true)
        else if bool_decide (Some y = None) || ts_contains fol (Some y) then mret (None, errs ++ option_list panic', false)
        else _ ← consume; split_inner f (pT (k + S f)) ef pf fol panic' errs) s Q).
      { rewrite H2, H3. cbn [orb bool_decide]. apply term_bind_wp, wp_consume.
        apply (term_ext (λ f, split_inner f (pT (S k + f)) ef pf fol panic' errs)); [intros f; by rewrite <- plus_n_Sm|].
        apply (IH (S k) (pop s) panic' errs v Q Hok1 Esrc1 Er1 Hp).
        intros k1 s1 Hok2 Esrc2 Er2 Ha2. apply H; [done..|]. change (a :: g) with ([a] ++ g). by eapply adv_trans. }
      destruct panic as [e|].
      + apply wp_bind, wp_cur_span, wp_ret. rewrite Esp. exact Hn.
      + apply wp_bind, wp_expecting, wp_ret. rewrite Esp. exact Hn.
  Qed.
  Lemma split_item k s panic errs i x : aok s → term pT s (λ r s', r = RSucc x ∧ adv s i s') → ts_contains ef (look s) = true →
    term (λ f, split_inner f (pT (k + f)) ef pf fol panic errs) s (λ r s', r = (Some x, errs ++ option_list panic, true) ∧ adv s i s').
  Proof.
    intros Hok Hr Hc. apply term_S. cbn [split_inner]. apply term_bind_wp, wp_peek_src; [done|]. rewrite Hc. cbn [orb].
    apply (term_bind (λ f, r ← pT (k + S f); match unres r with
         | (Some t, e) => mret (inl (t, errs ++ e ++ option_list panic))
         | (None, e) => tk' ← peek_src; mret (inr (tk', merge_panic panic e))
         end)).
    apply (term_bind (λ f, pT (k + S f))). apply (term_ext (λ f, pT (S k + f))); [intros f; by rewrite <- plus_n_Sm|].
    apply (term_plus pT). eapply term_weaken; [exact Hr|].
    intros r s1 [-> Ha]. cbn [unres]. by apply term_ret, term_ret.
  Qed.
  Lemma split_missing k s panic errs : ts_contains_e ef = false → aok s → ts_contains ef (look s) = false →
    (ts_contains pf (look s) = true ∨ look s = None ∨ ts_contains fol (look s) = true) →
    term (λ f, split_inner f (pT (k + f)) ef pf fol panic errs) s
      (λ r s', r = (None, errs ++ [holds_to kd panic (a_span s)], ts_contains pf (look s)) ∧ adv s [] s').
  Proof.
    intros He Hok H1 H2. apply term_S. cbn [split_inner]. apply term_bind_wp, wp_peek_src; [done|]. rewrite H1, He. cbn [orb].
    apply term_bind_wp.
    assert (Hn : ∀ e, e = holds_to kd panic (a_span s) → term (λ f, if ts_contains pf (look s) then mret (None, errs ++ option_list (Some e), true)
      else if bool_decide (look s = None) || ts_contains fol (look s) then mret (None, errs ++ option_list (Some e), false)
      else _ ← consume; split_inner f (pT (k + S f)) ef pf fol (Some e) errs) s
      (λ r s', r = (None, errs ++ [holds_to kd panic (a_span s)], ts_contains pf (look s)) ∧ adv s [] s')).
    { intros e ->. destruct (ts_contains pf (look s)); [apply term_ret; split; [done|apply adv_refl]|].
      destruct H2 as [?|H2]; [done|].
      assert (bool_decide (look s = None) || ts_contains fol (look s) = true) as ->.
      { apply orb_true_iff. destruct H2 as [H2|H2]; [left; by apply bool_decide_eq_true|by right]. }
      apply term_ret. split; [done|apply adv_refl]. }
    destruct panic as [e|].
    - apply wp_bind, wp_cur_span, wp_ret. by apply Hn.
    - apply wp_bind, wp_expecting, wp_ret. by apply Hn.
  Qed.

  Notation kp := (Expecting (fst (fs_union_minus_eps (fst (ts_remove_e fol)) ef))).
  Lemma punct_skip g : ∀ k s panic errs v Q, aok s → a_src s = src → a_rest s = g ++ v →
    Forall passed (word src g) →
    (∀ k s1, aok s1 → a_src s1 = src → a_rest s1 = v → adv s g s1 →
      term (λ f, punct_inner f (pT (k + f)) ef pf fol (hold kp panic g) errs) s1 Q) →
    term (λ f, punct_inner f (pT (k + f)) ef pf fol panic errs) s Q.
  Proof.
    induction g as [|a g IH]; intros k s panic errs v Q Hok Esrc Er Hp H.
    - apply H; [done..|apply adv_refl].
    - change (a :: g) with ([a] ++ g) in Hp. rewrite word_app in Hp. apply Forall_app in Hp as [Ha Hp].
      destruct (passed_step s a (g ++ v) Hok Esrc Er Ha) as (y & Ey & (H1 & H2 & H3) & Hok1 & Esrc1 & Er1 & Ha1 & Esp).
      apply term_S. cbn [punct_inner]. apply term_bind_wp, wp_peek_src; [done|]. rewrite Ey, H1, H3. cbn [negb andb].
      set (panic' := Some (match panic with Some e => set_hi e (sp_hi (t_span a)) | None => PErr (t_span a) kp end)).
      apply term_bind_wp, wp_bind, wp_cur_span, wp_ret. rewrite Esp.
      apply term_bind_wp, wp_peek_src; [done|]. rewrite Ey, H2, H3. cbn [orb bool_decide]. apply term_bind_wp, wp_consume.
      apply (term_ext (λ f, punct_inner f (pT (S k + f)) ef pf fol panic' errs)); [intros f; by rewrite <- plus_n_Sm|].
      apply (IH (S k) (pop s) panic' errs v Q Hok1 Esrc1 Er1 Hp).
      intros k1 s1 Hok2 Esrc2 Er2 Ha2. apply H; [done..|]. change (a :: g) with ([a] ++ g). by eapply adv_trans.
  Qed.
  Lemma punct_item k s panic errs i x y : aok s → term pT s (λ r s', r = RSucc x ∧ adv s i s') → look s = Some y → ts_contains ef (Some y) = true →
    term (λ f, punct_inner f (pT (k + f)) ef pf fol panic errs) s (λ r s', r = (Some x, errs ++ option_list panic, true) ∧ adv s i s').
  Proof.
    intros Hok Hr Hl Hc. apply term_S. cbn [punct_inner]. apply term_bind_wp, wp_peek_src; [done|]. rewrite Hl, Hc. cbn [negb andb].
    apply (term_bind (λ f, r ← pT (k + S f); match unres r with
         | (Some t, e) => mret (inl (t, errs ++ option_list panic ++ e))
         | (None, e) => mret (inr (merge_panic panic e))
         end)).
    apply (term_bind (λ f, pT (k + S f))). apply (term_ext (λ f, pT (S k + f))); [intros f; by rewrite <- plus_n_Sm|].
    apply (term_plus pT). eapply term_weaken; [exact Hr|].
    intros r s1 [-> Ha]. cbn [unres]. apply term_ret, term_ret. by rewrite app_nil_r.
  Qed.
  (** At a delimiter … *)
  Lemma punct_missing k s panic errs y : aok s → look s = Some y → ts_contains ef (Some y) = false → ts_contains fol (Some y) = false →
    ts_contains pf (Some y) = true →
    term (λ f, punct_inner f (pT (k + f)) ef pf fol panic errs) s
      (λ r s', r = (None, errs ++ [holds_to kp panic (a_span s)], true) ∧ adv s [] s').
  Proof.
    intros Hok Hl H1 H2 H3. apply term_S. cbn [punct_inner]. apply term_bind_wp, wp_peek_src; [done|]. rewrite Hl, H1, H2. cbn [negb andb].
    apply term_bind_wp, wp_bind, wp_cur_span, wp_ret. apply term_bind_wp, wp_peek_src; [done|]. rewrite Hl, H3.
    apply term_ret. split; [by destruct panic|apply adv_refl].
  Qed.
  (** … and at the end. *)
  Lemma punct_over k s panic errs : aok s → (∀ y, look s = Some y → ts_contains ef (Some y) = false ∧ ts_contains fol (Some y) = true) →
    term (λ f, punct_inner f (pT (k + f)) ef pf fol panic errs) s
      (λ r s', r = (None, errs ++ option_list panic, false) ∧ adv s [] s').
  Proof.
    intros Hok H. apply term_S. cbn [punct_inner]. apply term_bind_wp, wp_peek_src; [done|].
    destruct (look s) as [y|]; [destruct (H y eq_refl) as [-> ->]; cbn [negb andb]|]; (apply term_ret; split; [done|apply adv_refl]).
  Qed.
End inner.

Section lists.
  Context (env : denv) (root t : ty) (dn dy : nat) (dlit : option string) (regs iter : grammar prod) (md : metadata prod).
  Context (Hr : register_root env (prod_of root) = Some regs) (Hperm : iter ≡ₚ regs) (Hmeta : meta_build regs iter (key root) = Some (inr md)).
  Context (Hreg : regular env root) (Hprod : productive env root) (src : string) (u : list token).
  Notation d := (TTok dn dy dlit).
  Notation F := (tb_get (md_first md)).
  Notation L := (tb_get (md_follow md)).
  Notation rec f := (produce_md env md f).
  Notation "'MD' l" := (l env root regs iter md Hr Hperm Hmeta) (at level 9, l at level 0, only parsing).
  Notation FL := (λ k x, follows regs (key root) k (Some x)).
  Lemma FL_clash k y : nullable regs k → starts regs k y → FL k y → False.
  Proof using Hr Hperm Hmeta Hreg.
    intros H1 H2 H3. exact (null_conflict_not_ll1 regs (key root) (md_functional _ _ _ _ _ Hr Hperm Hmeta) k y H2 H1 H3 (reg_ll1 _ _ Hreg _ Hr)).
  Qed.
  Notation "'CF' l" := (l env root regs iter md Hr Hperm Hmeta FL (reg_enums _ _ Hreg) (follows_seq env root regs Hr) (follows_last env root regs Hr)
    (follows_union env root regs Hr) FL_clash (reg_filled _ _ Hreg) (reg_delims _ _ Hreg) (reg_punct _ _ Hreg _ Hr) src) (at level 9, l at level 0, only parsing).

  Lemma starts_lang c x : within env root c → starts regs (key c) x ↔ ∃ w, lang env c (x :: w).
  Proof using Hr Hperm Hmeta Hreg Hprod.
    intros Hw. assert (Hv := MD V_within _ Hw). split.
    - intros [β Hβ]. destruct (MD form_word Hprod β) as [w Hw'].
      { intros j Hj. eapply (MD form_vis); [exact Hβ| |set_solver].
        intros i Hi%elem_of_list_singleton. by injection Hi as ->. }
      exists w. apply (MD md_lang); [done|]. etrans; [exact Hβ|].
      cbn [map]. by apply (derives_app_l regs β (map T w) [T x]).
    - intros [w Hl]. by eapply (MD lang_fst).
  Qed.
  Lemma begins c y : within env root c → ts_contains (F (key c)) (Some y) = true ↔ ∃ w, lang env c (y :: w).
  Proof using Hr Hperm Hmeta Hreg Hprod. intros Hw. etrans; [apply (MD first_spec)|by apply starts_lang]. Qed.
  Lemma begins_not c y : within env root c → ts_contains (F (key c)) (Some y) = false ↔ ∀ w, ¬ lang env c (y :: w).
  Proof using Hr Hperm Hmeta Hreg Hprod.
    intros Hw. rewrite <- not_true_iff_false, begins by done. split; [intros H w Hl; apply H; eauto|]. intros H [w Hl]. by apply (H w).
  Qed.
  Lemma near_follows c y : near_follow regs (key root) (key c) (Some y) → FL (key c) y.
  Proof using Hr Hperm Hmeta.
    apply near_follow_follows. intros k e Hin. exact (register_reachable env (prod_of root) regs k _ Hr Hin).
  Qed.
  Lemma delim_run s k v : aok s → a_src s = src → a_rest s = k :: v → lang env d (word src [k]) →
    term (λ f, rec f d) s (λ r s', r = RSucc (TrTok k) ∧ adv s [k] s').
  Proof using.
    intros Hok Esrc Er Hl. inversion Hl; subst. match goal with H : covers _ _ _ |- _ => destruct H as [Hty Hlit] end. cbn in Hty, Hlit. apply term_S.
    apply (term_ext (λ _, r ← match dlit with None => parse_token dy | Some l => parse_token_lit dy l (L (key d)) end; mret (res_map TrTok r))); [done|].
    apply term_wp, wp_bind. destruct dlit as [lit|].
    - apply wp_parse_token_lit; [done|]. rewrite Er. destruct (decide (look s = Some (dy, lit))) as [E|Hne].
      + apply wp_ret. split; [done|]. by apply (pop_adv1 _ _ v).
      + destruct Hne. rewrite look_nxt, Er. cbn. destruct Hlit as [?|[= ->]]; [done|]. by rewrite Hty.
    - apply wp_parse_token. rewrite Er. destruct (decide (t_ty k = dy)) as [E|Hne]; [|done].
      apply wp_ret. split; [done|]. by apply (pop_adv1 _ _ v).
  Qed.
  Lemma item_parses c i v s : within env root c → aok s → a_src s = src → a_rest s = i ++ v → lang env c (word src i) → 
    ∃ x, parses env src (pos s) c i x.
  Proof using Hreg.
    intros Hw Hok Esrc Er Hl. assert (Hsp := Hok). apply aok_pos in Hsp as [Hsp _]. rewrite Er in Hsp. apply spans_ok_pos in Hsp as [Hsp _].
    rewrite Esrc in Hsp. apply (lang_parses env src c _ Hl (pos s) i); [|done|exact Hsp].
    intros c' Hc. apply (reg_filled _ _ Hreg). by eapply rtc_transitive.
  Qed.
  Lemma broken_head stops keep miss l its ks sps y : broken env t d stops src keep miss u l its ks sps → head (word src (l ++ u)) = Some y →
    (∃ w, lang env d (y :: w)) ∨ l = [] ∧ head (word src u) = Some y.
  Proof using. intros H. destruct H as [|k g i l its ks sps Hk _ _ _|k g l its ks sps Hk _ _ _]; intros E; [by right|left..]; injection E as <-; eauto. Qed.

  Definition ends_list (c : ty) : Prop := ∀ y, head (word src u) = Some y → near_follow regs (key root) (key c) (Some y).
  Definition shows (l : list (list token)) (xs : list tree) : Prop := Forall2 (λ i x, ∃ p, parses env src p t i x) l xs.

  Section split.
    Notation C := (TSplit t d).
    Context (Hw : within env root C) (Hnl : no_loop env t) (Hn : ¬ lang env t []) (Hu : ends_list C).
    Notation stops := (λ y, near_follow regs (key root) (key C) (Some y)).
    Notation broken := (broken env t d stops src false (miss_split src u) u).
    Notation ef := (F (key t)).
    Notation pf := (F (key d)).
    Notation fol := (L (key C)).
    Lemma Hwt : within env root t. Proof using Hw. eapply rtc_r; [exact Hw|]. cbn. by left. Qed.
    Lemma Hwd : within env root d. Proof using Hw. eapply rtc_r; [exact Hw|]. apply elem_of_list_further, elem_of_list_here. Qed.
    Lemma ef_e : ts_contains_e ef = false.
    Proof using Hr Hperm Hmeta Hw Hn.
      apply not_true_iff_false. intros H%(MD first_eps). apply Hn. apply (MD nul_lang); [by apply (MD V_within), Hwt|done].
    Qed.
    Lemma stray_passed y : stray env t d stops y → passed ef pf fol y.
    Proof using Hr Hperm Hmeta Hreg Hprod Hw.
      intros (H1 & H2 & H3). split; [by apply begins_not; [exact Hwt|]|]. split; [by apply begins_not; [exact Hwd|]|].
      apply not_true_iff_false. by rewrite (MD follow_spec C (Some y)).
    Qed.
    Lemma split_ends y : head (word src u) = Some y → ts_contains pf (Some y) = false.
    Proof using Hr Hperm Hmeta Hreg Hw Hu. intros H. apply (CF split_end t); [by apply (MD V_within)|]. by apply near_follows, Hu. Qed.
    Lemma split_elem_next l its ks sps y : broken l its ks sps → head (word src (l ++ u)) = Some y → FL (key t) y.
    Proof using Hr Hperm Hmeta Hreg Hprod Hw Hu.
      intros H E. apply (CF split_elem_foll t d); [by apply (MD V_within)|].
      destruct (broken_head _ _ _ _ _ _ _ _ H E) as [Hd|[-> Hy]]; [left; by apply starts_lang, Hd; exact Hwd|right]. by apply near_follows, Hu.
    Qed.
    Lemma elem_run s i v x : aok s → a_src s = src → a_rest s = i ++ v → parses env src (pos s) t i x →
      (∀ y, head (word src v) = Some y → FL (key t) y) → term (λ f, rec f t) s (λ r s', r = RSucc x ∧ adv s i s').
    Proof using Hr Hperm Hmeta Hreg Hw Hnl.
      intros Hok Esrc Er Hp Hv. by eapply (CF parses_run (pos s) t i x Hp (conj Hwt Hnl) s v).
    Qed.

    Notation bnd f k q elems puncts := (λ '(o, errs', cont), if cont : bool then split_outer f (rec (k + S f) t) (rec (k + S f) d) ef pf fol
             (elems ++ option_list o) (match o with Some _ => puncts ++ [q] | None => (puncts)%list end) errs'
             else mret (elems ++ option_list o, match o with Some _ => puncts ++ [q] | None => (puncts)%list end, errs')).
    Lemma split_outer_broken l its ks sps : broken l its ks sps → ∀ k elems puncts errs s, aok s → a_src s = src → a_rest s = l ++ u →
      term (λ f, split_outer f (rec (k + f) t) (rec (k + f) d) ef pf fol elems puncts errs) s
        (λ r s', ∃ xs es, r = (elems ++ xs, puncts ++ map TrTok ks, errs ++ es) ∧ shows its xs ∧ map e_span es = sps ∧
          Forall (λ e, e_kind e = Expecting ef) es ∧ adv s l s').
    Proof using All.
      assert (He := ef_e).
      induction 1 as [|q g i l its ks sps Hq Hg Hi Hl IH|q g l its ks sps Hq Hg Hnx Hl IH]; intros k elems puncts errs s Hok Esrc Er.
      - apply term_S. cbn [split_outer]. apply term_bind_wp, wp_peek_src; [done|]. rewrite look_nxt, Esrc, Er. unfold nxt.
        assert (Hend : ∀ o, head (word src ([] ++ u)) = o → term (λ f, match o with None => mret (elems, puncts, errs) | Some x =>
          if ts_contains pf (Some x) then r ← rec (k + S f) d; match unres r with (None, e) => mret (elems, puncts, errs ++ e)
            | (Some p, e) => '(o, errs', cont) ← split_inner f (rec (k + S f) t) ef pf fol None (errs ++ e); bnd f k p elems puncts (o, errs', cont) end
          else mret (elems, puncts, errs) end) s (λ r s', ∃ xs es, r = (elems ++ xs, puncts ++ map TrTok [], errs ++ es) ∧ shows [] xs ∧ map e_span es = [] ∧
          Forall (λ e, e_kind e = Expecting ef) es ∧ adv s [] s')); [|by apply Hend].
        intros o Ho. assert (Hq : term (λ _, mret (elems, puncts, errs)) s (λ r s', ∃ xs es, r = (elems ++ xs, puncts ++ map TrTok [], errs ++ es) ∧ shows [] xs ∧ map e_span es = [] ∧
          Forall (λ e, e_kind e = Expecting ef) es ∧ adv s [] s')).
        { apply term_ret. exists [], []. cbn [map]. rewrite !app_nil_r. split_and!; [done|constructor|done|constructor|apply adv_refl]. }
        destruct o as [y|]; [|exact Hq]. rewrite split_ends by done. exact Hq.
      - assert (Hgp : Forall (passed ef pf fol) (word src g)) by (eapply Forall_impl; [exact Hg|]; intros y; by apply stray_passed).
        cbn [app] in Er. rewrite <- !app_assoc in Er.
        apply term_S. cbn [split_outer]. apply term_bind_wp, wp_peek_src; [done|]. rewrite look_nxt, Esrc, Er. cbn [nxt word map head hd_error].
        assert (Hd : ts_contains pf (head (word src [q])) = true) by (apply begins; [exact Hwd|exists []; exact Hq]).
        cbn [word map head hd_error] in Hd. unfold nxt. cbn [word map head hd_error]. rewrite Hd.
        apply (term_bind (λ f, rec (k + S f) d)). apply (term_ext (λ f, rec (S k + f) d)); [intros f; by rewrite <- plus_n_Sm|].
        apply (term_plus (λ f, rec f d)). eapply term_weaken; [by apply (delim_run s q (g ++ i ++ l ++ u))|].
        intros r s1 [-> Ha]. cbn [unres]. destruct (then_at src s [q] s1 (g ++ i ++ l ++ u) Hok Esrc Er Ha) as (Hok1 & Esrc1 & Er1 & _).
        apply (term_bind (λ f, split_inner f (rec (k + S f) t) ef pf fol None (errs ++ [])) (λ f, bnd f k (TrTok q) elems puncts)).
        apply (term_ext (λ f, split_inner f (rec (S k + f) t) ef pf fol None (errs ++ []))).
        { intros f. by rewrite <- plus_n_Sm. }
        apply (split_skip src (λ f, rec f t) ef pf fol g He (S k) s1 None (errs ++ []) (i ++ l ++ u)); [done..|].
        intros k1 s2 Hok2 Esrc2 Er2 Ha2. destruct (item_parses t i (l ++ u) s2 Hwt Hok2 Esrc2 Er2 Hi) as [x Hx].
        eapply term_weaken; [apply (split_item (λ f, rec f t) ef pf fol k1 s2 _ _ i x Hok2)|].
        { apply (elem_run s2 i (l ++ u)); [done..|]. intros y. by apply split_elem_next with its ks sps. }
        { rewrite look_nxt, Esrc2, Er2. destruct i as [|a i]; [by destruct Hn|]. apply begins; [exact Hwt|]. eexists. exact Hi. }
        intros r s3 [-> Ha3]. destruct (then_at src s2 i s3 (l ++ u) Hok2 Esrc2 Er2 Ha3) as (Hok3 & Esrc3 & Er3 & _). cbn [option_list].
        apply (term_ext (λ f, split_outer f (rec (S k + f) t) (rec (S k + f) d) ef pf fol (elems ++ [x]) (puncts ++ [TrTok q])
          ((errs ++ []) ++ option_list (hold (Expecting ef) None g)))). { intros f. by rewrite <- plus_n_Sm. }
        eapply term_weaken; [by apply (IH (S k) (elems ++ [x]) (puncts ++ [TrTok q]) ((errs ++ []) ++ option_list (hold (Expecting ef) None g)) s3)|].
        intros r s4 (xs & es & -> & Hxs & Hes & Hk & Ha4). exists (x :: xs), (option_list (hold (Expecting ef) None g) ++ es). split_and!.
        + rewrite app_nil_r, <- !app_assoc. done.
        + constructor; [by eexists|done].
        + by rewrite map_app, hold_cover, Hes.
        + apply Forall_app. split; [|done]. destruct (hold (Expecting ef) None g) eqn:Eh; [|constructor]. apply Forall_cons. split; [by eapply hold_kind|constructor].
        + change (q :: g ++ i ++ l) with ([q] ++ g ++ i ++ l). eapply adv_trans; [done|]. eapply adv_trans; [done|]. by eapply adv_trans.
      - assert (Hgp : Forall (passed ef pf fol) (word src g)) by (eapply Forall_impl; [exact Hg|]; intros y; by apply stray_passed).
        cbn [app] in Er. rewrite <- !app_assoc in Er.
        apply term_S. cbn [split_outer]. apply term_bind_wp, wp_peek_src; [done|]. rewrite look_nxt, Esrc, Er.
        assert (Hd : ts_contains pf (head (word src [q])) = true) by (apply begins; [exact Hwd|exists []; exact Hq]).
        cbn [word map head hd_error] in Hd. unfold nxt. cbn [word map head hd_error]. rewrite Hd.
        apply (term_bind (λ f, rec (k + S f) d)). apply (term_ext (λ f, rec (S k + f) d)); [intros f; by rewrite <- plus_n_Sm|].
        apply (term_plus (λ f, rec f d)). eapply term_weaken; [by apply (delim_run s q (g ++ l ++ u))|].
        intros r s1 [-> Ha]. cbn [unres]. destruct (then_at src s [q] s1 (g ++ l ++ u) Hok Esrc Er Ha) as (Hok1 & Esrc1 & Er1 & _).
        apply (term_bind (λ f, split_inner f (rec (k + S f) t) ef pf fol None (errs ++ [])) (λ f, bnd f k (TrTok q) elems puncts)).
        apply (term_ext (λ f, split_inner f (rec (S k + f) t) ef pf fol None (errs ++ []))).
        { intros f. by rewrite <- plus_n_Sm. }
        apply (split_skip src (λ f, rec f t) ef pf fol g He (S k) s1 None (errs ++ []) (l ++ u)); [done..|].
        intros k1 s2 Hok2 Esrc2 Er2 Ha2.
        set (e := holds_to (Expecting ef) (hold (Expecting ef) None g) (at_next src (l ++ u))).
        assert (Elook : look s2 = head (word src (l ++ u))) by (by rewrite look_nxt, Esrc2, Er2).
        eapply term_weaken; [apply (split_missing (λ f, rec f t) ef pf fol k1 s2 _ _ He Hok2)|].
        { rewrite Elook. destruct (head (word src (l ++ u))) as [y|]; [by apply begins_not; [exact Hwt|apply Hnx]|].
          rewrite <- He. by destruct ef as []. }
        { rewrite Elook. destruct (head (word src (l ++ u))) as [y|] eqn:Ey; [|by right; left].
          destruct (broken_head _ _ _ _ _ _ _ _ Hl Ey) as [Hy|[-> Hy]]; [left; by apply begins; [exact Hwd|]|right; right].
          apply (MD follow_spec C (Some y)). by apply Hu. }
        rewrite a_span_next, Esrc2, Er2. fold e.
        intros r s3 [-> Ha3]. destruct (then_at src s2 [] s3 (l ++ u) Hok2 Esrc2 Er2 Ha3) as (Hok3 & Esrc3 & Er3 & _). cbn [option_list].
        assert (Hes0 : map e_span [e] = option_list (miss_split src u g l)).
        { unfold e. cbn [map]. by rewrite holds_to_miss. }
        assert (Hk0 : e_kind e = Expecting ef) by apply holds_to_kind.
        assert (Hadv : adv s (q :: g) s3).
        { rewrite <- (app_nil_r (q :: g)). change (q :: g) with ([q] ++ g). rewrite <- app_assoc. eapply adv_trans; [done|]. by eapply adv_trans. }
        destruct (ts_contains pf (look s2)) eqn:Ec.
        + apply (term_ext (λ f, split_outer f (rec (S k + f) t) (rec (S k + f) d) ef pf fol (elems ++ []) puncts ((errs ++ []) ++ [e]))).
          { intros f. by rewrite <- plus_n_Sm. }
          eapply term_weaken; [by apply (IH (S k) (elems ++ []) puncts ((errs ++ []) ++ [e]) s3)|].
          intros r s4 (xs & es & -> & Hxs & Hes & Hk & Ha4). exists xs, (e :: es). split_and!.
          * rewrite !app_nil_r, <- !app_assoc. done.
          * done.
          * by rewrite <- Hes0, <- Hes.
          * by constructor.
          * change (q :: g ++ l) with ((q :: g) ++ l). by eapply adv_trans.
        + rewrite Elook in Ec. destruct l as [|a l].
          * inversion Hl; subst. apply term_ret. exists [], [e]. cbn [map app]. rewrite !app_nil_r. split_and!; [done|constructor|done|by repeat constructor|done].
          * exfalso. destruct (head (word src ((a :: l) ++ u))) as [y|] eqn:Ey; [|done].
            destruct (broken_head _ _ _ _ _ _ _ _ Hl Ey) as [Hy|[? _]]; [|done].
            apply not_true_iff_false in Ec. apply Ec. by apply begins; [exact Hwd|].
    Qed.
  End split.

  Section punct.
    Notation C := (TPunct t d).
    Context (Hw : within env root C) (Hnl : no_loop env C) (Hu : ends_list C).
    Notation stops := (λ y, near_follow regs (key root) (key C) (Some y)).
    Notation broken := (broken env t d stops src true (miss_punct src u) u).
    Notation ef := (F (key t)).
    Notation pf := (F (key d)).
    Notation fol := (L (key C)).
    Notation kp := (Expecting (fst (fs_union_minus_eps (fst (ts_remove_e fol)) ef))).
    Lemma Hpt : within env root t. Proof using Hw. eapply rtc_r; [exact Hw|]. cbn. by left. Qed.
    Lemma Hpd : within env root d. Proof using Hw. eapply rtc_r; [exact Hw|]. apply elem_of_list_further, elem_of_list_here. Qed.
    Lemma Hpl : no_loop env t.
    Proof using Hnl. intros c Hc. apply Hnl. eapply rtc_l; [|exact Hc]. cbn. by left. Qed.
    Lemma Hpn : ¬ lang env t [].
    Proof using Hr Hperm Hmeta Hw.
      intros H. apply (MD nul_lang) in H; [|by apply (MD V_within), Hpt]. by apply (MD punct_not_null t d) in H; [|apply (MD V_within)].
    Qed.
    Lemma stray_ppassed y : stray env t d stops y → passed ef pf fol y.
    Proof using Hr Hperm Hmeta Hreg Hprod Hw.
      intros (H1 & H2 & H3). split; [by apply begins_not; [exact Hpt|]|]. split; [by apply begins_not; [exact Hpd|]|].
      apply not_true_iff_false. by rewrite (MD follow_spec C (Some y)).
    Qed.
    Lemma punct_ends y : head (word src u) = Some y → ts_contains pf (Some y) = false.
    Proof using Hr Hperm Hmeta Hreg Hw Hu Hnl. intros H. apply (CF punct_end t d (conj Hw Hnl)). by apply near_follows, Hu. Qed.
    Lemma punct_elem_next l its ks sps y : broken l its ks sps → head (word src (l ++ u)) = Some y → FL (key t) y.
    Proof using Hr Hperm Hmeta Hreg Hprod Hw Hu Hnl.
      intros H E. apply (CF punct_elem_foll t d (conj Hw Hnl)).
      destruct (broken_head _ _ _ _ _ _ _ _ H E) as [Hd|[-> Hy]]; [left; by apply starts_lang, Hd; exact Hpd|right]. by apply near_follows, Hu.
    Qed.
    Lemma pelem_run s i v x : aok s → a_src s = src → a_rest s = i ++ v → parses env src (pos s) t i x →
      (∀ y, head (word src v) = Some y → FL (key t) y) → term (λ f, rec f t) s (λ r s', r = RSucc x ∧ adv s i s').
    Proof using Hr Hperm Hmeta Hreg Hw Hnl.
      intros Hok Esrc Er Hp Hv. by eapply (CF parses_run (pos s) t i x Hp (conj Hpt Hpl) s v).
    Qed.

    Notation bnd f k q elems puncts := (λ '(o, errs', cont), if cont : bool then punct_outer f (rec (k + S f) t) (rec (k + S f) d) ef pf fol
             (elems ++ option_list o) (puncts ++ [q]) errs'
             else mret (elems ++ option_list o, puncts ++ [q], errs')).
    Lemma punct_outer_broken l its ks sps : broken l its ks sps → ∀ k elems puncts errs s, aok s → a_src s = src → a_rest s = l ++ u →
      term (λ f, punct_outer f (rec (k + f) t) (rec (k + f) d) ef pf fol elems puncts errs) s
        (λ r s', ∃ xs es, r = (elems ++ xs, puncts ++ map TrTok ks, errs ++ es) ∧ shows its xs ∧ map e_span es = sps ∧
          Forall (λ e, e_kind e = kp) es ∧ adv s l s').
    Proof using All.
      induction 1 as [|q g i l its ks sps Hq Hg Hi Hl IH|q g l its ks sps Hq Hg Hnx Hl IH]; intros k elems puncts errs s Hok Esrc Er.
      - apply term_S. cbn [punct_outer]. apply term_bind_wp, wp_peek_src; [done|]. rewrite look_nxt, Esrc, Er. unfold nxt.
        assert (Hend : ∀ o, head (word src ([] ++ u)) = o → term (λ f, match o with None => mret (elems, puncts, errs) | Some x =>
          if ts_contains pf (Some x) then r ← rec (k + S f) d; match unres r with (None, e) => mret (elems, puncts, errs ++ e)
            | (Some p, e) => '(o, errs', cont) ← punct_inner f (rec (k + S f) t) ef pf fol None (errs ++ e); bnd f k p elems puncts (o, errs', cont) end
          else mret (elems, puncts, errs) end) s (λ r s', ∃ xs es, r = (elems ++ xs, puncts ++ map TrTok [], errs ++ es) ∧ shows [] xs ∧ map e_span es = [] ∧
          Forall (λ e, e_kind e = kp) es ∧ adv s [] s')); [|by apply Hend].
        intros o Ho. assert (Hq : term (λ _, mret (elems, puncts, errs)) s (λ r s', ∃ xs es, r = (elems ++ xs, puncts ++ map TrTok [], errs ++ es) ∧ shows [] xs ∧ map e_span es = [] ∧
          Forall (λ e, e_kind e = kp) es ∧ adv s [] s')).
        { apply term_ret. exists [], []. cbn [map]. rewrite !app_nil_r. split_and!; [done|constructor|done|constructor|apply adv_refl]. }
        destruct o as [y|]; [|exact Hq]. rewrite punct_ends by done. exact Hq.
      - assert (Hgp : Forall (passed ef pf fol) (word src g)) by (eapply Forall_impl; [exact Hg|]; intros y; by apply stray_ppassed).
        cbn [app] in Er. rewrite <- !app_assoc in Er.
        apply term_S. cbn [punct_outer]. apply term_bind_wp, wp_peek_src; [done|]. rewrite look_nxt, Esrc, Er. cbn [nxt word map head hd_error].
        assert (Hd : ts_contains pf (head (word src [q])) = true) by (apply begins; [exact Hpd|exists []; exact Hq]).
        cbn [word map head hd_error] in Hd. unfold nxt. cbn [word map head hd_error]. rewrite Hd.
        apply (term_bind (λ f, rec (k + S f) d)). apply (term_ext (λ f, rec (S k + f) d)); [intros f; by rewrite <- plus_n_Sm|].
        apply (term_plus (λ f, rec f d)). eapply term_weaken; [by apply (delim_run s q (g ++ i ++ l ++ u))|].
        intros r s1 [-> Ha]. cbn [unres]. destruct (then_at src s [q] s1 (g ++ i ++ l ++ u) Hok Esrc Er Ha) as (Hok1 & Esrc1 & Er1 & _).
        apply (term_bind (λ f, punct_inner f (rec (k + S f) t) ef pf fol None (errs ++ [])) (λ f, bnd f k (TrTok q) elems puncts)).
        apply (term_ext (λ f, punct_inner f (rec (S k + f) t) ef pf fol None (errs ++ []))).
        { intros f. by rewrite <- plus_n_Sm. }
        apply (punct_skip src (λ f, rec f t) ef pf fol g (S k) s1 None (errs ++ []) (i ++ l ++ u)); [done..|].
        intros k1 s2 Hok2 Esrc2 Er2 Ha2. destruct (item_parses t i (l ++ u) s2 Hpt Hok2 Esrc2 Er2 Hi) as [x Hx].
        destruct i as [|a i]; [by destruct (Hpn Hi)|].
        eapply term_weaken; [eapply (punct_item (λ f, rec f t) ef pf fol k1 s2 _ _ (a :: i) x _ Hok2)|].
        { apply (pelem_run s2 (a :: i) (l ++ u)); [done..|]. intros y. by apply punct_elem_next with its ks sps. }
        { rewrite look_nxt, Esrc2, Er2. done. }
        { apply begins; [exact Hpt|]. eexists. exact Hi. }
        intros r s3 [-> Ha3]. destruct (then_at src s2 (a :: i) s3 (l ++ u) Hok2 Esrc2 Er2 Ha3) as (Hok3 & Esrc3 & Er3 & _). cbn [option_list].
        apply (term_ext (λ f, punct_outer f (rec (S k + f) t) (rec (S k + f) d) ef pf fol (elems ++ [x]) (puncts ++ [TrTok q])
          ((errs ++ []) ++ option_list (hold (kp) None g)))). { intros f. by rewrite <- plus_n_Sm. }
        eapply term_weaken; [by apply (IH (S k) (elems ++ [x]) (puncts ++ [TrTok q]) ((errs ++ []) ++ option_list (hold (kp) None g)) s3)|].
        intros r s4 (xs & es & -> & Hxs & Hes & Hk & Ha4). exists (x :: xs), (option_list (hold (kp) None g) ++ es). split_and!.
        + rewrite app_nil_r, <- !app_assoc. done.
        + constructor; [by eexists|done].
        + by rewrite map_app, hold_cover, Hes.
        + apply Forall_app. split; [|done]. destruct (hold (kp) None g) eqn:Eh; [|constructor]. apply Forall_cons. split; [by eapply hold_kind|constructor].
        + change (q :: g ++ (a :: i) ++ l) with ([q] ++ g ++ (a :: i) ++ l). eapply adv_trans; [done|]. eapply adv_trans; [done|]. by eapply adv_trans.
      - assert (Hgp : Forall (passed ef pf fol) (word src g)) by (eapply Forall_impl; [exact Hg|]; intros y; by apply stray_ppassed).
        cbn [app] in Er. rewrite <- !app_assoc in Er.
        apply term_S. cbn [punct_outer]. apply term_bind_wp, wp_peek_src; [done|]. rewrite look_nxt, Esrc, Er.
        assert (Hd : ts_contains pf (head (word src [q])) = true) by (apply begins; [exact Hpd|exists []; exact Hq]).
        cbn [word map head hd_error] in Hd. unfold nxt. cbn [word map head hd_error]. rewrite Hd.
        apply (term_bind (λ f, rec (k + S f) d)). apply (term_ext (λ f, rec (S k + f) d)); [intros f; by rewrite <- plus_n_Sm|].
        apply (term_plus (λ f, rec f d)). eapply term_weaken; [by apply (delim_run s q (g ++ l ++ u))|].
        intros r s1 [-> Ha]. cbn [unres]. destruct (then_at src s [q] s1 (g ++ l ++ u) Hok Esrc Er Ha) as (Hok1 & Esrc1 & Er1 & _).
        apply (term_bind (λ f, punct_inner f (rec (k + S f) t) ef pf fol None (errs ++ [])) (λ f, bnd f k (TrTok q) elems puncts)).
        apply (term_ext (λ f, punct_inner f (rec (S k + f) t) ef pf fol None (errs ++ []))).
        { intros f. by rewrite <- plus_n_Sm. }
        apply (punct_skip src (λ f, rec f t) ef pf fol g (S k) s1 None (errs ++ []) (l ++ u)); [done..|].
        intros k1 s2 Hok2 Esrc2 Er2 Ha2.
        assert (Elook : look s2 = head (word src (l ++ u))) by (by rewrite look_nxt, Esrc2, Er2).
        destruct l as [|a l].
        + inversion Hl; subst. eapply term_weaken; [apply (punct_over (λ f, rec f t) ef pf fol k1 s2 _ _ Hok2)|].
          { rewrite Elook. intros y Hy. split; [by apply begins_not; [exact Hpt|apply Hnx]|]. apply (MD follow_spec C (Some y)). by apply Hu. }
          intros r s3 [-> Ha3]. cbn [option_list]. apply term_ret. exists [], (option_list (hold kp None g)). split_and!.
          * by rewrite !app_nil_r.
          * constructor.
          * cbn [miss_punct]. by rewrite app_nil_r, hold_cover.
          * destruct (hold kp None g) eqn:Eh; [|constructor]. apply Forall_cons. split; [by eapply hold_kind|constructor].
          * change (q :: g ++ []) with ([q] ++ g ++ []). eapply adv_trans; [done|]. by eapply adv_trans.
        + destruct (head (word src ((a :: l) ++ u))) as [y|] eqn:Ey; [|done].
          destruct (broken_head _ _ _ _ _ _ _ _ Hl Ey) as [Hy|[? _]]; [|done].
          assert (Hc : ts_contains pf (Some y) = true) by (by apply begins; [exact Hpd|]).
          set (e := holds_to kp (hold kp None g) (at_next src ((a :: l) ++ u))).
          eapply term_weaken; [apply (punct_missing (λ f, rec f t) ef pf fol k1 s2 _ _ y Hok2 Elook)|].
          { by apply begins_not; [exact Hpt|apply Hnx]. }
          { apply not_true_iff_false. intros Hf%(MD follow_spec C (Some y))%near_follows.
            apply (CF punct_end t d (conj Hw Hnl)) in Hf. congruence. }
          { done. }
          rewrite a_span_next, Esrc2, Er2. fold e.
          intros r s3 [-> Ha3]. destruct (then_at src s2 [] s3 ((a :: l) ++ u) Hok2 Esrc2 Er2 Ha3) as (Hok3 & Esrc3 & Er3 & _). cbn [option_list].
          assert (Hes0 : map e_span [e] = option_list (miss_punct src u g (a :: l))).
          { unfold e. cbn [map]. by rewrite holds_to_miss. }
          assert (Hk0 : e_kind e = kp) by apply holds_to_kind.
          assert (Hadv : adv s (q :: g) s3).
          { rewrite <- (app_nil_r (q :: g)). change (q :: g) with ([q] ++ g). rewrite <- app_assoc. eapply adv_trans; [done|]. by eapply adv_trans. }
          apply (term_ext (λ f, punct_outer f (rec (S k + f) t) (rec (S k + f) d) ef pf fol (elems ++ []) (puncts ++ [TrTok q]) ((errs ++ []) ++ [e]))).
          { intros f. by rewrite <- plus_n_Sm. }
          eapply term_weaken; [by apply (IH (S k) (elems ++ []) (puncts ++ [TrTok q]) ((errs ++ []) ++ [e]) s3)|].
          intros r s4 (xs & es & -> & Hxs & Hes & Hk & Ha4). exists xs, (e :: es). split_and!.
          * rewrite !app_nil_r, <- !app_assoc. done.
          * done.
          * by rewrite <- Hes0, <- Hes.
          * by constructor.
          * change (q :: g ++ a :: l) with ((q :: g) ++ a :: l). by eapply adv_trans.
    Qed.
  End punct.
End lists.

Lemma term_run extract env md c s Q : filled env c → state_ok s → term (λ f, produce_md env md f c) (abs extract s) Q →
  ∃ f0 r s', (∀ f, f0 ≤ f → run extract (produce_md env md f c) s = ODone r s') ∧ Q r (abs extract s') ∧ only_bad_text s s'.
Proof.
  intros Hf Hok (f0 & o & Ho & Hq).
  assert (Hnc : run extract (produce_md env md f0 c) s ≠ OCrash) by (by apply produce_no_crash).
  assert (Ha := run_abs extract (produce_md env md f0 c) s). rewrite (Ho f0) in Ha by lia.
  destruct (run extract (produce_md env md f0 c) s) as [| |r s'] eqn:E; cbn in Ha; subst o; [done..|].
  exists f0, r, s'. split; [|split; [done|by eapply produce_run_errors]].
  intros f Hle. rewrite <- E. apply le_run; [by apply produce_le|by rewrite E].
Qed.

Section whole.
  Context (env : denv) (root t : ty) (dn dy : nat) (dlit : option string) (regs : grammar prod) (md : metadata prod) (pu : bool).
  Notation d := (TTok dn dy dlit).
  Notation C := (list_ty pu t d).
  Context (Hacc : accepted env root md) (Hr : register_root env (prod_of root) = Some regs) (Hreg : regular env root) (Hprod : productive env root)
    (Hw : within env root C) (Hnl : no_loop env C) (Hn : ¬ lang env t []).
  Lemma list_term s i l u its ks sps : aok s → a_rest s = i ++ l ++ u → lang env t (word (a_src s) i) →
    (∀ y, head (word (a_src s) u) = Some y → after_list regs root C y) → broken_list env regs root pu t d (a_src s) u l its ks sps →
    term (λ f, produce_md env md f C) s (λ r s', ∃ sp xs es, r = res_into (list_tree pu sp xs (map TrTok ks)) es ∧
      Forall2 (λ i x, ∃ p, parses env (a_src s) p t i x) (i :: its) xs ∧ map e_span es = sps ∧
      Forall (wants_element env pu t (after_list regs root C)) es ∧ adv s (i ++ l) s').
  Proof using All.
    intros Hok Er Hi Hu Hl. destruct Hacc as (regs' & iter & Hr' & Hperm & Hmeta). assert (regs' = regs) as -> by congruence.
    assert (Hwt : within env root t). { eapply rtc_r; [exact Hw|]. destruct pu; cbn; by left. }
    assert (Hlt : no_loop env t). { intros c Hc. apply Hnl. eapply rtc_l; [|exact Hc]. destruct pu; cbn; by left. }
    destruct (item_parses env root Hreg (a_src s) t i (l ++ u) s Hwt Hok eq_refl Er Hi) as [x Hx].
    destruct pu; cbn [list_ty list_tree list_miss] in *.
    - assert (Hi1 : ∀ y, head (word (a_src s) (l ++ u)) = Some y → follows regs (key root) (key t) (Some y)).
      { intros y. eapply (punct_elem_next env root t dn dy dlit regs iter md Hr' Hperm Hmeta Hreg Hprod (a_src s) u Hw Hnl Hu); exact Hl. }
      apply term_S. apply (term_ext (λ f, produce_punct f (produce_md env md f t) (produce_md env md f d) (tb_get (md_first md) (key t))
        (tb_get (md_first md) (key d)) (tb_get (md_follow md) (key (TPunct t d))))); [done|].
      unfold produce_punct. apply (term_bind (λ f, produce_md env md f t)). eapply term_weaken.
      { by apply (pelem_run env root t dn dy dlit regs iter md Hr' Hperm Hmeta Hreg (a_src s) Hw Hnl s i (l ++ u) x). }
      intros r s1 [-> Ha]. cbn [unres]. destruct (then_at (a_src s) s i s1 (l ++ u) Hok eq_refl Er Ha) as (Hok1 & Esrc1 & Er1 & _).
      eapply (term_bind (λ f, punct_outer f (produce_md env md f t) (produce_md env md f d) _ _ _ [x] [] [])
        (λ _ '(elems, puncts, errs), let lo := tree_lo x in
          let hi1 := match last elems with Some x => tree_hi x | None => lo end in
          let hi2 := match last puncts with Some x => tree_hi x | None => lo end in
          mret (res_into (TrPunct (Span lo (Nat.max hi1 hi2)) elems puncts) errs))).
      eapply term_weaken.
      { by apply (punct_outer_broken env root t dn dy dlit regs iter md Hr' Hperm Hmeta Hreg Hprod (a_src s) u Hw Hnl Hu l its ks sps Hl 0 [x] [] [] s1). }
      intros r s2 (xs & es & -> & Hxs & Hes & Hk & Ha2). cbn [app]. apply term_ret. eexists _, (x :: xs), es. split; [done|].
      split; [constructor; [by eexists|exact Hxs]|]. split; [done|]. split; [|by eapply adv_trans].
      eapply Forall_impl; [exact Hk|]. intros e He. eexists. split; [exact He|]. intros y.
      unfold fs_union_minus_eps. rewrite ts_contains_union, orb_true_iff.
      rewrite ts_remove_e_contains, bool_decide_eq_false_2 by done. cbn [negb andb]. rewrite andb_true_r.
      rewrite (begins env root regs iter md Hr' Hperm Hmeta Hreg Hprod) by done.
      rewrite (follow_spec env root regs iter md Hr' Hperm Hmeta (TPunct t d) (Some y)). unfold after_list, nf. tauto.
    - assert (Hi1 : ∀ y, head (word (a_src s) (l ++ u)) = Some y → follows regs (key root) (key t) (Some y)).
      { intros y. eapply (split_elem_next env root t dn dy dlit regs iter md Hr' Hperm Hmeta Hreg Hprod (a_src s) u Hw Hu); exact Hl. }
      apply term_S. apply (term_ext (λ f, produce_split f (produce_md env md f t) (produce_md env md f d) (tb_get (md_first md) (key t))
        (tb_get (md_first md) (key d)) (tb_get (md_follow md) (key (TSplit t d))))); [done|].
      unfold produce_split. apply (term_bind (λ f, produce_md env md f t)). eapply term_weaken.
      { by apply (elem_run env root t dn dy dlit regs iter md Hr' Hperm Hmeta Hreg (a_src s) Hw Hlt s i (l ++ u) x). }
      intros r s1 [-> Ha]. cbn [unres]. destruct (then_at (a_src s) s i s1 (l ++ u) Hok eq_refl Er Ha) as (Hok1 & Esrc1 & Er1 & _).
      eapply (term_bind (λ f, split_outer f (produce_md env md f t) (produce_md env md f d) _ _ _ [x] [] [])
        (λ _ '(elems, puncts, errs), let hi := match last elems with Some x => tree_hi x | None => tree_lo x end in
          mret (res_into (TrSplit (Span (tree_lo x) hi) elems puncts) errs))).
      eapply term_weaken.
      { by apply (split_outer_broken env root t dn dy dlit regs iter md Hr' Hperm Hmeta Hreg Hprod (a_src s) u Hw Hlt Hn Hu l its ks sps Hl 0 [x] [] [] s1). }
      intros r s2 (xs & es & -> & Hxs & Hes & Hk & Ha2). cbn [app]. apply term_ret. eexists _, (x :: xs), es. split; [done|].
      split; [constructor; [by eexists|exact Hxs]|]. split; [done|]. split; [|by eapply adv_trans].
      eapply Forall_impl; [exact Hk|]. intros e He. eexists. split; [exact He|]. intros y.
      rewrite (begins env root regs iter md Hr' Hperm Hmeta Hreg Hprod) by done. split; [by left|]. by intros [?|[? _]].
  Qed.
End whole.
Lemma after_list_spec env root md regs c y : accepted env root md → register_root env (prod_of root) = Some regs →
  after_list regs root c y ↔ ts_contains (tb_get (md_follow md) (key c)) (Some y) = true.
Proof.
  intros (regs' & iter & Hr' & Hperm & Hmeta) Hr. assert (regs' = regs) as -> by congruence.
  symmetry. exact (follow_spec env root regs iter md Hr' Hperm Hmeta c (Some y)).
Qed.

Lemma list_found extract env root md regs pu t dn dy dlit s i l u its ks sps :
  accepted env root md → register_root env (prod_of root) = Some regs → regular env root → productive env root →
  within env root (list_ty pu t (TTok dn dy dlit)) → no_loop env (list_ty pu t (TTok dn dy dlit)) → ¬ lang env t [] →
  state_ok s → to_come extract s = i ++ l ++ u → lang env t (word (p_src s) i) →
  (∀ y, head (word (p_src s) u) = Some y → after_list regs root (list_ty pu t (TTok dn dy dlit)) y) →
  broken_list env regs root pu t (TTok dn dy dlit) (p_src s) u l its ks sps →
  ∃ f0 sp xs es s', (∀ f, f0 ≤ f → run extract (produce_md env md f (list_ty pu t (TTok dn dy dlit))) s =
      ODone (res_into (list_tree pu sp xs (map TrTok ks)) es) s') ∧
    took extract s (i ++ l) s' ∧ only_bad_text s s' ∧
    Forall2 (λ i x, ∃ p, parses env (p_src s) p t i x) (i :: its) xs ∧ map e_span es = sps ∧
    Forall (wants_element env pu t (after_list regs root (list_ty pu t (TTok dn dy dlit)))) es.
Proof.
  intros Hacc Hr Hreg Hprod Hw Hnl Hn Hok Eto Hi Hu Hl.
  destruct (term_run extract env md (list_ty pu t (TTok dn dy dlit)) s _ (λ c Hc, reg_filled _ _ Hreg c (rtc_transitive _ _ _ Hw Hc)) Hok
    (list_term env root t dn dy dlit regs md pu Hacc Hr Hreg Hprod Hw Hnl Hn (abs extract s) i l u its ks sps (state_ok_abs extract _ Hok) Eto Hi Hu Hl))
    as (f0 & r & s' & Hrun & (sp & xs & es & -> & Hxs & Hes & Hk & Ha) & Hb).
  exists f0, sp, xs, es, s'. split_and!; [done|by apply took_adv|done..].
Qed.
(** The whole source is a list. *)
Lemma list_parsed extract env md regs pu t dn dy dlit s i l its ks sps :
  let c := list_ty pu t (TTok dn dy dlit) in
  accepted env c md → register_root env (prod_of c) = Some regs → regular env c → productive env c → no_loop env c → ¬ lang env t [] →
  state_ok s → to_come extract s = i ++ l → lang env t (word (p_src s) i) →
  broken_list env regs c pu t (TTok dn dy dlit) (p_src s) [] l its ks sps →
  ∃ f0 sp xs es bad s', (∀ f, f0 ≤ f → run extract (parse env f c (inr md)) s = ODone (inr (Some (list_tree pu sp xs (map TrTok ks)))) s') ∧
    to_come extract s' = [] ∧
    Forall2 (λ i x, ∃ p, parses env (p_src s) p t i x) (i :: its) xs ∧ map e_span es = sps ∧
    Forall (wants_element env pu t (after_list regs c c)) es ∧
    p_invalid s' = p_invalid s ++ bad ∧ p_errors s' = p_errors s ++ map (λ sp, PErr sp UnexpectedCharacters) bad ++ es.
Proof.
  intros c Hacc Hr Hreg Hprod Hnl Hn Hok Eto Hi Hl.
  destruct (list_found extract env c md regs pu t dn dy dlit s i l [] its ks sps) as (f0 & sp & xs & es & s1 & Hrun & Ht & Hb & Hxs & Hes & Hk);
    [done..|constructor|done|done|done|by rewrite app_nil_r|done|done|done|].
  destruct Hb as (bad & Hb1 & Hb2).
  set (s2 := Pst (p_src s1) (p_evs s1) (p_peeked s1) (p_invalid s1) (p_tokens s1) (p_extracted s1) (p_errors s1 ++ es)).
  exists f0, sp, xs, es, bad, s2. split_and!; [| |done|done|done|done|cbn; by rewrite Hb2, <- app_assoc].
  - intros f Hf. specialize (Hrun f Hf). unfold parse, parse_with. rewrite !run_bind. unfold produce_md in Hrun. fold c in Hrun. rewrite Hrun.
    destruct es as [|e es]; cbn; [|done]. subst s2. rewrite app_nil_r. by destruct s1.
  - change (to_come extract s2) with (to_come extract s1). destruct Ht as (_ & _ & E). rewrite Eto in E. 
    rewrite <- (app_nil_r (i ++ l)) in E at 1. by apply app_inv_head in E.
Qed.
