(** Errors are listed in the order of the source. *)
From Coq Require Import String NArith.
From stdpp Require Import prelude list strings relations.
From Verif Require Import LexModel LexSpec LexFacts SynSetModel TableModel StreamModel StreamSpec StreamFacts
  TypeModel ProduceModel CfgSpec ParseSpec ProgFacts TreeFacts SoundFacts RunFacts InvFacts PrefixSpec EarlyFacts
  OffendFacts LookFacts NodeFacts VecFacts ParseFacts ReportSpec.
Local Open Scope nat_scope.
#[local] Arguments ts_contains : simpl never.
#[local] Arguments ts_contains_e : simpl never.

(** * Lists of errors that start in order, between two places *)
Notation lo e := (sp_lo (e_span e)).
Fixpoint chain (a : nat) (es : list perr) (b : nat) : Prop :=
  match es with [] => a ≤ b | e :: r => a ≤ lo e ∧ chain (lo e) r b end.
Lemma chain_le a es b : chain a es b → a ≤ b.
Proof. revert a. induction es as [|e es IH]; intros a; cbn [chain]; [done|]. intros [H1 H2%IH]. lia. Qed.
Lemma chain_l a' a es b : a' ≤ a → chain a es b → chain a' es b.
Proof. destruct es as [|e es]; cbn [chain]; [lia|]. intros H1 [H2 H3]. split; [lia|done]. Qed.
Lemma chain_app a e1 e2 c : chain a (e1 ++ e2) c ↔ ∃ b, chain a e1 b ∧ chain b e2 c.
Proof.
  revert a. induction e1 as [|e e1 IH]; intros a; cbn [chain app].
  - split; [intros H; exists a; split; [lia|done]|]. intros (b & H1 & H2). by eapply chain_l.
  - rewrite IH. split.
    + intros [H1 (b & H2 & H3)]. by exists b.
    + intros (b & (H1 & H2) & H3). split; [done|]. by exists b.
Qed.
Lemma chain_r a es b c : chain a es b → b ≤ c → chain a es c.
Proof. intros H1 H2. rewrite <- (app_nil_r es). apply chain_app. by exists b. Qed.
Lemma chain_snoc a es b e c : chain a es b → b ≤ lo e → lo e ≤ c → chain a (es ++ [e]) c.
Proof. intros H1 H2 H3. apply chain_app. exists b. split; [done|]. by cbn [chain]. Qed.
Lemma chain_in a es b e : chain a es b → e ∈ es → a ≤ lo e ≤ b.
Proof.
  intros H (l1 & l2 & ->)%elem_of_list_split. apply chain_app in H as (m & H1 & H2).
  cbn [chain] in H2. destruct H2 as [H2 H3]. apply chain_le in H1, H3. lia.
Qed.
Lemma chain_order a es b : chain a es b → by_place es.
Proof.
  intros H i j x y Hij Hx Hy. assert (Hd : es = take (S i) es ++ drop (S i) es) by (by rewrite take_drop).
  rewrite Hd in H. apply chain_app in H as (m & H1 & H2).
  assert (Hx' : x ∈ take (S i) es).
  { apply elem_of_list_lookup. exists i. rewrite lookup_take by lia. done. }
  assert (Hy' : y ∈ drop (S i) es).
  { apply elem_of_list_lookup. exists (j - S i). rewrite lookup_drop. by replace (S i + (j - S i)) with j by lia. }
  apply (chain_in _ _ _ _ H1) in Hx'. apply (chain_in _ _ _ _ H2) in Hy'. lia.
Qed.
Lemma chain_merge a errs p b e c : chain a (errs ++ option_list p) b → chain b e c →
  chain a (errs ++ option_list (merge_panic p e)) c.
Proof.
  intros H1 H2. assert (Hbc := chain_le _ _ _ H2). unfold merge_panic. destruct (last e) as [x|] eqn:E.
  - apply last_Some in E as [e' ->]. apply chain_app in H1 as (m & H1 & H3). apply chain_app. exists m. split; [done|].
    assert (b ≤ lo x ≤ c) by (apply (chain_in _ _ _ x H2); set_solver).
    destruct p as [p|]; cbn [option_list option_rect chain] in *; [cbn; lia|lia].
  - by eapply chain_r.
Qed.
Lemma chain_hi a errs p b h : chain a (errs ++ [p]) b → chain a (errs ++ [set_hi p h]) b.
Proof. rewrite !chain_app. intros (m & H1 & H2). exists m. done. Qed.

Lemma cur_le s l s' : aok s → adv s l s' → cur s ≤ cur s'.
Proof.
  intros H Hl. rewrite aok_eq in H. by eapply (cur_adv (a_src s) (toks s ++ a_rest s) H).
Qed.

Lemma aok_pop s : aok s → aok (pop s).
Proof. apply (adv_aok _ _ _ (pop_adv s)). Qed.

(** * Runs *)
Section order.
  Definition ord (p : M (res tree)) : Prop := ∀ s, aok s → W p s (λ r s', chain (cur s) (unres r).2 (cur s')).
  Definition pln (p : M (res tree)) : Prop := ∀ s, aok s → W p s (λ r _, plain r).

  Lemma seq_ord rec ts acc errs a s : aok s → chain a errs (cur s) → (∀ t, t ∈ ts → ord (rec t)) →
    W (produce_seq rec ts acc errs) s (λ r s', chain a (unres r).2 (cur s')).
  Proof.
    revert acc errs s. induction ts as [|t ts IH]; intros acc errs s Hok Hs Hrec; cbn [produce_seq].
    - apply wp_ret. by rewrite unres_into.
    - apply wp_bind. eapply wp_call; [apply Hrec; [set_solver|done]|done|]. intros r s1 l1 Hl Hok1 H. cbn beta in H.
      assert (chain a (errs ++ (unres r).2) (cur s1)) as H' by (apply chain_app; eauto).
      revert H'. destruct (unres r) as [[x|] e]; cbn [snd]; intros H'.
      + apply IH; [done|done|]. intros; apply Hrec; set_solver.
      + by apply wp_ret.
  Qed.
  Lemma option_ord {X} (p : M (res X)) (sp : X → span) set s : aok s →
    (∀ s, aok s → W p s (λ r s', chain (cur s) (unres r).2 (cur s'))) →
    W (produce_option p sp set) s (λ r s', chain (cur s) (unres r).2 (cur s')).
  Proof.
    intros Hok Hp. unfold produce_option. apply wp_bind, wp_peek_src; [done|].
    assert (Hnone : W (e ← empty_span; mret (RSucc (e, @None X))) s (λ r s', chain (cur s) (unres r).2 (cur s'))).
    { apply wp_bind, wp_empty_span, wp_ret. cbn. lia. }
    destruct (look s) as [x|]; [|done]. destruct (ts_contains set (Some x)); [|done].
    apply wp_bind. eapply wp_call; [by apply Hp|done|]. intros r s1 l1 Hl Hok1 H. cbn beta in H.
    destruct r; [by apply wp_ret..|]. by apply wp_bind, wp_empty_span, wp_ret.
  Qed.
  Lemma iter_ord p n set acc errs hi a s : aok s → chain a errs (cur s) → ord p →
    W (iter_loop n p set acc errs hi) s (λ '(_, es, _) s', chain a es (cur s')).
  Proof.
    intros Hok Hs Hp. revert acc errs hi s Hok Hs. induction n as [|n IH]; intros acc errs hi s Hok Hs; cbn [iter_loop]; [done|].
    apply wp_bind, wp_peek_src; [done|].
    destruct (look s) as [x|]; [|by apply wp_ret]. destruct (ts_contains set (Some x)); [|by apply wp_ret].
    apply wp_bind. eapply wp_call; [by apply Hp|done|]. intros r s1 l1 Hl Hok1 H. cbn beta in H.
    assert (chain a (errs ++ (unres r).2) (cur s1)) as H' by (apply chain_app; eauto).
    revert H'. destruct (unres r) as [[y|] e]; cbn [snd]; intros H'; [by apply IH|by apply wp_ret].
  Qed.
  Lemma plus_ord p n set s : aok s → ord p → W (produce_plus n p set) s (λ r s', chain (cur s) (unres r).2 (cur s')).
  Proof.
    intros Hok Hp. unfold produce_plus. apply wp_bind. eapply wp_call; [by apply Hp|done|]. intros r s1 l1 Hl Hok1 H.
    cbn beta in H; revert H; destruct (unres r) as [[y|] e]; cbn [snd]; intros H; [|by apply wp_ret].
    apply wp_bind. eapply wp_mono; [by apply iter_ord|]. intros [[xs es] h] s2 H2.
    apply wp_ret. by rewrite unres_into.
  Qed.
  Lemma loop_ord p n set acc errs a s : aok s → chain a errs (cur s) → ord p →
    W (loop_loop n p set acc errs) s (λ '(_, es) s', chain a es (cur s')).
  Proof.
    intros Hok Hs Hp. revert acc errs s Hok Hs. induction n as [|n IH]; intros acc errs s Hok Hs; cbn [loop_loop]; [done|].
    apply wp_bind, wp_peek_src; [done|].
    destruct (look s) as [x|]; [|by apply wp_ret].
    apply wp_bind. apply (wp_call _ _ _ (λ '(_, es) s', chain a es (cur s'))); [|done|].
    { destruct (ts_contains set (Some x)); [by apply wp_ret|].
      apply wp_bind, wp_cur_span. apply wp_bind, wp_consume.
      assert (Hok1 : aok (pop s)) by (by apply aok_pop).
      apply wp_bind, wp_peek_src; [done|].
      apply wp_bind. eapply wp_call; [apply wp_true|done|]. intros [t1 h] s2 l2 Hl2 Hok2 _. apply wp_ret.
      eapply chain_snoc; [done|done|]. cbn. 
      etrans; [apply (cur_le s _ (pop s) Hok (pop_adv s))|]. by eapply cur_le. }
    intros [t1 es1] s1 l1 Hl1 Hok1 H1. destruct t1; [|by apply wp_ret].
    apply wp_bind, wp_cur_span. apply wp_bind. eapply wp_call; [by apply Hp|done|]. intros r s2 l2 Hl2 Hok2 H. cbn beta in H.
    assert (chain a (es1 ++ (unres r).2) (cur s2)) as H' by (apply chain_app; eauto).
    revert H'. destruct (unres r) as [o e]; cbn [snd]; intros H'. apply wp_bind, wp_cur_span.
    destruct (_ =? _); [|by apply IH]. apply wp_ret. by eapply chain_snoc.
  Qed.
  Lemma produce_loop_ord p n set s : aok s → ord p → W (produce_loop n p set) s (λ r s', chain (cur s) (unres r).2 (cur s')).
  Proof.
    intros Hok Hp. unfold produce_loop. apply wp_bind. eapply wp_call; [apply (loop_ord _ _ _ _ _ (cur s)); [done| |done]|done|].
    { cbn. lia. }
    intros [l es] s1 l1 Hl1 Hok1 H. apply wp_bind. eapply wp_call; [apply wp_true|done|]. intros sp s2 l2 Hl2 Hok2 _. apply wp_ret.
    rewrite unres_into. cbn [snd]. eapply chain_r; [done|]. by eapply cur_le.
  Qed.

  Lemma split_inner_ord pT n ef pf fol panic errs a s : aok s → chain a (errs ++ option_list panic) (cur s) → ord pT → pln pT →
    W (split_inner n pT ef pf fol panic errs) s (λ '(_, es, _) s', chain a es (cur s')).
  Proof.
    intros Hok Hs HT Hpl. revert panic errs s Hok Hs. induction n as [|n IH]; intros panic errs s Hok Hs; cbn [split_inner]; [done|].
    apply wp_bind, wp_peek_src; [done|]. apply wp_bind.
    apply (wp_call _ _ _ (λ step s', match step with
      | inl (_, es) => chain a es (cur s')
      | inr (_, p') => chain a (errs ++ option_list p') (cur s') end)); [|done|].
    { destruct (_ || _).
      - apply wp_bind. eapply wp_call; [apply wp_and; [by apply HT|by apply Hpl]|done|]. intros r s1 l1 Hl Hok1 [H Hp].
        destruct r as [x|x e|e]; cbn [unres snd] in H |- *; [|done|].
        + apply wp_ret. cbn [app]. by eapply chain_r.
        + apply wp_bind, wp_peek_src; [done|]. apply wp_ret. by eapply chain_merge.
      - destruct panic as [p|].
        + apply wp_bind, wp_cur_span, wp_ret. by apply chain_hi.
        + apply wp_bind, wp_expecting, wp_ret. cbn [option_list option_rect] in *. rewrite app_nil_r in Hs. by eapply chain_snoc. }
    intros [[x es]|[tk' p']] s1 l1 Hl Hok1 H; [by apply wp_ret|].
    destruct (ts_contains pf tk'); [by apply wp_ret|].
    destruct (_ || _); [by apply wp_ret|].
    apply wp_bind, wp_consume. assert (Hok2 : aok (pop s1)) by (by apply aok_pop).
    apply IH; [done|]. eapply chain_r; [done|]. by apply (cur_le _ _ _ Hok1 (pop_adv s1)).
  Qed.
  Lemma split_outer_ord pT pP n ef pf fol elems puncts errs a s : aok s → chain a errs (cur s) → ord pT → pln pT → ord pP →
    W (split_outer n pT pP ef pf fol elems puncts errs) s (λ '(_, _, es) s', chain a es (cur s')).
  Proof.
    intros Hok Hs HT Hpl HP. revert elems puncts errs s Hok Hs. induction n as [|n IH]; intros elems puncts errs s Hok Hs; cbn [split_outer]; [done|].
    apply wp_bind, wp_peek_src; [done|].
    destruct (look s) as [x|]; [|by apply wp_ret]. destruct (ts_contains pf (Some x)); [|by apply wp_ret].
    apply wp_bind. eapply wp_call; [by apply HP|done|]. intros r s1 l1 Hl Hok1 H. cbn beta in H.
    assert (chain a (errs ++ (unres r).2) (cur s1)) as H' by (apply chain_app; eauto).
    revert H'. destruct (unres r) as [[q|] e]; cbn [snd]; intros H'; [|by apply wp_ret].
    apply wp_bind. eapply wp_call; [apply (split_inner_ord _ _ _ _ _ _ _ a); [done| |done..]|done|].
    { cbn [option_list option_rect]. by rewrite app_nil_r. }
    intros [[o es] c] s2 l2 Hl2 Hok2 H2. destruct c; [by apply IH|by apply wp_ret].
  Qed.
  Lemma punct_inner_ord pT n ef pf fol panic errs a s : aok s → chain a (errs ++ option_list panic) (cur s) → ord pT →
    W (punct_inner n pT ef pf fol panic errs) s (λ '(_, es, _) s', chain a es (cur s')).
  Proof.
    intros Hok Hs HT. revert panic errs s Hok Hs. induction n as [|n IH]; intros panic errs s Hok Hs; cbn [punct_inner]; [done|].
    apply wp_bind, wp_peek_src; [done|]. destruct (look s) as [x|]; [|by apply wp_ret].
    destruct (_ && _); [by apply wp_ret|]. apply wp_bind.
    apply (wp_call _ _ _ (λ step s', match step with
      | inl (_, es) => chain a es (cur s')
      | inr p' => chain a (errs ++ option_list p') (cur s') end)); [|done|].
    { destruct (ts_contains ef (Some x)).
      - apply wp_bind. eapply wp_call; [by apply HT|done|]. intros r s1 l1 Hl Hok1 H. cbn beta in H.
        revert H; destruct (unres r) as [[y|] e]; cbn [snd]; intros H; apply wp_ret.
        + rewrite (assoc_L (++)). apply chain_app. eauto.
        + by eapply chain_merge.
      - apply wp_bind, wp_cur_span, wp_ret. destruct panic as [p|].
        + by apply chain_hi.
        + cbn [option_list option_rect] in *. rewrite app_nil_r in Hs. by eapply chain_snoc. }
    intros [[y es]|p'] s1 l1 Hl Hok1 H; [by apply wp_ret|]. apply wp_bind, wp_peek_src; [done|].
    destruct (ts_contains pf _); [by apply wp_ret|].
    destruct (_ || _); [by apply wp_ret|].
    apply wp_bind, wp_consume. assert (Hok2 : aok (pop s1)) by (by apply aok_pop).
    apply IH; [done|]. eapply chain_r; [done|]. by apply (cur_le _ _ _ Hok1 (pop_adv s1)).
  Qed.
  Lemma punct_outer_ord pT pP n ef pf fol elems puncts errs a s : aok s → chain a errs (cur s) → ord pT → ord pP →
    W (punct_outer n pT pP ef pf fol elems puncts errs) s (λ '(_, _, es) s', chain a es (cur s')).
  Proof.
    intros Hok Hs HT HP. revert elems puncts errs s Hok Hs. induction n as [|n IH]; intros elems puncts errs s Hok Hs; cbn [punct_outer]; [done|].
    apply wp_bind, wp_peek_src; [done|].
    destruct (look s) as [x|]; [|by apply wp_ret]. destruct (ts_contains pf (Some x)); [|by apply wp_ret].
    apply wp_bind. eapply wp_call; [by apply HP|done|]. intros r s1 l1 Hl Hok1 H. cbn beta in H.
    assert (chain a (errs ++ (unres r).2) (cur s1)) as H' by (apply chain_app; eauto).
    revert H'. destruct (unres r) as [[q|] e]; cbn [snd]; intros H'; [|by apply wp_ret].
    apply wp_bind. eapply wp_call; [apply (punct_inner_ord _ _ _ _ _ _ _ a); [done| |done..]|done|].
    { cbn [option_list option_rect]. by rewrite app_nil_r. }
    intros [[o es] c] s2 l2 Hl2 Hok2 H2. destruct c; [by apply IH|by apply wp_ret].
  Qed.
  Lemma recover_loop_ord pR n tf panic errs a s : aok s → chain a (errs ++ option_list panic) (cur s) → ord pR → pln pR →
    W (recover_loop n pR tf panic errs) s (λ '(_, p', es) s', chain a (es ++ option_list p') (cur s')).
  Proof.
    intros Hok Hs HR Hpl. revert panic errs s Hok Hs. induction n as [|n IH]; intros panic errs s Hok Hs; cbn [recover_loop]; [done|].
    apply wp_bind, wp_peek_src; [done|]. destruct (look s) as [x|].
    - apply wp_bind.
      apply (wp_call _ _ _ (λ step s', match step with
        | inl (_, es) => chain a (es ++ option_list panic) (cur s')
        | inr p' => chain a (errs ++ option_list p') (cur s') end)); [|done|].
      { destruct (_ || _); [|by apply wp_ret].
        apply wp_bind. eapply wp_call; [apply wp_and; [by apply HR|by apply Hpl]|done|]. intros r s1 l1 Hl Hok1 [H Hp].
        destruct r as [y|y e|e]; cbn [unres snd] in H |- *; [|done|]; apply wp_ret.
        + rewrite app_nil_r. by eapply chain_r.
        + by eapply chain_merge. }
      intros [[y es]|p'] s1 l1 Hl Hok1 H; [by apply wp_ret|]. apply wp_bind.
      apply (wp_call _ _ _ (λ p s', chain a (errs ++ [p]) (cur s'))); [|done|].
      { destruct p' as [p'|].
        - apply wp_bind, wp_cur_span, wp_ret. by apply chain_hi.
        - apply wp_expecting. cbn [option_list option_rect] in *. rewrite app_nil_r in H. by eapply chain_snoc. }
      intros p s2 l2 Hl2 Hok2 H2. apply wp_bind, wp_consume.
      assert (Hok3 : aok (pop s2)) by (by apply aok_pop).
      apply IH; [done|]. eapply chain_r; [done|]. by apply (cur_le _ _ _ Hok2 (pop_adv s2)).
    - destruct (ts_contains_e tf); [|by apply wp_ret].
      apply wp_bind. eapply wp_call; [apply wp_and; [by apply HR|by apply Hpl]|done|]. intros r s1 l1 Hl Hok1 [H Hp].
      destruct r as [y|y e|e]; cbn [unres snd] in H |- *; [|done|]; apply wp_ret.
      + rewrite app_nil_r. by eapply chain_r.
      + by eapply chain_merge.
  Qed.
  Lemma recover_ord pT pR n hf tf s : aok s → ord pT → ord pR → pln pR →
    W (produce_recover n pT pR hf tf) s (λ r s', chain (cur s) (unres r).2 (cur s')).
  Proof.
    intros Hok HT HR Hpl. unfold produce_recover. apply wp_bind, wp_peek_src; [done|]. apply wp_bind.
    apply (wp_call _ _ _ (λ '(p, _, _, es) s', chain (cur s) (es ++ option_list p) (cur s'))); [|done|].
    { destruct (_ || _).
      - apply wp_bind. eapply wp_call; [by apply HT|done|]. intros r s1 l1 Hl Hok1 H. cbn beta in H.
        revert H; destruct (unres r) as [[y|] e]; cbn [snd]; intros H.
        + apply wp_ret. cbn [option_list option_rect]. by rewrite app_nil_r.
        + apply wp_bind, wp_empty_span, wp_ret. cbn [app].
          assert (Hm : chain (cur s) ([] ++ option_list (merge_panic None e)) (cur s1)) by (eapply chain_merge; [|done]; cbn; lia).
          unfold merge_panic in Hm. by destruct (last e).
      - apply wp_bind, wp_expecting. apply wp_bind, wp_empty_span, wp_ret. cbn. by unfold cur. }
    intros [[[p hsp] hd] es] s1 l1 Hl Hok1 H. apply wp_bind. eapply wp_mono; [by apply recover_loop_ord|].
    intros [[tl p'] es'] s2 H2. cbn zeta. destruct tl; apply wp_ret; [by rewrite unres_into|done].
  Qed.
  Lemma res_map_ord {A B} (g : A → B) (p : M (res A)) s Φ : W p s (λ r s', Φ (unres r).2 s') →
    W (r ← p; mret (res_map g r)) s (λ r s', Φ (unres r).2 s').
  Proof. intros H. apply wp_bind. eapply wp_mono; [done|]. intros r s' H'. apply wp_ret. by destruct r. Qed.

  Variable env : denv.
  Variables (first follow : prod → tset) (jump : prod → option tok → option nat).
  Notation produce := (produce env first follow jump).

  Lemma produce_ord f t : tidy env t → ord (produce f t).
  Proof.
    revert t. induction f as [|f IH]; intros t Ht; [done|].
    assert (Hsub : ∀ c, c ∈ subs env t → ord (produce f c)).
    { intros c Hc. apply IH. by eapply all_within_sub. }
    assert (Hh := all_within_here _ _ _ Ht).
    intros s Hok.
    destruct t as [n y lit|n|ts|t|t|t|t|t|t|t|t|t d|t d|t r]; cbn [ProduceModel.produce].
    - apply (res_map_ord _ _ _ (λ e s', chain (cur s) e (cur s'))). destruct lit as [l|].
      + apply wp_parse_token_lit; [done|]. assert (Hp := cur_le s _ _ Hok (pop_adv s)).
        destruct (a_rest s) eqn:Er; repeat (case_decide || case_match); unfold cur, a_span in *; rewrite ?Er in *; cbn [unres snd chain e_span]; lia.
      + apply wp_parse_token. assert (Hp := cur_le s _ _ Hok (pop_adv s)).
        destruct (a_rest s) eqn:Er; repeat case_decide; unfold cur, a_span in *; rewrite ?Er in *; cbn [unres snd chain e_span]; lia.
    - cbn [subs] in Hsub. destruct (env !! n) as [[fs|vs]|] eqn:En; [| |done].
      + cbn in Hsub. apply wp_bind. eapply wp_call; [apply (seq_ord _ _ _ _ (cur s)); [done|cbn; lia|done]|done|].
        intros r s1 l1 Hl Hok1 H. cbn beta in H. revert H. destruct (unres r) as [[xs|] e]; cbn [snd]; intros H; [|by apply wp_ret].
        apply wp_bind. eapply wp_call; [apply wp_true|done|]. intros u s2 l2 Hl2 Hok2 _. apply wp_ret. rewrite unres_into.
        eapply chain_r; [done|]. by eapply cur_le.
      + apply wp_bind, wp_peek_src; [done|].
        destruct (i ← jump _ _; v ← vs !! i; Some (i, v)) as [[i [t' sem]]|] eqn:Ej.
        2: { apply wp_bind, wp_expecting, wp_ret. cbn. by unfold cur. }
        assert (vs !! i = Some (t', sem)) as Hi.
        { destruct (jump (key (TNamed n)) (look s)) as [i'|]; [|done]. cbn in Ej.
          destruct (vs !! i') eqn:E; [|done]. cbn in Ej. injection Ej as -> ->. done. }
        assert (Ht2 : t' ∈ map fst vs).
        { apply elem_of_list_lookup_2 in Hi. by apply elem_of_list_In, (in_map fst), elem_of_list_In in Hi. }
        apply wp_bind. eapply wp_call; [by apply (Hsub t')|done|]. intros r s1 l1 Hl Hok1 H. cbn beta in H.
        destruct r, sem; try (by apply wp_ret); apply wp_bind, wp_apply, wp_ret; by cbn.
    - apply (res_map_ord _ _ _ (λ e s', chain (cur s) e (cur s'))). apply seq_ord; [done|cbn; lia|done].
    - apply Hsub; [cbn; set_solver|done].
    - apply (res_map_ord _ _ _ (λ e s', chain (cur s) e (cur s'))). apply option_ord; [done|]. apply Hsub. cbn; set_solver.
    - apply (res_map_ord _ _ _ (λ e s', chain (cur s) e (cur s'))). apply option_ord; [done|]. apply Hsub. cbn; set_solver.
    - apply wp_bind. eapply wp_call; [apply Hsub; [cbn; set_solver|done]|done|]. intros r s1 l1 Hl Hok1 H. cbn beta in H.
      destruct r; [| |by apply wp_ret]; apply wp_get_any; intros ?; by apply wp_ret.
    - apply wp_bind. eapply wp_call; [apply Hsub; [cbn; set_solver|done]|done|]. intros r s1 l1 Hl Hok1 H. cbn beta in H.
      destruct r; [| |by apply wp_ret]; apply wp_get_any; intros ?; by apply wp_ret.
    - apply (res_map_ord _ _ _ (λ e s', chain (cur s) e (cur s'))). apply plus_ord; [done|]. apply Hsub. cbn; set_solver.
    - apply (res_map_ord _ _ _ (λ e s', chain (cur s) e (cur s'))). apply option_ord; [done|]. intros s' Hok'.
      apply plus_ord; [done|]. apply Hsub. cbn; set_solver.
    - apply (res_map_ord _ _ _ (λ e s', chain (cur s) e (cur s'))). apply produce_loop_ord; [done|]. apply Hsub. cbn; set_solver.
    - unfold produce_split. assert (HT : ord (produce f t)) by (apply Hsub; cbn; set_solver).
      apply wp_bind. eapply wp_call; [by apply HT|done|]. intros r s1 l1 Hl Hok1 H. cbn beta in H.
      revert H. destruct (unres r) as [[x|] e]; cbn [snd]; intros H; [|by apply wp_ret].
      apply wp_bind. eapply wp_mono; [apply split_outer_ord; [done|done|done| |]|].
      + intros s' Hok'. by apply produce_plain.
      + apply Hsub; cbn; set_solver.
      + intros [[l q] es] s2 H2. apply wp_ret. by rewrite unres_into.
    - unfold produce_punct. assert (HT : ord (produce f t)) by (apply Hsub; cbn; set_solver).
      apply wp_bind. eapply wp_call; [by apply HT|done|]. intros r s1 l1 Hl Hok1 H. cbn beta in H.
      revert H. destruct (unres r) as [[x|] e]; cbn [snd]; intros H; [|by apply wp_ret].
      apply wp_bind. eapply wp_mono; [apply punct_outer_ord; [done|done|done|]|].
      + apply Hsub; cbn; set_solver.
      + intros [[l q] es] s2 H2. apply wp_ret. by rewrite unres_into.
    - apply recover_ord; [done| | |].
      + apply Hsub; cbn; set_solver.
      + apply Hsub; cbn; set_solver.
      + intros s' Hok'. by apply produce_plain.
  Qed.
End order.

(** * The errors of a parser *)
Lemma run_order extract env first follow jump f t s r s' : state_ok s → tidy env t →
  run extract (produce env first follow jump f t) s = ODone r s' → by_place (errors_of r).
Proof.
  intros Hok Ht Hr. eapply chain_order.
  exact (run_wp extract _ _ _ _ _ _ _ (produce_ord env first follow jump f t Ht (abs extract s) (state_ok_abs extract s Hok)) Hr).
Qed.

Lemma syntax_app a b : syntax_errors (a ++ b) = syntax_errors a ++ syntax_errors b.
Proof. apply filter_app. Qed.
Lemma text_app a b : text_errors (a ++ b) = text_errors a ++ text_errors b.
Proof. apply filter_app. Qed.
Notation text l := (map (λ sp, PErr sp UnexpectedCharacters) l).
Lemma syntax_text l : syntax_errors (text l) = [].
Proof. induction l as [|sp l IH]; [done|]. unfold syntax_errors. rewrite map_cons, filter_cons_False by done. apply IH. Qed.
Lemma text_text l : text_errors (text l) = text l.
Proof. induction l as [|sp l IH]; [done|]. unfold text_errors. rewrite map_cons, filter_cons_True by done. f_equal. apply IH. Qed.
Lemma syntax_all es : (∀ e, e ∈ es → e_kind e ≠ UnexpectedCharacters) → syntax_errors es = es ∧ text_errors es = [].
Proof.
  induction es as [|e es IH]; [done|]. intros H. destruct IH as [IH1 IH2]; [set_solver|].
  assert (is_text e = false) as He.
  { unfold is_text. assert (e_kind e ≠ UnexpectedCharacters) by (apply H; set_solver). by destruct (e_kind e). }
  unfold syntax_errors, text_errors in *. rewrite filter_cons_True by done. rewrite filter_cons_False by (by rewrite He). by rewrite IH1.
Qed.

(** What one call adds. *)
Lemma call_errors extract env f t meta s o s' : filled env t → state_ok s →
  run extract (parse env f t meta) s = ODone o s' → s' = s ∨
  ∃ md r s1, run extract (produce_md env md f t) s = ODone r s1 ∧ abs extract s' = abs extract s1 ∧ p_evs s' = p_evs s1 ∧
    syntax_errors (p_errors s') = syntax_errors (p_errors s) ++ errors_of r ∧
    ∃ bad, p_invalid s' = p_invalid s ++ bad ∧ text_errors (p_errors s') = text_errors (p_errors s) ++ text bad.
Proof.
  intros Hf Hok. destruct meta as [e|md]; [by intros [= _ <-]; left|]. intros (x & -> & H)%parse_run. right.
  destruct (parse_with_run _ _ _ _ _ _ _ _ _ _ H) as (r & s1 & H1 & -> & Hs & He & Habs).
  destruct (produce_run_errors _ _ _ _ _ _ _ _ _ _ H1) as (bad & Hb1 & Hb2).
  exists md, r, s1. split; [done|]. split; [done|]. split; [by rewrite Hs|].
  destruct (syntax_all (errors_of r)) as [Hsy Htx].
  { intros e Hin. by eapply error_kind. }
  unfold errors_of in *. rewrite He, Hb2, !syntax_app, !text_app, syntax_text, text_text, Hsy, Htx, !app_nil_r. split; [done|].
  exists bad. split; [by rewrite Hs|done].
Qed.

Lemma calls_syntax extract src evs s : raw_ok (String.length src) evs →
  calls extract (λ env t, filled env t ∧ tidy env t) (pst_new src evs) s → by_place (syntax_errors (p_errors s)).
Proof.
  intros Hraw H. enough (state_ok s ∧ chain 0 (syntax_errors (p_errors s)) (cur (abs extract s))) as [_ Hc] by (by eapply chain_order).
  revert s H. apply rtc_ind_r.
  - split; [by apply state_ok_new|]. cbn. lia.
  - intros s s' _ (env & f & t & meta & o & [Hf Ht] & Hr) [Hok Hc]. split; [by eapply run_ok|].
    destruct (call_errors _ _ _ _ _ _ _ _ Hf Hok Hr) as [->|(md & r & s1 & H1 & Ha & _ & Hs & _)]; [done|].
    rewrite Hs, Ha. apply chain_app. exists (cur (abs extract s)). split; [done|].
    exact (run_wp extract _ _ _ _ _ _ _ (produce_ord _ _ _ _ f t Ht (abs extract s) (state_ok_abs extract s Hok)) H1).
Qed.

Lemma sublist_spans (bs : list (list span * option token)) :
  omap (λ b, hull b.1) bs `sublist_of` out_spans (map (λ '(es, t), (hull es, t)) bs).
Proof.
  induction bs as [|[es t] bs IH]; [done|]. cbn. unfold out_spans in *. destruct (hull es) as [sp|]; cbn.
  - apply sublist_skip. by apply sublist_inserts_l.
  - by apply sublist_inserts_l.
Qed.
Lemma bad_order len evs l1 l2 : raw_ok len evs → bad_text evs = l1 ++ l2 → by_place (text l1).
Proof.
  intros Hraw E i j a b Hij Ha Hb.
  assert (H : spans_ok 0 len (bad_text evs)).
  { eapply spans_ok_sublist; [apply sublist_spans|]. by apply (lexer_spans_gen 0 len [] evs). }
  rewrite E in H. apply spans_ok_prefix in H.
  apply list_lookup_fmap_inv in Ha as (sa & -> & Ha). apply list_lookup_fmap_inv in Hb as (sb & -> & Hb). cbn.
  assert (sp_hi sa ≤ sp_lo sb) by (by eapply spans_ok_order). destruct (spans_ok_lookup _ _ _ _ _ H Ha). lia.
Qed.
Lemma calls_text extract src evs s : raw_ok (String.length src) evs →
  calls extract filled (pst_new src evs) s → by_place (text_errors (p_errors s)).
Proof.
  intros Hraw H. enough (state_ok s ∧ text_errors (p_errors s) = text (p_invalid s) ∧
    p_invalid s ++ bad_text (p_evs s) = bad_text evs) as (_ & E & H').
  { rewrite E. by eapply bad_order. }
  revert s H. apply rtc_ind_r.
  - split; [by apply state_ok_new|]. done.
  - intros s s' _ (env & f & t & meta & o & Hf & Hr) (Hok & Hc & Hi). split; [by eapply run_ok|].
    split.
    + destruct (call_errors _ _ _ _ _ _ _ _ Hf Hok Hr) as [->|(md & r & s1 & H1 & Ha & _ & _ & bad & Hb & Ht)]; [done|].
      by rewrite Ht, Hb, Hc, map_app.
    + rewrite <- Hi. exact (cv_invalid _ _ _ (run_conserves _ _ _ _ _ Hr)).
Qed.
