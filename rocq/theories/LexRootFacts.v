(** Terminals as roots ([terminal_parse]). *)
From Coq Require Import String NArith.
From stdpp Require Import prelude list strings relations.
From Verif Require Import LexModel LexSpec SynSetModel TableModel CfgSpec StreamModel StreamSpec StreamFacts TypeModel TypeSpec ProduceModel
  ParseSpec RunFacts MdFacts ParseFacts TypeFacts MetaFacts MacroModel MacroSpec MacroFacts SynMacroModel SynMacroSpec LexItemModel LexItemSpec LexItemFacts.
Local Open Scope nat_scope.

Lemma register_tok env k y lit : register_root env (PTok k y lit) = Some [(PTok k y lit, ETok y lit)].
Proof. unfold register_root. cbn [register pid]. rewrite decide_False by apply not_elem_of_nil. done. Qed.

Lemma tok_accepted env k y lit iter : iter ≡ₚ [(PTok k y lit, ETok y lit)] →
  ∃ md, root_metadata env (TTok k y lit) iter = Some (inr md).
Proof.
  intros Hp. assert (Hr := register_tok env k y lit).
  destruct (root_metadata_total env (TTok k y lit) _ iter Hr Hp) as [[e|md] Hm]; [exfalso|eauto].
  unfold root_metadata in Hm. cbn [prod_of] in Hm. rewrite Hr in Hm. cbn [mbind option_bind] in Hm.
  eapply rejection_justified; [| | | |exact Hm|].
  - apply NoDup_singleton.
  - done.
  - intros k' e' [= -> ->]%elem_of_list_singleton. exists [], []. done.
  - intros self cur next r _ k' l y' ty H. by apply elem_of_list_singleton in H.
  - intros k' l _ H. by apply elem_of_list_singleton in H.
Qed.

Lemma tok_follow env k y lit md x : accepted env (TTok k y lit) md →
  ts_contains (tb_get (md_follow md) (PTok k y lit)) x = true ↔ x = None.
Proof.
  intros (regs & iter & Hr & Hp & Hm).
  rewrite (follow_spec env (TTok k y lit) regs iter md Hr Hp Hm (TTok k y lit) x). unfold nf.
  cbn [prod_of] in Hr. rewrite register_tok in Hr. injection Hr as <-. split.
  - inversion 1 as [|x' l1 a b l2 t H1|x' l1 a l2 t H1|x' l y' t H1]; subst; [done|..]; by apply elem_of_list_singleton in H1.
  - intros ->. constructor.
Qed.

Lemma tok_parse extract env k y lit md f s : state_ok s → accepted env (TTok k y lit) md →
  ∃ o s', run extract (parse env (S f) (TTok k y lit) (inr md)) s = ODone (inr o) s' ∧
  match head (to_come extract s) with
  | Some t => ∃ x, text_of (p_src s) t = Some x ∧
      (covers y lit (t_ty t, x) → o = Some (TrTok t) ∧ consumed s' = consumed s ++ [t] ∧
         to_come extract s = t :: to_come extract s' ∧ only_bad_text s s') ∧
      (¬ covers y lit (t_ty t, x) → o = None ∧ p_tokens s' = p_tokens s ∧ to_come extract s' = to_come extract s)
  | None => p_tokens s' = p_tokens s ∧ to_come extract s' = to_come extract s ∧
      o = match lit with Some _ => Some (TrTok (Token (eof_span (p_src s)) y)) | None => None end
  end.
Proof.
  intros Hok Ha. set (P := parse env (S f) (TTok k y lit) (inr md)).
  assert (G : ∀ m r s1, run extract m s = ODone r s1 →
    (m = match lit with None => parse_token y | Some l => parse_token_lit y l (tb_get (md_follow md) (PTok k y lit)) end) →
    ∃ s', run extract P s = ODone (inr (TrTok <$> (unres r).1)) s' ∧ p_tokens s' = p_tokens s1 ∧
      to_come extract s' = to_come extract s1 ∧ ((unres r).2 = [] → only_bad_text s s')).
  { intros m r s1 Hm ->.
    assert (Hp : run extract (produce env (tb_get (md_first md)) (tb_get (md_follow md)) (jump_look_up (md_jump md)) (S f) (TTok k y lit)) s =
      ODone (res_map TrTok r) s1).
    { cbn [produce]. rewrite run_bind. unfold key. cbn [prod_of pid]. by rewrite Hm. }
    assert (Hb := produce_run_errors _ _ _ _ _ _ _ _ _ _ Hp).
    unfold P, parse, parse_with. rewrite !run_bind, Hp. destruct r as [x|x es|es]; cbn [res_map unres fst snd];
      eexists; (split; [reflexivity|]); (split; [done|]); (split; [done|]); intros Hes; try done; destruct Hb as (bad & H1 & H2);
      exists bad; cbn; rewrite ?Hes, ?app_nil_r; done. }
  assert (Hfol := λ x, tok_follow env k y lit md x Ha).
  destruct lit as [l|].
  - destruct (parse_token_lit_run extract y l (tb_get (md_follow md) (PTok k y (Some l))) s Hok) as (r & s1 & H1 & H2).
    destruct (G _ r s1 H1 eq_refl) as (s' & Hs & Ht & Hc & Hbad). exists (TrTok <$> (unres r).1), s'. split; [exact Hs|].
    destruct (head (to_come extract s)) as [t|].
    + destruct H2 as (x & Hx & H2). exists x. split; [done|]. unfold covers. cbn [fst snd]. split.
      * intros [E1 [?|E2]]; [done|]. injection E2 as ->. rewrite decide_True in H2 by done. destruct H2 as (-> & E3 & E4).
        split; [done|]. unfold consumed. rewrite Ht, Hc. split_and!; [exact E3|exact E4|by apply Hbad].
      * intros Hn. rewrite decide_False in H2 by naive_solver. destruct H2 as (E1 & E2 & ->).
        rewrite Ht, Hc. split_and!; [|done|done].
        assert (ts_contains (tb_get (md_follow md) (PTok k y (Some l))) (Some (t_ty t, x)) = false) as ->; [|done].
        apply not_true_iff_false. intros ?%Hfol. done.
    + destruct H2 as (E1 & E2 & ->). rewrite Ht, Hc. split_and!; [done|done|].
      assert (ts_contains (tb_get (md_follow md) (PTok k y (Some l))) None = true) as -> by (by apply Hfol). done.
  - destruct (parse_token_run extract y s) as (r & s1 & H1 & H2).
    destruct (G _ r s1 H1 eq_refl) as (s' & Hs & Ht & Hc & Hbad). exists (TrTok <$> (unres r).1), s'. split; [exact Hs|].
    destruct (head (to_come extract s)) as [t|] eqn:E.
    + destruct (to_come extract s) as [|t' rest] eqn:E'; [done|]. injection E as ->.
      destruct (head_src (abs extract s) t rest) as [x Hx]; [by apply state_ok_abs|exact E'|].
      exists x. split; [exact Hx|]. unfold covers. cbn [fst snd]. split.
      * intros [E1 _]. rewrite decide_True in H2 by done. destruct H2 as (-> & E3 & E4).
        split; [done|]. unfold consumed. rewrite Ht, Hc. split_and!; [exact E3|exact E4|by apply Hbad].
      * intros Hn. rewrite decide_False in H2 by naive_solver. destruct H2 as (-> & E1 & E2). rewrite Ht, Hc. done.
    + destruct H2 as (-> & E1 & E2). rewrite Ht, Hc. done.
Qed.

Lemma declared_parse rx_valid rx_find it o vs ms k t : snd (expand_lexicon rx_valid rx_find it) = inr o →
  li_data it = LdEnum vs → entries (li_attrs it) ms → lo_roots o !! k = Some t →
  ∃ i v, vs !! i = Some v ∧
  match tm_lit t with None => TmAny (tm_name t) ∈ terms_of (written v) | Some l => TmLit (tm_name t) l ∈ terms_of (written v) end ∧
  ∀ extract env f s, state_ok s → ∃ md r s', accepted env (terminal_ty k t) md ∧
    run extract (parse env (S f) (terminal_ty k t) (inr md)) s = ODone (inr r) s' ∧
    ∀ tk x, head (to_come extract s) = Some tk → text_of (p_src s) tk = Some x →
      (r = Some (TrTok tk) ↔ t_ty tk = i ∧ match tm_lit t with None => True | Some l => x = l end).
Proof.
  intros He Hd Hm Hk. destruct (lexicon_output _ _ _ _ _ _ He Hd Hm) as (Ha & _ & _ & _ & _ & Hr).
  apply elem_of_list_lookup_2, Hr in Hk as [_ Hk]. destruct t as [n y lit]. apply (terms_made _ _ _ _ _ _ _ Ha) in Hk as (v & Hv & Ht).
  cbn [d_variants] in Hv. rewrite list_lookup_fmap in Hv. destruct (vs !! y) as [v0|] eqn:Ey; [|done]. injection Hv as <-.
  exists y, v0. split_and!; [done|done|]. intros extract env f s Hok. unfold terminal_ty. cbn [tm_ty tm_lit].
  destruct (tok_accepted env k y lit _ (reflexivity _)) as [md Hmd].
  assert (Hacc : accepted env (TTok k y lit) md).
  { unfold root_metadata in Hmd. cbn [prod_of] in Hmd. rewrite register_tok in Hmd. cbn in Hmd. eexists _, _. cbn [prod_of]. rewrite register_tok. done. }
  destruct (tok_parse extract env k y lit md f s Hok Hacc) as (r & s' & Hrun & H). exists md, r, s'. split_and!; [done..|].
  intros tk x Htk Hx. rewrite Htk in H. destruct H as (x' & Hx' & H1 & H2). rewrite Hx in Hx'. injection Hx' as <-.
  assert (Hc : covers y lit (t_ty tk, x) ↔ t_ty tk = y ∧ match lit with None => True | Some l => x = l end).
  { unfold covers. cbn. destruct lit as [l|]; naive_solver. }
  rewrite <- Hc. split.
  - intros ->. destruct (decide (t_ty tk = y ∧ (lit = None ∨ lit = Some x))) as [D|D]; [exact D|]. by apply H2 in D as [? _].
  - intros D. by apply H1.
Qed.
