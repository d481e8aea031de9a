(** Parsing without errors: in different grammars, and one by one. *)
From Coq Require Import String NArith.
From stdpp Require Import prelude list strings relations.
From Verif Require Import LexModel LexSpec SynSetModel TableModel CfgSpec StreamModel StreamSpec TypeModel TypeSpec ProduceModel ParseSpec ProgFacts SoundFacts StreamFacts
  FuelFacts RunFacts MdFacts LangFacts EndFacts PartSpec PartFacts ExtendSpec FewerFacts CleanSpec CleanFacts.
Local Open Scope nat_scope.
#[local] Arguments ts_contains : simpl never.

(** * Different grammars *)
Section two.
  Variable extract : nat → bool.
  Lemma same_toks_refl a : same_toks a a.
  Proof. done. Qed.
  (** The same with the other FIRST and predictive tables. *)
  Lemma tables_same env1 env2 root1 root2 t md1 md2 f s : accepted env1 root1 md1 → accepted env2 root2 md2 →
    within env1 root1 t → within env2 root2 t → same_decls env1 env2 t →
    run extract (produce env1 (tb_get (md_first md1)) (tb_get (md_follow md2)) (jump_look_up (md_jump md1)) f t) s = run extract (produce_md env2 md2 f t) s.
  Proof.
    intros (r1 & iter1 & E1 & Hp1 & Hm1) (r2 & iter2 & E2 & Hp2 & Hm2) Hw1 Hw2 Hd.
    apply produce_both; [done|]. intros c Hc.
    assert (Hs := shared_within env1 env2 root1 root2 t r1 r2 iter1 iter2 md1 md2 E1 Hp1 Hm1 E2 Hp2 Hm2 Hw1 Hw2 Hd c Hc).
    assert (HF := first_same env1 env2 root1 root2 t r1 r2 iter1 iter2 md1 md2 E1 Hp1 Hm1 E2 Hp2 Hm2 Hw1 Hw2 Hd).
    split; [by rewrite HF|].
    destruct c as [n y [lit|]|n|l|c|c|c|c|c|c|c|c|c p|c p|c p]; try done.
    - split; [by apply Hd|]. intros vs x En. symmetry.
      by apply (jump_same env1 env2 root1 root2 t r1 r2 iter1 iter2 md1 md2 E1 Hp1 Hm1 E2 Hp2 Hm2 Hw1 Hw2 Hd n vs).
    - symmetry. apply HF. by apply (shared_star env1 env2 root1 root2 t r1 r2 iter1 iter2 md1 md2 E1 Hp1 Hm1 E2 Hp2 Hm2 Hw1 Hw2 Hd).
  Qed.
  Lemma free_tables env1 env2 root1 root2 t md1 md2 f : accepted env1 root1 md1 → accepted env2 root2 md2 →
    within env1 root1 t → within env2 root2 t → same_decls env1 env2 t → no_recover env1 t →
    all_within env1 (λ c, match c with
      | TPunct _ _ => ∀ y, ts_contains (tb_get (md_follow md1) (key c)) (Some y) = true → ts_contains (tb_get (md_follow md2) (key c)) (Some y) = true
      | _ => True end) t →
    told extract (produce_md env1 md1 f t) ∧ keeps extract fine (produce_md env1 md1 f t) (produce_md env2 md2 f t).
  Proof.
    intros H1 H2 Hw1 Hw2 Hd Hn Hp.
    destruct (produce_free extract env1 (tb_get (md_first md1)) (tb_get (md_follow md1)) (tb_get (md_follow md2)) (jump_look_up (md_jump md1)) f t) as [Ht Hk].
    { intros c Hc. specialize (Hn c Hc). specialize (Hp c Hc). by destruct c. }
    split; [exact Ht|]. intros s r s' Hr Hf. rewrite <- (tables_same env1 env2 root1 root2 t md1 md2 f s); [|done..]. by apply Hk.
  Qed.
  Lemma errors_fine {A} (r : res A) : tells r → errors_of r = [] → fine r.
  Proof. by destruct r. Qed.
  Lemma free_same env1 env2 root1 root2 t regs1 regs2 md1 md2 f s r s' :
    accepted env1 root1 md1 → accepted env2 root2 md2 →
    register_root env1 (prod_of root1) = Some regs1 → register_root env2 (prod_of root2) = Some regs2 →
    within env1 root1 t → within env2 root2 t → same_decls env1 env2 t → no_recover env1 t → ends_within env1 regs1 root1 regs2 root2 t →
    run extract (produce_md env1 md1 f t) s = ODone r s' → errors_of r = [] → run extract (produce_md env2 md2 f t) s = ODone r s'.
  Proof.
    intros H1 H2 E1 E2 Hw1 Hw2 Hd Hn He Hr Her.
    destruct (free_tables env1 env2 root1 root2 t md1 md2 f H1 H2 Hw1 Hw2 Hd Hn) as [Ht Hk].
    - destruct H1 as (r1 & iter1 & E1' & Hp1 & Hm1), H2 as (r2 & iter2 & E2' & Hp2 & Hm2).
      rewrite E1 in E1'. injection E1' as <-. rewrite E2 in E2'. injection E2' as <-.
      intros c Hc. specialize (He c Hc). destruct c; try done. cbn beta iota in *. intros y Hy.
      apply (follow_spec env2 root2 regs2 iter2 md2 E2 Hp2 Hm2 (TPunct c1 c2) (Some y)). apply He.
      by apply (follow_spec env1 root1 regs1 iter1 md1 E1 Hp1 Hm1 (TPunct c1 c2) (Some y)).
    - apply Hk; [done|]. apply errors_fine; [by eapply Ht|done].
  Qed.
  (** A type in a grammar, and alone. *)
  Lemma follow_part env root t md md' : accepted env root md → accepted env t md' → within env root t →
    ∀ u a, ts_contains (tb_get (md_follow md') (key u)) (Some a) = true → ts_contains (tb_get (md_follow md) (key u)) (Some a) = true.
  Proof. intros H1 H2 Hw. apply (fewer_tables (λ _ i, i) env env root t md' md (extends_refl env)); [by intros ????|done..]. Qed.
  Lemma free_inside env root t md md' f s r s' : accepted env root md → accepted env t md' → within env root t → no_recover env t →
    run extract (produce_md env md' f t) s = ODone r s' → errors_of r = [] → run extract (produce_md env md f t) s = ODone r s'.
  Proof.
    intros H1 H2 Hw Hn Hr Her.
    destruct (free_tables env env t root t md' md f H2 H1 ltac:(apply rtc_refl) Hw ltac:(done) Hn) as [Ht Hk].
    - intros c _. destruct c; try done. by apply (follow_part env root t).
    - apply Hk; [done|]. apply errors_fine; [by eapply Ht|done].
  Qed.
  Lemma free_alone env root t md md' f s r s' : accepted env root md → accepted env t md' → within env root t → no_recover env t → no_punct env t →
    run extract (produce_md env md f t) s = ODone r s' → errors_of r = [] → run extract (produce_md env md' f t) s = ODone r s'.
  Proof.
    intros H1 H2 Hw Hn Hq Hr Her.
    destruct (free_tables env env root t t md md' f H1 H2 Hw ltac:(apply rtc_refl) ltac:(done) Hn) as [Ht Hk].
    - intros c Hc. specialize (Hq c Hc). by destruct c.
    - apply Hk; [done|]. apply errors_fine; [by eapply Ht|done].
  Qed.
End two.

(** * One by one *)
Section each.
  Variable extract : nat → bool.
  Notation go := (run extract).
  Notation ab := (abs extract).
  (** Programs do not see how far the tokenizer has read. *)
  Lemma run_ab {A} (m : M A) s s2 a s' : go m s = ODone a s' → ab s2 = ab s → ∃ s2', go m s2 = ODone a s2' ∧ ab s2' = ab s'.
  Proof.
    intros H E. apply arun_done. rewrite E, <- run_abs, H. done.
  Qed.
  Lemma peek_ab s : aok (ab s) → ∃ s1, go peek_src s = ODone (look (ab s)) s1 ∧ ab s1 = ab s.
  Proof.
    intros Hok. apply arun_done. assert (H : wp False False peek_src (ab s) (λ r s', r = look (ab s) ∧ s' = ab s)) by by apply wp_peek_src.
    unfold wp in H. destruct (arun peek_src (ab s)) as [| |a s1]; [done..|]. by destruct H as [-> ->].
  Qed.
  Lemma run_aok {A} (m : M A) s a s' : go m s = ODone a s' → aok (ab s) → aok (ab s').
  Proof.
    intros H Hok. assert (E : arun m (ab s) = ODone a (ab s')) by by rewrite <- run_abs, H.
    destruct (arun_adv _ _ _ _ E) as [l Hl]. by eapply adv_aok.
  Qed.
  (** Runs of [p] without errors, one after the other. *)
  Inductive each (p : M (res tree)) : pst → list tree → pst → Prop :=
  | each_nil s : each p s [] s
  | each_cons s r x s1 xs s2 : go p s = ODone r s1 → unres r = (Some x, []) → each p s1 xs s2 → each p s (x :: xs) s2.

  Lemma iter_each n p p1 set acc hi s xs hi' s' u : aok (ab s) → told extract p → keeps extract fine p p1 →
    go (iter_loop n p set acc [] hi) s = ODone (xs, [], hi') s' → ab u = ab s → ∃ ys u', xs = acc ++ ys ∧ each p1 u ys u' ∧ ab u' = ab s'.
  Proof.
    intros Hok Ht Hk. revert acc hi s u Hok. induction n as [|n IH]; intros acc hi s u Hok Hr Eu; cbn [iter_loop] in Hr; [done|].
    rewrite run_bind in Hr. destruct (peek_ab s Hok) as (s1 & Ep & E1). rewrite Ep in Hr.
    assert (Hstop : go (mret (acc, @nil perr, hi)) s1 = ODone (xs, [], hi') s' → ∃ ys u', xs = acc ++ ys ∧ each p1 u ys u' ∧ ab u' = ab s').
    { intros [= <- <- <-]. exists [], u. rewrite app_nil_r. split; [done|]. split; [constructor|]. congruence. }
    destruct (look (ab s)) as [y|]; [|auto]. destruct (ts_contains set (Some y)); [|auto]. clear Hstop.
    rewrite run_bind in Hr. destruct (go p s1) as [| |r s2] eqn:Er; [done..|].
    destruct (decide (fine r)) as [Hf|Hf].
    - destruct (fine_unres r Hf) as [x Ex]. rewrite Ex in Hr. cbn [app] in Hr.
      destruct (run_ab p1 s1 u r s2) as (u1 & Eu1 & Ea); [by apply Hk|congruence|].
      assert (Hok1 : aok (ab s1)) by by rewrite E1.
      destruct (IH (acc ++ [x]) (tree_hi x) s2 u1) as (ys & u' & -> & Hy & Eu'); [by eapply run_aok|done|done|].
      exists (x :: ys), u'. split; [by rewrite <- (assoc_L (++))|]. split; [by econstructor|done].
    - exfalso. apply not_fine_unres in Hf; [|by eapply Ht]. destruct (unres r) as [[x|] e]; cbn in Hf.
      + by apply (iter_never extract n p set (acc ++ [x]) ([] ++ e) (tree_hi x) Hf _ _ _ Hr).
      + cbn in Hr. by injection Hr as _ He _ _.
  Qed.
  Lemma each_iter n p p1 set acc hi s ys u u' : aok (ab s) → keeps extract fine p1 p → length ys < n →
    each p1 u ys u' → ab u = ab s → look (ab u') = None →
    (∀ v r x v', aok (ab v) → go p1 v = ODone r v' → unres r = (Some x, []) → ∃ y, look (ab v) = Some y ∧ ts_contains set (Some y) = true) →
    ∃ hi' s', go (iter_loop n p set acc [] hi) s = ODone (acc ++ ys, [], hi') s' ∧ ab s' = ab u'.
  Proof.
    intros Hok Hk Hn He Eu Hl Hset. revert n acc hi s Hok Hn Eu.
    induction He as [u|u r x u1 ys u2 Hr Ex He IH]; intros n acc hi s Hok Hn Eu; (destruct n as [|n]; [lia|]); cbn [iter_loop].
    - destruct (peek_ab s Hok) as (s1 & Ep & E1). exists hi, s1. rewrite run_bind, Ep, <- Eu, Hl. rewrite app_nil_r. split; [done|congruence].
    - destruct (peek_ab s Hok) as (s1 & Ep & E1). rewrite run_bind, Ep, <- Eu.
      destruct (Hset u r x u1) as (y & -> & ->); [by rewrite Eu|done|done|]. rewrite run_bind.
      destruct (run_ab p1 u s1 r u1 Hr) as (s2 & Es2 & Ea); [congruence|].
      assert (Hf : fine r). { destruct r as [z|z es|es]; [done|by injection Ex as _ ->|done]. }
      rewrite (Hk _ _ _ Es2 Hf), Ex. cbn [app].
      destruct (IH Hl n (acc ++ [x]) (tree_hi x) s2) as (hi' & s' & Hi & Ea').
      + apply (run_aok p1 s1 r s2 Es2). by rewrite E1.
      + cbn in Hn. lia.
      + done.
      + exists hi', s'. rewrite Hi. split; [by rewrite <- (assoc_L (++))|done].
  Qed.
End each.

Section list.
  Variable extract : nat → bool.
  Notation go := (run extract).
  Notation ab := (abs extract).
  Lemma parse_fine env md f t s x s' : go (parse env f t (inr md)) s = ODone (inr (Some x)) s' → only_bad_text s s' →
    ∃ r, go (produce_md env md f t) s = ODone r s' ∧ unres r = (Some x, []).
  Proof.
    intros (o & [= <-] & H)%parse_run Hb. unfold parse_with in H. rewrite run_bind in H.
    destruct (go _ s) as [| |r s1] eqn:Er in H; [done..|]. assert (Hb1 := produce_run_errors _ _ _ _ _ _ _ _ _ _ Er).
    destruct r as [y|y es|es]; [| |done].
    - injection H as <- <-. by exists (RSucc y).
    - injection H as <- <-. destruct Hb as (b2 & I2 & E2), Hb1 as (b1 & I1 & E1). cbn in I2, E2.
      assert (b1 = b2) as -> by (apply (app_inv_head (p_invalid s)); congruence).
      assert (es = []) as ->. { rewrite E1 in E2. rewrite <- (app_nil_r (p_errors s ++ _)) in E2 at 2. by apply app_inv_head in E2. }
      exists (RRec y []). split; [|done]. unfold produce_md. rewrite Er. f_equal. destruct s1. cbn. by rewrite app_nil_r.
  Qed.
  Lemma fine_parse env md f t s r x s' : go (produce_md env md f t) s = ODone r s' → unres r = (Some x, []) →
    go (parse env f t (inr md)) s = ODone (inr (Some x)) s' ∧ only_bad_text s s'.
  Proof.
    intros Hr Ex. split; [|by eapply produce_run_errors]. unfold parse, parse_with. rewrite !run_bind. unfold produce_md in Hr. rewrite Hr.
    destruct r as [y|y es|es]; [by injection Ex as ->| |done]. injection Ex as -> ->. cbn. do 2 f_equal. destruct s'. cbn. by rewrite app_nil_r.
  Qed.
  Lemma each_calls env md f t s xs s2 : each extract (produce_md env md f t) s xs s2 → one_by_one extract env md t s xs s2.
  Proof.
    induction 1 as [s|s r x s1 xs s2 Hr Ex _ IH]; [constructor|]. destruct (fine_parse _ _ _ _ _ _ _ _ Hr Ex) as [H1 H2]. by econstructor.
  Qed.
  Lemma each_more env md f f' t s xs s2 : f ≤ f' → each extract (produce_md env md f t) s xs s2 → each extract (produce_md env md f' t) s xs s2.
  Proof.
    intros Hf. induction 1 as [s|s r x s1 xs s2 Hr Ex _ IH]; [constructor|]. econstructor; [|exact Ex|exact IH].
    rewrite <- Hr. apply (le_run extract). - by apply rec_le. - by rewrite Hr.
  Qed.
  Lemma calls_each env md t s xs s2 : one_by_one extract env md t s xs s2 → ∃ f, each extract (produce_md env md f t) s xs s2.
  Proof.
    induction 1 as [s|s f x s1 xs s2 Hr Hb _ [f1 IH]]; [exists 0; constructor|].
    destruct (parse_fine _ _ _ _ _ _ _ Hr Hb) as (r & Hr' & Ex). exists (f `max` f1).
    econstructor; [|exact Ex|apply (each_more _ _ f1); [lia|exact IH]].
    rewrite <- Hr'. apply (le_run extract); [apply rec_le; lia|by rewrite Hr'].
  Qed.
  Lemma ab_parts s s' : ab s = ab s' → p_tokens s = p_tokens s' ∧ to_come extract s = to_come extract s'.
  Proof. intros [= _ E1 E2]. split; [done|]. exact E2. Qed.

  (** From the list to the elements. *)
  Lemma list_each env t md md1 f s x s' : accepted env (TStar t) md → accepted env t md1 → no_recover env t → no_punct env t → state_ok s →
    go (parse env f (TStar t) (inr md)) s = ODone (inr (Some x)) s' → only_bad_text s s' →
    ∃ sp xs s2, x = TrList sp xs ∧ one_by_one extract env md1 t s xs s2 ∧ p_tokens s2 = p_tokens s' ∧ to_come extract s2 = to_come extract s'.
  Proof.
    intros Ha Ha1 Hn Hq Hok Hrun Hb. destruct (parse_fine _ _ _ _ _ _ _ Hrun Hb) as (r & Hr & Ex). clear Hrun Hb.
    apply state_ok_abs with (extract := extract) in Hok. destruct f as [|f]; [done|].
    destruct (free_tables extract env env (TStar t) t t md md1 f Ha Ha1 ltac:(apply rtc_once; cbn; set_solver) ltac:(apply rtc_refl) ltac:(done) Hn) as [Ht Hk].
    { intros c Hc. specialize (Hq c Hc). by destruct c. }
    unfold produce_md in Hr. cbn [produce] in Hr. rewrite run_bind in Hr. unfold produce_option in Hr. rewrite run_bind in Hr.
    destruct (peek_ab extract s Hok) as (s1 & Ep & E1). rewrite Ep in Hr.
    set (set := tb_get (md_first md) (key (TPlus t))) in *.
    assert (Hnil : ∀ sp, r = RSucc (TrList sp []) → s1 = s' →
      ∃ sp xs s2, x = TrList sp xs ∧ one_by_one extract env md1 t s xs s2 ∧ p_tokens s2 = p_tokens s' ∧ to_come extract s2 = to_come extract s').
    { intros sp -> <-. injection Ex as <-. exists sp, [], s. split; [done|]. split; [constructor|]. by apply ab_parts. }
    destruct (look (ab s)) as [y|]; [|cbn in Hr; injection Hr as <- <-; by eapply Hnil].
    destruct (ts_contains set (Some y)); [|cbn in Hr; injection Hr as <- <-; by eapply Hnil]. clear Hnil.
    rewrite run_bind in Hr. unfold produce_plus in Hr. rewrite run_bind in Hr. fold (produce_md env md f t) in Hr.
    destruct (go (produce_md env md f t) s1) as [| |r0 s2] eqn:Er0; [done..|].
    destruct (decide (fine r0)) as [Hf|Hf].
    - destruct (fine_unres r0 Hf) as [x0 Ex0]. rewrite Ex0, run_bind in Hr.
      destruct (go (iter_loop _ _ _ _ _ _) s2) as [| |[[l es] hi] s3] eqn:Ei; [done..|].
      assert (es = []) as ->.
      { cbn in Hr. destruct es as [|e es]; [done|]. cbn in Hr. injection Hr as <- _. done. }
      destruct (run_ab extract (produce_md env md1 f t) s1 s r0 s2) as (u1 & Eu1 & Ea1); [by apply Hk|congruence|].
      assert (Hok2 : aok (ab s2)). { apply (run_aok extract _ _ _ _ Er0). by rewrite E1. }
      destruct (iter_each extract f _ (produce_md env md1 f t) set [x0] _ s2 l hi s3 u1 Hok2 Ht Hk Ei Ea1) as (ys & u' & -> & Hy & Eu').
      cbn in Hr. injection Hr as <- <-. injection Ex as <-. eexists _, (x0 :: ys), u'. split; [done|]. split; [|by apply ab_parts].
      apply each_calls with (f := f). by econstructor.
    - exfalso. apply not_fine_unres in Hf; [|by eapply Ht]. destruct (unres r0) as [[x0|] e]; cbn in Hf.
      + rewrite run_bind in Hr. destruct (go (iter_loop _ _ _ _ _ _) s2) as [| |[[l es] hi] s3] eqn:Ei; [done..|].
        assert (He := iter_never extract _ _ _ _ _ _ Hf _ _ _ Ei). unfold quiet in He. cbn in He.
        destruct es as [|e0 es]; [done|]. cbn in Hr. by injection Hr as <- _.
      + cbn in Hr. injection Hr as <- _. cbn in Ex. by injection Ex as _ ->.
  Qed.

  (** From the elements to the list. *)
  Lemma each_list env t md md1 s xs s2 : accepted env (TStar t) md → accepted env t md1 → filled env t → no_recover env t → no_loop env t → state_ok s →
    one_by_one extract env md1 t s xs s2 → to_come extract s2 = [] →
    ∃ f0 sp s', (∀ f, f0 ≤ f → go (parse env f (TStar t) (inr md)) s = ODone (inr (Some (TrList sp xs))) s') ∧
      only_bad_text s s' ∧ p_tokens s' = p_tokens s2 ∧ to_come extract s' = [].
  Proof.
    intros Ha Ha1 Hfi Hn Hl Hok (f & He)%calls_each Hend.
    assert (Hab := state_ok_abs extract _ Hok).
    assert (Hlook : look (ab s2) = None). { unfold look. cbn. change (stream extract s2) with (to_come extract s2). by rewrite Hend. }
    set (g := f `max` S (length xs)).
    assert (He' := each_more _ _ f g _ _ _ _ ltac:(lia) He).
    destruct (free_tables extract env env t (TStar t) t md1 md g Ha1 Ha ltac:(apply rtc_refl) ltac:(apply rtc_once; cbn; set_solver) ltac:(done) Hn) as [Ht Hk].
    { intros c _. destruct c; try done. apply (follow_part env (TStar t) t); [done..|]. apply rtc_once. cbn. set_solver. }
    set (set := tb_get (md_first md) (key (TPlus t))).
    assert (Hset : ∀ v r x v', aok (ab v) → go (produce_md env md1 g t) v = ODone r v' → unres r = (Some x, []) →
      ∃ y, look (ab v) = Some y ∧ ts_contains set (Some y) = true).
    { intros v r x v' Hv Hr Ex. assert (Hro : arun (produce_md env md1 g t) (ab v) = ODone r (ab v')) by by rewrite <- run_abs, Hr.
      destruct (arun_adv _ _ _ _ Hro) as [l Hadv].
      assert (Hs := produce_sound env (tb_get (md_first md1)) (tb_get (md_follow md1)) (jump_look_up (md_jump md1)) False g t
        (no_recover_ok env _ False t Hn Hfi) (ab v) Hv).
      unfold wp in Hs. unfold produce_md in Hro. rewrite Hro in Hs. destruct Hs as [Hs|[[] _]].
      assert (Hp : parses env (a_src (ab v)) (pos (ab v)) t l x).
      { destruct r as [z|z es|es]; [injection Ex as <-; by apply Hs|by injection Ex as _ ->|done]. }
      destruct Ha as (regs & iter & Hreg & Hperm & Hmeta).
      assert (HV := V_within env (TStar t) regs iter md Hreg Hperm Hmeta).
      assert (V1 := HV (TStar t) (rtc_refl _ _)). assert (V2 := HV t ltac:(apply rtc_once; cbn; set_solver)).
      assert (V3 := V_star env (TStar t) regs iter md Hreg Hperm Hmeta t V1).
      assert (Hlang := parses_lang _ _ _ _ _ _ Hp Hl).
      destruct l as [|a l].
      { destruct (star_not_null env (TStar t) regs iter md Hreg Hperm Hmeta t V1). by apply (nul_lang env (TStar t) regs iter md Hreg Hperm Hmeta). }
      destruct Hadv as [_ _ Hrest]. eexists. unfold look. rewrite Hrest. split; [reflexivity|].
      apply (first_spec env (TStar t) regs iter md Hreg Hperm Hmeta (TPlus t)).
      apply (fst_plus env (TStar t) regs iter md Hreg Hperm Hmeta t _ V3).
      exact (lang_fst env (TStar t) regs iter md Hreg Hperm Hmeta t _ _ V2 Hlang). }
    destruct (peek_ab extract s Hab) as (s1 & Ep & E1).
    enough (H : ∃ r sp s', go (produce_md env md (S g) (TStar t)) s = ODone r s' ∧ unres r = (Some (TrList sp xs), []) ∧ ab s' = ab s2).
    { destruct H as (r & sp & s' & Hr & Ex & Es). exists (S g), sp, s'. destruct (fine_parse _ _ _ _ _ _ _ _ Hr Ex) as [H1 H2].
      split; [|split; [done|]; apply ab_parts in Es as [-> ->]; done].
      intros f' Hf'. rewrite <- H1. apply (le_run extract); [by apply parse_le|by rewrite H1]. }
    unfold produce_md. cbn [produce]. fold (produce_md env md g t). rewrite run_bind. unfold produce_option. rewrite run_bind, Ep. fold set.
    inversion He' as [u|u r0 x0 u1 ys u2 Hr0 Ex0 Hys]; subst.
    - rewrite Hlook. eexists _, _, s1. split; [reflexivity|]. split; [reflexivity|done].
    - destruct (Hset s r0 x0 u1 Hab Hr0 Ex0) as (y & -> & ->). rewrite run_bind. unfold produce_plus. rewrite run_bind.
      destruct (run_ab extract (produce_md env md1 g t) s s1 r0 u1 Hr0 E1) as (v1 & Ev1 & Ea).
      assert (Hf : fine r0). { destruct r0 as [z|z es|es]; [done|by injection Ex0 as _ ->|done]. }
      rewrite (Hk _ _ _ Ev1 Hf), Ex0, run_bind.
      assert (Hok1 : aok (ab v1)). { apply (run_aok extract _ _ _ _ Ev1). by rewrite E1. }
      destruct (each_iter extract g (produce_md env md g t) (produce_md env md1 g t) set [x0] (tree_hi x0) v1 ys u1 s2 Hok1 Hk) as (hi & s' & Hi & Es);
        [unfold g; cbn; lia|done|done|done|exact Hset|].
      rewrite Hi. eexists _, _, s'. split; [reflexivity|]. split; [reflexivity|done].
  Qed.
End list.
