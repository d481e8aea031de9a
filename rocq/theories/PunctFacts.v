(** [Punct<T, D>] and the recursive struct. *)
From Coq Require Import String NArith.
From stdpp Require Import prelude list strings relations.
From Verif Require Import LexModel LexSpec SynSetModel TableModel CfgSpec StreamModel StreamSpec TypeModel TypeSpec ProduceModel ParseSpec ProgFacts SoundFacts StreamFacts
  FuelFacts RunFacts MdFacts LangFacts EndFacts PartSpec PartFacts ExtendSpec FewerFacts CleanSpec CleanFacts EachFacts SugarSpec SugarFacts PunctSpec.
Local Open Scope nat_scope.
#[local] Arguments ts_contains : simpl never.

Section nest.
  Variable extract : nat → bool.
  Notation go := (run extract).
  Notation ab := (abs extract).
  Notation clean := (keeps extract fine).

  Lemma opt_empty env md g t u : aok (ab u) → (∀ y, look (ab u) = Some y → ts_contains (tb_get (md_first md) (key t)) (Some y) = false) →
    ∃ sp u', go (produce_md env md (S g) (TOpt t)) u = ODone (RSucc (TrOpt sp None)) u' ∧ ab u' = ab u.
  Proof.
    intros Hok Hno. unfold produce_md. cbn [produce]. unfold produce_option. rewrite !run_bind. destruct (peek_ab extract u Hok) as (u1 & -> & E1).
    destruct (look (ab u)) as [y|]; [rewrite (Hno y eq_refl)|]; eexists _, _; (split; [reflexivity|done]).
  Qed.
  Lemma opt_full env md g t u y x v : aok (ab u) → look (ab u) = Some y → ts_contains (tb_get (md_first md) (key t)) (Some y) = true →
    go (produce_md env md g t) u = ODone (RSucc x) v →
    ∃ sp u', go (produce_md env md (S g) (TOpt t)) u = ODone (RSucc (TrOpt sp (Some x))) u' ∧ ab u' = ab v.
  Proof.
    intros Hok Ey Ec Hrun. destruct (peek_ab extract u Hok) as (u1 & Ep & E1). destruct (run_ab extract _ u u1 _ _ Hrun E1) as (u' & Hu & Ea).
    unfold produce_md. cbn [produce]. unfold produce_option. rewrite !run_bind, Ep.
    rewrite Ey, Ec, run_bind. unfold produce_md in Hu. rewrite Hu. eexists _, _. split; [reflexivity|done].
  Qed.
  Lemma pair_make env md g d c u rd dd u2 o u3 : go (produce_md env md g d) u = ODone rd u2 → unres rd = (Some dd, []) →
    go (produce_md env md g c) u2 = ODone (RSucc o) u3 → go (produce_md env md (S g) (TTuple [d; c])) u = ODone (RSucc (TrSeq [dd; o])) u3.
  Proof. intros H1 E1 H2. unfold produce_md. cbn [produce]. rewrite seq_two. by eapply two_make. Qed.
  Lemma struct_make env md g t d n u rt x u1 o u2 : env !! n = Some (nested_decl t d n) →
    go (produce_md env md g t) u = ODone rt u1 → unres rt = (Some x, []) → go (produce_md env md g (rest_of d n)) u1 = ODone (RSucc o) u2 →
    go (produce_md env md (S g) (TNamed n)) u = ODone (RSucc (TrSeq [x; o])) u2.
  Proof.
    intros En H1 E1 H2. unfold produce_md in *. cbn [produce]. rewrite En. cbn [nested_decl map fst produce_seq].
    rewrite !run_bind, H1, E1, run_bind, H2. reflexivity.
  Qed.
  Lemma pinner_inv n pT ef pf fol s o c s' : aok (ab s) → told extract pT → go (punct_inner n pT ef pf fol None []) s = ODone (o, [], c) s' →
    (o = None ∧ c = false ∧ ab s' = ab s ∧ ∀ y, look (ab s) = Some y → ts_contains ef (Some y) = false ∧ ts_contains fol (Some y) = true) ∨
    ∃ y r x s0, look (ab s) = Some y ∧ ts_contains ef (Some y) = true ∧ ab s0 = ab s ∧ go pT s0 = ODone r s' ∧ unres r = (Some x, []) ∧ o = Some x ∧ c = true.
  Proof.
    intros Hok Tp Hr. destruct n as [|n]; cbn [punct_inner] in Hr; [done|]. rewrite run_bind in Hr.
    destruct (peek_ab extract s Hok) as (s0 & Ep & E0). rewrite Ep in Hr. destruct (look (ab s)) as [y|] eqn:Ey.
    2:{ cbn in Hr. injection Hr as <- <- <-. by left. }
    assert (Hno : ∀ p s1, go (tk' ← peek_src; if ts_contains pf tk' then mret (@None tree, [] ++ option_list (Some p), true)
        else if bool_decide (tk' = None) || ts_contains fol tk' then mret (None, [] ++ option_list (Some p), false)
        else _ ← consume; punct_inner n pT ef pf fol (Some p) []) s1 = ODone (o, [], c) s' → False).
    { intros p s1 H. rewrite run_bind in H. destruct (go peek_src s1) as [| |tk s2]; [done..|].
      destruct (ts_contains pf tk); [done|]. destruct (bool_decide (tk = None) || ts_contains fol tk); [done|]. rewrite run_bind in H.
      destruct (go consume s2) as [| |? s3]; [done..|].
      by apply (punct_inner_never extract n pT ef pf fol (Some p) [] (or_intror (ex_intro _ p eq_refl)) _ _ _ H). }
    destruct (ts_contains ef (Some y)) eqn:Ec; cbn [negb andb] in Hr.
    - right. rewrite !run_bind in Hr. destruct (go pT s0) as [| |r s1] eqn:Er; [done..|].
      destruct (unres r) as [[x|] e] eqn:Ex.
      + cbn in Hr. injection Hr as <- Ee <- <-. subst e. by exists y, r, x, s0.
      + exfalso. cbn [run mret] in Hr. assert (Ht := Tp _ _ _ Er). destruct r as [| |es]; [done..|]. injection Ex as <-. cbn in Ht. unfold merge_panic in Hr.
        destruct (last es) as [p|] eqn:El; [|by apply last_None in El]. exact (Hno p s1 Hr).
    - destruct (ts_contains fol (Some y)) eqn:Ef.
      + cbn in Hr. injection Hr as <- <- <-. left. split; [done|]. split; [done|]. split; [done|]. by intros ? [= <-].
      + exfalso. rewrite run_bind in Hr. rewrite run_bind in Hr. destruct (go cur_span s0) as [| |sp s1]; [done..|]. exact (Hno _ s1 Hr).
  Qed.

  Lemma within_trans env a b c : within env a b → within env b c → within env a c.
  Proof. unfold within. intros H1 H2. by etrans. Qed.
  Lemma nest_within env root n t d : env !! n = Some (nested_decl t d n) → within env root (TNamed n) →
    within env root t ∧ within env root d ∧ within env root (TTuple [d; TOpt (TBox (TNamed n))]).
  Proof.
    intros En W. assert (Wt : within env root t).
    { eapply rtc_r; [exact W|]. cbn. rewrite En. cbn. set_solver. }
    assert (Wr : within env root (rest_of d n)).
    { eapply rtc_r; [exact W|]. cbn. rewrite En. cbn. set_solver. }
    assert (W2 : within env root (TTuple [d; TOpt (TBox (TNamed n))])) by (eapply rtc_r; [exact Wr|]; cbn; set_solver).
    split; [done|]. split; [|done]. eapply rtc_r; [exact W2|]; cbn; set_solver.
  Qed.
  Lemma punct_within env root t d : within env root (TPunct t d) → within env root t ∧ within env root d.
  Proof. intros H. split; (eapply rtc_r; [exact H|]; cbn; set_solver). Qed.
  Lemma nest_sets env root1 root2 t d n md1 md2 : accepted env root1 md1 → accepted env root2 md2 →
    within env root1 (TPunct t d) → within env root2 (TNamed n) → env !! n = Some (nested_decl t d n) →
    (∀ x, ts_contains (tb_get (md_first md2) (key (TTuple [d; TOpt (TBox (TNamed n))]))) (Some x) = ts_contains (tb_get (md_first md1) (key d)) (Some x)) ∧
    (∀ x, ts_contains (tb_get (md_first md2) (key (TBox (TNamed n)))) (Some x) = ts_contains (tb_get (md_first md1) (key t)) (Some x)).
  Proof.
    intros (r1 & i1 & R1 & P1 & M1) (r2 & i2 & R2 & P2 & M2) W1 W2 En.
    destruct (punct_within _ _ _ _ W1) as [W1t W1d]. destruct (nest_within _ _ _ _ _ En W2) as (W2t & W2d & W2p).
    assert (St := first_same env env root1 root2 t r1 r2 i1 i2 md1 md2 R1 P1 M1 R2 P2 M2 W1t W2t ltac:(done) t
      (shared_within env env root1 root2 t r1 r2 i1 i2 md1 md2 R1 P1 M1 R2 P2 M2 W1t W2t ltac:(done) t (rtc_refl _ _))).
    assert (Sd := first_same env env root1 root2 d r1 r2 i1 i2 md1 md2 R1 P1 M1 R2 P2 M2 W1d W2d ltac:(done) d
      (shared_within env env root1 root2 d r1 r2 i1 i2 md1 md2 R1 P1 M1 R2 P2 M2 W1d W2d ltac:(done) d (rtc_refl _ _))).
    assert (V1 := V_within env root1 r1 i1 md1 R1 P1 M1 _ W1). assert (V2 := V_within env root2 r2 i2 md2 R2 P2 M2 _ W2).
    assert (V3 := V_within env root2 r2 i2 md2 R2 P2 M2 _ W2p).
    destruct (punct_not_null env root1 r1 i1 md1 R1 P1 M1 t d V1) as [Nt Nd].
    rewrite <- (first_eps env root1 r1 i1 md1 R1 P1 M1), St, (first_eps env root2 r2 i2 md2 R2 P2 M2) in Nt.
    rewrite <- (first_eps env root1 r1 i1 md1 R1 P1 M1), Sd, (first_eps env root2 r2 i2 md2 R2 P2 M2) in Nd.
    rewrite St, Sd. split; intros x; (eapply bool_same; [apply (first_spec env root2 r2 i2 md2 R2 P2 M2)|apply (first_spec env root2 r2 i2 md2 R2 P2 M2)|]).
    - rewrite (fst_tuple env root2 r2 i2 md2 R2 P2 M2 _ x V3). unfold fsts. cbn [map starts_l]. tauto.
    - etrans; [exact (fst_struct env root2 r2 i2 md2 R2 P2 M2 n _ x V2 En)|]. unfold fsts. cbn [map fst starts_l]. tauto.
  Qed.

  Lemma outer_nest env root1 root2 t d n md1 md2 f fol k el pu s E P s' u : accepted env root1 md1 → accepted env root2 md2 →
    within env root1 (TPunct t d) → within env root2 (TNamed n) → env !! n = Some (nested_decl t d n) →
    no_recover env t → no_punct env t → no_recover env d → no_punct env d → aok (ab s) → ab u = ab s →
    go (punct_outer k (produce_md env md1 f t) (produce_md env md1 f d) (tb_get (md_first md1) (key t)) (tb_get (md_first md1) (key d)) fol el pu []) s = ODone (E, P, []) s' →
    ∃ xs ds f' o u', E = el ++ xs ∧ P = pu ++ ds ∧ f ≤ f' ∧ go (produce_md env md2 f' (rest_of d n)) u = ODone (RSucc o) u' ∧ ab u' = ab s' ∧
      ∀ x, nested (TrSeq [x; o]) (x :: xs) ds.
  Proof.
    intros A1 A2 W1 W2 En Hnt Hqt Hnd Hqd. destruct (nest_sets env root1 root2 t d n md1 md2 A1 A2 W1 W2 En) as [Sd St].
    destruct (punct_within _ _ _ _ W1) as [W1t W1d]. destruct (nest_within _ _ _ _ _ En W2) as (W2t & W2d & W2p).
    destruct (part_tables extract env root1 root2 t md1 md2 f f A1 A2 W1t W2t Hnt Hqt ltac:(lia)) as [TT _].
    destruct (part_tables extract env root1 root2 d md1 md2 f f A1 A2 W1d W2d Hnd Hqd ltac:(lia)) as [TD _].
    assert (KT := λ g Hg, proj2 (part_tables extract env root1 root2 t md1 md2 f g A1 A2 W1t W2t Hnt Hqt Hg)).
    assert (KD := λ g Hg, proj2 (part_tables extract env root1 root2 d md1 md2 f g A1 A2 W1d W2d Hnd Hqd Hg)).
    revert el pu s u. induction k as [|k IH]; intros el pu s u Hok Eu Hr; cbn [punct_outer] in Hr; [done|].
    assert (Hoku : aok (ab u)) by by rewrite Eu.
    rewrite run_bind in Hr. destruct (peek_ab extract s Hok) as (s1 & Ep & E1). rewrite Ep in Hr.
    assert (Hstop : go (mret (el, pu, @nil perr)) s1 = ODone (E, P, []) s' →
      (∀ y, look (ab u) = Some y → ts_contains (tb_get (md_first md2) (key (TTuple [d; TOpt (TBox (TNamed n))]))) (Some y) = false) →
      ∃ xs ds f' o u', E = el ++ xs ∧ P = pu ++ ds ∧ f ≤ f' ∧ go (produce_md env md2 f' (rest_of d n)) u = ODone (RSucc o) u' ∧ ab u' = ab s' ∧
      ∀ x, nested (TrSeq [x; o]) (x :: xs) ds).
    { intros [= <- <- <-] Hno. destruct (opt_empty env md2 f _ u Hoku Hno) as (sp & u' & Hu & Ea). exists [], [], (S f), (TrOpt sp None), u'.
      rewrite !app_nil_r. do 2 (split; [done|]). split; [lia|]. split; [exact Hu|]. split; [congruence|]. constructor. }
    destruct (look (ab s)) as [y|] eqn:Ey.
    2:{ apply Hstop; [done|]. intros y Hy. by rewrite Eu, Ey in Hy. }
    destruct (ts_contains (tb_get (md_first md1) (key d)) (Some y)) eqn:Ec.
    2:{ apply Hstop; [done|]. intros y' Hy. rewrite Eu, Ey in Hy. injection Hy as <-. by rewrite Sd. }
    clear Hstop. rewrite run_bind in Hr. destruct (go (produce_md env md1 f d) s1) as [| |rd s2] eqn:Ed; [done..|].
    destruct (decide (fine rd)) as [Hf|Hf].
    2:{ exfalso. apply not_fine_unres in Hf; [|by eapply TD]. destruct (unres rd) as [[x|] e]; cbn in Hf.
        - rewrite run_bind in Hr. destruct (go (punct_inner _ _ _ _ _ _ _) s2) as [| |[[o es] c] s3] eqn:Ei; [done..|].
          assert (Hq := punct_inner_never extract k _ _ _ fol None ([] ++ e) (or_introl Hf) _ _ _ Ei). unfold quiet in Hq. cbn in Hq.
          destruct c; [|cbn in Hr; by injection Hr as _ _ -> _].
          by apply (punct_outer_never extract k _ _ _ _ fol _ _ es Hq _ _ _ Hr).
        - cbn in Hr. by injection Hr as _ _ -> _. }
    destruct (fine_unres rd Hf) as [dd Edd]. rewrite Edd, run_bind in Hr. cbn [app] in Hr.
    destruct (go (punct_inner _ _ _ _ _ _ _) s2) as [| |[[o es] c] s3] eqn:Ei; [done..|].
    assert (es = []) as ->.
    { destruct c; [|cbn in Hr; by injection Hr as _ _ -> _]. destruct es as [|e es]; [done|].
      by destruct (punct_outer_never extract k (produce_md env md1 f t) (produce_md env md1 f d) (tb_get (md_first md1) (key t)) (tb_get (md_first md1) (key d)) fol
        (el ++ option_list o) (pu ++ [dd]) (e :: es) ltac:(done) _ _ _ Hr). }
    assert (Hok1 : aok (ab s1)) by by rewrite E1. assert (Hok2 := run_aok extract _ _ _ _ Ed Hok1).
    assert (Hu : ∀ g, f ≤ g → ∃ u2, go (produce_md env md2 g d) u = ODone rd u2 ∧ ab u2 = ab s2).
    { intros g Hg. apply (run_ab extract _ s1); [by apply (KD g Hg)|congruence]. }
    assert (Ecu : ts_contains (tb_get (md_first md2) (key (TTuple [d; TOpt (TBox (TNamed n))]))) (Some y) = true) by by rewrite Sd.
    assert (Eyu : look (ab u) = Some y) by by rewrite Eu.
    destruct (pinner_inv _ _ _ _ _ _ _ _ _ Hok2 TT Ei) as [(-> & -> & E3 & Hno)|(y' & rt & x & s4 & Ey' & Ec' & E4 & Et & Ex & -> & ->)].
    - cbn in Hr. rewrite app_nil_r in Hr. injection Hr as <- <- <-. destruct (Hu (S f) ltac:(lia)) as (u2 & Hd & Ea2).
      destruct (opt_empty env md2 f (TBox (TNamed n)) u2) as (sp' & u3 & Ho & Ea3); [by rewrite Ea2|intros z Hz; rewrite Ea2 in Hz; rewrite St; by apply (Hno z)|].
      assert (Hp := pair_make env md2 (S f) d _ u rd dd u2 _ u3 Hd Edd Ho).
      destruct (opt_full env md2 _ _ u y _ _ Hoku Eyu Ecu Hp) as (sp & u4 & Ho4 & Ea4).
      eexists [], [dd], _, _, u4. rewrite app_nil_r. do 2 (split; [done|]). split; [|split; [exact Ho4|]]; [lia|]. split; [congruence|]. intros x. constructor.
    - cbn [option_list] in Hr. assert (Hok4 : aok (ab s4)) by by rewrite E4. assert (Hok3 := run_aok extract _ _ _ _ Et Hok4).
      destruct (Hu f ltac:(lia)) as (u2' & Hd' & Ea2'). destruct (run_ab extract (produce_md env md2 f t) s4 u2' rt s3) as (u3 & Hu3 & Ea3).
      { apply (KT f ltac:(lia)); [exact Et|by eapply unres_fine]. } { congruence. }
      destruct (IH _ _ s3 u3 Hok3 Ea3 Hr) as (xs & ds & f' & o & u5 & -> & -> & Hf' & Ho & Ea5 & Hnest).
      remember (S (S (S f'))) as g eqn:Eg. destruct (Hu g ltac:(lia)) as (u2 & Hd & Ea2).
      destruct (run_ab extract (produce_md env md2 f' t) s4 u2 rt s3) as (u6 & Hu6 & Ea6).
      { apply (KT f' Hf'); [exact Et|by eapply unres_fine]. } { congruence. }
      destruct (run_ab extract _ u3 u6 _ _ Ho ltac:(congruence)) as (u7 & Ho7 & Ea7).
      assert (Hs := struct_make env md2 f' t d n u2 rt x u6 o u7 En Hu6 Ex Ho7).
      assert (Hb : go (produce_md env md2 (S (S f')) (TBox (TNamed n))) u2 = ODone (RSucc (TrSeq [x; o])) u7).
      { rewrite <- Hs. unfold produce_md. remember (S f') as h eqn:Eh. cbn [produce]. done. }
      destruct (opt_full env md2 _ (TBox (TNamed n)) u2 y' _ u7 ltac:(by rewrite Ea2) ltac:(by rewrite Ea2) ltac:(by rewrite St) Hb) as (sp' & u8 & Ho8 & Ea8).
      rewrite <- Eg in Ho8.
      assert (Hp := pair_make env md2 g d _ u rd dd u2 _ u8 Hd Edd Ho8).
      destruct (opt_full env md2 _ _ u y _ _ Hoku Eyu Ecu Hp) as (sp & u4 & Ho4 & Ea4).
      eexists (x :: xs), (dd :: ds), _, _, u4. rewrite <- !(assoc_L (++)). do 2 (split; [done|]). split; [|split; [exact Ho4|]]; [lia|].
      split; [congruence|]. intros x0. constructor. apply Hnest.
  Qed.
  Lemma punct_nest env root1 root2 t d n md1 md2 f s r s' : accepted env root1 md1 → accepted env root2 md2 →
    within env root1 (TPunct t d) → within env root2 (TNamed n) → env !! n = Some (nested_decl t d n) →
    no_recover env t → no_punct env t → no_recover env d → no_punct env d → state_ok s →
    go (produce_md env md1 f (TPunct t d)) s = ODone r s' → errors_of r = [] →
    ∃ sp xs ds f' z u, r = RSucc (TrPunct sp xs ds) ∧ nested z xs ds ∧
      go (produce_md env md2 f' (TNamed n)) s = ODone (RSucc z) u ∧ p_tokens u = p_tokens s' ∧ to_come extract u = to_come extract s'.
  Proof.
    intros A1 A2 W1 W2 En Hnt Hqt Hnd Hqd Hok Hr He. apply (state_ok_abs extract) in Hok.
    destruct (punct_within _ _ _ _ W1) as [W1t W1d]. destruct (nest_within _ _ _ _ _ En W2) as (W2t & W2d & W2p).
    destruct f as [|f]; [done|].
    destruct (part_tables extract env root1 root2 t md1 md2 f f A1 A2 W1t W2t Hnt Hqt ltac:(lia)) as [TT _].
    unfold produce_md in Hr. cbn [produce] in Hr. fold (produce_md env md1 f t) (produce_md env md1 f d) in Hr.
    unfold produce_punct in Hr. rewrite run_bind in Hr. destruct (go (produce_md env md1 f t) s) as [| |r0 s1] eqn:E0; [done..|].
    destruct (decide (fine r0)) as [Hf|Hf].
    2:{ exfalso. apply not_fine_unres in Hf; [|by eapply TT]. destruct (unres r0) as [[x|] e]; cbn in Hf.
        - rewrite run_bind in Hr. destruct (go (punct_outer _ _ _ _ _ _ _ _ _) s1) as [| |[[E P] es] s2] eqn:Eo; [done..|].
          assert (Hes := punct_outer_never extract _ _ _ _ _ _ _ _ _ Hf _ _ _ Eo). unfold silent in Hes. cbn in Hes.
          cbn in Hr. destruct es; [done|]. cbn in Hr. by injection Hr as <- _.
        - cbn in Hr. by injection Hr as <- _. }
    destruct (fine_unres r0 Hf) as [x Ex]. rewrite Ex, run_bind in Hr.
    destruct (go (punct_outer _ _ _ _ _ _ _ _ _) s1) as [| |[[E P] es] s2] eqn:Eo; [done..|].
    destruct es as [|e es]; [|cbn in Hr; by injection Hr as <- _]. cbn in Hr. injection Hr as <- <-.
    assert (Hok1 := run_aok extract _ _ _ _ E0 Hok).
    destruct (outer_nest env root1 root2 t d n md1 md2 f _ f [x] [] s1 E P s2 s1 A1 A2 W1 W2 En Hnt Hqt Hnd Hqd Hok1 eq_refl Eo)
      as (xs & ds & f' & o & u & -> & -> & Hf' & Ho & Ea & Hn).
    eexists _, (x :: xs), ds, (S f'), (TrSeq [x; o]), u. split; [reflexivity|]. split; [apply Hn|]. split; [|by apply ab_parts].
    eapply (struct_make env md2 f' t d n s r0 x s1); [exact En| |exact Ex|exact Ho].
    apply (part_tables extract env root1 root2 t md1 md2 f f' A1 A2 W1t W2t Hnt Hqt Hf'); [exact E0|exact Hf].
  Qed.

  Lemma opt_inv env md g c u r u' : aok (ab u) → told extract (produce_md env md g c) → go (produce_md env md (S g) (TOpt c)) u = ODone r u' → fine r →
    (∃ sp, unres r = (Some (TrOpt sp None), []) ∧ ab u' = ab u ∧ ∀ y, look (ab u) = Some y → ts_contains (tb_get (md_first md) (key c)) (Some y) = false) ∨
    ∃ y sp x u1 r1, look (ab u) = Some y ∧ ts_contains (tb_get (md_first md) (key c)) (Some y) = true ∧ ab u1 = ab u ∧
      go (produce_md env md g c) u1 = ODone r1 u' ∧ unres r1 = (Some x, []) ∧ unres r = (Some (TrOpt sp (Some x)), []).
  Proof.
    intros Hok Tc Hr Hf. unfold produce_md in Hr. cbn [produce] in Hr. fold (produce_md env md g c) in Hr. unfold produce_option in Hr. rewrite !run_bind in Hr.
    destruct (peek_ab extract u Hok) as (u1 & Ep & E1). rewrite Ep in Hr. destruct (look (ab u)) as [y|] eqn:Ey.
    2:{ cbn in Hr. injection Hr as <- <-. left. eexists. split; [reflexivity|]. done. }
    destruct (ts_contains (tb_get (md_first md) (key c)) (Some y)) eqn:Ec.
    2:{ cbn in Hr. injection Hr as <- <-. left. eexists. split; [reflexivity|]. split; [done|]. by intros ? [= <-]. }
    right. rewrite run_bind in Hr. destruct (go (produce_md env md g c) u1) as [| |r1 u2] eqn:E2; [done..|].
    destruct r1 as [x|x es|es]; cbn in Hr; injection Hr as <- <-; cbn in Hf.
    - eexists y, _, x, u1, _. do 3 (split; [done|]). split; [exact E2|]. done.
    - subst es. eexists y, _, x, u1, _. do 3 (split; [done|]). split; [exact E2|]. done.
    - subst es. by destruct (Tc _ _ _ E2).
  Qed.
  Lemma pair_inv env md g d c u r u' : told extract (produce_md env md g d) → told extract (produce_md env md g c) →
    go (produce_md env md (S g) (TTuple [d; c])) u = ODone r u' → fine r →
    ∃ rd dd u1 ro o, go (produce_md env md g d) u = ODone rd u1 ∧ unres rd = (Some dd, []) ∧ go (produce_md env md g c) u1 = ODone ro u' ∧ unres ro = (Some o, []) ∧
      r = RSucc (TrSeq [dd; o]).
  Proof.
    intros T1 T2 Hr Hf. unfold produce_md in Hr. cbn [produce] in Hr. rewrite seq_two in Hr. exact (two_inv extract _ _ _ _ _ T1 T2 Hr Hf).
  Qed.
  Lemma struct_inv env md g t d n u r u' : env !! n = Some (nested_decl t d n) → told extract (produce_md env md g t) → told extract (produce_md env md g (rest_of d n)) →
    go (produce_md env md (S g) (TNamed n)) u = ODone r u' → fine r →
    ∃ rt x u1 ro o, go (produce_md env md g t) u = ODone rt u1 ∧ unres rt = (Some x, []) ∧ go (produce_md env md g (rest_of d n)) u1 = ODone ro u' ∧ unres ro = (Some o, []) ∧
      r = RSucc (TrSeq [x; o]).
  Proof.
    intros En T1 T2 Hr Hf. unfold produce_md in *. cbn [produce] in Hr. rewrite En in Hr. cbn [nested_decl map fst produce_seq] in Hr.
    rewrite !run_bind in Hr. destruct (go (produce env _ _ _ g t) u) as [| |rt u1] eqn:E1; [done..|].
    destruct (unres rt) as [[x|] e] eqn:Ex; [|cbn in Hr; by injection Hr as <- _].
    rewrite run_bind in Hr. destruct (go (produce env _ _ _ g (rest_of d n)) u1) as [| |ro u2] eqn:E2; [done..|].
    destruct (unres ro) as [[o|] e'] eqn:Eo; [|cbn in Hr; by injection Hr as <- _].
    cbn [app] in Hr. destruct (e ++ e') as [|e0 es] eqn:Ee; cbn in Hr; injection Hr as <- <-; [|done].
    apply app_nil in Ee as [-> ->]. eauto 10.
  Qed.

  Lemma nest_outer env root1 root2 t d n md1 md2 F fol g F' u r u' s : accepted env root1 md1 → accepted env root2 md2 →
    within env root1 (TPunct t d) → within env root2 (TNamed n) → env !! n = Some (nested_decl t d n) →
    no_recover env (TNamed n) → no_punct env (TNamed n) → g ≤ F → g ≤ F' → aok (ab u) → ab s = ab u →
    go (produce_md env md2 g (rest_of d n)) u = ODone r u' → fine r →
    ∃ o xs ds, unres r = (Some o, []) ∧ (∀ x, nested (TrSeq [x; o]) (x :: xs) ds) ∧
      (length ds ≤ length xs ∨ (∀ y, look (ab u') = Some y → ts_contains fol (Some y) = true) → ∀ el pu, ∃ s',
        go (punct_outer F' (produce_md env md1 F t) (produce_md env md1 F d) (tb_get (md_first md1) (key t)) (tb_get (md_first md1) (key d)) fol el pu []) s =
          ODone (el ++ xs, pu ++ ds, []) s' ∧ ab s' = ab u').
  Proof.
    intros A1 A2 W1 W2 En Hn Hq. destruct (nest_sets env root1 root2 t d n md1 md2 A1 A2 W1 W2 En) as [Sd St].
    destruct (punct_within _ _ _ _ W1) as [W1t W1d]. destruct (nest_within _ _ _ _ _ En W2) as (W2t & W2d & W2p).
    assert (Wn := rtc_refl (λ a b, b ∈ subs env a) (TNamed n)). change (within env (TNamed n) (TNamed n)) in Wn.
    destruct (nest_within _ _ _ _ _ En Wn) as (Wt & Wd & Wp).
    assert (Told : ∀ h c, within env (TNamed n) c → told extract (produce_md env md2 h c)).
    { intros h c Wc. assert (W2c : within env root2 c) by exact (within_trans _ _ _ _ W2 Wc).
      refine (proj1 (part_tables extract env root2 root2 c md2 md2 h h A2 A2 W2c W2c _ _ ltac:(lia))).
      - intros c' H. apply Hn. eapply within_trans; [|exact H]. done.
      - intros c' H. apply Hq. eapply within_trans; [|exact H]. done. }
    assert (Wo : within env (TNamed n) (TOpt (TBox (TNamed n)))) by (eapply rtc_r; [exact Wp|]; cbn; set_solver).
    assert (Wb : within env (TNamed n) (TBox (TNamed n))) by (eapply rtc_r; [exact Wo|]; cbn; set_solver).
    assert (Wr : within env (TNamed n) (rest_of d n)) by (eapply rtc_r; [exact Wn|]; cbn; rewrite En; cbn; set_solver).
    assert (KT : ∀ h, h ≤ F → clean (produce_md env md2 h t) (produce_md env md1 F t)).
    { intros h Hh. refine (proj2 (part_tables extract env root2 root1 t md2 md1 h F A2 A1 W2t W1t _ _ Hh)).
      - intros c' H. apply Hn. eapply within_trans; [|exact H]. done.
      - intros c' H. apply Hq. eapply within_trans; [|exact H]. done. }
    assert (KD : ∀ h, h ≤ F → clean (produce_md env md2 h d) (produce_md env md1 F d)).
    { intros h Hh. refine (proj2 (part_tables extract env root2 root1 d md2 md1 h F A2 A1 W2d W1d _ _ Hh)).
      - intros c' H. apply Hn. eapply within_trans; [|exact H]. done.
      - intros c' H. apply Hq. eapply within_trans; [|exact H]. done. }
    revert F' u r u' s. induction g as [g IH] using lt_wf_ind. intros F' u r u' s HF HF' Hok Es Hr Hf.
    destruct g as [|g]; [done|]. destruct F' as [|F']; [lia|]. assert (Hoks : aok (ab s)) by by rewrite Es. destruct (peek_ab extract s Hoks) as (s1 & Ep & E1).
    destruct (opt_inv _ _ _ _ _ _ _ Hok (Told g _ Wp) Hr Hf) as [(sp & Er & Eu' & Hno)|(y & sp & p & u1 & r1 & Ey & Ec & Eu1 & Hp & Ep1 & Er)].
    { exists (TrOpt sp None), [], []. split; [done|]. split; [constructor|]. intros _ el pu. exists s1. rewrite !app_nil_r. split; [|congruence].
      cbn [punct_outer]. rewrite run_bind, Ep, Es. destruct (look (ab u)) as [y|]; [|done]. by rewrite <- Sd, (Hno y eq_refl). }
    destruct g as [|g]; [done|].
    destruct (pair_inv _ _ _ _ _ _ _ _ (Told g d Wd) (Told g _ Wo) Hp (unres_fine _ _ Ep1)) as (rd & dd & u2 & ro & o & Hd & Edd & Ho & Eo & ->).
    injection Ep1 as <-. rewrite Sd in Ec.
    destruct (run_ab extract (produce_md env md1 F d) u1 s1 rd u2) as (s2 & Hs2 & Ea2); [apply (KD g ltac:(lia)); [done|by eapply unres_fine]|congruence|].
    assert (Hok1 : aok (ab u1)) by by rewrite Eu1. assert (Hok2 := run_aok extract _ _ _ _ Hd Hok1). assert (Hoks2 : aok (ab s2)) by by rewrite Ea2.
    destruct (peek_ab extract s2 Hoks2) as (s3 & Ep3 & E3).
    assert (Hout : ∀ el pu, go (punct_outer (S F') (produce_md env md1 F t) (produce_md env md1 F d) (tb_get (md_first md1) (key t)) (tb_get (md_first md1) (key d)) fol el pu []) s =
      go ('(o0, errs', cont) ← punct_inner F' (produce_md env md1 F t) (tb_get (md_first md1) (key t)) (tb_get (md_first md1) (key d)) fol None [];
          if cont : bool then punct_outer F' (produce_md env md1 F t) (produce_md env md1 F d) (tb_get (md_first md1) (key t)) (tb_get (md_first md1) (key d)) fol (el ++ option_list o0) (pu ++ [dd]) errs'
          else mret (el ++ option_list o0, pu ++ [dd], errs')) s2).
    { intros el pu. cbn [punct_outer]. rewrite run_bind, Ep, Es, Ey, Ec, run_bind, Hs2, Edd. done. }
    destruct g as [|g]; [done|]. destruct F' as [|F']; [lia|].
    destruct (opt_inv _ _ _ _ _ _ _ Hok2 (Told g _ Wb) Ho (unres_fine _ _ Eo)) as [(sp' & Er' & Eu' & Hno)|(z & sp' & w & u3 & r3 & Ez & Ecz & Eu3 & Hw & Ew & Er')].
    { rewrite Eo in Er'. injection Er' as ->. exists (TrOpt sp (Some (TrSeq [dd; TrOpt sp' None]))), [], [dd]. split; [done|]. split; [constructor|].
      intros [?|Hend] el pu; [cbn in *; lia|]. exists s3. rewrite Hout, app_nil_r, run_bind. split; [|congruence].
      cbn [punct_inner]. rewrite run_bind, Ep3, Ea2. destruct (look (ab u2)) as [z|] eqn:Ez.
      - rewrite <- St, (Hno z eq_refl), (Hend z) by by rewrite Eu'. cbn. by rewrite app_nil_r.
      - cbn. by rewrite app_nil_r. }
    rewrite Eo in Er'. injection Er' as ->. rewrite St in Ecz.
    destruct g as [|g]; [done|]. change (go (produce_md env md2 g (TNamed n)) u3 = ODone r3 u') in Hw. destruct g as [|g]; [done|].
    destruct (struct_inv _ _ _ _ _ _ _ _ _ En (Told g t Wt) (Told g _ Wr) Hw (unres_fine _ _ Ew)) as (rt & x & u4 & rr & o' & Ht & Ex & Hrr & Eo' & ->).
    injection Ew as <-. assert (Hok3 : aok (ab u3)) by by rewrite Eu3. assert (Hok4 := run_aok extract _ _ _ _ Ht Hok3).
    destruct (run_ab extract (produce_md env md1 F t) u3 s3 rt u4) as (s4 & Hs4 & Ea4); [apply (KT g ltac:(lia)); [done|by eapply unres_fine]|congruence|].
    destruct (IH g ltac:(lia) (S F') u4 rr u' s4 ltac:(lia) ltac:(lia) Hok4 Ea4 Hrr (unres_fine _ _ Eo')) as (o2 & xs & ds & Eo2 & Hne & Hi).
    rewrite Eo' in Eo2. injection Eo2 as <-.
    exists (TrOpt sp (Some (TrSeq [dd; TrOpt sp' (Some (TrSeq [x; o']))]))), (x :: xs), (dd :: ds). split; [done|]. split; [intros x0; by constructor|].
    intros Hend el pu. destruct (Hi ltac:(destruct Hend as [H|H]; [left; cbn in H; lia|by right]) (el ++ [x]) (pu ++ [dd])) as (s' & Hi' & Ea'). exists s'. split; [|done].
    rewrite Hout, run_bind.
    assert (Einner : go (punct_inner (S F') (produce_md env md1 F t) (tb_get (md_first md1) (key t)) (tb_get (md_first md1) (key d)) fol None []) s2 = ODone (Some x, [], true) s4).
    { cbn [punct_inner app]. rewrite run_bind, Ep3, Ea2, Ez, Ecz. cbn [negb andb]. rewrite !run_bind, Hs4, Ex. done. }
    rewrite Einner. etrans; [exact Hi'|]. by rewrite <- !(assoc_L (++)).
  Qed.
  Lemma look_word s : look (ab s) = head (word (p_src s) (to_come extract s)).
  Proof. unfold look. change (a_rest (ab s)) with (to_come extract s). by destruct (to_come extract s). Qed.
  Lemma nest_punct env root1 root2 t d n regs1 md1 md2 f s r s' : accepted env root1 md1 → accepted env root2 md2 → register_root env (prod_of root1) = Some regs1 →
    within env root1 (TPunct t d) → within env root2 (TNamed n) → env !! n = Some (nested_decl t d n) →
    no_recover env (TNamed n) → no_punct env (TNamed n) → state_ok s →
    go (produce_md env md2 f (TNamed n)) s = ODone r s' → errors_of r = [] →
    ∃ z xs ds, r = RSucc z ∧ nested z xs ds ∧
      (length ds < length xs ∨ (∀ y, head (word (p_src s') (to_come extract s')) = Some y → near_follow regs1 (key root1) (key (TPunct t d)) (Some y)) →
       ∃ sp f' u, go (produce_md env md1 f' (TPunct t d)) s = ODone (RSucc (TrPunct sp xs ds)) u ∧
         p_tokens u = p_tokens s' ∧ to_come extract u = to_come extract s').
  Proof.
    intros A1 A2 R1 W1 W2 En Hn Hq Hok Hr He. apply (state_ok_abs extract) in Hok.
    destruct (punct_within _ _ _ _ W1) as [W1t W1d]. destruct (nest_within _ _ _ _ _ En W2) as (W2t & W2d & W2p).
    assert (Wn := rtc_refl (λ a b, b ∈ subs env a) (TNamed n)). change (within env (TNamed n) (TNamed n)) in Wn.
    destruct (nest_within _ _ _ _ _ En Wn) as (Wt & Wd & Wp).
    assert (Wr : within env (TNamed n) (rest_of d n)) by (eapply rtc_r; [exact Wn|]; cbn; rewrite En; cbn; set_solver).
    assert (Told : ∀ h c, within env (TNamed n) c → told extract (produce_md env md2 h c)).
    { intros h c Wc. assert (W2c : within env root2 c) by exact (within_trans _ _ _ _ W2 Wc).
      refine (proj1 (part_tables extract env root2 root2 c md2 md2 h h A2 A2 W2c W2c _ _ ltac:(lia))).
      - intros c' H. apply Hn. eapply within_trans; [|exact H]. done.
      - intros c' H. apply Hq. eapply within_trans; [|exact H]. done. }
    assert (Hf : fine r) by (apply errors_fine; [exact (Told f _ Wn _ _ _ Hr)|done]). destruct f as [|f]; [done|].
    destruct (struct_inv _ _ _ _ _ _ _ _ _ En (Told f t Wt) (Told f _ Wr) Hr Hf) as (rt & x & u1 & ro & o & Ht & Ex & Ho & Eo & ->).
    assert (Hok1 := run_aok extract _ _ _ _ Ht Hok).
    destruct (nest_outer env root1 root2 t d n md1 md2 f (tb_get (md_follow md1) (key (TPunct t d))) f f u1 ro s' u1 A1 A2 W1 W2 En Hn Hq ltac:(lia) ltac:(lia) Hok1 eq_refl Ho (unres_fine _ _ Eo))
      as (o2 & xs & ds & Eo2 & Hne & Hi). rewrite Eo in Eo2. injection Eo2 as <-.
    exists (TrSeq [x; o]), (x :: xs), ds. split; [done|]. split; [apply Hne|]. intros Hend.
    destruct (Hi) with (el := [x]) (pu := @nil tree) as (u & Hu & Ea).
    { destruct Hend as [H|H]; [left; cbn in H; lia|]. right. intros y Hy. rewrite look_word in Hy. destruct A1 as (r1 & i1 & R1' & P1 & M1). rewrite R1 in R1'. injection R1' as <-.
      apply (follow_spec env root1 regs1 i1 md1 R1 P1 M1 (TPunct t d) (Some y)). by apply H. }
    assert (Ht1 : go (produce_md env md1 f t) s = ODone rt u1).
    { refine (proj2 (part_tables extract env root2 root1 t md2 md1 f f A2 A1 W2t W1t _ _ ltac:(lia)) _ _ _ Ht (unres_fine _ _ Ex)).
      - intros c' H. apply Hn. eapply within_trans; [|exact H]. done.
      - intros c' H. apply Hq. eapply within_trans; [|exact H]. done. }
    eexists _, (S f), u. split; [|by apply ab_parts].
    unfold produce_md. cbn [produce]. fold (produce_md env md1 f t) (produce_md env md1 f d). unfold produce_punct. rewrite run_bind, Ht1, Ex, run_bind, Hu. reflexivity.
  Qed.

  (** After a trailing delimiter comes a token that may follow. *)
  Lemma outer_trail k pT pP ef pf fol el pu s E P s' : aok (ab s) → told extract pT → told extract pP → length el = S (length pu) →
    go (punct_outer k pT pP ef pf fol el pu []) s = ODone (E, P, []) s' →
    length E = S (length P) ∨ length E = length P ∧ ∀ y, look (ab s') = Some y → ts_contains fol (Some y) = true.
  Proof.
    intros Hok TT TD. revert el pu s Hok. induction k as [|k IH]; intros el pu s Hok Hlen Hr; cbn [punct_outer] in Hr; [done|].
    rewrite run_bind in Hr. destruct (peek_ab extract s Hok) as (s1 & Ep & E1). rewrite Ep in Hr.
    destruct (look (ab s)) as [y|] eqn:Ey; [|cbn in Hr; injection Hr as <- <- _; by left].
    destruct (ts_contains pf (Some y)) eqn:Ec; [|cbn in Hr; injection Hr as <- <- _; by left].
    rewrite run_bind in Hr. destruct (go pP s1) as [| |rd s2] eqn:Ed; [done..|].
    destruct (decide (fine rd)) as [Hf|Hf].
    2:{ exfalso. apply not_fine_unres in Hf; [|by eapply TD]. destruct (unres rd) as [[x|] e]; cbn in Hf.
        - rewrite run_bind in Hr. destruct (go (punct_inner _ _ _ _ _ _ _) s2) as [| |[[o es] c] s3] eqn:Ei; [done..|].
          assert (Hq := punct_inner_never extract k _ _ _ fol None ([] ++ e) (or_introl Hf) _ _ _ Ei). unfold quiet in Hq. cbn in Hq.
          destruct c; [|cbn in Hr; by injection Hr as _ _ -> _].
          by apply (punct_outer_never extract k _ _ _ _ fol _ _ es Hq _ _ _ Hr).
        - cbn in Hr. by injection Hr as _ _ -> _. }
    destruct (fine_unres rd Hf) as [dd Edd]. rewrite Edd, run_bind in Hr. cbn [app] in Hr.
    destruct (go (punct_inner _ _ _ _ _ _ _) s2) as [| |[[o es] c] s3] eqn:Ei; [done..|].
    assert (es = []) as ->.
    { destruct c; [|cbn in Hr; by injection Hr as _ _ -> _]. destruct es as [|e es]; [done|].
      by destruct (punct_outer_never extract k pT pP ef pf fol (el ++ option_list o) (pu ++ [dd]) (e :: es) ltac:(done) _ _ _ Hr). }
    assert (Hok1 : aok (ab s1)) by by rewrite E1. assert (Hok2 := run_aok extract _ _ _ _ Ed Hok1).
    destruct (pinner_inv _ _ _ _ _ _ _ _ _ Hok2 TT Ei) as [(-> & -> & E3 & Hno)|(y' & rt & x & s4 & Ey' & Ec' & E4 & Et & Ex & -> & ->)].
    - cbn in Hr. rewrite app_nil_r in Hr. injection Hr as <- <- <-. right. rewrite app_length. cbn. split; [lia|]. intros z Hz. rewrite E3 in Hz. by apply (Hno z).
    - assert (Hok4 : aok (ab s4)) by by rewrite E4. assert (Hok3 := run_aok extract _ _ _ _ Et Hok4).
      apply (IH _ _ s3 Hok3) in Hr; [done|]. rewrite !app_length. cbn. lia.
  Qed.
  Lemma punct_trail env root t d regs md f s r s' : accepted env root md → register_root env (prod_of root) = Some regs → within env root (TPunct t d) →
    no_recover env t → no_punct env t → no_recover env d → no_punct env d → state_ok s →
    go (produce_md env md f (TPunct t d)) s = ODone r s' → errors_of r = [] →
    ∃ sp xs ds, r = RSucc (TrPunct sp xs ds) ∧ (length xs = S (length ds) ∨ length xs = length ds ∧
      ∀ y, head (word (p_src s') (to_come extract s')) = Some y → near_follow regs (key root) (key (TPunct t d)) (Some y)).
  Proof.
    intros A1 R1 W1 Hnt Hqt Hnd Hqd Hok Hr He. apply (state_ok_abs extract) in Hok. destruct (punct_within _ _ _ _ W1) as [W1t W1d].
    destruct f as [|f]; [done|].
    destruct (part_tables extract env root root t md md f f A1 A1 W1t W1t Hnt Hqt ltac:(lia)) as [TT _].
    destruct (part_tables extract env root root d md md f f A1 A1 W1d W1d Hnd Hqd ltac:(lia)) as [TD _].
    unfold produce_md in Hr. cbn [produce] in Hr. fold (produce_md env md f t) (produce_md env md f d) in Hr.
    unfold produce_punct in Hr. rewrite run_bind in Hr. destruct (go (produce_md env md f t) s) as [| |r0 s1] eqn:E0; [done..|].
    destruct (unres r0) as [[x|] e] eqn:Ex.
    2:{ cbn in Hr. injection Hr as <- _. cbn in He. subst e. assert (Ht := TT _ _ _ E0). destruct r0; [done..|]. by injection Ex as ->. }
    rewrite run_bind in Hr. destruct (go (punct_outer _ _ _ _ _ _ _ _ _) s1) as [| |[[E P] es] s2] eqn:Eo; [done..|].
    destruct es as [|e0 es]; [|cbn in Hr; by injection Hr as <- _]. cbn in Hr. injection Hr as <- <-.
    destruct e as [|e0 es]; [|by destruct (punct_outer_never extract f (produce_md env md f t) (produce_md env md f d) (tb_get (md_first md) (key t)) (tb_get (md_first md) (key d))
      (tb_get (md_follow md) (key (TPunct t d))) [x] [] (e0 :: es) ltac:(done) _ _ _ Eo)].
    assert (Hok1 := run_aok extract _ _ _ _ E0 Hok). eexists _, E, P. split; [reflexivity|].
    destruct (outer_trail f _ _ _ _ _ [x] [] s1 E P s2 Hok1 TT TD eq_refl Eo) as [H|[H1 H2]]; [by left|]. right. split; [done|]. intros y Hy. rewrite <- look_word in Hy.
    destruct A1 as (r1 & i1 & R1' & P1 & M1). rewrite R1 in R1'. injection R1' as <-.
    apply (follow_spec env root regs i1 md R1 P1 M1 (TPunct t d) (Some y)). by apply H2.
  Qed.
End nest.
