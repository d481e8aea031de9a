(** [Split<T, D>] and [(T, Vec<(D, T)>)]. *)
From Coq Require Import String NArith.
From stdpp Require Import prelude list strings relations.
From Verif Require Import LexModel LexSpec SynSetModel TableModel CfgSpec StreamModel StreamSpec TypeModel TypeSpec ProduceModel ParseSpec ProgFacts SoundFacts StreamFacts
  FuelFacts RunFacts MdFacts LangFacts EndFacts PartSpec PartFacts ExtendSpec FewerFacts CleanSpec CleanFacts EachFacts SugarSpec.
Local Open Scope nat_scope.
#[local] Arguments ts_contains : simpl never.

Section progs.
  Variable extract : nat → bool.
  Notation go := (run extract).
  Notation ab := (abs extract).
  Notation clean := (keeps extract fine).

  Lemma unres_fine {A} (r : res A) x : unres r = (Some x, []) → fine r.
  Proof. destruct r as [z|z es|es]; [done|by intros [= _ ->]|done]. Qed.
  Lemma keeps_trans {A} (m1 m2 m3 : M (res A)) : clean m1 m2 → clean m2 m3 → clean m1 m3.
  Proof. intros H1 H2 s r s' Hr Hf. by apply H2; [apply H1|]. Qed.
  Lemma keeps_more env md f f' t : f ≤ f' → clean (produce_md env md f t) (produce_md env md f' t).
  Proof. intros Hf s r s' Hr _. rewrite <- Hr. apply (le_run extract); [by apply rec_le|by rewrite Hr]. Qed.

  (** ** The sequence *)
  Definition two (pP pT : M (res tree)) : M (res tree) :=
    x ← pP; match unres x with
    | (Some a, e) => y ← pT; match unres y with
      | (Some b, e') => mret (res_into (TrSeq [a; b]) (e ++ e'))
      | (None, e') => mret (RPanic (e ++ e')) end
    | (None, e) => mret (RPanic e) end.
  Lemma seq_two rec t1 t2 s : go (r ← produce_seq rec [t1; t2] [] []; mret (res_map TrSeq r)) s = go (two (rec t1) (rec t2)) s.
  Proof.
    cbn [produce_seq]. unfold two. rewrite !run_bind. destruct (go (rec t1) s) as [| |r1 s1]; [done..|].
    destruct (unres r1) as [[a|] e]; [|done]. rewrite !run_bind. destruct (go (rec t2) s1) as [| |r2 s2]; [done..|].
    destruct (unres r2) as [[b|] e']; [|done]. cbn. by destruct (e ++ e').
  Qed.
  Lemma two_make pP pT u rd a u1 rt b u2 : go pP u = ODone rd u1 → unres rd = (Some a, []) → go pT u1 = ODone rt u2 → unres rt = (Some b, []) →
    go (two pP pT) u = ODone (RSucc (TrSeq [a; b])) u2.
  Proof. intros H1 E1 H2 E2. unfold two. by rewrite run_bind, H1, E1, run_bind, H2, E2. Qed.
  Lemma two_inv pP pT u r u2 : told extract pP → told extract pT → go (two pP pT) u = ODone r u2 → fine r →
    ∃ rd a u1 rt b, go pP u = ODone rd u1 ∧ unres rd = (Some a, []) ∧ go pT u1 = ODone rt u2 ∧ unres rt = (Some b, []) ∧ r = RSucc (TrSeq [a; b]).
  Proof.
    intros TP TT Hr Hf. unfold two in Hr. rewrite run_bind in Hr. destruct (go pP u) as [| |rd u1] eqn:E1; [done..|].
    destruct (unres rd) as [[a|] e] eqn:Ea; [|by injection Hr as <- <-].
    rewrite run_bind in Hr. destruct (go pT u1) as [| |rt u3] eqn:E2; [done..|].
    destruct (unres rt) as [[b|] e'] eqn:Eb; [|by injection Hr as <- <-].
    injection Hr as <- <-. rewrite fine_into in Hf. apply app_nil in Hf as [-> ->]. eauto 10.
  Qed.

  Lemma two_told pP pT : told extract pP → told extract pT → told extract (two pP pT).
  Proof.
    intros TP TT v r v' Hv. unfold two in Hv. rewrite run_bind in Hv. destruct (go pP v) as [| |rd v1] eqn:E2; [done..|].
    destruct (unres rd) as [[a|] e] eqn:Ea.
    - rewrite run_bind in Hv. destruct (go pT v1) as [| |rt v2] eqn:E3; [done..|].
      destruct (unres rt) as [[b|] e'] eqn:Eb; injection Hv as <- <-; [apply tells_into|]. assert (Ht := TT _ _ _ E3).
      destruct rt; [done..|]. injection Eb as <-. by apply app_r.
    - injection Hv as <- <-. assert (Ht := TP _ _ _ E2). destruct rd; [done..|]. by injection Ea as <-.
  Qed.

  (** ** Lists *)
  Definition star (n : nat) (q : M (res tree)) (set : tset) : M (res tree) :=
    r ← produce_option (produce_plus n q set) fst set;
    mret (res_map (λ '(sp, o), match o with Some (sp', l) => TrList sp' l | None => TrList sp [] end) r).
  Lemma iter_ext n q q' set acc errs hi s : (∀ s, go q s = go q' s) → go (iter_loop n q set acc errs hi) s = go (iter_loop n q' set acc errs hi) s.
  Proof.
    intros H. revert acc errs hi s. induction n as [|n IH]; intros acc errs hi s; cbn [iter_loop]; [done|].
    rewrite !run_bind. destruct (go peek_src s) as [| |[y|] s1]; [done..| |done]. destruct (ts_contains set (Some y)); [|done].
    rewrite !run_bind, H. destruct (go q' s1) as [| |r s2]; [done..|]. destruct (unres r) as [[x|] e]; [apply IH|done].
  Qed.
  Lemma star_ext n q q' set s : (∀ s, go q s = go q' s) → go (star n q set) s = go (star n q' set) s.
  Proof.
    intros H. unfold star, produce_option. rewrite !run_bind. destruct (go peek_src s) as [| |[y|] s1]; [done..| |done].
    destruct (ts_contains set (Some y)); [|done]. unfold produce_plus. rewrite !run_bind, H. destruct (go q' s1) as [| |r s2]; [done..|].
    destruct (unres r) as [[x|] e]; [|done]. rewrite !run_bind. by rewrite (iter_ext n q q').
  Qed.
  Lemma star_iter n q set u l hi' u' : aok (ab u) → told extract q →
    go (iter_loop (S n) q set [] [] 0) u = ODone (l, [], hi') u' → ∃ sp, go (star n q set) u = ODone (RSucc (TrList sp l)) u'.
  Proof.
    intros Hok Tq Hr. cbn [iter_loop] in Hr. rewrite run_bind in Hr. destruct (peek_ab extract u Hok) as (u1 & Ep & E1). rewrite Ep in Hr.
    unfold star. unfold produce_option. rewrite !run_bind, Ep.
    destruct (look (ab u)) as [y|]; [|injection Hr as <- _ <-; by eexists].
    destruct (ts_contains set (Some y)); [|injection Hr as <- _ <-; by eexists].
    rewrite run_bind in Hr. unfold produce_plus. rewrite !run_bind. destruct (go q u1) as [| |r0 u2] eqn:Eq; [done..|].
    destruct (unres r0) as [[x|] e] eqn:Ex.
    - cbn [app] in Hr. rewrite run_bind. rewrite Hr. by eexists.
    - exfalso. injection Hr as _ -> _ _. assert (Ht := Tq _ _ _ Eq). destruct r0; [done..|]. by injection Ex as ->.
  Qed.
  Lemma iter_star n q set u r u' : aok (ab u) → told extract q → go (star n q set) u = ODone r u' → fine r →
    ∃ sp l hi', r = RSucc (TrList sp l) ∧ go (iter_loop (S n) q set [] [] 0) u = ODone (l, [], hi') u'.
  Proof.
    intros Hok Tq Hr Hf. cbn [iter_loop]. rewrite run_bind. destruct (peek_ab extract u Hok) as (u1 & Ep & E1). rewrite Ep.
    unfold star in Hr. unfold produce_option in Hr. rewrite !run_bind, Ep in Hr.
    destruct (look (ab u)) as [y|]; [|cbn in Hr; injection Hr as <- <-; by eexists _, _, _].
    destruct (ts_contains set (Some y)); [|cbn in Hr; injection Hr as <- <-; by eexists _, _, _].
    rewrite run_bind. rewrite run_bind in Hr. unfold produce_plus in Hr. rewrite !run_bind in Hr. destruct (go q u1) as [| |r0 u2] eqn:Eq; [done..|].
    destruct (unres r0) as [[x|] e] eqn:Ex.
    - cbn [app]. rewrite run_bind in Hr. destruct (go (iter_loop _ _ _ _ _ _) u2) as [| |[[l es] hi] u3]; [done..|].
      destruct es as [|e0 es]; cbn in Hr; injection Hr as <- <-; [|done]. by eexists _, _, _.
    - cbn in Hr. injection Hr as <- <-. cbn in Hf. subst e. assert (Ht := Tq _ _ _ Eq). destruct r0; [done..|]. by injection Ex as ->.
  Qed.

  (** ** Separated lists *)
  Lemma inner_inv n pT ef pf fol s o c s' : aok (ab s) → told extract pT → go (split_inner n pT ef pf fol None []) s = ODone (o, [], c) s' →
    ∃ r x s0, ab s0 = ab s ∧ go pT s0 = ODone r s' ∧ unres r = (Some x, []) ∧ o = Some x ∧ c = true.
  Proof.
    intros Hok Tp Hr. destruct n as [|n]; cbn [split_inner] in Hr; [done|]. rewrite run_bind in Hr.
    destruct (peek_ab extract s Hok) as (s0 & Ep & E0). rewrite Ep in Hr.
    assert (Hno : ∀ tk p s1, go (if ts_contains pf tk then mret (@None tree, [] ++ option_list (Some p), true)
        else if bool_decide (tk = None) || ts_contains fol tk then mret (None, [] ++ option_list (Some p), false)
        else _ ← consume; split_inner n pT ef pf fol (Some p) []) s1 = ODone (o, [], c) s' → False).
    { intros tk p s1 H. destruct (ts_contains pf tk); [done|]. destruct (bool_decide (tk = None) || ts_contains fol tk); [done|]. rewrite run_bind in H.
      destruct (go consume s1) as [| |? s2]; [done..|].
      by apply (split_inner_never extract n pT ef pf fol (Some p) [] (or_intror (ex_intro _ p eq_refl)) _ _ _ H). }
    destruct (ts_contains ef (look (ab s)) || ts_contains_e ef).
    - rewrite !run_bind in Hr. destruct (go pT s0) as [| |r s1] eqn:Er; [done..|].
      destruct (unres r) as [[x|] e] eqn:Ex.
      + cbn in Hr. injection Hr as <- Ee <- <-. rewrite app_nil_r in Ee. subst e. by exists r, x, s0.
      + exfalso. rewrite run_bind in Hr. destruct (go peek_src s1) as [| |tk s2]; [done..|]. cbn in Hr.
        assert (Ht := Tp _ _ _ Er). destruct r as [| |es]; [done..|]. injection Ex as <-. cbn in Ht. unfold merge_panic in Hr.
        destruct (last es) as [p|] eqn:El; [|by apply last_None in El]. exact (Hno tk p s2 Hr).
    - exfalso. rewrite run_bind in Hr. destruct (go (e ← expecting ef; mret (inr (look (ab s), Some e))) s0) as [| |y s1] eqn:Ey; [done..|].
      rewrite run_bind in Ey. destruct (go (expecting ef) s0) as [| |p s2]; [done..|]. injection Ey as <- <-. exact (Hno _ p s2 Hr).
  Qed.
  Lemma outer_iter n n2 pT1 pP1 pT2 pP2 ef pf fol set el pu s E P s' u : aok (ab s) → told extract pT1 → clean pT1 pT2 → told extract pP1 → clean pP1 pP2 →
    (∀ x, ts_contains set (Some x) = ts_contains pf (Some x)) → n ≤ n2 → ab u = ab s →
    go (split_outer n pT1 pP1 ef pf fol el pu []) s = ODone (E, P, []) s' →
    ∃ xs ds, E = el ++ xs ∧ P = pu ++ ds ∧ length ds = length xs ∧
      ∀ acc hi, ∃ hi' u', go (iter_loop n2 (two pP2 pT2) set acc [] hi) u = ODone (acc ++ pairs ds xs, [], hi') u' ∧ ab u' = ab s'.
  Proof.
    intros Hok TT KT TP KP Hset. revert n2 el pu s u Hok. induction n as [|n IH]; intros n2 el pu s u Hok Hn Eu Hr; cbn [split_outer] in Hr; [done|].
    destruct n2 as [|n2]; [lia|]. rewrite run_bind in Hr. destruct (peek_ab extract s Hok) as (s1 & Ep & E1). rewrite Ep in Hr.
    assert (Hoku : aok (ab u)) by by rewrite Eu. destruct (peek_ab extract u Hoku) as (u1 & Epu & Eu1).
    assert (Hstop : go (mret (el, pu, @nil perr)) s1 = ODone (E, P, []) s' → (∀ acc hi, go (iter_loop (S n2) (two pP2 pT2) set acc [] hi) u = ODone (acc, [], hi) u1) →
      ∃ xs ds, E = el ++ xs ∧ P = pu ++ ds ∧ length ds = length xs ∧
      ∀ acc hi, ∃ hi' u', go (iter_loop (S n2) (two pP2 pT2) set acc [] hi) u = ODone (acc ++ pairs ds xs, [], hi') u' ∧ ab u' = ab s').
    { intros [= <- <- <-] Hi. exists [], []. rewrite !app_nil_r. do 3 (split; [done|]). intros acc hi. exists hi, u1. rewrite Hi, app_nil_r.
      split; [done|congruence]. }
    cbn [iter_loop] in Hstop |- *.
    destruct (look (ab s)) as [y|] eqn:Ey.
    2:{ apply Hstop; [done|]. intros acc hi. by rewrite run_bind, Epu, Eu, Ey. }
    destruct (ts_contains pf (Some y)) eqn:Ec.
    2:{ apply Hstop; [done|]. intros acc hi. by rewrite run_bind, Epu, Eu, Ey, Hset, Ec. }
    clear Hstop. rewrite run_bind in Hr. destruct (go pP1 s1) as [| |rd s2] eqn:Ed; [done..|].
    destruct (decide (fine rd)) as [Hf|Hf].
    2:{ exfalso. apply not_fine_unres in Hf; [|by eapply TP]. destruct (unres rd) as [[x|] e]; cbn in Hf.
        - rewrite run_bind in Hr. destruct (go (split_inner _ _ _ _ _ _ _) s2) as [| |[[o es] c] s3] eqn:Ei; [done..|].
          assert (Hq := split_inner_never extract n pT1 ef pf fol None ([] ++ e) (or_introl Hf) _ _ _ Ei). unfold quiet in Hq. cbn in Hq.
          destruct c; [|cbn in Hr; by injection Hr as _ _ -> _].
          by apply (split_outer_never extract n pT1 pP1 ef pf fol _ _ es Hq _ _ _ Hr).
        - cbn in Hr. by injection Hr as _ _ -> _. }
    destruct (fine_unres rd Hf) as [dd Edd]. rewrite Edd, run_bind in Hr. cbn [app] in Hr.
    destruct (go (split_inner _ _ _ _ _ _ _) s2) as [| |[[o es] c] s3] eqn:Ei; [done..|].
    assert (es = []) as ->.
    { destruct c; [|cbn in Hr; by injection Hr as _ _ -> _]. destruct es as [|e es]; [done|].
      by destruct (split_outer_never extract n pT1 pP1 ef pf fol (el ++ option_list o)
        match o with Some _ => pu ++ [dd] | None => pu end (e :: es) ltac:(done) _ _ _ Hr). }
    assert (Hok1 : aok (ab s1)) by by rewrite E1. assert (Hok2 := run_aok extract _ _ _ _ Ed Hok1).
    destruct (inner_inv _ _ _ _ _ _ _ _ _ Hok2 TT Ei) as (rt & x & s4 & E4 & Et & Ex & -> & ->).
    assert (Hok4 : aok (ab s4)) by by rewrite E4. assert (Hok3 := run_aok extract _ _ _ _ Et Hok4).
    destruct (run_ab extract pP2 s1 u1 rd s2) as (u2 & Eu2 & Ea2); [by apply KP|congruence|].
    destruct (run_ab extract pT2 s4 u2 rt s3) as (u3 & Eu3 & Ea3); [apply KT; [done|by eapply unres_fine]|congruence|].
    destruct (IH n2 _ _ s3 u3 Hok3 ltac:(lia) Ea3 Hr) as (xs & ds & -> & -> & Hlen & Hi).
    exists (x :: xs), (dd :: ds). rewrite <- !(assoc_L (++)). do 2 (split; [done|]). split; [cbn; lia|]. intros acc hi.
    destruct (Hi (acc ++ [TrSeq [dd; x]]) (tree_hi (TrSeq [dd; x]))) as (hi' & u' & Hi' & Ea').
    exists hi', u'. split; [|done].
    rewrite run_bind, Epu, Eu, Ey, Hset, Ec, run_bind, (two_make _ _ _ _ _ _ _ _ _ Eu2 Edd Eu3 Ex). cbn [unres app]. rewrite Hi'.
    by rewrite <- (assoc_L (++)).
  Qed.
  Lemma iter_outer n n1 pT1 pP1 pT2 pP2 ef pf fol set acc hi u L hi' u' s : aok (ab u) → told extract pT2 → clean pT2 pT1 → told extract pP2 → clean pP2 pP1 →
    (∀ x, ts_contains set (Some x) = ts_contains pf (Some x)) →
    (∀ v r x v', aok (ab v) → go pT2 v = ODone r v' → unres r = (Some x, []) → ts_contains ef (look (ab v)) || ts_contains_e ef = true) →
    n ≤ n1 → ab s = ab u → go (iter_loop n (two pP2 pT2) set acc [] hi) u = ODone (L, [], hi') u' →
    ∃ xs ds, L = acc ++ pairs ds xs ∧ length ds = length xs ∧
      ∀ el pu, ∃ s', go (split_outer n1 pT1 pP1 ef pf fol el pu []) s = ODone (el ++ xs, pu ++ ds, []) s' ∧ ab s' = ab u'.
  Proof.
    intros Hok TT KT TP KP Hset Hef. revert n1 acc hi u s Hok. induction n as [|n IH]; intros n1 acc hi u s Hok Hn Eu Hr; cbn [iter_loop] in Hr; [done|].
    destruct n1 as [|n1]; [lia|]. rewrite run_bind in Hr. destruct (peek_ab extract u Hok) as (u1 & Ep & E1). rewrite Ep in Hr.
    assert (Hoks : aok (ab s)) by by rewrite Eu. destruct (peek_ab extract s Hoks) as (s1 & Eps & Es1).
    assert (Hstop : go (mret (acc, @nil perr, hi)) u1 = ODone (L, [], hi') u' → (∀ el pu, go (split_outer (S n1) pT1 pP1 ef pf fol el pu []) s = ODone (el, pu, []) s1) →
      ∃ xs ds, L = acc ++ pairs ds xs ∧ length ds = length xs ∧
      ∀ el pu, ∃ s', go (split_outer (S n1) pT1 pP1 ef pf fol el pu []) s = ODone (el ++ xs, pu ++ ds, []) s' ∧ ab s' = ab u').
    { intros [= <- <- <-] Hi. exists [], []. rewrite !app_nil_r. do 2 (split; [done|]). intros el pu. exists s1. rewrite Hi, !app_nil_r.
      split; [done|congruence]. }
    cbn [split_outer] in Hstop |- *.
    destruct (look (ab u)) as [y|] eqn:Ey.
    2:{ apply Hstop; [done|]. intros el pu. by rewrite run_bind, Eps, Eu, Ey. }
    rewrite Hset in Hr. destruct (ts_contains pf (Some y)) eqn:Ec.
    2:{ apply Hstop; [done|]. intros el pu. by rewrite run_bind, Eps, Eu, Ey, Ec. }
    clear Hstop. rewrite run_bind in Hr. destruct (go (two pP2 pT2) u1) as [| |r u2] eqn:Eq; [done..|].
    destruct (decide (fine r)) as [Hf|Hf].
    2:{ exfalso. assert (Hr2 : (unres r).2 ≠ []).
        { apply not_fine_unres; [|done]. exact (two_told _ _ TP TT _ _ _ Eq). }
        destruct (unres r) as [[x|] e]; cbn in Hr2.
        - by apply (iter_never extract n _ set (acc ++ [x]) ([] ++ e) (tree_hi x) Hr2 _ _ _ Hr).
        - cbn in Hr. by injection Hr as _ -> _ _. }
    destruct (two_inv _ _ _ _ _ TP TT Eq Hf) as (rd & dd & v1 & rt & x & Ed & Edd & Et & Ex & ->). cbn [unres app] in Hr.
    assert (Hok1 : aok (ab u1)) by by rewrite E1. assert (Hokv := run_aok extract _ _ _ _ Ed Hok1). assert (Hok2 := run_aok extract _ _ _ _ Et Hokv).
    destruct (run_ab extract pP1 u1 s1 rd v1) as (s2 & Es2 & Ea2); [apply KP; [done|by eapply unres_fine]|congruence|].
    assert (Hoks2 : aok (ab s2)) by by rewrite Ea2. destruct (peek_ab extract s2 Hoks2) as (s3 & Ep3 & Es3).
    destruct (run_ab extract pT1 v1 s3 rt u2) as (s4 & Es4 & Ea4); [apply KT; [done|by eapply unres_fine]|congruence|].
    destruct n as [|n]; [done|]. destruct n1 as [|n1]; [lia|].
    destruct (IH (S n1) _ _ u2 s4 Hok2 ltac:(lia) Ea4 Hr) as (xs & ds & -> & Hlen & Hi).
    exists (x :: xs), (dd :: ds). rewrite <- !(assoc_L (++)). split; [done|]. split; [cbn; lia|]. intros el pu.
    destruct (Hi (el ++ [x]) (pu ++ [dd])) as (s' & Hi' & Ea'). exists s'. split; [|done].
    rewrite run_bind, Eps, Eu, Ey, Ec, run_bind, Es2, Edd, run_bind.
    assert (Einner : go (split_inner (S n1) pT1 ef pf fol None ([] ++ [])) s2 = ODone (Some x, [], true) s4).
    { cbn [split_inner app]. rewrite run_bind, Ep3, Ea2, (Hef _ _ _ _ Hokv Et Ex), !run_bind, Es4, Ex. done. }
    rewrite Einner. etrans; [exact Hi'|]. by rewrite <- !(assoc_L (++)).
  Qed.
End progs.

Section sugar.
  Variable extract : nat → bool.
  Notation go := (run extract).
  Notation ab := (abs extract).
  Notation clean := (keeps extract fine).
  Lemma within_tok env n y lit c : within env (TTok n y lit) c → c = TTok n y lit.
  Proof. intros H. inversion H as [|a b e Hab]; subst; [done|]. by apply elem_of_nil in Hab. Qed.
  Lemma within_split env root t d : within env root (TSplit t d) → within env root t ∧ within env root d.
  Proof. intros H. split; (eapply rtc_r; [exact H|]; cbn; set_solver). Qed.
  Lemma within_out env root t d : within env root (spelled_out t d) → within env root t ∧ within env root d ∧ within env root (TStar (TTuple [d; t])).
  Proof.
    intros H. assert (H2 : within env root (TStar (TTuple [d; t]))) by (eapply rtc_r; [exact H|]; cbn; set_solver).
    assert (H3 : within env root (TTuple [d; t])) by (eapply rtc_r; [exact H2|]; cbn; set_solver).
    split; [|split; [|done]]; (eapply rtc_r; [exact H3|]; cbn; set_solver).
  Qed.
  Lemma part_tables env root1 root2 t md1 md2 f f' : accepted env root1 md1 → accepted env root2 md2 →
    within env root1 t → within env root2 t → no_recover env t → no_punct env t → f ≤ f' →
    told extract (produce_md env md1 f t) ∧ clean (produce_md env md1 f t) (produce_md env md2 f' t).
  Proof.
    intros H1 H2 W1 W2 Hn Hq Hf. destruct (free_tables extract env env root1 root2 t md1 md2 f H1 H2 W1 W2 ltac:(done) Hn) as [Ht Hk].
    - intros c Hc. specialize (Hq c Hc). by destruct c.
    - split; [done|]. eapply keeps_trans; [exact Hk|]. by apply keeps_more.
  Qed.
  Lemma tok_plain env n y lit : no_recover env (TTok n y lit) ∧ no_punct env (TTok n y lit).
  Proof. split; by intros c ->%within_tok. Qed.
  Lemma same_starts env root1 root2 t n y lit md1 md2 : accepted env root1 md1 → accepted env root2 md2 →
    within env root1 (TTok n y lit) → within env root2 (TStar (TTuple [TTok n y lit; t])) → ∀ x,
    ts_contains (tb_get (md_first md2) (key (TPlus (TTuple [TTok n y lit; t])))) (Some x) = ts_contains (tb_get (md_first md1) (key (TTok n y lit))) (Some x).
  Proof.
    intros (r1 & i1 & R1 & P1 & M1) (r2 & i2 & R2 & P2 & M2) W1 W2 x. set (d := TTok n y lit) in *.
    assert (V1 := V_within env root1 r1 i1 md1 R1 P1 M1 d W1).
    assert (V2 := V_within env root2 r2 i2 md2 R2 P2 M2 _ W2).
    assert (V3 := V_star env root2 r2 i2 md2 R2 P2 M2 _ V2). destruct (V_plus env root2 r2 i2 md2 R2 P2 M2 _ V3) as [V4 _].
    assert (V5 := V_tuple env root2 r2 i2 md2 R2 P2 M2 [d; t] d V4 ltac:(set_solver)).
    assert (Hd := nul_tok env root2 r2 i2 md2 R2 P2 M2 n y lit V5).
    eapply bool_same; [apply (first_spec env root2 r2 i2 md2 R2 P2 M2)|apply (first_spec env root1 r1 i1 md1 R1 P1 M1)|].
    rewrite (fst_plus env root2 r2 i2 md2 R2 P2 M2 _ x V3), (fst_tuple env root2 r2 i2 md2 R2 P2 M2 _ x V4).
    unfold d in *. rewrite (fst_tok env root1 r1 i1 md1 R1 P1 M1 n y lit x V1), <- (fst_tok env root2 r2 i2 md2 R2 P2 M2 n y lit x V5).
    unfold fsts. cbn [map starts_l]. unfold fst_. unfold nul in Hd. tauto.
  Qed.
  (** An error-free run of [t] begins with a token of FIRST. *)
  Lemma begins env root1 root2 t md1 md2 f : accepted env root1 md1 → accepted env root2 md2 → within env root1 t → filled env t → no_recover env t → no_loop env t →
    ∀ v r x v', aok (ab v) → go (produce_md env md2 f t) v = ODone r v' → unres r = (Some x, []) →
      ts_contains (tb_get (md_first md1) (key t)) (look (ab v)) || ts_contains_e (tb_get (md_first md1) (key t)) = true.
  Proof.
    intros Ha _ W Hfi Hn Hl v r x v' Hv Hr Ex.
    assert (Hro : arun (produce_md env md2 f t) (ab v) = ODone r (ab v')) by by rewrite <- run_abs, Hr.
    destruct (arun_adv _ _ _ _ Hro) as [l Hadv].
    assert (Hs := produce_sound env (tb_get (md_first md2)) (tb_get (md_follow md2)) (jump_look_up (md_jump md2)) False f t
      (no_recover_ok env _ False t Hn Hfi) (ab v) Hv).
    unfold wp in Hs. unfold produce_md in Hro. rewrite Hro in Hs. destruct Hs as [Hs|[[] _]].
    assert (Hp : parses env (a_src (ab v)) (pos (ab v)) t l x).
    { destruct r as [z|z es|es]; [injection Ex as <-; by apply Hs|by injection Ex as _ ->|done]. }
    destruct Ha as (regs & iter & Hreg & Hperm & Hmeta).
    assert (V := V_within env root1 regs iter md1 Hreg Hperm Hmeta t W).
    assert (Hlang := parses_lang _ _ _ _ _ _ Hp Hl). apply orb_true_iff.
    destruct l as [|a l].
    - right. apply (first_eps env root1 regs iter md1 Hreg Hperm Hmeta). by apply (nul_lang env root1 regs iter md1 Hreg Hperm Hmeta).
    - left. destruct Hadv as [_ _ Hrest]. unfold look. rewrite Hrest. apply (first_spec env root1 regs iter md1 Hreg Hperm Hmeta t).
      exact (lang_fst env root1 regs iter md1 Hreg Hperm Hmeta t _ _ V Hlang).
  Qed.
  Lemma split_out env root1 root2 t n y lit md1 md2 f s r s' : accepted env root1 md1 → accepted env root2 md2 →
    within env root1 (TSplit t (TTok n y lit)) → within env root2 (spelled_out t (TTok n y lit)) → no_recover env t → no_punct env t → state_ok s →
    go (produce_md env md1 f (TSplit t (TTok n y lit))) s = ODone r s' → errors_of r = [] →
    ∃ sp x xs ds f' sp' u, r = RSucc (TrSplit sp (x :: xs) ds) ∧ length ds = length xs ∧
      go (produce_md env md2 f' (spelled_out t (TTok n y lit))) s = ODone (RSucc (TrSeq [x; TrList sp' (pairs ds xs)])) u ∧
      p_tokens u = p_tokens s' ∧ to_come extract u = to_come extract s'.
  Proof.
    intros A1 A2 W1 W2 Hn Hq Hok Hr He. set (d := TTok n y lit) in *. apply (state_ok_abs extract) in Hok.
    destruct (within_split _ _ _ _ W1) as [W1t W1d]. destruct (within_out _ _ _ _ W2) as (W2t & W2d & W2s).
    destruct (tok_plain env n y lit) as [Hnd Hqd]. fold d in Hnd, Hqd. destruct f as [|f]; [done|].
    destruct (part_tables env root1 root2 t md1 md2 f f A1 A2 W1t W2t Hn Hq ltac:(lia)) as [TT KT].
    destruct (part_tables env root1 root2 d md1 md2 f f A1 A2 W1d W2d Hnd Hqd ltac:(lia)) as [TP KP].
    assert (TT2 : told extract (produce_md env md2 f t)) by apply (part_tables env root2 root2 t md2 md2 f f A2 A2 W2t W2t Hn Hq ltac:(lia)).
    assert (TP2 : told extract (produce_md env md2 f d)) by apply (part_tables env root2 root2 d md2 md2 f f A2 A2 W2d W2d Hnd Hqd ltac:(lia)).
    destruct (part_tables env root1 root2 t md1 md2 f (S (S f)) A1 A2 W1t W2t Hn Hq ltac:(lia)) as [_ KT'].
    assert (Hset := same_starts env root1 root2 t n y lit md1 md2 A1 A2 W1d W2s). fold d in Hset.
    unfold produce_md in Hr. cbn [produce] in Hr. fold (produce_md env md1 f t) (produce_md env md1 f d) in Hr.
    unfold produce_split in Hr. rewrite run_bind in Hr. destruct (go (produce_md env md1 f t) s) as [| |r0 s1] eqn:E0; [done..|].
    destruct (decide (fine r0)) as [Hf|Hf].
    2:{ exfalso. apply not_fine_unres in Hf; [|by eapply TT]. destruct (unres r0) as [[x|] e]; cbn in Hf.
        - rewrite run_bind in Hr. destruct (go (split_outer _ _ _ _ _ _ _ _ _) s1) as [| |[[E P] es] s2] eqn:Eo; [done..|].
          assert (Hes := split_outer_never extract _ _ _ _ _ _ _ _ _ Hf _ _ _ Eo). unfold silent in Hes. cbn in Hes.
          cbn in Hr. destruct es; [done|]. cbn in Hr. by injection Hr as <- _.
        - cbn in Hr. by injection Hr as <- _. }
    destruct (fine_unres r0 Hf) as [x Ex]. rewrite Ex, run_bind in Hr.
    destruct (go (split_outer _ _ _ _ _ _ _ _ _) s1) as [| |[[E P] es] s2] eqn:Eo; [done..|].
    destruct es as [|e es]; [|cbn in Hr; by injection Hr as <- _]. cbn in Hr. injection Hr as <- <-.
    assert (Hok1 := run_aok extract _ _ _ _ E0 Hok).
    destruct (outer_iter extract f (S (S f)) _ _ _ _ _ _ _ _ [x] [] s1 E P s2 s1 Hok1 TT KT TP KP Hset ltac:(lia) eq_refl Eo) as (xs & ds & -> & -> & Hlen & Hi).
    destruct (Hi [] 0) as (hi' & u & Hi' & Eu). cbn [app] in Hi'.
    set (q := two (produce_md env md2 f d) (produce_md env md2 f t)) in *.
    assert (Tq : told extract q) by by apply two_told.
    destruct (star_iter extract (S f) q _ s1 _ hi' u Hok1 Tq Hi') as [sp' Hstar].
    eexists _, x, xs, ds, (S (S (S f))), sp', u. split; [reflexivity|]. split; [exact Hlen|]. split; [|by apply ab_parts].
    unfold produce_md, spelled_out. remember (S (S f)) as g eqn:Eg. cbn [produce].
    rewrite seq_two. eapply (two_make extract _ _ _ r0 x s1 (RSucc (TrList sp' (pairs ds xs)))); [|exact Ex| |reflexivity].
    - apply KT'; [exact E0|exact Hf].
    - subst g. rewrite <- Hstar. unfold q. remember (S f) as g eqn:Eg. cbn [produce]. apply star_ext. intros v. subst g. cbn [produce]. apply seq_two.
  Qed.
  Lemma out_split env root1 root2 t n y lit md1 md2 f s r s' : accepted env root1 md1 → accepted env root2 md2 →
    within env root1 (TSplit t (TTok n y lit)) → within env root2 (spelled_out t (TTok n y lit)) →
    filled env t → no_recover env t → no_punct env t → no_loop env t → state_ok s →
    go (produce_md env md2 f (spelled_out t (TTok n y lit))) s = ODone r s' → errors_of r = [] →
    ∃ sp x xs ds f' sp' u, r = RSucc (TrSeq [x; TrList sp' (pairs ds xs)]) ∧ length ds = length xs ∧
      go (produce_md env md1 f' (TSplit t (TTok n y lit))) s = ODone (RSucc (TrSplit sp (x :: xs) ds)) u ∧
      p_tokens u = p_tokens s' ∧ to_come extract u = to_come extract s'.
  Proof.
    intros A1 A2 W1 W2 Hfi Hn Hq Hl Hok Hr He. set (d := TTok n y lit) in *. apply (state_ok_abs extract) in Hok.
    destruct (within_split _ _ _ _ W1) as [W1t W1d]. destruct (within_out _ _ _ _ W2) as (W2t & W2d & W2s).
    destruct (tok_plain env n y lit) as [Hnd Hqd]. fold d in Hnd, Hqd.
    assert (Hr3 : go (produce_md env md2 (S (S (S f))) (spelled_out t d)) s = ODone r s').
    { rewrite <- Hr. apply (le_run extract); [apply rec_le; lia|by rewrite Hr]. }
    clear Hr. remember (S (S (S f))) as F eqn:HF.
    assert (TT2 : told extract (produce_md env md2 (S (S f)) t)) by apply (part_tables env root2 root2 t md2 md2 (S (S f)) (S (S f)) A2 A2 W2t W2t Hn Hq ltac:(lia)).
    destruct (part_tables env root2 root1 t md2 md1 f F A2 A1 W2t W1t Hn Hq ltac:(lia)) as [TT KT].
    destruct (part_tables env root2 root1 d md2 md1 f F A2 A1 W2d W1d Hnd Hqd ltac:(lia)) as [TP KP].
    destruct (part_tables env root2 root1 t md2 md1 (S (S f)) F A2 A1 W2t W1t Hn Hq ltac:(lia)) as [_ KT'].
    assert (Hset := same_starts env root1 root2 t n y lit md1 md2 A1 A2 W1d W2s). fold d in Hset.
    assert (Hef := begins env root1 root2 t md1 md2 f A1 A2 W1t Hfi Hn Hl).
    set (q := two (produce_md env md2 f d) (produce_md env md2 f t)) in *.
    assert (Tq : told extract q) by by apply two_told.
    set (set2 := tb_get (md_first md2) (key (TPlus (TTuple [d; t])))) in *.
    assert (Hstar : ∀ v, go (produce_md env md2 (S (S f)) (TStar (TTuple [d; t]))) v = go (star (S f) q set2) v).
    { intros v. unfold q, produce_md. remember (S f) as g eqn:Eg. cbn [produce]. apply star_ext. intros w. subst g. cbn [produce]. apply seq_two. }
    assert (Htwo : go (two (produce_md env md2 (S (S f)) t) (produce_md env md2 (S (S f)) (TStar (TTuple [d; t])))) s = ODone r s').
    { rewrite <- Hr3, HF. unfold produce_md, spelled_out. remember (S (S f)) as g eqn:Eg. cbn [produce]. symmetry. apply seq_two. }
    assert (Ts : told extract (produce_md env md2 (S (S f)) (TStar (TTuple [d; t])))).
    { intros v rv v' Hv. rewrite Hstar in Hv. unfold star in Hv. rewrite run_bind in Hv. destruct (go (produce_option _ _ _) v) as [| |ro v1] eqn:Eo; [done..|].
      injection Hv as <- <-. apply tells_map. unfold produce_option in Eo. rewrite run_bind in Eo.
      destruct (go peek_src v) as [| |[z|] v2]; [done..| |cbn in Eo; by injection Eo as <- _].
      destruct (ts_contains set2 (Some z)); [|cbn in Eo; by injection Eo as <- _]. rewrite run_bind in Eo.
      destruct (go (produce_plus _ _ _) v2) as [| |[]]; [done..| | |]; cbn in Eo; by injection Eo as <- _. }
    assert (Hfr : fine r). { apply errors_fine; [|done]. exact (two_told extract _ _ TT2 Ts _ _ _ Htwo). }
    destruct (two_inv extract _ _ _ _ _ TT2 Ts Htwo Hfr) as (r0 & x & s1 & rs & l & E0 & Ex & Es & El & ->).
    assert (Hok1 := run_aok extract _ _ _ _ E0 Hok). rewrite Hstar in Es.
    destruct (iter_star extract (S f) q set2 s1 rs s' Hok1 Tq Es (unres_fine _ _ El)) as (sp' & L & hi' & -> & Hi). injection El as <-.
    destruct (iter_outer extract (S (S f)) F (produce_md env md1 F t) (produce_md env md1 F d) (produce_md env md2 f t) (produce_md env md2 f d)
      (tb_get (md_first md1) (key t)) (tb_get (md_first md1) (key d)) (tb_get (md_follow md1) (key (TSplit t d))) set2 [] 0 s1 L hi' s' s1
      Hok1 TT KT TP KP Hset Hef ltac:(lia) eq_refl Hi) as (xs & ds & -> & Hlen & Ho).
    destruct (Ho [x] []) as (u & Ho' & Eu).
    eexists _, x, xs, ds, (S F), sp', u. split; [reflexivity|]. split; [exact Hlen|]. split; [|by apply ab_parts].
    unfold produce_md. clear Hr3 HF. cbn [produce]. unfold produce_split. fold (produce_md env md1 F t) (produce_md env md1 F d).
    rewrite run_bind, (KT' _ _ _ E0 (unres_fine _ _ Ex)), Ex, run_bind, Ho'. reflexivity.
  Qed.
End sugar.
