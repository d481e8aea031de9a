(** [Recover<T, R>] and [(T, R)]. *)
From Coq Require Import String NArith.
From stdpp Require Import prelude list strings relations.
From Verif Require Import LexModel LexSpec SynSetModel TableModel CfgSpec StreamModel StreamSpec TypeModel TypeSpec ProduceModel ParseSpec ProgFacts SoundFacts StreamFacts
  FuelFacts RunFacts MdFacts LangFacts EndFacts PartSpec PartFacts ExtendSpec FewerFacts CleanSpec CleanFacts EachFacts SugarSpec SugarFacts.
Local Open Scope nat_scope.
#[local] Arguments ts_contains : simpl never.
#[local] Arguments ts_contains_e : simpl never.

Section progs.
  Variable extract : nat → bool.
  Notation go := (run extract).
  Notation ab := (abs extract).
  Notation clean := (keeps extract fine).

  Definition bad (x : option tree * option perr * list perr) : Prop := x.2 ++ option_list x.1.2 ≠ [].
  Lemma merge_some p es : is_Some (merge_panic (Some p) es).
  Proof. unfold merge_panic. by destruct (last es). Qed.
  Lemma bad_l o p (es : list perr) : es ≠ [] → bad (o, p, es).
  Proof. intros H. unfold bad. cbn. by apply app_l. Qed.
  Lemma bad_r o p (es : list perr) : is_Some p → bad (o, p, es).
  Proof. intros [q ->]. unfold bad. cbn. by apply app_r. Qed.
  Lemma rloop_never n pR tf panic errs : errs ≠ [] ∨ is_Some panic → ends extract bad (recover_loop n pR tf panic errs).
  Proof.
    revert panic errs. induction n as [|n IH]; intros panic errs H; cbn [recover_loop]; [apply ends_fuel|].
    assert (Hb : ∀ o e, bad (o, panic, errs ++ e)). { intros o e. destruct H as [H|H]; [by apply bad_l, app_l|by apply bad_r]. }
    assert (Hm : ∀ o e, bad (o, merge_panic panic e, errs)).
    { intros o e. destruct H as [H|[p ->]]; [by apply bad_l|apply bad_r, merge_some]. }
    apply ends_then. intros [x|].
    - apply (ends_bind extract (λ y : (tree * list perr) + option perr, match y with inl (_, e) => e ≠ [] ∨ is_Some panic | inr _ => True end)).
      + destruct (_ || _); [|by apply ends_ret]. apply ends_then. intros r. destruct (unres r) as [[y|] e]; apply ends_ret; [|done].
        destruct H as [H|H]; [left; by apply app_l|by right].
      + intros [[y e]|p] Hy.
        * apply ends_ret. destruct Hy as [Hy|Hy]; [by apply bad_l|by apply bad_r].
        * apply ends_then. intros q. apply ends_then. intros _. apply IH. right. by eexists.
    - destruct (ts_contains_e tf).
      + apply ends_then. intros r. destruct (unres r) as [[y|] e]; by apply ends_ret.
      + apply ends_ret. specialize (Hb None []). by rewrite app_nil_r in Hb.
  Qed.
  Lemma rloop_inv n pR tf s o s' y : aok (ab s) → told extract pR → go (recover_loop n pR tf None []) s = ODone (o, None, []) s' → o = Some y →
    ∃ rr s0, ab s0 = ab s ∧ go pR s0 = ODone rr s' ∧ unres rr = (Some y, []).
  Proof.
    intros Hok Tp Hr ->. destruct n as [|n]; cbn [recover_loop] in Hr; [done|]. rewrite run_bind in Hr.
    destruct (peek_ab extract s Hok) as (s0 & Ep & E0). rewrite Ep in Hr. destruct (look (ab s)) as [x|].
    - assert (Hno : ∀ panic s1, go (p ← match panic with Some p => sp ← cur_span; mret (set_hi p (sp_hi sp)) | None => expecting tf end;
          _ ← consume; recover_loop n pR tf (Some p) []) s1 = ODone (Some y, None, []) s' → False).
      { intros panic s1 H. rewrite run_bind in H. destruct (go _ s1) as [| |p s2] in H; [done..|]. rewrite run_bind in H.
        destruct (go consume s2) as [| |? s3]; [done..|].
        by apply (rloop_never n pR tf (Some p) [] (or_intror (ex_intro _ p eq_refl)) _ _ _ H). }
      rewrite run_bind in Hr. destruct (ts_contains tf (Some x) || ts_contains_e tf).
      + rewrite run_bind in Hr. destruct (go pR s0) as [| |rr s1] eqn:Er; [done..|].
        destruct (unres rr) as [[z|] e] eqn:Ez.
        * cbn in Hr. injection Hr as -> -> ->. by exists rr, s0.
        * exfalso. exact (Hno (merge_panic None e) s1 Hr).
      + exfalso. exact (Hno None s0 Hr).
    - destruct (ts_contains_e tf); [|done]. rewrite run_bind in Hr. destruct (go pR s0) as [| |rr s1] eqn:Er; [done..|].
      destruct (unres rr) as [[z|] e] eqn:Ez; [|done]. cbn in Hr. injection Hr as -> -> ->. by exists rr, s0.
  Qed.
  Lemma recover_inv n pT pR hf tf s r s' : aok (ab s) → told extract pT → told extract pR → go (produce_recover n pT pR hf tf) s = ODone r s' → fine r →
    ∃ rt x s0 s1 rr y s2, ab s0 = ab s ∧ go pT s0 = ODone rt s1 ∧ unres rt = (Some x, []) ∧ ab s2 = ab s1 ∧
      go pR s2 = ODone rr s' ∧ unres rr = (Some y, []) ∧ r = RSucc (TrRecover (tree_span x) (Some x) y).
  Proof.
    intros Hok TT TR Hr Hf. unfold produce_recover in Hr. rewrite run_bind in Hr. destruct (peek_ab extract s Hok) as (s0 & Ep & E0). rewrite Ep in Hr.
    rewrite run_bind in Hr.
    assert (Hno : ∀ p sp hd errs s1, errs ≠ [] ∨ is_Some p → go ('(tl, panic', errs') ← recover_loop n pR tf p errs;
      let errs'' := errs' ++ option_list panic' in match tl with Some x => mret (res_into (TrRecover sp hd x) errs'') | None => mret (RPanic errs'') end) s1 = ODone r s' → False).
    { intros p sp hd errs s1 H H1. rewrite run_bind in H1. destruct (go (recover_loop _ _ _ _ _) s1) as [| |[[o p'] es'] s2] eqn:El; [done..|].
      assert (Hb := rloop_never n pR tf p errs H _ _ _ El). unfold bad in Hb. cbn in Hb, H1.
      destruct o as [z|]; cbn in H1; injection H1 as <- _; [|done]. by rewrite fine_into in Hf. }
    destruct (ts_contains hf (look (ab s)) || ts_contains_e hf).
    - rewrite run_bind in Hr. destruct (go pT s0) as [| |rt s1] eqn:Et; [done..|]. assert (Ht := TT _ _ _ Et).
      destruct (unres rt) as [[x|] e] eqn:Ex.
      + destruct e as [|e0 e]; [|exfalso; refine (Hno None (tree_span x) (Some x) (e0 :: e) s1 _ Hr); left; discriminate].
        assert (Hok1 : aok (ab s1)). { apply (run_aok extract _ _ _ _ Et). by rewrite E0. }
        cbn in Hr. rewrite run_bind in Hr. destruct (go (recover_loop _ _ _ _ _) s1) as [| |[[o p'] es'] s2] eqn:El; [done..|].
        destruct o as [y|]; cbn in Hr; [|by injection Hr as <- _].
        injection Hr as <- <-. rewrite fine_into in Hf. apply app_nil in Hf as [-> Hp']. destruct p'; [done|].
        destruct (rloop_inv n pR tf s1 (Some y) s2 y Hok1 TR El eq_refl) as (rr & s3 & E3 & Er & Ey).
        by exists rt, x, s0, s1, rr, y, s3.
      + exfalso. destruct rt as [| |es]; [done..|]. injection Ex as <-. cbn in Ht. rewrite run_bind in Hr.
        destruct (go empty_span s1) as [| |sp s2]; [done..|]. destruct (last es) as [p|] eqn:El; [|by apply last_None in El].
        exact (Hno (Some p) sp None [] s2 (or_intror (ex_intro _ p eq_refl)) Hr).
    - exfalso. rewrite run_bind in Hr. destruct (go (expecting hf) s0) as [| |p s1]; [done..|]. rewrite run_bind in Hr.
      destruct (go empty_span s1) as [| |sp s2]; [done..|]. exact (Hno (Some p) sp None [] s2 (or_intror (ex_intro _ p eq_refl)) Hr).
  Qed.
  Lemma recover_make n pT pR hf tf s rt x s1 rr y s2 : aok (ab s) → 0 < n →
    ts_contains hf (look (ab s)) || ts_contains_e hf = true → ts_contains tf (look (ab s1)) || ts_contains_e tf = true →
    go pT s = ODone rt s1 → unres rt = (Some x, []) → go pR s1 = ODone rr s2 → unres rr = (Some y, []) →
    ∃ u, go (produce_recover n pT pR hf tf) s = ODone (RSucc (TrRecover (tree_span x) (Some x) y)) u ∧ ab u = ab s2.
  Proof.
    intros Hok Hn Hh Ht Et Ex Er Ey. destruct n as [|n]; [lia|].
    destruct (peek_ab extract s Hok) as (s0 & Ep & E0). destruct (run_ab extract pT s s0 rt s1 Et E0) as (v1 & Ev1 & Ea1).
    assert (Hok1 : aok (ab v1)). { apply (run_aok extract _ _ _ _ Ev1). by rewrite E0. }
    destruct (peek_ab extract v1 Hok1) as (v2 & Ep2 & E2). destruct (run_ab extract pR s1 v2 rr s2 Er ltac:(congruence)) as (u & Eu & Ea).
    exists u. split; [|done]. unfold produce_recover. rewrite run_bind, Ep, run_bind, Hh, run_bind, Ev1, Ex. cbn [run mret M_ret].
    assert (El : go (recover_loop (S n) pR tf None []) v1 = ODone (Some y, None, []) u).
    { cbn [recover_loop]. rewrite run_bind, Ep2, Ea1. destruct (look (ab s1)) as [z|] eqn:Ez.
      - rewrite Ht, !run_bind, Eu, Ey. done.
      - assert (Hte : ts_contains_e tf = true). { unfold ts_contains, ts_contains_e in *. by rewrite orb_diag in Ht. }
        rewrite Hte, run_bind, Eu, Ey. done. }
    etrans; [apply run_bind|]. by rewrite El.
  Qed.
End progs.

Section sugar.
  Variable extract : nat → bool.
  Notation go := (run extract).
  Notation ab := (abs extract).
  Lemma within_pair env root t r : within env root (TTuple [t; r]) → within env root t ∧ within env root r.
  Proof. intros H. split; (eapply rtc_r; [exact H|]; cbn; set_solver). Qed.
  Lemma within_recover env root t r : within env root (TRecover t r) → within env root t ∧ within env root r.
  Proof. intros H. split; (eapply rtc_r; [exact H|]; cbn; set_solver). Qed.
  Lemma recover_out env root1 root2 t e md1 md2 f s r s' : accepted env root1 md1 → accepted env root2 md2 →
    within env root1 (TRecover t e) → within env root2 (TTuple [t; e]) →
    no_recover env t → no_punct env t → no_recover env e → no_punct env e → state_ok s →
    go (produce_md env md1 f (TRecover t e)) s = ODone r s' → fine r →
    ∃ x y u, r = RSucc (TrRecover (tree_span x) (Some x) y) ∧
      go (produce_md env md2 f (TTuple [t; e])) s = ODone (RSucc (TrSeq [x; y])) u ∧ p_tokens u = p_tokens s' ∧ to_come extract u = to_come extract s'.
  Proof.
    intros A1 A2 W1 W2 Hn Hq Hne Hqe Hok Hr Hf. apply (state_ok_abs extract) in Hok.
    destruct (within_recover _ _ _ _ W1) as [W1t W1e]. destruct (within_pair _ _ _ _ W2) as [W2t W2e]. destruct f as [|f]; [done|].
    destruct (part_tables extract env root1 root2 t md1 md2 f f A1 A2 W1t W2t Hn Hq ltac:(lia)) as [TT KT].
    destruct (part_tables extract env root1 root2 e md1 md2 f f A1 A2 W1e W2e Hne Hqe ltac:(lia)) as [TE KE].
    unfold produce_md in Hr. cbn [produce] in Hr. fold (produce_md env md1 f t) (produce_md env md1 f e) in Hr.
    destruct (recover_inv extract _ _ _ _ _ _ _ _ Hok TT TE Hr Hf) as (rt & x & s0 & s1 & rr & y & s2 & E0 & Et & Ex & E2 & Er & Ey & ->).
    destruct (run_ab extract (produce_md env md2 f t) s0 s rt s1) as (u1 & Eu1 & Ea1); [apply KT; [done|by eapply unres_fine]|done|].
    destruct (run_ab extract (produce_md env md2 f e) s2 u1 rr s') as (u & Eu & Ea); [apply KE; [done|by eapply unres_fine]|congruence|].
    exists x, y, u. split; [done|]. split; [|by apply ab_parts].
    unfold produce_md. cbn [produce]. rewrite seq_two. exact (two_make extract _ _ _ _ _ _ _ _ _ Eu1 Ex Eu Ey).
  Qed.
  Lemma recover_pair env root1 root2 t e md1 md2 f s z s' : accepted env root1 md1 → accepted env root2 md2 →
    within env root1 (TRecover t e) → within env root2 (TTuple [t; e]) →
    no_recover env t → no_punct env t → no_recover env e → no_punct env e → state_ok s →
    go (produce_md env md1 f (TRecover t e)) s = ODone (RSucc z) s' →
    ∃ x y u, z = TrRecover (tree_span x) (Some x) y ∧
      go (produce_md env md2 f (TTuple [t; e])) s = ODone (RSucc (TrSeq [x; y])) u ∧ p_tokens u = p_tokens s' ∧ to_come extract u = to_come extract s'.
  Proof.
    intros A1 A2 W1 W2 H1 H2 H3 H4 Hok Hr.
    destruct (recover_out env root1 root2 t e md1 md2 f s (RSucc z) s' A1 A2 W1 W2 H1 H2 H3 H4 Hok Hr I) as (x & y & u & [= ->] & H). by exists x, y, u.
  Qed.
  Lemma out_recover env root1 root2 t e md1 md2 f s r s' : accepted env root1 md1 → accepted env root2 md2 →
    within env root1 (TRecover t e) → within env root2 (TTuple [t; e]) →
    filled env t → no_recover env t → no_punct env t → no_loop env t →
    filled env e → no_recover env e → no_punct env e → no_loop env e → state_ok s →
    go (produce_md env md2 f (TTuple [t; e])) s = ODone r s' → errors_of r = [] →
    ∃ x y u, r = RSucc (TrSeq [x; y]) ∧
      go (produce_md env md1 (S (S f)) (TRecover t e)) s = ODone (RSucc (TrRecover (tree_span x) (Some x) y)) u ∧
      p_tokens u = p_tokens s' ∧ to_come extract u = to_come extract s'.
  Proof.
    intros A1 A2 W1 W2 Hfi Hn Hq Hl Hfe Hne Hqe Hle Hok Hr He. apply (state_ok_abs extract) in Hok.
    destruct (within_recover _ _ _ _ W1) as [W1t W1e]. destruct (within_pair _ _ _ _ W2) as [W2t W2e]. destruct f as [|f]; [done|].
    destruct (part_tables extract env root2 root1 t md2 md1 f (S (S f)) A2 A1 W2t W1t Hn Hq ltac:(lia)) as [TT KT].
    destruct (part_tables extract env root2 root1 e md2 md1 f (S (S f)) A2 A1 W2e W1e Hne Hqe ltac:(lia)) as [TE KE].
    unfold produce_md in Hr. cbn [produce] in Hr. rewrite seq_two in Hr.
    fold (produce_md env md2 f t) (produce_md env md2 f e) in Hr.
    assert (Hf : fine r). { apply errors_fine; [|done]. exact (two_told extract _ _ TT TE _ _ _ Hr). }
    destruct (two_inv extract _ _ _ _ _ TT TE Hr Hf) as (rt & x & s1 & rr & y & Et & Ex & Er & Ey & ->).
    assert (Hok1 := run_aok extract _ _ _ _ Et Hok).
    assert (Hh := begins extract env root1 root2 t md1 md2 f A1 A2 W1t Hfi Hn Hl _ _ _ _ Hok Et Ex).
    assert (Ht := begins extract env root1 root2 e md1 md2 f A1 A2 W1e Hfe Hne Hle _ _ _ _ Hok1 Er Ey).
    destruct (recover_make extract (S (S f)) (produce_md env md1 (S (S f)) t) (produce_md env md1 (S (S f)) e) _ _ s rt x s1 rr y s' Hok ltac:(lia) Hh Ht
      (KT _ _ _ Et (unres_fine _ _ Ex)) Ex (KE _ _ _ Er (unres_fine _ _ Ey)) Ey) as (u & Eu & Ea).
    exists x, y, u. split; [done|]. split; [|by apply ab_parts]. rewrite <- Eu. unfold produce_md. remember (S (S f)) as g eqn:Eg. by cbn [produce].
  Qed.
End sugar.
