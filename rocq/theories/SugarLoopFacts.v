(** [Loop<T>] and [Vec<T>] with nothing after it. *)
From Coq Require Import String NArith.
From stdpp Require Import prelude list strings relations.
From Verif Require Import LexModel LexSpec SynSetModel TableModel CfgSpec StreamModel StreamSpec TypeModel TypeSpec ProduceModel ParseSpec ProgFacts SoundFacts StreamFacts
  FuelFacts RunFacts MdFacts LangFacts EndFacts PartSpec PartFacts ExtendSpec FewerFacts CleanSpec CleanFacts EachFacts CompleteFacts SugarSpec SugarFacts.
Local Open Scope nat_scope.
#[local] Arguments ts_contains : simpl never.

Section loops.
  Variable extract : nat → bool.
  Notation go := (run extract).
  Notation ab := (abs extract).
  Notation clean := (keeps extract fine).

  Lemma cur_ab s : ∃ s1, go cur_span s = ODone (a_span (ab s)) s1 ∧ ab s1 = ab s.
  Proof. apply arun_done. done. Qed.
  Lemma loop_iter n n2 p1 p2 set set' acc s L s' u : aok (ab s) → told extract p1 → clean p1 p2 →
    (∀ x, ts_contains set' (Some x) = ts_contains set (Some x)) → n ≤ n2 → ab u = ab s →
    go (loop_loop n p1 set acc []) s = ODone (L, []) s' →
    look (ab s') = None ∧ ∃ xs, L = acc ++ xs ∧
      ∀ acc hi, ∃ hi' u', go (iter_loop n2 p2 set' acc [] hi) u = ODone (acc ++ xs, [], hi') u' ∧ ab u' = ab s'.
  Proof.
    intros Hok T1 K Hset. revert n2 acc s u Hok. induction n as [|n IH]; intros n2 acc s u Hok Hn Eu Hr; cbn [loop_loop] in Hr; [done|].
    destruct n2 as [|n2]; [lia|]. rewrite run_bind in Hr. destruct (peek_ab extract s Hok) as (s1 & Ep & E1). rewrite Ep in Hr.
    assert (Hoku : aok (ab u)) by by rewrite Eu. destruct (peek_ab extract u Hoku) as (u1 & Epu & Eu1). cbn [iter_loop].
    destruct (look (ab s)) as [y|] eqn:Ey.
    2:{ cbn in Hr. injection Hr as <- <-. split; [by rewrite E1|]. exists []. rewrite app_nil_r. split; [done|]. intros acc' hi. exists hi, u1.
        rewrite run_bind, Epu, Eu, Ey, app_nil_r. split; [done|congruence]. }
    destruct (ts_contains set (Some y)) eqn:Ec.
    2:{ exfalso. rewrite run_bind in Hr.
        destruct (go (sp ← cur_span; _ ← consume; tk' ← peek_src; '(tk1, hi) ← skip_loop n set tk' (sp_hi sp);
          mret (tk1, [] ++ [PErr (Span (sp_lo sp) hi) UnexpectedTokens])) s1) as [| |[tk1 es] s2] eqn:E2; [done..|].
        assert (Hes : es ≠ []).
        { rewrite !run_bind in E2. destruct (go cur_span s1) as [| |sp v1]; [done..|]. rewrite run_bind in E2.
          destruct (go consume v1) as [| |c v2]; [done..|]. rewrite run_bind in E2. destruct (go peek_src v2) as [| |tk' v3]; [done..|].
          rewrite run_bind in E2. destruct (go (skip_loop _ _ _ _) v3) as [| |[? hi] v4]; [done..|]. cbn in E2. by injection E2 as _ <- _. }
        destruct tk1 as [tk1|]; [|cbn in Hr; by injection Hr as _ -> _].
        rewrite run_bind in Hr. destruct (go cur_span s2) as [| |sp0 s3]; [done..|]. rewrite run_bind in Hr.
        destruct (go p1 s3) as [| |r s4]; [done..|]. destruct (unres r) as [o e]. rewrite run_bind in Hr.
        destruct (go cur_span s4) as [| |sp1 s5]; [done..|]. destruct (sp_lo sp0 =? sp_lo sp1).
        - cbn in Hr. injection Hr as _ H _. by apply app_nil in H as [_ ?].
        - assert (Hes' : es ++ e ≠ []) by by apply app_l. exact (loop_never extract n p1 set _ _ Hes' _ _ _ Hr eq_refl). }
    rewrite run_bind in Hr. change (go (mret (Some y, @nil perr)) s1) with (ODone (Some y, @nil perr) s1) in Hr. cbn beta iota in Hr.
    rewrite run_bind in Hr. destruct (cur_ab s1) as (s2 & E2 & Ea2). rewrite E2 in Hr. rewrite run_bind in Hr.
    destruct (go p1 s2) as [| |r s3] eqn:E3; [done..|].
    destruct (decide (fine r)) as [Hf|Hf].
    2:{ exfalso. apply not_fine_unres in Hf; [|by eapply T1]. destruct (unres r) as [o e]. cbn in Hf. cbn [app] in Hr. rewrite run_bind in Hr.
        destruct (go cur_span s3) as [| |sp1 s4]; [done..|]. destruct (_ =? _).
        - cbn in Hr. injection Hr as _ H _. by apply app_nil in H as [_ ?].
        - exact (loop_never extract n p1 set _ _ Hf _ _ _ Hr eq_refl). }
    destruct (fine_unres r Hf) as [x Ex]. rewrite Ex in Hr. cbn [app option_list] in Hr. rewrite run_bind in Hr.
    destruct (cur_ab s3) as (s4 & E4 & Ea4). rewrite E4 in Hr. destruct (_ =? _).
    { exfalso. cbn in Hr. by injection Hr. }
    assert (Hok2 : aok (ab s2)) by by rewrite Ea2, E1. assert (Hok3 := run_aok extract _ _ _ _ E3 Hok2).
    destruct (run_ab extract p2 s2 u1 r s3) as (u2 & Eu2 & Eau2); [by apply K|congruence|].
    destruct (IH n2 _ s4 u2 ltac:(by rewrite Ea4) ltac:(lia) ltac:(congruence) Hr) as (Hend & xs & -> & Hi). split; [done|].
    exists (x :: xs). rewrite <- (assoc_L (++)). split; [done|]. intros acc' hi.
    destruct (Hi (acc' ++ [x]) (tree_hi x)) as (hi' & u' & Hi' & Ea'). exists hi', u'. split; [|done].
    rewrite run_bind, Epu, Eu, Ey, Hset, Ec, run_bind, Eu2, Ex. cbn [app]. rewrite Hi'. by rewrite <- (assoc_L (++)).
  Qed.
  Lemma iter_loops n n1 p1 p2 set set' acc hi u L hi' u' s : aok (ab u) → told extract p2 → clean p2 p1 →
    (∀ x, ts_contains set' (Some x) = ts_contains set (Some x)) →
    (∀ v r x v', aok (ab v) → go p2 v = ODone r v' → unres r = (Some x, []) → sp_lo (a_span (ab v)) < sp_lo (a_span (ab v'))) →
    n ≤ n1 → ab s = ab u → go (iter_loop n p2 set' acc [] hi) u = ODone (L, [], hi') u' → look (ab u') = None →
    ∃ xs, L = acc ++ xs ∧ ∀ acc, ∃ s', go (loop_loop n1 p1 set acc []) s = ODone (acc ++ xs, []) s' ∧ ab s' = ab u'.
  Proof.
    intros Hok T2 K Hset Hlt. revert n1 acc hi u s Hok. induction n as [|n IH]; intros n1 acc hi u s Hok Hn Eu Hr Hend; cbn [iter_loop] in Hr; [done|].
    destruct n1 as [|n1]; [lia|]. rewrite run_bind in Hr. destruct (peek_ab extract u Hok) as (u1 & Ep & E1). rewrite Ep in Hr.
    assert (Hoks : aok (ab s)) by by rewrite Eu. destruct (peek_ab extract s Hoks) as (s1 & Eps & Es1). cbn [loop_loop].
    destruct (look (ab u)) as [y|] eqn:Ey.
    2:{ cbn in Hr. injection Hr as <- _ <-. exists []. rewrite app_nil_r. split; [done|]. intros acc'. exists s1.
        rewrite run_bind, Eps, Eu, Ey, app_nil_r. split; [done|congruence]. }
    rewrite Hset in Hr. destruct (ts_contains set (Some y)) eqn:Ec.
    2:{ exfalso. cbn in Hr. injection Hr as _ _ <-. rewrite E1, Ey in Hend. done. }
    rewrite run_bind in Hr. destruct (go p2 u1) as [| |r u2] eqn:E2; [done..|].
    destruct (decide (fine r)) as [Hf|Hf].
    2:{ exfalso. apply not_fine_unres in Hf; [|by eapply T2]. destruct (unres r) as [[x|] e]; cbn in Hf.
        - by apply (iter_never extract n _ set' (acc ++ [x]) ([] ++ e) (tree_hi x) Hf _ _ _ Hr).
        - cbn in Hr. by injection Hr as _ -> _ _. }
    destruct (fine_unres r Hf) as [x Ex]. rewrite Ex in Hr. cbn [app] in Hr.
    assert (Hok1 : aok (ab u1)) by by rewrite E1. assert (Hok2 := run_aok extract _ _ _ _ E2 Hok1).
    destruct (cur_ab s1) as (s2 & Es2 & Ea2).
    destruct (run_ab extract p1 u1 s2 r u2) as (s3 & Es3 & Ea3); [by apply K|congruence|].
    destruct (cur_ab s3) as (s4 & Es4 & Ea4).
    destruct (IH n1 _ _ u2 s4 Hok2 ltac:(lia) ltac:(congruence) Hr Hend) as (xs & -> & Hi).
    exists (x :: xs). rewrite <- (assoc_L (++)). split; [done|]. intros acc'.
    destruct (Hi (acc' ++ [x])) as (s' & Hi' & Ea'). exists s'. split; [|done].
    rewrite run_bind, Eps, Eu, Ey. cbn beta iota. rewrite Ec, run_bind. change (go (mret (Some y, @nil perr)) s1) with (ODone (Some y, @nil perr) s1). cbn beta iota.
    rewrite run_bind, Es2, run_bind, Es3, Ex. cbn [app option_list]. rewrite run_bind, Es4.
    assert (Hl := Hlt _ _ _ _ Hok1 E2 Ex). rewrite Es1, Ea3. rewrite E1 in Hl. rewrite Eu.
    rewrite (proj2 (Nat.eqb_neq _ _)) by lia. etrans; [exact Hi'|]. by rewrite <- (assoc_L (++)).
  Qed.

  Lemma same_begin_V env root1 root2 t md1 md2 : accepted env root1 md1 → accepted env root2 md2 →
    within env root1 (TLoop t) ∨ within env root1 (TPlus t) → within env root2 (TStar t) → ∀ x,
    ts_contains (tb_get (md_first md2) (key (TPlus t))) (Some x) = ts_contains (tb_get (md_first md1) (key (TPlus t))) (Some x).
  Proof.
    intros (r1 & i1 & R1 & P1 & M1) (r2 & i2 & R2 & P2 & M2) W1 W2 x.
    assert (W1t : within env root1 t) by (destruct W1 as [W1|W1]; (eapply rtc_r; [exact W1|]; cbn; set_solver)).
    assert (W2t : within env root2 t) by (eapply rtc_r; [exact W2|]; cbn; set_solver).
    assert (V1 : visible env (key root1) (key (TPlus t))) by (destruct W1 as [W1|W1]; exact (V_within env root1 r1 i1 md1 R1 P1 M1 _ W1)).
    assert (V2 := V_star env root2 r2 i2 md2 R2 P2 M2 _ (V_within env root2 r2 i2 md2 R2 P2 M2 _ W2)).
    assert (Hs := first_same env env root1 root2 t r1 r2 i1 i2 md1 md2 R1 P1 M1 R2 P2 M2 W1t W2t ltac:(done) t
      (shared_within env env root1 root2 t r1 r2 i1 i2 md1 md2 R1 P1 M1 R2 P2 M2 W1t W2t ltac:(done) t (rtc_refl _ _))).
    eapply bool_same; [apply (first_spec env root2 r2 i2 md2 R2 P2 M2)|apply (first_spec env root1 r1 i1 md1 R1 P1 M1)|].
    rewrite (fst_plus env root2 r2 i2 md2 R2 P2 M2 _ x V2).
    rewrite (fst_plus env root1 r1 i1 md1 R1 P1 M1 _ x V1).
    rewrite <- (first_spec env root2 r2 i2 md2 R2 P2 M2 t x), <- (first_spec env root1 r1 i1 md1 R1 P1 M1 t x), Hs. done.
  Qed.
  Lemma same_begin env root1 root2 t md1 md2 : accepted env root1 md1 → accepted env root2 md2 →
    within env root1 (TLoop t) → within env root2 (TStar t) → ∀ x,
    ts_contains (tb_get (md_first md2) (key (TPlus t))) (Some x) = ts_contains (tb_get (md_first md1) (key (TLoop t))) (Some x).
  Proof. intros A1 A2 W1 W2. exact (same_begin_V env root1 root2 t md1 md2 A1 A2 (or_introl W1) W2). Qed.
  (** An error-free run of an element takes a token. *)
  Lemma takes env root t md f : accepted env root md → within env root (TStar t) → filled env t → no_recover env t → no_loop env t →
    ∀ v r x v', aok (ab v) → go (produce_md env md f t) v = ODone r v' → unres r = (Some x, []) → sp_lo (a_span (ab v)) < sp_lo (a_span (ab v')).
  Proof.
    intros Ha W Hfi Hn Hl v r x v' Hv Hr Ex.
    assert (Hro : arun (produce_md env md f t) (ab v) = ODone r (ab v')) by by rewrite <- run_abs, Hr.
    destruct (arun_adv _ _ _ _ Hro) as [l Hadv]. apply (cur_lt _ l _ Hv Hadv). intros ->.
    assert (Hs := produce_sound env (tb_get (md_first md)) (tb_get (md_follow md)) (jump_look_up (md_jump md)) False f t
      (no_recover_ok env _ False t Hn Hfi) (ab v) Hv).
    unfold wp in Hs. unfold produce_md in Hro. rewrite Hro in Hs. destruct Hs as [Hs|[[] _]].
    assert (Hp : parses env (a_src (ab v)) (pos (ab v)) t [] x).
    { destruct r as [z|z es|es]; [injection Ex as <-; by apply Hs|by injection Ex as _ ->|done]. }
    destruct Ha as (regs & iter & Hreg & Hperm & Hmeta).
    assert (V := V_within env root regs iter md Hreg Hperm Hmeta _ W).
    assert (Hlang := parses_lang _ _ _ _ _ _ Hp Hl).
    apply (star_not_null env root regs iter md Hreg Hperm Hmeta t V). apply (nul_lang env root regs iter md Hreg Hperm Hmeta); [|done].
    apply (V_within env root regs iter md Hreg Hperm Hmeta). eapply rtc_r; [exact W|]; cbn; set_solver.
  Qed.
  Lemma look_to_come s : look (ab s) = None ↔ to_come extract s = [].
  Proof. unfold look. change (a_rest (ab s)) with (to_come extract s). by destruct (to_come extract s). Qed.

  Lemma loop_list env root1 root2 t md1 md2 f s r s' : accepted env root1 md1 → accepted env root2 md2 →
    within env root1 (TLoop t) → within env root2 (TStar t) → no_recover env t → no_punct env t → state_ok s →
    go (produce_md env md1 f (TLoop t)) s = ODone r s' → errors_of r = [] →
    ∃ sp xs f' sp' u, r = RSucc (TrList sp xs) ∧ to_come extract s' = [] ∧
      go (produce_md env md2 f' (TStar t)) s = ODone (RSucc (TrList sp' xs)) u ∧ p_tokens u = p_tokens s' ∧ to_come extract u = [].
  Proof.
    intros A1 A2 W1 W2 Hn Hq Hok Hr He. apply (state_ok_abs extract) in Hok.
    assert (W1t : within env root1 t) by (eapply rtc_r; [exact W1|]; cbn; set_solver).
    assert (W2t : within env root2 t) by (eapply rtc_r; [exact W2|]; cbn; set_solver).
    destruct f as [|f]; [done|].
    destruct (part_tables extract env root1 root2 t md1 md2 f (S f) A1 A2 W1t W2t Hn Hq ltac:(lia)) as [T1 K].
    destruct (part_tables extract env root2 root2 t md2 md2 (S f) (S f) A2 A2 W2t W2t Hn Hq ltac:(lia)) as [T2 _].
    unfold produce_md in Hr. cbn [produce] in Hr. fold (produce_md env md1 f t) in Hr. rewrite run_bind in Hr. unfold produce_loop in Hr.
    rewrite run_bind in Hr. destruct (go (loop_loop _ _ _ _ _) s) as [| |[l es] s1] eqn:El; [done..|]. rewrite run_bind in Hr.
    destruct (go match head l, last l with Some a, Some b => mret (Span (tree_lo a) (tree_hi b)) | _, _ => empty_span end s1) as [| |sp s2] eqn:Es; [done..|].
    assert (Ea2 : ab s2 = ab s1).
    { destruct (head l) as [a|], (last l) as [b|]; cbn in Es; by injection Es as _ <-. }
    destruct es as [|e es]; [|cbn in Hr; by injection Hr as <- _]. cbn in Hr. injection Hr as <- <-.
    destruct (loop_iter f (S (S f)) _ _ _ _ [] s l s1 s Hok T1 K (same_begin env root1 root2 t md1 md2 A1 A2 W1 W2) ltac:(lia) eq_refl El) as (Hend & xs & -> & Hi).
    destruct (Hi [] 0) as (hi' & u & Hi' & Eu). cbn [app] in Hi'.
    destruct (star_iter extract (S f) _ _ s _ hi' u Hok T2 Hi') as [sp' Hstar].
    apply look_to_come in Hend. destruct (ab_parts extract _ _ Eu) as [Eu1 Eu2]. destruct (ab_parts extract _ _ Ea2) as [Ea21 Ea22].
    exists sp, xs, (S (S f)), sp', u. split; [done|]. split; [by rewrite Ea22|]. split; [|split; [by rewrite Ea21|by rewrite Eu2]].
    rewrite <- Hstar. unfold produce_md. remember (S f) as g eqn:Eg. cbn [produce]. done.
  Qed.
  Lemma list_loop env root1 root2 t md1 md2 f s r s' : accepted env root1 md1 → accepted env root2 md2 →
    within env root1 (TLoop t) → within env root2 (TStar t) → filled env t → no_recover env t → no_punct env t → no_loop env t → state_ok s →
    go (produce_md env md2 f (TStar t)) s = ODone r s' → errors_of r = [] → to_come extract s' = [] →
    ∃ sp xs f' sp' u, r = RSucc (TrList sp xs) ∧
      go (produce_md env md1 f' (TLoop t)) s = ODone (RSucc (TrList sp' xs)) u ∧ p_tokens u = p_tokens s' ∧ to_come extract u = [].
  Proof.
    intros A1 A2 W1 W2 Hfi Hn Hq Hl Hok Hr He Hend. apply (state_ok_abs extract) in Hok.
    assert (W1t : within env root1 t) by (eapply rtc_r; [exact W1|]; cbn; set_solver).
    assert (W2t : within env root2 t) by (eapply rtc_r; [exact W2|]; cbn; set_solver).
    destruct f as [|f]; [done|].
    destruct (part_tables extract env root2 root1 t md2 md1 f (S f) A2 A1 W2t W1t Hn Hq ltac:(lia)) as [T2 K].
    assert (Hr' : go (star f (produce_md env md2 f t) (tb_get (md_first md2) (key (TPlus t)))) s = ODone r s').
    { rewrite <- Hr. unfold produce_md. cbn [produce]. done. }
    assert (Hf : fine r).
    { apply errors_fine; [|done]. unfold star in Hr'. rewrite run_bind in Hr'. destruct (go (produce_option _ _ _) s) as [| |ro v1] eqn:Eo; [done..|].
      injection Hr' as <- <-. apply tells_map. unfold produce_option in Eo. rewrite run_bind in Eo.
      destruct (go peek_src s) as [| |[z|] v2]; [done..| |cbn in Eo; by injection Eo as <- _].
      destruct (ts_contains _ (Some z)); [|cbn in Eo; by injection Eo as <- _]. rewrite run_bind in Eo.
      destruct (go (produce_plus _ _ _) v2) as [| |[]]; [done..| | |]; cbn in Eo; by injection Eo as <- _. }
    destruct (iter_star extract f _ _ s r s' Hok T2 Hr' Hf) as (sp & L & hi' & -> & Hi).
    apply look_to_come in Hend.
    destruct (iter_loops (S f) (S f) (produce_md env md1 (S f) t) _ (tb_get (md_first md1) (key (TLoop t))) _ [] 0 s L hi' s' s Hok T2 K
      (same_begin env root1 root2 t md1 md2 A1 A2 W1 W2) (takes env root2 t md2 f A2 W2 Hfi Hn Hl) ltac:(lia) eq_refl Hi Hend) as (xs & -> & Ho).
    destruct (Ho []) as (u & Ho' & Eu). cbn [app] in Ho'. destruct (ab_parts extract _ _ Eu) as [Eu1 Eu2]. apply look_to_come in Hend.
    assert (∃ sp' u', go match head xs, last xs with Some a, Some b => mret (Span (tree_lo a) (tree_hi b)) | _, _ => empty_span end u = ODone sp' u' ∧ ab u' = ab u)
      as (sp' & u' & Es & Eu').
    { destruct (head xs) as [a|], (last xs) as [b|]; by eexists _, _. }
    destruct (ab_parts extract _ _ Eu') as [Eu3 Eu4].
    exists sp, xs, (S (S f)), sp', u'. split; [done|]. split; [|split; [by rewrite Eu3|by rewrite Eu4, Eu2]].
    unfold produce_md. remember (S f) as g eqn:Eg. cbn [produce]. fold (produce_md env md1 g t). rewrite run_bind. unfold produce_loop.
    rewrite run_bind, Ho', run_bind, Es. done.
  Qed.
End loops.
