(** [Nev<T>] and [(T, Vec<T>)]. *)
From Coq Require Import String NArith.
From stdpp Require Import prelude list strings relations.
From Verif Require Import LexModel LexSpec SynSetModel TableModel CfgSpec StreamModel StreamSpec TypeModel TypeSpec ProduceModel ParseSpec ProgFacts SoundFacts StreamFacts
  FuelFacts RunFacts MdFacts LangFacts EndFacts PartSpec PartFacts ExtendSpec FewerFacts CleanSpec CleanFacts EachFacts SugarSpec SugarFacts SugarLoopFacts.
Local Open Scope nat_scope.
#[local] Arguments ts_contains : simpl never.

Section plus.
  Variable extract : nat → bool.
  Notation go := (run extract).
  Notation ab := (abs extract).
  Notation clean := (keeps extract fine).

  Lemma iter_iter n n2 p1 p2 set set' acc hi s L hi1 s' u : aok (ab s) → told extract p1 → clean p1 p2 →
    (∀ x, ts_contains set' (Some x) = ts_contains set (Some x)) → n ≤ n2 → ab u = ab s →
    go (iter_loop n p1 set acc [] hi) s = ODone (L, [], hi1) s' →
    ∃ xs, L = acc ++ xs ∧ ∀ acc hi, ∃ hi' u', go (iter_loop n2 p2 set' acc [] hi) u = ODone (acc ++ xs, [], hi') u' ∧ ab u' = ab s'.
  Proof.
    intros Hok T1 K Hset. revert n2 acc hi s u Hok. induction n as [|n IH]; intros n2 acc hi s u Hok Hn Eu Hr; cbn [iter_loop] in Hr; [done|].
    destruct n2 as [|n2]; [lia|]. rewrite run_bind in Hr. destruct (peek_ab extract s Hok) as (s1 & Ep & E1). rewrite Ep in Hr.
    assert (Hoku : aok (ab u)) by by rewrite Eu. destruct (peek_ab extract u Hoku) as (u1 & Epu & Eu1). cbn [iter_loop].
    destruct (look (ab s)) as [y|] eqn:Ey.
    2:{ cbn in Hr. injection Hr as <- _ <-. exists []. rewrite app_nil_r. split; [done|]. intros acc' hi'. exists hi', u1.
        rewrite run_bind, Epu, Eu, Ey, app_nil_r. split; [done|congruence]. }
    destruct (ts_contains set (Some y)) eqn:Ec.
    2:{ cbn in Hr. injection Hr as <- _ <-. exists []. rewrite app_nil_r. split; [done|]. intros acc' hi'. exists hi', u1.
        rewrite run_bind, Epu, Eu, Ey, Hset, Ec, app_nil_r. split; [done|congruence]. }
    rewrite run_bind in Hr. destruct (go p1 s1) as [| |r s2] eqn:E2; [done..|].
    destruct (decide (fine r)) as [Hf|Hf].
    2:{ exfalso. apply not_fine_unres in Hf; [|by eapply T1]. destruct (unres r) as [[x|] e]; cbn in Hf.
        - by apply (iter_never extract n _ set (acc ++ [x]) ([] ++ e) (tree_hi x) Hf _ _ _ Hr).
        - cbn in Hr. by injection Hr as _ -> _ _. }
    destruct (fine_unres r Hf) as [x Ex]. rewrite Ex in Hr. cbn [app] in Hr.
    assert (Hok1 : aok (ab s1)) by by rewrite E1. assert (Hok2 := run_aok extract _ _ _ _ E2 Hok1).
    destruct (run_ab extract p2 s1 u1 r s2) as (u2 & Eu2 & Eau2); [by apply K|congruence|].
    destruct (IH n2 _ _ s2 u2 Hok2 ltac:(lia) Eau2 Hr) as (xs & -> & Hi).
    exists (x :: xs). rewrite <- (assoc_L (++)). split; [done|]. intros acc' hi0.
    destruct (Hi (acc' ++ [x]) (tree_hi x)) as (hi' & u' & Hi' & Ea'). exists hi', u'. split; [|done].
    rewrite run_bind, Epu, Eu, Ey, Hset, Ec, run_bind, Eu2, Ex. cbn [app]. rewrite Hi'. by rewrite <- (assoc_L (++)).
  Qed.

  Lemma within_pair env root t : within env root (TTuple [t; TStar t]) → within env root t ∧ within env root (TStar t).
  Proof. intros H. split; (eapply rtc_r; [exact H|]; cbn; set_solver). Qed.
  Lemma star_told n q set : told extract (star n q set).
  Proof.
    intros v rv v' Hv. unfold star in Hv. rewrite run_bind in Hv. destruct (go (produce_option _ _ _) v) as [| |ro v1] eqn:Eo; [done..|].
    injection Hv as <- <-. apply tells_map. unfold produce_option in Eo. rewrite run_bind in Eo.
    destruct (go peek_src v) as [| |[z|] v2]; [done..| |cbn in Eo; by injection Eo as <- _].
    destruct (ts_contains set (Some z)); [|cbn in Eo; by injection Eo as <- _]. rewrite run_bind in Eo.
    destruct (go (produce_plus _ _ _) v2) as [| |[]]; [done..| | |]; cbn in Eo; by injection Eo as <- _.
  Qed.

  Lemma plus_pair env root1 root2 t md1 md2 f s r s' : accepted env root1 md1 → accepted env root2 md2 →
    within env root1 (TPlus t) → within env root2 (TTuple [t; TStar t]) → no_recover env t → no_punct env t → state_ok s →
    go (produce_md env md1 f (TPlus t)) s = ODone r s' → errors_of r = [] →
    ∃ sp x xs f' sp' u, r = RSucc (TrList sp (x :: xs)) ∧
      go (produce_md env md2 f' (TTuple [t; TStar t])) s = ODone (RSucc (TrSeq [x; TrList sp' xs])) u ∧
      p_tokens u = p_tokens s' ∧ to_come extract u = to_come extract s'.
  Proof.
    intros A1 A2 W1 W2 Hn Hq Hok Hr He. apply (state_ok_abs extract) in Hok.
    assert (W1t : within env root1 t) by (eapply rtc_r; [exact W1|]; cbn; set_solver).
    destruct (within_pair _ _ _ W2) as [W2t W2s]. destruct f as [|f]; [done|].
    destruct (part_tables extract env root1 root2 t md1 md2 f (S f) A1 A2 W1t W2t Hn Hq ltac:(lia)) as [T1 K].
    destruct (part_tables extract env root1 root2 t md1 md2 f (S (S f)) A1 A2 W1t W2t Hn Hq ltac:(lia)) as [_ K'].
    destruct (part_tables extract env root2 root2 t md2 md2 (S f) (S f) A2 A2 W2t W2t Hn Hq ltac:(lia)) as [T2 _].
    assert (Hset : ∀ x, ts_contains (tb_get (md_first md2) (key (TPlus t))) (Some x) = ts_contains (tb_get (md_first md1) (key (TPlus t))) (Some x)).
    { exact (same_begin_V env root1 root2 t md1 md2 A1 A2 (or_intror W1) W2s). }
    unfold produce_md in Hr. cbn [produce] in Hr. fold (produce_md env md1 f t) in Hr. rewrite run_bind in Hr. unfold produce_plus in Hr.
    rewrite run_bind in Hr. destruct (go (produce_md env md1 f t) s) as [| |r0 s1] eqn:E0; [done..|].
    destruct (decide (fine r0)) as [Hf|Hf].
    2:{ exfalso. apply not_fine_unres in Hf; [|by eapply T1]. destruct (unres r0) as [[x|] e]; cbn in Hf.
        - rewrite run_bind in Hr. destruct (go (iter_loop _ _ _ _ _ _) s1) as [| |[[l es] hi] s2] eqn:Eo; [done..|].
          assert (Hes := iter_never extract _ _ _ _ _ _ Hf _ _ _ Eo). unfold quiet in Hes. cbn in Hes.
          cbn in Hr. destruct es; [done|]. cbn in Hr. by injection Hr as <- _.
        - cbn in Hr. by injection Hr as <- _. }
    destruct (fine_unres r0 Hf) as [x Ex]. rewrite Ex, run_bind in Hr.
    destruct (go (iter_loop _ _ _ _ _ _) s1) as [| |[[l es] hi] s2] eqn:Eo; [done..|].
    destruct es as [|e es]; [|cbn in Hr; by injection Hr as <- _]. cbn in Hr. injection Hr as <- <-.
    assert (Hok1 := run_aok extract _ _ _ _ E0 Hok).
    destruct (iter_iter f (S (S f)) _ _ _ _ [x] _ s1 l hi s2 s1 Hok1 T1 K Hset ltac:(lia) eq_refl Eo) as (xs & -> & Hi).
    destruct (Hi [] 0) as (hi' & u & Hi' & Eu). cbn [app] in Hi'.
    destruct (star_iter extract (S f) _ _ s1 _ hi' u Hok1 T2 Hi') as [sp' Hstar].
    eexists _, x, xs, (S (S (S f))), sp', u. split; [reflexivity|]. split; [|by apply ab_parts].
    unfold produce_md. remember (S (S f)) as g eqn:Eg. cbn [produce].
    rewrite seq_two. eapply (two_make extract _ _ _ r0 x s1 (RSucc (TrList sp' xs))); [|exact Ex| |reflexivity].
    - apply K'; [exact E0|exact Hf].
    - subst g. rewrite <- Hstar. remember (S f) as g eqn:Eg. cbn [produce]. done.
  Qed.
  Lemma pair_plus env root1 root2 t md1 md2 f s r s' : accepted env root1 md1 → accepted env root2 md2 →
    within env root1 (TPlus t) → within env root2 (TTuple [t; TStar t]) → no_recover env t → no_punct env t → state_ok s →
    go (produce_md env md2 f (TTuple [t; TStar t])) s = ODone r s' → errors_of r = [] →
    ∃ sp x xs f' sp' u, r = RSucc (TrSeq [x; TrList sp' xs]) ∧
      go (produce_md env md1 f' (TPlus t)) s = ODone (RSucc (TrList sp (x :: xs))) u ∧
      p_tokens u = p_tokens s' ∧ to_come extract u = to_come extract s'.
  Proof.
    intros A1 A2 W1 W2 Hn Hq Hok Hr He. apply (state_ok_abs extract) in Hok.
    assert (W1t : within env root1 t) by (eapply rtc_r; [exact W1|]; cbn; set_solver).
    destruct (within_pair _ _ _ W2) as [W2t W2s].
    assert (Hr3 : go (produce_md env md2 (S (S f)) (TTuple [t; TStar t])) s = ODone r s').
    { rewrite <- Hr. apply (le_run extract); [apply rec_le; lia|by rewrite Hr]. }
    clear Hr. remember (S (S f)) as F eqn:HF.
    destruct (part_tables extract env root2 root1 t md2 md1 (S f) F A2 A1 W2t W1t Hn Hq ltac:(lia)) as [T2 K'].
    destruct (part_tables extract env root2 root1 t md2 md1 f F A2 A1 W2t W1t Hn Hq ltac:(lia)) as [T2f K].
    assert (Hset : ∀ x, ts_contains (tb_get (md_first md1) (key (TPlus t))) (Some x) = ts_contains (tb_get (md_first md2) (key (TPlus t))) (Some x)).
    { intros x. symmetry. exact (same_begin_V env root1 root2 t md1 md2 A1 A2 (or_intror W1) W2s x). }
    set (set2 := tb_get (md_first md2) (key (TPlus t))) in *.
    assert (Htwo : go (two (produce_md env md2 (S f) t) (star f (produce_md env md2 f t) set2)) s = ODone r s').
    { rewrite <- Hr3, HF. unfold produce_md. remember (S f) as g eqn:Eg. cbn [produce]. symmetry. rewrite seq_two. subst g. done. }
    assert (Ts := star_told f (produce_md env md2 f t) set2).
    assert (Hfr : fine r). { apply errors_fine; [|done]. exact (two_told extract _ _ T2 Ts _ _ _ Htwo). }
    destruct (two_inv extract _ _ _ _ _ T2 Ts Htwo Hfr) as (r0 & x & s1 & rs & l & E0 & Ex & Es & El & ->).
    assert (Hok1 := run_aok extract _ _ _ _ E0 Hok).
    destruct (iter_star extract f _ set2 s1 rs s' Hok1 T2f Es (unres_fine _ _ El)) as (sp' & L & hi' & -> & Hi). injection El as <-.
    destruct (iter_iter (S f) F _ _ _ _ [] 0 s1 L hi' s' s1 Hok1 T2f K Hset ltac:(lia) eq_refl Hi) as (xs & -> & Ho).
    destruct (Ho [x] (tree_hi x)) as (hi2 & u & Ho' & Eu).
    eexists _, x, xs, (S F), sp', u. split; [reflexivity|]. split; [|by apply ab_parts].
    unfold produce_md. clear Hr3 HF. cbn [produce]. unfold produce_plus. fold (produce_md env md1 F t).
    rewrite !run_bind, (K' _ _ _ E0 (unres_fine _ _ Ex)), Ex, run_bind, Ho'. reflexivity.
  Qed.
End plus.
