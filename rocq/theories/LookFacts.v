(** What a run depends on: the tokens it consumes and one more. *)
From Coq Require Import String NArith.
From stdpp Require Import prelude list strings relations.
From Verif Require Import LexModel LexSpec LexFacts SynSetModel TableModel StreamModel StreamSpec StreamFacts
  TypeModel ProduceModel CfgSpec ParseSpec ProgFacts TreeFacts SoundFacts RunFacts InvFacts.
Local Open Scope nat_scope.
#[local] Arguments ts_contains : simpl never.
#[local] Arguments ts_contains_e : simpl never.

(** * Texts *)
Lemma string_ext a b : String.length a = String.length b → (∀ i, i < String.length a → String.get i a = String.get i b) → a = b.
Proof.
  revert b. induction a as [|c a IH]; intros [|d b] Hl H; try done. cbn in Hl. injection Hl as Hl.
  assert (H0 := H 0 ltac:(cbn; lia)). cbn in H0. injection H0 as ->. f_equal. apply IH; [done|].
  intros i Hi. apply (H (S i)). cbn. lia.
Qed.
Lemma span_get_same n a b sp : same_upto n a b → n ≤ String.length a → n ≤ String.length b → sp_hi sp ≤ n →
  span_get sp a = span_get sp b.
Proof.
  intros Hs Ha Hb Hn. destruct (span_get_spec sp a) as (A1 & A2 & _). destruct (span_get_spec sp b) as (B1 & B2 & _).
  destruct (decide (sp_hi sp ≤ sp_lo sp)) as [Hle|Hlt]; [by rewrite A2, B2|].
  destruct A1 as (ra & -> & La & Ga); [lia..|]. destruct B1 as (rb & -> & Lb & Gb); [lia..|].
  f_equal. apply string_ext; [lia|]. intros i Hi. rewrite Ga, Gb by lia. apply Hs. lia.
Qed.

(** * Programs *)
Definition agree (a b : string) (u : list token) : Prop :=
  match u with
  | t :: _ => ∀ sp, sp_hi sp ≤ sp_hi (t_span t) → span_get sp a = span_get sp b
  | [] => a = b
  end.
Lemma wps_local {A} (m : M A) s1 Q a s1' c u1 u2 d src2 : wps m s1 Q → aok s1 → arun m s1 = ODone a s1' →
  a_rest s1 = c ++ u1 → a_rest s1' = u1 → head u2 = head u1 → a_done s1 = d → agree (a_src s1) src2 u1 →
  ∃ s2', arun m (Ast src2 d (c ++ u2)) = ODone a s2' ∧ a_src s2' = src2 ∧ a_done s2' = a_done s1' ∧ a_rest s2' = u2.
Proof.
  intros Hw. revert s1 Hw c d.
  induction m as [| |k IH|t k IH|k IH|k IH|k IH|sp k IH|sp sem k IH|es k IH];
    intros s1 Hw c d Hok Hr Hc Hu Hh Hd Hag; cbn [wps arun] in *.
  - injection Hr as -> ->. exists (Ast src2 d (c ++ u2)). cbn. rewrite Hu in Hc.
    assert (c = []) as ->. { apply (f_equal length) in Hc. rewrite app_length in Hc. destruct c; [done|cbn in Hc; lia]. }
    by rewrite Hd.
  - done.
  - cbn [a_rest]. assert (head (c ++ u2) = head (a_rest s1)) as -> by (rewrite Hc; by destruct c). by eapply IH.
  - destruct Hw as (Hhd & x & Hx & Hw). rewrite Hx in Hr. cbn [a_src].
    assert (token_src t src2 = Some x) as ->; [|by eapply IH].
    rewrite <- Hx. unfold token_src. destruct u1 as [|t1 u1]; cbn in Hag; [by rewrite Hag|].
    symmetry. apply Hag. destruct c as [|t0 c]; cbn in Hc.
    + rewrite Hc in Hhd. by injection Hhd as <-.
    + rewrite Hc in Hhd. injection Hhd as ->. apply aok_pos in Hok as [Hok _]. rewrite Hc in Hok.
      cbn in Hok. destruct Hok as (_ & _ & Hok). 
      destruct (spans_ok_in _ _ _ (t_span t1) Hok) as (H1 & H2 & _); [|lia].
      rewrite map_app. cbn. set_solver.
  - cbn [a_rest]. destruct (a_rest s1) as [|t r] eqn:E.
    + symmetry in Hc. apply app_nil in Hc as [-> ->]. destruct u2 as [|? ?]; [|done]. cbn.
      unfold pop in Hw. rewrite E in Hw. by eapply (IH None s1 Hw []).
    + destruct c as [|t' c]; cbn in Hc.
      * exfalso. apply arun_adv in Hr as [l [_ _ Hl]]. cbn in Hl. rewrite Hu, <- Hc in Hl.
        apply (f_equal length) in Hl. rewrite app_length in Hl. cbn in Hl. lia.
      * injection Hc as <- Hc. cbn [app]. cbn [a_src a_done].
        destruct (pop_adv1 s1 t r E) as [Hp _]. unfold pop in Hp, Hw. rewrite E in Hp, Hw.
        eapply (IH (Some t) _ Hw); eauto; [by eapply adv_aok|cbn; by rewrite Hd].
  - rewrite <- Hd. eapply IH; eauto.
  - replace (a_span (Ast src2 d (c ++ u2))) with (a_span s1); [by eapply IH|].
    unfold a_span. rewrite Hc. cbn. destruct c as [|? ?]; [|done]. destruct u1 as [|t1 u1], u2 as [|t2 u2]; try done.
    + cbn. cbn in Hag. by rewrite Hag.
    + cbn in Hh. injection Hh as ->. done.
  - destruct Hw as (Hn & x & Hx & Hw). rewrite Hx in Hr. cbn [a_src].
    assert (span_get sp src2 = Some x) as ->; [|by eapply IH].
    rewrite <- Hx. destruct u1 as [|t1 u1]; cbn in Hag; [by rewrite Hag|].
    symmetry. apply Hag. destruct Hn as [[Hn|Hn] _]; [|rewrite Hn in Hc; by destruct c].
    apply aok_pos in Hok as [Hok _]. rewrite Hc in Hok.
    destruct (spans_ok_in _ _ _ (t_span t1) Hok) as (H1 & H2 & _); [|lia].
    rewrite map_app. cbn. set_solver.
  - cbn [a_src a_done a_rest]. rewrite <- Hd. eapply (IH _ Hw); eauto.
    eapply adv_aok; [|done]. apply mark_adv.
  - by eapply IH.
Qed.

Section look.
  Variable extract : nat → bool.
  Variable env : denv.
  Variables (first follow : prod → tset) (jump : prod → option tok → option nat).
  Notation abs := (abs extract).
  Notation produce := (produce env first follow jump).

  Lemma abs_st s : state_ok s → spans_ok 0 (String.length (p_src s)) (map t_span (all_tokens extract s)) ∧
    st (p_src s) (all_tokens extract s) (abs s).
  Proof. intros H. apply (state_ok_abs extract) in H. rewrite aok_eq in H. done. Qed.

  Lemma produce_wps f t s : state_ok s → filled env t →
    wps (produce f t) (abs s) (inv env first jump (p_src s) (all_tokens extract s) (abs s)).
  Proof. intros Hok Hf. destruct (abs_st s Hok) as [H1 H2]. by apply produce_inv. Qed.
  Lemma produce_run_inv f t s r s' : state_ok s → filled env t → run extract (produce f t) s = ODone r s' →
    inv env first jump (p_src s) (all_tokens extract s) (abs s) r (abs s').
  Proof. intros Hok Hf Hr. eapply run_wp; [|done]. by apply wps_wp, produce_wps. Qed.
  Lemma produce_no_crash f t s : state_ok s → filled env t → run extract (produce f t) s ≠ OCrash.
  Proof.
    intros Hok Hf Hr. assert (H := wps_wp _ _ _ (produce_wps f t s Hok Hf)). unfold wp in H.
    rewrite <- run_abs, Hr in H. done.
  Qed.

  Lemma produce_local f t s1 s2 r s1' l u : filled env t → state_ok s1 → state_ok s2 →
    run extract (produce f t) s1 = ODone r s1' → took extract s1 l s1' →
    p_tokens s2 = p_tokens s1 → to_come extract s2 = l ++ u → head u = head (to_come extract s1') →
    match head u with
    | Some tk => same_upto (sp_hi (t_span tk)) (p_src s1) (p_src s2)
    | None => p_src s1 = p_src s2
    end →
    ∃ s2', run extract (produce f t) s2 = ODone r s2' ∧ took extract s2 l s2' ∧
      p_tokens s2' = p_tokens s1' ∧ to_come extract s2' = u.
  Proof.
    intros Hf Hok1 Hok2 Hr Hl Ht Hu Hh Hs.
    assert (Hr' := run_done _ _ _ _ _ Hr).
    destruct (wps_local _ (abs s1) _ _ _ l (to_come extract s1') u (p_tokens s1) (p_src s2)
      (produce_wps f t s1 Hok1 Hf) (state_ok_abs extract s1 Hok1) Hr') as (a2 & H2 & Ha & Hb & Hc); try done.
    { apply Hl. }
    { destruct (to_come extract s1') as [|t1 u1] eqn:E; rewrite Hh in Hs; cbn in Hs; [done|].
      cbn. intros sp Hsp. eapply span_get_same; [exact Hs| | |done].
      - apply (state_ok_abs extract) in Hok1. apply aok_pos in Hok1 as [Hok1 _]. cbn in Hok1.
        destruct Hl as (_ & _ & Hl). change (a_rest (abs s1)) with (to_come extract s1) in Hok1.
        destruct (spans_ok_in _ _ _ (t_span t1) Hok1) as (_ & _ & H); [|exact H].
        change (t_span t1 ∈ map t_span (to_come extract s1)). rewrite Hl, E, map_app. cbn. set_solver.
      - apply (state_ok_abs extract) in Hok2. apply aok_pos in Hok2 as [Hok2 _]. cbn in Hok2.
        change (a_rest (abs s2)) with (to_come extract s2) in Hok2.
        destruct (spans_ok_in _ _ _ (t_span t1) Hok2) as (_ & _ & H); [|exact H].
        change (t_span t1 ∈ map t_span (to_come extract s2)). rewrite Hu, map_app. destruct u as [|t2 u]; [done|]. cbn in Hh. injection Hh as ->. cbn. set_solver. }
    assert (H2' : arun (produce f t) (abs s2) = ODone r a2).
    { assert (abs s2 = Ast (p_src s2) (p_tokens s1) (l ++ u)) as ->; [|done].
      unfold StreamFacts.abs. change (stream extract s2) with (to_come extract s2). by rewrite Ht, Hu. }
    destruct (arun_done _ _ _ _ _ H2') as (s2' & H3 & H4).
    exists s2'. split; [done|].
    assert (to_come extract s2' = u) as Htc by (rewrite <- Hc, <- H4; done).
    assert (p_tokens s2' = p_tokens s1') as Htk by (transitivity (a_done a2); [by rewrite <- H4|done]).
    split; [|done]. split; [by eapply run_src|].
    split; [|by rewrite Htc]. unfold consumed. rewrite Htk, Ht. apply Hl.
  Qed.
End look.
