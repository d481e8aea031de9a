(** Semantic types after a run: the facts of MarkFacts, KeepFacts, JustFacts on parser states. *)
From Coq Require Import String NArith.
From stdpp Require Import prelude list strings relations.
From Verif Require Import LexModel LexSpec LexFacts VecFacts SynSetModel TableModel StreamModel StreamSpec StreamFacts TypeModel ProduceModel ParseSpec ProgFacts TreeFacts SoundFacts RunFacts LoopFacts MarkSpec MarkFacts KeepFacts JustFacts.
Local Open Scope nat_scope.

(** * Markings are parts *)
Lemma owns_part fs xs m : m ∈ owns fs xs → ∃ i t x, fs !! i = Some (t, Some m.2) ∧ xs !! i = Some x ∧ m.1 = tree_span x.
Proof.
  revert xs. induction fs as [|[t o] fs IH]; intros [|x xs] H; cbn in H; try by apply elem_of_nil in H.
  apply elem_of_app in H as [H|H].
  - destruct o as [sem|]; cbn in H; [|by apply elem_of_nil in H]. apply elem_of_list_singleton in H as ->. by exists 0, t, x.
  - destruct (IH _ H) as (i & t' & x' & H1 & H2 & H3). by exists (S i), t', x'.
Qed.
Lemma evens_at {A} (zs : list A) k z : zs !! (2 * k) = Some z → z ∈ evens zs.
Proof.
  revert zs. induction k as [|k IH]; intros zs H.
  - destruct zs as [|a [|b zs]]; cbn in H; [done|..]; injection H as ->; cbn; set_solver.
  - replace (2 * S k) with (S (S (2 * k))) in H by lia. destruct zs as [|a [|b zs]]; cbn in H; [done..|].
    cbn [evens]. apply elem_of_cons. right. by apply IH.
Qed.
Lemma odds_at {A} (zs : list A) k z : zs !! S (2 * k) = Some z → z ∈ odds zs.
Proof. intros H. destruct zs as [|a zs]; [done|]. cbn in H. by apply (evens_at zs k). Qed.
Lemma alternate_at n t d (b : bool) i u : (alternate n t d ++ if b then [d] else []) !! i = Some u →
  (∃ k, i = 2 * k ∧ u = t) ∨ (∃ k, i = S (2 * k) ∧ u = d).
Proof.
  unfold alternate. cut (∀ i, (concat (replicate n [d; t]) ++ if b then [d] else []) !! i = Some u →
    (∃ k, i = S (2 * k) ∧ u = t) ∨ (∃ k, i = 2 * k ∧ u = d)).
  { intros H Hi. destruct i as [|i]; cbn in Hi; [injection Hi as <-; left; by exists 0|].
    destruct (H i Hi) as [(k & -> & ->)|(k & -> & ->)]; [left; exists (S k); split; [lia|done]|right; by exists k]. }
  clear i. induction n as [|n IH]; intros i Hi; cbn in Hi.
  - destruct b; [|done]. destruct i; [|done]. injection Hi as <-. right. by exists 0.
  - destruct i as [|[|i]]; cbn in Hi; [injection Hi as <-; right; by exists 0|injection Hi as <-; left; by exists 0|].
    destruct (IH i Hi) as [(k & -> & ->)|(k & -> & ->)]; [left|right]; exists (S k); (split; [lia|done]).
Qed.
Lemma marks_part env t x ms : marks env t x ms → ∀ m, m ∈ ms → part env t x m.1 m.2.
Proof.
  intros H. revert t x ms H.
  apply (marks_mut env (λ t x ms _, ∀ m, m ∈ ms → part env t x m.1 m.2)
    (λ ts xs ms _, ∀ m, m ∈ ms → ∃ i t x, ts !! i = Some t ∧ xs !! i = Some x ∧ part env t x m.1 m.2)).
  - intros n y lit t m H. by apply elem_of_nil in H.
  - intros n fs xs ms En _ IH m [H|H]%elem_of_app.
    + destruct (IH m H) as (i & t & x & Hi & Hx & Hp). change (map fst fs) with (fst <$> fs) in Hi. unfold field in *.
      rewrite list_lookup_fmap in Hi. destruct (fs !! i) as [[t' o]|] eqn:Ef; [|done]. injection Hi as <-.
      by eapply a_in_field.
    + destruct (owns_part _ _ _ H) as (i & t & x & H1 & H2 & ->). by eapply a_field.
  - intros n vs i t sem x ms En Hi _ IH m [H|H]%elem_of_app.
    + eapply a_in_variant; eauto.
    + destruct sem as [sem|]; cbn in H; [|by apply elem_of_nil in H]. apply elem_of_list_singleton in H as ->. by eapply a_variant.
  - intros ts xs ms _ IH m H. destruct (IH m H) as (i & t & x & Hi & Hx & Hp). by eapply a_tuple.
  - intros t x ms _ IH m H. constructor. auto.
  - intros t sp m H. by apply elem_of_nil in H.
  - intros t sp x ms _ IH m H. constructor. auto.
  - intros t sp b m H. by apply elem_of_nil in H.
  - intros t sp s m H. by apply elem_of_nil in H.
  - intros t sp s m H. by apply elem_of_nil in H.
  - intros t k sp xs ms Ht _ IH m H. destruct (IH m H) as (i & t' & x & Hi & Hx & Hp).
    apply lookup_replicate in Hi as [-> _]. eapply a_list; [done| |done]. by eapply elem_of_list_lookup_2.
  - intros t d n sp zs ms _ IH m H. destruct (IH m H) as (i & t' & x & Hi & Hx & Hp).
    rewrite <- (app_nil_r (alternate n t d)) in Hi.
    destruct (alternate_at n t d false i t' Hi) as [(k & -> & ->)|(k & -> & ->)].
    + eapply a_split_elem; [|done]. by eapply evens_at.
    + eapply a_split_sep; [|done]. by eapply odds_at.
  - intros t d n b sp zs ms _ IH m H. destruct (IH m H) as (i & t' & x & Hi & Hx & Hp).
    destruct (alternate_at n t d b i t' Hi) as [(k & -> & ->)|(k & -> & ->)].
    + eapply a_punct_elem; [|done]. by eapply evens_at.
    + eapply a_punct_sep; [|done]. by eapply odds_at.
  - intros m H. by apply elem_of_nil in H.
  - intros t ts x xs m1 ms _ IH1 _ IH2 m [H|H]%elem_of_app.
    + exists 0, t, x. auto.
    + destruct (IH2 m H) as (i & t' & x' & E). by exists (S i), t', x'.
Qed.
Lemma marked_bit ms c b : tagged (marked ms c) b → tagged c b ∨ ∃ m, m ∈ ms ∧ N.testbit m.2 b = true ∧ is_inside m.1 c.
Proof.
  unfold tagged, marked. cbn. induction ms as [|m ms IH]; cbn; [by left|]. destruct (decide (is_inside m.1 c)) as [Hd|Hd].
  - rewrite N.lor_spec. intros [H|H]%orb_true_iff.
    + right. exists m. split; [set_solver|done].
    + destruct (IH H) as [?|(m' & ? & ?)]; [by left|]. right. exists m'. split; [set_solver|done].
  - intros H. destruct (IH H) as [?|(m' & ? & ?)]; [by left|]. right. exists m'. split; [set_solver|done].
Qed.

(** * Runs *)
Section sem.
  Variables (extract : nat → bool) (env : denv).
  Variables (first follow : prod → tset) (jump : prod → option tok → option nat).
  Notation produce := (produce env first follow jump).
  Notation run := (run extract).

  Lemma sem_stable {A} (m : M A) s a s' : state_ok s → run m s = ODone a s' →
    ∀ i c, p_tokens s !! i = Some c → ∃ c', p_tokens s' !! i = Some c' ∧ c_tok c' = c_tok c ∧ carries c' (c_sem c).
  Proof.
    intros Hok H. apply run_done in H. apply arun_grows in H; [|by apply state_ok_abs]. by destruct H.
  Qed.
  Lemma sem_kept f t s r s' x sp sem c : state_ok s → run (produce f t) s = ODone r s' → value r = Some x →
    part env t x sp sem → c ∈ p_tokens s' → is_inside sp c → carries c sem.
  Proof.
    intros Hok Hr Hv Hp Hc Hi.
    assert (H : ∀ x, value r = Some x → good env t x (abs extract s')).
    { eapply (run_wp extract True True _ _ _ _ (λ r s', ∀ x, value r = Some x → good env t x s')); [|exact Hr].
      apply produce_keep. by apply state_ok_abs. }
    destruct (H x Hv) as (_ & _ & H3). destruct (H3 sp sem Hp) as [_ H4]. by apply H4.
  Qed.
  Lemma sem_justified f t s r s' i c b : state_ok s → run (produce f t) s = ODone r s' →
    p_tokens s' !! i = Some c → tagged c b →
    (∃ c0, p_tokens s !! i = Some c0 ∧ tagged c0 b) ∨
    ∃ x sem, part_made extract env first follow jump t s x sem s' ∧ N.testbit sem b = true ∧ is_inside (tree_span x) c.
  Proof.
    intros Hok Hr Hc Hb. destruct (produce_jp extract env first follow jump t f t (rtc_refl _ _) s r s' Hok Hr i c b Hc Hb) as [?|H]; [by left|].
    right. destruct H as (sp & sem & (x & Hm & ->) & H2). eauto.
  Qed.
  Lemma sem_exact f t s x s' i c b : state_ok s → filled env t → no_recover env t → open_marks env t →
    run (produce f t) s = ODone (RSucc x) s' → p_tokens s' !! i = Some c →
    tagged c b ↔ (∃ c0, p_tokens s !! i = Some c0 ∧ tagged c0 b) ∨
      ∃ sp sem, part env t x sp sem ∧ N.testbit sem b = true ∧ is_inside sp c.
  Proof.
    intros Hok Hf Hn Ho Hr Hc. split.
    - intros Hb. destruct (produce_marks _ _ _ _ _ _ _ _ _ _ Hok Hf Hn Ho Hr) as (l & ms & _ & Hm & Et).
      rewrite Et in Hc. change (map ?f ?l) with (f <$> l) in Hc. rewrite list_lookup_fmap in Hc.
      destruct ((p_tokens s ++ _) !! i) as [c0|] eqn:E0; [|done]. cbn in Hc. injection Hc as <-.
      destruct (marked_bit _ _ _ Hb) as [H|(m & H1 & H2 & H3)].
      + left. apply lookup_app_Some in E0 as [E0|[_ E0]]; [eauto|].
        exfalso. change (map ?f ?l) with (f <$> l) in E0. rewrite list_lookup_fmap in E0.
        destruct (l !! _) as [t0|]; [|done]. cbn in E0. injection E0 as <-. unfold tagged in H. cbn in H. by destruct b.
      + right. exists m.1, m.2. split; [by eapply marks_part|]. done.
    - intros [(c0 & E0 & H)|(sp & sem & H1 & H2 & H3)].
      + destruct (sem_stable _ _ _ _ Hok Hr i c0 E0) as (c' & E' & _ & H'). rewrite Hc in E'. injection E' as <-. by apply H'.
      + eapply sem_kept; [done|exact Hr|done|exact H1| |done|done]. by eapply elem_of_list_lookup_2.
  Qed.
End sem.

(** * [Parser::parse] *)
Lemma parse_sem extract env md f t s o s' : state_ok s → run extract (parse env f t (inr md)) s = ODone (inr o) s' →
  ∃ r s1, run extract (produce_md env md f t) s = ODone r s1 ∧ o = value r ∧ p_tokens s' = p_tokens s1 ∧ took extract s1 [] s'.
Proof.
  intros Hok H. destruct (parse_run _ _ _ _ _ _ _ _ H) as (x & [= <-] & H1).
  destruct (parse_with_run _ _ _ _ _ _ _ _ _ _ H1) as (r & s1 & H2 & H3 & H4 & _ & H5).
  exists r, s1. split_and!; [done|done|by rewrite H4|]. apply took_adv. rewrite H5. apply adv_refl.
Qed.
Section parse.
  Variables (extract : nat → bool) (env : denv) (md : metadata prod).
  Lemma parse_kept f t s x s' sp sem c : state_ok s → run extract (parse env f t (inr md)) s = ODone (inr (Some x)) s' →
    part env t x sp sem → c ∈ p_tokens s' → is_inside sp c → carries c sem.
  Proof.
    intros Hok H Hp Hc. destruct (parse_sem _ _ _ _ _ _ _ _ Hok H) as (r & s1 & H1 & H2 & H3 & _). rewrite H3 in Hc.
    by eapply sem_kept.
  Qed.
  Lemma parse_justified f t s o s' i c b : state_ok s → run extract (parse env f t (inr md)) s = ODone o s' →
    p_tokens s' !! i = Some c → tagged c b →
    (∃ c0, p_tokens s !! i = Some c0 ∧ tagged c0 b) ∨
    ∃ x sem, part_made extract env (tb_get (md_first md)) (tb_get (md_follow md)) (jump_look_up (md_jump md)) t s x sem s' ∧
      N.testbit sem b = true ∧ is_inside (tree_span x) c.
  Proof.
    intros Hok H Hc Hb. destruct (parse_run _ _ _ _ _ _ _ _ H) as (o' & -> & _).
    destruct (parse_sem _ _ _ _ _ _ _ _ Hok H) as (r & s1 & H1 & H2 & H3 & H4). rewrite H3 in Hc.
    destruct (sem_justified _ _ _ _ _ _ _ _ _ _ _ _ _ Hok H1 Hc Hb) as [?|(x & sem & Hm & H5)]; [by left|]. right. exists x, sem. split; [|done].
    destruct Hm as (t' & f' & a1 & r1 & a2 & l1 & l2 & A1 & A2 & A3 & A4 & A5).
    exists t', f', a1, r1, a2, l1, (l2 ++ []). split_and!; [done..|]. by eapply took_trans.
  Qed.
  Lemma parse_exact f t s x s' i c b : state_ok s → filled env t → no_recover env t → open_marks env t →
    run extract (parse env f t (inr md)) s = ODone (inr (Some x)) s' → only_bad_text s s' → p_tokens s' !! i = Some c →
    tagged c b ↔ (∃ c0, p_tokens s !! i = Some c0 ∧ tagged c0 b) ∨
      ∃ sp sem, part env t x sp sem ∧ N.testbit sem b = true ∧ is_inside sp c.
  Proof.
    intros Hok Hf Hn Ho H He Hc. destruct (parse_run _ _ _ _ _ _ _ _ H) as (o' & [= <-] & H1).
    destruct (parse_with_run _ _ _ _ _ _ _ _ _ _ H1) as (r & s1 & H2 & H3 & H4 & H5 & H6).
    assert (Hr : unres r = (Some x, [])).
    { destruct (unres r) as [o es] eqn:Er. cbn in H3, H5. subst o. f_equal.
      destruct (produce_run_errors _ _ _ _ _ _ _ _ _ _ H2) as (bad & B1 & B2). destruct He as (bad' & C1 & C2).
      rewrite H4 in C1. cbn in C1. rewrite B1 in C1. apply app_inv_head in C1 as <-.
      rewrite H5, B2 in C2. rewrite <- (app_nil_r (_ ++ map _ bad)) in C2 at 2. by apply app_inv_head in C2. }
    assert (Et : p_tokens s' = p_tokens s1) by (by rewrite H4). rewrite Et in Hc.
    destruct r as [y|y es|es]; cbn in Hr; simplify_eq.
    - by eapply sem_exact.
    - exfalso. by apply (produce_run_sound0 _ _ _ _ _ _ _ _ _ _ Hok Hf Hn H2).
  Qed.
End parse.
