(** Marks come from annotated parts. *)
From Coq Require Import String NArith.
From stdpp Require Import prelude list strings relations.
From Verif Require Import LexModel LexSpec LexFacts VecFacts SynSetModel TableModel StreamModel StreamSpec StreamFacts TypeModel ProduceModel ParseSpec ProgFacts TreeFacts SoundFacts RunFacts LoopFacts MarkSpec.
Local Open Scope nat_scope.
#[local] Arguments ts_contains : simpl never.
#[local] Arguments ts_contains_e : simpl never.

(** Every bit in [l'] is in [l] or from a span with [P]. *)
Definition bits (P : span → N → Prop) (l l' : list cell) : Prop :=
  ∀ i c b, l' !! i = Some c → tagged c b →
    (∃ c0, l !! i = Some c0 ∧ tagged c0 b) ∨ ∃ sp sem, P sp sem ∧ N.testbit sem b = true ∧ is_inside sp c.
Lemma bits_refl P l : bits P l l.
Proof. intros i c b Hc Hb. left. eauto. Qed.
Lemma bits_mono (P Q : span → N → Prop) l l' : (∀ sp sem, P sp sem → Q sp sem) → bits P l l' → bits Q l l'.
Proof. intros HPQ H i c b Hc Hb. destruct (H i c b Hc Hb) as [?|(sp & sem & H1 & H2)]; [by left|right; eauto]. Qed.
Lemma bits_trans P l1 l2 l3 : (∃ l, map c_tok l3 = map c_tok l2 ++ l) → bits P l1 l2 → bits P l2 l3 → bits P l1 l3.
Proof.
  intros [l Hl] H1 H2 i c b Hc Hb. destruct (H2 i c b Hc Hb) as [(c2 & E2 & B2)|?]; [|by right].
  destruct (H1 i c2 b E2 B2) as [?|(sp & sem & HP & Ht & Hi)]; [by left|]. right. exists sp, sem. split_and!; [done|done|].
  assert (E : c_tok c = c_tok c2).
  { apply (f_equal (λ l, l !! i)) in Hl. change (map c_tok l3) with (c_tok <$> l3) in Hl.
    change (map c_tok l2) with (c_tok <$> l2) in Hl. rewrite list_lookup_fmap, Hc in Hl.
    rewrite lookup_app_l in Hl by (rewrite fmap_length; by eapply lookup_lt_Some).
    rewrite list_lookup_fmap, E2 in Hl. by injection Hl. }
  unfold is_inside, c_lo, c_hi in *. by rewrite E.
Qed.
Lemma bits_push P l t : bits P l (vec_push l t).
Proof.
  intros i c b Hc Hb. unfold vec_push in Hc. apply lookup_app_Some in Hc as [Hc|[_ Hc]]; [left; eauto|].
  apply list_lookup_singleton_Some in Hc as [_ <-]. unfold tagged in Hb. cbn in Hb. by destruct b.
Qed.
Lemma bits_apply (P : span → N → Prop) len l sp sem : cells_ok len l → P sp sem → bits P l (vec_apply_semantic l sp sem).
Proof.
  intros Hok HP i c b Hc Hb. rewrite (vec_apply_spec len) in Hc by done.
  change (map ?f l) with (f <$> l) in Hc. rewrite list_lookup_fmap in Hc. destruct (l !! i) as [c0|]; [|done].
  cbn in Hc. injection Hc as <-. destruct (decide (is_inside sp c0)) as [Hd|Hd]; [|left; eauto].
  unfold tagged, cell_apply in Hb. cbn in Hb. rewrite N.lor_spec in Hb. apply orb_true_iff in Hb as [Hb|Hb]; [left; eauto|].
  right. exists sp, sem. done.
Qed.
Lemma state_cells s : state_ok s → cells_ok (String.length (p_src s)) (p_tokens s).
Proof. intros H. unfold cells_ok. unfold state_ok in H. rewrite spans_ok_app in H. tauto. Qed.

Section just.
  Variable extract : nat → bool.
  Notation run := (run extract).
  Notation took := (took extract).

  Lemma took_refl s : took s [] s.
  Proof. apply took_adv, adv_refl. Qed.
  Lemma took_toks s l s' : took s l s' → ∃ l, map c_tok (p_tokens s') = map c_tok (p_tokens s) ++ l.
  Proof. intros [_ H _]%took_adv. by exists l. Qed.
  Lemma took_fill s : took s [] (fill extract s).
  Proof. apply took_adv. rewrite abs_fill. apply adv_refl. Qed.
  Lemma fill_tokens s : p_tokens (fill extract s) = p_tokens s.
  Proof. assert (H := abs_fill extract s). by injection H. Qed.

  Variable J : pst → span → N → pst → Prop.
  Hypothesis Jmono : ∀ s l s1 sp sem s2 l' s', took s l s1 → J s1 sp sem s2 → took s2 l' s' → J s sp sem s'.

  Definition jp {A} (m : M A) : Prop := ∀ s a s', state_ok s → run m s = ODone a s' →
    bits (λ sp sem, J s sp sem s') (p_tokens s) (p_tokens s').
  Lemma jp_step {A} (m : M A) s l s1 a s' : took s l s1 → state_ok s1 → bits (λ sp sem, J s sp sem s') (p_tokens s) (p_tokens s1) →
    jp m → run m s1 = ODone a s' → bits (λ sp sem, J s sp sem s') (p_tokens s) (p_tokens s').
  Proof.
    intros Hl Hok Hb Hm Hr. destruct (run_took _ _ _ _ _ Hr) as [l' Hl'].
    eapply bits_trans; [by eapply took_toks|exact Hb|]. eapply bits_mono; [|by apply (Hm s1 a)].
    intros sp sem H. cbn in H. eapply Jmono; [done..|]. apply took_refl.
  Qed.
  Lemma jp_ret {A} (a : A) : jp (Ret a).
  Proof. intros s a' s' _ [= _ <-]. apply bits_refl. Qed.
  Lemma jp_fuel {A} : jp (@Fuel A).
  Proof. by intros s a s' _. Qed.
  Lemma jp_Peek {A} (k : option token → M A) : (∀ x, jp (k x)) → jp (Peek k).
  Proof.
    intros Hk s a s' Hok H. cbn in H. eapply jp_step; [apply took_fill|by apply fill_ok| |apply Hk|exact H].
    rewrite fill_tokens. apply bits_refl.
  Qed.
  Lemma jp_CurSpan {A} (k : span → M A) : (∀ x, jp (k x)) → jp (CurSpan k).
  Proof.
    intros Hk s a s' Hok H. cbn in H. eapply jp_step; [apply took_fill|by apply fill_ok| |apply Hk|exact H].
    rewrite fill_tokens. apply bits_refl.
  Qed.
  Lemma jp_EmptySpan {A} (k : span → M A) : (∀ x, jp (k x)) → jp (EmptySpan k).
  Proof. intros Hk s a s' Hok H. cbn in H. by eapply Hk. Qed.
  Lemma jp_ToSrc {A} t (k : tok → M A) : (∀ x, jp (k x)) → jp (ToSrc t k).
  Proof. intros Hk s a s' Hok H. cbn in H. destruct (token_src _ _); [|done]. by eapply Hk. Qed.
  Lemma jp_GetSrc {A} t (k : string → M A) : (∀ x, jp (k x)) → jp (GetSrc t k).
  Proof. intros Hk s a s' Hok H. cbn in H. destruct (span_get _ _); [|done]. by eapply Hk. Qed.
  Lemma jp_Consume {A} (k : option token → M A) : (∀ x, jp (k x)) → jp (Consume k).
  Proof.
    intros Hk s a s' Hok H. cbn [StreamModel.run] in H.
    destruct (take_peeked (fill extract s)) as [t s1] eqn:E.
    assert (Hr : run consume s = ODone t s1) by (cbn; by rewrite E).
    destruct (run_took _ _ _ _ _ Hr) as [l Hl].
    eapply jp_step; [exact Hl|by eapply run_ok| |apply Hk|exact H].
    unfold take_peeked in E. rewrite <- (fill_tokens s). destruct (p_peeked (fill extract s)) as [tk|]; injection E as _ <-.
    - apply bits_push.
    - apply bits_refl.
  Qed.
  Lemma jp_bind {A B} (m : M A) (k : A → M B) : jp m → (∀ a, jp (k a)) → jp (m ≫= k).
  Proof.
    intros Hm Hk s b s' Hok H. destruct (run_bind_inv _ _ _ _ _ _ H) as (a & s1 & H1 & H2).
    destruct (run_took _ _ _ _ _ H1) as [l Hl]. destruct (run_took _ _ _ _ _ H2) as [l' Hl'].
    eapply jp_step; [exact Hl|by eapply run_ok| |apply Hk|exact H2].
    eapply bits_mono; [|by eapply (Hm s a)]. intros sp sem HJ. cbn in HJ. eapply Jmono; [apply took_refl|done..].
  Qed.
  Lemma jp_peek_src : jp peek_src.
  Proof. apply jp_Peek. intros [t|]; [apply jp_ToSrc; intros; apply jp_ret|apply jp_ret]. Qed.
  Lemma jp_cur_span : jp cur_span. Proof. apply jp_CurSpan. intros; apply jp_ret. Qed.
  Lemma jp_empty_span : jp empty_span. Proof. apply jp_EmptySpan. intros; apply jp_ret. Qed.
  Lemma jp_consume : jp consume. Proof. apply jp_Consume. intros; apply jp_ret. Qed.
  Lemma jp_get_src sp : jp (get_src sp). Proof. apply jp_GetSrc. intros; apply jp_ret. Qed.
  Lemma jp_expecting e : jp (expecting e). Proof. apply jp_CurSpan. intros; apply jp_ret. Qed.
  Lemma jp_unexpected_eof : jp unexpected_eof. Proof. apply jp_CurSpan. intros; apply jp_ret. Qed.
  Lemma jp_peek : jp peek. Proof. apply jp_Peek. intros; apply jp_ret. Qed.

  Ltac jp_step :=
    first
    [ apply jp_ret | apply jp_fuel | apply jp_peek_src | apply jp_cur_span | apply jp_empty_span | apply jp_consume
    | apply jp_get_src | apply jp_expecting | apply jp_unexpected_eof | apply jp_peek
    | assumption
    | apply jp_bind; [|intros]
    | apply jp_ToSrc; intros
    | match goal with |- jp (match ?x with _ => _ end) => destruct x eqn:? end
    | match goal with H : ∀ _, _ |- _ => solve [apply H] end ].
  Ltac jp_auto := repeat jp_step.

  Lemma jp_parse_token y : jp (parse_token y).
  Proof. unfold parse_token. jp_auto. Qed.
  Lemma jp_parse_token_lit y lit fol : jp (parse_token_lit y lit fol).
  Proof. unfold parse_token_lit. jp_auto. Qed.
  Lemma jp_seq rec ts acc errs : (∀ t, t ∈ ts → jp (rec t)) → jp (produce_seq rec ts acc errs).
  Proof.
    revert acc errs. induction ts as [|t ts IH]; intros acc errs H; cbn [produce_seq]; [apply jp_ret|].
    apply jp_bind; [apply H; set_solver|]. intros r. destruct (unres r) as [[a|] e]; [|apply jp_ret].
    apply IH. intros; apply H; set_solver.
  Qed.
  Lemma jp_option {X} (p : M (res X)) sp first : jp p → jp (produce_option p sp first).
  Proof. intros H. unfold produce_option. jp_auto. Qed.
  Lemma jp_iter n p first acc errs hi : jp p → jp (iter_loop n p first acc errs hi).
  Proof. intros Hp. revert acc errs hi. induction n as [|n IH]; intros acc errs hi; cbn [iter_loop]; jp_auto. Qed.
  Lemma jp_plus n p first : jp p → jp (produce_plus n p first).
  Proof. intros H. unfold produce_plus. assert (IH := λ a b c, jp_iter n p first a b c H). jp_auto. Qed.
  Lemma jp_skip n first tk hi : jp (skip_loop n first tk hi).
  Proof. revert tk hi. induction n as [|n IH]; intros tk hi; cbn [skip_loop]; jp_auto. Qed.
  Lemma jp_loop_loop n p first acc errs : jp p → jp (loop_loop n p first acc errs).
  Proof.
    intros Hp. revert acc errs. induction n as [|n IH]; intros acc errs; cbn [loop_loop]; [apply jp_fuel|].
    assert (IH' := jp_skip n first). jp_auto.
  Qed.
  Lemma jp_loop n p first : jp p → jp (produce_loop n p first).
  Proof. intros H. unfold produce_loop. assert (IH := λ a b, jp_loop_loop n p first a b H). jp_auto. Qed.
  Lemma jp_split_inner n pT ef pf fol panic errs : jp pT → jp (split_inner n pT ef pf fol panic errs).
  Proof. intros H. revert panic errs. induction n as [|n IH]; intros panic errs; cbn [split_inner]; jp_auto. Qed.
  Lemma jp_split_outer n pT pP ef pf fol elems puncts errs : jp pT → jp pP →
    jp (split_outer n pT pP ef pf fol elems puncts errs).
  Proof.
    intros HT HP. revert elems puncts errs. induction n as [|n IH]; intros elems puncts errs; cbn [split_outer]; [apply jp_fuel|].
    assert (IH' := λ a b, jp_split_inner n pT ef pf fol a b HT). jp_auto.
  Qed.
  Lemma jp_split n pT pP ef pf fol : jp pT → jp pP → jp (produce_split n pT pP ef pf fol).
  Proof. intros HT HP. unfold produce_split. assert (IH := λ a b c, jp_split_outer n pT pP ef pf fol a b c HT HP). jp_auto. Qed.
  Lemma jp_punct_inner n pT ef pf fol panic errs : jp pT → jp (punct_inner n pT ef pf fol panic errs).
  Proof. intros H. revert panic errs. induction n as [|n IH]; intros panic errs; cbn [punct_inner]; jp_auto. Qed.
  Lemma jp_punct_outer n pT pP ef pf fol elems puncts errs : jp pT → jp pP →
    jp (punct_outer n pT pP ef pf fol elems puncts errs).
  Proof.
    intros HT HP. revert elems puncts errs. induction n as [|n IH]; intros elems puncts errs; cbn [punct_outer]; [apply jp_fuel|].
    assert (IH' := λ a b, jp_punct_inner n pT ef pf fol a b HT). jp_auto.
  Qed.
  Lemma jp_punct n pT pP ef pf fol : jp pT → jp pP → jp (produce_punct n pT pP ef pf fol).
  Proof. intros HT HP. unfold produce_punct. assert (IH := λ a b c, jp_punct_outer n pT pP ef pf fol a b c HT HP). jp_auto. Qed.
  Lemma jp_recover_loop n pR tf panic errs : jp pR → jp (recover_loop n pR tf panic errs).
  Proof. intros H. revert panic errs. induction n as [|n IH]; intros panic errs; cbn [recover_loop]; jp_auto. Qed.
  Lemma jp_recover n pT pR hf tf : jp pT → jp pR → jp (produce_recover n pT pR hf tf).
  Proof. intros HT HR. unfold produce_recover. assert (IH := λ a b, jp_recover_loop n pR tf a b HR). jp_auto. Qed.

  (** Where the items of a sequence come from. *)
  Lemma seq_made rec ts acc errs s r s' xs : run (produce_seq rec ts acc errs) s = ODone r s' → value r = Some xs →
    ∃ ys, xs = acc ++ ys ∧ ∀ i t x, ts !! i = Some t → ys !! i = Some x →
      ∃ s1 r1 s2 l1 l2, took s l1 s1 ∧ run (rec t) s1 = ODone r1 s2 ∧ value r1 = Some x ∧ took s2 l2 s'.
  Proof.
    revert acc errs s. induction ts as [|t ts IH]; intros acc errs s; cbn [produce_seq]; intros H Hv.
    - injection H as <- <-. exists []. rewrite app_nil_r. unfold value in Hv. split; [by destruct errs; injection Hv|done].
    - destruct (run_bind_inv _ _ _ _ _ _ H) as (r1 & s1 & H1 & H2). clear H.
      destruct (run_took _ _ _ _ _ H1) as [l1 Hl1]. destruct (run_took _ _ _ _ _ H2) as [l2 Hl2].
      destruct (unres r1) as [[x|] e] eqn:Er.
      + destruct (IH _ _ _ H2 Hv) as (ys & -> & Hys). exists (x :: ys). rewrite <- (assoc_L (++)). split; [done|].
        intros [|i] t' x' Ht Hx; cbn in Ht, Hx.
        * injection Ht as <-. injection Hx as <-. exists s, r1, s1, [], l2. split_and!; [apply took_refl|done| |done].
          unfold value. by rewrite Er.
        * destruct (Hys _ _ _ Ht Hx) as (s2 & r2 & s3 & l3 & l4 & Hl3 & Hr2 & Hv2 & Hl4).
          exists s2, r2, s3, (l1 ++ l3), l4. split_and!; [by eapply took_trans|done..].
      + injection H2 as <- <-. done.
  Qed.
  Lemma fields_bits fs xs s u s' : state_ok s → run (apply_fields fs xs) s = ODone u s' →
    bits (λ sp sem, ∃ i t x, fs !! i = Some (t, Some sem) ∧ xs !! i = Some x ∧ sp = tree_span x) (p_tokens s) (p_tokens s').
  Proof.
    revert xs s. induction fs as [|[t [sem|]] fs IH]; intros [|x xs] s Hok H; cbn [apply_fields] in H;
      try (injection H as _ <-; apply bits_refl).
    - destruct (run_bind_inv _ _ _ _ _ _ H) as (u1 & s1 & H1 & H2).
      destruct (run_took _ _ _ _ _ H2) as [l2 Hl2]. assert (Hok1 : state_ok s1) by (by eapply run_ok).
      eapply bits_trans; [by eapply took_toks| |].
      + injection H1 as _ <-. cbn. eapply bits_apply; [by apply state_cells|]. exists 0, t, x. done.
      + eapply bits_mono; [|by eapply IH]. intros sp m (i & t' & x' & Hi & Hx & ->). by exists (S i), t', x'.
    - eapply bits_mono; [|by eapply IH]. intros sp m (i & t' & x' & Hi & Hx & ->). by exists (S i), t', x'.
  Qed.
End just.

Section made.
  Variables (extract : nat → bool) (env : denv).
  Variables (first follow : prod → tset) (jump : prod → option tok → option nat).
  Notation produce := (produce env first follow jump).
  Variable root : ty.
  Notation J := (λ s sp sem s', ∃ x, part_made extract env first follow jump root s x sem s' ∧ sp = tree_span x).

  Lemma J_mono s l s1 sp sem s2 l' s' : took extract s l s1 → J s1 sp sem s2 → took extract s2 l' s' → J s sp sem s'.
  Proof.
    intros H1 (x & (t' & f & a & r & b & l1 & l2 & A1 & A2 & A3 & A4 & A5) & ->) H2. exists x. split; [|done].
    exists t', f, a, r, b, (l ++ l1), (l2 ++ l'). split_and!; [done|by eapply took_trans|done|done|by eapply took_trans].
  Qed.
  Lemma produce_jp f t : within env root t → jp extract J (produce f t).
  Proof.
    revert t. induction f as [|f IH]; intros t Hw; [apply jp_fuel|].
    assert (Hsub : ∀ c, c ∈ subs env t → jp extract J (produce f c)).
    { intros c Hc. apply IH. eapply rtc_r; [exact Hw|done]. }
    assert (Hret : ∀ {A} (a : A), jp extract J (Ret a)) by (intros; apply jp_ret).
    destruct t as [n y l|n|l|t|t|t|t|t|t|t|t|t p|t p|t p]; cbn [ProduceModel.produce].
    - apply jp_bind; [apply J_mono| |intros; apply Hret]. destruct l; [apply jp_parse_token_lit|apply jp_parse_token]; apply J_mono.
    - destruct (env !! n) as [[fs|vs]|] eqn:En; [| |apply jp_fuel].
      + intros s a s' Hok H. destruct (run_bind_inv _ _ _ _ _ _ H) as (r & s1 & H1 & H2).
        destruct (run_took _ _ _ _ _ H1) as [l1 Hl1]. destruct (run_took _ _ _ _ _ H2) as [l2 Hl2].
        assert (Hok1 : state_ok s1) by (by eapply run_ok).
        assert (Hb : bits (λ sp sem, J s sp sem s1) (p_tokens s) (p_tokens s1)).
        { eapply (jp_seq extract J J_mono (produce f) (map fst fs)); [|done|exact H1]. intros c Hc. apply Hsub. cbn. by rewrite En. }
        eapply bits_trans; [by eapply took_toks|eapply bits_mono; [|exact Hb]|].
        { intros sp sem HJ. cbn in HJ. eapply J_mono; [apply took_refl|done|exact Hl2]. }
        destruct (unres r) as [[xs|] e] eqn:Er; [|injection H2 as _ <-; apply bits_refl].
        destruct (run_bind_inv _ _ _ _ _ _ H2) as (u & s2 & H3 & H4). injection H4 as _ <-.
        destruct (run_took _ _ _ _ _ H3) as [l3 Hl3].
        eapply bits_mono; [|by eapply fields_bits].
        intros sp sem (i & t' & x & Hi & Hx & ->).
        destruct (seq_made extract (produce f) (map fst fs) [] [] s r s1 xs H1) as (ys & Ey & Hys).
        { unfold value. by rewrite Er. }
        cbn in Ey. subst ys. destruct (Hys i t' x) as (a1 & r1 & a2 & m1 & m2 & B1 & B2 & B3 & B4).
        { change (map fst fs) with (fst <$> fs). unfold field in *. by rewrite list_lookup_fmap, Hi. }
        { done. }
        exists x. split; [|done]. exists t', f, a1, r1, a2, m1, (m2 ++ l3). split_and!; [|done|done|done|by eapply took_trans].
        exists n, (DStruct fs). split_and!; [done|done|]. by eapply elem_of_list_lookup_2.
      + intros s a s' Hok H. destruct (run_bind_inv _ _ _ _ _ _ H) as (tk & s1 & H1 & H2).
        destruct (run_took _ _ _ _ _ H1) as [l1 Hl1]. destruct (run_took _ _ _ _ _ H2) as [l2 Hl2].
        assert (Hok1 : state_ok s1) by (by eapply run_ok).
        assert (Hb : bits (λ sp sem, J s sp sem s1) (p_tokens s) (p_tokens s1)).
        { eapply (jp_peek_src extract J J_mono); [done|exact H1]. }
        eapply bits_trans; [by eapply took_toks|eapply bits_mono; [|exact Hb]|].
        { intros sp sem HJ. cbn in HJ. eapply J_mono; [apply took_refl|done|exact Hl2]. }
        clear Hb H. destruct (jump (key (TNamed n)) tk ≫= _) as [[i [t' sem]]|] eqn:Ei.
        2: { assert (Hq : jp extract J (e ← expecting (first (key (TNamed n))); mret (@RPanic tree [e]))).
          { apply jp_bind; [apply J_mono|apply jp_expecting, J_mono|intros; apply Hret]. }
          eapply bits_mono; [|by apply (Hq s1 a)]. intros sp m HJ. cbn in HJ. eapply J_mono; [done|done|apply took_refl]. }
        assert (vs !! i = Some (t', sem)) as Hi.
        { destruct (jump (key (TNamed n)) tk) as [i'|]; [|done]. cbn in Ei.
          destruct (vs !! i') eqn:E; [|done]. cbn in Ei. injection Ei as -> ->. done. }
        destruct (run_bind_inv _ _ _ _ _ _ H2) as (r & s2 & H3 & H4).
        destruct (run_took _ _ _ _ _ H3) as [l3 Hl3]. destruct (run_took _ _ _ _ _ H4) as [l4 Hl4].
        assert (Hok2 : state_ok s2) by (by eapply run_ok).
        assert (Hb : bits (λ sp sem, J s1 sp sem s2) (p_tokens s1) (p_tokens s2)).
        { eapply (Hsub t'); [|done|exact H3]. cbn. rewrite En. cbn. apply elem_of_list_lookup_2 in Hi.
          apply elem_of_list_In, (in_map fst), elem_of_list_In in Hi. done. }
        eapply bits_trans; [by eapply took_toks|eapply bits_mono; [|exact Hb]|].
        { intros sp m HJ. cbn in HJ. eapply J_mono; [exact Hl1|done|exact Hl4]. }
        assert (Hmade : ∀ x m, value r = Some x → sem = Some m → J s (tree_span x) m s').
        { intros x m Hv ->. exists x. split; [|done]. exists t', f, s1, r, s2, l1, l4. split_and!; [|done..].
          exists n, (DEnum vs). split_and!; [done|done|]. by eapply elem_of_list_lookup_2. }
        destruct r as [x|x es|es], sem as [m|]; try (injection H4 as _ <-; apply bits_refl).
        all: destruct (run_bind_inv _ _ _ _ _ _ H4) as (u & s3 & H5 & H6); injection H6 as _ <-; injection H5 as _ <-; cbn.
        all: eapply bits_apply; [by apply state_cells|]; by eapply Hmade.
    - apply jp_bind; [apply J_mono|apply jp_seq; [apply J_mono|done]|intros; apply Hret].
    - apply Hsub. cbn. set_solver.
    - apply jp_bind; [apply J_mono| |intros; apply Hret]. apply jp_option; [apply J_mono|]. apply Hsub. cbn. set_solver.
    - apply jp_bind; [apply J_mono| |intros; apply Hret]. apply jp_option; [apply J_mono|]. apply Hsub. cbn. set_solver.
    - apply jp_bind; [apply J_mono|apply Hsub; cbn; set_solver|]. intros [x|x es|es]; [..|apply Hret].
      all: apply jp_bind; [apply J_mono|apply jp_get_src|intros; apply Hret].
    - apply jp_bind; [apply J_mono|apply Hsub; cbn; set_solver|]. intros [x|x es|es]; [..|apply Hret].
      all: apply jp_bind; [apply J_mono|apply jp_get_src|intros; apply Hret].
    - apply jp_bind; [apply J_mono| |intros; apply Hret]. apply jp_plus; [apply J_mono|]. apply Hsub. cbn. set_solver.
    - apply jp_bind; [apply J_mono| |intros; apply Hret]. apply jp_option; [apply J_mono|].
      apply jp_plus; [apply J_mono|]. apply Hsub. cbn. set_solver.
    - apply jp_bind; [apply J_mono| |intros; apply Hret]. apply jp_loop; [apply J_mono|]. apply Hsub. cbn. set_solver.
    - apply jp_split; [apply J_mono|apply Hsub; cbn; set_solver..].
    - apply jp_punct; [apply J_mono|apply Hsub; cbn; set_solver..].
    - apply jp_recover; [apply J_mono|apply Hsub; cbn; set_solver..].
  Qed.
End made.
