(** Slices never cut a character. *)
From Coq Require Import String Ascii NArith.
From stdpp Require Import prelude list strings relations.
From Verif Require Import LexModel LexSpec LexFacts SynSetModel TableModel StreamModel StreamSpec StreamFacts
  TypeModel ProduceModel CfgSpec ParseSpec ProgFacts TreeFacts SoundFacts RunFacts InvFacts LookFacts MdFacts ParseFacts NodeFacts
  DebugModel Utf8Model Utf8Spec.
Local Open Scope nat_scope.

Lemma boundary_0 src : char_boundary src 0 = true.
Proof. done. Qed.
Lemma get_length src : String.get (String.length src) src = None.
Proof. induction src; done. Qed.
Lemma boundary_end src : char_boundary src (String.length src) = true.
Proof. unfold char_boundary. rewrite get_length, Nat.eqb_refl. by rewrite orb_true_r. Qed.
Lemma span_get_chars sp src : char_boundary src (sp_lo sp) = true → char_boundary src (sp_hi sp) = true →
  span_get_c sp src = span_get sp src.
Proof.
  intros H1 H2. unfold span_get_c, span_get. destruct (sp_hi sp <=? sp_lo sp); [done|]. cbv zeta.
  destruct (_ <? sp_lo sp); [done|].
  assert (char_boundary src (Nat.min (sp_hi sp) (String.length src)) = true) as ->; [|by rewrite H1].
  destruct (Nat.min_spec (sp_hi sp) (String.length src)) as [[_ ->]|[_ ->]]; [done|apply boundary_end].
Qed.

(** The same for the abstract state. *)
Definition achars (s : ast) : Prop := ∀ t, t ∈ toks s ++ a_rest s →
  char_boundary (a_src s) (sp_lo (t_span t)) = true ∧ char_boundary (a_src s) (sp_hi (t_span t)) = true.
Lemma achars_adv s l s' : adv s l s' → achars s → achars s'.
Proof.
  intros [A B C] H t Ht. rewrite A. apply H. rewrite B in Ht. rewrite C. by rewrite (assoc_L (++)).
Qed.
Lemma edge_chars s n : achars s → edge s n → char_boundary (a_src s) n = true.
Proof.
  intros H [->|[->|(t & Ht & [->| ->])]]; [done|apply boundary_end|by apply H|by apply H].
Qed.

Lemma raw_tokens_span t evs : t ∈ raw_tokens evs → t_span t ∈ map raw_span evs.
Proof.
  induction evs as [|[ty sp|sp] evs IH]; cbn; [by intros ?%elem_of_nil|..].
  - intros [->|H]%elem_of_cons; [by left|right; auto].
  - intros H. right. auto.
Qed.

Section run.
  Variable extract : nat → bool.
  Notation abs := (abs extract).

  Lemma chars_abs s : chars_ok s → achars (abs s).
  Proof.
    intros H t Ht. change (a_src (abs s)) with (p_src s). apply H. unfold toks in Ht. cbn in Ht.
    apply elem_of_app in Ht as [Ht|Ht].
    - apply elem_of_app. left. apply elem_of_list_fmap in Ht as (c & -> & Hc).
      apply elem_of_list_fmap. by exists c.
    - apply elem_of_app. right. unfold stream in Ht. apply elem_of_app in Ht as [Ht|Ht]; apply elem_of_app.
      + left. destruct (p_peeked s); [|by apply elem_of_nil in Ht]. apply elem_of_list_singleton in Ht as ->. by left.
      + right. unfold keep in Ht. apply elem_of_list_filter in Ht as [_ Ht]. by apply raw_tokens_span.
  Qed.

  Lemma wps_run_c {A} (m : M A) s Q : wps m (abs s) Q → achars (abs s) → run_c extract m s = run extract m s.
  Proof.
    revert s. induction m as [| |k IH|t k IH|k IH|k IH|k IH|sp k IH|sp sem k IH|es k IH];
      intros s Hw Hc; cbn [wps run run_c] in *.
    - done.
    - done.
    - apply IH; rewrite ?abs_fill; [|done]. by destruct (fill_spec extract s) as (_ & -> & _).
    - destruct Hw as (Hh & x & Hx & Hw). unfold token_src in Hx. change (a_src (abs s)) with (p_src s) in Hx.
      rewrite span_get_chars, Hx.
      + unfold token_src. rewrite Hx. by apply IH.
      + apply Hc. apply elem_of_app. right. destruct (a_rest (abs s)); [done|]. injection Hh as ->. by left.
      + apply Hc. apply elem_of_app. right. destruct (a_rest (abs s)); [done|]. injection Hh as ->. by left.
    - assert (Hr := run_abs extract consume s). unfold consume in Hr. cbn [run arun] in Hr.
      destruct (take_peeked (fill extract s)) as [t s1]. cbn [run abs_out] in Hr.
      assert (t = head (a_rest (abs s)) ∧ abs s1 = pop (abs s)) as [-> Ha].
      { unfold pop. revert Hr. destruct (a_rest (abs s)); intros Hr; split; cbn [head hd_error]; congruence. }
      apply IH; rewrite Ha; [done|]. eapply achars_adv; [apply pop_adv|done].
    - apply IH; [exact Hw|done].
    - apply IH; rewrite ?abs_fill; [|done].
      assert (Hr := run_abs extract cur_span s). unfold cur_span in Hr. cbn [run arun abs_out] in Hr.
      injection Hr as Hr _. by rewrite Hr.
    - destruct Hw as ((_ & E1 & E2) & x & Hx & Hw). change (a_src (abs s)) with (p_src s) in Hx.
      rewrite span_get_chars, Hx; [by apply IH|..].
      + by apply (edge_chars (abs s)).
      + by apply (edge_chars (abs s)).
    - apply IH; [exact Hw|]. exact (achars_adv _ _ _ (mark_adv (abs s) sp sem) Hc).
    - apply IH; done.
  Qed.

  Lemma chars_run {A} (m : M A) s a s' : chars_ok s → run extract m s = ODone a s' → chars_ok s'.
  Proof.
    intros Hc Hr. assert (Ha := chars_abs s Hc). apply run_conserves in Hr as [H1 H2 _ (used & H4) _ _ _].
    intros sp Hsp. rewrite H1. apply elem_of_app in Hsp as [Hsp|[Hsp|Hsp]%elem_of_app].
    - apply elem_of_list_fmap in Hsp as (c & -> & Hin). apply Ha. unfold toks. cbn.
      rewrite <- H2. apply elem_of_app. left. apply elem_of_list_fmap. by exists c.
    - destruct (p_peeked s') as [t|] eqn:E; [|by apply elem_of_nil in Hsp]. apply elem_of_list_singleton in Hsp as ->.
      apply Ha. unfold toks. cbn. rewrite <- H2. apply elem_of_app. right. unfold stream. rewrite E. by left.
    - apply Hc. rewrite H4, map_app. apply elem_of_app. right. apply elem_of_app. right. apply elem_of_app. by right.
  Qed.

  Variable env : denv.
  Lemma run_c_bind {A B} (m : M A) (f : A → M B) s :
    run_c extract (m ≫= f) s =
    match run_c extract m s with OFuel => OFuel | OCrash => OCrash | ODone a s' => run_c extract (f a) s' end.
  Proof.
    rewrite bindM_eq. revert s.
    induction m as [| |k IH|t k IH|k IH|k IH|k IH|sp k IH|sp sem k IH|es k IH]; intros s;
      cbn [bindM run_c]; auto.
    - destruct (span_get_c (t_span t) (p_src s)); auto.
    - destruct (take_peeked (fill extract s)); auto.
    - destruct (span_get_c sp (p_src s)); auto.
  Qed.

  Lemma produce_chars first follow jump f t s : state_ok s → filled env t → chars_ok s →
    run_c extract (produce env first follow jump f t) s = run extract (produce env first follow jump f t) s.
  Proof. intros Hok Hf Hc. eapply wps_run_c; [by apply produce_wps|by apply chars_abs]. Qed.

  Lemma parse_chars t md f s : state_ok s → filled env t → chars_ok s →
    run_c extract (parse env f t md) s = run extract (parse env f t md) s.
  Proof.
    intros Hok Hf Hc. destruct md as [e|md]; [done|]. unfold parse, parse_with.
    rewrite !run_c_bind, !run_bind, produce_chars by done.
    destruct (run extract _ s) as [| |[x|x es|es] s1]; done.
  Qed.

  Lemma hull_in l h : hull l = Some h → ∃ a b, a ∈ l ∧ b ∈ l ∧ sp_lo h = sp_lo a ∧ sp_hi h = sp_hi b.
  Proof.
    destruct l as [|a l]; [done|]. intros [= <-]. exists a.
    destruct (last (a :: l)) as [b|] eqn:E; [|by apply last_None in E].
    exists b. cbn [default sp_lo sp_hi]. split_and!; [by left|by apply last_Some_elem_of|done|done].
  Qed.
  Lemma raw_blocks_in acc evs b : b ∈ raw_blocks acc evs → ∀ sp, sp ∈ b.1 → sp ∈ acc ∨ sp ∈ map raw_span evs.
  Proof.
    revert acc. induction evs as [|[ty sp0|sp0] evs IH]; intros acc; cbn [raw_blocks map].
    - intros ->%elem_of_list_singleton. auto.
    - intros [->|Hb]%elem_of_cons sp Hsp; [auto|]. destruct (IH [] Hb sp Hsp) as [?%elem_of_nil|?]; [done|].
      right. by right.
    - intros Hb sp Hsp. destruct (IH _ Hb sp Hsp) as [[?| ->%elem_of_list_singleton]%elem_of_app|?]; [by left|..].
      + right. by left.
      + right. by right.
  Qed.
  Lemma bad_text_chars s sp : chars_ok s → sp ∈ bad_text (p_evs s) →
    char_boundary (p_src s) (sp_lo sp) = true ∧ char_boundary (p_src s) (sp_hi sp) = true.
  Proof.
    intros Hc Hsp. unfold bad_text in Hsp. apply elem_of_list_omap in Hsp as (b & Hb & Hh).
    apply hull_in in Hh as (x & y & Hx & Hy & -> & ->).
    split; apply Hc; apply elem_of_app; right; apply elem_of_app; right.
    - by destruct (raw_blocks_in _ _ _ Hb x Hx) as [?%elem_of_nil|?].
    - by destruct (raw_blocks_in _ _ _ Hb y Hy) as [?%elem_of_nil|?].
  Qed.
  Lemma boundary_chars s n : chars_ok s → boundary extract s n → char_boundary (p_src s) n = true.
  Proof. intros Hc H. apply (edge_chars (abs s)); [by apply chars_abs|exact H]. Qed.

  Lemma parse_messages_chars ty_name t md f s o s' : filled env t → state_ok s → chars_ok s →
    run extract (parse env f t md) s = ODone o s' →
    ∃ es, p_errors s' = p_errors s ++ es ∧ ∀ e, e ∈ es → message_c ty_name e (p_src s) = message ty_name e (p_src s).
  Proof.
    intros Hf Hok Hc. destruct md as [e|md].
    { intros [= _ <-]. exists []. split; [by rewrite app_nil_r|]. by intros e' ?%elem_of_nil. }
    intros (x & -> & H)%parse_run.
    destruct (parse_with_run _ _ _ _ _ _ _ _ _ _ H) as (r & s1 & H1 & -> & Hs & He & Habs).
    destruct (produce_run_errors _ _ _ _ _ _ _ _ _ _ H1) as (bad & Hb1 & Hb2).
    exists (map (λ sp, PErr sp UnexpectedCharacters) bad ++ (unres r).2). split.
    { by rewrite He, Hb2, (assoc_L (++)). }
    intros e He'. assert (Hsp : char_boundary (p_src s) (sp_lo (e_span e)) = true ∧ char_boundary (p_src s) (sp_hi (e_span e)) = true).
    { apply elem_of_app in He' as [He'|He'].
      - apply elem_of_list_fmap in He' as (sp & -> & Hsp). cbn. apply bad_text_chars; [done|].
        assert (Hv := cv_invalid _ _ _ (run_conserves _ _ _ _ _ H1)). rewrite Hb1, <- (assoc_L (++)) in Hv.
        apply app_inv_head in Hv. change (bad_text (p_evs s)) with (invalids (p_evs s)). rewrite <- Hv. set_solver.
      - destruct (error_facts _ _ _ _ _ _ _ _ _ _ Hok Hf H1 e He') as (_ & B1 & B2 & _).
        split; by eapply boundary_chars. }
    unfold message_c. destruct (e_kind e) eqn:Ek; try done; unfold message; rewrite Ek, span_get_chars; tauto.
  Qed.

  Lemma nodes_chars first follow jump f t s r s' x y : state_ok s → filled env t → chars_ok s →
    run extract (produce env first follow jump f t) s = ODone r s' → value r = Some x → y ∈ nodes x →
    span_get_c (tree_span y) (p_src s) = span_get (tree_span y) (p_src s).
  Proof.
    intros Hok Hf Hc Hr Hx Hy. destruct (node_boundary _ _ _ _ _ _ _ _ _ _ Hok Hf Hr x y Hx Hy) as [B1 B2].
    apply span_get_chars; by eapply boundary_chars.
  Qed.

  Lemma remaining_chars s : chars_ok s → remaining_c extract s = remaining extract s.
  Proof.
    intros Hc. unfold remaining_c, remaining. cbv zeta. f_equal.
    destruct (fill_spec extract s) as ([H1 _ _ _ _ _ _] & Hp & _).
    assert (char_boundary (p_src (fill extract s)) (sp_lo (match p_peeked (fill extract s) with Some t => t_span t | None => eof_span (p_src (fill extract s)) end)) = true) as ->;
      [|by rewrite andb_true_r].
    rewrite Hp, H1. destruct (stream extract s) as [|t r] eqn:E; cbn [head hd_error].
    - apply boundary_end.
    - apply (chars_abs s Hc). apply elem_of_app. right. cbn. rewrite E. by left.
  Qed.
End run.
