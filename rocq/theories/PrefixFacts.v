(** Errors start after the longest beginning of a sentence. *)
From Coq Require Import String NArith.
From stdpp Require Import prelude list strings relations.
From Verif Require Import LexModel LexSpec LexFacts SynSetModel TableModel StreamModel StreamSpec StreamFacts
  TypeModel ProduceModel CfgSpec ParseSpec ProgFacts FuelFacts TreeFacts SoundFacts RunFacts InvFacts LookFacts
  CompleteSpec CompleteFacts PrefixSpec EarlyFacts.
Local Open Scope nat_scope.

(** * Laying out tokens *)
Fixpoint flat (w : list tok) : string :=
  match w with [] => "" | x :: r => String.append (snd x) (flat r) end.
Fixpoint lay (p : nat) (w : list tok) : list token :=
  match w with [] => [] | x :: r => Token (Span p (p + String.length (snd x))) (fst x) :: lay (p + String.length (snd x)) r end.
Lemma app_string c a b : String.append (String c a) b = String c (String.append a b).
Proof. done. Qed.
Lemma length_app a b : String.length (String.append a b) = String.length a + String.length b.
Proof. induction a as [|c a IH]; [done|]. rewrite app_string. cbn [String.length Nat.add]. by rewrite IH. Qed.
Lemma app_assoc_s a b c : String.append (String.append a b) c = String.append a (String.append b c).
Proof. induction a as [|x a IH]; [done|]. rewrite !app_string. by rewrite IH. Qed.
Lemma length_pos x : x ≠ ""%string → 0 < String.length x.
Proof. destruct x; [done|]. cbn. lia. Qed.
Lemma span_get_mid a x c : x ≠ ""%string →
  span_get (Span (String.length a) (String.length a + String.length x)) (String.append a (String.append x c)) = Some x.
Proof.
  intros Hx%length_pos. destruct (span_get_spec (Span (String.length a) (String.length a + String.length x)) (String.append a (String.append x c))) as (H & _).
  cbn [sp_lo sp_hi] in H. rewrite !length_app in H. destruct H as (r & -> & Hl & Hg); [lia..|]. f_equal.
  apply string_ext; [lia|]. intros i Hi. rewrite Hg by lia.
  rewrite (Nat.add_comm _ i), <- append_correct2. symmetry. apply append_correct1. lia.
Qed.
Lemma lay_word w : Forall (λ x, snd x ≠ ""%string) w → ∀ a, word (String.append a (flat w)) (lay (String.length a) w) = w.
Proof.
  induction 1 as [|[ty x] w Hx Hw IH]; intros a; [done|]. cbn [flat lay word map fst snd] in *. f_equal.
  - unfold text_of, token_src. cbn [t_span t_ty]. by rewrite span_get_mid.
  - rewrite <- length_app, <- app_assoc_s. apply IH.
Qed.
Lemma lay_spans w : Forall (λ x, snd x ≠ ""%string) w → ∀ p n, p + String.length (flat w) ≤ n → spans_ok p n (map t_span (lay p w)).
Proof.
  induction 1 as [|[ty x] w Hx Hw IH]; intros p n Hn; cbn [flat lay map spans_ok t_span sp_lo sp_hi fst snd] in *; [cbn in Hn; lia|].
  apply length_pos in Hx. rewrite length_app in Hn. split_and!; [lia|lia|]. apply IH. lia.
Qed.
Lemma spans_ok_join p n n' l l' : spans_ok p n l → (∀ sp, last l = Some sp → sp_hi sp ≤ n') → p ≤ n' →
  spans_ok (from_option sp_hi p (last l)) n' l' → spans_ok p n' (l ++ l').
Proof.
  revert p. induction l as [|x l IH]; intros p H Hb Hp Hl'; [done|]. cbn [app spans_ok] in *. destruct H as (H1 & H2 & H3).
  split_and!; [done..|]. rewrite last_cons in Hb, Hl'. apply IH; [done| | |].
  - intros sp E. rewrite E in Hb. auto.
  - destruct (last l) as [y|] eqn:E; [|by apply (Hb x)]. 
    assert (sp_hi x ≤ sp_hi y); [|specialize (Hb y eq_refl); lia].
    apply last_Some_elem_of in E. destruct (spans_ok_in _ _ _ y H3 E) as (? & ? & _). lia.
  - by destruct (last l).
Qed.

(** The input up to [tk], then [w]. *)
Definition src_to (src : string) (b : nat) (w : list tok) : string := String.append (String.substring 0 b src) (flat w).
Definition state_to (s : pst) (l : list token) (w : list tok) (b : nat) : pst :=
  Pst (src_to (p_src s) b w) (map (λ t, RTok (t_ty t) (t_span t)) (l ++ lay b w)) None [] (p_tokens s) [] [].
Lemma state_to_rest s l w b : to_come (λ _, false) (state_to s l w b) = l ++ lay b w.
Proof.
  unfold to_come, state_to. cbn [p_peeked p_evs app]. generalize (l ++ lay b w). clear. intros l.
  assert (raw_tokens (map (λ t, RTok (t_ty t) (t_span t)) l) = l) as ->.
  { induction l as [|[sp ty] l IH]; [done|]. cbn. by rewrite IH. }
  induction l as [|t l IH]; [done|]. rewrite filter_cons_True by done. by rewrite IH.
Qed.
Lemma src_to_same src b w : b ≤ String.length src → same_upto b src (src_to src b w).
Proof.
  intros Hb i Hi. unfold src_to. rewrite <- append_correct1 by (rewrite substring_length; lia).
  symmetry. by apply (substring_get 0 b src i); [|lia].
Qed.
Lemma src_to_length src b w : b ≤ String.length src → String.length (src_to src b w) = b + String.length (flat w).
Proof. intros Hb. unfold src_to. rewrite length_app, substring_length; lia. Qed.

Section prefix.
  Context (extract : nat → bool) (env : denv).
  Notation abs := (abs extract).
  Notation abs0 := (StreamFacts.abs (λ _, false)).

  Lemma state_to_ok s u tk v w : state_ok s → to_come extract s = u ++ tk :: v → Forall (λ x, snd x ≠ ""%string) w →
    state_ok (state_to s (u ++ [tk]) w (sp_hi (t_span tk))) ∧ sp_hi (t_span tk) ≤ String.length (p_src s).
  Proof.
    intros Hok Hu Hw. apply (state_ok_abs extract) in Hok. rewrite aok_eq in Hok.
    change (a_rest (abs s)) with (to_come extract s) in Hok. change (toks (abs s)) with (consumed s) in Hok.
    change (a_src (abs s)) with (p_src s) in Hok. rewrite Hu in Hok.
    assert (sp_hi (t_span tk) ≤ String.length (p_src s)) as Hb.
    { destruct (spans_ok_in _ _ _ (t_span tk) Hok) as (_ & _ & H); [|done]. rewrite !map_app. cbn. set_solver. }
    split; [|done]. unfold state_ok, state_to. cbn [p_tokens p_peeked p_evs p_src app].
    rewrite map_map. change (map (λ t, raw_span (RTok (t_ty t) (t_span t))) ((u ++ [tk]) ++ lay (sp_hi (t_span tk)) w))
      with (map t_span ((u ++ [tk]) ++ lay (sp_hi (t_span tk)) w)).
    assert (map (λ c, t_span (c_tok c)) (p_tokens s) = map t_span (consumed s)) as -> by (unfold consumed; by rewrite map_map).
    rewrite map_app, (assoc_L (++)), <- (map_app _ (consumed s)).
    assert (Hlast : last (map t_span (consumed s ++ u ++ [tk])) = Some (t_span tk)).
    { rewrite (assoc_L (++)), map_app. cbn. apply last_snoc. }
    rewrite src_to_length by done.
    eapply (spans_ok_join 0 (String.length (p_src s))).
    - apply (spans_ok_prefix _ _ _ (map t_span v)). rewrite <- map_app.
      rewrite <- !(assoc_L (++)). exact Hok.
    - rewrite Hlast. intros sp [= <-]. lia.
    - lia.
    - rewrite Hlast. cbn. apply lay_spans; [done|lia].
  Qed.

  Lemma state_to_sync s u tk v w : state_ok s → to_come extract s = u ++ tk :: v → Forall (λ x, snd x ≠ ""%string) w →
    sync tk (abs s) (abs0 (state_to s (u ++ [tk]) w (sp_hi (t_span tk)))).
  Proof.
    intros Hok Hu Hw. destruct (state_to_ok s u tk v w Hok Hu Hw) as [Hok2 Hb]. split.
    - by apply state_ok_abs.
    - by apply state_ok_abs.
    - done.
    - exists u, v, (lay (sp_hi (t_span tk)) w). split; [exact Hu|].
      change (to_come (λ _, false) (state_to s (u ++ [tk]) w (sp_hi (t_span tk))) = u ++ tk :: lay (sp_hi (t_span tk)) w).
      rewrite state_to_rest, <- (assoc_L (++)). done.
    - intros sp Hsp. change (span_get sp (p_src s) = span_get sp (src_to (p_src s) (sp_hi (t_span tk)) w)).
      eapply span_get_same; [by apply src_to_same|done| |done]. rewrite src_to_length by done. lia.
  Qed.
  Lemma word_same n a b l : same_upto n a b → n ≤ String.length a → n ≤ String.length b →
    (∀ t, t ∈ l → sp_hi (t_span t) ≤ n) → word a l = word b l.
  Proof.
    intros Hs Ha Hb Hl. unfold word. apply map_ext_in. intros t Ht%elem_of_list_In. f_equal. unfold text_of, token_src.
    by rewrite (span_get_same n a b) by auto.
  Qed.
  Lemma state_to_word s u tk v w : state_ok s → to_come extract s = u ++ tk :: v → Forall (λ x, snd x ≠ ""%string) w →
    word (p_src (state_to s (u ++ [tk]) w (sp_hi (t_span tk)))) (to_come (λ _, false) (state_to s (u ++ [tk]) w (sp_hi (t_span tk)))) =
    word (p_src s) (u ++ [tk]) ++ w.
  Proof.
    intros Hok Hu Hw. destruct (state_to_ok s u tk v w Hok Hu Hw) as [Hok2 Hb]. rewrite state_to_rest.
    unfold word at 1. rewrite map_app. change (word (p_src (state_to s (u ++ [tk]) w (sp_hi (t_span tk)))) (u ++ [tk]) ++
      word (p_src (state_to s (u ++ [tk]) w (sp_hi (t_span tk)))) (lay (sp_hi (t_span tk)) w) = word (p_src s) (u ++ [tk]) ++ w).
    f_equal.
    - symmetry. eapply (word_same (sp_hi (t_span tk))); [by apply src_to_same|done| |].
      + cbn [p_src state_to]. rewrite src_to_length by done. lia.
      + apply (state_ok_abs extract) in Hok. apply aok_pos in Hok as [Hsp _].
        change (a_rest (abs s)) with (to_come extract s) in Hsp. rewrite Hu in Hsp.
        intros t Ht. apply elem_of_app in Ht as [Ht|Ht]; [|by apply elem_of_list_singleton in Ht as ->].
        apply elem_of_list_split in Ht as (u1 & u2 & ->). rewrite <- (assoc_L (++)) in Hsp. apply spans_ok_pos in Hsp as [_ Hsp].
        cbn in Hsp. destruct Hsp as (_ & _ & Hsp).
        destruct (spans_ok_in _ _ _ (t_span tk) Hsp) as (? & ? & _); [|lia]. rewrite map_app. cbn. set_solver.
    - cbn [p_src state_to]. unfold src_to. assert (H := lay_word w Hw (String.substring 0 (sp_hi (t_span tk)) (p_src s))).
      by rewrite substring_length in H by lia.
  Qed.

  (** Before the end of [tk] there are no errors if another input with this beginning has none at all. *)
  Lemma same_beginning first follow jump t tk u v1 v2 s1 s2 extract2 f1 f2 r1 s1' r2 s2' : filled env t → state_ok s1 → state_ok s2 →
    p_tokens s1 = p_tokens s2 → to_come extract s1 = u ++ tk :: v1 → to_come extract2 s2 = u ++ tk :: v2 →
    same_upto (sp_hi (t_span tk)) (p_src s1) (p_src s2) →
    run extract (produce env first follow jump f1 t) s1 = ODone r1 s1' →
    run extract2 (produce env first follow jump f2 t) s2 = ODone r2 s2' →
    errors_of r2 = [] → ∀ e, e ∈ errors_of r1 → sp_hi (t_span tk) ≤ sp_lo (e_span e).
  Proof.
    intros Hf Ok1 Ok2 Hd H1 H2 Hsrc E1 E2 He e Hin.
    assert (Hb : ∀ ex s u v, state_ok s → to_come ex s = u ++ tk :: v → sp_hi (t_span tk) ≤ String.length (p_src s)).
    { intros ex s u' v Hok Hu. apply (state_ok_abs ex) in Hok. apply aok_pos in Hok as [Hsp _].
      change (a_rest (StreamFacts.abs ex s)) with (to_come ex s) in Hsp. rewrite Hu in Hsp.
      destruct (spans_ok_in _ _ _ (t_span tk) Hsp) as (_ & _ & H); [|done]. rewrite map_app. cbn. set_solver. }
    assert (Hs : sync tk (abs s1) (StreamFacts.abs extract2 s2)).
    { split; [by apply state_ok_abs..|done| |].
      - exists u, v1, v2. done.
      - intros sp Hsp. eapply span_get_same; [exact Hsrc|by eapply Hb|by eapply Hb|done]. }
    assert (F1 : run extract (produce env first follow jump (f1 + f2) t) s1 = ODone r1 s1').
    { rewrite <- E1. apply le_run; [apply produce_le; lia|by rewrite E1]. }
    assert (F2 : run extract2 (produce env first follow jump (f1 + f2) t) s2 = ODone r2 s2').
    { rewrite <- E2. apply le_run; [apply produce_le; lia|by rewrite E2]. }
    apply run_done in F1, F2.
    assert (H := early_two tk env first follow jump (f1 + f2) t _ _ _ _ _ _ Hf Hs F1 F2 He).
    unfold early in H. rewrite Exists_exists in H. apply Nat.nlt_ge. intros Hlt. apply H. eauto.
  Qed.

  Section root.
    Context (root : ty) (md : metadata prod) (Hacc : accepted env root md) (Hreg : regular env root).
    Lemma no_false_alarm s u tk v f r s' : state_ok s → to_come extract s = u ++ tk :: v →
      viable env root (word (p_src s) (u ++ [tk])) →
      run extract (produce_md env md f root) s = ODone r s' →
      ∀ e, e ∈ errors_of r → sp_hi (t_span tk) ≤ sp_lo (e_span e).
    Proof using Hacc Hreg.
      intros Hok Hu (w & Hw & Hl) Hr. destruct (state_to_ok s u tk v w Hok Hu Hw) as [Hok2 Hb].
      assert (Hlang := Hl). rewrite <- (state_to_word s u tk v w Hok Hu Hw) in Hlang.
      set (s2 := state_to s (u ++ [tk]) w (sp_hi (t_span tk))) in *.
      assert (Hok' := state_ok_abs (λ _, false) _ Hok2). apply aok_pos in Hok' as [Hsp _].
      destruct (lang_parses env (p_src s2) root _ Hlang (end_of (p_tokens s2)) (to_come (λ _, false) s2)) as [x Hx]; [by destruct Hreg|done|exact Hsp|].
      assert (Hacc' := Hacc). destruct Hacc' as (regs & iter & Hrg & Hperm & Hmeta).
      destruct (root_complete_ll1 (λ _, false) env root md regs Hacc Hrg (reg_filled _ _ Hreg) (reg_enums _ _ Hreg) (reg_delims _ _ Hreg) (reg_ll1 _ _ Hreg _ Hrg)
        (reg_punct _ _ Hreg _ Hrg) s2 x (reg_loop _ _ Hreg) Hok2 Hx) as (f0 & s2' & _ & _ & H3).
      eapply (same_beginning _ _ _ root tk u v (lay (sp_hi (t_span tk)) w) s s2 (λ _, false)); [by destruct Hreg|done|done|done|done| | |exact Hr|by apply (H3 f0)|done].
      - unfold s2. rewrite state_to_rest, <- (assoc_L (++)). done.
      - by apply src_to_same.
    Qed.
    Lemma no_false_alarm_parse s u tk v f o s' : state_ok s → to_come extract s = u ++ tk :: v →
      viable env root (word (p_src s) (u ++ [tk])) →
      run extract (parse env f root (inr md)) s = ODone o s' →
      ∃ es, p_errors s' = p_errors s ++ es ∧
        ∀ e, e ∈ es → e_kind e = UnexpectedCharacters ∨ sp_hi (t_span tk) ≤ sp_lo (e_span e).
    Proof using Hacc Hreg.
      intros Hok Hu Hv (x & -> & H)%parse_run.
      destruct (parse_with_run _ _ _ _ _ _ _ _ _ _ H) as (r & s1 & H1 & -> & Hs & He & Habs).
      destruct (produce_run_errors _ _ _ _ _ _ _ _ _ _ H1) as (bad & Hb1 & Hb2).
      exists (map (λ sp, PErr sp UnexpectedCharacters) bad ++ (unres r).2). split.
      { by rewrite He, Hb2, (assoc_L (++)). }
      intros e [He'|He']%elem_of_app.
      - apply elem_of_list_fmap in He' as (sp & -> & Hsp). by left.
      - right. by eapply no_false_alarm.
    Qed.
  End root.
End prefix.
