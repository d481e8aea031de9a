(** Lemmas about the item given to [derive_lexicon]. *)
From Coq Require Import String NArith.
From stdpp Require Import prelude list strings.
From Verif Require Import LexModel MacroModel MacroSpec MacroFacts SynMacroModel SynMacroSpec SynMacroFacts LexItemModel LexItemSpec.
Local Open Scope nat_scope.

Definition lroot_ok (ms : list lroot) : Prop := LrOther ∉ ms ∧ LrIgnore None ∉ ms ∧ at_most_one is_ignore ms.
Lemma read_lroot_ok ms ig tp :
  (∃ r, read_lroot ms ig tp = inr r) ↔ lroot_ok ms ∧ (is_Some ig → ∀ m, m ∈ ms → ¬ is_ignore m).
Proof.
  revert ig tp. induction ms as [|m ms IH]; intros ig tp; cbn [read_lroot].
  - split; [|eauto]. intros _. split; [split_and!; try apply not_elem_of_nil; apply at_most_one_nil|].
    by intros _ m ?%elem_of_nil.
  - unfold lroot_ok. rewrite !not_elem_of_cons, amo_cons'.
    assert (Hi : ∀ x, is_ignore (LrIgnore x)) by (by eexists).
    assert (Ht : ¬ is_ignore LrTermParse) by (by intros [??]).
    destruct m as [|rs|].
    + rewrite IH. unfold lroot_ok. split.
      * intros [(H1 & H2 & H3) H4]. split_and!; try done. intros Hs m [->|Hm]%elem_of_cons; auto.
      * intros [([_ H1] & [_ H2] & [_ H3]) H4]. split_and!; try done. intros Hs m Hm. apply H4; [done|by right].
    + destruct ig as [ig|].
      { split; [by intros [r Hr]|]. intros [_ H]. by destruct (H (mk_is_Some _ _ eq_refl) (LrIgnore rs) (elem_of_list_here _ _)). }
      destruct rs as [rs|]; [|split; [by intros [r Hr]|intuition done]].
      rewrite IH. unfold lroot_ok. split.
      * intros [(H1 & H2 & H3) H4]. specialize (H4 (mk_is_Some _ _ eq_refl)). split_and!; try done. by intros [??].
      * intros [([_ H1] & [_ H2] & [H5 H3]) _]. split_and!; try done. intros _ m Hm. by apply H5.
    + split; [by intros [r Hr]|]. intuition done.
Qed.
Lemma read_lroot_val ms ig tp ig' tp' : read_lroot ms ig tp = inr (ig', tp') →
  default [] ig' = default [] ig ++ ignored ms ∧ (tp' = true ↔ tp = true ∨ LrTermParse ∈ ms).
Proof.
  revert ig tp. induction ms as [|m ms IH]; intros ig tp; cbn [read_lroot].
  - intros [= <- <-]. rewrite app_nil_r. split; [done|]. split; [by left|]. intros [H|H%elem_of_nil]; done.
  - destruct m as [|rs|]; [| |done].
    + intros [H1 H2]%IH. split; [done|]. rewrite H2. rewrite elem_of_cons. naive_solver.
    + destruct ig as [ig|]; [done|]. destruct rs as [rs|]; [|done]. intros [H1 H2]%IH. split; [done|].
      rewrite H2, elem_of_cons. naive_solver.
Qed.

Lemma parse_lroot_entries l : (∃ r, parse_lroot (tele l) = inr r) → ∃ ms, entries l ms.
Proof.
  intros [r Hr]. unfold parse_lroot in Hr. destruct (tele l) as [|[ms|] [|y t]] eqn:E; cbn in Hr; try done.
  - exists []. by left.
  - exists ms. by right.
Qed.
Lemma parse_lroot_eq l ms : entries l ms →
  parse_lroot (tele l) = match read_lroot ms None false with inl e => inl e | inr r => inr (default [] (fst r), snd r) end.
Proof. unfold parse_lroot. intros [[E ->]|E]; rewrite E; done. Qed.
Lemma parse_lroot_ok l : (∃ r, parse_lroot (tele l) = inr r) ↔ ∃ ms, good_lroot l ms.
Proof.
  split.
  - intros H. destruct (parse_lroot_entries l H) as [ms Hms]. exists ms. split; [done|].
    rewrite (parse_lroot_eq _ _ Hms) in H. destruct H as [r Hr].
    destruct (read_lroot ms None false) as [|x] eqn:E; [done|]. apply (read_lroot_ok ms None false). eauto.
  - intros (ms & Hms & Hok). rewrite (parse_lroot_eq _ _ Hms).
    destruct (proj2 (read_lroot_ok ms None false)) as [r Hr].
    { split; [exact Hok|]. by intros [??]. }
    rewrite Hr. eauto.
Qed.
Lemma entries_one {A} (l : list (attr A)) ms ms' : entries l ms → entries l ms' → ms = ms'.
Proof. intros [[E ->]|E] [[E' ->]|E']; congruence. Qed.
Lemma parse_lroot_val l ms ig tp : entries l ms → parse_lroot (tele l) = inr (ig, tp) →
  ig = ignored ms ∧ (tp = true ↔ LrTermParse ∈ ms).
Proof.
  intros Hms. rewrite (parse_lroot_eq _ _ Hms). destruct (read_lroot ms None false) as [|[ig' tp']] eqn:E; [done|].
  intros [= <- <-]. apply read_lroot_val in E as [-> H]. split; [done|]. cbn. rewrite H. naive_solver.
Qed.

Lemma strip_lvariant_eq v : strip_lvariant v = (clean_lvariant v, tele (lv_attrs v)).
Proof. unfold strip_lvariant. by rewrite strip_take_eq. Qed.
Lemma taken_written v : taken_variant (strip_lvariant v) = written v.
Proof.
  rewrite strip_lvariant_eq. unfold taken_variant, written. cbn. f_equal.
  induction (tele (lv_attrs v)) as [|t l IH]; [done|]. cbn. by rewrite IH.
Qed.

Section Lexicon.
  Variable rx_valid : string → bool.
  Variable rx_find : string → string → option (nat * nat).
  Notation expand_lexicon := (expand_lexicon rx_valid rx_find).
  Notation lex_output := (lex_output rx_valid rx_find).

  Lemma expand_lexicon_eq it : expand_lexicon it =
    if li_generics it then (it, inl LGenerics) else
    match parse_lroot (tele (li_attrs it)) with
    | inl e => (LItem false (foreign (li_attrs it)) (li_data it), inl e)
    | inr (ignore, tp) =>
        match li_data it with
        | LdOther => (LItem false (foreign (li_attrs it)) LdOther, inl LNotEnum)
        | LdEnum vs => (LItem false (foreign (li_attrs it)) (LdEnum (map clean_lvariant vs)),
             lex_output ignore tp (map lv_name vs) (map written vs))
        end
    end.
  Proof.
    unfold LexItemModel.expand_lexicon. destruct (li_generics it); [done|]. rewrite strip_take_eq.
    destruct (parse_lroot _) as [|[ig tp]]; [done|]. destruct (li_data it) as [vs|]; [|done].
    assert (map fst (map strip_lvariant vs) = map clean_lvariant vs) as ->.
    { rewrite map_map. apply map_ext. intros v. by rewrite strip_lvariant_eq. }
    assert (map (lv_name ∘ fst) (map strip_lvariant vs) = map lv_name vs) as ->.
    { rewrite map_map. apply map_ext. intros v. by rewrite strip_lvariant_eq. }
    assert (map taken_variant (map strip_lvariant vs) = map written vs) as ->.
    { rewrite map_map. apply map_ext. intros v. by rewrite taken_written. }
    done.
  Qed.
  Lemma expand_width d a : expand rx_valid rx_find d = inr a → is_Some (repr_width (length (d_variants d))).
  Proof.
    unfold expand. destruct (check_ignore _ _ _); [done|]. destruct (check_enum_precondition _); [done|].
    destruct (repr_width _); [|done]. eauto.
  Qed.
  Lemma lex_output_val ig tp names vs o : lex_output ig tp names vs = inr o ↔
    ∃ a w, expand rx_valid rx_find (LexDecl ig vs) = inr a ∧ repr_width (length vs) = Some w ∧
      o = LOutput (zip names (seq 0 (length names))) w ig a (if tp then ac_terms a else []).
  Proof.
    unfold LexItemModel.lex_output. destruct (expand _ _ _) as [e|a] eqn:E; [split; [done|naive_solver]|].
    destruct (repr_width (length vs)) as [w|]; [|split; [done|naive_solver]]. split; [|naive_solver].
    intros [= <-]. eauto.
  Qed.

  Lemma lexicon_accepts it : (∃ o, snd (expand_lexicon it) = inr o) ↔
    li_generics it = false ∧ ∃ vs ms, li_data it = LdEnum vs ∧ good_lroot (li_attrs it) ms ∧
      good_decl rx_valid rx_find (LexDecl (ignored ms) (map written vs)).
  Proof.
    rewrite expand_lexicon_eq. destruct (li_generics it).
    { split; [by intros [o Ho]|]. by intros [? _]. }
    destruct (parse_lroot (tele (li_attrs it))) as [e|[ig tp]] eqn:E.
    { split; [by intros [o Ho]|]. intros (_ & vs & ms & _ & H & _).
      destruct (proj2 (parse_lroot_ok (li_attrs it))) as [r Hr]; [eauto|]. congruence. }
    assert (∃ ms, good_lroot (li_attrs it) ms) as [ms Hms] by (apply parse_lroot_ok; eauto).
    destruct (parse_lroot_val _ ms _ _ (proj1 Hms) E) as [-> _].
    destruct (li_data it) as [vs|].
    - cbn [snd]. split.
      + intros [o (a & w & H & _)%lex_output_val]. split; [done|]. exists vs, ms. split_and!; try done.
        apply accept_iff. eauto.
      + intros (_ & vs' & ms' & [= <-] & H & Hg). rewrite (entries_one _ _ _ (proj1 H) (proj1 Hms)) in Hg.
        apply accept_iff in Hg as [a Ha]. assert (is_Some (repr_width (length (map written vs)))) as [w Hw] by (by apply expand_width in Ha).
        eexists. apply lex_output_val. eauto.
    - split; [by intros [o Ho]|]. by intros (_ & vs & ms' & H & _).
  Qed.

  Lemma lexicon_output it o vs ms : snd (expand_lexicon it) = inr o → li_data it = LdEnum vs → entries (li_attrs it) ms →
    expand rx_valid rx_find (LexDecl (ignored ms) (map written vs)) = inr (lo_acc o) ∧
    lo_skip o = ignored ms ∧
    length (lo_enum o) = length vs ∧
    (∀ i v, vs !! i = Some v → lo_enum o !! i = Some (lv_name v, i)) ∧
    repr_width (length vs) = Some (lo_width o) ∧
    (∀ t, t ∈ lo_roots o ↔ LrTermParse ∈ ms ∧ t ∈ ac_terms (lo_acc o)).
  Proof.
    rewrite expand_lexicon_eq. intros H Hd Hms. destruct (li_generics it); [done|].
    destruct (parse_lroot (tele (li_attrs it))) as [e|[ig tp]] eqn:E; [done|].
    destruct (parse_lroot_val _ ms _ _ Hms E) as [-> Htp]. rewrite Hd in H. cbn [snd] in H.
    apply lex_output_val in H as (a & w & Ha & Hw & ->). cbn. rewrite map_length in Hw. split_and!; try done.
    - rewrite zip_with_length, seq_length, map_length. lia.
    - intros i v Hv. apply lookup_zip_with_Some. exists (lv_name v), i. split; [done|]. split.
      + rewrite list_lookup_fmap, Hv. done.
      + apply lookup_seq. split; [done|]. rewrite map_length. by eapply lookup_lt_Some.
    - intros t. destruct tp.
      + naive_solver.
      + split; [by intros ?%elem_of_nil|]. intros [Ht _]. by apply Htp in Ht.
  Qed.

  Lemma tele_bare {A} (l : list (attr A)) : tele (bare_attrs l) = tele l.
  Proof. unfold bare_attrs. induction (tele l) as [|x t IH]; [done|]. cbn. f_equal. exact IH. Qed.
  Lemma lexicon_drops it : snd (expand_lexicon (bare_item it)) = snd (expand_lexicon it).
  Proof.
    rewrite !expand_lexicon_eq. destruct it as [g l d]. unfold bare_item. cbn [li_generics li_attrs li_data]. destruct g; [done|]. rewrite tele_bare.
    destruct (parse_lroot (tele l)) as [|[ig tp]]; [done|]. destruct d as [vs|]; [|done]. cbn [snd]. f_equal.
    - rewrite map_map. by apply map_ext.
    - rewrite map_map. apply map_ext. intros v. unfold written, bare_variant. cbn [lv_attrs lv_unit]. by rewrite tele_bare.
  Qed.
  Lemma lexicon_refused it e : snd (expand_lexicon it) = inl e →
    fst (expand_lexicon it) = clean_litem it ∨
    (e = LGenerics ∧ fst (expand_lexicon it) = it) ∨
    ((¬ ∃ ms, good_lroot (li_attrs it) ms) ∧ fst (expand_lexicon it) = LItem (li_generics it) (foreign (li_attrs it)) (li_data it)).
  Proof.
    rewrite !expand_lexicon_eq. unfold clean_litem. destruct (li_generics it).
    { intros [= <-]. auto. }
    destruct (parse_lroot (tele (li_attrs it))) as [e'|[ig tp]] eqn:E.
    { intros _. right. right. split; [|done]. intros [r Hr]%parse_lroot_ok. congruence. }
    intros _. left. by destruct (li_data it).
  Qed.
End Lexicon.
