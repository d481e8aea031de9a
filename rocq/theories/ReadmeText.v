(** The README's parsers on texts: lemmas. *)
From Coq Require Import String Ascii.
From stdpp Require Import prelude list strings.
From Verif Require Import LexModel LexSpec SynSetModel MacroModel MacroSpec StreamModel StreamSpec TypeModel ProduceModel
  SourceSpec ParseSpec CompleteSpec StreamFacts RunFacts ParseEx ReadmeSpec ReadmeFacts ScanSpec ScanFacts.
Local Open Scope nat_scope.
Local Arguments append : simpl nomatch.

(** * Characters *)
Lemma all_app P a b : all_chars P (a +:+ b) = all_chars P a && all_chars P b.
Proof. induction a as [|c a IH]; [done|]. cbn. by rewrite IH, andb_assoc. Qed.
Definition fails (P : ascii → bool) (s : string) : Prop := match s with "" => True | String c _ => P c = false end%string.
Lemma letter_white c : letter c = true → white c = false.
Proof.
  unfold letter, white, between. intros H. apply not_true_is_false. intros H'.
  repeat match goal with H : orb _ _ = true |- _ => apply orb_true_iff in H as [H|H] | H : andb _ _ = true |- _ => apply andb_true_iff in H as [? ?]
    | H : (_ <=? _) = true |- _ => apply Nat.leb_le in H end; lia.
Qed.

(** Texts of tokens. *)
Definition good (t : tok) : Prop := (t.1 = 0 ∧ name t.2) ∨ (t.1 = 1 ∧ (t.2 = "+" ∨ t.2 = "*")%string) ∨ (t.1 = 2 ∧ (t.2 = "(" ∨ t.2 = ")")%string).
Definition rd_rules : list (list MacroModel.rule * nat) := [([RRegex "\w+"], 0); ([RToken "+"; RToken "*"], 1); ([RToken "("; RToken ")"], 2)]%string.
Lemma rd_expand rx_valid rx_find a : expand rx_valid rx_find rd_lex = inr a → derived_logos a = rd_rules ∧ ∀ ty, should_extract a ty = false.
Proof.
  unfold expand, rd_lex. cbn -[checked_regex_rule].
  destruct (checked_regex_rule _ _ "\s+") as [e|u]; [done|]. destruct (checked_regex_rule _ _ "\w+") as [e|u']; [done|]. cbn.
  by intros [= <-].
Qed.

Section Rd.
  Variable rx_match : string → string → Prop.
  Hypothesis Hrx : ascii_classes rx_match.
  Notation is_a := (is_a rx_match ["\s+"%string] rd_rules).
  Notation longest := (longest rx_match ["\s+"%string] rd_rules).
  Notation scan := (scan rx_match ["\s+"%string] rd_rules).

  Lemma is_a_eq o w : all_chars is_ascii w = true →
    is_a o w ↔ match o with None => w ≠ ""%string ∧ blank w | Some ty => good (ty, w) end.
  Proof.
    intros Hw. destruct (Hrx w Hw) as [Hn Hs]. destruct o as [ty|]; cbn.
    - unfold good, rd_rules. cbn [fst snd]. split.
      + intros (rs & r & H1 & H2 & H3).
        repeat (apply elem_of_cons in H1 as [[= -> ->]|H1]); [..|by apply elem_of_nil in H1];
          repeat (apply elem_of_cons in H2 as [->|H2]); try (by apply elem_of_nil in H2); cbn in H3; [left; by rewrite <- Hn|..]; auto 6.
      + intros [[-> H]|[[-> H]|[-> H]]].
        * exists [RRegex "\w+"], (RRegex "\w+"). split; [by left|]. split; [by left|]. by apply Hn.
        * exists [RToken "+"; RToken "*"], (RToken w). split; [by right; left|]. destruct H as [-> | ->]; (split; [set_solver|done]).
        * exists [RToken "("; RToken ")"], (RToken w). split; [by right; right; left|]. destruct H as [-> | ->]; (split; [set_solver|done]).
    - rewrite <- Hs. split; [|intros H; exists "\s+"%string; split; [by left|done]].
      intros (r & H1 & H2). apply elem_of_cons in H1 as [->|H1]; [done|by apply elem_of_nil in H1].
  Qed.
  (** By their first character: an operator stands alone. *)
  Definition head_char (P : ascii → bool) (s : string) : Prop := match s with "" => False | String c _ => P c = true end%string.
  Lemma long_kind o c d w : all_chars is_ascii (String c (String d w)) = true → is_a o (String c (String d w)) →
    (all_chars white (String c (String d w)) = true) ∨ all_chars letter (String c (String d w)) = true.
  Proof.
    intros Hw H%is_a_eq; [|done]. destruct o as [ty|]; [|left; apply H]. destruct H as [[_ H]|[[_ H]|[_ H]]]; [right; apply H|..]; by destruct H.
  Qed.
  (** [w] is of one kind and what follows does not continue it. *)
  Lemma run_longest (P : ascii → bool) o w rest : all_chars is_ascii (w +:+ rest) = true → w ≠ ""%string → is_a o w →
    (P = white ∨ P = letter) → all_chars P w = true → fails P rest → longest o w rest.
  Proof.
    intros Hasc Hw Ha HP Hall Hf. split; [done|]. split; [done|]. intros o' w' rest' E Ha'.
    destruct (decide (String.length w' ≤ String.length w)) as [|Hgt]; [done|exfalso].
    destruct (app_longer _ _ _ _ E) as (m & -> & ->); [lia|]. rewrite app_len in Hgt.
    destruct m as [|d m]; [cbn in Hgt; lia|]. cbn in Hf. destruct w as [|c w]; [done|].
    rewrite !all_app in Hasc. rewrite !andb_true_iff in Hasc. destruct Hasc as (H1 & H2 & H3).
    assert (all_chars is_ascii (String c w +:+ String d m) = true) as H4 by (rewrite all_app, H1, H2; done).
    assert (all_chars white (String c w +:+ String d m) = true ∨ all_chars letter (String c w +:+ String d m) = true) as H.
    { destruct (w +:+ String d m) as [|e u] eqn:Eu; [by destruct w|]. change (String c w +:+ String d m) with (String c (w +:+ String d m)) in *.
      rewrite Eu in *. by eapply long_kind. }
    rewrite !all_app, !andb_true_iff in H. cbn in H, Hall. rewrite !andb_true_iff in H. apply andb_true_iff in Hall as [Hc _].
    destruct HP as [-> | ->], H as [[[H5 _] [H6 _]]|[[H5 _] [H6 _]]]; try congruence.
    - apply letter_white in H5. congruence.
    - apply letter_white in Hc. congruence.
  Qed.
  Lemma op_longest t c rest : all_chars is_ascii (String c rest) = true → good (t, String c "") → letter c = false → white c = false → longest (Some t) (String c "") rest.
  Proof.
    intros Hasc Hg Hl Hw. split; [done|]. split.
    { apply is_a_eq; [|done]. cbn in *. rewrite andb_true_iff in *. split; [apply Hasc|done]. }
    intros o' w' rest' E Ha'. destruct w' as [|d [|e w']]; [cbn; lia..|exfalso]. injection E as <- E. rewrite E in Hasc.
    replace (String c (String e w' +:+ rest')) with (String c (String e w') +:+ rest') in Hasc by done. replace (String c (String e (w' +:+ rest'))) with (String c (String e w') +:+ rest') in Hasc by done. rewrite all_app in Hasc. apply andb_true_iff in Hasc as [Hasc _].
    apply long_kind in Ha'; [|done]. cbn in Ha'. rewrite Hl, Hw in Ha'. by destruct Ha'.
  Qed.
  Lemma rd_untied_ascii o o' w : all_chars is_ascii w = true → w ≠ ""%string → is_a o w → is_a o' w → o = o'.
  Proof.
    intros Hasc Hw H%is_a_eq H'%is_a_eq; [|done..].
    assert (Hgw : ∀ ty, good (ty, w) → ¬ blank w).
    { intros ty Hg Hb. destruct w as [|c w]; [done|]. unfold blank in Hb. cbn in Hb. apply andb_true_iff in Hb as [Hb _].
      destruct Hg as [[_ [_ Hg]]|[[_ Hg]|[_ Hg]]].
      - cbn in Hg. apply andb_true_iff in Hg as [Hg _]. apply letter_white in Hg. congruence.
      - destruct Hg as [[= -> ->]|[= -> ->]]; discriminate.
      - destruct Hg as [[= -> ->]|[= -> ->]]; discriminate. }
    destruct o as [t|], o' as [t'|]; [|destruct H'; by edestruct Hgw|destruct H; by edestruct Hgw|done]. f_equal.
    destruct H as [[E [_ H]]|[[E H]|[E H]]], H' as [[E' [_ H']]|[[E' H']|[E' H']]]; cbn [fst snd] in *; subst; try done; exfalso.
    all: repeat match goal with H : _ ∨ _ |- _ => destruct H as [?|?] end; subst; discriminate.
  Qed.

  (** * Texts laid out *)
  Inductive laid : list tok → string → Prop :=
  | laid_end g : blank g → laid [] g
  | laid_tok g t w s : blank g → good t → laid w s → laid (t :: w) (g +:+ t.2 +:+ s).
  Lemma laid_blank g w s : blank g → laid w s → laid w (g +:+ s).
  Proof.
    intros Hg [h Hh|h t w' s' Hh Ht Hl].
    - constructor. unfold blank in *. by rewrite all_app, Hg, Hh.
    - rewrite <- app_as. constructor; [|done..]. unfold blank in *. by rewrite all_app, Hg, Hh.
  Qed.
  Lemma laid_app w1 s1 w2 s2 : laid w1 s1 → laid w2 s2 → laid (w1 ++ w2) (s1 +:+ s2).
  Proof.
    induction 1 as [g Hg|g t w s Hg Ht Hl IH]; intros H2; [by apply laid_blank|].
    rewrite !app_as. cbn [app]. constructor; [done..|by apply IH].
  Qed.
  Lemma laid_split w1 w2 s : laid (w1 ++ w2) s → ∃ s1 s2, s = s1 +:+ s2 ∧ laid w1 s1 ∧ laid w2 s2.
  Proof.
    revert s. induction w1 as [|t w1 IH]; intros s H.
    - exists ""%string, s. split; [done|]. split; [by constructor|done].
    - cbn in H. inversion H as [|g t' w s' Hg Ht Hl]; subst. destruct (IH _ Hl) as (s1 & s2 & -> & H1 & H2).
      exists (g +:+ t.2 +:+ s1), s2. split; [by rewrite !app_as|]. split; [by constructor|done].
  Qed.
  Lemma laid_cons t w s : laid (t :: w) s → ∃ g s', s = g +:+ t.2 +:+ s' ∧ blank g ∧ good t ∧ laid w s'.
  Proof. inversion 1; subst. eauto 10. Qed.
  Lemma laid_one t : good t → laid [t] t.2.
  Proof. intros H. rewrite <- (app_nil t.2). apply (laid_tok ""); [done..|by constructor]. Qed.
  Lemma blank_app a b : blank a → blank b → blank (a +:+ b).
  Proof. unfold blank. intros Ha Hb. by rewrite all_app, Ha, Hb. Qed.

  Scheme sum_i := Induction for sum_text Sort Prop with product_i := Induction for product_text Sort Prop with factor_i := Induction for factor_text Sort Prop.
  Combined Scheme texts_ind from sum_i, product_i, factor_i.
  (** No two names in a row. *)
  Fixpoint apart (w : list tok) : Prop :=
    match w with a :: (b :: _) as r => (a.1 = 0 → b.1 = 0 → False) ∧ apart r | _ => True end.
  Lemma apart_mid w1 t w2 : apart w1 → t.1 ≠ 0 → apart w2 → apart (w1 ++ t :: w2).
  Proof.
    intros H1 Ht H2. induction w1 as [|a w1 IH].
    - cbn. destruct w2; [done|]. by split.
    - destruct w1 as [|b w1]; [split; [done|by apply IH]|]. destruct H1 as [H H1]. split; [done|by apply IH].
  Qed.
  Notation sums := (joined (1, "+"%string) (joined (1, "*"%string) factor)).
  Notation products := (joined (1, "*"%string) factor).
  Lemma text_laid : (∀ s, sum_text s → ∃ w, sums w ∧ laid w s ∧ apart w) ∧ (∀ s, product_text s → ∃ w, products w ∧ laid w s ∧ apart w) ∧
    (∀ s, factor_text s → ∃ w, factor w ∧ laid w s ∧ apart w).
  Proof.
    apply texts_ind with (P := λ s _, ∃ w, sums w ∧ laid w s ∧ apart w) (P0 := λ s _, ∃ w, products w ∧ laid w s ∧ apart w) (P1 := λ s _, ∃ w, factor w ∧ laid w s ∧ apart w).
    - intros s _ (w & Hw & Hl). exists w. split; [by constructor|done].
    - intros s1 s2 _ (w1 & H1 & L1 & A1) _ (w2 & H2 & L2 & A2). exists (w1 ++ (1, "+"%string) :: w2). split; [by constructor|]. split; [|by apply apart_mid].
      apply laid_app; [done|]. apply (laid_app [_] "+"); [|done]. apply (laid_one (1, "+"%string)). right. left. split; [done|by left].
    - intros s _ (w & Hw & Hl). exists w. split; [by constructor|done].
    - intros s1 s2 _ (w1 & H1 & L1 & A1) _ (w2 & H2 & L2 & A2). exists (w1 ++ (1, "*"%string) :: w2). split; [by constructor|]. split; [|by apply apart_mid].
      apply laid_app; [done|]. apply (laid_app [_] "*"); [|done]. apply (laid_one (1, "*"%string)). right. left. split; [done|by right].
    - intros s Hs. exists [(0, s)]. split; [constructor|]. split; [|done]. apply (laid_one (0, s)). by left.
    - intros s _ (w & Hw & Hl & Ha). exists ((2, "("%string) :: w ++ [(2, ")"%string)]). split; [by constructor|]. split.
      2: { apply (apart_mid []); [done..|]. by apply apart_mid. }
      apply (laid_app [_] "("); [|apply laid_app; [done|]].
      + apply (laid_one (2, "("%string)). right. right. split; [done|by left].
      + apply (laid_one (2, ")"%string)). right. right. split; [done|by right].
    - intros g s h Hg Hh _ (w & Hw & Hl & Ha). exists w. split; [done|]. split; [|done]. apply laid_blank; [done|]. rewrite <- (app_nil_r w).
      apply laid_app; [done|by constructor].
  Qed.
  (** Blanks around. *)
  Lemma sum_blank : (∀ s, sum_text s → ∀ g h, blank g → blank h → sum_text (g +:+ s +:+ h)) ∧
    (∀ s, product_text s → ∀ g h, blank g → blank h → product_text (g +:+ s +:+ h)).
  Proof.
    assert (Hp : ∀ s, product_text s → ∀ g h, blank g → blank h → product_text (g +:+ s +:+ h)).
    { intros s Hs. apply (product_i (λ _ _, True) (λ s _, ∀ g h, blank g → blank h → product_text (g +:+ s +:+ h)) (λ _ _, True)); try done.
      - intros s0 H0 _ g h Hg Hh. apply product_one. by apply factor_space.
      - intros s1 s2 H1 _ H2 IH g h Hg Hh. rewrite !app_as. rewrite <- (app_as g). rewrite <- (app_nil (g +:+ s1)), app_as, (app_as g).
        replace (g +:+ s1 +:+ "" +:+ "*" +:+ s2 +:+ h) with ((g +:+ s1 +:+ "") +:+ "*" +:+ ("" +:+ s2 +:+ h)) by (by rewrite !app_as).
        apply product_more; [by apply factor_space|by apply IH]. }
    split; [|done]. intros s Hs.
    apply (sum_i (λ s _, ∀ g h, blank g → blank h → sum_text (g +:+ s +:+ h)) (λ _ _, True) (λ _ _, True)); try done.
    - intros s0 H0 _ g h Hg Hh. apply sum_one. by apply Hp.
    - intros s1 s2 H1 _ H2 IH g h Hg Hh.
      replace (g +:+ (s1 +:+ "+" +:+ s2) +:+ h) with ((g +:+ s1 +:+ "") +:+ "+" +:+ ("" +:+ s2 +:+ h)) by (by rewrite app_nil, !app_as).
      apply sum_more; [by apply Hp|by apply IH].
  Qed.
  Lemma joined_mono op (P Q : list tok → Prop) w : (∀ w, P w → Q w) → joined op P w → joined op Q w.
  Proof. intros H. induction 1; [by apply j_one, H|apply j_more; [by apply H|done]]. Qed.
  Lemma product_laid (F : list tok → Prop) : (∀ w, F w → ∀ s, laid w s → factor_text s) →
    ∀ w, joined (1, "*"%string) F w → ∀ s, laid w s → product_text s.
  Proof.
    intros HF w. induction 1 as [w Hw|w1 w2 H1 H2 IH]; intros s Hl; [by eapply product_one, HF|].
    apply laid_split in Hl as (s1 & s2 & -> & L1 & L2). apply laid_cons in L2 as (g & s' & -> & Hg & _ & L2). cbn [snd].
    rewrite <- app_as. apply product_more; [|by apply IH]. rewrite <- (app_nil s1), app_as.
    replace (s1 +:+ "" +:+ g) with ("" +:+ s1 +:+ g) by done. apply factor_space; [done..|]. by eapply HF.
  Qed.
  Lemma sum_laid (F : list tok → Prop) : (∀ w, F w → ∀ s, laid w s → factor_text s) →
    ∀ w, joined (1, "+"%string) (joined (1, "*"%string) F) w → ∀ s, laid w s → sum_text s.
  Proof.
    intros HF w. induction 1 as [w Hw|w1 w2 H1 H2 IH]; intros s Hl; [eapply sum_one, product_laid; done|].
    apply laid_split in Hl as (s1 & s2 & -> & L1 & L2). apply laid_cons in L2 as (g & s' & -> & Hg & _ & L2). cbn [snd].
    rewrite <- app_as. apply sum_more; [|by apply IH]. 
    replace (s1 +:+ g) with ("" +:+ s1 +:+ g) by done. apply sum_blank; [|done..]. by eapply product_laid.
  Qed.
  Lemma factor_laid n w : length w ≤ n → factor w → ∀ s, laid w s → factor_text s.
  Proof.
    revert w. induction n as [|n IH]; intros w Hn Hf s Hl.
    { destruct w; [inversion Hf|cbn in Hn; lia]. }
    inversion Hf as [x E|u Hu E]; subst.
    - apply laid_cons in Hl as (g & s' & -> & Hg & Ht & L). inversion L as [h Hh|]; subst. apply factor_space; [done..|].
      apply factor_name. destruct Ht as [[_ Ht]|[[Ht _]|[Ht _]]]; done.
    - apply laid_cons in Hl as (g & s' & -> & Hg & _ & L). apply laid_split in L as (s1 & s2 & -> & L1 & L2).
      apply laid_cons in L2 as (g' & s3 & -> & Hg' & _ & L3). inversion L3 as [h Hh|]; subst. cbn [snd].
      replace (g +:+ "(" +:+ s1 +:+ g' +:+ ")" +:+ s3) with (g +:+ ("(" +:+ (s1 +:+ g') +:+ ")") +:+ s3) by (by rewrite !app_as).
      apply factor_space; [done..|]. apply factor_paren. replace (s1 +:+ g') with ("" +:+ s1 +:+ g') by done.
      apply sum_blank; [|done..].
      apply (sum_laid (λ w, factor w ∧ length w ≤ n)) with (w := u); [|clear - Hu Hn|done].
      + intros w [H1 H2]. by apply IH.
      + cbn in Hn. rewrite app_length in Hn. cbn in Hn. assert (length u ≤ n) as Hl by lia. clear Hn.
        induction Hu as [v Hv|v1 v2 H1 H2 IHu].
        * apply j_one. induction Hv as [v Hv|v1 v2 H1 H2 IHv]; [by apply j_one|].
          rewrite app_length in Hl. cbn in Hl. apply j_more; [split; [done|lia]|apply IHv; lia].
        * rewrite app_length in Hl. cbn in Hl. apply j_more; [|apply IHu; lia]. assert (length v1 ≤ n) as Hl' by lia. clear - H1 Hl'.
          induction H1 as [v Hv|u1 u2 H1 H2 IHv]; [by apply j_one|].
          rewrite app_length in Hl'. cbn in Hl'. apply j_more; [split; [done|lia]|apply IHv; lia].
  Qed.
  Lemma laid_text w s : expression w → laid w s → sum_text s.
  Proof. intros Hw. apply (sum_laid factor); [|done]. intros u Hu. by eapply factor_laid. Qed.


  (** * Scanning *)
  Lemma op_char t : good t → t.1 ≠ 0 → ∃ c, t.2 = String c "" ∧ letter c = false ∧ white c = false.
  Proof. intros [[E _]|[[_ H]|[_ H]]] Ht; [done|..]; destruct H as [-> | ->]; eexists; by split. Qed.
  Lemma good_head t s : good t → ∃ c r, t.2 +:+ s = String c r ∧ white c = false ∧ (t.1 ≠ 0 → letter c = false).
  Proof.
    intros Hg. destruct (decide (t.1 = 0)) as [E|E].
    - destruct Hg as [[_ [H1 H2]]|[[E' _]|[E' _]]]; [|congruence..]. destruct t as [n [|c x]]; [done|]. cbn in *.
      apply andb_true_iff in H2 as [H2 _]. eexists c, _. split; [done|]. split; [by apply letter_white|done].
    - destruct (op_char t Hg E) as (c & -> & H1 & H2). by exists c, s.
  Qed.
  Lemma white_letter c : white c = true → letter c = false.
  Proof. intros H. apply not_true_is_false. intros H'%letter_white. congruence. Qed.
  Lemma laid_fails w s : laid w s → match w with t :: _ => t.1 ≠ 0 | [] => True end → fails letter s.
  Proof.
    intros [g Hg|g t w' s' Hg Ht Hl] Hn.
    - destruct g as [|c g]; [done|]. cbn in Hg. apply andb_true_iff in Hg as [Hg _]. by apply white_letter.
    - destruct g as [|c g].
      + destruct (good_head t s' Ht) as (c & r & -> & _ & H). by apply H.
      + cbn in Hg. apply andb_true_iff in Hg as [Hg _]. by apply white_letter.
  Qed.
  Lemma scan_blank g s p evs : all_chars is_ascii (g +:+ s) = true → blank g → fails white s → scan (p + String.length g) s evs → scan p (g +:+ s) evs.
  Proof.
    intros Hasc Hg Hf H. destruct (decide (g = ""%string)) as [->|Hne].
    { rewrite Nat.add_0_r in H. done. }
    apply scan_skip; [|done]. apply (run_longest white); try done; [|by left].
    rewrite all_app in Hasc. apply andb_true_iff in Hasc as [Hasc _]. by apply is_a_eq.
  Qed.
  Lemma laid_scan w s : laid w s → apart w → all_chars is_ascii s = true → ∀ p, ∃ evs, scan p s evs ∧ no_error evs ∧
    ∀ pre, String.length pre = p → word (pre +:+ s) (raw_tokens evs) = w.
  Proof.
    induction 1 as [g Hg|g t w s Hg Ht Hl IH]; intros Hap Hasc p.
    - exists []. split; [|split; [intros sp H; by apply elem_of_nil in H|done]]. rewrite <- (app_nil g). apply scan_blank; [by rewrite app_nil|done..|constructor].
    - assert (apart w) as Hap' by (destruct w; [done|apply Hap]). assert (Hall := Hasc). rewrite !all_app, !andb_true_iff in Hasc. destruct Hasc as (H1 & H2 & H3).
      destruct (IH Hap' H3 (p + String.length g + String.length t.2)) as (evs & Hs & He & Hword).
      exists (RTok t.1 (Span (p + String.length g) (p + String.length g + String.length t.2)) :: evs).
      split; [|split; [intros sp Hsp; apply elem_of_cons in Hsp as [?|Hsp]; [done|by apply (He sp)]|]].
      2: { intros pre <-. cbn [raw_tokens]. unfold word. rewrite map_cons. fold (word (pre +:+ g +:+ t.2 +:+ s) (raw_tokens evs)).
        rewrite <- (app_as pre g), <- app_len. f_equal.
        - unfold text_of. rewrite token_mid; [by destruct t|]. intros E. destruct (good_head t ""%string Ht) as (c & r & E' & _).
          rewrite E in E'. done.
        - rewrite <- (app_as (pre +:+ g) t.2). apply Hword. rewrite !app_len. done. }
      apply scan_blank; [done..| |].
      { destruct (good_head t s Ht) as (c & r & -> & Hc & _). done. }
      apply scan_token; [|done]. assert (all_chars is_ascii (t.2 +:+ s) = true) as H4 by (by rewrite all_app, H2, H3).
      destruct (decide (t.1 = 0)) as [E|E].
      + assert (name t.2) as [N1 N2] by (destruct Ht as [[_ H]|[[E' _]|[E' _]]]; [done|congruence..]).
        apply (run_longest letter); [done|done| |by right|done|].
        * apply is_a_eq; [done|]. by destruct t.
        * apply (laid_fails w); [done|]. destruct w as [|t' w]; [done|]. intros E'. by apply Hap.
      + destruct (op_char t Ht E) as (c & Et & C1 & C2). destruct t as [n x]. cbn [fst snd] in *. subst x. by apply op_longest.
  Qed.
  Lemma scan_laid p s evs : scan p s evs → all_chars is_ascii s = true → no_error evs →
    ∃ w, laid w s ∧ ∀ pre, String.length pre = p → word (pre +:+ s) (raw_tokens evs) = w.
  Proof.
    induction 1 as [p|p w rest evs Hl H IH|p ty w rest evs Hl H IH|p w rest evs Hw Hn H IH]; intros Hasc He.
    - exists []. split; [by constructor|done].
    - rewrite all_app, andb_true_iff in Hasc. destruct Hasc as [H1 H2]. destruct (IH H2 He) as (u & Hu & Hword). exists u. split.
      + apply laid_blank; [|done]. destruct Hl as (_ & Ha & _). apply is_a_eq in Ha; [|done]. apply Ha.
      + intros pre Hp. rewrite <- app_as. apply Hword. rewrite app_len. lia.
    - rewrite all_app, andb_true_iff in Hasc. destruct Hasc as [H1 H2]. destruct (IH H2) as (u & Hu & Hword).
      { intros sp Hsp. apply (He sp). by right. }
      destruct Hl as (Hw & Ha & _). apply is_a_eq in Ha; [|done]. exists ((ty, w) :: u). split.
      + apply (laid_tok "" (ty, w)); done.
      + intros pre Hp. cbn [raw_tokens]. unfold word. rewrite map_cons. fold (word (pre +:+ w +:+ rest) (raw_tokens evs)). f_equal.
        * unfold text_of. rewrite <- Hp, token_mid by done. done.
        * rewrite <- app_as. apply Hword. rewrite app_len. lia.
    - exfalso. eapply He. by left.
  Qed.
  Lemma rd_untied s : all_chars is_ascii s = true → untied rx_match ["\s+"%string] rd_rules s.
  Proof.
    intros Hasc o o' a w b -> Hw. rewrite !all_app, !andb_true_iff in Hasc. apply rd_untied_ascii; [apply Hasc|done].
  Qed.
  (** The text is an expression iff it is scanned without error into one. *)
  Lemma scan_sum src evs : all_chars is_ascii src = true → scan 0 src evs →
    sum_text src ↔ no_error evs ∧ expression (word src (raw_tokens evs)).
  Proof.
    intros Hasc Hs. split.
    - intros Ht. destruct (proj1 text_laid src Ht) as (w & Hw & Hl & Ha).
      destruct (laid_scan w src Hl Ha Hasc 0) as (evs' & Hs' & He & Hword).
      assert (evs = evs') as -> by (eapply scan_unique; [by apply rd_untied|done..]). split; [done|].
      assert (E := Hword ""%string eq_refl). cbn [append] in E. by rewrite E.
    - intros [He Hx]. destruct (scan_laid _ _ _ Hs Hasc He) as (w & Hl & Hword). eapply laid_text; [|done].
      assert (E := Hword ""%string eq_refl). cbn [append] in E. by rewrite <- E.
  Qed.
End Rd.

(** * The parsers *)
Lemma bad_some acc evs : (acc ≠ [] ∨ ∃ sp, RErr sp ∈ evs) → omap (λ b, hull b.1) (raw_blocks acc evs) ≠ [].
Proof.
  revert acc. induction evs as [|[ty sp|sp] evs IH]; intros acc H; cbn [raw_blocks].
  - destruct H as [H|[sp H]]; [by destruct acc|by apply elem_of_nil in H].
  - cbn. destruct acc as [|x acc]; [|done]. cbn. apply IH. right. destruct H as [?|[sp' H]]; [done|].
    exists sp'. apply elem_of_cons in H as [?|H]; [done|exact H].
  - apply IH. left. by destruct acc.
Qed.
Lemma bad_none evs : bad_text evs = [] ↔ no_error evs.
Proof.
  split.
  - intros E sp H. by apply (bad_some [] evs); [right; exists sp|].
  - intros H. unfold bad_text. induction evs as [|[ty sp|sp] evs IH]; [done|..].
    + cbn. apply IH. intros sp' H'. apply (H sp'). by right.
    + exfalso. apply (H sp). by left.
Qed.
Lemma app_none {A} (a b : list A) : a ++ b = [] → a = [] ∧ b = [].
Proof. by destruct a. Qed.
Lemma parse_silent extract env f t md s o s' : run extract (parse env f t (inr md)) s = ODone o s' → p_errors s' = [] → p_invalid s' = p_invalid s ∧ p_errors s = [].
Proof.
  intros H He. apply parse_run in H as (x & -> & H). apply parse_with_run in H as (r & s1 & H & _ & -> & E & _). cbn in *.
  apply app_none in He as [He _]. apply produce_run_errors in H as (bad & H1 & H2). rewrite He in H2.
  symmetry in H2. apply app_none in H2 as [H2 H3]. destruct bad; [|done]. by rewrite app_nil_r in H1.
Qed.

Section Final.
  Variables (rx_valid : string → bool) (rx_find : string → string → option (nat * nat)) (rx_match : string → string → Prop).
  Variables (a : acc) (items : list SynMacroModel.sitem) (env : denv) (md : TableModel.metadata prod) (src : string) (evs : list raw).
  Hypothesis Hlex : expand rx_valid rx_find rd_lex = inr a.
  Hypothesis Hrx : ascii_classes rx_match.
  Hypothesis Hit : items = rd_items ∨ items = rr_items.
  Hypothesis Hwr : written true rd_names items env.
  Hypothesis Hac : accepted env (TNamed 0) md.
  Hypothesis Hasc : all_chars is_ascii src = true.
  Hypothesis Hsc : scan rx_match (d_ignore rd_lex) (derived_logos a) 0 src evs.
  Lemma rd_decides_text :
    (∃ f x s', run (should_extract a) (o ← parse env f (TNamed 0) (inr md); t ← peek; mret (o, t)) (pst_new src evs) = ODone (inr (Some x), None) s' ∧
      p_errors s' = []) ↔ sum_text src.
  Proof.
    destruct (rd_expand _ _ _ Hlex) as [El Eex]. assert (Hsc' := Hsc). rewrite El in Hsc'. rewrite (scan_sum rx_match Hrx src evs Hasc Hsc').
    set (s := pst_new src evs). set (ex := should_extract a) in *.
    assert (Hok : state_ok s) by (eapply state_ok_new, scan_raw_ok; done).
    assert (Htc : to_come ex s = raw_tokens evs).
    { unfold to_come, s. cbn [p_peeked p_evs pst_new]. cbn [app]. clear - Eex. induction (raw_tokens evs) as [|t l IH]; [done|].
      rewrite filter_cons_True by apply Eex. by rewrite IH. }
    assert (Hdec : parsed_whole ex env md (TNamed 0) s ↔ expression (word src (raw_tokens evs))).
    { rewrite <- Htc. destruct Hit as [-> | ->]; [by apply rd_decides|by apply rr_decides]. }
    rewrite <- Hdec. split.
    - intros (f & x & s' & Hr & He). assert (Hall := Hr). rewrite run_bind in Hr.
      destruct (run ex (parse env f (TNamed 0) (inr md)) s) as [| |o s1] eqn:Hp; [done..|]. rewrite run_bind in Hr.
      destruct (run ex peek s1) as [| |t s2] eqn:Hk; [done..|]. injection Hr as -> -> ->.
      assert (Hevs := peek_none _ _ _ Hk). assert (Hno : no_extend peek) by done.
      destruct (run_errors _ _ _ _ _ Hno Hk) as (new & N1 & N2). rewrite He in N2. symmetry in N2. apply app_none in N2 as [N2 N3].
      destruct new; [|done]. rewrite app_nil_r in N1. destruct (parse_silent _ _ _ _ _ _ _ _ Hp N2) as [N4 _].
      split.
      + apply bad_none. apply run_new_invalid in Hall. rewrite Hevs in Hall. rewrite <- Hall, N1, N4. done.
      + exists f, x, s1. split; [done|]. destruct (peek_run ex s1) as (s3 & Hk' & _). rewrite Hk in Hk'. injection Hk' as Hh _.
        assert (to_come ex s1 = []) as H0 by (by destruct (to_come ex s1)).
        assert (Hc := cv_all _ _ _ (run_conserves _ _ _ _ _ Hp)). change (consumed s1 ++ to_come ex s1 = consumed s ++ to_come ex s) in Hc. rewrite H0, app_nil_r in Hc.
        split; [split; [by apply run_src in Hp|by rewrite H0, app_nil_r]|]. exists []. rewrite !app_nil_r, N4, N2. done.
    - intros [Hne (f & x & s1 & Hp & Ht & (bad & B1 & B2))]. apply bad_none in Hne.
      assert (H0 : to_come ex s1 = []). { destruct Ht as (_ & _ & Ht). apply (f_equal length) in Ht. rewrite app_length in Ht. destruct (to_come ex s1); [done|cbn in Ht; lia]. }
      destruct (peek_run ex s1) as (s' & Hk & _). rewrite H0 in Hk. exists f, x, s'.
      assert (Hall : run ex (o ← parse env f (TNamed 0) (inr md); t ← peek; mret (o, t)) s = ODone (inr (Some x), None) s').
      { rewrite run_bind, Hp, run_bind, Hk. done. }
      split; [done|]. apply run_new_invalid in Hall. rewrite Hne in Hall. apply app_none in Hall as [Hall _].
      assert (Hno : no_extend peek) by done. destruct (run_errors _ _ _ _ _ Hno Hk) as (new & N1 & N2). rewrite N1, B1 in Hall. apply app_none in Hall as [E1 ->].
      rewrite N2, B2. cbn in E1. rewrite E1. done.
  Qed.
End Final.
