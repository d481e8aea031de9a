(** Lemmas about [derive_lexicon]. *)
From Coq Require Import String.
From stdpp Require Import prelude list strings.
From Verif Require Import LexModel LexSpec StreamModel StreamSpec StreamFacts MacroModel MacroSpec.
Local Open Scope nat_scope.

(** * Attributes *)
Definition m_rx (m : meta) : option (list string) := match m with MRegex rs => Some rs | _ => None end.
Definition m_tm (m : meta) : option (list term) := match m with MTerminal ts => Some ts | _ => None end.

Lemma read_attrs_iff ms : ∀ rg tm rg' tm',
  read_attrs ms rg tm = inr (rg', tm') ↔
  MOther ∉ ms ∧ option_list rg' = option_list rg ++ omap m_rx ms ∧ option_list tm' = option_list tm ++ omap m_tm ms.
Proof.
  assert (OL : ∀ A (x y : option A), option_list x = option_list y → x = y).
  { intros A [x|] [y|]; cbn; congruence. }
  induction ms as [|m ms IH]; intros rg tm rg' tm'; cbn [read_attrs].
  - rewrite !app_nil_r. split.
    + intros [= <- <-]. split_and!; [apply not_elem_of_nil|done|done].
    + intros (_ & E1 & E2). by rewrite (OL _ _ _ E1), (OL _ _ _ E2).
  - destruct m as [rs|ts| |]; cbn [omap list_omap m_rx m_tm].
    + destruct rg as [r|].
      * split; [done|]. intros (_ & E & _). destruct rg'; discriminate.
      * rewrite IH. rewrite not_elem_of_cons. naive_solver.
    + destruct tm as [r|].
      * split; [done|]. intros (_ & _ & E). destruct tm'; discriminate.
      * rewrite IH. rewrite not_elem_of_cons. naive_solver.
    + rewrite IH, not_elem_of_cons. naive_solver.
    + split; [done|]. intros (H & _). exfalso. apply H. left.
Qed.

Lemma at_most_one_nil {A} (P : A → Prop) : at_most_one P [].
Proof. by intros i j x y. Qed.
Lemma at_most_one_omap {A B} (f : A → option B) (P : A → Prop) l :
  (∀ x, P x ↔ is_Some (f x)) → at_most_one P l ↔ length (omap f l) ≤ 1.
Proof.
  intros HP. induction l as [|x l IH]; [split; [cbn; lia|intros _; apply at_most_one_nil]|].
  assert (T : at_most_one P (x :: l) → at_most_one P l).
  { intros H i j y z Hi Hj Py Pz. specialize (H (S i) (S j) y z Hi Hj Py Pz). lia. }
  assert (N : (∀ y, y ∈ l → ¬ P y) ↔ omap f l = []).
  { split.
    - intros H. clear IH T. induction l as [|y l IH]; [done|]. cbn.
      destruct (f y) eqn:E; [exfalso; apply (H y); [left|by apply HP; eexists]|].
      apply IH. intros z Hz. apply H. by right.
    - intros H y Hy [b Hb]%HP. assert (b ∈ omap f l) by (apply elem_of_list_omap; eauto).
      rewrite H in *. by apply not_elem_of_nil in H0. }
  cbn. destruct (f x) as [b|] eqn:E; cbn.
  - split.
    + intros H. assert (omap f l = []) as ->; [|done]. apply N. intros y [i Hi]%elem_of_list_lookup Py.
      specialize (H 0 (S i) x y eq_refl Hi). discriminate H; [by apply HP; eexists|done].
    + intros H. assert (Z : omap f l = []) by (destruct (omap f l); cbn in *; [done|lia]).
      assert (N' := proj2 N Z). intros [|i] [|j] y z Hi Hj Py Pz; [done| | |]; exfalso.
      * eapply N'; [eapply elem_of_list_lookup_2, Hj|done].
      * eapply N'; [eapply elem_of_list_lookup_2, Hi|done].
      * eapply N'; [eapply elem_of_list_lookup_2, Hi|done].
  - rewrite <- IH. split; [apply T|]. intros H [|i] [|j] y z Hi Hj Py Pz; [done| | |].
    + injection Hi as ->. apply HP in Py as [? Py]. congruence.
    + injection Hj as ->. apply HP in Pz as [? Pz]. congruence.
    + f_equal. eauto.
Qed.

(** * Terminals *)
Definition t_lit (t : term) : option string := match t with TmLit _ l => Some l | _ => None end.
Definition t_bare (t : term) : bool := match t with TmAny _ => true | _ => false end.
Definition lits (ts : list term) : list string := omap t_lit ts.
Definition bareb (ts : list term) : bool := existsb t_bare ts.
Definition infer_of (ts : list term) : option (list string) := if bareb ts then None else Some (lits ts).
Definition t_make (i : nat) (t : term) : option terminal :=
  match t with TmAny n => Some (Terminal n i None) | TmLit n l => Some (Terminal n i (Some l)) | TmBad => None end.
Definition term_ok (pre : list term) (t : term) : Prop :=
  match t with
  | TmBad => False
  | TmAny _ => bareb pre = false
  | TmLit _ l => l ≠ ""%string ∧ (bareb pre = true ∨ l ∉ lits pre)
  end.
Definition terms_ok (pre ts : list term) : Prop := ∀ k t, ts !! k = Some t → term_ok (pre ++ take k ts) t.

Lemma terms_ok_cons pre t ts : terms_ok pre (t :: ts) ↔ term_ok pre t ∧ terms_ok (pre ++ [t]) ts.
Proof.
  split.
  - intros H. split.
    + specialize (H 0 t eq_refl). cbn in H. by rewrite app_nil_r in H.
    + intros k u Hk. specialize (H (S k) u Hk). cbn in H. by rewrite <- app_assoc.
  - intros [H1 H2] [|k] u Hk; cbn in *.
    + injection Hk as <-. by rewrite app_nil_r.
    + specialize (H2 k u Hk). by rewrite <- app_assoc in H2.
Qed.
Lemma lits_app a b : lits (a ++ b) = lits a ++ lits b.
Proof. unfold lits. induction a as [|x a IH]; [done|]. cbn. destruct (t_lit x); cbn; by rewrite IH. Qed.
Lemma bareb_app a b : bareb (a ++ b) = bareb a || bareb b.
Proof. apply existsb_app. Qed.
Lemma existsb_eqb l s : existsb (String.eqb l) s = true ↔ l ∈ s.
Proof.
  rewrite existsb_exists. split.
  - intros (x & H & E%String.eqb_eq). subst. by apply elem_of_list_In.
  - intros H. exists l. split; [by apply elem_of_list_In|by apply String.eqb_eq].
Qed.

Lemma read_terms_iff i ts : ∀ pre set out x,
  (∀ l, l ∈ set ↔ l ∈ lits pre) →
  read_terms i ts (infer_of pre) set out = inr x ↔
  terms_ok pre ts ∧ x = (infer_of (pre ++ ts), rev (lits ts) ++ set, out ++ omap (t_make i) ts).
Proof.
  induction ts as [|t ts IH]; intros pre set out x Hs; cbn [read_terms].
  - cbn. rewrite !app_nil_r. split; [intros [= <-]; split; [by intros ??|done]|by intros [_ ->]].
  - rewrite terms_ok_cons. destruct t as [n|n l|]; cbn [term_ok].
    + unfold infer_of at 1. destruct (bareb pre) eqn:B; [by split; [|intros [[] _]]|].
      assert (E : infer_of (pre ++ [TmAny n]) = None).
      { unfold infer_of. rewrite bareb_app, B. done. }
      rewrite <- E, IH.
      * cbn. rewrite <- !app_assoc. cbn. naive_solver.
      * intros l. rewrite Hs, lits_app. cbn. by rewrite app_nil_r.
    + destruct (String.eqb_spec l "") as [->|Hl]; [split; [done|by intros [[[] _] _]]|].
      assert (Hs' : ∀ x, x ∈ l :: set ↔ x ∈ lits (pre ++ [TmLit n l])).
      { intros y. rewrite lits_app, elem_of_app, elem_of_cons, Hs. cbn. rewrite elem_of_list_singleton. tauto. }
      assert (B' : bareb (pre ++ [TmLit n l]) = bareb pre) by (rewrite bareb_app; cbn; by rewrite orb_false_r).
      unfold infer_of at 1. destruct (bareb pre) eqn:B.
      * assert (E : infer_of (pre ++ [TmLit n l]) = None) by (unfold infer_of; by rewrite B').
        rewrite <- E, IH by done. cbn. rewrite <- !app_assoc. cbn. naive_solver.
      * destruct (existsb (String.eqb l) set) eqn:X.
        -- apply existsb_eqb, Hs in X. split; [done|]. naive_solver.
        -- assert (E : infer_of (pre ++ [TmLit n l]) = Some (lits pre ++ [l])).
           { unfold infer_of. rewrite B', lits_app. done. }
           rewrite <- E, IH by done. cbn. rewrite <- !app_assoc. cbn.
           assert (l ∉ lits pre).
           { intros H. apply Hs, existsb_eqb in H. congruence. }
           naive_solver.
    + split; [done|]. by intros [[[] _] _].
Qed.

(** * Regexes *)
Section Rx.
  Variable rx_valid : string → bool.
  Variable rx_find : string → string → option (nat * nat).
  Notation good_regex := (good_regex rx_valid rx_find).

  Lemma checked_iff r : checked_regex_rule rx_valid rx_find r = inr tt ↔ good_regex r.
  Proof.
    unfold checked_regex_rule, MacroSpec.good_regex.
    destruct (rx_valid r), (rx_find r ""); naive_solver.
  Qed.
  Lemma check_ignore_iff rs : check_ignore rx_valid rx_find rs = inr tt ↔ Forall good_regex rs.
  Proof.
    induction rs as [|r rs IH]; cbn [check_ignore]; [by split|].
    rewrite Forall_cons, <- checked_iff, <- IH.
    destruct (checked_regex_rule _ _ r) as [e|[]]; naive_solver.
  Qed.
  Lemma check_lits_iff r ls : check_lits rx_find r ls = inr tt ↔
    ∀ l, l ∈ ls → rx_find r l = Some (0, String.length l).
  Proof.
    induction ls as [|l ls IH]; cbn [check_lits].
    - split; [intros _ l H; by apply not_elem_of_nil in H|done].
    - assert (E : (∀ l0, l0 ∈ l :: ls → rx_find r l0 = Some (0, String.length l0)) ↔
        rx_find r l = Some (0, String.length l) ∧ ∀ l0, l0 ∈ ls → rx_find r l0 = Some (0, String.length l0)).
      { setoid_rewrite elem_of_cons. naive_solver. }
      rewrite E, <- IH. destruct (rx_find r l) as [[st en]|]; [|naive_solver].
      destruct (Nat.eqb_spec st 0), (Nat.eqb_spec en (String.length l)); cbn [negb]; naive_solver.
  Qed.
  Lemma regex_attr_iff rs ls : ∀ attr x, regex_attr rx_valid rx_find rs ls attr = inr x ↔
    Forall good_regex rs ∧ (∀ r l, r ∈ rs → l ∈ ls → rx_find r l = Some (0, String.length l)) ∧
    x = attr ++ map RRegex rs.
  Proof.
    induction rs as [|r rs IH]; intros attr x; cbn [regex_attr map].
    - rewrite app_nil_r. split; [|naive_solver]. intros [= <-]. split_and!; [done| |done].
      intros r l H. by apply not_elem_of_nil in H.
    - rewrite Forall_cons.
      assert (E : (∀ r0 l, r0 ∈ r :: rs → l ∈ ls → rx_find r0 l = Some (0, String.length l)) ↔
        (∀ l, l ∈ ls → rx_find r l = Some (0, String.length l)) ∧
        ∀ r0 l, r0 ∈ rs → l ∈ ls → rx_find r0 l = Some (0, String.length l)).
      { setoid_rewrite elem_of_cons. naive_solver. }
      rewrite E, <- checked_iff, <- check_lits_iff.
      destruct (checked_regex_rule _ _ r) as [e|[]]; [naive_solver|].
      destruct (check_lits _ r ls) as [e|[]]; [naive_solver|].
      rewrite IH, <- app_assoc. cbn. naive_solver.
  Qed.

  (** * One variant *)
  Definition rx_of (v : variant) : option (list string) := head (omap m_rx (v_metas v)).
  (** the rules attached by the code for [v], if any *)
  Definition attr_of (v : variant) : option (list rule) :=
    match rx_of v with
    | Some rs => Some (map RRegex rs)
    | None => match infer_of (terms_of v) with Some ls => Some (map RToken ls) | None => None end
    end.
  Definition lexb (v : variant) : bool :=
    match rx_of v with Some _ => true | None => negb (none_or_empty (infer_of (terms_of v))) end.
  Definition add (i : nat) (v : variant) (a : acc) : acc :=
    Acc (ac_lex a ++ if lexb v then [i] else [])
        (ac_attrs a ++ option_list (attr_of v))
        (ac_extract a ++ match terms_of v with [] => [i] | _ => [] end)
        (ac_terms a ++ omap (t_make i) (terms_of v)).
  Definition step_ok (v : variant) : Prop :=
    MOther ∉ v_metas v ∧ length (omap m_rx (v_metas v)) ≤ 1 ∧ length (omap m_tm (v_metas v)) ≤ 1 ∧
    terms_ok [] (terms_of v) ∧
    (is_Some (rx_of v) → none_or_empty (infer_of (terms_of v)) = true) ∧
    Forall good_regex (regexes_of v) ∧
    ∀ r l, r ∈ regexes_of v → l ∈ lits (terms_of v) → rx_find r l = Some (0, String.length l).

  Lemma terms_of_eq v : terms_of v = concat (omap m_tm (v_metas v)).
  Proof.
    unfold terms_of. induction (v_metas v) as [|m ms IH]; [done|]. cbn. destruct m; cbn; rewrite IH; done.
  Qed.
  Lemma regexes_of_eq v : regexes_of v = concat (omap m_rx (v_metas v)).
  Proof.
    unfold regexes_of. induction (v_metas v) as [|m ms IH]; [done|]. cbn. destruct m; cbn; rewrite IH; done.
  Qed.

  Lemma option_list_head {A} (o : option A) l : option_list o = l → o = head l ∧ length l ≤ 1.
  Proof. intros <-. destruct o; cbn; split; auto. Qed.
  Lemma option_list_head_2 {A} (l : list A) : length l ≤ 1 → option_list (head l) = l.
  Proof. destruct l as [|x [|y l]]; cbn; [done|done|lia]. Qed.
  Lemma concat_head {A} (l : list (list A)) : length l ≤ 1 → concat l = default [] (head l).
  Proof. destruct l as [|x [|y l]]; cbn; [done|by rewrite app_nil_r|lia]. Qed.

  Lemma variant_step_iff i v a a' : variant_step rx_valid rx_find i v a = inr a' ↔ step_ok v ∧ a' = add i v a.
  Proof.
    unfold variant_step, step_ok.
    destruct (read_attrs (v_metas v) None None) as [e|[rg tm]] eqn:R.
    { split; [done|]. intros ((HM & L1 & L2 & _) & _).
      assert (R' := proj2 (read_attrs_iff (v_metas v) None None (head (omap m_rx (v_metas v))) (head (omap m_tm (v_metas v))))).
      rewrite R in R'. discriminate R'. cbn. split_and!; [done| |]; by apply option_list_head_2. }
    apply read_attrs_iff in R as (HM & [R1 L1]%option_list_head & [R2 L2]%option_list_head).
    cbn [app option_list] in *. cbn [fst snd].
    assert (T : terms_of v = default [] tm) by (rewrite terms_of_eq, concat_head by done; by rewrite R2).
    assert (X : regexes_of v = default [] rg) by (rewrite regexes_of_eq, concat_head by done; by rewrite R1).
    assert (RX : rx_of v = rg) by done.
    rewrite <- T.
    assert (E0 : Some [] = infer_of []) by done. rewrite E0.
    destruct (read_terms i (terms_of v) (infer_of []) [] (ac_terms a)) as [e|x] eqn:Q.
    { split; [done|]. intros ((_ & _ & _ & K & _) & _).
      assert (Q' := proj2 (read_terms_iff i (terms_of v) [] [] (ac_terms a) _ (λ l, iff_refl _)) (conj K eq_refl)).
      rewrite Q in Q'. discriminate. }
    apply read_terms_iff in Q as (K & ->); [|done]. cbn [fst snd app]. rewrite app_nil_r.
    unfold add, attr_of, lexb. rewrite RX, X.
    assert (EX : (if none_or_empty tm then ac_extract a ++ [i] else ac_extract a) =
      ac_extract a ++ match terms_of v with [] => [i] | _ => [] end).
    { rewrite T. destruct tm as [[|]|]; cbn; by rewrite ?app_nil_r. }
    rewrite EX. set (inf := infer_of (terms_of v)).
    destruct rg as [rs|]; cbn [default].
    - rewrite andb_false_r. destruct (none_or_empty inf) eqn:NE; cbn [negb].
      + destruct (regex_attr rx_valid rx_find rs (rev (lits (terms_of v))) []) as [e|x] eqn:A.
        * split; [done|]. intros ((_ & _ & _ & _ & _ & G & L) & _).
          assert (A' := proj2 (regex_attr_iff rs (rev (lits (terms_of v))) [] (map RRegex rs))).
          rewrite A in A'. discriminate A'. split_and!; [done| |done].
          intros r l Hr Hl. apply L; [done|]. apply elem_of_list_In, in_rev, elem_of_list_In, Hl.
        * apply regex_attr_iff in A as (G & L & ->). cbn [app option_list]. split.
          -- intros [= <-]. split; [|done]. split_and!; try done.
             intros r l Hr Hl. apply L; [done|]. by apply elem_of_list_In, in_rev; rewrite rev_involutive; apply elem_of_list_In.
          -- by intros [_ ->].
      + split; [done|]. intros ((_ & _ & _ & _ & C & _) & _). discriminate C. by eexists.
    - rewrite andb_true_r.
      assert (S0 : ∀ P : Prop, (MOther ∉ v_metas v ∧ length (omap m_rx (v_metas v)) ≤ 1 ∧ length (omap m_tm (v_metas v)) ≤ 1 ∧
        terms_ok [] (terms_of v) ∧ (is_Some (@None (list string)) → none_or_empty inf = true) ∧ Forall good_regex [] ∧
        ∀ r l, r ∈ ([] : list string) → l ∈ lits (terms_of v) → rx_find r l = Some (0, String.length l)) ∧ P ↔ P).
      { intros P. split; [by intros [_ H]|]. intros H. split; [|done]. split_and!; try done.
        - intros [? ?]. done.
        - intros r l Hr. by apply not_elem_of_nil in Hr. }
      rewrite S0.
      destruct inf as [[|l ls]|] eqn:EI; cbn [none_or_empty negb map option_list];
        rewrite ?app_nil_r; split; (intros [= <-] || intros ->); done.
  Qed.

  (** * All variants *)
  Fixpoint adds (i : nat) (vs : list variant) (a : acc) : acc :=
    match vs with [] => a | v :: vs => adds (S i) vs (add i v a) end.
  Lemma variant_loop_iff vs : ∀ i a a', variant_loop rx_valid rx_find i vs a = inr a' ↔
    Forall step_ok vs ∧ a' = adds i vs a.
  Proof.
    induction vs as [|v vs IH]; intros i a a'; cbn [variant_loop adds].
    - split; [intros [= <-]; done|by intros [_ ->]].
    - rewrite Forall_cons. destruct (variant_step rx_valid rx_find i v a) as [e|b] eqn:V.
      + split; [done|]. intros [[K _] _].
        assert (V' := proj2 (variant_step_iff i v a _) (conj K eq_refl)). rewrite V in V'. discriminate.
      + apply variant_step_iff in V as [K ->]. rewrite IH. tauto.
  Qed.
End Rx.

Fixpoint lexs (i : nat) (vs : list variant) : list nat :=
  match vs with [] => [] | v :: vs => (if lexb v then [i] else []) ++ lexs (S i) vs end.
Definition attrs (vs : list variant) : list (list rule) := omap attr_of vs.
Fixpoint extracts (i : nat) (vs : list variant) : list nat :=
  match vs with [] => [] | v :: vs => match terms_of v with [] => [i] | _ => [] end ++ extracts (S i) vs end.
Fixpoint terminals (i : nat) (vs : list variant) : list terminal :=
  match vs with [] => [] | v :: vs => omap (t_make i) (terms_of v) ++ terminals (S i) vs end.

Lemma adds_eq vs : ∀ i a, adds i vs a =
  Acc (ac_lex a ++ lexs i vs) (ac_attrs a ++ attrs vs) (ac_extract a ++ extracts i vs) (ac_terms a ++ terminals i vs).
Proof.
  induction vs as [|v vs IH]; intros i a; cbn [adds lexs extracts terminals].
  - cbn. rewrite !app_nil_r. by destruct a.
  - rewrite IH. cbn [add ac_lex ac_attrs ac_extract ac_terms]. rewrite <- !app_assoc. f_equal.
    f_equal. unfold attrs. cbn. by destruct (attr_of v).
Qed.

(** * From the internal conditions to the specification *)
Lemma bareb_iff ts : bareb ts = true ↔ ∃ n, TmAny n ∈ ts.
Proof.
  unfold bareb. rewrite existsb_exists. split.
  - intros ([n| |] & H & E); try done. exists n. by apply elem_of_list_In.
  - intros [n H]. exists (TmAny n). split; [by apply elem_of_list_In|done].
Qed.
Lemma bareb_has v : bareb (terms_of v) = true ↔ has_bare v.
Proof. apply bareb_iff. Qed.
Lemma lits_in ts l : l ∈ lits ts ↔ ∃ n, TmLit n l ∈ ts.
Proof.
  unfold lits. rewrite elem_of_list_omap. split.
  - intros ([|n m|] & H & E); try done. injection E as ->. eauto.
  - intros [n H]. eauto.
Qed.
Lemma rx_of_has v : is_Some (rx_of v) ↔ has_regex v.
Proof.
  unfold rx_of, has_regex. split.
  - intros [rs H]. exists rs. assert (I : rs ∈ omap m_rx (v_metas v)).
    { destruct (omap m_rx (v_metas v)); [done|]. injection H as ->. left. }
    apply elem_of_list_omap in I as ([] & I & E); try done. by injection E as ->.
  - intros [rs H]. assert (I : rs ∈ omap m_rx (v_metas v)) by (apply elem_of_list_omap; eauto).
    destruct (omap m_rx (v_metas v)); [by apply not_elem_of_nil in I|]. eauto.
Qed.

Lemma terms_ok_iff ts : terms_ok [] ts ↔
  TmBad ∉ ts ∧ (¬ ∃ n, TmLit n "" ∈ ts) ∧ at_most_one is_bare ts ∧
  (∀ i j lit t u, i < j → ts !! i = Some t → ts !! j = Some u → lit_of lit t → lit_of lit u →
    ∃ k w, k < j ∧ ts !! k = Some w ∧ is_bare w).
Proof.
  assert (TB : ∀ k, bareb (take k ts) = true ↔ ∃ j w, j < k ∧ ts !! j = Some w ∧ is_bare w).
  { intros k. rewrite bareb_iff. split.
    - intros [n [j H]%elem_of_list_lookup]. apply lookup_take_Some in H as [H L].
      exists j, (TmAny n). split_and!; [done|done|by exists n].
    - intros (j & w & L & H & n & ->). exists n. apply elem_of_list_lookup. exists j. by rewrite lookup_take. }
  assert (TL : ∀ k l, l ∈ lits (take k ts) ↔ ∃ j w, j < k ∧ ts !! j = Some w ∧ lit_of l w).
  { intros k l. rewrite lits_in. split.
    - intros [n [j H]%elem_of_list_lookup]. apply lookup_take_Some in H as [H L].
      exists j, (TmLit n l). split_and!; [done|done|by exists n].
    - intros (j & w & L & H & n & ->). exists n. apply elem_of_list_lookup. exists j. by rewrite lookup_take. }
  split.
  - intros H. split_and!.
    + intros [k Hk]%elem_of_list_lookup. apply (H k _ Hk).
    + intros [n [k Hk]%elem_of_list_lookup]. by apply (H k _ Hk).
    + assert (W : ∀ i j x y, i < j → ts !! i = Some x → ts !! j = Some y → is_bare x → is_bare y → False).
      { intros i j x y L Hi Hj Bx [n ->]. specialize (H j _ Hj). change (bareb (take j ts) = false) in H.
        assert (bareb (take j ts) = true) by (apply TB; eauto). congruence. }
      intros i j x y Hi Hj Bx By. destruct (lt_eq_lt_dec i j) as [[L|]|L]; [|done|]; exfalso; eauto.
    + intros i j lit t u L Hi Hj Lt [n ->]. specialize (H j _ Hj) as [_ [H|H]].
      * by apply TB.
      * exfalso. apply H, TL. eauto.
  - intros (Hb & He & Ho & Hd) k t Hk. cbn [app]. destruct t as [n|n l|]; cbn [term_ok].
    + destruct (bareb (take k ts)) eqn:E; [|done]. apply TB in E as (j & w & L & Hj & Bw).
      assert (j = k); [|lia]. eapply Ho; [done|done|done|by exists n].
    + split; [intros ->; apply He; exists n; by eapply elem_of_list_lookup_2|].
      destruct (bareb (take k ts)) eqn:E; [by left|right].
      intros (j & w & L & Hj & Lw)%TL.
      assert (bareb (take k ts) = true); [|congruence]. apply TB. eapply Hd; eauto. by exists n.
    + apply Hb. by eapply elem_of_list_lookup_2.
Qed.

Section Accept.
  Variable rx_valid : string → bool.
  Variable rx_find : string → string → option (nat * nat).

  Lemma step_ok_iff v : v_unit v = true ∧ step_ok rx_valid rx_find v ↔ good_variant rx_valid rx_find v.
  Proof.
    assert (A1 := at_most_one_omap m_rx (λ m, ∃ rs, m = MRegex rs) (v_metas v)).
    assert (A2 := at_most_one_omap m_tm (λ m, ∃ ts, m = MTerminal ts) (v_metas v)).
    assert (E1 : ∀ m, (∃ rs, m = MRegex rs) ↔ is_Some (m_rx m)).
    { intros []; cbn; split; try (by intros [? [=]]); eauto. }
    assert (E2 : ∀ m, (∃ rs, m = MTerminal rs) ↔ is_Some (m_tm m)).
    { intros []; cbn; split; try (by intros [? [=]]); eauto. }
    specialize (A1 E1). specialize (A2 E2). clear E1 E2.
    unfold step_ok. rewrite terms_ok_iff, <- A1, <- A2, rx_of_has.
    assert (N : TmBad ∉ terms_of v → (has_regex v → none_or_empty (infer_of (terms_of v)) = true) ↔ (has_regex v → terms_of v ≠ [] → has_bare v)).
    { intros NB. assert (K : none_or_empty (infer_of (terms_of v)) = true ↔ (terms_of v ≠ [] → has_bare v)); [|tauto].
      rewrite <- bareb_has. unfold infer_of. destruct (bareb (terms_of v)) eqn:B; [done|].
      destruct (terms_of v) as [|t ts] eqn:T; [done|]. destruct t; cbn in *.
      - done.
      - split; [done|]. intros H. by discriminate H.
      - exfalso. apply NB. left. }
    split.
    - intros (U & O & M1 & M2 & (B & Z & P & D) & C & G & L). constructor; try done.
      + by apply N.
      + intros r l Hr Hl. apply L; [done|]. by apply lits_in.
    - intros []. split_and!; try done.
      + by apply N.
      + intros r l Hr Hl. apply gv_lits; [done|]. by apply lits_in.
  Qed.

  Lemma expand_iff d a : expand rx_valid rx_find d = inr a ↔
    good_decl rx_valid rx_find d ∧
    a = Acc (lexs 0 (d_variants d)) (attrs (d_variants d)) (extracts 0 (d_variants d)) (terminals 0 (d_variants d)).
  Proof.
    unfold expand, good_decl. rewrite <- check_ignore_iff.
    destruct (check_ignore _ _ (d_ignore d)) as [e|[]]; [naive_solver|].
    assert (U : check_enum_precondition (d_variants d) = inr tt ↔ Forall (λ v, v_unit v = true) (d_variants d)).
    { induction (d_variants d) as [|v vs IH]; cbn [check_enum_precondition]; [by split|].
      rewrite Forall_cons. destruct (v_unit v); [|naive_solver]. rewrite IH. naive_solver. }
    assert (F : Forall (good_variant rx_valid rx_find) (d_variants d) ↔
      Forall (λ v, v_unit v = true) (d_variants d) ∧ Forall (step_ok rx_valid rx_find) (d_variants d)).
    { rewrite <- Forall_and. apply Forall_iff. intros v. symmetry. apply step_ok_iff. }
    rewrite F, <- U.
    destruct (check_enum_precondition (d_variants d)) as [e|[]]; [naive_solver|].
    assert (R : (∃ w, repr_width (length (d_variants d)) = Some w) ↔ 1 ≤ length (d_variants d) ≤ 128).
    { unfold repr_width.
      repeat match goal with |- context [if ?b then _ else _] => destruct b eqn:?H end;
      rewrite ?Nat.eqb_eq, ?Nat.eqb_neq, ?Nat.leb_le, ?Nat.leb_gt in *; split; try lia; eauto; intros [? [=]]. }
    rewrite <- R. destruct (repr_width _) as [w|]; [|naive_solver].
    rewrite variant_loop_iff, adds_eq. cbn [ac_lex ac_attrs ac_extract ac_terms app]. naive_solver.
  Qed.
End Accept.

(** * What is generated *)
Lemma lexs_in vs : ∀ i k, k ∈ lexs i vs ↔ ∃ v, i ≤ k ∧ vs !! (k - i) = Some v ∧ lexb v = true.
Proof.
  induction vs as [|v vs IH]; intros i k; cbn [lexs].
  - rewrite lookup_nil. split; [by intros ?%not_elem_of_nil|by intros (? & _ & ? & _)].
  - rewrite elem_of_app, IH. split.
    + intros [H|(w & L & H & W)].
      * destruct (lexb v) eqn:E; [|by apply not_elem_of_nil in H].
        apply elem_of_list_singleton in H as ->. exists v. by rewrite Nat.sub_diag.
      * exists w. replace (k - i) with (S (k - S i)) by lia. split_and!; [lia|done|done].
    + intros (w & L & H & W). destruct (decide (k = i)) as [->|N].
      * left. rewrite Nat.sub_diag in H. injection H as ->. rewrite W. left.
      * right. exists w. replace (k - i) with (S (k - S i)) in H by lia. split_and!; [lia|done|done].
Qed.
Lemma lexs_sorted vs : ∀ i, NoDup (lexs i vs).
Proof.
  induction vs as [|v vs IH]; intros i; cbn [lexs]; [constructor|].
  destruct (lexb v); cbn [app]; [|done]. constructor; [|done].
  intros (w & L & _)%lexs_in. lia.
Qed.
Lemma extracts_in vs : ∀ i k, k ∈ extracts i vs ↔ ∃ v, i ≤ k ∧ vs !! (k - i) = Some v ∧ terms_of v = [].
Proof.
  induction vs as [|v vs IH]; intros i k; cbn [extracts].
  - rewrite lookup_nil. split; [by intros ?%not_elem_of_nil|by intros (? & _ & ? & _)].
  - rewrite elem_of_app, IH. split.
    + intros [H|(w & L & H & W)].
      * destruct (terms_of v) eqn:E; [|by apply not_elem_of_nil in H].
        apply elem_of_list_singleton in H as ->. exists v. by rewrite Nat.sub_diag.
      * exists w. replace (k - i) with (S (k - S i)) by lia. split_and!; [lia|done|done].
    + intros (w & L & H & W). destruct (decide (k = i)) as [->|N].
      * left. rewrite Nat.sub_diag in H. injection H as ->. rewrite W. left.
      * right. exists w. replace (k - i) with (S (k - S i)) in H by lia. split_and!; [lia|done|done].
Qed.
Lemma terminals_in vs : ∀ i x, x ∈ terminals i vs ↔
  ∃ v t, i ≤ tm_ty x ∧ vs !! (tm_ty x - i) = Some v ∧ t ∈ terms_of v ∧ t_make (tm_ty x) t = Some x.
Proof.
  assert (MK : ∀ i t x, t_make i t = Some x → tm_ty x = i) by (intros i [] x; cbn; naive_solver).
  induction vs as [|v vs IH]; intros i x; cbn [terminals].
  - rewrite lookup_nil. split; [by intros ?%not_elem_of_nil|by intros (? & ? & _ & ? & _)].
  - rewrite elem_of_app, IH, elem_of_list_omap. split.
    + intros [(t & H & E)|(w & t & L & H & W & E)].
      * assert (T := MK _ _ _ E). exists v, t. rewrite T, Nat.sub_diag. done.
      * exists w, t. replace (tm_ty x - i) with (S (tm_ty x - S i)) by lia. split_and!; [lia|done|done|done].
    + intros (w & t & L & H & W & E). destruct (decide (tm_ty x = i)) as [T|N].
      * left. rewrite T, Nat.sub_diag in H. injection H as ->. exists t. by rewrite T in E.
      * right. exists w, t. replace (tm_ty x - i) with (S (tm_ty x - S i)) in H by lia. split_and!; [lia|done|done|done].
Qed.

Lemma lexb_iff v : TmBad ∉ terms_of v → lexb v = true ↔ has_rules v.
Proof.
  intros NB. unfold has_rules. rewrite <- rx_of_has. unfold lexb.
  destruct (rx_of v) as [rs|]; [split; [by left; eexists|done]|].
  rewrite <- bareb_has. unfold infer_of.
  assert (NS : ¬ is_Some (@None (list string))) by (intros [? [=]]).
  destruct (bareb (terms_of v)) eqn:B; cbn [none_or_empty negb].
  { split; [done|]. intros [H|[_ H]]; [by apply NS in H|done]. }
  destruct (terms_of v) as [|t ts] eqn:T; cbn [none_or_empty negb lits omap list_omap].
  { split; [done|]. intros [H|[H _]]; [by apply NS in H|done]. }
  destruct t as [n|n l|]; cbn in *; [done| |exfalso; apply NB; left].
  split; [|done]. intros _. right. split; done.
Qed.
Lemma semantic_only_iff v : semantic_only v ↔ rx_of v = None ∧ terms_of v = [].
Proof.
  unfold semantic_only. rewrite <- rx_of_has. destruct (rx_of v); split.
  - intros [H _]. destruct H. eauto.
  - by intros [[=] _].
  - by intros [_ ->].
  - intros [_ ->]. split; [|done]. intros [? [=]].
Qed.
Lemma attr_of_lexb v : lexb v = true → ∃ rs, attr_of v = Some rs.
Proof. unfold lexb, attr_of. destruct (rx_of v); [eauto|]. destruct (infer_of _); [eauto|done]. Qed.
Lemma attr_of_not_lexb v : TmBad ∉ terms_of v → lexb v = false → (attr_of v = None ∧ ¬ semantic_only v) ∨ (attr_of v = Some [] ∧ semantic_only v).
Proof.
  intros NB. rewrite semantic_only_iff. unfold lexb, attr_of. destruct (rx_of v) eqn:R; [done|].
  unfold infer_of. destruct (bareb (terms_of v)) eqn:B.
  - intros _. left. split; [done|]. intros [_ E]. by rewrite E in B.
  - destruct (terms_of v) as [|t ts]; [by right|]. destruct t; cbn in *; try done.
    exfalso. apply NB. left.
Qed.
Lemma attr_of_declared v rs : TmBad ∉ terms_of v → length (omap m_rx (v_metas v)) ≤ 1 →
  attr_of v = Some rs → ∀ r, r ∈ rs ↔ declared v r.
Proof.
  intros NB L1 H r. unfold attr_of in H. unfold declared. assert (HR := rx_of_has v).
  assert (X : regexes_of v = default [] (rx_of v)) by (rewrite regexes_of_eq, concat_head; done).
  destruct (rx_of v) as [xs|] eqn:R.
  - injection H as <-. rewrite X. cbn. rewrite elem_of_list_fmap. destruct r as [x|l].
    + split; [by intros (y & [= ->] & H)|eauto].
    + split; [by intros (y & [=] & _)|]. intros (_ & H & _). destruct H. apply HR. eauto.
  - unfold infer_of in H. destruct (bareb (terms_of v)) eqn:B; [done|]. injection H as <-.
    rewrite X. cbn. rewrite elem_of_list_fmap. destruct r as [x|l].
    + split; [by intros (y & [=] & _)|by intros ?%not_elem_of_nil].
    + rewrite <- bareb_has, B, <- HR. unfold has_lit. rewrite <- lits_in. split.
      * intros (y & [= ->] & H). split_and!; [done|by intros [? [=]]|done].
      * intros (H & _). eauto.
Qed.

Lemma attrs_long vs i : length (lexs i vs) ≤ length (attrs vs).
Proof.
  revert i. induction vs as [|v vs IH]; intros i; [done|]. cbn [lexs]. unfold attrs. cbn.
  fold (attrs vs). specialize (IH (S i)). destruct (lexb v) eqn:E; cbn [app length].
  - destruct (attr_of_lexb v E) as [rs ->]. cbn. lia.
  - destruct (attr_of v); cbn; fold (attrs vs); lia.
Qed.

Lemma zip_aligned vs : ∀ i, Forall (λ v, TmBad ∉ terms_of v) vs → semantic_last vs →
  ∀ rs k, (rs, k) ∈ zip (attrs vs) (lexs i vs) ↔
    ∃ v, i ≤ k ∧ vs !! (k - i) = Some v ∧ lexb v = true ∧ attr_of v = Some rs.
Proof.
  induction vs as [|v vs IH]; intros i F SL rs k.
  { cbn. rewrite lookup_nil. split; [by intros ?%not_elem_of_nil|by intros (? & _ & ? & _)]. }
  apply Forall_cons in F as [NB F].
  assert (SL' : semantic_last vs).
  { intros a b x y L Ha Hb. apply (SL (S a) (S b) x y); [lia|done|done]. }
  specialize (IH (S i) F SL' rs k).
  assert (T : (∃ w, i ≤ k ∧ (v :: vs) !! (k - i) = Some w ∧ lexb w = true ∧ attr_of w = Some rs) ↔
    (k = i ∧ lexb v = true ∧ attr_of v = Some rs) ∨
    ∃ w, S i ≤ k ∧ vs !! (k - S i) = Some w ∧ lexb w = true ∧ attr_of w = Some rs).
  { split.
    - intros (w & L & H & W). destruct (decide (k = i)) as [->|N].
      + left. rewrite Nat.sub_diag in H. injection H as ->. done.
      + right. exists w. replace (k - i) with (S (k - S i)) in H by lia. split_and!; [lia|done|by destruct W|by destruct W].
    - intros [(-> & H)|(w & L & H & W)].
      + exists v. by rewrite Nat.sub_diag.
      + exists w. replace (k - i) with (S (k - S i)) by lia. split; [lia|done]. }
  rewrite T, <- IH. clear T IH. cbn [lexs]. unfold attrs. cbn [omap list_omap].
  destruct (lexb v) eqn:E.
  - destruct (attr_of_lexb v E) as [rs' Hr]. rewrite Hr. cbn [app zip zip_with]. rewrite elem_of_cons. naive_solver.
  - destruct (attr_of_not_lexb v NB E) as [[-> _]|[-> SO]]; [naive_solver|].
    assert (Z : lexs (S i) vs = []).
    { destruct (lexs (S i) vs) as [|j l] eqn:J; [done|]. exfalso.
      assert (I : j ∈ lexs (S i) vs) by (rewrite J; left).
      apply lexs_in in I as (w & L & H & W).
      eapply (SL 0 (S (j - S i)) v w); [lia|done|done|done|].
      apply lexb_iff; [|done]. rewrite Forall_forall in F. apply F. by eapply elem_of_list_lookup_2. }
    rewrite Z. cbn [app]. rewrite !zip_with_nil_r. split; [by intros ?%not_elem_of_nil|].
    intros [(_ & [=] & _)|?%not_elem_of_nil]; done.
Qed.

(** * The properties *)
Section Props.
  Variable rx_valid : string → bool.
  Variable rx_find : string → string → option (nat * nat).
  Notation expand := (expand rx_valid rx_find).

  Lemma accept_iff d : (∃ a, expand d = inr a) ↔ good_decl rx_valid rx_find d.
  Proof.
    split; [intros [a [H _]%expand_iff]; done|]. intros H. eexists. apply expand_iff. done.
  Qed.

  Lemma good_of d a i v : expand d = inr a → d_variants d !! i = Some v →
    good_variant rx_valid rx_find v.
  Proof.
    intros [(_ & _ & G) _]%expand_iff H. rewrite Forall_forall in G. apply G. by eapply elem_of_list_lookup_2.
  Qed.
  Lemma forms_of d a : expand d = inr a → Forall (λ v, TmBad ∉ terms_of v) (d_variants d).
  Proof.
    intros [(_ & _ & G) _]%expand_iff. eapply Forall_impl; [exact G|]. intros v []. done.
  Qed.

  Lemma rules_enum d a : expand d = inr a →
    (∀ i, i ∈ (derived_logos a).*2 ↔ ∃ v, d_variants d !! i = Some v ∧ has_rules v) ∧ NoDup (derived_logos a).*2.
  Proof.
    intros E. assert (F := forms_of _ _ E). apply expand_iff in E as [_ ->].
    unfold derived_logos. cbn [ac_attrs ac_lex]. rewrite snd_zip by apply attrs_long.
    split; [|apply lexs_sorted]. intros i. rewrite lexs_in, Nat.sub_0_r. split.
    - intros (v & _ & H & L). exists v. split; [done|]. apply lexb_iff; [|done].
      rewrite Forall_forall in F. apply F. by eapply elem_of_list_lookup_2.
    - intros (v & H & L). exists v. split_and!; [lia|done|]. apply lexb_iff; [|done].
      rewrite Forall_forall in F. apply F. by eapply elem_of_list_lookup_2.
  Qed.
  Lemma rules_right d a i rs : expand d = inr a → semantic_last (d_variants d) → (rs, i) ∈ derived_logos a →
    ∃ v, d_variants d !! i = Some v ∧ ∀ r, r ∈ rs ↔ declared v r.
  Proof.
    intros E SL H. assert (F := forms_of _ _ E). assert (G := λ v, good_of d a i v E).
    apply expand_iff in E as [_ ->]. unfold derived_logos in H. cbn [ac_attrs ac_lex] in H.
    apply zip_aligned in H as (v & _ & H & L & A); [|done|done].
    rewrite Nat.sub_0_r in H. exists v. split; [done|]. specialize (G v H) as [].
    apply attr_of_declared; [done| |done].
    apply (at_most_one_omap m_rx (λ m, ∃ rs, m = MRegex rs)); [|done].
    intros []; cbn; split; try (by intros [? [=]]); eauto.
  Qed.
  Lemma tokens_right rx_match d a src evs t : expand d = inr a → semantic_last (d_variants d) →
    tokenized rx_match a src evs → t ∈ raw_tokens evs →
    ∃ v r w, d_variants d !! t_ty t = Some v ∧ declared v r ∧ token_src t src = Some w ∧ rule_matches rx_match r w.
  Proof.
    intros E SL T H. destruct (T t H) as (rs & r & w & I & R & W & M).
    destruct (rules_right _ _ _ _ E SL I) as (v & V & D). exists v, r, w. split_and!; [done|by apply D|done|done].
  Qed.

  Lemma first_semantic d a v vs i : expand d = inr a → d_variants d = v :: vs → semantic_only v →
    (∃ w, d_variants d !! i = Some w ∧ has_rules w) →
    (∀ j w, j < i → d_variants d !! j = Some w → ¬ has_rules w) → ([], i) ∈ derived_logos a.
  Proof.
    intros E D S (w & Hw & R) Hmin. assert (F := forms_of _ _ E). apply expand_iff in E as [_ ->].
    assert (SI := S). apply semantic_only_iff in SI as [Sr St].
    unfold derived_logos. cbn [ac_attrs ac_lex].
    assert (LX : ∀ u, u ∈ d_variants d → lexb u = true ↔ has_rules u).
    { intros u U. apply lexb_iff. rewrite Forall_forall in F. by apply F. }
    assert (H0 : head (lexs 0 (d_variants d)) = Some i).
    { assert (K : ∀ l n, i = n + length l → (∀ u, u ∈ l → lexb u = false) →
        ∀ us, head (lexs n (l ++ w :: us)) = Some i).
      { induction l as [|u l IH]; intros n N A us; cbn [app lexs].
        - assert (lexb w = true) as ->; [|cbn in N |- *; f_equal; lia].
          apply LX; [by eapply elem_of_list_lookup_2|done].
        - rewrite (A u) by left. cbn [app]. apply IH; [cbn in N; lia|]. intros x X. apply A. by right. }
      rewrite <- (take_drop_middle _ _ _ Hw). apply K.
      - rewrite take_length_le; [done|]. apply lookup_lt_Some in Hw. lia.
      - intros u [j Hj]%elem_of_list_lookup. apply lookup_take_Some in Hj as [Hj L].
        destruct (lexb u) eqn:U; [|done]. exfalso. eapply Hmin; [exact L|exact Hj|].
        apply LX; [by eapply elem_of_list_lookup_2|done]. }
    assert (A : ∃ us, attrs (d_variants d) = [] :: us).
    { rewrite D. unfold attrs. cbn. unfold attr_of. rewrite Sr, St. cbn. eauto. }
    destruct A as [us ->]. destruct (lexs 0 (d_variants d)) as [|j l]; [done|]. injection H0 as ->. left.
  Qed.

  Lemma extract_iff d a i : expand d = inr a →
    should_extract a i = true ↔ ∃ v, d_variants d !! i = Some v ∧ terms_of v = [].
  Proof.
    intros [_ ->]%expand_iff. unfold should_extract. cbn [ac_extract]. rewrite existsb_exists.
    split.
    - intros (k & H & ->%Nat.eqb_eq). apply elem_of_list_In, extracts_in in H as (v & _ & H & L).
      rewrite Nat.sub_0_r in H. eauto.
    - intros (v & H & L). exists i. split; [|by apply Nat.eqb_eq]. apply elem_of_list_In, extracts_in.
      exists v. rewrite Nat.sub_0_r. split_and!; [lia|done|done].
  Qed.
  Lemma terms_made d a i n lit : expand d = inr a →
    Terminal n i lit ∈ ac_terms a ↔ ∃ v, d_variants d !! i = Some v ∧
      match lit with None => TmAny n ∈ terms_of v | Some l => TmLit n l ∈ terms_of v end.
  Proof.
    intros [_ ->]%expand_iff. cbn [ac_terms]. rewrite terminals_in. cbn [tm_ty]. rewrite Nat.sub_0_r. split.
    - intros (v & t & _ & H & T & M). exists v. split; [done|]. destruct t; cbn in M; naive_solver.
    - intros (v & H & T). destruct lit as [l|].
      + exists v, (TmLit n l). split_and!; [lia|done|done|done].
      + exists v, (TmAny n). split_and!; [lia|done|done|done].
  Qed.

  Lemma terms_nonempty v : TmBad ∉ terms_of v → terms_of v ≠ [] → has_bare v ∨ ∃ l, has_lit v l.
  Proof.
    unfold has_bare, has_lit. destruct (terms_of v) as [|[n|n l|] ts]; [done|..]; intros NB _.
    - left. exists n. left.
    - right. exists l, n. left.
    - exfalso. apply NB. left.
  Qed.

  Lemma reach_type d a A (m : M A) src evs x s t : expand d = inr a →
    run (should_extract a) m (pst_new src evs) = ODone x s →
    t ∈ consumed s ++ to_come (should_extract a) s → (∀ u, u ∈ raw_tokens evs → t_ty u < length (d_variants d)) →
    ∃ y, y ∈ ac_terms a ∧ tm_ty y = t_ty t.
  Proof.
    intros E R T B. assert (X := run_new_kept _ _ _ _ _ _ _ R T).
    assert (I : t ∈ raw_tokens evs).
    { assert (Q := run_new_tokens _ _ _ _ _ _ R). rewrite Q in T. by apply elem_of_list_filter in T as [_ T]. }
    destruct (lookup_lt_is_Some_2 (d_variants d) (t_ty t) (B t I)) as [v V].
    assert (G := good_of _ _ _ _ E V). destruct G.
    destruct (terms_nonempty v) as [[n N]|(l & n & N)].
    - done.
    - intros Z. assert (should_extract a (t_ty t) = true); [|congruence]. apply (extract_iff d); eauto.
    - exists (Terminal n (t_ty t) None). split; [|done]. apply (terms_made d); eauto.
    - exists (Terminal n (t_ty t) (Some l)). split; [|done]. apply (terms_made d); eauto.
  Qed.

  Lemma reach_text rx_match d a A (m : M A) src evs x s t : expand d = inr a → semantic_last (d_variants d) →
    tokenized rx_match a src evs →
    run (should_extract a) m (pst_new src evs) = ODone x s →
    t ∈ consumed s ++ to_come (should_extract a) s →
    ∃ y w, y ∈ ac_terms a ∧ tm_ty y = t_ty t ∧ token_src t src = Some w ∧ (tm_lit y = None ∨ tm_lit y = Some w).
  Proof.
    intros E SL K R T. assert (X := run_new_kept _ _ _ _ _ _ _ R T).
    assert (I : t ∈ raw_tokens evs).
    { assert (Q := run_new_tokens _ _ _ _ _ _ R). rewrite Q in T. by apply elem_of_list_filter in T as [_ T]. }
    destruct (tokens_right _ _ _ _ _ _ E SL K I) as (v & r & w & V & D & W & M).
    assert (G := good_of _ _ _ _ E V). destruct G.
    assert (NE : terms_of v ≠ []).
    { intros Z. assert (should_extract a (t_ty t) = true); [|congruence]. apply (extract_iff d); eauto. }
    destruct r as [r|l]; cbn in D, M.
    - destruct gv_needed as [n N]; [|done|].
      + unfold regexes_of in D. apply elem_of_list_bind in D as ([] & D & H); try by apply not_elem_of_nil in D.
        eexists. exact H.
      + exists (Terminal n (t_ty t) None), w. split_and!; [|done|done|by left]. apply (terms_made d); eauto.
    - destruct D as ((n & N) & _). subst. exists (Terminal n (t_ty t) (Some l)), l.
      split_and!; [|done|done|by right]. apply (terms_made d); eauto.
  Qed.

  Lemma good_in d a v : expand d = inr a → v ∈ d_variants d → good_variant rx_valid rx_find v.
  Proof. intros E [i H]%elem_of_list_lookup. by eapply good_of. Qed.
  Lemma one_bare d a v : expand d = inr a → v ∈ d_variants d → at_most_one is_bare (terms_of v).
  Proof. intros E H. by destruct (good_in _ _ _ E H). Qed.
  Lemma dup_late d a v : expand d = inr a → v ∈ d_variants d →
    ∀ i j n m lit, i < j → terms_of v !! i = Some (TmLit n lit) → terms_of v !! j = Some (TmLit m lit) →
    ∃ k u, k < j ∧ terms_of v !! k = Some (TmAny u).
  Proof.
    intros E H i j n m lit L Hi Hj. destruct (good_in _ _ _ E H).
    destruct (gv_dup i j lit _ _ L Hi Hj) as (k & w & Hk & Hw & u & ->); [by exists n|by exists m|eauto].
  Qed.
  Lemma dup_none d a v : expand d = inr a → v ∈ d_variants d → ¬ has_bare v →
    ∀ lit, at_most_one (lit_of lit) (terms_of v).
  Proof.
    intros E H NB lit.
    assert (W : ∀ i j x y, i < j → terms_of v !! i = Some x → terms_of v !! j = Some y → lit_of lit x → lit_of lit y → False).
    { intros i j x y L Hi Hj [n ->] [m ->]. destruct (dup_late _ _ _ E H _ _ _ _ _ L Hi Hj) as (k & u & _ & Hu).
      apply NB. exists u. by eapply elem_of_list_lookup_2. }
    intros i j x y Hi Hj Hx Hy. destruct (lt_eq_lt_dec i j) as [[L|]|L]; [|done|]; exfalso; eauto.
  Qed.
  Lemma terms_count d a : expand d = inr a →
    length (ac_terms a) = sum_list (map (λ v, length (terms_of v)) (d_variants d)).
  Proof.
    intros E. assert (F := forms_of _ _ E). apply expand_iff in E as [_ ->]. cbn [ac_terms].
    assert (K : ∀ n ts, TmBad ∉ ts → length (omap (t_make n) ts) = length ts).
    { intros n ts. induction ts as [|t ts IH]; [done|]. rewrite not_elem_of_cons. intros [N H].
      cbn. destruct t; [cbn; by rewrite IH|cbn; by rewrite IH|done]. }
    generalize 0. induction F as [|v vs NB F IH]; intros n; [done|]. cbn [terminals map sum_list].
    rewrite app_length, IH, K by done. done.
  Qed.
End Props.
