(** Parsing does not depend on the layout, nor on texts that are no literal: two runs on inputs whose tokens are alike. *)
From Coq Require Import String NArith.
From stdpp Require Import prelude list strings relations.
From Verif Require Import LexModel LexSpec LexFacts VecFacts SynSetModel TableModel StreamModel StreamSpec StreamFacts
  TypeModel ProduceModel ParseSpec ProgFacts RunFacts LayoutSpec SynSetFacts.
Local Open Scope nat_scope.
#[local] Arguments ts_contains : simpl never.
#[local] Arguments ts_contains_e : simpl never.

(** * Order of places *)
Definition rank (n : nat) (p : place) : nat :=
  match p with AtStart => 0 | Before i => 2 * i + 1 | Behind i => 2 * i + 2 | AtEnd => 2 * n + 1 end.
Section pos.
  Variables (src : string) (l : list token).
  Hypothesis Hok : spans_ok 0 (String.length src) (map t_span l).
  Lemma tok_pos i t : l !! i = Some t → sp_lo (t_span t) < sp_hi (t_span t) ∧ sp_hi (t_span t) ≤ String.length src.
  Proof.
    intros H. destruct (spans_ok_lookup _ _ _ i (t_span t) Hok) as (_ & H1 & H2); [|done].
    by rewrite list_lookup_fmap, H.
  Qed.
  Lemma tok_order i j t u : i < j → l !! i = Some t → l !! j = Some u → sp_hi (t_span t) ≤ sp_lo (t_span u).
  Proof.
    intros H Hi Hj. eapply (spans_ok_order _ _ _ i j _ _ Hok H); by rewrite list_lookup_fmap, ?Hi, ?Hj.
  Qed.
  Lemma pos_bound p a : position src l p = Some a → a ≤ String.length src.
  Proof.
    destruct p as [|i|i|]; cbn; [intros [= <-]; lia| | |intros [= <-]; done];
      intros (t & H & ->)%fmap_Some; apply tok_pos in H; lia.
  Qed.
  Lemma pos_mono p q a b : position src l p = Some a → position src l q = Some b →
    rank (length l) p ≤ rank (length l) q → a ≤ b.
  Proof.
    intros Hp Hq Hr. assert (Hb := pos_bound _ _ Hp).
    destruct p as [|i|i|]; cbn in Hp; [injection Hp as <-; lia| | |].
    - apply fmap_Some in Hp as (t & Ht & ->).
      destruct q as [|j|j|]; cbn in Hq, Hr; [lia| | |injection Hq as <-; lia];
        apply fmap_Some in Hq as (u & Hu & ->); destruct (tok_pos _ _ Ht), (tok_pos _ _ Hu);
        (destruct (decide (i = j)) as [->|]; [simplify_eq; lia|]);
        assert (H3 := tok_order i j t u ltac:(lia) Ht Hu); lia.
    - apply fmap_Some in Hp as (t & Ht & ->).
      destruct q as [|j|j|]; cbn in Hq, Hr; [lia| | |injection Hq as <-; lia];
        apply fmap_Some in Hq as (u & Hu & ->); destruct (tok_pos _ _ Ht), (tok_pos _ _ Hu);
        (destruct (decide (i = j)) as [->|]; [simplify_eq; lia|]);
        assert (H3 := tok_order i j t u ltac:(lia) Ht Hu); lia.
    - injection Hp as <-. destruct q as [|j|j|]; cbn in Hq, Hr; [lia| | |injection Hq as <-; lia];
        apply fmap_Some in Hq as (u & Hu & ->); apply lookup_lt_Some in Hu; lia.
  Qed.
End pos.

(** * Other literals *)
Lemma respell_id t : respell (λ _ x, x) t = t.
Proof.
  revert t. fix IH 1. intros [n y x|n|l|t|t|t|t|t|t|t|t|t p|t p|t p]; cbn; rewrite ?(IH t), ?(IH p); try exact eq_refl.
  - by destruct x.
  - f_equal. induction l as [|t l IHl]; [exact eq_refl|]. cbn. rewrite (IH t). by f_equal.
Qed.
Lemma respell_env_id env : respell_env (λ _ x, x) env = env.
Proof.
  assert (H : ∀ fs : list field, map (λ f, (respell (λ _ x, x) f.1, f.2)) fs = fs).
  { induction fs as [|[t sem] fs IH]; [done|]. cbn. by rewrite respell_id, IH. }
  unfold respell_env. induction env as [|[fs|fs] env IH]; [done|..]; cbn; by rewrite H, IH.
Qed.

Section rel.
  Variables (src1 : string) (l1 : list token) (src2 : string) (l2 : list token).
  Hypothesis Hok1 : spans_ok 0 (String.length src1) (map t_span l1).
  Hypothesis Hok2 : spans_ok 0 (String.length src2) (map t_span l2).
  (** Tokens that correspond, and sets that do: [sees] sets do not tell corresponding tokens apart *)
  Variables (alike : tok → tok → Prop) (sees : tset → tset → Prop).
  Hypothesis Halike : ∀ a b, alike a b → fst a = fst b.
  Hypothesis Hsees : ∀ s s' a b, sees s s' → alike a b → ts_contains s (Some a) = ts_contains s' (Some b).
  Hypothesis Hsees_e : ∀ s s', sees s s' → ts_contains_e s = ts_contains_e s' ∧ ts_contains s None = ts_contains s' None.
  Hypothesis Hone : ∀ y, sees (fs_one y None) (fs_one y None).
  Hypothesis Hpunct : ∀ fol fol' ef ef', sees fol fol' → sees ef ef' →
    sees (fst (fs_union_minus_eps (fst (ts_remove_e fol)) ef)) (fst (fs_union_minus_eps (fst (ts_remove_e fol')) ef')).
  Hypothesis Hw : Forall2 alike (word src1 l1) (word src2 l2).
  Notation same_place := (same_place src1 l1 src2 l2).
  Notation same_span := (same_span src1 l1 src2 l2).
  Notation same_tree := (same_tree src1 l1 src2 l2).
  Notation same_error := (like_error src1 l1 src2 l2 sees).
  Notation position1 := (position src1 l1).
  Notation position2 := (position src2 l2).

  Lemma same_len : length l1 = length l2.
  Proof. apply Forall2_length in Hw. unfold word in Hw. by rewrite !map_length in Hw. Qed.

  Lemma same_max a b a' b' : same_place a a' → same_place b b' → same_place (Nat.max a b) (Nat.max a' b').
  Proof.
    intros (p & Hp1 & Hp2) (q & Hq1 & Hq2).
    destruct (decide (rank (length l1) p ≤ rank (length l1) q)) as [H|H].
    - assert (a ≤ b) by by eapply (pos_mono src1 l1 Hok1 p q).
      assert (a' ≤ b') by (eapply (pos_mono src2 l2 Hok2 p q); [done..|by rewrite <- same_len]).
      exists q. rewrite !Nat.max_r by done. done.
    - assert (b ≤ a) by (eapply (pos_mono src1 l1 Hok1 q p); [done..|lia]).
      assert (b' ≤ a') by (eapply (pos_mono src2 l2 Hok2 q p); [done..|rewrite <- same_len; lia]).
      exists p. rewrite !Nat.max_l by done. done.
  Qed.
  Lemma same_before a a' i t1 t2 : same_place a a' → l1 !! i = Some t1 → l2 !! i = Some t2 →
    a ≤ sp_lo (t_span t1) ↔ a' ≤ sp_lo (t_span t2).
  Proof.
    intros (p & Hp1 & Hp2) H1 H2. destruct (tok_pos _ _ Hok1 _ _ H1) as [? _], (tok_pos _ _ Hok2 _ _ H2) as [? _].
    destruct (decide (rank (length l1) p ≤ rank (length l1) (Before i))) as [Hr|Hr].
    - assert (a ≤ sp_lo (t_span t1)) by (eapply (pos_mono src1 l1 Hok1 p (Before i)); [done|cbn; by rewrite H1|done]).
      assert (a' ≤ sp_lo (t_span t2)) by (eapply (pos_mono src2 l2 Hok2 p (Before i)); [done|cbn; by rewrite H2|by rewrite <- same_len]).
      done.
    - assert (rank (length l1) (Behind i) ≤ rank (length l1) p) as H' by (cbn in *; lia).
      assert (sp_hi (t_span t1) ≤ a) by (eapply (pos_mono src1 l1 Hok1 (Behind i) p); [cbn; by rewrite H1|done|done]).
      assert (sp_hi (t_span t2) ≤ a') by (eapply (pos_mono src2 l2 Hok2 (Behind i) p); [cbn; by rewrite H2|done|by rewrite <- same_len]).
      lia.
  Qed.
  Lemma same_behind a a' i t1 t2 : same_place a a' → l1 !! i = Some t1 → l2 !! i = Some t2 →
    sp_hi (t_span t1) ≤ a ↔ sp_hi (t_span t2) ≤ a'.
  Proof.
    intros (p & Hp1 & Hp2) H1 H2. destruct (tok_pos _ _ Hok1 _ _ H1) as [? _], (tok_pos _ _ Hok2 _ _ H2) as [? _].
    destruct (decide (rank (length l1) (Behind i) ≤ rank (length l1) p)) as [Hr|Hr].
    - assert (sp_hi (t_span t1) ≤ a) by (eapply (pos_mono src1 l1 Hok1 (Behind i) p); [cbn; by rewrite H1|done|done]).
      assert (sp_hi (t_span t2) ≤ a') by (eapply (pos_mono src2 l2 Hok2 (Behind i) p); [cbn; by rewrite H2|done|by rewrite <- same_len]).
      done.
    - assert (rank (length l1) p ≤ rank (length l1) (Before i)) as H' by (cbn in *; lia).
      assert (a ≤ sp_lo (t_span t1)) by (eapply (pos_mono src1 l1 Hok1 p (Before i)); [done|cbn; by rewrite H1|done]).
      assert (a' ≤ sp_lo (t_span t2)) by (eapply (pos_mono src2 l2 Hok2 p (Before i)); [done|cbn; by rewrite H2|by rewrite <- same_len]).
      lia.
  Qed.

  (** Tokens and look-aheads *)
  Definition tok_rel (a b : token) : Prop := ∃ i, l1 !! i = Some a ∧ l2 !! i = Some b.
  Definition cur_rel (a b : span) : Prop :=
    (∃ i t u, l1 !! i = Some t ∧ l2 !! i = Some u ∧ a = t_span t ∧ b = t_span u) ∨
    (a = eof_span src1 ∧ b = eof_span src2).
  Lemma tok_text a b : tok_rel a b → t_ty a = t_ty b ∧ ∃ x y, token_src a src1 = Some x ∧ token_src b src2 = Some y ∧ alike (t_ty a, x) (t_ty b, y).
  Proof.
    intros (i & Ha & Hb). assert (E := Forall2_lookup_lr alike _ _ i (t_ty a, default ""%string (text_of src1 a)) (t_ty b, default ""%string (text_of src2 b)) Hw).
    unfold word in E. cbn in E. rewrite !list_lookup_fmap, Ha, Hb in E. cbn in E. specialize (E eq_refl eq_refl).
    split; [by apply Halike in E|].
    destruct (tok_pos _ _ Hok1 _ _ Ha), (tok_pos _ _ Hok2 _ _ Hb). unfold text_of, token_src in *.
    destruct (span_get_spec (t_span a) src1) as [(x & Hx & _) _]; [lia..|].
    destruct (span_get_spec (t_span b) src2) as [(y & Hy & _) _]; [lia..|].
    rewrite Hx, Hy in E. cbn in E. eauto.
  Qed.
  Lemma see s s' o o' : sees s s' → option_Forall2 alike o o' → ts_contains s o = ts_contains s' o'.
  Proof. intros H [a b Hab|]; [by apply Hsees|by apply Hsees_e]. Qed.
  Lemma see_e s s' : sees s s' → ts_contains_e s = ts_contains_e s'.
  Proof. intros H. by apply Hsees_e. Qed.
  Lemma none (o o' : option tok) : option_Forall2 alike o o' → bool_decide (o = None) = bool_decide (o' = None).
  Proof. intros H. apply bool_decide_ext. by destruct H. Qed.
  Lemma cur_same a b : cur_rel a b → same_span a b.
  Proof.
    intros [(i & t & u & Ht & Hu & -> & ->)|[-> ->]].
    - split; [exists (Before i)|exists (Behind i)]; cbn; by rewrite Ht, Hu.
    - split; by exists AtEnd.
  Qed.
  Lemma cur_lo a b a' b' : cur_rel a a' → cur_rel b b' → (sp_lo a =? sp_lo b) = (sp_lo a' =? sp_lo b').
  Proof.
    assert (Hlt : ∀ i j t u, i < j → l1 !! i = Some t → l1 !! j = Some u → sp_lo (t_span t) < sp_lo (t_span u)).
    { intros i j t u Hij Ht Hu. destruct (tok_pos _ _ Hok1 _ _ Ht). assert (Ho := tok_order _ _ Hok1 i j t u Hij Ht Hu). lia. }
    assert (Hlt2 : ∀ i j t u, i < j → l2 !! i = Some t → l2 !! j = Some u → sp_lo (t_span t) < sp_lo (t_span u)).
    { intros i j t u Hij Ht Hu. destruct (tok_pos _ _ Hok2 _ _ Ht). assert (Ho := tok_order _ _ Hok2 i j t u Hij Ht Hu). lia. }
    intros [(i & t & t' & Ht & Ht' & -> & ->)|[-> ->]] [(j & u & u' & Hu & Hu' & -> & ->)|[-> ->]].
    - destruct (lt_eq_lt_dec i j) as [[H| ->]|H].
      + assert (H1 := Hlt i j _ _ H Ht Hu). assert (H2 := Hlt2 i j _ _ H Ht' Hu').
        by rewrite !(proj2 (Nat.eqb_neq _ _)) by lia.
      + simplify_eq. by rewrite !Nat.eqb_refl.
      + assert (H1 := Hlt j i _ _ H Hu Ht). assert (H2 := Hlt2 j i _ _ H Hu' Ht').
        by rewrite !(proj2 (Nat.eqb_neq _ _)) by lia.
    - destruct (tok_pos _ _ Hok1 _ _ Ht), (tok_pos _ _ Hok2 _ _ Ht'). cbn.
      by rewrite !(proj2 (Nat.eqb_neq _ _)) by lia.
    - destruct (tok_pos _ _ Hok1 _ _ Hu), (tok_pos _ _ Hok2 _ _ Hu'). cbn.
      by rewrite !(proj2 (Nat.eqb_neq _ _)) by lia.
    - cbn. by rewrite !Nat.eqb_refl.
  Qed.

  (** * Related programs *)
  Fixpoint relM {A B} (R : A → B → Prop) (m1 : M A) (m2 : M B) {struct m1} : Prop :=
    match m1, m2 with
    | Ret a, Ret b => R a b
    | Fuel, Fuel => True
    | Peek k1, Peek k2 => ∀ x y, option_Forall2 tok_rel x y → relM R (k1 x) (k2 y)
    | ToSrc t1 k1, ToSrc t2 k2 => tok_rel t1 t2 ∧ ∀ x y, alike x y → fst x = t_ty t1 → relM R (k1 x) (k2 y)
    | Consume k1, Consume k2 => ∀ x y, option_Forall2 tok_rel x y → relM R (k1 x) (k2 y)
    | EmptySpan k1, EmptySpan k2 => ∀ x y, same_span x y → relM R (k1 x) (k2 y)
    | CurSpan k1, CurSpan k2 => ∀ x y, cur_rel x y → relM R (k1 x) (k2 y)
    | GetSrc s1 k1, GetSrc s2 k2 => same_span s1 s2 ∧ ∀ x y, relM R (k1 x) (k2 y)
    | Apply s1 e1 k1, Apply s2 e2 k2 => same_span s1 s2 ∧ e1 = e2 ∧ relM R k1 k2
    | Extend e1 k1, Extend e2 k2 => relM R k1 k2
    | _, _ => False
    end.
  Lemma relM_bind {A B C D} (R : A → B → Prop) (S : C → D → Prop) m1 m2 f g :
    relM R m1 m2 → (∀ a b, R a b → relM S (f a) (g b)) → relM S (m1 ≫= f) (m2 ≫= g).
  Proof.
    intros H Hf. rewrite !bindM_eq. revert m2 H.
    induction m1 as [a| |k IH|t k IH|k IH|k IH|k IH|sp k IH|sp sem k IH|es k IH]; intros [] H; cbn [relM bindM] in *; try done;
      naive_solver.
  Qed.
  Lemma relM_mono {A B} (R S : A → B → Prop) m1 m2 : relM R m1 m2 → (∀ a b, R a b → S a b) → relM S m1 m2.
  Proof.
    intros H Hf. revert m2 H.
    induction m1 as [a| |k IH|t k IH|k IH|k IH|k IH|sp k IH|sp sem k IH|es k IH]; intros [] H; cbn [relM] in *; try done;
      naive_solver.
  Qed.

  (** * Related states *)
  Definition st_rel (s1 s2 : ast) : Prop :=
    a_src s1 = src1 ∧ a_src s2 = src2 ∧ map c_tok (a_done s1) ++ a_rest s1 = l1 ∧
    map c_tok (a_done s2) ++ a_rest s2 = l2 ∧ map c_sem (a_done s1) = map c_sem (a_done s2).
  Definition out_rel {A B} (R : A → B → Prop) (o1 : out A ast) (o2 : out B ast) : Prop :=
    match o1, o2 with
    | OFuel, OFuel => True
    | ODone a s1, ODone b s2 => R a b ∧ st_rel s1 s2
    | _, _ => False
    end.
  Lemma st_length s1 s2 : st_rel s1 s2 → length (a_done s1) = length (a_done s2).
  Proof. intros (_ & _ & _ & _ & H). apply (f_equal length) in H. by rewrite !map_length in H. Qed.
  Lemma st_head s1 s2 : st_rel s1 s2 → option_Forall2 tok_rel (head (a_rest s1)) (head (a_rest s2)).
  Proof.
    intros H. assert (Hl := st_length _ _ H). destruct H as (_ & _ & H1 & H2 & _). assert (Hn := same_len).
    assert (E1 : l1 !! length (a_done s1) = head (a_rest s1)).
    { rewrite <- H1, lookup_app_r, map_length, Nat.sub_diag; rewrite ?map_length; [by destruct (a_rest s1)|lia]. }
    assert (E2 : l2 !! length (a_done s1) = head (a_rest s2)).
    { rewrite <- H2, lookup_app_r, map_length, Hl, Nat.sub_diag; rewrite ?map_length; [by destruct (a_rest s2)|lia]. }
    destruct (head (a_rest s1)) as [t|] eqn:Et, (head (a_rest s2)) as [u|] eqn:Eu.
    - constructor. by exists (length (a_done s1)).
    - apply lookup_lt_Some in E1. apply lookup_ge_None in E2. lia.
    - apply lookup_lt_Some in E2. apply lookup_ge_None in E1. lia.
    - constructor.
  Qed.
  Lemma st_cur s1 s2 : st_rel s1 s2 → cur_rel (a_span s1) (a_span s2).
  Proof.
    intros H. assert (Hh := st_head _ _ H). destruct H as (E1 & E2 & _). unfold a_span. rewrite E1, E2.
    destruct (a_rest s1) as [|t r], (a_rest s2) as [|u r']; inversion Hh as [? ? (i & Ht & Hu)|]; subst.
    - by right.
    - left. naive_solver.
  Qed.
  Lemma st_end s1 s2 : st_rel s1 s2 → same_place (end_of (a_done s1)) (end_of (a_done s2)).
  Proof.
    intros H. assert (Hl := st_length _ _ H). destruct H as (_ & _ & H1 & H2 & _). unfold end_of.
    destruct (last (a_done s1)) as [c|] eqn:Ec, (last (a_done s2)) as [d|] eqn:Ed.
    - rewrite last_lookup in Ec, Ed. exists (Behind (pred (length (a_done s1)))). cbn.
      rewrite <- H1, <- H2, !lookup_app_l, !list_lookup_fmap, Ec by
        (rewrite map_length, ?Hl; (apply lookup_lt_Some in Ec || apply lookup_lt_Some in Ed); rewrite ?Hl in *; lia).
      rewrite Hl, Ed. done.
    - apply last_None in Ed. rewrite Ed in Hl. destruct (a_done s1); [by cbn in Ec|by cbn in Hl].
    - apply last_None in Ec. rewrite Ec in Hl. destruct (a_done s2); [by cbn in Ed|by cbn in Hl].
    - by exists AtStart.
  Qed.
  Lemma st_apply s1 s2 sp1 sp2 sem : st_rel s1 s2 → same_span sp1 sp2 → st_rel (mark s1 sp1 sem) (mark s2 sp2 sem).
  Proof.
    intros H Hsp. assert (Hl := st_length _ _ H). destruct H as (E1 & E2 & H1 & H2 & H3).
    unfold mark, st_rel. cbn [a_src a_done a_rest]. rewrite !apply_toks. split_and!; try done.
    assert (C1 : cells_ok (String.length src1) (a_done s1)).
    { unfold cells_ok. rewrite <- H1, map_app, map_map in Hok1. by apply spans_ok_prefix in Hok1. }
    assert (C2 : cells_ok (String.length src2) (a_done s2)).
    { unfold cells_ok. rewrite <- H2, map_app, map_map in Hok2. by apply spans_ok_prefix in Hok2. }
    rewrite (vec_apply_spec _ _ _ _ C1), (vec_apply_spec _ _ _ _ C2). apply list_eq. intros i.
    rewrite !list_lookup_fmap. assert (E := f_equal (.!! i) H3). cbn in E. rewrite !list_lookup_fmap in E.
    destruct (a_done s1 !! i) as [c|] eqn:Ec, (a_done s2 !! i) as [d|] eqn:Ed; try done. cbn in E |- *. injection E as E.
    assert (T1 : l1 !! i = Some (c_tok c)).
    { rewrite <- H1. apply lookup_app_l_Some. by rewrite list_lookup_fmap, Ec. }
    assert (T2 : l2 !! i = Some (c_tok d)).
    { rewrite <- H2. apply lookup_app_l_Some. by rewrite list_lookup_fmap, Ed. }
    destruct Hsp as [Hlo Hhi].
    assert (P1 := same_before _ _ _ _ _ Hlo T1 T2). assert (P2 := same_behind _ _ _ _ _ Hhi T1 T2).
    assert (Hi : is_inside sp1 c ↔ is_inside sp2 d) by (unfold is_inside, c_lo, c_hi; tauto).
    destruct (decide (is_inside sp1 c)), (decide (is_inside sp2 d)); try tauto; cbn; by rewrite E.
  Qed.
  Lemma st_text s1 s2 sp1 sp2 : st_rel s1 s2 → same_span sp1 sp2 →
    (∃ x, span_get sp1 src1 = Some x) ∧ ∃ y, span_get sp2 src2 = Some y.
  Proof.
    intros _ [(p & P1 & P2) _]. apply (pos_bound _ _ Hok1) in P1. apply (pos_bound _ _ Hok2) in P2. unfold span_get.
    split.
    - destruct (sp_hi sp1 <=? sp_lo sp1) eqn:E; [eauto|]. apply Nat.leb_gt in E.
      rewrite (proj2 (Nat.ltb_ge _ _)) by lia. eauto.
    - destruct (sp_hi sp2 <=? sp_lo sp2) eqn:E; [eauto|]. apply Nat.leb_gt in E.
      rewrite (proj2 (Nat.ltb_ge _ _)) by lia. eauto.
  Qed.

  Lemma relM_run {A B} (R : A → B → Prop) m1 m2 s1 s2 : relM R m1 m2 → st_rel s1 s2 → out_rel R (arun m1 s1) (arun m2 s2).
  Proof.
    revert m2 s1 s2. induction m1 as [a| |k IH|t k IH|k IH|k IH|k IH|sp k IH|sp sem k IH|es k IH];
      intros [] s1 s2 H Hs; cbn [relM arun] in *; try done.
    - apply IH; [|done]. apply H. by apply st_head.
    - destruct H as [Ht H]. destruct (tok_text _ _ Ht) as (E & x & y & Hx & Hy & Hxy). assert (E1 := Hs). destruct E1 as (-> & -> & _).
      rewrite Hx, Hy. apply IH; [by apply H|done].
    - assert (Hh := st_head _ _ Hs). assert (Hs' := Hs). destruct Hs' as (E1 & E2 & H1 & H2 & H3).
      destruct (a_rest s1) as [|t r] eqn:Er, (a_rest s2) as [|u r'] eqn:Er'; inversion Hh; subst.
      + apply IH; [|done]. by apply H.
      + apply IH; [by apply H|]. unfold st_rel, vec_push. cbn [a_src a_done a_rest].
        rewrite !map_app, <- !(assoc_L (++)), H3. cbn. rewrite H1, H2. done.
    - apply IH; [|done]. apply H. assert (He := st_end _ _ Hs). by split.
    - apply IH; [|done]. apply H. by apply st_cur.
    - destruct H as [Hsp H]. destruct (st_text _ _ _ _ Hs Hsp) as [[x Hx] [y Hy]].
      assert (E1 := Hs). destruct E1 as (-> & -> & _). rewrite Hx, Hy. by apply IH.
    - destruct H as (Hsp & -> & H). apply IH; [done|]. by apply (st_apply _ _ _ _ _ Hs Hsp).
    - by apply IH.
  Qed.

  (** * Trees *)
  Lemma same_start : same_place 0 0.
  Proof. by exists AtStart. Qed.
  Lemma same_lo x y : same_tree x y → same_place (tree_lo x) (tree_lo y).
  Proof.
    revert x y. fix IH 3. intros x y [a b Ht [H _]|l l' H|i u v H|sp sp' [H _]|sp sp' u v [H _] Hu|sp sp' b [H _]
      |sp sp' u v [H _]|sp sp' u v [H _]|sp sp' l l' [H _] _|sp sp' l l' d d' [H _] _ _|sp sp' l l' d d' [H _] _ _
      |sp sp' u v [H _] _|sp sp' h h' u v [H _] _ _]; cbn [tree_lo]; try exact H.
    - destruct H as [|u v l l' H]; [exact same_start|]. by apply IH.
    - by apply IH.
  Qed.
  Lemma same_hi x y : same_tree x y → same_place (tree_hi x) (tree_hi y).
  Proof.
    revert x y. fix IH 3. intros x y [a b Ht [_ H]|l l' H|i u v H|sp sp' [_ H]|sp sp' u v [_ H] Hu|sp sp' b [_ H]
      |sp sp' u v [_ H]|sp sp' u v [_ H]|sp sp' l l' [_ H] _|sp sp' l l' d d' [_ H] _ _|sp sp' l l' d d' [_ H] _ _
      |sp sp' u v _ H|sp sp' h h' u v _ _ H]; cbn [tree_hi]; try exact H.
    - induction H as [|u v r r' Hu Hr IHl]; [exact same_start|].
      destruct r as [|u' q], r' as [|v' q']; [by apply IH|by inversion Hr|by inversion Hr|exact IHl].
    - by apply IH.
    - by apply IH.
    - by apply IH.
  Qed.
  Lemma same_tree_span x y : same_tree x y → same_span (tree_span x) (tree_span y).
  Proof. intros H. split; [by apply same_lo|by apply same_hi]. Qed.

  (** * Results *)
  Lemma one_same {A B} (R : A → B → Prop) x y : R x y → Forall2 R [x] [y].
  Proof. intros H. constructor; [done|constructor]. Qed.
  Definition res_rel {A B} (R : A → B → Prop) (r1 : res A) (r2 : res B) : Prop :=
    match r1, r2 with
    | RSucc a, RSucc b => R a b
    | RRec a e, RRec b e' => R a b ∧ Forall2 same_error e e'
    | RPanic e, RPanic e' => Forall2 same_error e e'
    | _, _ => False
    end.
  Lemma res_rel_unres {A B} (R : A → B → Prop) r1 r2 : res_rel R r1 r2 →
    option_Forall2 R (unres r1).1 (unres r2).1 ∧ Forall2 same_error (unres r1).2 (unres r2).2.
  Proof. destruct r1, r2; cbn; try done; repeat constructor; naive_solver. Qed.
  Lemma res_rel_into {A B} (R : A → B → Prop) a b e e' : R a b → Forall2 same_error e e' → res_rel R (res_into a e) (res_into b e').
  Proof. intros H He. destruct He; cbn; [done|]. split; [done|]. by constructor. Qed.
  Lemma res_rel_map {A B C D} (R : A → B → Prop) (S : C → D → Prop) f g r1 r2 : res_rel R r1 r2 →
    (∀ a b, R a b → S (f a) (g b)) → res_rel S (res_map f r1) (res_map g r2).
  Proof. intros H Hf. destruct r1, r2; cbn in *; naive_solver. Qed.

  Notation same_trees := (Forall2 same_tree).
  Notation same_errors := (Forall2 same_error).
  Notation same_panic := (option_Forall2 same_error).
  Notation relT := (relM (res_rel same_tree)).

  Lemma set_hi_same e e' h h' : same_error e e' → same_place h h' → same_error (set_hi e h) (set_hi e' h').
  Proof. intros (H1 & H2 & H3) H. by split. Qed.
  Lemma last_same {A B} (R : A → B → Prop) l l' : Forall2 R l l' → option_Forall2 R (last l) (last l').
  Proof.
    induction 1 as [|x y l l' H Hl IH]; [constructor|]. rewrite !last_cons.
    inversion IH as [? ? ? E1 E2|E1 E2]; by constructor.
  Qed.
  Lemma merge_same p p' e e' : same_panic p p' → same_errors e e' → same_panic (merge_panic p e) (merge_panic p' e').
  Proof.
    intros Hp He. unfold merge_panic. apply last_same in He. destruct He as [x y H|]; [|done].
    destruct Hp as [q q' Hq|]; constructor; [|done]. apply set_hi_same; [done|]. apply H.
  Qed.
  Lemma option_list_same {A B} (R : A → B → Prop) o o' : option_Forall2 R o o' → Forall2 R (option_list o) (option_list o').
  Proof. intros [x y H|]; cbn; [by apply one_same|constructor]. Qed.

  Lemma rel_peek_src {A B} (R : A → B → Prop) k k' : (∀ tk tk', option_Forall2 alike tk tk' → relM R (k tk) (k' tk')) → relM R (peek_src ≫= k) (peek_src ≫= k').
  Proof.
    intros H. apply (relM_bind (option_Forall2 alike)).
    - cbn. intros x y [a b Hab|]; cbn; [|constructor]. split; [done|]. intros u v Huv _. by constructor.
    - intros a b Hab. by apply H.
  Qed.
  Lemma rel_cur {A B} (R : A → B → Prop) k k' : (∀ a b, cur_rel a b → relM R (k a) (k' b)) → relM R (cur_span ≫= k) (cur_span ≫= k').
  Proof. intros H. apply (relM_bind cur_rel); [|done]. by cbn. Qed.
  Lemma rel_empty {A B} (R : A → B → Prop) k k' : (∀ a b, same_span a b → relM R (k a) (k' b)) → relM R (empty_span ≫= k) (empty_span ≫= k').
  Proof. intros H. apply (relM_bind same_span); [|done]. by cbn. Qed.
  Lemma rel_consume {A B} (R : A → B → Prop) k k' : (∀ a b, relM R (k a) (k' b)) → relM R (consume ≫= k) (consume ≫= k').
  Proof. intros H. apply (relM_bind (λ _ _, True)); [|done]. by cbn. Qed.
  Lemma rel_expecting {A B} (R : A → B → Prop) s s' k k' : sees s s' → (∀ a b, same_error a b → relM R (k a) (k' b)) → relM R (expecting s ≫= k) (expecting s' ≫= k').
  Proof. intros Hs H. apply (relM_bind same_error); [|done]. cbn. intros x y Hxy. split; [done|]. by apply cur_same. Qed.
  Lemma rel_eof {A B} (R : A → B → Prop) k k' : (∀ a b, same_error a b → relM R (k a) (k' b)) → relM R (unexpected_eof ≫= k) (unexpected_eof ≫= k').
  Proof. intros H. apply (relM_bind same_error); [|done]. cbn. intros x y Hxy. split; [done|]. by apply cur_same. Qed.

  Definition made (a b : token) : Prop := t_ty a = t_ty b ∧ same_span (t_span a) (t_span b).
  Lemma tok_made a b : tok_rel a b → made a b.
  Proof. intros H. split; [by apply tok_text|]. apply cur_same. left. destruct H as (i & H1 & H2). by exists i, a, b. Qed.
  Lemma rel_token y : relM (res_rel made) (parse_token y) (parse_token y).
  Proof.
    unfold parse_token. apply (relM_bind (option_Forall2 tok_rel)); [by cbn|]. intros x x' Hx. cbn zeta.
    assert (Hf : relM (res_rel made) (sp ← cur_span; mret (RPanic [PErr sp (Expecting (fs_one y None))]))
                      (sp ← cur_span; mret (RPanic [PErr sp (Expecting (fs_one y None))]))).
    { apply rel_cur. intros a b Hab. cbn. apply one_same. split; [apply Hone|]. by apply cur_same. }
    destruct Hx as [t u Htu|]; [|exact Hf]. destruct (tok_text _ _ Htu) as (E & _). rewrite E.
    destruct (t_ty u =? y); [|exact Hf]. apply rel_consume. intros _ _. cbn. by apply tok_made.
  Qed.
  Definition spelled (y : nat) (x x' : string) : Prop :=
    sees (fs_one y (Some x)) (fs_one y (Some x')) ∧ ∀ z z', alike (y, z) (y, z') → z = x ↔ z' = x'.
  Lemma rel_token_lit y x x' fol fol' : spelled y x x' → sees fol fol' → relM (res_rel made) (parse_token_lit y x fol) (parse_token_lit y x' fol').
  Proof.
    intros [Hone' Hx] Hfol. unfold parse_token_lit. apply (relM_bind (option_Forall2 tok_rel)); [by cbn|]. intros o o' [t u Htu|].
    - split; [done|]. intros z z' Hz Hty. destruct (tok_text _ _ Htu) as (E & _). rewrite E.
      assert (El : (t_ty u =? y) && bool_decide (z.2 = x) = (t_ty u =? y) && bool_decide (z'.2 = x')).
      { destruct (t_ty u =? y) eqn:Ey; [|done]. apply Nat.eqb_eq in Ey. cbn. apply bool_decide_ext.
        assert (E1 := Halike _ _ Hz). destruct z as [zy zx], z' as [zy' zx']; cbn in *; subst. apply Hx. by rewrite <- E. }
      rewrite El. clear El.
      rewrite (see _ _ _ _ Hfol (Some_Forall2 _ _ _ Hz)).
      destruct (_ && _); [apply rel_consume; intros _ _; cbn; by apply tok_made|].
      destruct (ts_contains fol' (Some z')).
      + apply rel_empty. intros a b Hab. apply rel_expecting; [done|]. intros e e' He. cbn. split; [done|]. by apply one_same.
      + apply rel_expecting; [done|]. intros e e' He. cbn. by apply one_same.
    - rewrite (see_e _ _ Hfol). destruct (ts_contains_e fol').
      + apply rel_cur. intros a b Hab. apply rel_expecting; [done|]. intros e e' He. cbn. split; [|by apply one_same].
        split; [done|]. by apply cur_same.
      + apply rel_eof. intros e e' He. cbn. by apply one_same.
  Qed.

  Lemma rel_seq (p p' : ty → M (res tree)) (g : ty → ty) ts : (∀ t, t ∈ ts → relT (p t) (p' (g t))) → ∀ acc acc' es es',
    same_trees acc acc' → same_errors es es' →
    relM (res_rel same_trees) (produce_seq p ts acc es) (produce_seq p' (map g ts) acc' es').
  Proof.
    induction ts as [|t ts IH]; intros Hp acc acc' es es' Ha He; cbn [produce_seq map].
    - cbn. by apply res_rel_into.
    - apply (relM_bind _ _ _ _ _ _ (Hp t ltac:(left))). intros a b Hab. apply res_rel_unres in Hab as [Hv Hx].
      destruct (unres a) as [o e], (unres b) as [o' e']. cbn in Hv, Hx. destruct Hv as [x y Hxy|].
      + apply IH; [intros; apply Hp; by right|apply Forall2_app; [done|by apply one_same]|by apply Forall2_app].
      + cbn. by apply Forall2_app.
  Qed.
  Lemma rel_fields (g : ty → ty) fs : ∀ xs xs', same_trees xs xs' →
    relM (λ _ _, True) (apply_fields fs xs) (apply_fields (map (λ f, (g f.1, f.2)) fs) xs').
  Proof.
    induction fs as [|[t [sem|]] fs IH]; intros xs xs' [|x y l l' Hx Hl]; try done; cbn [apply_fields map fst snd].
    - cbn. split; [by apply same_tree_span|]. split; [done|]. by apply IH.
    - by apply IH.
  Qed.
  Definition opt_rel {X} (R : X → X → Prop) (a b : span * option X) : Prop := same_span a.1 b.1 ∧ option_Forall2 R a.2 b.2.
  Lemma rel_option {X} (R : X → X → Prop) p p' sp first first' : sees first first' → relM (res_rel R) p p' → (∀ a b, R a b → same_span (sp a) (sp b)) →
    relM (res_rel (opt_rel R)) (produce_option p sp first) (produce_option p' sp first').
  Proof.
    intros Hb Hp Hsp. unfold produce_option. apply rel_peek_src. intros _ _ [tk tk' Htk|].
    - rewrite (Hsees _ _ _ _ Hb Htk). destruct (ts_contains first' (Some tk')).
      + apply (relM_bind _ _ _ _ _ _ Hp). intros [a|a e|e] [b|b e'|e'] H; cbn in H; try done.
        * cbn. split; [by apply Hsp|by constructor].
        * cbn. destruct H as [H He]. split; [|done]. split; [by apply Hsp|by constructor].
        * apply rel_empty. intros s s' Hs. cbn. split; [|done]. split; [done|constructor].
      + apply rel_empty. intros s s' Hs. cbn. split; [done|constructor].
    - apply rel_empty. intros s s' Hs. cbn. split; [done|constructor].
  Qed.
  Lemma rel_iter n p p' first first' : sees first first' → relT p p' → ∀ acc acc' es es' hi hi', same_trees acc acc' → same_errors es es' → same_place hi hi' →
    relM (λ a b, same_trees a.1.1 b.1.1 ∧ same_errors a.1.2 b.1.2 ∧ same_place a.2 b.2)
      (iter_loop n p first acc es hi) (iter_loop n p' first' acc' es' hi').
  Proof.
    intros Hb Hp. induction n as [|n IH]; intros acc acc' es es' hi hi' Ha He Hh; cbn [iter_loop]; [done|].
    apply rel_peek_src. intros _ _ [tk tk' Htk|]; [|done]. rewrite (Hsees _ _ _ _ Hb Htk). destruct (ts_contains first' (Some tk')); [|done].
    apply (relM_bind _ _ _ _ _ _ Hp). intros a b Hab. apply res_rel_unres in Hab as [Hv Hx].
    destruct (unres a) as [o e], (unres b) as [o' e']. cbn in Hv, Hx. destruct Hv as [x y Hxy|].
    - apply IH; [apply Forall2_app; [done|by apply one_same]|by apply Forall2_app|by apply same_hi].
    - cbn. split_and!; [done|by apply Forall2_app|done].
  Qed.
  Definition list_rel (a b : span * list tree) : Prop := same_span a.1 b.1 ∧ same_trees a.2 b.2.
  Lemma rel_plus n p p' first first' : sees first first' → relT p p' → relM (res_rel list_rel) (produce_plus n p first) (produce_plus n p' first').
  Proof.
    intros Hb Hp. unfold produce_plus. apply (relM_bind _ _ _ _ _ _ Hp). intros a b Hab. apply res_rel_unres in Hab as [Hv Hx].
    destruct (unres a) as [o e], (unres b) as [o' e']. cbn in Hv, Hx. destruct Hv as [x y Hxy|]; [|done].
    eapply relM_bind; [apply (rel_iter n p p' first first' Hb Hp [x] [y] e e' (tree_hi x) (tree_hi y)); [by apply one_same|done|by apply same_hi]|].
    intros [[l es] hi] [[l' es'] hi'] (Hl & He & Hh). cbn in Hl, He, Hh. cbn. apply res_rel_into; [|done].
    split; [|done]. split; [by apply same_lo|done].
  Qed.
  Lemma rel_skip n first first' : sees first first' → ∀ tk tk' hi hi', option_Forall2 alike tk tk' → same_place hi hi' →
    relM (λ a b, option_Forall2 alike a.1 b.1 ∧ same_place a.2 b.2) (skip_loop n first tk hi) (skip_loop n first' tk' hi').
  Proof.
    intros Hb. induction n as [|n IH]; intros tk tk' hi hi' Ht Hh; cbn [skip_loop]; [done|]. destruct Ht as [tk tk' Htk|]; [|by split; [constructor|]].
    rewrite (Hsees _ _ _ _ Hb Htk). destruct (ts_contains first' (Some tk')); [by split; [constructor|]|]. apply rel_cur. intros a b Hab. apply rel_consume. intros _ _.
    apply rel_peek_src. intros t1 t1' Ht1. apply IH; [done|]. by apply cur_same in Hab as [_ ?].
  Qed.
  Lemma rel_loop_loop n p p' first first' : sees first first' → relT p p' → ∀ acc acc' es es', same_trees acc acc' → same_errors es es' →
    relM (λ a b, same_trees a.1 b.1 ∧ same_errors a.2 b.2) (loop_loop n p first acc es) (loop_loop n p' first' acc' es').
  Proof.
    intros Hb Hp. induction n as [|n IH]; intros acc acc' es es' Ha He; cbn [loop_loop]; [done|].
    apply rel_peek_src. intros _ _ [tk tk0 Htk|]; [|done].
    apply (relM_bind (λ a b, option_Forall2 alike a.1 b.1 ∧ same_errors a.2 b.2)).
    - rewrite (Hsees _ _ _ _ Hb Htk). destruct (ts_contains first' (Some tk0)); [by split; [constructor|]|]. apply rel_cur. intros a b Hab. apply rel_consume. intros _ _.
      apply rel_peek_src. intros tk1 tk1' Htk1. assert (Hs := cur_same _ _ Hab).
      eapply relM_bind; [apply (rel_skip n first first' Hb tk1 tk1' (sp_hi a) (sp_hi b) Htk1), Hs|].
      intros [t h] [t' h'] [E Hh]. cbn in E, Hh. cbn. split; [done|]. apply Forall2_app; [done|].
      apply one_same. split; [done|]. split; [apply Hs|done].
    - intros [tk1 e1] [tk1' e1'] [E He1]. cbn in E, He1. destruct E as [tk1 tk1' Htk1|]; [|done].
      apply rel_cur. intros a b Hab. apply (relM_bind _ _ _ _ _ _ Hp). intros r r' Hr. apply res_rel_unres in Hr as [Hv Hx].
      destruct (unres r) as [o e], (unres r') as [o' e']. cbn in Hv, Hx. cbn zeta.
      apply rel_cur. intros a1 b1 Hab1. rewrite (cur_lo _ _ _ _ Hab Hab1).
      assert (HA : same_trees (acc ++ option_list o) (acc' ++ option_list o')) by (apply Forall2_app; [done|by apply option_list_same]).
      assert (HE : same_errors (e1 ++ e) (e1' ++ e')) by by apply Forall2_app.
      destruct (sp_lo b =? sp_lo b1).
      + cbn. split; [done|]. apply Forall2_app; [done|]. apply one_same. split; [done|]. by apply cur_same.
      + by apply IH.
  Qed.
  Lemma head_same {A B} (R : A → B → Prop) l l' : Forall2 R l l' → option_Forall2 R (head l) (head l').
  Proof. intros [|]; by constructor. Qed.
  Lemma rel_loop n p p' first first' : sees first first' → relT p p' → relM (res_rel list_rel) (produce_loop n p first) (produce_loop n p' first').
  Proof.
    intros Hb Hp. unfold produce_loop. eapply relM_bind; [by apply (rel_loop_loop n p p' first first' Hb Hp [] [] [] [])|].
    intros [l es] [l' es'] [Hl He]. cbn in Hl, He. apply (relM_bind same_span).
    - assert (H1 := head_same _ _ _ Hl). assert (H2 := last_same _ _ _ Hl).
      destruct H1 as [x y Hxy|]; [|by cbn]. destruct H2 as [x' y' Hxy'|]; [|by cbn].
      cbn. split; [by apply same_lo|by apply same_hi].
    - intros a b Hab. cbn. by apply res_rel_into.
  Qed.

  Definition found_rel (a b : option tree * list perr * bool) : Prop :=
    option_Forall2 same_tree a.1.1 b.1.1 ∧ same_errors a.1.2 b.1.2 ∧ a.2 = b.2.
  Lemma rel_split_inner n pT pT' ef ef' pf pf' fol fol' : sees ef ef' → sees pf pf' → sees fol fol' → relT pT pT' → ∀ pa pa' es es', same_panic pa pa' → same_errors es es' →
    relM found_rel (split_inner n pT ef pf fol pa es) (split_inner n pT' ef' pf' fol' pa' es').
  Proof.
    intros B1 B2 B3 Hp. induction n as [|n IH]; intros pa pa' es es' Hpa He; cbn [split_inner]; [done|].
    apply rel_peek_src. intros tk tk0 Htk.
    apply (relM_bind (λ a b, match a, b with
      | inl (t, e), inl (t', e') => same_tree t t' ∧ same_errors e e'
      | inr (tk, p), inr (tk', p') => option_Forall2 alike tk tk' ∧ same_panic p p'
      | _, _ => False end)).
    - rewrite (see _ _ _ _ B1 Htk), (see_e _ _ B1). destruct (_ || _).
      + apply (relM_bind _ _ _ _ _ _ Hp). intros r r' Hr. apply res_rel_unres in Hr as [Hv Hx].
        destruct (unres r) as [o e], (unres r') as [o' e']. cbn in Hv, Hx. destruct Hv as [x y Hxy|].
        * cbn. split; [done|]. repeat apply Forall2_app; try done. by apply option_list_same.
        * apply rel_peek_src. intros tk1 tk1' Htk1. cbn. split; [done|]. by apply merge_same.
      + destruct Hpa as [q q' Hq|].
        * apply rel_cur. intros a b Hab. cbn. split; [done|]. constructor. apply set_hi_same; [done|]. by apply cur_same in Hab as [_ ?].
        * apply rel_expecting; [done|]. intros e e' Hee. cbn. split; [done|]. by constructor.
    - intros [[t e]|[tk1 p]] [[t' e']|[tk1' p']] Hs; try done.
      + destruct Hs. cbn. split_and!; try done. by constructor.
      + destruct Hs as [Ht1 Hpp]. rewrite (see _ _ _ _ B2 Ht1), (see _ _ _ _ B3 Ht1), (none _ _ Ht1). destruct (ts_contains pf' tk1').
        { cbn. split_and!; [constructor|apply Forall2_app; [done|by apply option_list_same]|done]. }
        destruct (_ || _).
        { cbn. split_and!; [constructor|apply Forall2_app; [done|by apply option_list_same]|done]. }
        apply rel_consume. intros _ _. by apply IH.
  Qed.
  Definition outer_rel (a b : list tree * list tree * list perr) : Prop :=
    same_trees a.1.1 b.1.1 ∧ same_trees a.1.2 b.1.2 ∧ same_errors a.2 b.2.
  Lemma rel_split_outer n pT pT' pP pP' ef ef' pf pf' fol fol' : sees ef ef' → sees pf pf' → sees fol fol' → relT pT pT' → relT pP pP' → ∀ xs xs' ds ds' es es',
    same_trees xs xs' → same_trees ds ds' → same_errors es es' →
    relM outer_rel (split_outer n pT pP ef pf fol xs ds es) (split_outer n pT' pP' ef' pf' fol' xs' ds' es').
  Proof.
    intros B1 B2 B3 HT HP. induction n as [|n IH]; intros xs xs' ds ds' es es' Hxs Hds Hes; cbn [split_outer]; [done|].
    apply rel_peek_src. intros _ _ [tk tk' Htk|]; [|done]. rewrite (Hsees _ _ _ _ B2 Htk). destruct (ts_contains pf' (Some tk')); [|done].
    apply (relM_bind _ _ _ _ _ _ HP). intros r r' Hr. apply res_rel_unres in Hr as [Hv Hx].
    destruct (unres r) as [o e], (unres r') as [o' e']. cbn in Hv, Hx. destruct Hv as [x y Hxy|].
    - eapply relM_bind; [apply (rel_split_inner n pT pT' ef ef' pf pf' fol fol' B1 B2 B3 HT None None (es ++ e) (es' ++ e')); [constructor|by apply Forall2_app]|].
      intros [[o1 e1] c] [[o2 e2] c'] (Ho & He & Hc). cbn in Ho, He, Hc. subst c'. cbn zeta.
      assert (HA : same_trees (xs ++ option_list o1) (xs' ++ option_list o2)) by (apply Forall2_app; [done|by apply option_list_same]).
      assert (HD : same_trees (match o1 with Some _ => ds ++ [x] | None => ds end) (match o2 with Some _ => ds' ++ [y] | None => ds' end)).
      { destruct Ho; [|done]. apply Forall2_app; [done|by apply one_same]. }
      destruct c; [by apply IH|done].
    - cbn. split_and!; try done. by apply Forall2_app.
  Qed.
  Lemma last_hi xs xs' a b : same_trees xs xs' → same_place a b →
    same_place (match last xs with Some x => tree_hi x | None => a end) (match last xs' with Some x => tree_hi x | None => b end).
  Proof. intros H Hab. destruct (last_same _ _ _ H); [by apply same_hi|done]. Qed.
  Lemma rel_split n pT pT' pP pP' ef ef' pf pf' fol fol' : sees ef ef' → sees pf pf' → sees fol fol' → relT pT pT' → relT pP pP' →
    relT (produce_split n pT pP ef pf fol) (produce_split n pT' pP' ef' pf' fol').
  Proof.
    intros B1 B2 B3 HT HP. unfold produce_split. apply (relM_bind _ _ _ _ _ _ HT). intros r r' Hr. apply res_rel_unres in Hr as [Hv Hx].
    destruct (unres r) as [o e], (unres r') as [o' e']. cbn in Hv, Hx. destruct Hv as [x y Hxy|]; [|done].
    eapply relM_bind; [apply (rel_split_outer n pT pT' pP pP' ef ef' pf pf' fol fol' B1 B2 B3 HT HP [x] [y] [] [] e e'); [by apply one_same|constructor|done]|].
    intros [[xs ds] es] [[xs' ds'] es'] (H1 & H2 & H3). cbn in H1, H2, H3. cbn zeta. cbn [relM mret M_ret].
    apply res_rel_into; [|done]. constructor; [|done..]. split; cbn [sp_lo sp_hi]; [by apply same_lo|].
    apply last_hi; [done|by apply same_lo].
  Qed.
  Lemma rel_punct_inner n pT pT' ef ef' pf pf' fol fol' : sees ef ef' → sees pf pf' → sees fol fol' → relT pT pT' → ∀ pa pa' es es', same_panic pa pa' → same_errors es es' →
    relM found_rel (punct_inner n pT ef pf fol pa es) (punct_inner n pT' ef' pf' fol' pa' es').
  Proof.
    intros B1 B2 B3 Hp. induction n as [|n IH]; intros pa pa' es es' Hpa He; cbn [punct_inner]; [done|].
    apply rel_peek_src. intros _ _ [tk tk' Htk|].
    2:{ cbn. split_and!; [constructor|apply Forall2_app; [done|by apply option_list_same]|done]. }
    rewrite (Hsees _ _ _ _ B1 Htk), (Hsees _ _ _ _ B3 Htk). destruct (negb _ && _).
    { cbn. split_and!; [constructor|apply Forall2_app; [done|by apply option_list_same]|done]. }
    apply (relM_bind (λ a b, match a, b with
      | inl (t, e), inl (t', e') => same_tree t t' ∧ same_errors e e'
      | inr p, inr p' => same_panic p p'
      | _, _ => False end)).
    - destruct (ts_contains ef' (Some tk')).
      + apply (relM_bind _ _ _ _ _ _ Hp). intros r r' Hr. apply res_rel_unres in Hr as [Hv Hx].
        destruct (unres r) as [o e], (unres r') as [o' e']. cbn in Hv, Hx. destruct Hv as [x y Hxy|].
        * cbn. split; [done|]. repeat apply Forall2_app; try done. by apply option_list_same.
        * cbn. by apply merge_same.
      + apply rel_cur. intros a b Hab. apply cur_same in Hab as Hs. cbn. constructor.
        destruct Hpa as [q q' Hq|]; [apply set_hi_same; [done|apply Hs]|split; [by apply Hpunct|done]].
    - intros [[t e]|p] [[t' e']|p'] Hs; try done.
      + destruct Hs. cbn. split_and!; try done. by constructor.
      + apply rel_peek_src. intros tk1 tk1' Ht1. rewrite (see _ _ _ _ B2 Ht1), (see _ _ _ _ B3 Ht1), (none _ _ Ht1). destruct (ts_contains pf' tk1').
        { cbn. split_and!; [constructor|apply Forall2_app; [done|by apply option_list_same]|done]. }
        destruct (_ || _).
        { cbn. split_and!; [constructor|apply Forall2_app; [done|by apply option_list_same]|done]. }
        apply rel_consume. intros _ _. by apply IH.
  Qed.
  Lemma rel_punct_outer n pT pT' pP pP' ef ef' pf pf' fol fol' : sees ef ef' → sees pf pf' → sees fol fol' → relT pT pT' → relT pP pP' → ∀ xs xs' ds ds' es es',
    same_trees xs xs' → same_trees ds ds' → same_errors es es' →
    relM outer_rel (punct_outer n pT pP ef pf fol xs ds es) (punct_outer n pT' pP' ef' pf' fol' xs' ds' es').
  Proof.
    intros B1 B2 B3 HT HP. induction n as [|n IH]; intros xs xs' ds ds' es es' Hxs Hds Hes; cbn [punct_outer]; [done|].
    apply rel_peek_src. intros _ _ [tk tk' Htk|]; [|done]. rewrite (Hsees _ _ _ _ B2 Htk). destruct (ts_contains pf' (Some tk')); [|done].
    apply (relM_bind _ _ _ _ _ _ HP). intros r r' Hr. apply res_rel_unres in Hr as [Hv Hx].
    destruct (unres r) as [o e], (unres r') as [o' e']. cbn in Hv, Hx. destruct Hv as [x y Hxy|].
    - eapply relM_bind; [apply (rel_punct_inner n pT pT' ef ef' pf pf' fol fol' B1 B2 B3 HT None None (es ++ e) (es' ++ e')); [constructor|by apply Forall2_app]|].
      intros [[o1 e1] c] [[o2 e2] c'] (Ho & He & Hc). cbn in Ho, He, Hc. subst c'. cbn zeta.
      assert (HA : same_trees (xs ++ option_list o1) (xs' ++ option_list o2)) by (apply Forall2_app; [done|by apply option_list_same]).
      assert (HD : same_trees (ds ++ [x]) (ds' ++ [y])) by (apply Forall2_app; [done|by apply one_same]).
      destruct c; [by apply IH|done].
    - cbn. split_and!; try done. by apply Forall2_app.
  Qed.
  Lemma rel_punct n pT pT' pP pP' ef ef' pf pf' fol fol' : sees ef ef' → sees pf pf' → sees fol fol' → relT pT pT' → relT pP pP' →
    relT (produce_punct n pT pP ef pf fol) (produce_punct n pT' pP' ef' pf' fol').
  Proof.
    intros B1 B2 B3 HT HP. unfold produce_punct. apply (relM_bind _ _ _ _ _ _ HT). intros r r' Hr. apply res_rel_unres in Hr as [Hv Hx].
    destruct (unres r) as [o e], (unres r') as [o' e']. cbn in Hv, Hx. destruct Hv as [x y Hxy|]; [|done].
    eapply relM_bind; [apply (rel_punct_outer n pT pT' pP pP' ef ef' pf pf' fol fol' B1 B2 B3 HT HP [x] [y] [] [] e e'); [by apply one_same|constructor|done]|].
    intros [[xs ds] es] [[xs' ds'] es'] (H1 & H2 & H3). cbn in H1, H2, H3. cbn zeta. cbn [relM mret M_ret].
    apply res_rel_into; [|done]. constructor; [|done..]. split; cbn [sp_lo sp_hi]; [by apply same_lo|].
    apply same_max; (apply last_hi; [done|by apply same_lo]).
  Qed.
  Lemma rel_recover_loop n pR pR' tf tf' : sees tf tf' → relT pR pR' → ∀ pa pa' es es', same_panic pa pa' → same_errors es es' →
    relM (λ a b, option_Forall2 same_tree a.1.1 b.1.1 ∧ same_panic a.1.2 b.1.2 ∧ same_errors a.2 b.2)
      (recover_loop n pR tf pa es) (recover_loop n pR' tf' pa' es').
  Proof.
    intros Hb Hp. induction n as [|n IH]; intros pa pa' es es' Hpa He; cbn [recover_loop]; [done|].
    apply rel_peek_src. intros _ _ [tk tk' Htk|].
    - apply (relM_bind (λ a b, match a, b with
        | inl (t, e), inl (t', e') => same_tree t t' ∧ same_errors e e'
        | inr p, inr p' => same_panic p p'
        | _, _ => False end)).
      + rewrite (Hsees _ _ _ _ Hb Htk), (see_e _ _ Hb). destruct (_ || _); [|done].
        apply (relM_bind _ _ _ _ _ _ Hp). intros r r' Hr. apply res_rel_unres in Hr as [Hv Hx].
        destruct (unres r) as [o e], (unres r') as [o' e']. cbn in Hv, Hx. destruct Hv as [x y Hxy|].
        * cbn. split; [done|]. by apply Forall2_app.
        * cbn. by apply merge_same.
      + intros [[t e]|p] [[t' e']|p'] Hs; try done.
        * destruct Hs. cbn. split_and!; try done. by constructor.
        * apply (relM_bind same_error).
          { destruct Hs as [q q' Hq|].
            - apply rel_cur. intros a b Hab. cbn. apply set_hi_same; [done|]. by apply cur_same in Hab as [_ ?].
            - unfold expecting. cbn. intros a b Hab. split; [done|]. by apply cur_same. }
          intros q q' Hq. apply rel_consume. intros _ _. apply IH; [by constructor|done].
    - rewrite (see_e _ _ Hb). destruct (ts_contains_e tf'); [|by cbn; split_and!; [constructor|done..]].
      apply (relM_bind _ _ _ _ _ _ Hp). intros r r' Hr. apply res_rel_unres in Hr as [Hv Hx].
      destruct (unres r) as [o e], (unres r') as [o' e']. cbn in Hv, Hx. destruct Hv as [x y Hxy|].
      + cbn. split_and!; [by constructor|done|by apply Forall2_app].
      + cbn. split_and!; [constructor|by apply merge_same|done].
  Qed.
  Lemma rel_recover n pT pT' pR pR' hf hf' tf tf' : sees hf hf' → sees tf tf' → relT pT pT' → relT pR pR' →
    relT (produce_recover n pT pR hf tf) (produce_recover n pT' pR' hf' tf').
  Proof.
    intros B1 B2 HT HR. unfold produce_recover. apply rel_peek_src. intros tk tk' Htk.
    apply (relM_bind (λ a b, same_panic a.1.1.1 b.1.1.1 ∧ same_span a.1.1.2 b.1.1.2 ∧ option_Forall2 same_tree a.1.2 b.1.2 ∧ same_errors a.2 b.2)).
    - rewrite (see _ _ _ _ B1 Htk), (see_e _ _ B1). destruct (_ || _).
      + apply (relM_bind _ _ _ _ _ _ HT). intros r r' Hr. apply res_rel_unres in Hr as [Hv Hx].
        destruct (unres r) as [o e], (unres r') as [o' e']. cbn in Hv, Hx. destruct Hv as [x y Hxy|].
        * cbn. split_and!; [constructor|by apply same_tree_span|by constructor|done].
        * apply rel_empty. intros a b Hab. cbn. split_and!; [by apply last_same|done|constructor|constructor].
      + apply rel_expecting; [done|]. intros e e' He. apply rel_empty. intros a b Hab. cbn. split_and!; [by constructor|done|constructor|constructor].
    - intros [[[pa sp] hd] es] [[[pa' sp'] hd'] es'] (H1 & H2 & H3 & H4). cbn in H1, H2, H3, H4.
      eapply relM_bind; [by apply (rel_recover_loop n pR pR' tf tf' B2 HR)|].
      intros [[tl p] e] [[tl' p'] e'] (Ht & Hp & He). cbn in Ht, Hp, He. cbn zeta.
      assert (HE : same_errors (e ++ option_list p) (e' ++ option_list p')) by (apply Forall2_app; [done|by apply option_list_same]).
      destruct Ht as [x y Hxy|]; [|done]. cbn [relM mret M_ret]. apply res_rel_into; [|done].
      destruct H3; by constructor.
  Qed.

  Section produce.
    Variables (env : denv) (π : nat → string → string).
    Variables (first follow first' follow' : prod → tset) (jump jump' : prod → option tok → option nat).
    Notation env' := (respell_env π env).
    Variable lit : tok → Prop.
    Hypothesis Hfirst : ∀ t, (∀ x, x ∈ literals t → lit x) → sees (first (key t)) (first' (key (respell π t))).
    Hypothesis Hfollow : ∀ t, (∀ x, x ∈ literals t → lit x) → sees (follow (key t)) (follow' (key (respell π t))).
    Hypothesis Hjump : ∀ n o o', option_Forall2 alike o o' → jump (PNamed n) o = jump' (PNamed n) o'.
    Hypothesis Hlit : ∀ y x, lit (y, x) → spelled y x (π y x).
    Hypothesis Henv : ∀ x, x ∈ env_literals env → lit x.
    Notation produce := (ProduceModel.produce env first follow jump).
    Notation produce' := (ProduceModel.produce env' first' follow' jump').
    Notation re := (respell π).

    Lemma rel_get {A B} (R : A → B → Prop) sp sp' k k' : same_span sp sp' → (∀ a b, relM R (k a) (k' b)) →
      relM R (get_src sp ≫= k) (get_src sp' ≫= k').
    Proof. intros Hs H. apply (relM_bind (λ _ _, True)); [|done]. cbn. done. Qed.

    Lemma rel_produce f t : (∀ x, x ∈ literals t → lit x) → relT (produce f t) (produce' f (re t)).
    Proof.
      revert t. induction f as [|f IH]; intros t Ht; [done|].
      assert (Hn : ∀ n d t' sem, env !! n = Some d → (t', sem) ∈ decl_fields d → relT (produce f t') (produce' f (re t'))).
      { intros n d t' sem Hd Hf. apply IH. intros x Hx. apply Henv. unfold env_literals. apply elem_of_list_In, in_flat_map.
        exists d. split; [by apply elem_of_list_In, (elem_of_list_lookup_2 _ n)|]. apply in_flat_map. exists (t', sem).
        split; by apply elem_of_list_In. }
      destruct t as [n y x|n|l|t|t|t|t|t|t|t|t|t p|t p|t r]; cbn [ProduceModel.produce respell]; cbn [literals] in Ht.
      - apply (relM_bind (res_rel made)).
        + destruct x as [s|]; [apply rel_token_lit; [apply Hlit, Ht; left|apply (Hfollow (TTok n y (Some s))); exact Ht]|apply rel_token].
        + intros a b Hab. cbn. eapply res_rel_map; [done|]. intros u v [H1 H2]. by constructor.
      - assert (En' : env' !! n = respell_decl π <$> env !! n) by apply list_lookup_fmap.
        destruct (env !! n) as [[fs|vs]|] eqn:En; cbn in En'; rewrite En'; [| |done].
        + assert (Em : map fst (map (λ f, (re f.1, f.2)) fs) = map re (map fst fs)) by by rewrite !map_map.
          rewrite Em. eapply relM_bind; [apply (rel_seq (produce f) (produce' f) re (map fst fs)) with (acc := []) (es := []); [|constructor..]|].
          { intros t' ([? sem] & -> & Hf)%elem_of_list_fmap. by eapply Hn. }
          intros a b Hab. apply res_rel_unres in Hab as [Hv Hx].
          destruct (unres a) as [o e], (unres b) as [o' e']. cbn in Hv, Hx. destruct Hv as [x y Hxy|]; [|done].
          eapply relM_bind; [by apply (rel_fields re)|]. intros _ _ _. cbn. apply res_rel_into; [|done]. by constructor.
        + apply rel_peek_src. intros tk tk' Htk.
          assert (Ej : jump (key (TNamed n)) tk = jump' (key (TNamed n)) tk') by by apply (Hjump n). rewrite Ej.
          assert (Hf0 : relT (expecting (first (key (TNamed n))) ≫= λ e, mret (RPanic [e])) (expecting (first' (key (TNamed n))) ≫= λ e, mret (RPanic [e]))).
          { apply rel_expecting; [apply (Hfirst (TNamed n)); intros x Hx; by apply elem_of_nil in Hx|]. intros e e' He. cbn. by apply one_same. }
          destruct (jump' (key (TNamed n)) tk') as [i|]; cbn [mbind option_bind]; [|exact Hf0].
          match goal with |- context [@lookup ?a ?b ?c ?d i (@map ?e ?h ?g vs)] =>
            assert (Ev : @lookup a b c d i (@map e h g vs) = (λ f : field, (re f.1, f.2)) <$> vs !! i) by apply list_lookup_fmap; rewrite Ev end.
          destruct (vs !! i) as [[t' sem]|] eqn:Ei; cbn [fmap option_fmap option_map fst snd]; [|exact Hf0].
          assert (Hf : (t', sem) ∈ decl_fields (DEnum vs)) by by eapply elem_of_list_lookup_2.
          apply (relM_bind _ _ _ _ _ _ (Hn _ _ _ _ En Hf)). intros [a|a e|e] [b|b e'|e'] Hab; try done; cbn in Hab.
          * destruct sem as [sem|]; [|cbn; by constructor]. cbn. split; [by apply same_tree_span|]. split; [done|]. by constructor.
          * destruct Hab as [Hab He]. destruct sem as [sem|]; [|cbn; split; [by constructor|done]]. cbn.
            split; [by apply same_tree_span|]. split; [done|]. split; [by constructor|done].
      - eapply relM_bind; [apply (rel_seq (produce f) (produce' f) re l) with (acc := []) (es := []); [|constructor..]|].
        { intros t' Hl. apply IH. intros x Hx. apply Ht. apply elem_of_list_In, in_flat_map. exists t'. split; by apply elem_of_list_In. }
        intros a b Hab. cbn. eapply res_rel_map; [done|]. intros u v H. by constructor.
      - by apply IH.
      - eapply relM_bind; [apply (rel_option same_tree); [by apply Hfirst|by apply IH|by apply same_tree_span]|].
        intros a b Hab. cbn. eapply res_rel_map; [done|]. intros [sp o] [sp' o'] [H1 H2]. cbn in H1, H2. destruct H2; by constructor.
      - eapply relM_bind; [apply (rel_option same_tree); [by apply Hfirst|by apply IH|by apply same_tree_span]|].
        intros a b Hab. cbn. eapply res_rel_map; [done|]. intros [sp o] [sp' o'] [H1 H2]. cbn in H1, H2. destruct H2; cbn; by constructor.
      - apply (relM_bind _ _ _ _ _ _ (IH t Ht)). intros [a|a e|e] [b|b e'|e'] Hab; try done; cbn in Hab.
        + assert (Hs := same_tree_span _ _ Hab). apply rel_get; [done|]. intros x y. cbn. by constructor.
        + destruct Hab as [Hab He]. assert (Hs := same_tree_span _ _ Hab). apply rel_get; [done|]. intros x y. cbn. split; [by constructor|done].
      - apply (relM_bind _ _ _ _ _ _ (IH t Ht)). intros [a|a e|e] [b|b e'|e'] Hab; try done; cbn in Hab.
        + assert (Hs := same_tree_span _ _ Hab). apply rel_get; [done|]. intros x y. cbn. by constructor.
        + destruct Hab as [Hab He]. assert (Hs := same_tree_span _ _ Hab). apply rel_get; [done|]. intros x y. cbn. split; [by constructor|done].
      - eapply relM_bind; [apply rel_plus; [by apply (Hfirst (TPlus t))|by apply IH]|]. intros a b Hab. cbn. eapply res_rel_map; [done|].
        intros [sp l] [sp' l'] [H1 H2]. by constructor.
      - eapply relM_bind; [apply (rel_option list_rel); [by apply (Hfirst (TPlus t))|apply rel_plus; [by apply (Hfirst (TPlus t))|by apply IH]|by intros ? ? [? _]]|].
        intros a b Hab. cbn. eapply res_rel_map; [done|]. intros [sp o] [sp' o'] [H1 H2]. cbn in H1, H2.
        destruct H2 as [[sp1 l] [sp2 l'] [H3 H4]|]; constructor; done.
      - eapply relM_bind; [apply rel_loop; [by apply (Hfirst (TLoop t))|by apply IH]|]. intros a b Hab. cbn. eapply res_rel_map; [done|].
        intros [sp l] [sp' l'] [H1 H2]. by constructor.
      - apply rel_split; [apply Hfirst|apply Hfirst|by apply (Hfollow (TSplit t p))|apply IH|apply IH]; intros x Hx; apply Ht, elem_of_app; auto.
      - apply rel_punct; [apply Hfirst|apply Hfirst|by apply (Hfollow (TPunct t p))|apply IH|apply IH]; intros x Hx; apply Ht, elem_of_app; auto.
      - apply rel_recover; [apply Hfirst|apply Hfirst|apply IH|apply IH]; intros x Hx; apply Ht, elem_of_app; auto.
    Qed.
  End produce.
End rel.

(** * Runs *)
Section runs.
  Variable extract : nat → bool.
  Notation abs := (abs extract).
  Lemma all_ok s : state_ok s → spans_ok 0 (String.length (p_src s)) (map t_span (all_tokens extract s)).
  Proof. intros H. apply (state_ok_abs extract) in H. rewrite aok_eq in H. done. Qed.
  Lemma all_kept {A} (m : M A) s a s' : run extract m s = ODone a s' → all_tokens extract s' = all_tokens extract s.
  Proof.
    intros H. apply run_done in H. apply arun_adv in H as [l [H1 H2 H3]]. unfold all_tokens, consumed.
    change (map c_tok (p_tokens s')) with (toks (abs s')). change (to_come extract s') with (a_rest (abs s')).
    change (map c_tok (p_tokens s)) with (toks (abs s)). change (to_come extract s) with (a_rest (abs s)).
    by rewrite H2, H3, <- (assoc_L (++)).
  Qed.

  Lemma filter_same {A B} (R : A → B → Prop) (P : A → Prop) (Q : B → Prop) `{∀ x, Decision (P x), ∀ y, Decision (Q y)} l l' :
    (∀ x y, R x y → P x ↔ Q y) → Forall2 R l l' → Forall2 R (filter P l) (filter Q l').
  Proof.
    intros HPQ. induction 1 as [|x y l l' Hx Hl IH]; [constructor|]. specialize (HPQ x y Hx).
    rewrite !filter_cons. destruct (decide (P x)), (decide (Q y)); try tauto. by constructor.
  Qed.
  Lemma filter_bad bad : filter syntax_error (map (λ sp, PErr sp UnexpectedCharacters) bad) = [].
  Proof. induction bad as [|sp bad IH]; [done|]. cbn [map]. rewrite filter_cons, decide_False; [done|]. intros H. by apply H. Qed.

  Section like.
    Variables (alike : tok → tok → Prop) (sees : tset → tset → Prop).
    Hypothesis Halike : ∀ a b, alike a b → fst a = fst b.
    Hypothesis Hsees : ∀ s s' a b, sees s s' → alike a b → ts_contains s (Some a) = ts_contains s' (Some b).
    Hypothesis Hsees_e : ∀ s s', sees s s' → ts_contains_e s = ts_contains_e s' ∧ ts_contains s None = ts_contains s' None.
    Hypothesis Hone : ∀ y, sees (fs_one y None) (fs_one y None).
    Hypothesis Hpunct : ∀ fol fol' ef ef', sees fol fol' → sees ef ef' →
      sees (fst (fs_union_minus_eps (fst (ts_remove_e fol)) ef)) (fst (fs_union_minus_eps (fst (ts_remove_e fol')) ef')).
    Variable π : nat → string → string.
    Variable lit : tok → Prop.
    Hypothesis Hlit : ∀ y x, lit (y, x) → spelled alike sees y x (π y x).
    Notation words := (words_rel alike extract).
    Notation errors s1 s2 := (Forall2 (across extract like_error s1 s2 sees)).

    Lemma run_rel {A B} (R : A → B → Prop) (m1 : M A) (m2 : M B) s1 s2 a s1' :
      state_ok s1 → state_ok s2 → words s1 s2 →
      relM (p_src s1) (all_tokens extract s1) (p_src s2) (all_tokens extract s2) alike R m1 m2 →
      run extract m1 s1 = ODone a s1' →
      ∃ b s2', run extract m2 s2 = ODone b s2' ∧ R a b ∧ words s1' s2'.
    Proof using Halike Hsees Hsees_e Hone Hpunct.
      intros Hok1 Hok2 Hw Hrel Hr.
      assert (Hst : across extract st_rel s1 s2 (abs s1) (abs s2)) by (destruct Hw as [_ H]; done).
      assert (Ho := relM_run _ _ _ _ (all_ok _ Hok1) (all_ok _ Hok2) alike sees Halike Hsees_e (proj1 Hw) _ _ _ _ _ Hrel Hst).
      assert (Hr' := run_done _ _ _ _ _ Hr). rewrite Hr' in Ho. cbn in Ho.
      destruct (arun m2 (abs s2)) as [| |b t2] eqn:E2; try done. destruct Ho as [HR Ht].
      destruct (arun_done _ _ _ _ _ E2) as (s2' & H2 & H4). exists b, s2'. split; [done|]. split; [done|].
      split.
      - rewrite (run_src _ _ _ _ _ Hr), (run_src _ _ _ _ _ H2), (all_kept _ _ _ _ Hr), (all_kept _ _ _ _ H2). apply Hw.
      - rewrite <- H4 in Ht. apply Ht.
    Qed.

    Lemma produce_like env first follow jump first' follow' jump' f t s1 s2 r1 s1' :
      (∀ t, (∀ x, x ∈ literals t → lit x) → sees (first (key t)) (first' (key (respell π t)))) →
      (∀ t, (∀ x, x ∈ literals t → lit x) → sees (follow (key t)) (follow' (key (respell π t)))) →
      (∀ n o o', option_Forall2 alike o o' → jump (PNamed n) o = jump' (PNamed n) o') →
      (∀ x, x ∈ literals t ++ env_literals env → lit x) →
      state_ok s1 → state_ok s2 → words s1 s2 →
      run extract (produce env first follow jump f t) s1 = ODone r1 s1' →
      ∃ r2 s2', run extract (produce (respell_env π env) first' follow' jump' f (respell π t)) s2 = ODone r2 s2' ∧
        res_rel (p_src s1) (all_tokens extract s1) (p_src s2) (all_tokens extract s2) sees (across extract same_tree s1 s2) r1 r2 ∧
        words s1' s2'.
    Proof using Halike Hsees Hsees_e Hone Hpunct Hlit.
      intros B1 B2 B3 Hl Hok1 Hok2 Hw. apply run_rel; [done..|].
      eapply rel_produce; try done; [by apply all_ok..|apply Hw| |]; intros x Hx; apply Hl, elem_of_app; auto.
    Qed.

    Lemma like_syntax s1 s2 a b : across extract like_error s1 s2 sees a b → syntax_error a ↔ syntax_error b.
    Proof. intros [H _]. unfold syntax_error. destruct (e_kind a), (e_kind b); try done; cbn in H; by simplify_eq. Qed.
    Lemma parse_like env f t md md' s1 s2 o1 s1' :
      (∀ t, (∀ x, x ∈ literals t → lit x) → sees (tb_get (md_first md) (key t)) (tb_get (md_first md') (key (respell π t)))) →
      (∀ t, (∀ x, x ∈ literals t → lit x) → sees (tb_get (md_follow md) (key t)) (tb_get (md_follow md') (key (respell π t)))) →
      (∀ n o o', option_Forall2 alike o o' → jump_look_up (md_jump md) (PNamed n) o = jump_look_up (md_jump md') (PNamed n) o') →
      (∀ x, x ∈ literals t ++ env_literals env → lit x) →
      state_ok s1 → state_ok s2 → words s1 s2 →
      run extract (parse env f t (inr md)) s1 = ODone (inr o1) s1' →
      ∃ o2 s2', run extract (parse (respell_env π env) f (respell π t) (inr md')) s2 = ODone (inr o2) s2' ∧
        option_Forall2 (across extract same_tree s1 s2) o1 o2 ∧ words s1' s2' ∧
        ∃ e1 e2, syntax_errors s1' = syntax_errors s1 ++ e1 ∧ syntax_errors s2' = syntax_errors s2 ++ e2 ∧ errors s1 s2 e1 e2.
    Proof using Halike Hsees Hsees_e Hone Hpunct Hlit.
      intros L1 L2 L3 L4 Hok1 Hok2 Hw Hr. apply parse_run in Hr as (x & Ex & Hr). injection Ex as <-.
      apply parse_with_run in Hr as (r1 & q1 & Hr1 & -> & E1 & Hp1 & Ha1).
      destruct (produce_like _ _ _ _ _ _ _ _ _ _ _ _ _ L1 L2 L3 L4 Hok1 Hok2 Hw Hr1) as (r2 & q2 & Hr2 & Hres & Hw').
      apply res_rel_unres in Hres as [Hv Hx]; [|done].
      destruct (produce_run_errors _ _ _ _ _ _ _ _ _ _ Hr1) as (bad1 & _ & B1).
      destruct (produce_run_errors _ _ _ _ _ _ _ _ _ _ Hr2) as (bad2 & _ & B2).
      exists (unres r2).1, (Pst (p_src q2) (p_evs q2) (p_peeked q2) (p_invalid q2) (p_tokens q2) (p_extracted q2)
               (p_errors q2 ++ (unres r2).2)).
      split; [|split_and!].
      - unfold parse, parse_with. rewrite run_bind, run_bind, Hr2. destruct r2; cbn [unres fst snd]; cbn; [|done..].
        rewrite app_nil_r. by destruct q2.
      - done.
      - rewrite E1. exact Hw'.
      - exists (filter syntax_error (unres r1).2), (filter syntax_error (unres r2).2).
        unfold syntax_errors in *. rewrite Hp1. cbn [p_errors]. rewrite B1, B2, !filter_app, !filter_bad, !app_nil_r.
        split_and!; [done..|]. eapply filter_same; [|done]. apply like_syntax.
    Qed.
  End like.

  (** ** The same literals *)
  Section same.
    Variable lit : tok → Prop.
    Definition sees_eq (s s' : tset) : Prop := s = s' ∧ blind lit s.
    Lemma alike_fst a b : alike lit a b → fst a = fst b.
    Proof. by intros [H _]. Qed.
    Lemma sees_eq_ok s s' a b : sees_eq s s' → alike lit a b → ts_contains s (Some a) = ts_contains s' (Some b).
    Proof. intros [<- H]. apply H. Qed.
    Lemma sees_eq_e s s' : sees_eq s s' → ts_contains_e s = ts_contains_e s' ∧ ts_contains s None = ts_contains s' None.
    Proof. by intros [<- _]. Qed.
    Lemma sees_eq_one y : sees_eq (fs_one y None) (fs_one y None).
    Proof.
      split; [done|]. intros a b [H _]. apply eq_true_iff_eq. rewrite !fs_one_exact. destruct a as [ya xa], b as [yb xb]. cbn in H. subst. naive_solver.
    Qed.
    Lemma sees_eq_punct fol fol' ef ef' : sees_eq fol fol' → sees_eq ef ef' →
      sees_eq (fst (fs_union_minus_eps (fst (ts_remove_e fol)) ef)) (fst (fs_union_minus_eps (fst (ts_remove_e fol')) ef')).
    Proof.
      intros [<- H1] [<- H2]. split; [done|]. intros a b Hab. unfold fs_union_minus_eps.
      rewrite !ts_contains_union, !ts_remove_e_contains, (H1 _ _ Hab), (H2 _ _ Hab). done.
    Qed.
    Lemma sees_eq_lit y x : lit (y, x) → spelled (alike lit) sees_eq y x x.
    Proof.
      intros Hl. assert (Hx : ∀ z z', alike lit (y, z) (y, z') → z = x ↔ z' = x).
      { intros z z' [_ [H|[H1 H2]]]; cbn in *; [by subst|]. split; intros ->; congruence. }
      split; [|done]. split; [done|]. intros [ya xa] [yb xb] Hab. apply eq_true_iff_eq. rewrite !fs_one_exact.
      assert (E := alike_fst _ _ Hab). cbn in E. subst yb. split.
      - intros (z & [= -> ->] & [|[= ->]]); [done|]. exists xb. split; [done|]. right. f_equal. symmetry. by apply (Hx z).
      - intros (z & [= -> ->] & [|[= ->]]); [done|]. exists xa. split; [done|]. right. f_equal. symmetry. by apply (Hx xa z).
    Qed.
    Lemma like_same s1 s2 l l' : Forall2 (across extract like_error s1 s2 sees_eq) l l' → Forall2 (across extract same_error s1 s2) l l'.
    Proof.
      intros H. eapply Forall2_impl; [exact H|]. intros a b [H1 H2]. split; [|done].
      destruct (e_kind a), (e_kind b); cbn in H1; try done. by destruct H1 as [-> _].
    Qed.
    Lemma produce_alike env first follow jump f t s1 s2 r1 s1' :
      (∀ p, blind lit (first p)) → (∀ p, blind lit (follow p)) → (∀ p a b, alike lit a b → jump p (Some a) = jump p (Some b)) →
      (∀ x, x ∈ literals t ++ env_literals env → lit x) →
      state_ok s1 → state_ok s2 → alike_words lit extract s1 s2 →
      run extract (produce env first follow jump f t) s1 = ODone r1 s1' →
      ∃ r2 s2', run extract (produce env first follow jump f t) s2 = ODone r2 s2' ∧
        across extract same_result s1 s2 r1 r2 ∧ alike_words lit extract s1' s2'.
    Proof.
      intros B1 B2 B3 Hl Hok1 Hok2 Hw Hr.
      destruct (produce_like (alike lit) sees_eq alike_fst sees_eq_ok sees_eq_e sees_eq_one sees_eq_punct (λ _ x, x) lit sees_eq_lit
        env first follow jump first follow jump f t s1 s2 r1 s1') as (r2 & s2' & H1 & H2 & H3); try done.
      - intros p _. rewrite respell_id. by split.
      - intros p _. rewrite respell_id. by split.
      - intros p o o' [a b Hab|]; [by apply B3|done].
      - rewrite respell_id, respell_env_id in H1. exists r2, s2'. split_and!; [done| |done].
        destruct r1, r2; cbn in H2 |- *; try done; [destruct H2 as [H2 H4]; split; [done|]|]; by apply like_same.
    Qed.
    Lemma parse_alike env f t md s1 s2 o1 s1' :
      (∀ p, blind lit (tb_get (md_first md) p)) → (∀ p, blind lit (tb_get (md_follow md) p)) →
      (∀ p a b, alike lit a b → jump_look_up (md_jump md) p (Some a) = jump_look_up (md_jump md) p (Some b)) →
      (∀ x, x ∈ literals t ++ env_literals env → lit x) →
      state_ok s1 → state_ok s2 → alike_words lit extract s1 s2 →
      Forall2 (across extract same_error s1 s2) (syntax_errors s1) (syntax_errors s2) →
      run extract (parse env f t (inr md)) s1 = ODone (inr o1) s1' →
      ∃ o2 s2', run extract (parse env f t (inr md)) s2 = ODone (inr o2) s2' ∧
        option_Forall2 (across extract same_tree s1 s2) o1 o2 ∧ alike_words lit extract s1' s2' ∧
        Forall2 (across extract same_error s1 s2) (syntax_errors s1') (syntax_errors s2').
    Proof.
      intros B1 B2 B3 Hl Hok1 Hok2 Hw He Hr.
      destruct (parse_like (alike lit) sees_eq alike_fst sees_eq_ok sees_eq_e sees_eq_one sees_eq_punct (λ _ x, x) lit sees_eq_lit
        env f t md md s1 s2 o1 s1') as (o2 & s2' & H1 & H2 & H3 & e1 & e2 & E1 & E2 & H4); try done.
      - intros p _. rewrite respell_id. by split.
      - intros p _. rewrite respell_id. by split.
      - intros p o o' [a b Hab|]; [by apply B3|done].
      - rewrite respell_id, respell_env_id in H1. exists o2, s2'. split_and!; [done..|]. rewrite E1, E2.
        apply Forall2_app; [done|]. by apply like_same.
    Qed.
  End same.

  (** Fresh parsers. *)
  Lemma fresh_tokens src evs : all_tokens extract (pst_new src evs) = filter (λ t, extract (t_ty t) = false) (raw_tokens evs).
  Proof. done. Qed.
  (** Equal tokens *)
  Lemma alike_eq l l' : Forall2 (alike (λ _, True)) l l' ↔ l = l'.
  Proof.
    split.
    - induction 1 as [|[y x] [y' x'] l l' [H1 [H2|[[] _]]] Hl IH]; [done| |done]. cbn in *. by subst.
    - intros ->. apply Forall_Forall2_diag, Forall_forall. intros [y x] _. split; [done|by left].
  Qed.
  Lemma words_eq s1 s2 : alike_words (λ _, True) extract s1 s2 ↔ same_words extract s1 s2.
  Proof. unfold alike_words, words_rel, same_words. by rewrite alike_eq. Qed.
  Lemma eq_blind {A} (f : option tok → A) a b : alike (λ _, True) a b → f (Some a) = f (Some b).
  Proof. destruct a, b. intros [H1 [H2|[[] _]]]; [|done]. cbn in *. by subst. Qed.
  Lemma produce_layout env first follow jump f t s1 s2 r1 s1' :
    state_ok s1 → state_ok s2 → same_words extract s1 s2 →
    run extract (produce env first follow jump f t) s1 = ODone r1 s1' →
    ∃ r2 s2', run extract (produce env first follow jump f t) s2 = ODone r2 s2' ∧
      across extract same_result s1 s2 r1 r2 ∧ same_words extract s1' s2'.
  Proof.
    intros Hok1 Hok2 Hw Hr. apply words_eq in Hw.
    destruct (produce_alike (λ _, True) env first follow jump f t s1 s2 r1 s1') as (r2 & s2' & H1 & H2 & H3); try done.
    - intros p a b. apply (eq_blind (ts_contains (first p))).
    - intros p a b. apply (eq_blind (ts_contains (follow p))).
    - intros p a b. apply (eq_blind (jump p)).
    - exists r2, s2'. by rewrite <- words_eq.
  Qed.
  Lemma parse_layout env f t md s1 s2 o1 s1' :
    state_ok s1 → state_ok s2 → same_words extract s1 s2 →
    Forall2 (across extract same_error s1 s2) (syntax_errors s1) (syntax_errors s2) →
    run extract (parse env f t (inr md)) s1 = ODone (inr o1) s1' →
    ∃ o2 s2', run extract (parse env f t (inr md)) s2 = ODone (inr o2) s2' ∧
      option_Forall2 (across extract same_tree s1 s2) o1 o2 ∧ same_words extract s1' s2' ∧
      Forall2 (across extract same_error s1 s2) (syntax_errors s1') (syntax_errors s2').
  Proof.
    intros Hok1 Hok2 Hw He Hr. apply words_eq in Hw.
    destruct (parse_alike (λ _, True) env f t md s1 s2 o1 s1') as (o2 & s2' & H1 & H2 & H3 & H4); try done.
    - intros p a b. apply (eq_blind (ts_contains _)).
    - intros p a b. apply (eq_blind (ts_contains _)).
    - intros p a b. apply (eq_blind (jump_look_up _ p)).
    - exists o2, s2'. by rewrite <- words_eq.
  Qed.
  Lemma fresh_layout env f t md src1 evs1 src2 evs2 o1 s1' :
    raw_ok (String.length src1) evs1 → raw_ok (String.length src2) evs2 →
    let toks evs := filter (λ t, extract (t_ty t) = false) (raw_tokens evs) in
    word src1 (toks evs1) = word src2 (toks evs2) →
    run extract (parse env f t (inr md)) (pst_new src1 evs1) = ODone (inr o1) s1' →
    ∃ o2 s2', run extract (parse env f t (inr md)) (pst_new src2 evs2) = ODone (inr o2) s2' ∧
      option_Forall2 (same_tree src1 (toks evs1) src2 (toks evs2)) o1 o2 ∧
      Forall2 (same_error src1 (toks evs1) src2 (toks evs2)) (syntax_errors s1') (syntax_errors s2') ∧
      map c_sem (p_tokens s1') = map c_sem (p_tokens s2').
  Proof.
    intros H1 H2 toks Hw Hr. apply state_ok_new in H1, H2.
    destruct (parse_layout env f t md (pst_new src1 evs1) (pst_new src2 evs2) o1 s1') as (o2 & s2' & A & B & C & D);
      [done|done|by split|constructor|done|].
    exists o2, s2'. split_and!; try done. apply C.
  Qed.
End runs.
