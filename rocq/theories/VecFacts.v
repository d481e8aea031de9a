(** Proofs about TokenVec queries. *)
From Coq Require Import String Ascii NArith ZArith Lia.
From stdpp Require Import prelude list.
From Verif Require Import LexModel LexSpec LexFacts.
Local Open Scope nat_scope.

Section bs.
  Variable (cmp : nat → comparison) (len : nat).
  Hypothesis Hmono : ∀ i j, i < j → j < len → cmp i ≠ Lt → cmp j = Gt.

  Lemma bs_loop_spec fuel size base :
    size ≤ S fuel → 1 ≤ size → base + size ≤ len →
    (base = 0 ∨ cmp base ≠ Gt) →
    (∀ j, base + size ≤ j → j < len → cmp j = Gt) →
    let b := bs_loop cmp fuel size base in
    b < len ∧ (b = 0 ∨ cmp b ≠ Gt) ∧ ∀ j, b < j → j < len → cmp j = Gt.
  Proof using Hmono.
    revert size base. induction fuel as [|f IH]; intros size base Hf Hs Hb H0 Hhi.
    - assert (size = 1) as -> by lia. cbn. split_and!; [lia|done|].
      intros j ??. apply Hhi; lia.
    - cbn [bs_loop]. destruct (Nat.leb_spec size 1) as [Hle|Hle].
      + split_and!; [lia|done|]. intros j ??. apply Hhi; lia.
      + pose proof (Nat.div_mod_eq size 2) as Hd.
        pose proof (Nat.mod_upper_bound size 2 ltac:(lia)) as Hm.
        set (half := size / 2) in *.
        assert (1 ≤ half ∧ half < size) by lia.
        destruct (cmp (base + half)) eqn:E.
        * apply IH; [lia|lia|lia|right; congruence|]. intros j ??. apply Hhi; lia.
        * apply IH; [lia|lia|lia|right; congruence|]. intros j ??. apply Hhi; lia.
        * apply IH; [lia|lia|lia|done|]. intros j Hj1 Hj2.
          destruct (decide (j < base + half)) as [Hlt|Hge]; [lia|].
          destruct (decide (j = base + half)) as [->|]; [done|].
          apply (Hmono (base + half)); [lia|lia|congruence].
  Qed.

  Lemma binary_search_spec :
    match binary_search cmp len with
    | inl i => i < len ∧ cmp i = Eq
    | inr i => i ≤ len ∧ (∀ j, j < i → cmp j = Lt) ∧ (∀ j, i ≤ j → j < len → cmp j = Gt)
    end.
  Proof using Hmono.
    unfold binary_search. destruct (Nat.eqb_spec len 0) as [->|Hne].
    { split_and!; intros; lia. }
    destruct (bs_loop_spec len len 0) as (Hb & H0 & Hhi); [lia..|by left|intros; lia|].
    set (b := bs_loop cmp len len 0) in *. clearbody b.
    destruct (cmp b) eqn:E.
    - done.
    - split_and!; [lia| |].
      + intros j Hj. destruct (decide (j = b)) as [->|]; [done|].
        destruct (cmp j) eqn:Ej; [|done|]; exfalso;
          (assert (cmp b = Gt) as ?; [apply (Hmono j); [lia|lia|congruence]|congruence]).
      + intros j ??. apply Hhi; lia.
    - destruct H0 as [->|]; [|congruence]. split_and!; [lia|lia|].
      intros j ??. destruct (decide (j = 0)) as [->|]; [done|]. apply Hhi; lia.
  Qed.
End bs.

(** order facts *)
Lemma spans_ok_lookup from len l i s : spans_ok from len l → l !! i = Some s →
  from ≤ sp_lo s ∧ sp_lo s < sp_hi s ∧ sp_hi s ≤ len.
Proof.
  revert from i. induction l as [|a l IH]; intros from i; [done|].
  cbn. intros (H1&H2&H3) Hi. destruct i; cbn in Hi.
  - simplify_eq. apply spans_ok_le in H3. lia.
  - destruct (IH _ _ H3 Hi). lia.
Qed.

Lemma spans_ok_order from len l i j s t : spans_ok from len l → i < j →
  l !! i = Some s → l !! j = Some t → sp_hi s ≤ sp_lo t.
Proof.
  revert from i j. induction l as [|a l IH]; intros from i j; [done|].
  cbn. intros (H1&H2&H3) Hij Hi Hj. destruct j; [lia|]. cbn in Hj.
  destruct i; cbn in Hi.
  - simplify_eq. eapply spans_ok_lookup in H3; [|done]. lia.
  - eapply IH; [done| |done|done]. lia.
Qed.

Lemma cells_ok_lookup len l i c : cells_ok len l → l !! i = Some c → c_lo c < c_hi c ∧ c_hi c ≤ len.
Proof.
  intros H Hi. unfold cells_ok in H.
  eapply (spans_ok_lookup _ _ _ i) in H; [|by rewrite list_lookup_fmap, Hi].
  unfold c_lo, c_hi. tauto.
Qed.

Lemma cells_ok_order len l i j c d : cells_ok len l → i < j →
  l !! i = Some c → l !! j = Some d → c_hi c ≤ c_lo d.
Proof.
  intros H Hij Hi Hj. unfold cells_ok in H.
  eapply (spans_ok_order _ _ _ i j) in H; [|done|by rewrite list_lookup_fmap, Hi|by rewrite list_lookup_fmap, Hj].
  done.
Qed.

Lemma cmp_mono_gen (f : cell → nat) len l p :
  (∀ i j c d, i < j → l !! i = Some c → l !! j = Some d → f c < f d) →
  len = length l →
  ∀ i j, i < j → j < len →
    (λ i, match l !! i with Some c => Nat.compare (f c) p | None => Gt end) i ≠ Lt →
    (λ i, match l !! i with Some c => Nat.compare (f c) p | None => Gt end) j = Gt.
Proof.
  intros Hmono -> i j Hij Hj. cbv beta.
  destruct (lookup_lt_is_Some_2 l j) as [d Hd]; [done|].
  destruct (lookup_lt_is_Some_2 l i) as [c Hc]; [lia|].
  rewrite Hc, Hd. intros H. apply Nat.compare_gt_iff.
  specialize (Hmono _ _ _ _ Hij Hc Hd).
  destruct (Nat.compare_spec (f c) p); [lia|done|lia].
Qed.

(** results of the two searches, as facts on the elements *)
Lemma search_lo_spec len l p : cells_ok len l →
  match search_lo l p with
  | inl i => ∃ c, l !! i = Some c ∧ c_lo c = p
  | inr i => i ≤ length l ∧ (∀ j c, j < i → l !! j = Some c → c_lo c < p) ∧
             (∀ j c, i ≤ j → l !! j = Some c → p < c_lo c)
  end.
Proof.
  intros Hok. unfold search_lo.
  pose proof (binary_search_spec _ (length l) (cmp_mono_gen c_lo (length l) l p ltac:(
    intros i j c d Hij Hc Hd; pose proof (cells_ok_order _ _ _ _ _ _ Hok Hij Hc Hd);
    pose proof (cells_ok_lookup _ _ _ _ Hok Hc); lia) eq_refl)) as H.
  destruct (binary_search _ _) as [i|i].
  - destruct H as [Hi He]. destruct (lookup_lt_is_Some_2 l i Hi) as [c Hc].
    rewrite Hc in He. apply Nat.compare_eq_iff in He. eauto.
  - destruct H as (Hi & H1 & H2). split_and!; [done| |].
    + intros j c Hj Hc. specialize (H1 j Hj). rewrite Hc in H1. by apply Nat.compare_lt_iff.
    + intros j c Hj Hc. specialize (H2 j Hj (lookup_lt_Some _ _ _ Hc)). rewrite Hc in H2.
      by apply Nat.compare_gt_iff in H2.
Qed.

Lemma search_hi_spec len l p : cells_ok len l →
  match search_hi l p with
  | inl i => ∃ c, l !! i = Some c ∧ c_hi c = p
  | inr i => i ≤ length l ∧ (∀ j c, j < i → l !! j = Some c → c_hi c < p) ∧
             (∀ j c, i ≤ j → l !! j = Some c → p < c_hi c)
  end.
Proof.
  intros Hok. unfold search_hi.
  pose proof (binary_search_spec _ (length l) (cmp_mono_gen c_hi (length l) l p ltac:(
    intros i j c d Hij Hc Hd; pose proof (cells_ok_order _ _ _ _ _ _ Hok Hij Hc Hd);
    pose proof (cells_ok_lookup _ _ _ _ Hok Hd); lia) eq_refl)) as H.
  destruct (binary_search _ _) as [i|i].
  - destruct H as [Hi He]. destruct (lookup_lt_is_Some_2 l i Hi) as [c Hc].
    rewrite Hc in He. apply Nat.compare_eq_iff in He. eauto.
  - destruct H as (Hi & H1 & H2). split_and!; [done| |].
    + intros j c Hj Hc. specialize (H1 j Hj). rewrite Hc in H1. by apply Nat.compare_lt_iff.
    + intros j c Hj Hc. specialize (H2 j Hj (lookup_lt_Some _ _ _ Hc)). rewrite Hc in H2.
      by apply Nat.compare_gt_iff in H2.
Qed.

(** a slice described by membership equals a filter *)
Lemma filter_slice_gen {A} (P : A → Prop) `{∀ x, Decision (P x)} (l : list A) lo hi :
  (∀ i c, l !! i = Some c → P c ↔ lo ≤ i ∧ i < hi) →
  filter P l = slice l lo hi.
Proof.
  revert lo hi. induction l as [|a l IH]; intros lo hi Hl.
  - unfold slice. by rewrite drop_nil, take_nil.
  - rewrite filter_cons.
    assert (filter P l = slice l (lo - 1) (hi - 1)) as Hrec.
    { apply IH. intros i c Hi. rewrite (Hl (S i) c) by done. lia. }
    rewrite Hrec. destruct (decide (P a)) as [HP|HP].
    + apply (Hl 0 a) in HP as [Hlo Hhi]; [|done]. assert (lo = 0) as -> by lia.
      unfold slice. destruct hi; [lia|]. cbn. rewrite !Nat.sub_0_r. done.
    + unfold slice. destruct lo as [|lo].
      * destruct hi as [|hi]; [done|]. exfalso. apply HP, (Hl 0 a); [done|lia].
      * cbn. rewrite Nat.sub_0_r. f_equal. lia.
Qed.

Lemma filter_none_gen {A} (P : A → Prop) `{∀ x, Decision (P x)} (l : list A) lo hi :
  hi ≤ lo →
  (∀ i c, l !! i = Some c → P c ↔ lo ≤ i ∧ i < hi) →
  filter P l = [].
Proof.
  intros Hle Hl. rewrite (filter_slice_gen P l lo hi Hl). unfold slice.
  by replace (hi - lo) with 0 by lia.
Qed.

Definition is_touching (sp : span) (c : cell) : Prop := sp_lo sp < c_hi c ∧ c_lo c < sp_hi sp.
#[global] Instance is_touching_dec sp c : Decision (is_touching sp c).
Proof. unfold is_touching. apply _. Defined.

(** indices *)
Lemma inside_lo_spec len l p : cells_ok len l →
  ∀ i c, l !! i = Some c →
    p ≤ c_lo c ↔ (match search_lo l p with inl i => i | inr i => i end) ≤ i.
Proof.
  intros Hok i c Hc. pose proof (search_lo_spec len l p Hok) as H.
  destruct (search_lo l p) as [k|k].
  - destruct H as (d & Hd & <-). split.
    + intros Hle. destruct (decide (k ≤ i)); [done|]. exfalso.
      pose proof (cells_ok_order _ _ i k _ _ Hok ltac:(lia) Hc Hd).
      pose proof (cells_ok_lookup _ _ _ _ Hok Hc). lia.
    + intros Hle. destruct (decide (k = i)) as [->|]; [simplify_eq; lia|].
      pose proof (cells_ok_order _ _ k i _ _ Hok ltac:(lia) Hd Hc).
      pose proof (cells_ok_lookup _ _ _ _ Hok Hd). lia.
  - destruct H as (Hk & H1 & H2). split.
    + intros Hle. destruct (decide (k ≤ i)); [done|]. specialize (H1 i c ltac:(lia) Hc). lia.
    + intros Hle. specialize (H2 i c Hle Hc). lia.
Qed.

Lemma inside_hi_spec len l p : cells_ok len l →
  ∀ i c, l !! i = Some c →
    c_hi c ≤ p ↔ i < (match search_hi l p with inl i => i + 1 | inr i => i end).
Proof.
  intros Hok i c Hc. pose proof (search_hi_spec len l p Hok) as H.
  destruct (search_hi l p) as [k|k].
  - destruct H as (d & Hd & <-). split.
    + intros Hle. destruct (decide (i ≤ k)); [lia|]. exfalso.
      pose proof (cells_ok_order _ _ k i _ _ Hok ltac:(lia) Hd Hc).
      pose proof (cells_ok_lookup _ _ _ _ Hok Hc). lia.
    + intros Hle. destruct (decide (k = i)) as [->|]; [simplify_eq; lia|].
      pose proof (cells_ok_order _ _ i k _ _ Hok ltac:(lia) Hc Hd).
      pose proof (cells_ok_lookup _ _ _ _ Hok Hd). lia.
  - destruct H as (Hk & H1 & H2). split.
    + intros Hle. destruct (decide (i < k)); [done|]. specialize (H2 i c ltac:(lia) Hc). lia.
    + intros Hle. specialize (H1 i c Hle Hc). lia.
Qed.

Lemma search_bounds len l p : cells_ok len l →
  (match search_hi l p with inl i => i + 1 | inr i => i end) ≤ length l ∧
  (match search_lo l p with inl i => i | inr i => i end) ≤ length l.
Proof.
  intros Hok. pose proof (search_lo_spec len l p Hok). pose proof (search_hi_spec len l p Hok).
  destruct (search_lo l p), (search_hi l p).
  all: repeat match goal with H : ∃ c, _ ∧ _ |- _ => destruct H as (?&?%lookup_lt_Some&?) end; lia.
Qed.

Lemma inside_bounds_spec len l sp : cells_ok len l →
  match inside_bounds l sp with
  | Some (lo, hi) => lo < hi ∧ hi ≤ length l ∧
      ∀ i c, l !! i = Some c → is_inside sp c ↔ lo ≤ i ∧ i < hi
  | None => ∀ i c, l !! i = Some c → ¬ is_inside sp c
  end.
Proof.
  intros Hok. unfold inside_bounds.
  pose proof (search_bounds len l (sp_hi sp) Hok) as [Hb _].
  pose proof (inside_lo_spec len l (sp_lo sp) Hok) as Hlo.
  pose proof (inside_hi_spec len l (sp_hi sp) Hok) as Hhi.
  set (lo := match search_lo l (sp_lo sp) with inl i => i | inr i => i end) in *.
  set (hi := match search_hi l (sp_hi sp) with inl i => i + 1 | inr i => i end) in *.
  destruct (Nat.ltb_spec lo hi).
  - split_and!; [done|done|]. intros i c Hc. unfold is_inside.
    rewrite (Hlo i c Hc), (Hhi i c Hc). done.
  - intros i c Hc. unfold is_inside. rewrite (Hlo i c Hc), (Hhi i c Hc). lia.
Qed.

Lemma inside_spec len l sp : cells_ok len l → inside l sp = filter (is_inside sp) l.
Proof.
  intros Hok. pose proof (inside_bounds_spec len l sp Hok) as H. unfold inside.
  destruct (inside_bounds l sp) as [[lo hi]|]; cbn.
  - destruct H as (_&_&H). symmetry. by apply filter_slice_gen.
  - symmetry. apply (filter_none_gen _ l 0 0); [lia|]. intros i c Hc.
    split; [intros ?; by destruct (H i c Hc)|lia].
Qed.

Lemma slice_length {A} (l : list A) lo hi : hi ≤ length l → length (slice l lo hi) = hi - lo.
Proof. intros. unfold slice. rewrite take_length, drop_length. lia. Qed.

Lemma slice_head {A} (l : list A) lo hi : lo < hi → slice l lo hi !! 0 = l !! lo.
Proof.
  intros. unfold slice. rewrite lookup_take by lia. rewrite lookup_drop. f_equal. lia.
Qed.

Lemma at_span_spec len l sp c : cells_ok len l →
  at_span l sp = Some c ↔ filter (is_inside sp) l = [c].
Proof.
  intros Hok. rewrite <- (inside_spec len) by done.
  pose proof (inside_bounds_spec len l sp Hok) as H. unfold inside, at_span.
  destruct (inside_bounds l sp) as [[lo hi]|]; cbn; [|done].
  destruct H as (Hlt & Hlen & _).
  pose proof (slice_length l lo hi Hlen) as Hsl.
  pose proof (slice_head l lo hi Hlt) as Hsh.
  destruct (Nat.eqb_spec lo (hi - 1)).
  - split.
    + intros Hc. destruct (slice l lo hi) as [|x [|y r]]; cbn in Hsl; [lia| |lia].
      cbn in Hsh. congruence.
    + intros Heq. rewrite Heq in Hsh. done.
  - split; [done|]. intros Heq. rewrite Heq in Hsl. cbn in Hsl. lia.
Qed.

(** overlap *)
Lemma overlap_bounds_spec len l sp : cells_ok len l →
  match overlap_bounds l sp with
  | Some (lo, hi) => lo < hi ∧ hi ≤ length l ∧
      ∀ i c, l !! i = Some c → is_touching sp c ↔ lo ≤ i ∧ i < hi
  | None => ∀ i c, l !! i = Some c → ¬ is_touching sp c
  end.
Proof.
  intros Hok. unfold overlap_bounds.
  set (lo := match search_lo l (sp_lo sp) with inl i => i | inr i => _ end).
  set (hi := match search_hi l (sp_hi sp) with inl i => i + 1 | inr i => _ end).
  assert (∀ i c, l !! i = Some c → sp_lo sp < c_hi c ↔ lo ≤ i) as Hlo.
  { intros i c Hc. subst lo hi. pose proof (cells_ok_lookup _ _ _ _ Hok Hc) as [Hne _].
    pose proof (search_lo_spec len l (sp_lo sp) Hok) as H.
    destruct (search_lo l (sp_lo sp)) as [k|k].
    - destruct H as (d & Hd & He). pose proof (cells_ok_lookup _ _ _ _ Hok Hd) as [Hnd _].
      destruct (decide (k = i)) as [->|]; [simplify_eq; lia|].
      destruct (decide (k < i)) as [Hki|Hki].
      + pose proof (cells_ok_order _ _ k i _ _ Hok Hki Hd Hc). lia.
      + pose proof (cells_ok_order _ _ i k _ _ Hok ltac:(lia) Hc Hd). lia.
    - destruct H as (Hk & H1 & H2).
      assert (∀ j d, j < k - 1 → l !! j = Some d → c_hi d ≤ sp_lo sp) as Hpre.
      { intros j d Hj Hd. destruct (lookup_lt_is_Some_2 l (k - 1)) as [e He]; [lia|].
        pose proof (cells_ok_order _ _ j (k-1) _ _ Hok Hj Hd He).
        pose proof (H1 (k-1) e ltac:(lia) He). lia. }
      destruct (Nat.ltb_spec 0 k) as [Hk0|Hk0]; cbn [andb].
      + destruct (lookup_lt_is_Some_2 l (k - 1)) as [e He]; [lia|]. rewrite He.
        destruct (Nat.ltb_spec (sp_lo sp) (c_hi e)) as [Hlt|Hlt].
        * split.
          -- intros ?. destruct (decide (k - 1 ≤ i)); [lia|].
             specialize (Hpre i c ltac:(lia) Hc). lia.
          -- intros ?. destruct (decide (i = k - 1)) as [->|]; [simplify_eq; lia|].
             specialize (H2 i c ltac:(lia) Hc). lia.
        * split.
          -- intros ?. destruct (decide (k ≤ i)); [done|].
             destruct (decide (i = k - 1)) as [->|]; [simplify_eq; lia|].
             specialize (Hpre i c ltac:(lia) Hc). lia.
          -- intros ?. specialize (H2 i c ltac:(lia) Hc). lia.
      + split; [lia|]. intros _. specialize (H2 i c ltac:(lia) Hc). lia. }
  assert (∀ i c, l !! i = Some c → c_lo c < sp_hi sp ↔ i < hi) as Hhi.
  { intros i c Hc. subst lo hi. pose proof (cells_ok_lookup _ _ _ _ Hok Hc) as [Hne _].
    pose proof (search_hi_spec len l (sp_hi sp) Hok) as H.
    destruct (search_hi l (sp_hi sp)) as [k|k].
    - destruct H as (d & Hd & He). pose proof (cells_ok_lookup _ _ _ _ Hok Hd) as [Hnd _].
      destruct (decide (k = i)) as [->|]; [simplify_eq; lia|].
      destruct (decide (k < i)) as [Hki|Hki].
      + pose proof (cells_ok_order _ _ k i _ _ Hok Hki Hd Hc). lia.
      + pose proof (cells_ok_order _ _ i k _ _ Hok ltac:(lia) Hc Hd). lia.
    - destruct H as (Hk & H1 & H2).
      assert (∀ e j d, l !! k = Some e → k < j → l !! j = Some d → sp_hi sp ≤ c_lo d) as Hpost.
      { intros e j d He Hj Hd. 
        pose proof (cells_ok_order _ _ k j _ _ Hok Hj He Hd).
        pose proof (H2 k e ltac:(lia) He). lia. }
      destruct (l !! k) as [e|] eqn:He.
      + destruct (Nat.ltb_spec (c_lo e) (sp_hi sp)) as [Hlt|Hlt].
        * split.
          -- intros ?. destruct (decide (i < k + 1)); [done|].
             specialize (Hpost e i c eq_refl ltac:(lia) Hc). lia.
          -- intros ?. destruct (decide (i = k)) as [->|]; [simplify_eq; lia|].
             specialize (H1 i c ltac:(lia) Hc). lia.
        * split.
          -- intros ?. destruct (decide (i < k)); [done|].
             destruct (decide (i = k)) as [->|]; [simplify_eq; lia|].
             specialize (Hpost e i c eq_refl ltac:(lia) Hc). lia.
          -- intros ?. specialize (H1 i c ltac:(lia) Hc). lia.
      + apply lookup_ge_None in He. apply lookup_lt_Some in Hc as Hi.
        split; [lia|]. intros _. specialize (H1 i c ltac:(lia) Hc). lia. }
  assert (hi ≤ length l) as Hhl.
  { subst hi. clear Hhi. pose proof (search_hi_spec len l (sp_hi sp) Hok) as H.
    destruct (search_hi l (sp_hi sp)) as [k|k].
    - destruct H as (?&?%lookup_lt_Some&_). lia.
    - destruct H as (?&_). destruct (l !! k) eqn:E; [|done].
      apply lookup_lt_Some in E. destruct (_ <? _); lia. }
  destruct (Nat.ltb_spec lo hi).
  - split_and!; [done|done|]. intros i c Hc. unfold is_touching.
    rewrite (Hlo i c Hc), (Hhi i c Hc). done.
  - intros i c Hc. unfold is_touching. rewrite (Hlo i c Hc), (Hhi i c Hc). lia.
Qed.

Lemma overlap_spec len l sp : cells_ok len l → overlap l sp = filter (is_touching sp) l.
Proof.
  intros Hok. pose proof (overlap_bounds_spec len l sp Hok) as H. unfold overlap.
  destruct (overlap_bounds l sp) as [[lo hi]|]; cbn.
  - destruct H as (_&_&H). symmetry. by apply filter_slice_gen.
  - symmetry. apply (filter_none_gen _ l 0 0); [lia|]. intros i c Hc.
    split; [intros ?; by destruct (H i c Hc)|lia].
Qed.

Lemma overlap_exact len l sp : cells_ok len l → sp_lo sp < sp_hi sp →
  overlap l sp = filter (is_overlapping sp) l.
Proof.
  intros Hok Hne. rewrite (overlap_spec len) by done.
  assert (∀ c, c ∈ l → is_touching sp c ↔ is_overlapping sp c) as Hiff.
  { intros c [i Hi]%elem_of_list_lookup. apply (cells_ok_lookup _ _ _ _ Hok) in Hi.
    unfold is_touching, is_overlapping. lia. }
  clear Hok. induction l as [|c l IH]; [done|]. rewrite !filter_cons.
  rewrite IH by (intros; apply Hiff; by right).
  specialize (Hiff c ltac:(left)).
  destruct (decide (is_touching sp c)), (decide (is_overlapping sp c)); tauto.
Qed.

(** apply_semantic *)
Lemma map_slice_lookup {A} (f : A → A) (l : list A) lo hi i :
  lo ≤ hi → hi ≤ length l →
  (take lo l ++ map f (slice l lo hi) ++ drop hi l) !! i =
    (if decide (lo ≤ i ∧ i < hi) then f <$> (l !! i) else l !! i).
Proof.
  intros H1 H2.
  assert (length (take lo l) = lo) as Ht by (rewrite take_length; lia).
  assert (length (map f (slice l lo hi)) = hi - lo) as Hm by (rewrite map_length, slice_length; lia).
  destruct (decide (i < lo)) as [Hi|Hi].
  - rewrite lookup_app_l by lia. rewrite lookup_take by done. rewrite decide_False by lia. done.
  - rewrite lookup_app_r by lia. rewrite Ht.
    destruct (decide (i < hi)) as [Hi'|Hi'].
    + rewrite lookup_app_l by lia. rewrite decide_True by lia.
      rewrite list_lookup_fmap. unfold slice. rewrite lookup_take by lia.
      rewrite lookup_drop. do 2 f_equal. lia.
    + rewrite lookup_app_r by lia. rewrite Hm, lookup_drop. rewrite decide_False by lia.
      f_equal. lia.
Qed.

Lemma vec_apply_lookup len l sp sem i : cells_ok len l →
  vec_apply_semantic l sp sem !! i =
    (c ← l !! i; Some (if decide (is_inside sp c) then cell_apply sem c else c)).
Proof.
  intros Hok. pose proof (inside_bounds_spec len l sp Hok) as H.
  unfold vec_apply_semantic. destruct (inside_bounds l sp) as [[lo hi]|].
  - destruct H as (Hlt & Hlen & H). rewrite map_slice_lookup by lia.
    destruct (l !! i) as [c|] eqn:E; cbn.
    + specialize (H i c E). destruct (decide (is_inside sp c)), (decide (lo ≤ i ∧ i < hi)); tauto.
    + by destruct (decide _).
  - destruct (l !! i) as [c|] eqn:E; cbn; [|done].
    rewrite decide_False by eauto. done.
Qed.

Lemma vec_apply_spec len l sp sem : cells_ok len l →
  vec_apply_semantic l sp sem =
    map (λ c, if decide (is_inside sp c) then cell_apply sem c else c) l.
Proof.
  intros Hok. apply list_eq. intros i. rewrite (vec_apply_lookup len) by done.
  rewrite list_lookup_fmap. by destruct (l !! i).
Qed.

Lemma vec_apply_ok len l sp sem : cells_ok len l → cells_ok len (vec_apply_semantic l sp sem).
Proof.
  intros Hok. rewrite (vec_apply_spec len) by done. unfold cells_ok in *.
  replace (map _ (map _ l)) with (map (λ c, t_span (c_tok c)) l); [done|].
  rewrite map_map. apply map_ext. intros c. by destruct (decide _).
Qed.

Lemma is_inside_apply sp sp' sem c :
  is_inside sp (if decide (is_inside sp' c) then cell_apply sem c else c) ↔ is_inside sp c.
Proof. by destruct (decide _). Qed.

Lemma vec_apply_comm len l sp1 s1 sp2 s2 : cells_ok len l →
  vec_apply_semantic (vec_apply_semantic l sp1 s1) sp2 s2 =
  vec_apply_semantic (vec_apply_semantic l sp2 s2) sp1 s1.
Proof.
  intros Hok. rewrite (vec_apply_spec len) by (by apply vec_apply_ok).
  rewrite (vec_apply_spec len l) by done.
  rewrite (vec_apply_spec len _ sp1) by (by apply vec_apply_ok).
  rewrite (vec_apply_spec len l sp2) by done.
  rewrite !map_map. apply map_ext. intros c.
  destruct (decide (is_inside sp1 c)) as [H1|H1], (decide (is_inside sp2 c)) as [H2|H2].
  - rewrite !decide_True by done. unfold cell_apply. cbn. f_equal.
    rewrite <- !N.lor_assoc. f_equal. apply N.lor_comm.
  - repeat case_decide; done.
  - repeat case_decide; done.
  - repeat case_decide; done.
Qed.

Lemma vec_apply_idem len l sp s : cells_ok len l →
  vec_apply_semantic (vec_apply_semantic l sp s) sp s = vec_apply_semantic l sp s.
Proof.
  intros Hok. rewrite (vec_apply_spec len) by (by apply vec_apply_ok).
  rewrite (vec_apply_spec len l) by done.
  rewrite !map_map. apply map_ext. intros c.
  destruct (decide (is_inside sp c)) as [H1|H1].
  - rewrite decide_True by done. unfold cell_apply. cbn. f_equal.
    by rewrite <- N.lor_assoc, N.lor_diag.
  - by rewrite decide_False.
Qed.

(** runs *)
Lemma walk_down_spec p l hi : hi ≤ length l →
  let lo := walk_down p l hi in
  lo ≤ hi ∧ (∀ i c, lo ≤ i → i < hi → l !! i = Some c → p c = true) ∧
  (lo = 0 ∨ ∃ c, l !! (lo - 1) = Some c ∧ p c = false).
Proof.
  induction hi as [|k IH]; intros Hlen; cbn.
  - split_and!; [lia|lia|by left].
  - destruct (lookup_lt_is_Some_2 l k ltac:(lia)) as [c Hc]. rewrite Hc.
    destruct (p c) eqn:E.
    + destruct IH as (H1&H2&H3); [lia|]. split_and!; [lia| |done].
      intros i d Hi1 Hi2 Hd. destruct (decide (i = k)) as [->|]; [congruence|].
      apply (H2 i); [done|lia|done].
    + split_and!; [lia|lia|]. right. exists c. cbn. rewrite Nat.sub_0_r. done.
Qed.

Lemma walk_up_spec p rest hi :
  let h := walk_up p rest hi in
  hi ≤ h ∧ h ≤ hi + length rest ∧ (∀ i c, hi + i < h → rest !! i = Some c → p c = true) ∧
  (h = hi + length rest ∨ ∃ c, rest !! (h - hi) = Some c ∧ p c = false).
Proof.
  revert hi. induction rest as [|c r IH]; intros hi; cbn.
  - split_and!; [lia|lia|done|left; lia].
  - destruct (p c) eqn:E.
    + destruct (IH (S hi)) as (H1&H2&H3&H4). split_and!; [lia|lia| |].
      * intros [|i] d Hi Hd; cbn in Hd; [congruence|]. apply (H3 i); [lia|done].
      * destruct H4 as [H4|(d&Hd&Hp)]; [left; lia|]. right. exists d.
        replace (walk_up p r (S hi) - hi) with (S (walk_up p r (S hi) - S hi)) by lia. done.
    + split_and!; [lia|lia|lia|]. right. exists c. rewrite Nat.sub_diag. done.
Qed.

Lemma ends_at_spec len p l pos lo hi : cells_ok len l →
  ends_at_matches_bounds p l pos = Some (lo, hi) ↔
  (lo < hi ∧ hi ≤ length l ∧
   (∃ c, l !! (hi - 1) = Some c ∧ c_hi c = pos) ∧
   (∀ i c, lo ≤ i → i < hi → l !! i = Some c → p c = true) ∧
   (lo = 0 ∨ ∃ c, l !! (lo - 1) = Some c ∧ p c = false)).
Proof.
  intros Hok. unfold ends_at_matches_bounds.
  pose proof (search_hi_spec len l pos Hok) as H.
  destruct (search_hi l pos) as [k|k].
  - destruct H as (c & Hc & Hp). pose proof (lookup_lt_Some _ _ _ Hc).
    destruct (walk_down_spec p l (k + 1)) as (H1&H2&H3); [lia|].
    set (w := walk_down p l (k + 1)) in *.
    destruct (Nat.ltb_spec w (k + 1)) as [Hlt|Hlt].
    + split.
      * intros [= <- <-]. split_and!; [lia|lia| |done|done].
        exists c. replace (k + 1 - 1) with k by lia. done.
      * intros (A1&A2&(d&Hd&Hdp)&A3&A4). f_equal.
        assert (hi = k + 1) as ->.
        { destruct (decide (hi - 1 = k)); [lia|]. exfalso.
          destruct (decide (hi - 1 < k)) as [Hk|Hk].
          - pose proof (cells_ok_order _ _ _ _ _ _ Hok Hk Hd Hc).
            pose proof (cells_ok_lookup _ _ _ _ Hok Hc). lia.
          - pose proof (cells_ok_order _ _ k (hi-1) _ _ Hok ltac:(lia) Hc Hd).
            pose proof (cells_ok_lookup _ _ _ _ Hok Hd). lia. }
        f_equal. destruct (decide (w = lo)); [done|]. exfalso.
        destruct (decide (w < lo)).
        -- destruct A4 as [->|(e&He&Hpe)]; [lia|].
           specialize (H2 (lo-1) e ltac:(lia) ltac:(lia) He). congruence.
        -- destruct H3 as [->|(e&He&Hpe)]; [lia|].
           specialize (A3 (w-1) e ltac:(lia) ltac:(lia) He). congruence.
    + split; [done|]. intros (A1&A2&(d&Hd&Hdp)&A3&A4). exfalso.
      assert (hi = k + 1) as ->.
      { destruct (decide (hi - 1 = k)); [lia|]. exfalso.
        destruct (decide (hi - 1 < k)) as [Hk|Hk].
        - pose proof (cells_ok_order _ _ _ _ _ _ Hok Hk Hd Hc).
          pose proof (cells_ok_lookup _ _ _ _ Hok Hc). lia.
        - pose proof (cells_ok_order _ _ k (hi-1) _ _ Hok ltac:(lia) Hc Hd).
          pose proof (cells_ok_lookup _ _ _ _ Hok Hd). lia. }
      assert (w = k + 1) as Hw by lia. rewrite Hw in H3.
      destruct H3 as [|(e&He&Hpe)]; [lia|].
      specialize (A3 (k+1-1) e ltac:(lia) ltac:(lia) He). congruence.
  - destruct H as (Hk & H1 & H2). split; [done|].
    intros (A1&A2&(d&Hd&Hdp)&A3&A4). exfalso.
    destruct (decide (hi - 1 < k)).
    + specialize (H1 _ _ ltac:(done) Hd). lia.
    + specialize (H2 (hi-1) _ ltac:(lia) Hd). lia.
Qed.

Lemma begins_at_spec len p l pos lo hi : cells_ok len l →
  begins_at_matches_bounds p l pos = Some (lo, hi) ↔
  (lo < hi ∧ hi ≤ length l ∧
   (∃ c, l !! lo = Some c ∧ c_lo c = pos) ∧
   (∀ i c, lo ≤ i → i < hi → l !! i = Some c → p c = true) ∧
   (hi = length l ∨ ∃ c, l !! hi = Some c ∧ p c = false)).
Proof.
  intros Hok. unfold begins_at_matches_bounds.
  pose proof (search_lo_spec len l pos Hok) as H.
  destruct (search_lo l pos) as [k|k].
  - destruct H as (c & Hc & Hp). pose proof (lookup_lt_Some _ _ _ Hc).
    destruct (walk_up_spec p (drop k l) k) as (H1&H2&H3&H4).
    set (w := walk_up p (drop k l) k) in *. rewrite drop_length in H2, H4.
    setoid_rewrite lookup_drop in H3. setoid_rewrite lookup_drop in H4.
    assert (∀ hi lo d, lo < hi → l !! lo = Some d → c_lo d = pos → lo = k) as Huniq.
    { intros h l0 d _ Hd Hdp. destruct (decide (l0 = k)); [done|]. exfalso.
      destruct (decide (l0 < k)) as [Hk|Hk].
      - pose proof (cells_ok_order _ _ _ _ _ _ Hok Hk Hd Hc).
        pose proof (cells_ok_lookup _ _ _ _ Hok Hd). lia.
      - pose proof (cells_ok_order _ _ k l0 _ _ Hok ltac:(lia) Hc Hd).
        pose proof (cells_ok_lookup _ _ _ _ Hok Hc). lia. }
    assert (∀ i c, k ≤ i → i < w → l !! i = Some c → p c = true) as H3'.
    { intros i d Hi1 Hi2 Hd. apply (H3 (i - k)); [lia|]. rewrite <- Hd. f_equal. lia. }
    assert (w = length l ∨ ∃ c, l !! w = Some c ∧ p c = false) as H4'.
    { destruct H4 as [H4|(d&Hd&Hpd)]; [left; lia|right]. exists d. split; [|done].
      rewrite <- Hd. f_equal. lia. }
    destruct (Nat.ltb_spec k w) as [Hlt|Hlt].
    + split.
      * intros [= <- <-]. split_and!; [lia|lia| |done|done]. eauto.
      * intros (A1&A2&(d&Hd&Hdp)&A3&A4). assert (lo = k) as -> by eauto. f_equal. f_equal.
        destruct (decide (w = hi)); [done|]. exfalso. destruct (decide (w < hi)).
        -- destruct H4' as [->|(e&He&Hpe)]; [lia|]. specialize (A3 w e ltac:(lia) ltac:(lia) He). congruence.
        -- destruct A4 as [->|(e&He&Hpe)]; [lia|]. specialize (H3' hi e ltac:(lia) ltac:(lia) He). congruence.
    + split; [done|]. intros (A1&A2&(d&Hd&Hdp)&A3&A4). exfalso.
      assert (lo = k) as -> by eauto. assert (w = k) as Hw by lia. rewrite Hw in H4'.
      destruct H4' as [|(e&He&Hpe)]; [lia|]. specialize (A3 k e ltac:(lia) ltac:(lia) He). congruence.
  - destruct H as (Hk & H1 & H2). split; [done|].
    intros (A1&A2&(d&Hd&Hdp)&A3&A4). exfalso.
    destruct (decide (lo < k)).
    + specialize (H1 _ _ ltac:(done) Hd). lia.
    + specialize (H2 lo _ ltac:(lia) Hd). lia.
Qed.

Lemma cells_ok_push from len l t :
  spans_ok from len (map (λ c, t_span (c_tok c)) l ++ [t_span t]) ↔
  spans_ok from len (map (λ c, t_span (c_tok c)) (vec_push l t)).
Proof. unfold vec_push. rewrite map_app. done. Qed.

Lemma at_span_not_equal : ∃ len l sp c, cells_ok len l ∧
  at_span l sp = Some c ∧ t_span (c_tok c) ≠ sp.
Proof.
  exists 9, [cell_of (Token (Span 2 4) 0)], (Span 1 6), (cell_of (Token (Span 2 4) 0)).
  split; [cbn; lia|]. split; [reflexivity|]. done.
Qed.

Lemma overlap_empty_span : ∃ len l sp, cells_ok len l ∧
  overlap l sp ≠ filter (is_overlapping sp) l.
Proof.
  exists 9, [cell_of (Token (Span 2 4) 0)], (Span 3 3).
  split; [cbn; lia|]. vm_compute. done.
Qed.
