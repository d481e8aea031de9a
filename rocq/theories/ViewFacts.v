(** Chains of queries. *)
From Coq Require Import String NArith.
From stdpp Require Import prelude list.
From Verif Require Import LexModel LexSpec LexFacts VecFacts ViewModel ViewSpec.
Local Open Scope nat_scope.

Lemma spans_ok_weak from from' len l : from' ≤ from → spans_ok from len l → spans_ok from' len l.
Proof. destruct l; cbn; [lia|]. intros ? (H1 & H2 & H3). split_and!; [lia|done..]. Qed.
Lemma spans_ok_le from len l : spans_ok from len l → from ≤ len.
Proof. revert from. induction l as [|s l IH]; cbn; [done|]. intros from (H1 & H2 & H3). apply IH in H3. lia. Qed.
Lemma spans_ok_mid from len a m b : spans_ok from len (a ++ m ++ b) → spans_ok from len m.
Proof.
  revert from. induction a as [|s a IH]; cbn.
  - revert b. induction m as [|s m IH]; intros b from; cbn; [apply spans_ok_le|]. intros (H1 & H2 & H3). split_and!; [done..|by eapply IH].
  - intros from (H1 & H2 & H3). eapply spans_ok_weak; [|by apply IH]. lia.
Qed.
Lemma cells_ok_mid len a m b : cells_ok len (a ++ m ++ b) → cells_ok len m.
Proof. unfold cells_ok. rewrite !map_app. apply spans_ok_mid. Qed.

Lemma slice_split {A} (l : list A) lo hi : lo ≤ hi → l = take lo l ++ slice l lo hi ++ drop hi l.
Proof.
  intros H. unfold slice. rewrite <- (take_drop lo l) at 1. f_equal. rewrite <- (take_drop (hi - lo) (drop lo l)) at 1. f_equal.
  rewrite drop_drop. f_equal. lia.
Qed.

(** The part [lo..hi] of [m] is what [q] gives of [m], counted from the start of [m]. *)
Definition given (q : query) (m : list cell) (i : nat) : Prop := choose q m (λ i, i < length m) i.
Lemma ends_none len p l pos : cells_ok len l → ends_at_matches_bounds p l pos = None → ∀ i, ¬ given (QEnds p pos) l i.
Proof.
  intros Hok Hn i (j & Hij & (c & Hc & Hp) & Hk). unfold ends_at_matches_bounds in Hn. assert (H := search_hi_spec len l pos Hok).
  destruct (search_hi l pos) as [i'|i'].
  - destruct H as (c' & Hc' & Hp'). assert (i' = j) as ->.
    { destruct (Nat.lt_trichotomy i' j) as [Hl|[?|Hl]]; [|done|].
      - assert (H1 := cells_ok_order len l _ _ _ _ Hok Hl Hc' Hc). assert (H2 := cells_ok_lookup len l _ _ Hok Hc). lia.
      - assert (H1 := cells_ok_order len l _ _ _ _ Hok Hl Hc Hc'). assert (H2 := cells_ok_lookup len l _ _ Hok Hc'). lia. }
    destruct (Hk j) as [_ (c'' & E & Hpc)]; [done..|]. assert (Hlt := lookup_lt_Some _ _ _ Hc).
    assert (Hw := walk_down_spec p l (j + 1) ltac:(lia)). cbn zeta in Hw, Hn. destruct Hw as (W1 & _ & W3).
    destruct (Nat.ltb_spec (walk_down p l (j + 1)) (j + 1)) as [|Hge]; [done|].
    destruct W3 as [W3|(d & Hd & Hpd)]; [lia|]. replace (walk_down p l (j + 1) - 1) with j in Hd by lia. congruence.
  - destruct H as (_ & H1 & H2). destruct (decide (j < i')) as [Hl|Hl]; [apply (H1 _ _ Hl) in Hc; lia|].
    assert (i' ≤ j) as Hl' by lia. apply (H2 _ _ Hl') in Hc. lia.
Qed.
Lemma begins_none len p l pos : cells_ok len l → begins_at_matches_bounds p l pos = None → ∀ i, ¬ given (QBegins p pos) l i.
Proof.
  intros Hok Hn i (j & Hij & (c & Hc & Hp) & Hk). unfold begins_at_matches_bounds in Hn. assert (H := search_lo_spec len l pos Hok).
  destruct (search_lo l pos) as [i'|i'].
  - destruct H as (c' & Hc' & Hp'). assert (i' = j) as ->.
    { destruct (Nat.lt_trichotomy i' j) as [Hl|[?|Hl]]; [|done|].
      - assert (H1 := cells_ok_order len l _ _ _ _ Hok Hl Hc' Hc). assert (H2 := cells_ok_lookup len l _ _ Hok Hc'). lia.
      - assert (H1 := cells_ok_order len l _ _ _ _ Hok Hl Hc Hc'). assert (H2 := cells_ok_lookup len l _ _ Hok Hc). lia. }
    destruct (Hk j) as [_ (c'' & E & Hpc)]; [done..|]. assert (Hw := walk_up_spec p (drop j l) j). cbn zeta in Hw, Hn. destruct Hw as (W1 & _ & _ & W3). assert (Hlt := lookup_lt_Some _ _ _ Hc).
    destruct (Nat.ltb_spec j (walk_up p (drop j l) j)) as [|Hge]; [done|].
    rewrite drop_length in W3. destruct W3 as [W3|(d & Hd & Hpd)]; [lia|]. rewrite lookup_drop in Hd.
    replace (j + (walk_up p (drop j l) j - j)) with j in Hd by lia. congruence.
  - destruct H as (_ & H1 & H2). destruct (decide (j < i')) as [Hl|Hl]; [apply (H1 _ _ Hl) in Hc; lia|].
    assert (i' ≤ j) as Hl' by lia. apply (H2 _ _ Hl') in Hc. lia.
Qed.
Lemma bounds_spec len q l : cells_ok len l →
  match bounds q l with
  | Some (lo, hi) => lo < hi ∧ hi ≤ length l ∧ ∀ i, given q l i ↔ lo ≤ i ∧ i < hi
  | None => ∀ i, ¬ given q l i
  end.
Proof.
  intros Hok. destruct q as [sp|sp|p pos|p pos]; cbn [bounds].
  - assert (H := overlap_bounds_spec len l sp Hok). destruct (overlap_bounds l sp) as [[lo hi]|].
    + destruct H as (H1 & H2 & H3). split_and!; [done..|]. intros i. unfold given; cbn. split.
      * intros [Hi (c & Hc & Ht)]. by apply (H3 i c Hc).
      * intros [Hl Hh]. split; [lia|]. destruct (lookup_lt_is_Some_2 l i) as [c Hc]; [lia|]. exists c. split; [done|]. by apply (H3 i c Hc).
    + intros i [Hi (c & Hc & Ht)]. by apply (H i c Hc).
  - assert (H := inside_bounds_spec len l sp Hok). destruct (inside_bounds l sp) as [[lo hi]|].
    + destruct H as (H1 & H2 & H3). split_and!; [done..|]. intros i. unfold given; cbn. split.
      * intros [Hi (c & Hc & Ht)]. by apply (H3 i c Hc).
      * intros [Hl Hh]. split; [lia|]. destruct (lookup_lt_is_Some_2 l i) as [c Hc]; [lia|]. exists c. split; [done|]. by apply (H3 i c Hc).
    + intros i [Hi (c & Hc & Ht)]. by apply (H i c Hc).
  - destruct (ends_at_matches_bounds p l pos) as [[lo hi]|] eqn:E; [|by eapply ends_none].
    rewrite (ends_at_spec len) in E by done. destruct E as (H1 & H2 & (c & Hc & Hp) & H3 & H4). split_and!; [done..|].
    intros i. split.
    + intros (j & Hij & (c' & Hc' & Hp') & Hk). assert (j = hi - 1) as ->.
      { destruct (Nat.lt_trichotomy j (hi - 1)) as [Hl|[?|Hl]]; [|done|].
        - assert (A1 := cells_ok_order len l _ _ _ _ Hok Hl Hc' Hc). assert (A2 := cells_ok_lookup len l _ _ Hok Hc). lia.
        - assert (A1 := cells_ok_order len l _ _ _ _ Hok Hl Hc Hc'). assert (A2 := cells_ok_lookup len l _ _ Hok Hc'). lia. }
      split; [|lia]. destruct (decide (lo ≤ i)) as [|Hn]; [done|]. destruct H4 as [->|(d & Hd & Hpd)]; [lia|].
      destruct (Hk (lo - 1)) as [_ (d' & Hd' & Hpd')]; [lia..|]. congruence.
    + intros [Hl Hh]. exists (hi - 1). split_and!; [lia|by exists c|]. intros k Hk1 Hk2. split; [lia|].
      destruct (lookup_lt_is_Some_2 l k) as [d Hd]; [lia|]. exists d. split; [done|]. eapply (H3 k); [lia..|done].
  - destruct (begins_at_matches_bounds p l pos) as [[lo hi]|] eqn:E; [|by eapply begins_none].
    rewrite (begins_at_spec len) in E by done. destruct E as (H1 & H2 & (c & Hc & Hp) & H3 & H4). split_and!; [done..|].
    intros i. split.
    + intros (j & Hij & (c' & Hc' & Hp') & Hk). assert (j = lo) as ->.
      { destruct (Nat.lt_trichotomy j lo) as [Hl|[?|Hl]]; [|done|].
        - assert (A1 := cells_ok_order len l _ _ _ _ Hok Hl Hc' Hc). assert (A2 := cells_ok_lookup len l _ _ Hok Hc'). lia.
        - assert (A1 := cells_ok_order len l _ _ _ _ Hok Hl Hc Hc'). assert (A2 := cells_ok_lookup len l _ _ Hok Hc). lia. }
      split; [done|]. destruct (decide (i < hi)) as [|Hn]; [done|]. destruct H4 as [->|(d & Hd & Hpd)].
      * destruct (Hk i) as [Hi _]; [lia..|]. lia.
      * destruct (Hk hi) as [_ (d' & Hd' & Hpd')]; [lia..|]. congruence.
    + intros [Hl Hh]. exists lo. split_and!; [lia|by exists c|]. intros k Hk1 Hk2. split; [lia|].
      destruct (lookup_lt_is_Some_2 l k) as [d Hd]; [lia|]. exists d. split; [done|]. eapply (H3 k); [lia..|done].
Qed.

(** From a part to the whole. *)
Lemma mid_lookup {A} (a m b : list A) i : i < length m → (a ++ m ++ b) !! (length a + i) = m !! i.
Proof. intros H. rewrite lookup_app_r by lia. replace (length a + i - length a) with i by lia. by apply lookup_app_l. Qed.
Lemma choose_mid q a m b D i : (∀ i, D i ↔ length a ≤ i ∧ i < length a + length m) →
  choose q (a ++ m ++ b) D i ↔ length a ≤ i ∧ given q m (i - length a).
Proof.
  intros HD.
  assert (HL : ∀ k c, D k → (a ++ m ++ b) !! k = Some c ↔ m !! (k - length a) = Some c).
  { intros k c Hk. apply HD in Hk. replace k with (length a + (k - length a)) at 1 by lia. rewrite mid_lookup by lia. done. }
  destruct q as [sp|sp|p pos|p pos]; unfold given; cbn [choose].
  1,2: split; [intros [Hi (c & Hc & Ht)]; split; [apply HD in Hi; lia|]; split; [apply HD in Hi; lia|]; exists c; split; [by apply HL|done]|].
  1,2: intros [Hi [Hl (c & Hc & Ht)]]; assert (D i) by (apply HD; lia); split; [done|]; exists c; split; [by apply HL|done].
  - split.
    + intros (j & Hij & (c & Hc & Hp) & Hk). assert (Hj := Hk j Hij (le_n _)). destruct Hj as [Hj _].
      assert (Hi := Hk i (le_n _) Hij). destruct Hi as [Hi _]. assert (Hi' := Hi). assert (Hj' := Hj). apply HD in Hi', Hj'.
      split; [lia|]. exists (j - length a). split_and!; [lia|exists c; split; [by apply HL|done]|].
      intros k H1 H2. destruct (Hk (length a + k)) as [Dk (d & Hd & Hpd)]; [lia..|]. assert (Dk' := Dk). apply HD in Dk'. split; [lia|].
      exists d. split; [|done]. apply (HL _ _ Dk) in Hd. by replace (length a + k - length a) with k in Hd by lia.
    + intros [Hi (j & Hij & (c & Hc & Hp) & Hk)]. assert (Hj : D (length a + j)) by (apply HD; apply lookup_lt_Some in Hc; lia).
      exists (length a + j). split_and!; [lia| |].
      * exists c. split; [|done]. apply HL; [done|]. by replace (length a + j - length a) with j by lia.
      * intros k H1 H2. destruct (Hk (k - length a)) as [Hl (d & Hd & Hpd)]; [lia..|]. assert (D k) by (apply HD; lia).
        split; [done|]. exists d. split; [by apply HL|done].
  - split.
    + intros (j & Hij & (c & Hc & Hp) & Hk). assert (Hj := Hk j (le_n _) Hij). destruct Hj as [Hj _].
      assert (Hi := Hk i Hij (le_n _)). destruct Hi as [Hi _]. assert (Hi' := Hi). assert (Hj' := Hj). apply HD in Hi', Hj'.
      split; [lia|]. exists (j - length a). split_and!; [lia|exists c; split; [by apply HL|done]|].
      intros k H1 H2. destruct (Hk (length a + k)) as [Dk (d & Hd & Hpd)]; [lia..|]. assert (Dk' := Dk). apply HD in Dk'. split; [lia|].
      exists d. split; [|done]. apply (HL _ _ Dk) in Hd. by replace (length a + k - length a) with k in Hd by lia.
    + intros [Hi (j & Hij & (c & Hc & Hp) & Hk)].
      assert (Hi' : i - length a < length m) by (destruct (Hk (i - length a)); [lia..|done]).
      assert (Hj : D (length a + j)) by (apply HD; apply lookup_lt_Some in Hc; lia).
      exists (length a + j). split_and!; [lia| |].
      * exists c. split; [|done]. apply HL; [done|]. by replace (length a + j - length a) with j by lia.
      * intros k H1 H2. destruct (Hk (k - length a)) as [Hl (d & Hd & Hpd)]; [lia..|]. assert (D k) by (apply HD; lia).
        split; [done|]. exists d. split; [by apply HL|done].
Qed.
Lemma choose_empty q l D i : (∀ i, ¬ D i) → ¬ choose q l D i.
Proof.
  intros HD. destruct q; cbn; [intros [H _]; by eapply HD..| |].
  - intros (j & Hij & _ & Hk). destruct (Hk i) as [H _]; [lia..|]. by eapply HD.
  - intros (j & Hij & _ & Hk). destruct (Hk i) as [H _]; [lia..|]. by eapply HD.
Qed.
Lemma chooses_empty qs l D : (∀ i, ¬ D i) → ∀ i, ¬ chooses qs l D i.
Proof. revert D. induction qs as [|q qs IH]; intros D HD; [done|]. cbn. apply IH. intros i. by apply choose_empty. Qed.

(** The chain, started at the part [m] of [a ++ m ++ b]. *)
Lemma views_mid len qs : ∀ a m b D, cells_ok len (a ++ m ++ b) → (∀ i, D i ↔ length a ≤ i ∧ i < length a + length m) →
  match views qs m with
  | Some r => ∃ a' b', a ++ m ++ b = a' ++ r ++ b' ∧
      ∀ i, chooses qs (a ++ m ++ b) D i ↔ length a' ≤ i ∧ i < length a' + length r
  | None => ∀ i, ¬ chooses qs (a ++ m ++ b) D i
  end.
Proof.
  induction qs as [|q qs IH]; intros a m b D Hok HD; cbn [views chooses]; [by exists a, b|].
  assert (Hm := cells_ok_mid _ _ _ _ Hok). assert (Hb := bounds_spec len q m Hm). unfold view. destruct (bounds q m) as [[lo hi]|]; cbn.
  - destruct Hb as (H1 & H2 & H3). assert (Hs := slice_split m lo hi ltac:(lia)). set (m' := slice m lo hi) in *.
    assert (Hl : length m' = hi - lo) by (by apply slice_length).
    assert (E : a ++ m ++ b = (a ++ take lo m) ++ m' ++ (drop hi m ++ b)).
    { rewrite Hs at 1. rewrite <- !(assoc_L (++)). done. }
    assert (HD' : ∀ i, choose q (a ++ m ++ b) D i ↔ length (a ++ take lo m) ≤ i ∧ i < length (a ++ take lo m) + length m').
    { intros i. rewrite choose_mid by done. rewrite H3, app_length, take_length, Hl. lia. }
    rewrite E in Hok, HD' |- *. by apply IH.
  - assert (HD' : ∀ i, ¬ choose q (a ++ m ++ b) D i).
    { intros i. rewrite choose_mid by done. intros [_ H]. by eapply Hb. }
    assert (Hn := chooses_empty qs (a ++ m ++ b) _ HD').
    assert (Hz : match views qs [] with Some r => r = [] | None => True end).
    { clear. induction qs as [|q qs IH]; [done|]. cbn. unfold view. assert (bounds q [] = None) as -> by (by destruct q).
      by destruct q. }
    destruct q; cbn [mbind option_bind]; [| |exact Hn|exact Hn].
    all: destruct (views qs []) as [r|]; [subst r|done]; exists [], (a ++ m ++ b); split; [done|]; intros i; split; [intros H; by apply Hn in H|cbn; lia].
Qed.
Lemma views_spec len qs l : cells_ok len l →
  match views qs l with
  | Some r => ∃ a b, l = a ++ r ++ b ∧ ∀ i, chosen qs l i ↔ length a ≤ i ∧ i < length a + length r
  | None => ∀ i, ¬ chosen qs l i
  end.
Proof.
  intros Hok. assert (H := views_mid len qs [] l [] (λ i, i < length l)). cbn in H. rewrite app_nil_r in H. apply H; [done|]. lia.
Qed.

(** Writing through the chain. *)
Lemma views_mut_mid len qs f : (∀ m, length (f m) = length m) → ∀ a m b D, cells_ok len (a ++ m ++ b) →
  (∀ i, D i ↔ length a ≤ i ∧ i < length a + length m) →
  ∃ a' r b', a ++ m ++ b = a' ++ r ++ b' ∧ a ++ views_mut qs f m ++ b = a' ++ f r ++ b' ∧
    (∀ i, chooses qs (a ++ m ++ b) D i ↔ length a' ≤ i ∧ i < length a' + length r).
Proof.
  intros Hf. induction qs as [|q qs IH]; intros a m b D Hok HD; cbn [views_mut chooses]; [by exists a, m, b|].
  assert (Hm := cells_ok_mid _ _ _ _ Hok). assert (Hb := bounds_spec len q m Hm). destruct (bounds q m) as [[lo hi]|].
  - destruct Hb as (H1 & H2 & H3). assert (Hs := slice_split m lo hi ltac:(lia)). set (m' := slice m lo hi) in *.
    assert (Hl : length m' = hi - lo) by (by apply slice_length).
    assert (E : a ++ m ++ b = (a ++ take lo m) ++ m' ++ (drop hi m ++ b)).
    { rewrite Hs at 1. rewrite <- !(assoc_L (++)). done. }
    assert (HD' : ∀ i, choose q (a ++ m ++ b) D i ↔ length (a ++ take lo m) ≤ i ∧ i < length (a ++ take lo m) + length m').
    { intros i. rewrite choose_mid by done. rewrite H3, app_length, take_length, Hl. lia. }
    rewrite E in Hok, HD' |- *. destruct (IH _ _ _ _ Hok HD') as (a' & r & b' & E1 & E2 & E3). exists a', r, b'. split_and!; [done| |done].
    rewrite <- E2. rewrite <- !(assoc_L (++)). done.
  - assert (HD' : ∀ i, ¬ choose q (a ++ m ++ b) D i).
    { intros i. rewrite choose_mid by done. intros [_ H]. by eapply Hb. }
    assert (Hn := chooses_empty qs (a ++ m ++ b) _ HD'). assert (f [] = []) as Hz by (apply nil_length_inv; by rewrite Hf).
    exists (a ++ m ++ b), [], []. rewrite Hz. split_and!; [by rewrite !app_nil_r..|].
    intros i. split; [intros H; by apply Hn in H|cbn; lia].
Qed.
Lemma views_apply_spec len qs sem l : cells_ok len l → length (views_apply qs sem l) = length l ∧
  ∀ i c, l !! i = Some c →
    (chosen qs l i → views_apply qs sem l !! i = Some (Cell (c_tok c) (N.lor (c_sem c) sem))) ∧
    (¬ chosen qs l i → views_apply qs sem l !! i = Some c).
Proof.
  intros Hok. unfold views_apply. assert (Hf : ∀ m, length (map (cell_apply sem) m) = length m) by (intros; apply map_length).
  assert (H := views_mut_mid len qs (map (cell_apply sem)) Hf [] l [] (λ i, i < length l)). cbn in H. rewrite !app_nil_r in H.
  destruct H as (a & r & b & E1 & E2 & E3); [done|lia|]. rewrite E2. split; [rewrite E1, !app_length, Hf; done|].
  intros i c Hc. unfold chosen. rewrite E3. rewrite E1 in Hc. split.
  - intros [H1 H2]. replace i with (length a + (i - length a)) by lia. rewrite mid_lookup by (rewrite Hf; lia).
    replace i with (length a + (i - length a)) in Hc by lia. rewrite mid_lookup in Hc by lia.
    rewrite list_lookup_fmap, Hc. done.
  - intros Hn. destruct (decide (i < length a)) as [Hl|Hl].
    + rewrite lookup_app_l in Hc |- * by done. done.
    + rewrite lookup_app_r in Hc |- * by lia. rewrite lookup_app_r in Hc by lia. rewrite lookup_app_r by (rewrite Hf; lia). by rewrite Hf.
Qed.

(** Queries by spans. *)
Lemma chooses_spans qs l (D : nat → Prop) i : Forall by_span qs → (∀ i, D i → i < length l) →
  chooses qs l D i ↔ D i ∧ ∃ c, l !! i = Some c ∧ Forall (meets c) qs.
Proof.
  intros Hq. revert D. induction Hq as [|q qs Hq _ IH]; intros D HD; cbn [chooses].
  - split; [|by intros [H _]]. intros H. split; [done|]. destruct (lookup_lt_is_Some_2 l i) as [c Hc]; [by apply HD|]. exists c. by rewrite Forall_nil.
  - rewrite IH.
    + destruct q; cbn in Hq; try done; cbn [choose].
      all: split; [intros [[Hi (c & Hc & Hm)] (c' & Hc' & Ha)]; split; [done|]; exists c; split; [done|]; constructor; [done|]; congruence|].
      all: intros [Hi (c & Hc & Ha)]; apply Forall_cons in Ha as [Hm Ha]; split; [split; [done|by exists c]|by exists c].
    + intros k. destruct q; cbn in Hq; try done; cbn [choose]; intros [Hk _]; by apply HD.
Qed.
Lemma views_spans len qs l : cells_ok len l → Forall by_span qs → views qs l = Some (filter (λ c, Forall (meets c) qs) l).
Proof.
  intros Hok Hq. assert (H := views_spec len qs l Hok).
  assert (Hs : is_Some (views qs l)).
  { clear H Hok. revert l. induction Hq as [|q qs Hq _ IH]; intros l; cbn; [done|]. unfold view.
    destruct (bounds q l) as [[lo hi]|]; [apply IH|]. destruct q; [apply IH..|done|done]. }
  destruct Hs as [r Hr]. rewrite Hr in H |- *. destruct H as (a & b & -> & H). f_equal. symmetry.
  rewrite (filter_slice_gen _ _ (length a) (length a + length r)).
  - unfold slice. rewrite drop_app. replace (length a + length r - length a) with (length r) by lia. by rewrite take_app.
  - intros i c Hc. rewrite <- H. unfold chosen. rewrite chooses_spans by (done || lia). split.
    + intros Ha. split; [by eapply lookup_lt_Some|by exists c].
    + intros [_ (c' & Hc' & Ha)]. congruence.
Qed.
Lemma views_order len qs qs' l : cells_ok len l → Forall by_span qs → qs ≡ₚ qs' → views qs l = views qs' l.
Proof.
  intros Hok Hq Hp. rewrite (views_spans len) by done. rewrite (views_spans len) by (done || by rewrite <- Hp). f_equal.
  apply list_filter_iff. intros c. by rewrite Hp.
Qed.

(** Marks by spans, one after the other, and the types of a token. *)
Lemma views_apply_spans len qs sem l : cells_ok len l → Forall by_span qs →
  views_apply qs sem l = map (λ c, if decide (Forall (meets c) qs) then cell_apply sem c else c) l.
Proof.
  intros Hok Hq. destruct (views_apply_spec len qs sem l Hok) as [Hlen H]. apply list_eq. intros i. rewrite list_lookup_fmap.
  destruct (l !! i) as [c|] eqn:Hc; cbn.
  - destruct (H i c Hc) as [H1 H2]. unfold chosen in H1, H2. rewrite chooses_spans in H1, H2 by (done || lia). case_decide as Hd.
    + apply H1. split; [by eapply lookup_lt_Some|by exists c].
    + apply H2. intros [_ (c' & Hc' & Ha)]. congruence.
  - apply lookup_ge_None in Hc. apply lookup_ge_None. lia.
Qed.
Lemma map_cells_ok len (f : cell → cell) l : (∀ c, c_tok (f c) = c_tok c) → cells_ok len l → cells_ok len (map f l).
Proof. intros Hf. unfold cells_ok. rewrite map_map. 
  assert (map (λ c, t_span (c_tok (f c))) l = map (λ c, t_span (c_tok c)) l) as -> by (apply map_ext; intros; by rewrite Hf). done. Qed.
Lemma meets_tok c d q : c_tok c = c_tok d → meets c q → meets d q.
Proof. intros H. destruct q; cbn; unfold c_lo, c_hi; by rewrite ?H. Qed.
Lemma marks_spec len ops : Forall (λ op : list query * N, Forall by_span op.1) ops → ∀ l i c, cells_ok len l → l !! i = Some c →
  ∃ s, marks ops l !! i = Some (Cell (c_tok c) s) ∧
    ∀ k, N.testbit s k = true ↔ N.testbit (c_sem c) k = true ∨ ∃ op, op ∈ ops ∧ Forall (meets c) op.1 ∧ N.testbit op.2 k = true.
Proof.
  induction 1 as [|[qs sem] ops Hq _ IH]; intros l i c Hok Hc; cbn [marks fold_left].
  - exists (c_sem c). destruct c. split; [done|]. intros k. split; [by left|]. intros [?|(op & H & _)]; [done|]. by apply elem_of_nil in H.
  - cbn [fst snd] in *. set (g := λ c, if decide (Forall (meets c) qs) then cell_apply sem c else c).
    assert (Hg : ∀ c, c_tok (g c) = c_tok c) by (intros d; unfold g; by case_decide).
    assert (Hs : views_apply qs sem l = map g l) by (by apply (views_apply_spans len)).
    rewrite Hs. destruct (IH (map g l) i (g c)) as (s & H1 & H2); [by apply map_cells_ok|by rewrite list_lookup_fmap, Hc|].
    rewrite Hg in H1. exists s. split; [done|]. intros k. rewrite H2.
    assert (Hm : ∀ q : list query, Forall (meets (g c)) q ↔ Forall (meets c) q).
    { intros q. split; intros H; (eapply Forall_impl; [exact H|]); intros d Hd; (eapply meets_tok; [|exact Hd]); by rewrite Hg. }
    split.
    + intros [H|(op & Ho & Ha & Hk)]; [|right; exists op; rewrite Hm in Ha; set_solver].
      unfold g in H. case_decide as Hd; [|by left]. cbn in H. rewrite N.lor_spec in H. apply orb_true_iff in H as [H|H]; [by left|].
      right. exists (qs, sem). set_solver.
    + intros [H|(op & Ho & Ha & Hk)].
      * left. unfold g. case_decide; [|done]. cbn. by rewrite N.lor_spec, H.
      * apply elem_of_cons in Ho as [->|Ho].
        -- left. unfold g. rewrite decide_True by done. cbn. rewrite N.lor_spec. cbn in Hk. rewrite Hk. apply orb_true_r.
        -- right. exists op. by rewrite Hm.
Qed.
Lemma marks_types dbg n len ops l i c : n ≤ 32 → cells_ok len l → Forall (λ op : list query * N, Forall by_span op.1) ops →
  l !! i = Some c → t_ty (c_tok c) < n →
  ∃ c' s, marks ops l !! i = Some c' ∧ c_tok c' = c_tok c ∧ cell_types dbg n c' = Some s ∧
    ∀ y, y < n → set_contains dbg n s y = Some true ↔ y = t_ty (c_tok c) ∨ set_contains dbg n (c_sem c) y = Some true ∨
      ∃ op, op ∈ ops ∧ Forall (meets c) op.1 ∧ set_contains dbg n op.2 y = Some true.
Proof.
  intros Hn Hok Hq Hc Ht. destruct (marks_spec len ops Hq l i c Hok Hc) as (s & H1 & H2). eexists _, (N.lor s (bit1 (t_ty (c_tok c)))).
  split_and!; [exact H1|done| |].
  - unfold cell_types, set_insert. cbn. by rewrite to_bit_small.
  - intros y Hy. rewrite !contains_small by done. rewrite N.lor_spec, bit_spec.
    assert (Hx : ∀ b, Some b = Some true ↔ b = true) by (intros; split; congruence). rewrite Hx, orb_true_iff, H2, N.eqb_eq.
    assert (N.of_nat y = N.of_nat (t_ty (c_tok c)) ↔ y = t_ty (c_tok c)) as -> by lia.
    setoid_rewrite contains_small; [|done..]. setoid_rewrite Hx. tauto.
Qed.
