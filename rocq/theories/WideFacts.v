(** Lexicons with more than 32 variants: what the sets of token types do there. *)
From Coq Require Import NArith ZArith Lia.
From stdpp Require Import prelude list.
From Verif Require Import LexModel LexSpec LexFacts.
Local Open Scope nat_scope.
Local Arguments N.lor : simpl never.
Local Arguments N.land : simpl never.
Local Arguments N.lnot : simpl never.
Local Arguments N.testbit : simpl never.
Local Arguments N.of_nat : simpl never.

Lemma wide_width n : 32 < n → n ≤ 128 → ∃ w, repr_width n = Some w ∧ (w = 64 ∨ w = 128)%N.
Proof.
  intros H1 H2. unfold repr_width.
  destruct (Nat.eqb_spec n 0); [lia|].
  destruct (Nat.leb_spec n 8); [lia|]. destruct (Nat.leb_spec n 16); [lia|].
  destruct (Nat.leb_spec n 32); [lia|]. destruct (Nat.leb_spec n 64); [eauto|].
  destruct (Nat.leb_spec n 128); [eauto|lia].
Qed.

(** The bits of variant [i < 32] in a word of [w] bits. *)
Definition wbit (w : N) (i : nat) (k : N) : bool :=
  if i =? 31 then N.leb 31 k && N.ltb k w else N.eqb k (N.of_nat i).

Definition wbit_ok (w : N) (i : nat) : bool :=
  let b := cast_bits w (i32_wrap (Z.shiftl 1 (Z.of_nat (i mod 32)))) in
  N.ltb b (2 ^ w) &&
  forallb (λ k, Bool.eqb (N.testbit b (N.of_nat k)) (wbit w i (N.of_nat k))) (seq 0 (N.to_nat w)).

Lemma wbit_table : forallb (λ i, wbit_ok 64 i && wbit_ok 128 i) (seq 0 32) = true.
Proof. vm_compute. reflexivity. Qed.

Lemma wide_bit dbg n w i : repr_width n = Some w → (w = 64 ∨ w = 128)%N → i < 32 →
  ∃ b, to_bit dbg n i = Some b ∧ ∀ k, N.testbit b k = wbit w i k.
Proof.
  intros Hw W Hi. unfold to_bit. rewrite Hw. cbn [mbind option_bind]. unfold shl1_i32.
  destruct (Nat.leb_spec 32 i); [lia|]. rewrite andb_false_r. cbn [mbind option_bind].
  eexists; split; [done|]. intros k.
  pose proof wbit_table as T. rewrite forallb_forall in T.
  specialize (T i ltac:(apply in_seq; lia)). apply andb_true_iff in T as [T1 T2].
  assert (wbit_ok w i = true) as T by (destruct W as [-> | ->]; done). clear T1 T2.
  unfold wbit_ok in T. apply andb_true_iff in T as [T1 T2].
  rewrite forallb_forall in T2.
  destruct (N.lt_ge_cases k w) as [Hk|Hk].
  - specialize (T2 (N.to_nat k)). rewrite N2Nat.id in T2.
    apply Bool.eqb_prop, T2, in_seq. lia.
  - set (b := cast_bits w _) in *. apply N.ltb_lt in T1.
    assert (N.testbit b k = false) as ->.
    { destruct (N.eq_dec b 0) as [->|Hb]; [apply N.bits_0|].
      apply N.bits_above_log2. apply N.log2_lt_pow2; [lia|].
      eapply N.lt_le_trans; [exact T1|]. apply N.pow_le_mono_r; lia. }
    unfold wbit. destruct (Nat.eqb_spec i 31).
    + symmetry. apply andb_false_iff. right. apply N.ltb_ge. lia.
    + symmetry. apply N.eqb_neq. destruct W; lia.
Qed.

(** A word of [w] bits stands for the predicate [P] on the first 32 variants. *)
Definition wbits (w s : N) (P : nat → Prop) : Prop :=
  (∀ i, i < 31 → N.testbit s (N.of_nat i) = true ↔ P i) ∧
  (∀ k, (31 ≤ k)%N → N.testbit s k = true ↔ (k < w)%N ∧ P 31).

Lemma wbits_or w s b P i : wbits w s P → i < 32 → (∀ k, N.testbit b k = wbit w i k) →
  wbits w (N.lor s b) (λ j, j = i ∨ P j).
Proof.
  intros [A B] Hi Hb. split.
  - intros j Hj. rewrite N.lor_spec, orb_true_iff, A, Hb by done. unfold wbit.
    destruct (Nat.eqb_spec i 31).
    + rewrite andb_true_iff, N.leb_le. split; [intros [|[??]]; [auto|lia]|].
      intros [|]; [lia|auto].
    + rewrite N.eqb_eq, Nat2N.inj_iff. tauto.
  - intros k Hk. rewrite N.lor_spec, orb_true_iff, B, Hb by done. unfold wbit.
    destruct (Nat.eqb_spec i 31).
    + rewrite andb_true_iff, N.leb_le, N.ltb_lt. subst. split; [tauto|]. intros [? [?|?]]; auto.
    + rewrite N.eqb_eq. split.
      * intros [[??]| ->]; [auto|lia].
      * intros [? [?|?]]; [lia|auto].
Qed.

Lemma wbits_ext w s P Q : (∀ i, i < 32 → P i ↔ Q i) → wbits w s P → wbits w s Q.
Proof.
  intros E [A B]. split.
  - intros i Hi. rewrite A by done. apply E. lia.
  - intros k Hk. rewrite B by done. rewrite (E 31) by lia. done.
Qed.

Lemma wbits_0 w P : (∀ i, i < 32 → ¬ P i) → wbits w 0 P.
Proof.
  intros H. split; intros i Hi; rewrite N.bits_0.
  - split; [done|]. intros X. exfalso. apply (H i); [lia|done].
  - split; [done|]. intros [? X]. exfalso. apply (H 31); [lia|done].
Qed.

Section wide.
  Context (n : nat) (w : N) (dbg : bool).
  Context (Hw : repr_width n = Some w) (W : (w = 64 ∨ w = 128)%N).

  Lemma wide_token_set ids : (∀ i, i ∈ ids → i < 32) →
    ∃ s, token_set dbg n ids = Some s ∧ wbits w s (λ i, i ∈ ids).
  Proof.
    induction ids as [|i ids IH]; intros Hok.
    - exists 0%N. split; [done|]. apply wbits_0. by intros i _ ?%elem_of_nil.
    - destruct IH as (s & Hs & Bs). { intros j Hj. apply Hok. by apply elem_of_list_further. }
      assert (i < 32) as Hi by (apply Hok, elem_of_list_here).
      destruct (wide_bit dbg n w i Hw W Hi) as (b & Hb & Tb).
      cbn [token_set]. rewrite Hb. cbn [mbind option_bind]. rewrite Hs. cbn [mbind option_bind].
      eexists; split; [done|]. rewrite N.lor_comm.
      eapply wbits_ext; [|by apply (wbits_or w s b (λ i, i ∈ ids) i)].
      intros j _. cbn. by rewrite elem_of_cons.
  Qed.

  Lemma wide_eval e : set_expr_ok 32 e →
    ∃ s, set_eval dbg n e = Some s ∧ wbits w s (set_member e).
  Proof.
    induction e as [|e IH i|e IH i|a IHa b IHb|ids]; cbn [set_expr_ok set_eval].
    - intros _. exists 0%N. split; [done|]. apply wbits_0. cbn. tauto.
    - intros [Hi Hok]. destruct (IH Hok) as (s & -> & B). cbn [mbind option_bind].
      destruct (wide_bit dbg n w i Hw W Hi) as (b & Hb & Tb).
      unfold set_insert. rewrite Hb. cbn [mbind option_bind].
      eexists; split; [done|]. by apply (wbits_or w s b (set_member e) i).
    - intros [Hi Hok]. destruct (IH Hok) as (s & -> & A & B). cbn [mbind option_bind].
      destruct (wide_bit dbg n w i Hw W Hi) as (b & Hb & Tb).
      unfold set_remove. rewrite Hw. cbn [mbind option_bind]. rewrite Hb. cbn [mbind option_bind].
      eexists; split; [done|]. cbn [set_member]. split.
      + intros j Hj. rewrite N.land_spec, N.lnot_spec_low, Tb, andb_true_iff, A by (destruct W; lia).
        rewrite negb_true_iff. unfold wbit. destruct (Nat.eqb_spec i 31).
        * rewrite andb_false_iff, N.leb_gt. split; [|intros [??]; split; [done|lia]].
          intros [??]. split; [lia|done].
        * rewrite N.eqb_neq, Nat2N.inj_iff. tauto.
      + intros k Hk. rewrite N.land_spec, andb_true_iff, B by done.
        destruct (N.lt_ge_cases k w) as [Hk'|Hk'].
        * rewrite N.lnot_spec_low, Tb, negb_true_iff by done.
          unfold wbit. destruct (Nat.eqb_spec i 31).
          -- rewrite andb_false_iff, N.leb_gt, N.ltb_ge. split; [|naive_solver].
             intros [_ [|]]; lia.
          -- rewrite N.eqb_neq. split; [|intros [? [??]]; split; [auto|lia]].
             intros [[??]?]. split_and!; [done|lia|done].
        * split; [intros [[??]?]; lia|intros [??]; lia].
    - intros [Ha Hb]. destruct (IHa Ha) as (s & -> & A1 & A2).
      destruct (IHb Hb) as (t & -> & B1 & B2). cbn [mbind option_bind].
      eexists; split; [done|]. unfold set_union. cbn [set_member]. split.
      + intros j Hj. by rewrite N.lor_spec, orb_true_iff, A1, B1.
      + intros k Hk. rewrite N.lor_spec, orb_true_iff, A2, B2 by done. tauto.
    - intros Hok. by apply wide_token_set.
  Qed.

  Lemma wide_contains s P i : wbits w s P → i < 32 →
    ∃ r, set_contains dbg n s i = Some r ∧ (r = true ↔ P i).
  Proof.
    intros [A B] Hi. destruct (wide_bit dbg n w i Hw W Hi) as (b & Hb & Tb).
    unfold set_contains. rewrite Hb. cbn [mbind option_bind]. eexists; split; [done|].
    rewrite negb_true_iff, N.eqb_neq. split.
    - intros Hne.
      destruct (N.eq_dec (N.land s b) 0) as [?|_]; [done|].
      assert (∃ k, N.testbit (N.land s b) k = true) as [k Hk].
      { exists (N.log2 (N.land s b)). by apply N.bit_log2. }
      rewrite N.land_spec, Tb, andb_true_iff in Hk. destruct Hk as [K1 K2].
      unfold wbit in K2. destruct (Nat.eqb_spec i 31) as [->|].
      + apply andb_true_iff in K2 as [K2%N.leb_le K3]. by apply B in K1 as [_ ?].
      + apply N.eqb_eq in K2 as ->. apply A in K1; [done|lia].
    - intros HP Z.
      assert (N.testbit (N.land s b) (N.of_nat i) = false) as H by (rewrite Z; apply N.bits_0).
      rewrite N.land_spec, Tb in H.
      assert (N.testbit s (N.of_nat i) = true) as Hs.
      { destruct (decide (i = 31)) as [->|]; [apply B; [lia|]|apply A; [lia|done]].
        split; [destruct W; lia|done]. }
      rewrite Hs in H. cbn [andb] in H. unfold wbit in H.
      destruct (Nat.eqb_spec i 31) as [->|].
      + destruct W as [-> | ->]; discriminate H.
      + by rewrite N.eqb_refl in H.
  Qed.

  Lemma wide_empty s P : wbits w s P → set_is_empty s = true ↔ ∀ i, i < 32 → ¬ P i.
  Proof.
    intros [A B]. unfold set_is_empty. rewrite N.eqb_eq. split.
    - intros -> i Hi HP. destruct (decide (i = 31)) as [->|].
      + assert (N.testbit 0 31 = true) as H by (apply B; [lia|split; [destruct W; lia|done]]). done.
      + assert (N.testbit 0 (N.of_nat i) = true) as H by (apply A; [lia|done]).
        by rewrite N.bits_0 in H.
    - intros H. apply N.bits_inj. intros k. rewrite N.bits_0.
      destruct (N.testbit s k) eqn:E; [|done]. exfalso.
      destruct (N.lt_ge_cases k 31) as [Hk|Hk].
      + rewrite <- (N2Nat.id k) in E. apply A in E; [|lia]. apply (H (N.to_nat k)); [lia|done].
      + apply B in E as [_ E]; [|done]. apply (H 31); [lia|done].
  Qed.
End wide.

(** Only the first 32 variants used: everything is right. *)
Lemma wide_low dbg n e : 32 < n → n ≤ 128 → set_expr_ok 32 e →
  ∃ s, set_eval dbg n e = Some s ∧
    (∀ id, id < 32 → set_contains dbg n s id = Some true ∧ set_member e id ∨
                     set_contains dbg n s id = Some false ∧ ¬ set_member e id) ∧
    (set_is_empty s = true ↔ ∀ id, id < 32 → ¬ set_member e id).
Proof.
  intros H1 H2 Hok. destruct (wide_width n H1 H2) as (w & Hw & W).
  destruct (wide_eval n w dbg Hw W e Hok) as (s & Hs & B).
  exists s. split; [done|]. split.
  - intros id Hid. destruct (wide_contains n w dbg Hw W s _ id B Hid) as (r & -> & Hr).
    destruct r; [left|right]; (split; [done|]); [by apply Hr|].
    intros ?%Hr. done.
  - by apply (wide_empty w W).
Qed.

(** * Without overflow checks: types are told apart only modulo 32. *)

(** The program with every type replaced by its remainder. *)
Fixpoint fold32 (e : set_expr) : set_expr :=
  match e with
  | SNew => SNew
  | SInsert e i => SInsert (fold32 e) (i mod 32)
  | SRemove e i => SRemove (fold32 e) (i mod 32)
  | SUnion a b => SUnion (fold32 a) (fold32 b)
  | STokenSet ids => STokenSet (map (λ i, i mod 32) ids)
  end.

Lemma to_bit_mod n i : to_bit false n i = to_bit false n (i mod 32).
Proof. unfold to_bit, shl1_i32. cbn [andb]. by rewrite Nat.mod_mod by lia. Qed.

Lemma fold32_eval n e : set_eval false n e = set_eval false n (fold32 e).
Proof.
  induction e as [|e IH i|e IH i|a IHa b IHb|ids]; cbn [fold32 set_eval].
  - done.
  - rewrite IH. destruct (set_eval false n (fold32 e)); [|done]. cbn [mbind option_bind].
    unfold set_insert. by rewrite to_bit_mod.
  - rewrite IH. destruct (set_eval false n (fold32 e)); [|done]. cbn [mbind option_bind].
    unfold set_remove. by rewrite to_bit_mod.
  - by rewrite IHa, IHb.
  - induction ids as [|i ids IH]; [done|]. cbn [map token_set].
    by rewrite to_bit_mod, IH.
Qed.

Lemma fold32_ok e : set_expr_ok 32 (fold32 e).
Proof.
  induction e as [|e IH i|e IH i|a IHa b IHb|ids]; cbn [fold32 set_expr_ok]; try done.
  - split; [apply Nat.mod_upper_bound; lia|done].
  - split; [apply Nat.mod_upper_bound; lia|done].
  - intros i (j & -> & _)%elem_of_list_fmap. apply Nat.mod_upper_bound. lia.
Qed.

Lemma fold32_member e r : set_member (fold32 e) r ↔ folded e r.
Proof.
  induction e as [|e IH i|e IH i|a IHa b IHb|ids]; cbn [fold32 set_member folded]; try tauto.
  rewrite elem_of_list_fmap. naive_solver.
Qed.

Lemma wide_release n e : 32 < n → n ≤ 128 →
  ∃ s, set_eval false n e = Some s ∧
    ∀ id, set_contains false n s id = Some true ∧ folded e (id mod 32) ∨
          set_contains false n s id = Some false ∧ ¬ folded e (id mod 32).
Proof.
  intros H1 H2. destruct (wide_low false n (fold32 e) H1 H2 (fold32_ok e)) as (s & Hs & A & _).
  exists s. rewrite fold32_eval. split; [done|]. intros id.
  specialize (A (id mod 32) ltac:(apply Nat.mod_upper_bound; lia)).
  rewrite fold32_member in A. unfold set_contains in *. by rewrite to_bit_mod.
Qed.

(** * With overflow checks: an operation on a type beyond the first 32 panics. *)

Lemma to_bit_checked n i b : to_bit true n i = Some b → i < 32.
Proof.
  unfold to_bit, shl1_i32. destruct (repr_width n); [|done]. cbn [mbind option_bind andb].
  destruct (Nat.leb_spec 32 i); [done|]. intros _. done.
Qed.

Lemma eval_checked n e s : set_eval true n e = Some s → set_expr_ok 32 e.
Proof.
  revert s. induction e as [|e IH i|e IH i|a IHa b IHb|ids]; intros s; cbn [set_eval set_expr_ok].
  - done.
  - intros (t & E & H)%bind_Some. apply bind_Some in H as (b & Hb & _).
    split; [by eapply to_bit_checked|by eapply IH].
  - intros (t & E & H)%bind_Some. unfold set_remove in H.
    apply bind_Some in H as (w & _ & H). apply bind_Some in H as (b & Hb & _).
    split; [by eapply to_bit_checked|by eapply IH].
  - intros (t & E & H)%bind_Some. apply bind_Some in H as (u & Hu & _).
    split; [by eapply IHa|by eapply IHb].
  - revert s. induction ids as [|i ids IH]; intros s; cbn [token_set].
    + intros _ i. by intros ?%elem_of_nil.
    + intros (b & Hb & H)%bind_Some. apply bind_Some in H as (t & Ht & _).
      intros j [->|Hj]%elem_of_cons; [by eapply to_bit_checked|]. by eapply IH.
Qed.

Lemma wide_checked n e s : 32 < n → n ≤ 128 → set_eval true n e = Some s →
  ∀ id r, set_contains true n s id = Some r → r = true ↔ set_member e id.
Proof.
  intros H1 H2 E id r Hr. pose proof (eval_checked n e s E) as Hok.
  destruct (wide_low true n e H1 H2 Hok) as (s' & E' & A & _). simplify_eq.
  assert (id < 32) as Hid.
  { unfold set_contains in Hr. apply bind_Some in Hr as (b & Hb & _). by eapply to_bit_checked. }
  destruct (A id Hid) as [[A1 A2]|[A1 A2]]; simplify_eq; naive_solver.
Qed.
