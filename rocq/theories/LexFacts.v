(** Proofs about the lexing layer. *)
From Coq Require Import String Ascii NArith ZArith Lia.
From stdpp Require Import prelude list.
From Verif Require Import LexModel LexSpec.
Local Open Scope nat_scope.

(** * bits *)

Definition bit1 (id : nat) : N := N.shiftl 1 (N.of_nat id).
#[global] Arguments bit1 : simpl never.
Local Arguments N.lor : simpl never.
Local Arguments N.land : simpl never.
Local Arguments N.lnot : simpl never.
Local Arguments N.testbit : simpl never.
Local Arguments N.of_nat : simpl never.


Lemma repr_width_small n : 0 < n → n ≤ 32 →
  repr_width n = Some (if n <=? 8 then 8%N else if n <=? 16 then 16%N else 32%N).
Proof.
  intros H1 H2. unfold repr_width.
  destruct (Nat.eqb_spec n 0); [lia|].
  repeat case_match; try done; apply Nat.leb_nle in H1 || idtac; try lia.
  all: repeat match goal with H : (_ <=? _) = _ |- _ =>
    first [apply Nat.leb_le in H | apply Nat.leb_nle in H] end; try lia.
Qed.

Definition to_bit_ok_at (dbg : bool) (n id : nat) : bool :=
  match to_bit dbg n id with Some b => N.eqb b (bit1 id) | None => false end.

Lemma to_bit_table dbg :
  forallb (λ n, forallb (to_bit_ok_at dbg n) (seq 0 n)) (seq 1 32) = true.
Proof. destruct dbg; vm_compute; reflexivity. Qed.

Lemma to_bit_small dbg n id : n ≤ 32 → id < n →
  to_bit dbg n id = Some (bit1 id).
Proof.
  intros Hn Hid.
  pose proof (to_bit_table dbg) as H. rewrite forallb_forall in H.
  specialize (H n ltac:(apply in_seq; lia)). rewrite forallb_forall in H.
  specialize (H id ltac:(apply in_seq; lia)). unfold to_bit_ok_at in H.
  destruct (to_bit dbg n id) as [b|]; [|discriminate H].
  f_equal. by apply N.eqb_eq.
Qed.

Lemma width_ge n w : n ≤ 32 → repr_width n = Some w → (N.of_nat n ≤ w)%N.
Proof.
  intros Hn. unfold repr_width.
  repeat case_match; intros; simplify_eq.
  all: repeat match goal with H : (_ <=? _) = _ |- _ =>
    first [apply Nat.leb_le in H | apply Nat.leb_nle in H] end; try lia.
Qed.

Lemma bit_spec id k : N.testbit (bit1 id) k = N.eqb k (N.of_nat id).
Proof.
  unfold bit1.  rewrite N.shiftl_1_l, N.pow2_bits_eqb. apply N.eqb_sym.
Qed.

Lemma contains_small dbg n s id : n ≤ 32 → id < n →
  set_contains dbg n s id = Some (N.testbit s (N.of_nat id)).
Proof.
  intros Hn Hid. unfold set_contains. rewrite to_bit_small by done. simpl. f_equal.
  destruct (N.testbit s (N.of_nat id)) eqn:E.
  - apply negb_true_iff, N.eqb_neq. intros H.
    assert (N.testbit (N.land s (bit1 id)) (N.of_nat id) = false) as H'.
    { rewrite H. apply N.bits_0. }
    rewrite N.land_spec, bit_spec, E, N.eqb_refl in H'. done.
  - apply negb_false_iff, N.eqb_eq. apply N.bits_inj. intros k.
    rewrite N.land_spec, bit_spec, N.bits_0.
    destruct (N.eqb_spec k (N.of_nat id)); subst; [by rewrite E|apply andb_false_r].
Qed.

(** bits of a set denote a decidable predicate on ids < n and nothing above *)
Definition bits_are (n : nat) (s : N) (P : nat → Prop) : Prop :=
  (∀ id, id < n → N.testbit s (N.of_nat id) = true ↔ P id) ∧
  (∀ k, (N.of_nat n ≤ k)%N → N.testbit s k = false).

Lemma bits_are_spec n s P k : bits_are n s P →
  N.testbit s k = true ↔ (k < N.of_nat n)%N ∧ P (N.to_nat k).
Proof.
  intros [H1 H2]. destruct (N.lt_ge_cases k (N.of_nat n)) as [Hk|Hk].
  - rewrite <- H1 by lia. rewrite N2Nat.id. tauto.
  - rewrite H2 by done. split; [done|]. intros [??]. lia.
Qed.

Lemma token_set_small dbg n ids : n ≤ 32 → (∀ i, i ∈ ids → i < n) →
  ∃ s, token_set dbg n ids = Some s ∧ bits_are n s (λ id, id ∈ ids).
Proof.
  intros Hn. induction ids as [|i ids IH]; intros Hok.
  - exists 0%N. split; [done|]. split; intros.
    + rewrite N.bits_0. set_solver.
    + apply N.bits_0.
  - destruct IH as (s & Hs & B1 & B2); [set_solver|].
    simpl. rewrite to_bit_small by (set_solver). simpl. rewrite Hs. simpl.
    eexists; split; [done|]. split.
    + intros id Hid. rewrite N.lor_spec, bit_spec, orb_true_iff, B1, N.eqb_eq by done.
      rewrite elem_of_cons. rewrite Nat2N.inj_iff. done.
    + intros k Hk. rewrite N.lor_spec, bit_spec, B2 by done.
      assert (i < n) by set_solver.
      rewrite orb_false_r. apply N.eqb_neq. lia.
Qed.

Lemma set_eval_small dbg n e : 0 < n → n ≤ 32 → set_expr_ok n e →
  ∃ s, set_eval dbg n e = Some s ∧ bits_are n s (set_member e).
Proof.
  intros Hn0 Hn. induction e as [|e IH i|e IH i|a IHa b IHb|ids]; simpl.
  - intros _. exists 0%N. split; [done|]. split; intros; rewrite N.bits_0; [naive_solver|done].
  - intros [Hi Hok]. destruct (IH Hok) as (s & -> & B1 & B2).
    simpl. unfold set_insert. rewrite to_bit_small by done. simpl.
    eexists; split; [done|]. split.
    + intros id Hid. rewrite N.lor_spec, bit_spec, orb_true_iff, B1, N.eqb_eq, Nat2N.inj_iff by done.
      tauto.
    + intros k Hk. rewrite N.lor_spec, bit_spec, B2 by done. simpl. apply N.eqb_neq. lia.
  - intros [Hi Hok]. destruct (IH Hok) as (s & -> & B1 & B2).
    simpl. unfold set_remove. destruct (repr_width n) as [w|] eqn:Hw.
    2: { rewrite repr_width_small in Hw by done. done. }
    simpl. rewrite to_bit_small by done. simpl.
    pose proof (width_ge n w Hn Hw).
    eexists; split; [done|]. split.
    + intros id Hid. rewrite N.land_spec, N.lnot_spec_low, bit_spec, andb_true_iff, B1 by lia.
      rewrite negb_true_iff, N.eqb_neq. rewrite Nat2N.inj_iff. tauto.
    + intros k Hk. rewrite N.land_spec, B2 by done. done.
  - intros [Ha Hb]. destruct (IHa Ha) as (s & -> & A1 & A2).
    destruct (IHb Hb) as (t & -> & B1 & B2). simpl.
    eexists; split; [done|]. unfold set_union. split.
    + intros id Hid. rewrite N.lor_spec, orb_true_iff, A1, B1 by done. done.
    + intros k Hk. rewrite N.lor_spec, A2, B2 by done. done.
  - intros Hok. by apply token_set_small.
Qed.

Lemma set_algebra dbg n e : 0 < n → n ≤ 32 → set_expr_ok n e →
  ∃ s, set_eval dbg n e = Some s ∧
    (∀ id, id < n → set_contains dbg n s id = Some true ∧ set_member e id ∨
                    set_contains dbg n s id = Some false ∧ ¬ set_member e id) ∧
    (set_is_empty s = true ↔ ∀ id, id < n → ¬ set_member e id).
Proof.
  intros H1 H2 Hok. destruct (set_eval_small dbg n e H1 H2 Hok) as (s & Hs & B).
  exists s. split; [done|]. destruct B as [B1 B2]. split.
  - intros id Hid. rewrite contains_small by done.
    destruct (N.testbit s (N.of_nat id)) eqn:E.
    + left. split; [done|]. by apply B1.
    + right. split; [done|]. intros ?%B1; [congruence|done].
  - unfold set_is_empty. rewrite N.eqb_eq. split.
    + intros -> id Hid Hm. apply B1 in Hm; [|done]. by rewrite N.bits_0 in Hm.
    + intros Hno. apply N.bits_inj. intros k. rewrite N.bits_0.
      destruct (N.testbit s k) eqn:E; [|done].
      apply (bits_are_spec n s (set_member e)) in E; [|done].
      destruct E as [Hk Hm]. exfalso. apply (Hno (N.to_nat k)); [lia|done].
Qed.

Lemma set_inclusion dbg n e1 e2 s1 s2 : 0 < n → n ≤ 32 → set_expr_ok n e1 → set_expr_ok n e2 →
  set_eval dbg n e1 = Some s1 → set_eval dbg n e2 = Some s2 →
  (set_contains_all s1 s2 = true ↔ ∀ id, id < n → set_member e2 id → set_member e1 id) ∧
  (s1 = s2 ↔ ∀ id, id < n → set_member e1 id ↔ set_member e2 id).
Proof.
  intros H1 H2 O1 O2 E1 E2.
  destruct (set_eval_small dbg n e1 H1 H2 O1) as (s1' & ? & B1).
  destruct (set_eval_small dbg n e2 H1 H2 O2) as (s2' & ? & B2). simplify_eq.
  unfold set_contains_all. split.
  - rewrite N.eqb_eq. split.
    + intros Heq id Hid Hm. destruct B1 as [B1 _], B2 as [B2 _].
      apply B1; [done|]. apply B2 in Hm; [|done]. rewrite <- Heq in Hm.
      rewrite N.land_spec in Hm. by apply andb_true_iff in Hm as [? _].
    + intros Hin. apply N.bits_inj. intros k. rewrite N.land_spec.
      destruct (N.testbit s2 k) eqn:E; [|apply andb_false_r].
      rewrite andb_true_r. apply (bits_are_spec n s1 (set_member e1)); [done|].
      apply (bits_are_spec n s2 (set_member e2)) in E as [? ?]; [|done].
      split; [done|]. apply Hin; [lia|done].
  - split.
    + intros -> id Hid. destruct B1 as [B1 _], B2 as [B2 _].
      rewrite <- B1, <- B2 by done. done.
    + intros Heq. apply N.bits_inj. intros k. apply eq_bool_prop_intro.
      rewrite !Is_true_true.
      rewrite (bits_are_spec n s1 _ k B1), (bits_are_spec n s2 _ k B2).
      split; intros [? ?]; (split; [done|]); apply Heq; lia || done.
Qed.

(** * iteration *)

Lemma iter_skip_spec dbg n s fuel next : n ≤ 32 → next < n → n - next ≤ fuel →
  let ms := filter (λ id, N.testbit s (N.of_nat id) = true) (seq next (n - next)) in
  iter_skip dbg n s fuel next =
    Some (match ms with [] => (None, n - 1) | m :: _ => (Some m, m) end).
Proof.
  revert next. induction fuel as [|f IH]; intros next Hn Hnext Hf; [lia|].
  cbn [iter_skip]. rewrite contains_small by lia. cbn [mbind option_bind].
  replace (n - next) with (S (n - S next)) by lia. cbn [seq].
  rewrite filter_cons. destruct (N.testbit s (N.of_nat next)) eqn:E.
  - by rewrite decide_True by done.
  - rewrite decide_False by done. unfold lex_next.
    destruct (Nat.eqb_spec next (n - 1)) as [->|Hne].
    + replace (n - S (n - 1)) with 0 by lia. done.
    + rewrite IH by lia. done.
Qed.

(** members from a given iterator position on *)
Definition members_from (n : nat) (s : N) (from : nat) : list nat :=
  filter (λ id, N.testbit s (N.of_nat id) = true) (seq from (n - from)).

Definition pos_of (cur : nat) : nat := if cur =? iter_START then 0 else S cur.

Lemma members_from_cons n s from m r : members_from n s from = m :: r →
  from ≤ m ∧ m < n ∧ r = members_from n s (S m).
Proof.
  unfold members_from. remember (n - from) as d eqn:Hd. revert from Hd.
  induction d as [|d IH]; intros from Hd; [done|]. cbn [seq]. rewrite filter_cons.
  destruct (decide _) as [HE|HE].
  - intros [= -> <-]. split_and!; [lia|lia|]. by replace (n - S m) with d by lia.
  - intros H. apply IH in H; [|lia]. destruct H as (?&?&?). split_and!; [lia|lia|done].
Qed.

Lemma members_from_ge n s from : n ≤ from → members_from n s from = [].
Proof. intros H. unfold members_from. by replace (n - from) with 0 by lia. Qed.

Lemma iter_next_spec dbg n s cur : 0 < n → n ≤ 32 → (cur = iter_START ∨ cur < n) →
  ∃ cur', (cur' = iter_START ∨ cur' < n) ∧
  match members_from n s (pos_of cur) with
  | [] => iter_next dbg n s cur = Some (None, cur') ∧ members_from n s (pos_of cur') = []
  | m :: r => iter_next dbg n s cur = Some (Some m, cur') ∧ members_from n s (pos_of cur') = r
  end.
Proof.
  intros Hn0 Hn Hcur. unfold iter_next, pos_of.
  assert (∀ from, from < n → iter_skip dbg n s n from =
    Some match members_from n s from with [] => (None, n - 1) | m :: _ => (Some m, m) end) as Hsk.
  { intros from Hf. rewrite iter_skip_spec by lia. done. }
  destruct (Nat.eqb_spec cur iter_START) as [->|Hne].
  - unfold lex_first. rewrite Hsk by lia.
    destruct (members_from n s 0) as [|m r] eqn:E.
    + exists (n - 1). split; [lia|]. split; [done|].
      destruct (Nat.eqb_spec (n - 1) iter_START); [unfold iter_START in *; lia|].
      apply members_from_ge. lia.
    + exists m. apply members_from_cons in E as (? & ? & ->). split; [lia|]. split; [done|].
      destruct (Nat.eqb_spec m iter_START); [unfold iter_START in *; lia|]. done.
  - destruct Hcur as [|Hcur]; [done|]. unfold lex_next.
    destruct (Nat.eqb_spec cur (n - 1)) as [Hl|Hl].
    + exists cur. rewrite members_from_ge by lia. split; [lia|]. split; [done|].
      destruct (Nat.eqb_spec cur iter_START); [done|]. apply members_from_ge. lia.
    + rewrite Hsk by lia. destruct (members_from n s (S cur)) as [|m r] eqn:E.
      * exists (n - 1). split; [lia|]. split; [done|].
        destruct (Nat.eqb_spec (n - 1) iter_START); [unfold iter_START in *; lia|].
        apply members_from_ge. lia.
      * exists m. apply members_from_cons in E as (? & ? & ->). split; [lia|]. split; [done|].
        destruct (Nat.eqb_spec m iter_START); [unfold iter_START in *; lia|]. done.
Qed.

Lemma take_pad (r : list nat) k :
  take k (map Some r ++ replicate k None) =
  take k (map Some r ++ None :: replicate k (@None nat)).
Proof.
  change (None :: replicate k None) with (replicate (S k) (@None nat)).
  destruct (decide (k ≤ length (map Some r))).
  - rewrite !take_app_le by done. done.
  - rewrite !take_app_ge by lia. f_equal. rewrite !take_replicate. f_equal. lia.
Qed.

Lemma iter_calls_gen dbg n s k cur : 0 < n → n ≤ 32 → (cur = iter_START ∨ cur < n) →
  iter_calls dbg n s k cur =
    Some (take k (map Some (members_from n s (pos_of cur)) ++ replicate k None)).
Proof.
  intros Hn0 Hn. revert cur. induction k as [|k IH]; intros cur Hcur; [done|].
  cbn [iter_calls]. destruct (iter_next_spec dbg n s cur Hn0 Hn Hcur) as (cur' & Hc' & H).
  destruct (members_from n s (pos_of cur)) as [|m r] eqn:E; destruct H as [-> Hr]; simpl.
  - rewrite IH by done. simpl. rewrite Hr. done.
  - rewrite IH by done. simpl. rewrite Hr. f_equal. f_equal.
    apply (take_pad r k).
Qed.

Lemma iter_calls_spec dbg n s k : 0 < n → n ≤ 32 →
  ∃ ms, iter_calls dbg n s k iter_START = Some (take k (map Some ms ++ replicate k None)) ∧
    ms = filter (λ id, set_contains dbg n s id = Some true) (seq 0 n).
Proof.
  intros Hn0 Hn. eexists; split; [apply iter_calls_gen; auto|].
  unfold pos_of. rewrite Nat.eqb_refl. unfold members_from. rewrite Nat.sub_0_r.
  assert (∀ l : list nat, (∀ x, x ∈ l → x < n) →
    filter (λ id, N.testbit s (N.of_nat id) = true) l =
    filter (λ id, set_contains dbg n s id = Some true) l) as H.
  { induction l as [|x l IH]; [done|]. intros Hl. rewrite !filter_cons.
    assert (x < n) by (apply Hl; left).
    rewrite IH by (intros; apply Hl; by right).
    destruct (decide (N.testbit s (N.of_nat x) = true)) as [E|E];
    destruct (decide (set_contains dbg n s x = Some true)) as [E'|E'];
    rewrite contains_small in E' by done; congruence. }
  apply H. intros x Hx. apply elem_of_seq in Hx. lia.
Qed.

(** * spans *)

Lemma substring_length lo n s : lo + n ≤ String.length s → String.length (substring lo n s) = n.
Proof.
  revert lo n. induction s as [|c s IH]; intros lo n H.
  - simpl in H. assert (lo = 0) as -> by lia. assert (n = 0) as -> by lia. done.
  - destruct lo; simpl.
    + destruct n; [done|]. simpl. f_equal. apply IH. simpl in H. lia.
    + apply IH. simpl in H. lia.
Qed.

Lemma substring_get lo n s i : i < n → lo + n ≤ String.length s →
  String.get i (substring lo n s) = String.get (lo + i) s.
Proof.
  revert lo n i. induction s as [|c s IH]; intros lo n i Hi H.
  - simpl in H. lia.
  - destruct lo; simpl.
    + destruct n; [lia|]. simpl. destruct i; [done|]. simpl in H.
      rewrite (IH 0 n i) by lia. done.
    + simpl in H. apply IH; lia.
Qed.

Lemma span_get_spec sp input :
  let hi := Nat.min (sp_hi sp) (String.length input) in
  (sp_lo sp < sp_hi sp → sp_lo sp ≤ String.length input →
    ∃ r, span_get sp input = Some r ∧ String.length r = hi - sp_lo sp ∧
      ∀ i, i < hi - sp_lo sp → String.get i r = String.get (sp_lo sp + i) input) ∧
  (sp_hi sp ≤ sp_lo sp → span_get sp input = Some EmptyString) ∧
  (span_get sp input = None ↔ sp_lo sp < sp_hi sp ∧ String.length input < sp_lo sp).
Proof.
  cbv zeta. unfold span_get.
  destruct (Nat.leb_spec (sp_hi sp) (sp_lo sp)) as [H|H].
  - split_and!; [lia|done|]. split; [done|lia].
  - destruct (Nat.ltb_spec (Nat.min (sp_hi sp) (String.length input)) (sp_lo sp)) as [H'|H'].
    + split_and!; [lia|lia|]. split; [lia|done].
    + split_and!; [|lia|].
      * intros _ Hlo. eexists; split; [done|]. split.
        -- apply substring_length. lia.
        -- intros i Hi. apply substring_get; lia.
      * split; [done|lia].
Qed.

(** * lexer *)

Lemma lexer_loop_errs errs b s e rest :
  lexer_loop b s e (map RErr errs ++ rest) =
  match errs with
  | [] => lexer_loop b s e rest
  | x :: _ => lexer_loop true (if b then s else sp_lo x) (sp_hi (default x (last errs))) rest
  end.
Proof.
  revert b s e. induction errs as [|x errs IH]; intros b s e; [done|].
  cbn [map app lexer_loop]. rewrite IH. destruct errs as [|y errs]; [done|].
  rewrite (last_cons x (y :: errs)).
  destruct (last (y :: errs)) eqn:E; [done|]. by apply last_None in E.
Qed.

Lemma lexer_next_block errs rest :
  lexer_next (map RErr errs ++ rest) =
  match rest with
  | [] => (hull errs, None, [])
  | RTok ty sp :: r => (hull errs, Some (Token sp ty), r)
  | RErr sp :: r => lexer_next (map RErr (errs ++ [sp]) ++ r)
  end.
Proof.
  destruct rest as [|[ty sp|sp] r].
  - unfold lexer_next. rewrite lexer_loop_errs. destruct errs; done.
  - unfold lexer_next. rewrite lexer_loop_errs. destruct errs; done.
  - by rewrite map_app, <- (assoc_L (++)).
Qed.

(** every event list splits into a block of errors and what follows *)
Lemma raw_block evs : ∃ errs rest, evs = map RErr errs ++ rest ∧
  match rest with RErr _ :: _ => False | _ => True end.
Proof.
  induction evs as [|[ty sp|sp] evs IH].
  - by exists [], [].
  - by exists [], (RTok ty sp :: evs).
  - destruct IH as (errs & rest & -> & ?). by exists (sp :: errs), rest.
Qed.

Lemma raw_tokens_errs errs rest : raw_tokens (map RErr errs ++ rest) = raw_tokens rest.
Proof. induction errs; done. Qed.

Lemma lexer_calls_nil k : lexer_calls k [] = replicate k (None, None).
Proof. induction k as [|k IH]; [done|]. cbn. by rewrite IH. Qed.

Lemma lexer_calls_blocks k acc evs :
  lexer_calls k (map RErr acc ++ evs) =
  take k (map (λ '(es, t), (hull es, t)) (raw_blocks acc evs) ++ replicate k (None, None)).
Proof.
  revert k acc. induction evs as [|[ty sp|sp] evs IH]; intros k acc.
  - destruct k as [|k]; [done|]. cbn [lexer_calls].
    rewrite (lexer_next_block acc []). cbn. rewrite lexer_calls_nil. f_equal.
    change ((None, None) :: replicate k (None, None)) with
      (replicate (S k) (@None span, @None token)).
    rewrite take_replicate. f_equal. lia.
  - destruct k as [|k]; [done|]. cbn [lexer_calls].
    rewrite (lexer_next_block acc (RTok ty sp :: evs)).
    specialize (IH k []). cbn [map app] in IH. rewrite IH.
    cbn [raw_blocks map app take]. f_equal.
    set (l := map _ (raw_blocks [] evs)).
    change ((None, None) :: replicate k (None, None)) with
      (replicate (S k) (@None span, @None token)).
    destruct (decide (k ≤ length l)).
    + by rewrite !take_app_le by done.
    + rewrite !take_app_ge by lia. f_equal. rewrite !take_replicate. f_equal. lia.
  - cbn [raw_blocks]. rewrite <- IH. rewrite map_app, <- (assoc_L (++)). done.
Qed.

Lemma raw_blocks_tokens acc evs : omap snd (raw_blocks acc evs) = raw_tokens evs.
Proof.
  revert acc. induction evs as [|[ty sp|sp] evs IH]; intros acc; cbn; [done| |]; auto.
  f_equal. apply IH.
Qed.

Lemma raw_blocks_events acc evs :
  flat_map (λ '(es, t), map RErr es ++ match t with Some t => [RTok (t_ty t) (t_span t)] | None => [] end)
    (raw_blocks acc evs) = map RErr acc ++ evs.
Proof.
  revert acc. induction evs as [|[ty sp|sp] evs IH]; intros acc; cbn.
  - by rewrite !app_nil_r.
  - rewrite IH. cbn. by rewrite <- (assoc_L (++)).
  - rewrite IH. by rewrite map_app, <- (assoc_L (++)).
Qed.

Lemma spans_ok_le from len l : spans_ok from len l → from ≤ len.
Proof.
  revert from. induction l as [|s l IH]; intros from; cbn; [done|].
  intros (?&?&?%IH). lia.
Qed.

Lemma spans_ok_weaken from from' len l : from' ≤ from → spans_ok from len l → spans_ok from' len l.
Proof. destruct l; cbn; [lia|]. intros ? (?&?&?). split_and!; [lia|lia|done]. Qed.

Lemma spans_ok_app from len l1 l2 :
  spans_ok from len (l1 ++ l2) ↔
  spans_ok from len l1 ∧ spans_ok (match last l1 with Some s => sp_hi s | None => from end) len l2.
Proof.
  revert from. induction l1 as [|s l1 IH]; intros from.
  - cbn. split; [|tauto]. intros H. split; [by eapply spans_ok_le|done].
  - cbn [app spans_ok]. rewrite IH. rewrite last_cons.
    destruct (last l1) eqn:E; tauto.
Qed.

Lemma spans_ok_block from len errs : spans_ok from len errs →
  match hull errs with
  | None => errs = []
  | Some h => from ≤ sp_lo h ∧ sp_lo h < sp_hi h ∧ last errs = Some (Span (sp_lo (default h (last errs))) (sp_hi h))
  end.
Proof.
  destruct errs as [|s r]; [done|]. cbn [hull sp_lo sp_hi]. intros H.
  assert (∀ l f, spans_ok f len l → ∀ x, last l = Some x → f < sp_hi x) as Hlast.
  { induction l as [|a l IH]; intros f Hl x Hx; [done|].
    rewrite last_cons in Hx. destruct Hl as (?&?&Hl).
    destruct (last l) eqn:E; [|simplify_eq; lia].
    specialize (IH _ Hl _ eq_refl). simplify_eq. lia. }
  destruct H as (H1 & H2 & H3). split; [done|].
  rewrite last_cons. destruct (last r) as [x|] eqn:E; cbn.
  - pose proof (Hlast _ _ H3 _ E). split; [lia|]. by destruct x.
  - split; [lia|]. by destruct s.
Qed.


Lemma hull_hi es h x : hull es = Some h → last es = Some x → sp_hi h = sp_hi x.
Proof.
  destruct es as [|s r]; [done|]. cbn [hull]. intros [= <-] H. cbn [sp_hi]. by rewrite H.
Qed.

Lemma spans_ok_hull from len errs l :
  spans_ok from len (errs ++ l) →
  spans_ok from len (match hull errs with Some s => [s] | None => [] end ++ l).
Proof.
  rewrite spans_ok_app. intros [H1 H2].
  apply spans_ok_block in H1 as Hb. destruct (hull errs) as [h|] eqn:E; cbn.
  - destruct Hb as (?&?&Hl). split_and!; [done|done|].
    rewrite Hl in H2. exact H2.
  - subst. done.
Qed.

Lemma lexer_spans_gen from len acc evs :
  spans_ok from len (acc ++ map raw_span evs) →
  spans_ok from len (out_spans (map (λ '(es, t), (hull es, t)) (raw_blocks acc evs))).
Proof.
  revert from acc. induction evs as [|[ty sp|sp] evs IH]; intros from acc.
  - intros H%spans_ok_hull. cbn in *. rewrite app_nil_r. done.
  - intros H%spans_ok_hull. cbn [raw_blocks map]. unfold out_spans. cbn [flat_map].
    fold (out_spans (map (λ '(es, t), (hull es, t)) (raw_blocks [] evs))).
    rewrite <- (assoc_L (++)). apply spans_ok_app in H as [H1 H2].
    apply spans_ok_app. split; [done|]. cbn in H2 |- *. destruct H2 as (?&?&?).
    split_and!; [done|done|]. by apply IH.
  - cbn [raw_blocks]. intros H. apply IH. rewrite <- (assoc_L (++)). done.
Qed.

Lemma out_spans_pad k l : out_spans (l ++ replicate k (None, None)) = out_spans l.
Proof.
  unfold out_spans. rewrite flat_map_app.
  replace (flat_map _ (replicate k (None, None))) with (@nil span).
  - by rewrite app_nil_r.
  - induction k as [|k IH]; [done|]. cbn. done.
Qed.

Lemma spans_ok_prefix from len l1 l2 : spans_ok from len (l1 ++ l2) → spans_ok from len l1.
Proof. by intros [? _]%spans_ok_app. Qed.

Lemma lexer_spans k len evs : raw_ok len evs → spans_ok 0 len (out_spans (lexer_calls k evs)).
Proof.
  intros H. pose proof (lexer_calls_blocks k [] evs) as E. cbn [map app] in E. rewrite E.
  pose proof (lexer_spans_gen 0 len [] evs H) as H'.
  rewrite <- (out_spans_pad k) in H'.
  rewrite <- (take_drop k (map _ (raw_blocks [] evs) ++ _)) in H'.
  unfold out_spans in H' |- *. rewrite flat_map_app in H'.
  by eapply spans_ok_prefix.
Qed.

Lemma lexer_calls_tokens k evs : length evs < k →
  omap snd (lexer_calls k evs) = raw_tokens evs.
Proof.
  intros Hk. pose proof (lexer_calls_blocks k [] evs) as E. cbn [map app] in E. rewrite E.
  assert (∀ acc, length (raw_blocks acc evs) ≤ S (length evs)) as Hlen.
  { clear. induction evs as [|[ty sp|sp] evs IH]; intros acc; cbn; [lia| |].
    - specialize (IH []). lia.
    - specialize (IH (acc ++ [sp])). lia. }
  specialize (Hlen []).
  rewrite take_app_ge by (rewrite map_length; lia).
  rewrite take_replicate. rewrite omap_app. rewrite <- (raw_blocks_tokens [] evs).
  replace (omap snd (replicate _ (None, None))) with (@nil token).
  - rewrite app_nil_r. clear. generalize (raw_blocks [] evs) as l.
    induction l as [|[es [t|]] l IH]; cbn; [done| |]; by rewrite <- IH.
  - induction (_ `min` _) as [|m IH]; [done|]. cbn. done.
Qed.

Lemma wide_table :
  forallb (λ n, match to_bit true n 32, to_bit false n 32, to_bit false n 0 with
                | None, Some a, Some b => N.eqb a 1 && N.eqb b 1 | _, _, _ => false end)
    (seq 33 96) = true.
Proof. vm_compute. reflexivity. Qed.

Lemma wide_alias n : 32 < n → n ≤ 128 →
  to_bit true n 32 = None ∧
  ∃ s, set_insert false n set_new 0 = Some s ∧ set_contains false n s 32 = Some true.
Proof.
  intros H1 H2. pose proof wide_table as H. rewrite forallb_forall in H.
  specialize (H n ltac:(apply in_seq; lia)).
  destruct (to_bit true n 32); [done|].
  destruct (to_bit false n 32) as [a|] eqn:Ea; [|done].
  destruct (to_bit false n 0) as [b|] eqn:Eb; [|done].
  apply andb_true_iff in H as [->%N.eqb_eq ->%N.eqb_eq].
  split; [done|]. exists 1%N. unfold set_insert, set_contains.
  rewrite Ea, Eb. done.
Qed.

Lemma wide_sign : ∃ s, set_insert true 64 set_new 31 = Some s ∧
  s = 18446744071562067968%N ∧ set_union s s ≠ N.shiftl 1 31.
Proof. eexists; split; [vm_compute; reflexivity|]. split; [reflexivity|]. vm_compute. discriminate. Qed.

(** * lex::Map *)
Lemma map_laws {A} n (m : list A) : length m = n →
  (∀ id, id < n → is_Some (map_get m id)) ∧
  (∀ id a, id < n → ∃ m', map_set m id a = Some m' ∧ length m' = n ∧ map_get m' id = Some a ∧
    ∀ j, j ≠ id → map_get m' j = map_get m j) ∧
  map fst (map_iter_zip m) = seq 0 n ∧
  (∀ id a, (id, a) ∈ map_iter_zip m ↔ map_get m id = Some a) ∧
  (∀ f, length (map_update f m) = n ∧
    ∀ id a, map_get m id = Some a → map_get (map_update f m) id = Some (f id a)).
Proof.
  intros <-. split_and!.
  - intros id H. by apply lookup_lt_is_Some.
  - intros id a H. unfold map_set. rewrite (proj2 (Nat.ltb_lt _ _) H). eexists. split; [done|].
    split; [by rewrite insert_length|]. split; [by apply list_lookup_insert|].
    intros j Hj. by apply list_lookup_insert_ne.
  - unfold map_iter_zip. apply fst_zip. by rewrite seq_length.
  - intros id a. unfold map_iter_zip, map_get. rewrite elem_of_list_lookup. split.
    + intros [i H]. apply lookup_zip_with_Some in H as (x & y & [= -> ->] & H1 & H2).
      apply lookup_seq in H1 as [-> _]. done.
    + intros H. exists id. apply lookup_zip_with_Some. exists id, a. split; [done|]. split; [|done].
      apply lookup_seq. split; [done|]. by eapply lookup_lt_Some.
  - intros f. unfold map_update. split; [by rewrite imap_length|].
    intros id a H. unfold map_get in *. by rewrite list_lookup_imap, H.
Qed.

Lemma map_new_laws {A} n (d : A) : length (map_new n d) = n ∧ ∀ id, id < n → map_get (map_new n d) id = Some d.
Proof.
  unfold map_new, map_get. split; [apply replicate_length|]. intros id H. by apply lookup_replicate_2.
Qed.

Lemma map_eqb_iff {A} (eqb : A → A → bool) n (m1 m2 : list A) : (∀ x y, eqb x y = true ↔ x = y) →
  length m1 = n → length m2 = n →
  (map_eqb eqb m1 m2 = true ↔ ∀ id, id < n → map_get m1 id = map_get m2 id).
Proof.
  intros He <-. unfold map_eqb, map_get. revert m2.
  induction m1 as [|x m1 IH]; intros [|y m2]; cbn [length]; intros H; try done.
  cbn [zip zip_with forallb fst snd]. rewrite andb_true_iff, He. rewrite IH by lia. split.
  - intros [-> H1] [|id] Hid; [done|]. apply H1. lia.
  - intros H1. split; [assert (E := H1 0); cbn in E; specialize (E ltac:(lia)); congruence|].
    intros id Hid. apply (H1 (S id)). lia.
Qed.
