(** Bounds on the rounds of the FIRST and FOLLOW construction. *)
From Coq Require Import String.
From stdpp Require Import prelude list gmap strings.
From Verif Require Import SynSetModel TableModel CfgSpec CfgFacts SynSetFacts FirstFacts FollowFacts RoundSpec.
Local Open Scope nat_scope.

Section facts.
  Context {K : Type} `{EqDecision K}.
  Implicit Types (regs : grammar K).

  Lemma f_pass_length rels (m : table K) : length (snd (fst (f_pass rels m))) ≤ length rels.
  Proof.
    revert m. induction rels as [|r rels IH]; intros m; cbn [f_pass]; [done|].
    destruct (f_process r m) as [[c k] m1]. specialize (IH m1). destruct (f_pass rels m1) as [[c' rels'] m2]. cbn [fst snd] in *.
    destruct k; cbn [length]; lia.
  Qed.
  Lemma w_pass_length first rels (m : table K) : length (snd (fst (w_pass first rels m))) = length rels.
  Proof.
    revert m. induction rels as [|r rels IH]; intros m; cbn [w_pass]; [done|].
    destruct (w_process first r m) as [[c k] m1]. specialize (IH m1). destruct (w_pass first rels m1) as [[c' rels'] m2]. cbn [fst snd] in *.
    cbn [length]; lia.
  Qed.

  Lemma f_loop_rounds fuel rels (m m' : table K) : f_loop fuel rels m = Some m' →
    ∃ n w, f_rounds rels m n w m' ∧ n ≤ fuel ∧ w ≤ n * length rels.
  Proof.
    revert rels m. induction fuel as [|fuel IH]; intros rels m; cbn [f_loop]; [done|].
    assert (L := f_pass_length rels m). destruct (f_pass rels m) as [[[] rels'] m1] eqn:E; cbn [fst snd] in L.
    - intros H. destruct (IH _ _ H) as (n & w & H1 & H2 & H3). exists (S n), (length rels + w).
      split; [by eapply fr_more|]. split; [lia|]. nia.
    - intros [= ->]. exists 1, (length rels). split; [by eapply fr_last|]. lia.
  Qed.
  Lemma w_loop_rounds fuel first rels (m m' : table K) : w_loop fuel first rels m = Some m' →
    ∃ n w, w_rounds first rels m n w m' ∧ n ≤ fuel ∧ w ≤ n * length rels.
  Proof.
    revert rels m. induction fuel as [|fuel IH]; intros rels m; cbn [w_loop]; [done|].
    assert (L := w_pass_length first rels m). destruct (w_pass first rels m) as [[[] rels'] m1] eqn:E; cbn [fst snd] in L.
    - intros H. destruct (IH _ _ H) as (n & w & H1 & H2 & H3). exists (S n), (length rels + w).
      split; [by eapply wr_more|]. split; [lia|]. nia.
    - intros [= ->]. exists 1, (length rels). split; [by eapply wr_last|]. lia.
  Qed.

  Lemma f_rels_length kx : length (f_rels kx) ≤ 2 * (1 + width (K := K) (snd kx)).
  Proof.
    destruct kx as [k [|ty lit|l|l]]; cbn [f_rels snd width]; [cbn; lia..| |].
    - unfold f_build_seq. generalize (@nil K). induction l as [|y l IH]; intros set; cbn [f_build_seq_loop length]; [lia|].
      specialize (IH (bs_insert set y)). lia.
    - unfold f_build_union. induction l as [|y l IH]; cbn [flat_map app length]; lia.
  Qed.
  Lemma w_rels_length kx : length (w_rels kx) ≤ 2 * (1 + width (K := K) (snd kx)).
  Proof.
    destruct kx as [k [|ty lit|l|l]]; cbn [w_rels snd width]; [cbn; lia..| |].
    - unfold w_build_seq. rewrite app_length, map_length, rev_length.
      assert (H1 : ∀ s, length (w_build_seq_loop k s (rev l)) = length l).
      { rewrite <- (rev_length l). generalize (rev l). intros r. induction r as [|y r IH]; intros s; [done|]. cbn. by rewrite IH. }
      assert (H2 : length (windows2 l) ≤ length l).
      { clear. induction l as [|a [|b l] IH]; cbn in *; lia. }
      rewrite H1. lia.
    - unfold w_build_union. rewrite map_length. lia.
  Qed.
  Lemma flat_length {A B} (f : A → list B) (g : A → nat) l : (∀ x, length (f x) ≤ 2 * g x) → length (flat_map f l) ≤ 2 * sum_list_with g l.
  Proof. intros H. induction l as [|x l IH]; cbn; [lia|]. rewrite app_length. specialize (H x). lia. Qed.

  Lemma seq_in nv U (ks : list K) k l : k ∈ ks → ∀ set r, r ∈ f_build_seq_loop k set l → f_in nv U ks r.
  Proof.
    intros Hk. induction l as [|y l IH]; intros set r; cbn [f_build_seq_loop].
    - rewrite elem_of_list_singleton. intros ->. by apply f_in_if.
    - intros [->|H]%elem_of_cons; [by apply f_in_if|]. by eapply IH.
  Qed.
  Lemma rels_in nv U regs r : toks_in nv U regs → r ∈ flat_map f_rels regs → f_in nv U (map fst regs) r.
  Proof.
    intros Ht (k & e & Hin & Hr)%(elem_of_all_rels regs).
    assert (Hk : k ∈ map fst regs) by (apply (elem_of_list_fmap_1 fst) in Hin; exact Hin).
    destruct e as [|ty lit|l|l]; cbn [f_rels] in Hr.
    - apply elem_of_list_singleton in Hr as ->. done.
    - apply elem_of_list_singleton in Hr as ->. destruct (Ht _ _ _ Hin) as [H1 H2]. done.
    - by eapply seq_in.
    - unfold f_build_union in Hr. rewrite elem_of_list_In, in_flat_map in Hr. destruct Hr as (y & _ & Hr).
      apply elem_of_list_In in Hr. rewrite elem_of_cons, elem_of_list_singleton in Hr. by destruct Hr as [->| ->].
  Qed.
  Lemma toks_perm nv U regs iter : iter ≡ₚ regs → toks_in nv U regs → toks_in nv U iter.
  Proof. intros Hp H k ty lit Hin. apply (H k). by rewrite <- Hp. Qed.
  Lemma syms_length regs : length (reg_syms regs) = extent regs.
  Proof.
    unfold reg_syms, extent. induction regs as [|[k e] regs IH]; [done|]. cbn [flat_map sum_list_with fst snd app length]. rewrite app_length, IH.
    by destruct e.
  Qed.
  Lemma extent_perm regs iter : iter ≡ₚ regs → extent iter = extent regs.
  Proof. intros Hp. unfold extent. generalize (λ kx : K * entry K, 1 + width kx.2). intros g. induction Hp; cbn; [done|lia|lia|congruence]. Qed.

  Lemma loop_in nv U ks fuel rels (m m' : table K) : tb_in nv U m → (∀ r, r ∈ rels → f_in nv U ks r) → f_loop fuel rels m = Some m' → tb_in nv U m'.
  Proof.
    revert rels m. induction fuel as [|fuel IH]; intros rels m0 Hm0 Hr; cbn [f_loop]; [done|].
    intros Hl. destruct (f_pass_weight nv U ks rels m0) as (P1&P2&P3); [done..|].
    destruct (f_pass rels m0) as [[[] rels'] m1]; cbn [fst snd] in *; [by eapply IH|by simplify_eq].
  Qed.
  Lemma f_loop_same fuel fuel' rels (m a b : table K) : f_loop fuel rels m = Some a → f_loop fuel' rels m = Some b → a = b.
  Proof.
    intros Ha Hb. destruct (Nat.le_ge_cases fuel fuel') as [H|H].
    - rewrite (f_loop_mono _ _ _ _ _ Ha H) in Hb. by injection Hb.
    - rewrite (f_loop_mono _ _ _ _ _ Hb H) in Ha. by injection Ha.
  Qed.
  Lemma w_loop_same fuel fuel' first rels (m a b : table K) : w_loop fuel first rels m = Some a → w_loop fuel' first rels m = Some b → a = b.
  Proof.
    intros Ha Hb. destruct (Nat.le_ge_cases fuel fuel') as [H|H].
    - rewrite (w_loop_mono _ _ _ _ _ _ Ha H) in Hb. by injection Hb.
    - rewrite (w_loop_mono _ _ _ _ _ _ Hb H) in Ha. by injection Ha.
  Qed.

  Lemma first_rounds nv U regs : toks_in nv U regs →
    ∃ n w m, first_build regs = Some m ∧ f_rounds (flat_map f_rels regs) [] n w m ∧
      n ≤ 1 + length regs * (1 + nv * (1 + size U)) ∧ w ≤ n * (2 * extent regs).
  Proof.
    intros Ht. destruct (first_build_some regs) as (m & Hm & _). unfold first_build in Hm.
    destruct (f_loop_fuel nv U (map fst regs) (1 + length regs * (1 + nv * (1 + size U))) (flat_map f_rels regs) []) as [m' Hm'].
    - intros k. rewrite tb_get_nil. apply ts_new_in.
    - intros r. by apply rels_in.
    - rewrite map_length. cbn. lia.
    - assert (m' = m) as -> by by eapply f_loop_same. destruct (f_loop_rounds _ _ _ _ Hm') as (n & w & H1 & H2 & H3).
      exists n, w, m. split; [exact Hm|]. split; [exact H1|]. split; [exact H2|]. etrans; [exact H3|].
      apply Nat.mul_le_mono_l. apply (flat_length f_rels (λ kx, 1 + width (snd kx))). exact f_rels_length.
  Qed.
  Lemma follow_rounds nv U regs iter first root : toks_in nv U regs → iter ≡ₚ regs → first_build regs = Some first →
    ∃ n w m, follow_build iter first root = Some m ∧ w_rounds first (flat_map w_rels iter) (bt_insert [] root (fo_insert_eof ts_new)) n w m ∧
      n ≤ 1 + (1 + extent regs) * (1 + nv * (1 + size U)) ∧ w ≤ n * (2 * extent regs).
  Proof.
    intros Ht Hp Hf.
    assert (Hfirst : ∀ nv U, toks_in nv U regs → tb_in nv U first).
    { clear nv U Ht. intros nv U Ht. eapply (loop_in nv U (map fst regs)); [| |exact Hf].
      - intros k. rewrite tb_get_nil. apply ts_new_in.
      - intros r. by apply rels_in. }
    destruct (follow_build_some iter first root) as [m Hm].
    { apply Hfirst. intros k ty lit Hin. rewrite <- Hp in Hin. apply reg_toks_in in Hin. split; [by eapply reg_nv_lt|].
      intros x ->. by eapply reg_lits_in. }
    assert (Hin := Hfirst nv U Ht).
    destruct (w_loop_fuel nv U (root :: reg_syms iter) first Hin (1 + (1 + extent regs) * (1 + nv * (1 + size U))) (flat_map w_rels iter)
      (bt_insert [] root (fo_insert_eof ts_new))) as [m' Hm'].
    - intros k. rewrite tb_get_insert. case_decide; [|rewrite tb_get_nil; apply ts_new_in]. split; cbn; [lia|constructor].
    - intros r (k&e&H1&H2)%(elem_of_all_wrels iter). pose proof (w_rels_in _ _ _ _ H1 H2) as H3.
      clear -H3. induction r; cbn in *; [by right..|auto].
    - cbn [length]. rewrite syms_length, (extent_perm regs iter Hp). lia.
    - unfold follow_build in Hm. assert (m' = m) as -> by by eapply w_loop_same. destruct (w_loop_rounds _ _ _ _ _ Hm') as (n & w & H1 & H2 & H3).
      exists n, w, m. split; [exact Hm|]. split; [exact H1|]. split; [exact H2|]. etrans; [exact H3|].
      apply Nat.mul_le_mono_l. rewrite <- (extent_perm regs iter Hp). apply (flat_length w_rels (λ kx, 1 + width (snd kx))). exact w_rels_length.
  Qed.
End facts.
