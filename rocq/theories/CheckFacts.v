(** Left recursion check, conflict checks and jump table. *)
From Coq Require Import String.
From stdpp Require Import prelude list gmap strings relations.
From Verif Require Import SynSetModel SynSetFacts TableModel CfgSpec CfgFacts FirstFacts FollowFacts.
Local Open Scope nat_scope.
#[local] Arguments ts_contains : simpl never.
#[local] Arguments tb_get : simpl never.
#[local] Arguments ts_union : simpl never.
#[local] Arguments ts_insert : simpl never.

Section facts.
  Context {K : Type} `{EqDecision K}.
  Implicit Types (k a b x y t : K) (seen set stack : list K).

  (** * Depth first search bookkeeping *)
  Section dfs.
    Variable prods : list (K * entry K).

    Definition unseen seen : nat := length (filter (λ k, k ∉ seen) prods.*1).
    Lemma unseen_mono seen seen' : seen ⊆ seen' → unseen seen' ≤ unseen seen.
    Proof.
      intros Hs. unfold unseen. induction prods.*1 as [|k l IH]; [done|]. rewrite !filter_cons.
      repeat case_decide; cbn; [lia| |lia|done]. exfalso. set_solver.
    Qed.
    Lemma unseen_insert seen t e : bt_get prods t = Some e → t ∉ seen →
      S (unseen (bs_insert seen t)) ≤ unseen seen.
    Proof.
      intros Hg Hn. apply bt_get_in, (elem_of_list_fmap_1 fst) in Hg. cbn in Hg. unfold unseen.
      induction prods.*1 as [|k l IH]; [by apply elem_of_nil in Hg|]. rewrite !filter_cons.
      assert (length (filter (λ k, k ∉ bs_insert seen t) l) ≤ length (filter (λ k, k ∉ seen) l)) as Hle.
      { clear -Hn. induction l as [|z l IH]; [done|]. rewrite !filter_cons.
        repeat case_decide; cbn; [lia| |lia|done]. exfalso. rewrite elem_of_bs_insert in *. tauto. }
      apply elem_of_cons in Hg as [<-|Hg].
      - rewrite decide_False by (rewrite elem_of_bs_insert; tauto). rewrite decide_True by done. cbn. lia.
      - specialize (IH Hg). repeat case_decide; cbn; [lia| |lia|lia].
        exfalso. rewrite elem_of_bs_insert in *. tauto.
    Qed.
    Lemma unseen_bound seen : unseen seen ≤ length prods.
    Proof. unfold unseen. etrans; [apply filter_length|]. by rewrite fmap_length. Qed.

    Definition gedge a b : Prop := ∃ e, bt_get prods a = Some e ∧ b ∈ comps e.
    Definition greach : K → K → Prop := rtc gedge.

    Lemma bs_insert_sub seen t : seen ⊆ bs_insert seen t.
    Proof. intros x Hx. apply elem_of_bs_insert. by right. Qed.

    (** * check_left_recursive never reports *)
    Section lr.
      Variable first : table K.
      Definition lr_good seen (r : lr_res K) : Prop :=
        ∃ seen' set' stack', r = LOk seen' set' stack' ∧ seen ⊆ seen' ∧ set' ⊆ seen'.

      Lemma lr_union_good rec ys seen set stack f :
        (∀ y seen set stack, set ⊆ seen → S (unseen seen) ≤ f → lr_good seen (rec y seen set stack)) →
        set ⊆ seen → S (unseen seen) ≤ f → lr_good seen (lr_union rec ys seen set stack).
      Proof.
        intros Hrec. revert seen set stack. induction ys as [|y ys IH]; intros seen set stack Hs Hf; cbn [lr_union].
        - exists seen, set, stack. done.
        - destruct (Hrec y seen set stack Hs Hf) as (seen'&set'&stack'&->&H1&H2).
          destruct (IH seen' set' stack' H2) as (s2&t2&k2&->&H3&H4).
          { pose proof (unseen_mono _ _ H1). lia. }
          exists s2, t2, k2. split; [done|]. split; [set_solver|done].
      Qed.
      Lemma bs_remove_sub (s : list K) k s' : s ⊆ s' → bs_remove s k ⊆ s'.
      Proof. intros H x Hx. apply elem_of_bs_remove in Hx as [_ ?]. auto. Qed.

      Lemma lr_seq_good rec t main ys seen set stack ts tst f :
        (∀ y seen set stack, set ⊆ seen → S (unseen seen) ≤ f → lr_good seen (rec y seen set stack)) →
        set ⊆ seen → ts ⊆ seen → S (unseen seen) ≤ f →
        lr_good seen (lr_seq first rec t main ys seen set stack ts tst).
      Proof.
        intros Hrec. revert main seen set stack ts tst.
        induction ys as [|y ys IH]; intros main seen set stack ts tst Hs Ht Hf; cbn [lr_seq].
        - destruct main.
          + eexists _, _, _. split; [done|]. split; [done|]. by apply bs_remove_sub.
          + eexists _, _, _. done.
        - assert (lr_good seen (if main then rec y seen set stack else rec y seen ts tst)) as Hg.
          { destruct main; by apply Hrec. }
          destruct Hg as (seen'&cset&cstack&->&H1&H2).
          assert (S (unseen seen') ≤ f) by (pose proof (unseen_mono _ _ H1); lia).
          assert (set ⊆ seen') by set_solver. assert (ts ⊆ seen') by set_solver.
          assert (∀ r, lr_good seen' r → lr_good seen r) as Hw.
          { intros r (s&?&?&->&?&?). eexists _, _, _. split; [done|]. split; [set_solver|done]. }
          apply Hw. destruct (ts_contains_e _).
          + apply IH; [by destruct main|by destruct main|done].
          + destruct main; apply IH; try done; try apply list_subseteq_nil. by apply bs_remove_sub.
      Qed.

      Lemma check_lr_good fuel t seen set stack :
        set ⊆ seen → S (unseen seen) ≤ fuel → lr_good seen (check_lr prods first fuel t seen set stack).
      Proof.
        revert t seen set stack. induction fuel as [|f IH]; intros t seen set stack Hs Hf; [lia|].
        cbn [check_lr]. destruct (bs_mem seen t) eqn:Em.
        { eexists _, _, _. done. }
        apply bs_mem_false in Em.
        assert (bs_mem set t = false) as -> by (apply bs_mem_false; set_solver).
        pose proof (bs_insert_sub seen t) as Hi.
        assert (bs_insert set t ⊆ bs_insert seen t) as Hs'.
        { intros z. rewrite !elem_of_bs_insert. set_solver. }
        assert (∀ r, lr_good (bs_insert seen t) r → lr_good seen r) as Hw.
        { intros r (s&?&?&->&?&?). eexists _, _, _. split; [done|]. split; [set_solver|done]. }
        apply Hw. destruct (bt_get prods t) as [e|] eqn:Eg.
        2:{ eexists _, _, _. split; [done|]. split; [done|]. by apply bs_remove_sub. }
        pose proof (unseen_insert _ _ _ Eg Em) as Hu.
        destruct e as [|ty lit|[|y r]|ys].
        - eexists _, _, _. split; [done|]. split; [done|]. by apply bs_remove_sub.
        - eexists _, _, _. split; [done|]. split; [done|]. by apply bs_remove_sub.
        - eexists _, _, _. split; [done|]. split; [done|]. by apply bs_remove_sub.
        - destruct (IH y (bs_insert seen t) (bs_insert set t) (stack ++ [t])) as (s1&t1&k1&->&H1&H2); [done|lia|].
          assert (∀ r, lr_good s1 r → lr_good (bs_insert seen t) r) as Hw1.
          { intros r' (s&?&?&->&?&?). eexists _, _, _. split; [done|]. split; [set_solver|done]. }
          pose proof (unseen_mono _ _ H1). apply Hw1.
          destruct (ts_contains_e _); eapply lr_seq_good; eauto; try apply list_subseteq_nil; try lia.
          by apply bs_remove_sub.
        - destruct (lr_union_good (check_lr prods first f) ys (bs_insert seen t) (bs_insert set t) (stack ++ [t]) f)
            as (s1&t1&k1&->&H1&H2); [done|done|lia|].
          eexists _, _, _. split; [done|]. split; [done|]. by apply bs_remove_sub.
      Qed.
    End lr.

    (** * check_conflicts visits every reachable symbol *)
    Section ck.
      Variable (first follow : table K).
      Notation local := (ck_local first follow).

      Definition ck_good (t0 : list K) seen (r : ck_res K) : Prop :=
        match r with
        | CFuel => False
        | CErr err => ∃ t k e, t ∈ t0 ∧ greach t k ∧ bt_get prods k = Some e ∧ local k e = Some err
        | COk seen' =>
          seen ⊆ seen' ∧ t0 ⊆ seen' ∧
          ∀ k e, k ∈ seen' → k ∉ seen → bt_get prods k = Some e → local k e = None ∧ comps e ⊆ seen'
        end.

      Lemma ck_all_good rec ys seen f :
        (∀ y seen, S (unseen seen) ≤ f → ck_good [y] seen (rec y seen)) →
        S (unseen seen) ≤ f → ck_good ys seen (ck_all rec ys seen).
      Proof.
        intros Hrec. revert seen. induction ys as [|y ys IH]; intros seen Hf; cbn [ck_all].
        - cbn. split; [done|]. split; [apply list_subseteq_nil|]. done.
        - pose proof (Hrec y seen Hf) as H1. destruct (rec y seen) as [|err|seen']; [done| |].
          + destruct H1 as (t&k&e&->%elem_of_list_singleton&H2&H3&H4). exists y, k, e. split; [by left|done].
          + destruct H1 as (H1&H2&H3). specialize (IH seen').
            assert (S (unseen seen') ≤ f) as Hf' by (pose proof (unseen_mono _ _ H1); lia).
            specialize (IH Hf'). destruct (ck_all rec ys seen') as [|err|seen2]; [done| |].
            * destruct IH as (t&k&e&Ht&?&?&?). exists t, k, e. split; [by right|done].
            * destruct IH as (I1&I2&I3). cbn. split; [set_solver|]. split; [set_solver|].
              intros k e Hk Hn Hg. destruct (decide (k ∈ seen')) as [Hk'|Hk'].
              -- destruct (H3 k e Hk' Hn Hg). split; [done|set_solver].
              -- by apply I3.
      Qed.

      Lemma check_conflicts_good fuel t seen :
        S (unseen seen) ≤ fuel → ck_good [t] seen (check_conflicts prods first follow fuel t seen).
      Proof.
        revert t seen. induction fuel as [|f IH]; intros t seen Hf; [lia|].
        cbn [check_conflicts]. destruct (bs_mem seen t) eqn:Em.
        { apply bs_mem_true in Em. cbn. split; [done|]. split; [set_solver|]. done. }
        apply bs_mem_false in Em. destruct (bt_get prods t) as [e|] eqn:Eg.
        2:{ cbn. split; [apply bs_insert_sub|]. split; [intros z ->%elem_of_list_singleton; apply elem_of_bs_insert; by left|].
            intros k e Hk Hn Hg. apply elem_of_bs_insert in Hk as [->|?]; [congruence|done]. }
        destruct (local t e) as [err|] eqn:El.
        { exists t, t, e. split; [by left|]. split; [apply rtc_refl|done]. }
        pose proof (unseen_insert _ _ _ Eg Em) as Hu.
        pose proof (ck_all_good (check_conflicts prods first follow f) (comps e) (bs_insert seen t) f) as Ha.
        destruct (ck_all (check_conflicts prods first follow f) (comps e) (bs_insert seen t)) as [|err|seen'].
        - apply Ha; [done|lia].
        - destruct Ha as (y&k&e'&Hy&Hr&?&?); [done|lia|]. exists t, k, e'. split; [by left|].
          split; [|done]. eapply rtc_l; [|done]. by exists e.
        - destruct Ha as (H1&H2&H3); [done|lia|]. cbn.
          pose proof (bs_insert_sub seen t) as Hi.
          assert (t ∈ bs_insert seen t) as Ht by (apply elem_of_bs_insert; by left).
          split; [set_solver|]. split; [set_solver|].
          intros k e' Hk Hn Hg. destruct (decide (k = t)) as [->|Hne].
          + by simplify_eq.
          + apply H3; [done| |done]. rewrite elem_of_bs_insert. tauto.
      Qed.

      Lemma check_conflicts_ok root seen' :
        check_conflicts prods first follow (S (S (length prods))) root [] = COk seen' →
        ∀ k e, greach root k → bt_get prods k = Some e → local k e = None.
      Proof.
        intros Hc. pose proof (check_conflicts_good (S (S (length prods))) root []) as Hg. rewrite Hc in Hg.
        destruct Hg as (H1&H2&H3); [pose proof (unseen_bound []); lia|].
        assert (∀ k, greach root k → k ∈ seen') as Hr.
        { apply (rtc_ind_r (λ k, k ∈ seen')); [set_solver|]. intros a b _ (e&Ha&Hb) Hin.
          destruct (H3 a e Hin) as [_ Hc']; [by apply not_elem_of_nil|done|]. by apply Hc'. }
        intros k e Hk Hg. apply (H3 k e); [by apply Hr|by apply not_elem_of_nil|done].
      Qed.
    End ck.
  End dfs.
End facts.
