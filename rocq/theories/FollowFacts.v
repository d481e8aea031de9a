(** FOLLOW construction: termination, exact characterisation, soundness, completeness. *)
From Coq Require Import String.
From stdpp Require Import prelude list gmap strings relations.
From Verif Require Import SynSetModel SynSetFacts TableModel CfgSpec CfgFacts FirstFacts.
Local Open Scope nat_scope.
#[local] Arguments ts_contains : simpl never.
#[local] Arguments tb_get : simpl never.
#[local] Arguments ts_union : simpl never.
#[local] Arguments ts_insert : simpl never.

Section facts.
  Context {K : Type} `{EqDecision K}.
  Implicit Types (m first : table K) (k a b x y : K).

  Lemma w_follow_get first m a b k :
    tb_get (snd (w_process first (WFollow a b) m)) k =
      if decide (k = a) then
        (if decide (a = b) then tb_get m a else fst (fo_union_follow (tb_get m a) (tb_get m b)))
      else tb_get m k.
  Proof.
    cbn [w_process]. rewrite bt_get_remove. unfold tb_get.
    destruct (decide (b = a)) as [->|Hne].
    - cbn [snd]. rewrite bt_get_insert, bt_get_remove, (decide_True (P:=a=a)) by done.
      by repeat case_decide.
    - rewrite (decide_False (P:=a=b)) by done.
      destruct (bt_get m b) as [s|].
      + cbn [default id]. destruct (fo_union_follow _ s) as [u ch]. cbn [snd fst].
        rewrite bt_get_insert, bt_get_remove. by repeat case_decide.
      + cbn [snd default]. rewrite bt_get_insert, bt_get_remove.
        case_decide; [|by repeat case_decide]. cbn [default id]. unfold fo_union_follow. rewrite ts_union_unfold.
        cbn [ts_new ts_map ts_e fst]. rewrite lm_union_nil_r, andb_false_r, orb_false_r. cbn [fst]. by destruct (default ts_new (bt_get m a)).
  Qed.
  Lemma w_follow_changed first m a b :
    fst (fst (w_process first (WFollow a b) m)) =
      if decide (a = b) then false else snd (fo_union_follow (tb_get m a) (tb_get m b)).
  Proof.
    cbn [w_process]. rewrite bt_get_remove.
    destruct (decide (b = a)) as [->|Hne].
    - by rewrite decide_True.
    - rewrite (decide_False (P:=a=b)) by done. unfold tb_get.
      destruct (bt_get m b) as [s|].
      + cbn [default id]. by destruct (fo_union_follow _ s).
      + unfold fo_union_follow. rewrite ts_union_unfold. cbn [default ts_new ts_map ts_e fst snd].
        by rewrite lm_union_nil_r, !andb_false_r.
  Qed.
  Lemma w_follow_keep first m a b : snd (fst (w_process first (WFollow a b) m)) = WFollow a b.
  Proof. cbn [w_process]. by destruct (match _ with Some _ => _ | None => _ end). Qed.

  Section sat.
    Variable first : table K.
    Fixpoint w_sat m (r : wrel K) : Prop :=
      match r with
      | WFirst a b => ∀ t, ts_contains (tb_get first b) (Some t) = true → ts_contains (tb_get m a) (Some t) = true
      | WFollow a b => ts_sub (tb_get m b) (tb_get m a)
      | WIf set inner => (∀ y, y ∈ set → ts_contains (tb_get first y) None = true) → w_sat m inner
      end.

    Lemma w_sat_same m m' r : tb_same m m' → w_sat m r → w_sat m' r.
    Proof.
      intros Hs. induction r as [a b|a b|set r IH]; cbn.
      - intros H t. rewrite <-(Hs a (Some t)). auto.
      - intros H t. rewrite <-(Hs a t), <-(Hs b t). auto.
      - intros H Hy. by apply IH, H.
    Qed.

    Lemma w_process_spec r m :
      let c := fst (fst (w_process first r m)) in
      let keep := snd (fst (w_process first r m)) in
      let m' := snd (w_process first r m) in
      tb_sub m m' ∧ (c = false → tb_same m m' ∧ w_sat m' r) ∧
      (∀ m'', w_sat m'' keep → w_sat m'' r).
    Proof.
      induction r as [a b|a b|set r IH].
      - cbn [w_process]. unfold fo_union_first.
        pose proof (ts_contains_union (tb_get m a) (tb_get first b) false) as Hu.
        pose proof (ts_union_changed (tb_get m a) (tb_get first b) false) as Hc.
        pose proof (ts_sub_union (tb_get m a) (tb_get first b) false) as Hsub.
        destruct (ts_union (tb_get m a) (tb_get first b) false) as [s ch]. cbn [fst snd] in *.
        split; [by apply tb_sub_insert|]. split; [|done]. intros ->.
        assert (∀ t, ts_contains (tb_get first b) (Some t) = true → ts_contains (tb_get m a) (Some t) = true) as H.
        { intros t Ht. destruct (ts_contains (tb_get m a) (Some t)) eqn:E; [done|].
          destruct Hc as [_ Hc]. discriminate Hc. exists (Some t). done. }
        assert (tb_same m (bt_insert m a s)) as Hsame.
        { intros k t. rewrite tb_get_insert. destruct (decide (k = a)) as [->|]; [|done]. rewrite Hu.
          destruct t as [t|]; [|by rewrite orb_false_r]. cbn.
          apply eq_bool_prop_intro. rewrite !Is_true_true, orb_true_iff. naive_solver. }
        split; [done|]. cbn [w_sat]. intros t Ht. rewrite <-(Hsame a (Some t)). auto.
      - pose proof (w_follow_changed first m a b) as Hc. pose proof (w_follow_get first m a b) as Hg.
        rewrite w_follow_keep. destruct (w_process first (WFollow a b) m) as [[c keep] m']. cbn [fst snd] in *.
        assert (tb_sub m m') as Hsub.
        { intros k. rewrite Hg. destruct (decide (k = a)) as [->|]; [|reflexivity]. destruct (decide (a = b)); [reflexivity|apply ts_sub_union]. }
        split; [done|]. split; [|done]. intros ->.
        destruct (decide (a = b)) as [<-|Hne].
        + split; [|cbn; reflexivity]. intros k t. rewrite Hg. by destruct (decide (k = a)) as [->|].
        + assert (ts_sub (tb_get m b) (tb_get m a)) as Hu.
          { intros t Ht. destruct (ts_contains (tb_get m a) t) eqn:E; [done|].
            symmetry in Hc. apply not_true_iff_false in Hc. destruct Hc. apply ts_union_changed. exists t. done. }
          assert (tb_same m m') as Hsame.
          { intros k t. rewrite Hg. destruct (decide (k = a)) as [->|]; [|done]. unfold fo_union_follow. rewrite ts_contains_union.
            apply eq_bool_prop_intro. rewrite !Is_true_true, orb_true_iff, andb_true_iff.
            split; [by left|]. intros [?|[_ ?]]; [done|by apply Hu]. }
          split; [done|]. by apply (w_sat_same m).
      - cbn [w_process]. destruct (filter _ set) as [|z set'] eqn:E.
        + destruct (w_process first r m) as [[c keep] m']. cbn [fst snd] in *.
          destruct IH as (H1&H2&H3). split; [done|]. split.
          * intros Hc. destruct (H2 Hc). split; [done|]. cbn. auto.
          * intros m'' Hk. cbn. intros _. by apply H3.
        + cbn [fst snd]. split; [done|].
          assert (∀ y, y ∈ z :: set' ↔ y ∈ set ∧ ts_contains (tb_get first y) None = false) as Hz.
          { intros y. rewrite <-E, elem_of_list_filter. by rewrite (comm (∧)). }
          split.
          * intros _. split; [done|]. cbn. intros Hall. destruct (Hz z) as [Hz1 _].
            destruct Hz1 as [Hz1 Hz2]; [by left|]. specialize (Hall z Hz1). congruence.
          * intros m'' Hk. cbn in *. intros Hall. apply Hk.
            intros y' Hy'. apply Hall. by apply Hz in Hy' as [??].
    Qed.

    Lemma w_pass_spec rels m :
      let c := fst (fst (w_pass first rels m)) in
      let rels' := snd (fst (w_pass first rels m)) in
      let m' := snd (w_pass first rels m) in
      tb_sub m m' ∧
      (c = false → tb_same m m' ∧ ∀ r, r ∈ rels → w_sat m' r) ∧
      (∀ m'', (∀ r', r' ∈ rels' → w_sat m'' r') → ∀ r, r ∈ rels → w_sat m'' r).
    Proof.
      revert m. induction rels as [|r rels IH]; intros m; cbn [w_pass].
      - cbn. split; [done|]. split.
        + intros _. split; [done|]. intros r Hr. by apply elem_of_nil in Hr.
        + intros m'' _ r Hr. by apply elem_of_nil in Hr.
      - pose proof (w_process_spec r m) as Hp. destruct (w_process first r m) as [[c keep] m1].
        specialize (IH m1). destruct (w_pass first rels m1) as [[c' rels'] m2]. cbn [fst snd] in *.
        destruct Hp as (P1&P2&P3), IH as (I1&I2&I3). split; [by etrans|]. split.
        + intros [-> ->]%orb_false_iff. destruct (P2 eq_refl) as [P4 P5], (I2 eq_refl) as [I4 I5].
          split.
          * intros k t. by rewrite (P4 k t), (I4 k t).
          * intros r' [->|Hr']%elem_of_cons; [by eapply w_sat_same|auto].
        + intros m'' Hall r' [->|Hr']%elem_of_cons.
          * apply P3. apply Hall. by left.
          * apply I3; [|done]. intros r'' Hr''. apply Hall. by right.
    Qed.

    Lemma w_loop_sat fuel rels m m' :
      w_loop fuel first rels m = Some m' → tb_sub m m' ∧ ∀ r, r ∈ rels → w_sat m' r.
    Proof.
      revert rels m. induction fuel as [|fuel IH]; intros rels m; cbn [w_loop]; [done|].
      pose proof (w_pass_spec rels m) as Hp. destruct (w_pass first rels m) as [[c rels'] m1]. cbn [fst snd] in *.
      destruct Hp as (P1&P2&P3). destruct c.
      - intros Hl. destruct (IH _ _ Hl) as [I1 I2]. split; [by etrans|]. by apply P3.
      - intros [= <-]. split; [done|]. by apply P2.
    Qed.

    (** Soundness against any set of (symbol, follower) pairs closed under the relations. *)
    Section sound.
      Variable P : K → option tok → Prop.
      Definition w_sound m : Prop := ∀ k t, ts_contains (tb_get m k) t = true → P k t.
      Fixpoint w_valid (r : wrel K) : Prop :=
        match r with
        | WFirst a b => ∀ t, ts_contains (tb_get first b) (Some t) = true → P a (Some t)
        | WFollow a b => ∀ t, P b t → P a t
        | WIf set inner => (∀ y, y ∈ set → ts_contains (tb_get first y) None = true) → w_valid inner
        end.

      Lemma w_process_sound r m : w_sound m → w_valid r →
        w_sound (snd (w_process first r m)) ∧ w_valid (snd (fst (w_process first r m))).
      Proof.
        intros Hm. induction r as [a b|a b|set r IH]; intros Hr.
        - cbn [w_process]. unfold fo_union_first.
          pose proof (ts_contains_union (tb_get m a) (tb_get first b) false) as Hu.
          destruct (ts_union (tb_get m a) (tb_get first b) false) as [s ch]. cbn [fst snd] in *.
          split; [|done]. intros k t. rewrite tb_get_insert. destruct (decide (k = a)) as [->|]; [|apply Hm].
          rewrite Hu, orb_true_iff, andb_true_iff. intros [?|[? Ht]]; [by apply Hm|].
          destruct t as [t|]; [|done]. by apply Hr.
        - pose proof (w_follow_get first m a b) as Hg. rewrite w_follow_keep. split; [|done].
          intros k t. rewrite Hg. destruct (decide (k = a)) as [->|]; [|apply Hm].
          destruct (decide (a = b)); [apply Hm|].
          unfold fo_union_follow. rewrite ts_contains_union, orb_true_iff, andb_true_iff.
          intros [?|[? Ht]]; [by apply Hm|]. apply Hr. by apply Hm.
        - cbn [w_process]. destruct (filter _ set) as [|z set'] eqn:E.
          + apply IH. apply Hr. intros y Hy.
            destruct (ts_contains (tb_get first y) None) eqn:En; [done|].
            assert (y ∈ filter (λ t, ts_contains_e (tb_get first t) = false) set) as Hin by by apply elem_of_list_filter.
            rewrite E in Hin. by apply elem_of_nil in Hin.
          + cbn [fst snd]. split; [done|]. cbn. intros Hy. apply Hr. intros y Hy'.
            destruct (ts_contains (tb_get first y) None) eqn:En; [done|].
            rewrite <-En. apply Hy. rewrite <-E. by apply elem_of_list_filter.
      Qed.

      Lemma w_pass_sound rels m : w_sound m → (∀ r, r ∈ rels → w_valid r) →
        w_sound (snd (w_pass first rels m)) ∧ (∀ r, r ∈ snd (fst (w_pass first rels m)) → w_valid r).
      Proof.
        revert m. induction rels as [|r rels IH]; intros m Hm Hr; cbn [w_pass].
        - split; [done|]. cbn. intros r Hin. by apply elem_of_nil in Hin.
        - destruct (w_process_sound r m) as [P1 P2]; [done|apply Hr; by left|].
          destruct (w_process first r m) as [[c keep] m1]. cbn [fst snd] in *.
          destruct (IH m1) as [I1 I2]; [done|intros; apply Hr; by right|].
          destruct (w_pass first rels m1) as [[c' rels'] m2]. cbn [fst snd] in *. split; [done|].
          intros r'. intros [->|?]%elem_of_cons; auto.
      Qed.

      Lemma w_loop_sound fuel rels m m' : w_sound m → (∀ r, r ∈ rels → w_valid r) →
        w_loop fuel first rels m = Some m' → w_sound m'.
      Proof.
        revert rels m. induction fuel as [|fuel IH]; intros rels m Hm Hr; cbn [w_loop]; [done|].
        destruct (w_pass_sound rels m) as [P1 P2]; [done..|].
        destruct (w_pass first rels m) as [[c rels'] m1]. cbn [fst snd] in *.
        destruct c; [by apply IH|by intros [= <-]].
      Qed.
    End sound.
  End sat.

  (** * What the registered relations are *)
  Lemma w_build_seq_loop_forall (P : wrel K → Prop) x set ys :
    (∀ s s' r, (∀ z, z ∈ s ↔ z ∈ s') → P (w_if s r) → P (w_if s' r)) →
    (∀ r, r ∈ w_build_seq_loop x set ys → P r) ↔
    (∀ l1 y l2, ys = l1 ++ y :: l2 → P (w_if (set ++ l1) (WFollow y x))).
  Proof.
    intros HP. revert set. induction ys as [|y ys IH]; intros set; cbn [w_build_seq_loop].
    - split.
      + intros H [] ?? ?; done.
      + intros _ r Hr. by apply elem_of_nil in Hr.
    - assert ((∀ r, r ∈ w_if set (WFollow y x) :: w_build_seq_loop x (bs_insert set y) ys → P r) ↔
        P (w_if set (WFollow y x)) ∧ ∀ r, r ∈ w_build_seq_loop x (bs_insert set y) ys → P r) as ->.
      { setoid_rewrite elem_of_cons. naive_solver. }
      rewrite IH.
      assert (∀ l z, z ∈ bs_insert set y ++ l ↔ z ∈ set ++ y :: l) as Hz.
      { intros l z. rewrite !elem_of_app, elem_of_bs_insert, elem_of_cons. tauto. }
      split.
      + intros (H1&H2) l1 y' l2 E. destruct l1 as [|z l1]; simplify_list_eq.
        * by rewrite ?app_nil_r.
        * eapply HP; [apply Hz|]. by eapply H2.
      + intros H1. split.
        * specialize (H1 [] y ys eq_refl). by rewrite app_nil_r in H1.
        * intros l1 y' l2 ->. eapply HP; [intros z; symmetry; apply Hz|]. by apply (H1 (y :: l1) y' l2).
  Qed.

  Lemma elem_of_windows2 (l : list K) a b :
    (a, b) ∈ windows2 l ↔ ∃ l1 l2, l = l1 ++ a :: b :: l2.
  Proof.
    induction l as [|x l IH].
    - split; [by intros ?%elem_of_nil|]. intros (l1&l2&E). by destruct l1.
    - destruct l as [|y l].
      + split; [by intros ?%elem_of_nil|]. intros (l1&l2&E). by destruct l1 as [|? []].
      + cbn [windows2]. rewrite elem_of_cons, IH. split.
        * intros [[= -> ->]|(l1&l2&E)]; [by exists [], l|]. exists (x :: l1), l2. by rewrite E.
        * intros (l1&l2&E). destruct l1 as [|z l1]; simplify_list_eq; [by left|]. right. eauto.
  Qed.

  Lemma w_build_seq_forall (P : wrel K → Prop) x l :
    (∀ s s' r, (∀ z, z ∈ s ↔ z ∈ s') → P (w_if s r) → P (w_if s' r)) →
    (∀ r, r ∈ w_build_seq x l → P r) ↔
    (∀ l1 y l2, l = l1 ++ y :: l2 → P (w_if l2 (WFollow y x))) ∧
    (∀ l1 a b l2, l = l1 ++ a :: b :: l2 → P (WFirst a b)).
  Proof.
    intros HP. unfold w_build_seq.
    assert ((∀ r, r ∈ w_build_seq_loop x [] (rev l) ++ map (λ '(a, b), WFirst a b) (rev (windows2 l)) → P r) ↔
      (∀ r, r ∈ w_build_seq_loop x [] (rev l) → P r) ∧
      (∀ r, r ∈ map (λ '(a, b), WFirst a b) (rev (windows2 l)) → P r)) as ->.
    { setoid_rewrite elem_of_app. naive_solver. }
    rewrite (w_build_seq_loop_forall P x [] (rev l) HP). cbn [app]. f_equiv.
    - split.
      + intros H l1 y l2 ->. eapply HP; [|apply (H (rev l2) y (rev l1))].
        * intros z. by rewrite !elem_of_list_In, <-in_rev.
        * rewrite rev_app_distr. cbn. by rewrite <-app_assoc.
      + intros H l1 y l2 E. eapply HP; [|apply (H (rev l2) y (rev l1))].
        * intros z. by rewrite !elem_of_list_In, <-in_rev.
        * rewrite <-(rev_involutive l), E, rev_app_distr. cbn. by rewrite <-app_assoc.
    - split.
      + intros H l1 a b l2 E. apply H. rewrite elem_of_list_In, in_map_iff. exists (a, b). split; [done|].
        rewrite <-in_rev, <-elem_of_list_In, elem_of_windows2. eauto.
      + intros H r. rewrite elem_of_list_In, in_map_iff. intros ([a b]&<-&Hin).
        rewrite <-in_rev, <-elem_of_list_In, elem_of_windows2 in Hin. destruct Hin as (l1&l2&E). eauto.
  Qed.

  Section exact.
    Variable (G : grammar K) (first : table K) (root : K).
    Hypothesis first_exact : ∀ k t, ts_contains (tb_get first k) t = true ↔ fder G k t.

    Definition all_wrels : list (wrel K) := flat_map w_rels G.
    Lemma elem_of_all_wrels r : r ∈ all_wrels ↔ ∃ k e, (k, e) ∈ G ∧ r ∈ w_rels (k, e).
    Proof.
      unfold all_wrels. rewrite elem_of_list_In, in_flat_map. split.
      - intros ([k e]&H1%elem_of_list_In&H2%elem_of_list_In). eauto.
      - intros (k&e&H1&H2). exists (k, e). by rewrite <-!elem_of_list_In.
    Qed.

    Lemma w_if_sat set r m :
      w_sat first m (w_if set r) ↔ ((∀ y, y ∈ set → ts_contains (tb_get first y) None = true) → w_sat first m r).
    Proof.
      destruct set; [|done]. cbn. split; [auto|]. intros H. apply H. intros y Hy. by apply elem_of_nil in Hy.
    Qed.
    Lemma w_if_valid P set r :
      w_valid first P (w_if set r) ↔ ((∀ y, y ∈ set → ts_contains (tb_get first y) None = true) → w_valid first P r).
    Proof.
      destruct set; [|done]. cbn. split; [auto|]. intros H. apply H. intros y Hy. by apply elem_of_nil in Hy.
    Qed.

    Lemma first_null l : (∀ y, y ∈ l → ts_contains (tb_get first y) None = true) ↔ Forall (nullable G) l.
    Proof. rewrite Forall_forall. split; intros H y Hy; by apply (first_exact y None), H. Qed.

    Lemma w_rels_valid k e r : (k, e) ∈ G → r ∈ w_rels (k, e) → w_valid first (near_follow G root) r.
    Proof.
      intros Hin. destruct e as [|ty lit|l|l]; cbn [w_rels]; [by intros ?%elem_of_nil..| |].
      - revert r. apply w_build_seq_forall.
        { intros s s' r Hs. rewrite !w_if_valid. intros H1 H2. apply H1. intros y Hy. by apply H2, Hs. }
        split.
        + intros l1 y l2 ->. apply w_if_valid. rewrite first_null. intros Hn t Ht. by eapply nf_last.
        + intros l1 a b l2 ->. cbn. intros t Ht. eapply nf_next; [done|]. by apply (first_exact b (Some t)).
      - unfold w_build_union. rewrite elem_of_list_In, in_map_iff. intros (y&<-&Hy).
        apply elem_of_list_In in Hy. cbn. intros t Ht. by eapply nf_union.
    Qed.

    Lemma w_sat_complete m : (∀ r, r ∈ all_wrels → w_sat first m r) →
      ts_contains (tb_get m root) None = true →
      ∀ k t, near_follow G root k t → ts_contains (tb_get m k) t = true.
    Proof.
      intros Hsat Hroot.
      assert (∀ k e r, (k, e) ∈ G → r ∈ w_rels (k, e) → w_sat first m r) as Hs.
      { intros k e r ? ?. apply Hsat, elem_of_all_wrels. eauto. }
      assert (∀ k l, (k, ESeq l) ∈ G →
        (∀ l1 y l2, l = l1 ++ y :: l2 → w_sat first m (w_if l2 (WFollow y k))) ∧
        (∀ l1 a b l2, l = l1 ++ a :: b :: l2 → w_sat first m (WFirst a b))) as Hseq.
      { intros k l Hin. apply w_build_seq_forall; [|intros r Hr; by apply (Hs _ _ r Hin)].
        intros s s' r Hss. rewrite !w_if_sat. intros H1 H2. apply H1. intros y Hy. by apply H2, Hss. }
      induction 1 as [|x l1 a b l2 t Hin Hst|x l1 a l2 t Hin Hn _ IH|x l y t Hin Hy _ IH].
      - done.
      - destruct (Hseq _ _ Hin) as [_ H]. by apply (H l1 a b l2 eq_refl t), (first_exact b (Some t)).
      - destruct (Hseq _ _ Hin) as [H _]. specialize (H l1 a l2 eq_refl). rewrite w_if_sat, first_null in H.
        by apply (H Hn).
      - apply (Hs _ _ (WFollow y x) Hin); [|done]. cbn [w_rels]. unfold w_build_union.
        rewrite elem_of_list_In, in_map_iff. exists y. by rewrite <-elem_of_list_In.
    Qed.

    Lemma w_init_contains k t :
      ts_contains (tb_get (bt_insert ([] : table K) root (fo_insert_eof ts_new)) k) t = true ↔ k = root ∧ t = None.
    Proof.
      rewrite tb_get_insert. unfold fo_insert_eof. destruct (decide (k = root)) as [->|Hne].
      - rewrite ts_contains_insert_e, ts_contains_new, orb_false_r, bool_decide_eq_true. naive_solver.
      - rewrite tb_get_nil, ts_contains_new. naive_solver.
    Qed.

    Lemma w_loop_exact fuel m :
      w_loop fuel first all_wrels (bt_insert [] root (fo_insert_eof ts_new)) = Some m →
      ∀ k t, ts_contains (tb_get m k) t = true ↔ near_follow G root k t.
    Proof.
      intros Hl k t. split.
      - eapply (w_loop_sound first (near_follow G root)); [..|exact Hl].
        + intros k' t'. rewrite w_init_contains. intros [-> ->]. constructor.
        + intros r (k'&e&?&?)%elem_of_all_wrels. by eapply w_rels_valid.
      - apply w_loop_sat in Hl as [H1 H2]. apply w_sat_complete; [done|].
        apply H1, w_init_contains. done.
    Qed.
  End exact.

  (** * Termination *)
  Section term.
    Variable (nv : nat) (U : gset string) (ks : list K) (first : table K).
    Hypothesis first_in : tb_in nv U first.

    Fixpoint w_in (r : wrel K) : Prop :=
      match r with WFirst a _ | WFollow a _ => a ∈ ks | WIf _ r => w_in r end.

    Lemma w_process_weight r m : tb_in nv U m → w_in r →
      tb_in nv U (snd (w_process first r m)) ∧
      tb_weight U ks m + (if fst (fst (w_process first r m)) then 1 else 0)
        ≤ tb_weight U ks (snd (w_process first r m)) ∧
      w_in (snd (fst (w_process first r m))).
    Proof.
      intros Hm. induction r as [a b|a b|set r IH]; intros Hr.
      - cbn [w_process]. unfold fo_union_first.
        pose proof (ts_union_weight nv U (tb_get m a) (tb_get first b) false (Hm a) (first_in b)) as [H1 H2].
        destruct (ts_union (tb_get m a) (tb_get first b) false) as [s ch]. cbn [fst snd] in *. split; [|split; [|done]].
        + intros k'. rewrite tb_get_insert. by case_decide.
        + apply (tb_weight_set _ _ _ _ a); [done| |].
          * intros k' ?. by rewrite tb_get_insert, decide_False.
          * by rewrite tb_get_insert, decide_True.
      - pose proof (w_follow_changed first m a b) as Hc. pose proof (w_follow_get first m a b) as Hg.
        rewrite w_follow_keep. destruct (w_process first (WFollow a b) m) as [[c keep] m']. cbn [fst snd] in *.
        pose proof (ts_union_weight nv U (tb_get m a) (tb_get m b) true (Hm a) (Hm b)) as [H1 H2].
        split; [|split; [|done]].
        + intros k. rewrite Hg. destruct (decide (k = a)) as [->|]; [|done]. by destruct (decide (a = b)).
        + apply (tb_weight_set _ _ _ _ a); [done| |].
          * intros k' ?. by rewrite Hg, decide_False.
          * rewrite Hg, decide_True by done. subst c. destruct (decide (a = b)); [lia|done].
      - cbn [w_process]. destruct (filter _ set) as [|z set'] eqn:E; [by apply IH|].
        cbn [fst snd]. split; [done|]. split; [lia|done].
    Qed.

    Lemma w_pass_weight rels m : tb_in nv U m → (∀ r, r ∈ rels → w_in r) →
      tb_in nv U (snd (w_pass first rels m)) ∧
      tb_weight U ks m + (if fst (fst (w_pass first rels m)) then 1 else 0)
        ≤ tb_weight U ks (snd (w_pass first rels m)) ∧
      (∀ r', r' ∈ snd (fst (w_pass first rels m)) → w_in r').
    Proof.
      revert m. induction rels as [|r rels IH]; intros m Hm Hr; cbn [w_pass].
      - cbn. split; [done|]. split; [lia|]. done.
      - destruct (w_process_weight r m) as (P1&P2&P3); [done|apply Hr; by left|].
        destruct (w_process first r m) as [[c keep] m1]. cbn [fst snd] in *.
        destruct (IH m1) as (I1&I2&I3); [done|intros; apply Hr; by right|].
        destruct (w_pass first rels m1) as [[c' rels'] m2]. cbn [fst snd] in *. split; [done|].
        split; [destruct c, c'; cbn; lia|].
        intros r'. intros [->|?]%elem_of_cons; auto.
    Qed.

    Lemma w_loop_fuel fuel rels m : tb_in nv U m → (∀ r, r ∈ rels → w_in r) →
      length ks * S (nv * S (size U)) < fuel + tb_weight U ks m → is_Some (w_loop fuel first rels m).
    Proof.
      revert rels m. induction fuel as [|fuel IH]; intros rels m Hm Hr Hf; cbn [w_loop].
      - pose proof (tb_weight_bound nv U ks m Hm). lia.
      - destruct (w_pass_weight rels m) as (P1&P2&P3); [done..|].
        destruct (w_pass first rels m) as [[c rels'] m1]. cbn [fst snd] in *.
        destruct c; [|by eauto]. apply IH; [done..|]. lia.
    Qed.
  End term.

  Lemma w_loop_mono fuel fuel' first rels m m' :
    w_loop fuel first rels m = Some m' → fuel ≤ fuel' → w_loop fuel' first rels m = Some m'.
  Proof.
    revert fuel' rels m. induction fuel as [|fuel IH]; intros fuel' rels m; [done|].
    destruct fuel' as [|fuel']; [lia|]. cbn [w_loop]. intros Hl Hf.
    destruct (w_pass first rels m) as [[[] rels'] m1]; [|done]. apply IH; [done|lia].
  Qed.

  Lemma w_in_if ks set r : w_in ks r → w_in ks (w_if set r).
  Proof. by destruct set. Qed.

  Lemma w_rels_in (G : grammar K) k e r : (k, e) ∈ G → r ∈ w_rels (k, e) → w_in (reg_syms G) r.
  Proof.
    intros Hin. pose proof (λ y, reg_syms_comp G k e y Hin) as Hc.
    destruct e as [|ty lit|l|l]; cbn [w_rels]; [by intros ?%elem_of_nil..| |].
    - revert r. apply w_build_seq_forall.
      { intros s s' r _. destruct s, s'; done. }
      cbn [comps] in Hc. split.
      + intros l1 y l2 ->. apply w_in_if. cbn. apply Hc. set_solver.
      + intros l1 a b l2 ->. cbn. apply Hc. set_solver.
    - unfold w_build_union. rewrite elem_of_list_In, in_map_iff. intros (y&<-&Hy).
      apply elem_of_list_In in Hy. cbn. by apply Hc.
  Qed.

  Lemma follow_build_some (G : grammar K) first root :
    tb_in (reg_nv G) (reg_lits G) first → ∃ m, follow_build G first root = Some m.
  Proof.
    intros Hf. unfold follow_build.
    apply (w_loop_fuel (reg_nv G) (reg_lits G) (root :: reg_syms G)); [done|..].
    - intros k. rewrite tb_get_insert. case_decide; [|rewrite tb_get_nil; apply ts_new_in].
      split; cbn; [lia|constructor].
    - intros r (k&e&H1&H2)%(elem_of_all_wrels G). pose proof (w_rels_in _ _ _ _ H1 H2) as H3.
      clear -H3. induction r; cbn in *; [by right..|auto].
    - unfold table_fuel. cbn [length]. lia.
  Qed.

  Lemma follow_build_exact (G : grammar K) first root m :
    (∀ k t, ts_contains (tb_get first k) t = true ↔ fder G k t) →
    follow_build G first root = Some m →
    ∀ k t, ts_contains (tb_get m k) t = true ↔ near_follow G root k t.
  Proof. intros H. by apply w_loop_exact. Qed.

  (** * Derivational meaning *)
  Section derive.
    Variable (G : grammar K) (root : K).

    Lemma reachable_root : reachable G root root.
    Proof. by exists [], []. Qed.
    Lemma derives_step_in α k γ β : rhs G k γ →
      derives G [N root] (α ++ N k :: β) → derives G [N root] (α ++ γ ++ β).
    Proof. intros Hr H. etrans; [done|]. apply rtc_once. by constructor. Qed.
    Lemma reachable_comp k e y : reachable G root k → (k, e) ∈ G → y ∈ comps e → reachable G root y.
    Proof.
      intros (α&β&H) Hin Hy. destruct e as [|ty lit|l|l]; cbn in Hy; [by apply elem_of_nil in Hy..| |].
      - apply elem_of_list_split in Hy as (l1&l2&->).
        exists (α ++ map N l1), (map N l2 ++ β).
        pose proof (derives_step_in α k _ β (rhs_seq G k _ Hin) H) as H'.
        rewrite map_app in H'. cbn in H'. by rewrite <-!app_assoc in *.
      - exists α, β. apply (derives_step_in α k [N y] β); [by econstructor|done].
    Qed.

    Lemma near_follow_follows k t : all_reachable G root → near_follow G root k t → follows G root k t.
    Proof.
      intros Hall. induction 1 as [|x l1 a b l2 t Hin Hst|x l1 a l2 t Hin Hn _ IH|x l y t Hin Hy _ IH].
      - by exists [].
      - destruct (Hall _ _ Hin) as (α&β&H). destruct Hst as [δ Hd].
        pose proof (derives_step_in α x _ β (rhs_seq G x _ Hin) H) as H'.
        exists (α ++ map N l1), (δ ++ map N l2 ++ β). etrans; [exact H'|].
        rewrite map_app. cbn. rewrite <-!app_assoc. cbn.
        do 2 apply derives_app_l. apply (derives_app_l G _ _ [N a]).
        apply (derives_app_r G [N b] (T t :: δ) (map N l2 ++ β) Hd).
      - assert (derives G (map N l2) []) as Hn' by by apply nulf_derives, nulf_map.
        destruct t as [t|]; cbn in *.
        + destruct IH as (α&β&H). exists (α ++ map N l1), β.
          pose proof (derives_step_in α x _ (T t :: β) (rhs_seq G x _ Hin) H) as H'.
          etrans; [exact H'|]. rewrite map_app. cbn. rewrite <-!app_assoc. cbn.
          do 2 apply derives_app_l. apply (derives_app_l G _ _ [N a]).
          apply (derives_app_r G (map N l2) [] (T t :: β) Hn').
        + destruct IH as (α&H). exists (α ++ map N l1).
          pose proof (derives_step_in α x _ [] (rhs_seq G x _ Hin) H) as H'.
          etrans; [exact H'|]. rewrite map_app, app_nil_r. cbn. rewrite <-!app_assoc.
          do 2 apply derives_app_l. by apply (derives_app_l G _ [] [N a]).
      - assert (rhs G x [N y]) as Hr by by econstructor.
        destruct t as [t|]; cbn in *.
        + destruct IH as (α&β&H). exists α, β. by apply (derives_step_in α x [N y]).
        + destruct IH as (α&H). exists α. by apply (derives_step_in α x [N y] []).
    Qed.

    (** Sets of followers closed under the textbook rules. *)
    Record fol_closed (F : K → option tok → Prop) : Prop := FolClosed {
      fc_root : F root None;
      fc_next : ∀ x l1 a (m : list K) b l2 t, (x, ESeq (l1 ++ a :: m ++ b :: l2)) ∈ G → Forall (nullable G) m →
        starts G b t → F a (Some t);
      fc_last : ∀ x l1 a l2 t, (x, ESeq (l1 ++ a :: l2)) ∈ G → Forall (nullable G) l2 → F x t → F a t;
      fc_union : ∀ x l y t, (x, EUnion l) ∈ G → y ∈ l → F x t → F y t }.

    (** Splitting [N y] out of a concatenation. *)
    Lemma app_split (α β α' β' : list (sym K)) s :
      α ++ β = α' ++ s :: β' →
      (∃ l, α = α' ++ s :: l ∧ β' = l ++ β) ∨ (∃ l, α' = α ++ l ∧ β = l ++ s :: β').
    Proof.
      revert α'. induction α as [|a α IH]; intros α' E.
      - right. by exists α'.
      - destruct α' as [|a' α']; cbn in E; injection E as -> E.
        + left. by exists α.
        + destruct (IH _ E) as [(l&->&->)|(l&->&->)]; [left; by exists l|right; by exists l].
    Qed.

    Section closed.
      Variable F : K → option tok → Prop.
      Hypothesis HF : fol_closed F.
      (** What each symbol of a form is followed by, by derivation, is in [F]. *)
      Definition fol_ok (δ : list (sym K)) : Prop :=
        ∀ α k β, δ = α ++ N k :: β →
          (∀ t, fstf G β t → F k (Some t)) ∧ (nulf G β → F k None).

      Lemma fol_ok_step δ δ' : fol_ok δ → step G δ δ' → fol_ok δ'.
      Proof using HF.
        intros Hok Hst. destruct Hst as [α x γ β Hr]. intros α' k β' E.
        apply app_split in E as [(l&->&->)|(l&->&E)].
        - (* before the rewritten symbol *)
          destruct (Hok α' k (l ++ N x :: β)) as [H1 H2]; [by rewrite <-app_assoc|].
          assert (step G (l ++ N x :: β) (l ++ γ ++ β)) by by constructor.
          split; [intros t Ht; apply H1|intros Hn; apply H2]; [by eapply step_fstf|by eapply step_nulf].
        - apply app_split in E as [(l'&Eg&->)|(l'&->&->)].
          + (* inside the right hand side *)
            destruct (Hok α x β eq_refl) as [H1 H2].
            assert ((∀ t, fstf G l' t → F k (Some t)) ∧ (nulf G l' → ∀ t, F x t → F k t)) as [H3 H4].
            { destruct Hr as [x Hin|x ty lit t Hin Hc|x ys Hin|x ys y Hin Hy].
              - by destruct l.
              - by destruct l as [|? []].
              - apply fmap_app_inv in Eg as (l1&l2&->&E3&->).
                destruct l2 as [|z l2]; [done|]. cbn in E3. injection E3 as Ek ->. subst z. split.
                + intros t. change (fstf G (map N l2) t → F k (Some t)).
                  rewrite fstf_map. intros (m1&b&m2&->&Hm1&Hb). by eapply fc_next.
                + change (nulf G (map N l2) → ∀ t, F x t → F k t).
                  rewrite nulf_map. intros Hn t Ht. by eapply fc_last.
              - destruct l as [|? []]; simplify_list_eq. split; [intros t Ht; inversion Ht|].
                intros _ t Ht. by eapply fc_union. }
            split.
            * intros t [Ht|[Hn Ht]]%fstf_app; [by apply H3|]. apply H4; [done|]. by apply H1.
            * intros [Hn Hn']%nulf_app. apply H4; [done|]. by apply H2.
          + (* after it *)
            apply (Hok (α ++ N x :: l') k β'). by rewrite <-app_assoc.
      Qed.

      Lemma fol_ok_derives δ : derives G [N root] δ → fol_ok δ.
      Proof using HF.
        revert δ. apply (rtc_ind_r fol_ok).
        - intros α k β E. destruct α as [|? []]; simplify_list_eq. split.
          + intros t Ht. inversion Ht.
          + intros _. by apply fc_root.
        - intros δ δ' _ Hst Hok. by eapply fol_ok_step.
      Qed.

      Lemma follows_closed k t : follows G root k t → F k t.
      Proof using HF.
        destruct t as [t|]; cbn.
        - intros (α&β&H). apply fol_ok_derives in H. destruct (H _ _ _ eq_refl) as [H1 _].
          apply H1. constructor.
        - intros (α&H). apply fol_ok_derives in H. destruct (H _ _ _ eq_refl) as [_ H1].
          apply H1. constructor.
      Qed.
    End closed.

    Lemma near_closed : no_nullable_interior G → fol_closed (near_follow G root).
    Proof.
      intros Hni. split.
      - constructor.
      - intros x l1 a m b l2 t Hin Hm Hb. destruct m as [|c m]; [by eapply nf_next|].
        inversion Hm as [|? ? Hc]; subst. exfalso.
        apply (Hni x (l1 ++ a :: (c :: m) ++ b :: l2) (S (length l1)) c Hin); [..|done].
        + rewrite lookup_app_r by lia. by replace (S (length l1) - length l1) with 1 by lia.
        + lia.
        + rewrite app_length. cbn. rewrite app_length. cbn. lia.
      - intros. by eapply nf_last.
      - intros. by eapply nf_union.
    Qed.
    Lemma follows_near k t : no_nullable_interior G → follows G root k t → near_follow G root k t.
    Proof. intros Hni. by apply follows_closed, near_closed. Qed.

    Lemma far_closed : fol_closed (far_follow G root).
    Proof. split; [constructor|intros; by eapply ff_next|intros; by eapply ff_last|intros; by eapply ff_union]. Qed.
    Lemma follows_far k t : all_reachable G root → follows G root k t ↔ far_follow G root k t.
    Proof.
      intros Hall. split; [apply follows_closed, far_closed|].
      induction 1 as [|x l1 a m b l2 t Hin Hm Hst|x l1 a l2 t Hin Hn _ IH|x l y t Hin Hy _ IH].
      - by exists [].
      - destruct (Hall _ _ Hin) as (α&β&H). destruct Hst as [δ Hd].
        assert (derives G (map N m) []) as Hm' by by apply nulf_derives, nulf_map.
        pose proof (derives_step_in α x _ β (rhs_seq G x _ Hin) H) as H'.
        exists (α ++ map N l1), (δ ++ map N l2 ++ β). etrans; [exact H'|].
        rewrite map_app. cbn. rewrite map_app. cbn. rewrite <-!app_assoc. cbn. rewrite <-!app_assoc. cbn.
        do 2 apply derives_app_l. apply (derives_app_l G _ _ [N a]).
        etrans; [apply (derives_app_r G (map N m) [] (N b :: map N l2 ++ β) Hm')|].
        apply (derives_app_r G [N b] (T t :: δ) (map N l2 ++ β) Hd).
      - assert (derives G (map N l2) []) as Hn' by by apply nulf_derives, nulf_map.
        destruct t as [t|]; cbn in *.
        + destruct IH as (α&β&H). exists (α ++ map N l1), β.
          pose proof (derives_step_in α x _ (T t :: β) (rhs_seq G x _ Hin) H) as H'.
          etrans; [exact H'|]. rewrite map_app. cbn. rewrite <-!app_assoc. cbn.
          do 2 apply derives_app_l. apply (derives_app_l G _ _ [N a]).
          apply (derives_app_r G (map N l2) [] (T t :: β) Hn').
        + destruct IH as (α&H). exists (α ++ map N l1).
          pose proof (derives_step_in α x _ [] (rhs_seq G x _ Hin) H) as H'.
          etrans; [exact H'|]. rewrite map_app, app_nil_r. cbn. rewrite <-!app_assoc.
          do 2 apply derives_app_l. by apply (derives_app_l G _ [] [N a]).
      - assert (rhs G x [N y]) as Hr by by econstructor.
        destruct t as [t|]; cbn in *.
        + destruct IH as (α&β&H). exists α, β. by apply (derives_step_in α x [N y]).
        + destruct IH as (α&H). exists α. by apply (derives_step_in α x [N y] []).
    Qed.
  End derive.
End facts.
