(** FIRST construction: termination and exactness. *)
From Coq Require Import String.
From stdpp Require Import prelude list gmap strings relations.
From Verif Require Import SynSetModel SynSetFacts TableModel CfgSpec CfgFacts.
Local Open Scope nat_scope.
#[local] Arguments ts_contains : simpl never.
#[local] Arguments tb_get : simpl never.
#[local] Arguments ts_union : simpl never.
#[local] Arguments ts_insert : simpl never.

Section facts.
  Context {K : Type} `{EqDecision K}.
  Implicit Types (m : table K) (k a b x y : K).

  (** * Association lists *)
  Lemma bt_get_remove {V} (m : list (K * V)) k k' :
    bt_get (bt_remove m k) k' = if decide (k' = k) then None else bt_get m k'.
  Proof.
    induction m as [|[k0 v] m IH]; cbn [bt_remove bt_get].
    - by case_decide.
    - destruct (decide (k = k0)) as [->|Hne].
      + rewrite IH. repeat case_decide; congruence.
      + cbn [bt_get]. rewrite IH. repeat case_decide; congruence.
  Qed.
  Lemma bt_get_insert {V} (m : list (K * V)) k v k' :
    bt_get (bt_insert m k v) k' = if decide (k' = k) then Some v else bt_get m k'.
  Proof. unfold bt_insert. cbn [bt_get]. rewrite bt_get_remove. by case_decide. Qed.
  Lemma tb_get_insert m k s k' :
    tb_get (bt_insert m k s) k' = if decide (k' = k) then s else tb_get m k'.
  Proof. unfold tb_get. rewrite bt_get_insert. by case_decide. Qed.
  Lemma tb_get_nil k : tb_get ([] : table K) k = ts_new.
  Proof. done. Qed.

  Lemma bt_get_in {V} (m : list (K * V)) k v : bt_get m k = Some v → (k, v) ∈ m.
  Proof.
    induction m as [|[k0 v0] m IH]; cbn [bt_get]; [done|]. case_decide; intros H'.
    - simplify_eq. by left.
    - right. by apply IH.
  Qed.
  Lemma bt_get_nodup {V} (m : list (K * V)) k v : NoDup m.*1 → (k, v) ∈ m → bt_get m k = Some v.
  Proof.
    induction m as [|[k0 v0] m IH]; cbn [bt_get fmap list_fmap]; intros Hn Hin.
    - by apply elem_of_nil in Hin.
    - apply NoDup_cons in Hn as [Hn1 Hn2]. apply elem_of_cons in Hin as [[= -> ->]|Hin].
      + by rewrite decide_True.
      + rewrite decide_False; [by apply IH|]. intros ->. apply Hn1. by apply (elem_of_list_fmap_1 fst) in Hin.
  Qed.

  Lemma bs_mem_true s k : bs_mem s k = true ↔ k ∈ s.
  Proof. apply bool_decide_eq_true. Qed.
  Lemma bs_mem_false s k : bs_mem s k = false ↔ k ∉ s.
  Proof. apply bool_decide_eq_false. Qed.
  Lemma elem_of_bs_insert s k x : x ∈ bs_insert s k ↔ x = k ∨ x ∈ s.
  Proof.
    unfold bs_insert. destruct (bs_mem s k) eqn:E.
    - apply bs_mem_true in E. naive_solver.
    - rewrite elem_of_app, elem_of_list_singleton. naive_solver.
  Qed.
  Lemma elem_of_bs_remove s k x : x ∈ bs_remove s k ↔ x ≠ k ∧ x ∈ s.
  Proof. unfold bs_remove. by rewrite elem_of_list_filter. Qed.

  Lemma tb_null_get m k : tb_null m k = ts_contains (tb_get m k) None.
  Proof. unfold tb_null, tb_get. by destruct (bt_get m k). Qed.

  (** * Order on tables *)
  Definition tb_sub m m' : Prop := ∀ k, ts_sub (tb_get m k) (tb_get m' k).
  Definition tb_same m m' : Prop := ∀ k, ts_same (tb_get m k) (tb_get m' k).
  #[export] Instance tb_sub_preorder : PreOrder tb_sub.
  Proof. split; [by intros m k|]. intros m1 m2 m3 H1 H2 k. by rewrite (H1 k). Qed.

  Lemma tb_sub_insert m k s : ts_sub (tb_get m k) s → tb_sub m (bt_insert m k s).
  Proof. intros H k'. rewrite tb_get_insert. by case_decide; subst. Qed.

  (** [UnionMinusEpsilon] in plain form. *)
  Lemma f_union_get m a b k :
    tb_get (snd (f_process (FUnion a b) m)) k =
      if decide (k = a) then
        (if decide (a = b) then tb_get m a else fst (fs_union_minus_eps (tb_get m a) (tb_get m b)))
      else tb_get m k.
  Proof.
    cbn [f_process]. rewrite bt_get_remove. unfold tb_get.
    destruct (decide (b = a)) as [->|Hne].
    - cbn [snd]. rewrite bt_get_insert, bt_get_remove, (decide_True (P:=a=a)) by done.
      by repeat case_decide.
    - rewrite (decide_False (P:=a=b)) by done.
      destruct (bt_get m b) as [s|].
      + cbn [default id]. destruct (fs_union_minus_eps _ s) as [u ch]. cbn [snd fst].
        rewrite bt_get_insert, bt_get_remove. by repeat case_decide.
      + cbn [snd default]. rewrite bt_get_insert, bt_get_remove.
        case_decide; [|by repeat case_decide]. cbn [default id]. unfold fs_union_minus_eps. rewrite ts_union_unfold.
        cbn [ts_new ts_map ts_e fst]. rewrite lm_union_nil_r, orb_false_r. cbn [fst]. by destruct (default ts_new (bt_get m a)).
  Qed.
  Lemma f_union_changed m a b :
    fst (fst (f_process (FUnion a b) m)) =
      if decide (a = b) then false else snd (fs_union_minus_eps (tb_get m a) (tb_get m b)).
  Proof.
    cbn [f_process]. rewrite bt_get_remove.
    destruct (decide (b = a)) as [->|Hne].
    - by rewrite decide_True.
    - rewrite (decide_False (P:=a=b)) by done. unfold tb_get.
      destruct (bt_get m b) as [s|].
      + cbn [default id]. by destruct (fs_union_minus_eps _ s).
      + unfold fs_union_minus_eps. rewrite ts_union_unfold. cbn [default ts_new ts_map ts_e fst snd].
        by rewrite lm_union_nil_r.
  Qed.

  (** * Semantics of relations against a table *)
  Fixpoint f_sat m (r : frel K) : Prop :=
    match r with
    | FInsE k => ts_contains (tb_get m k) None = true
    | FInsT k ty lit => ∀ t, covers ty lit t → ts_contains (tb_get m k) (Some t) = true
    | FUnion a b => ∀ t, ts_contains (tb_get m b) (Some t) = true → ts_contains (tb_get m a) (Some t) = true
    | FIf set inner => (∀ y, y ∈ set → ts_contains (tb_get m y) None = true) → f_sat m inner
    end.

  Lemma f_sat_same m m' r : tb_same m m' → f_sat m r → f_sat m' r.
  Proof.
    intros Hs. induction r as [k|k ty lit|a b|set r IH]; cbn.
    - by rewrite (Hs k None).
    - intros H t Ht. rewrite <-(Hs k (Some t)). auto.
    - intros H t. rewrite <-(Hs a (Some t)), <-(Hs b (Some t)). auto.
    - intros H Hy. apply IH, H. intros y ?. rewrite (Hs y None). auto.
  Qed.

  Lemma covers_dec ty lit t :
    bool_decide (fst t = ty ∧ (lit = None ∨ lit = Some (snd t))) = true ↔ covers ty lit t.
  Proof. rewrite bool_decide_eq_true. done. Qed.

  Lemma insert_covers s ty lit t :
    ts_contains (fst (ts_insert s ty lit)) (Some t) = true ↔
    covers ty lit t ∨ ts_contains s (Some t) = true.
  Proof.
    rewrite ts_contains_insert. destruct t as [ty' src]. rewrite orb_true_iff, bool_decide_eq_true.
    unfold covers. cbn. done.
  Qed.

  Lemma f_process_spec r m :
    let c := fst (fst (f_process r m)) in
    let keep := snd (fst (f_process r m)) in
    let m' := snd (f_process r m) in
    tb_sub m m' ∧
    (c = false → tb_same m m' ∧ f_sat m' r) ∧
    (∀ m'', tb_sub m' m'' → (∀ r', keep = Some r' → f_sat m'' r') → f_sat m'' r).
  Proof.
    induction r as [k|k ty lit|a b|set r IH].
    - cbn [f_process]. pose proof (ts_insert_e_changed (tb_get m k)) as Hc.
      pose proof (ts_contains_insert_e (tb_get m k)) as Hi.
      destruct (ts_insert_e (tb_get m k)) as [s ch]. cbn [fst snd] in *.
      assert (ts_sub (tb_get m k) s) as Hsub.
      { intros t Ht. rewrite Hi, Ht. by rewrite orb_true_r. }
      split; [by apply tb_sub_insert|]. split.
      + intros ->. assert (ts_contains (tb_get m k) None = true) as Hn.
        { destruct (ts_contains (tb_get m k) None) eqn:E; [done|]. destruct Hc as [_ Hc]. by specialize (Hc eq_refl). }
        split.
        * intros k' t. rewrite tb_get_insert. case_decide; [|done]. subst. rewrite Hi.
          case_bool_decide; [by subst|done].
        * cbn. rewrite tb_get_insert, decide_True, Hi by done. by rewrite bool_decide_true.
      + intros m'' Hm _. cbn. apply Hm. rewrite tb_get_insert, decide_True, Hi by done.
        by rewrite bool_decide_true.
    - cbn [f_process]. pose proof (ts_insert_changed (tb_get m k) ty lit) as Hc.
      pose proof (ts_contains_insert (tb_get m k) ty lit) as Hi0.
      pose proof (insert_covers (tb_get m k) ty lit) as Hi.
      destruct (ts_insert (tb_get m k) ty lit) as [s ch]. cbn [fst snd] in *.
      assert (ts_sub (tb_get m k) s) as Hsub.
      { intros [t|] Ht; [apply Hi; by right|]. by rewrite Hi0. }
      split; [by apply tb_sub_insert|]. split.
      + intros ->.
        assert (∀ t, covers ty lit t → ts_contains (tb_get m k) (Some t) = true) as Hn.
        { intros [ty' src] [E Hcov]. cbn in E, Hcov. subst ty'.
          destruct (ts_contains (tb_get m k) (Some (ty, src))) eqn:E; [done|]. destruct Hc as [_ Hc].
          discriminate Hc. eauto. }
        split.
        * intros k' t. rewrite tb_get_insert. case_decide; [|done]. subst.
          destruct t as [t|]; [|by rewrite Hi0].
          apply eq_bool_prop_intro. rewrite !Is_true_true. rewrite Hi. naive_solver.
        * cbn. intros t Ht. rewrite tb_get_insert, decide_True by done. apply Hi. by left.
      + intros m'' Hm _. cbn. intros t Ht. apply Hm. rewrite tb_get_insert, decide_True by done.
        apply Hi. by left.
    - pose proof (f_union_changed m a b) as Hc. pose proof (f_union_get m a b) as Hg.
      assert (snd (fst (f_process (FUnion a b) m)) = Some (FUnion a b)) as Hk.
      { cbn [f_process]. by destruct (match _ with Some _ => _ | None => _ end). }
      rewrite Hk. destruct (f_process (FUnion a b) m) as [[c keep] m']. cbn [fst snd] in *.
      assert (tb_sub m m') as Hsub.
      { intros k. rewrite Hg. destruct (decide (k = a)) as [->|]; [|reflexivity]. destruct (decide (a = b)); [reflexivity|apply ts_sub_union]. }
      split; [done|]. split.
      + intros ->. destruct (decide (a = b)) as [<-|Hne].
        * split; [|cbn; auto]. intros k t. rewrite Hg. by case_decide; subst.
        * assert (∀ t, ts_contains (tb_get m b) (Some t) = true → ts_contains (tb_get m a) (Some t) = true) as Hu.
          { intros t Ht. destruct (ts_contains (tb_get m a) (Some t)) eqn:E; [done|].
            symmetry in Hc. apply not_true_iff_false in Hc. destruct Hc. apply ts_union_changed. exists (Some t). done. }
          assert (tb_same m m') as Hsame.
          { intros k t. rewrite Hg. case_decide; [|done]. subst. unfold fs_union_minus_eps. rewrite ts_contains_union.
            destruct t as [t|]; [|by rewrite orb_false_r]. cbn.
            apply eq_bool_prop_intro. rewrite !Is_true_true, orb_true_iff. naive_solver. }
          split; [done|]. by apply (f_sat_same m).
      + intros m'' _ H. by apply H.
    - cbn [f_process]. destruct (filter _ set) as [|z set'] eqn:E.
      + destruct (f_process r m) as [[c keep] m']. cbn [fst snd] in *.
        destruct IH as (H1&H2&H3). split; [done|]. split.
        * intros Hc. destruct (H2 Hc). split; [done|]. cbn. auto.
        * intros m'' Hm Hk. cbn. intros _. by apply H3.
      + cbn [fst snd]. split; [done|].
        assert (∃ y, y ∈ set ∧ ts_contains (tb_get m y) None = false) as (y&Hy1&Hy2).
        { exists z. assert (z ∈ filter (λ t, tb_null m t = false) set) as Hz by (rewrite E; by left).
          apply elem_of_list_filter in Hz as [Hz ?]. by rewrite <-tb_null_get. }
        split.
        * intros _. split; [done|]. cbn. intros Hall. specialize (Hall y Hy1). congruence.
        * intros m'' Hm Hk. cbn. intros Hall. specialize (Hk _ eq_refl). cbn in Hk. apply Hk.
          intros y' Hy'. apply Hall. rewrite <-E in Hy'. by apply elem_of_list_filter in Hy' as [_ ?].
  Qed.

  Lemma f_pass_spec rels m :
    let c := fst (fst (f_pass rels m)) in
    let rels' := snd (fst (f_pass rels m)) in
    let m' := snd (f_pass rels m) in
    tb_sub m m' ∧
    (c = false → tb_same m m' ∧ ∀ r, r ∈ rels → f_sat m' r) ∧
    (∀ m'', tb_sub m' m'' → (∀ r', r' ∈ rels' → f_sat m'' r') → ∀ r, r ∈ rels → f_sat m'' r).
  Proof.
    revert m. induction rels as [|r rels IH]; intros m; cbn [f_pass].
    - cbn. split; [done|]. split.
      + intros _. split; [done|]. intros r Hr. by apply elem_of_nil in Hr.
      + intros m'' _ _ r Hr. by apply elem_of_nil in Hr.
    - pose proof (f_process_spec r m) as Hp. destruct (f_process r m) as [[c keep] m1].
      specialize (IH m1). destruct (f_pass rels m1) as [[c' rels'] m2]. cbn [fst snd] in *.
      destruct Hp as (P1&P2&P3), IH as (I1&I2&I3). split; [by etrans|]. split.
      + intros [-> ->]%orb_false_iff. destruct (P2 eq_refl) as [P4 P5], (I2 eq_refl) as [I4 I5].
        split.
        * intros k t. by rewrite (P4 k t), (I4 k t).
        * intros r' [->|Hr']%elem_of_cons; [by eapply f_sat_same|auto].
      + intros m'' Hm Hall r' [->|Hr']%elem_of_cons.
        * apply P3; [by etrans|]. intros r'' ->. apply Hall. by left.
        * apply I3; [done| |done]. intros r'' Hr''. apply Hall. destruct keep; [by right|done].
  Qed.

  Lemma f_loop_sat fuel rels m m' :
    f_loop fuel rels m = Some m' → tb_sub m m' ∧ ∀ r, r ∈ rels → f_sat m' r.
  Proof.
    revert rels m. induction fuel as [|fuel IH]; intros rels m; cbn [f_loop]; [done|].
    pose proof (f_pass_spec rels m) as Hp. destruct (f_pass rels m) as [[c rels'] m1]. cbn [fst snd] in *.
    destruct Hp as (P1&P2&P3). destruct c.
    - intros Hl. destruct (IH _ _ Hl) as [I1 I2]. split; [by etrans|]. by apply P3.
    - intros [= <-]. split; [done|]. by apply P2.
  Qed.

  (** * Soundness *)
  Section sound.
    Variable G : grammar K.
    Definition fder k (t : option tok) : Prop :=
      match t with Some t => starts G k t | None => nullable G k end.
    Definition tb_sound m : Prop := ∀ k t, ts_contains (tb_get m k) t = true → fder k t.
    Fixpoint f_valid (r : frel K) : Prop :=
      match r with
      | FInsE k => nullable G k
      | FInsT k ty lit => ∀ t, covers ty lit t → starts G k t
      | FUnion a b => ∀ t, starts G b t → starts G a t
      | FIf set inner => (∀ y, y ∈ set → nullable G y) → f_valid inner
      end.

    Lemma f_process_sound r m : tb_sound m → f_valid r →
      tb_sound (snd (f_process r m)) ∧ (∀ r', snd (fst (f_process r m)) = Some r' → f_valid r').
    Proof.
      intros Hm. induction r as [k|k ty lit|a b|set r IH]; intros Hr.
      - cbn [f_process]. pose proof (ts_contains_insert_e (tb_get m k)) as Hi.
        destruct (ts_insert_e (tb_get m k)) as [s ch]. cbn [fst snd] in *. split; [|done].
        intros k' t. rewrite tb_get_insert. case_decide; [|apply Hm]. subst. rewrite Hi.
        case_bool_decide; [by subst|]. apply Hm.
      - cbn [f_process]. pose proof (ts_contains_insert (tb_get m k) ty lit) as Hi0.
        pose proof (insert_covers (tb_get m k) ty lit) as Hi.
        destruct (ts_insert (tb_get m k) ty lit) as [s ch]. cbn [fst snd] in *. split; [|done].
        intros k' t. rewrite tb_get_insert. case_decide; [|apply Hm]. subst.
        destruct t as [t|]; [|rewrite Hi0; apply Hm]. rewrite Hi. intros [?|?]; [by apply Hr|by apply Hm].
      - pose proof (f_union_get m a b) as Hg.
        assert (snd (fst (f_process (FUnion a b) m)) = Some (FUnion a b)) as Hk.
        { cbn [f_process]. by destruct (match _ with Some _ => _ | None => _ end). }
        rewrite Hk. split; [|by intros ? [= <-]].
        intros k t. rewrite Hg. destruct (decide (k = a)) as [->|]; [|apply Hm].
        destruct (decide (a = b)); [apply Hm|].
        unfold fs_union_minus_eps. rewrite ts_contains_union, orb_true_iff, andb_true_iff.
        intros [?|[? Ht]]; [by apply Hm|]. destruct t as [t|]; [|done]. apply Hr. by apply (Hm b (Some t)).
      - cbn [f_process]. destruct (filter _ set) as [|z set'] eqn:E.
        + apply IH. apply Hr. intros y Hy. apply (Hm y None). rewrite <-tb_null_get.
          destruct (tb_null m y) eqn:En; [done|].
          assert (y ∈ filter (λ t, tb_null m t = false) set) as Hin by by apply elem_of_list_filter.
          rewrite E in Hin. by apply elem_of_nil in Hin.
        + cbn [fst snd]. split; [done|]. intros r' [= <-]. cbn. intros Hy. apply Hr. intros y Hy'.
          destruct (tb_null m y) eqn:En.
          * rewrite tb_null_get in En. by apply (Hm y None).
          * apply Hy. rewrite <-E. by apply elem_of_list_filter.
    Qed.

    Lemma f_pass_sound rels m : tb_sound m → (∀ r, r ∈ rels → f_valid r) →
      tb_sound (snd (f_pass rels m)) ∧ (∀ r, r ∈ snd (fst (f_pass rels m)) → f_valid r).
    Proof.
      revert m. induction rels as [|r rels IH]; intros m Hm Hr; cbn [f_pass].
      - split; [done|]. cbn. intros r Hin. by apply elem_of_nil in Hin.
      - destruct (f_process_sound r m) as [P1 P2]; [done|apply Hr; by left|].
        destruct (f_process r m) as [[c keep] m1]. cbn [fst snd] in *.
        destruct (IH m1) as [I1 I2]; [done|intros; apply Hr; by right|].
        destruct (f_pass rels m1) as [[c' rels'] m2]. cbn [fst snd] in *. split; [done|].
        intros r'. destruct keep as [r0|]; [|auto]. intros [->|?]%elem_of_cons; auto.
    Qed.

    Lemma f_loop_sound fuel rels m m' : tb_sound m → (∀ r, r ∈ rels → f_valid r) →
      f_loop fuel rels m = Some m' → tb_sound m'.
    Proof.
      revert rels m. induction fuel as [|fuel IH]; intros rels m Hm Hr; cbn [f_loop]; [done|].
      destruct (f_pass_sound rels m) as [P1 P2]; [done..|].
      destruct (f_pass rels m) as [[c rels'] m1]. cbn [fst snd] in *.
      destruct c; [by apply IH|by intros [= <-]].
    Qed.

    (** * What the registered relations mean *)
    Lemma f_if_sat set r m :
      f_sat m (f_if set r) ↔ ((∀ y, y ∈ set → ts_contains (tb_get m y) None = true) → f_sat m r).
    Proof.
      destruct set; [|done]. cbn. split; [auto|]. intros H. apply H. intros y Hy. by apply elem_of_nil in Hy.
    Qed.
    Lemma f_if_valid set r :
      f_valid (f_if set r) ↔ ((∀ y, y ∈ set → nullable G y) → f_valid r).
    Proof.
      destruct set; [|done]. cbn. split; [auto|]. intros H. apply H. intros y Hy. by apply elem_of_nil in Hy.
    Qed.

    Lemma f_build_seq_loop_forall (P : frel K → Prop) x set ys :
      (∀ s s' r, (∀ z, z ∈ s ↔ z ∈ s') → P (f_if s r) → P (f_if s' r)) →
      (∀ r, r ∈ f_build_seq_loop x set ys → P r) ↔
      (∀ l1 y l2, ys = l1 ++ y :: l2 → P (f_if (set ++ l1) (FUnion x y))) ∧
      P (f_if (set ++ ys) (FInsE x)).
    Proof.
      intros HP. revert set. induction ys as [|y ys IH]; intros set; cbn [f_build_seq_loop].
      - rewrite app_nil_r. split.
        + intros H. split; [intros [] ?? ?; done|]. apply H. by left.
        + intros [_ H] r. rewrite elem_of_list_singleton. by intros ->.
      - assert ((∀ r, r ∈ f_if set (FUnion x y) :: f_build_seq_loop x (bs_insert set y) ys → P r) ↔
          P (f_if set (FUnion x y)) ∧ ∀ r, r ∈ f_build_seq_loop x (bs_insert set y) ys → P r) as ->.
        { setoid_rewrite elem_of_cons. naive_solver. }
        rewrite IH.
        assert (∀ l z, z ∈ bs_insert set y ++ l ↔ z ∈ set ++ y :: l) as Hz.
        { intros l z. rewrite !elem_of_app, elem_of_bs_insert, elem_of_cons. tauto. }
        split.
        + intros (H1&H2&H3). split.
          * intros l1 y' l2 E. destruct l1 as [|z l1]; simplify_list_eq.
            -- by rewrite ?app_nil_r.
            -- eapply HP; [apply Hz|]. by eapply H2.
          * eapply HP; [apply Hz|done].
        + intros (H1&H2). split; [|split].
          * specialize (H1 [] y ys eq_refl). by rewrite app_nil_r in H1.
          * intros l1 y' l2 ->. eapply HP; [intros z; symmetry; apply Hz|]. by apply (H1 (y :: l1) y' l2).
          * eapply HP; [intros z; symmetry; apply Hz|done].
    Qed.
  End sound.

  (** * Exactness *)
  Section exact.
    Variable G : grammar K.

    Lemma f_rels_valid k e r : (k, e) ∈ G → r ∈ f_rels (k, e) → f_valid G r.
    Proof.
      intros Hin. destruct e as [|ty lit|l|l]; cbn [f_rels].
      - rewrite elem_of_list_singleton. intros ->. cbn. apply nullable_unfold. by left.
      - rewrite elem_of_list_singleton. intros ->. cbn. intros t Ht. apply starts_unfold. left. eauto.
      - revert r. unfold f_build_seq. apply f_build_seq_loop_forall.
        { intros s s' r Hs. rewrite !f_if_valid. intros H1 H2. apply H1. intros y Hy. by apply H2, Hs. }
        cbn [app]. split.
        + intros l1 y l2 ->. apply f_if_valid. intros Hn t Ht. apply starts_unfold. right; left.
          exists (l1 ++ y :: l2), l1, y, l2. rewrite Forall_forall. auto.
        + apply f_if_valid. intros Hn. cbn. apply nullable_unfold. right; left. exists l.
          by rewrite Forall_forall.
      - unfold f_build_union. rewrite elem_of_list_In, in_flat_map. intros (y&Hy&Hr).
        apply elem_of_list_In in Hy, Hr. rewrite elem_of_cons, elem_of_list_singleton in Hr.
        destruct Hr as [->| ->].
        + cbn. intros t Ht. apply starts_unfold. right; right. eauto.
        + cbn. intros Hn. apply nullable_unfold. right; right. exists l, y. split; [done|]. split; [done|].
          apply Hn. by left.
    Qed.

    Definition all_rels : list (frel K) := flat_map f_rels G.
    Lemma elem_of_all_rels r : r ∈ all_rels ↔ ∃ k e, (k, e) ∈ G ∧ r ∈ f_rels (k, e).
    Proof.
      unfold all_rels. rewrite elem_of_list_In, in_flat_map. split.
      - intros ([k e]&H1%elem_of_list_In&H2%elem_of_list_In). eauto.
      - intros (k&e&H1&H2). exists (k, e). by rewrite <-!elem_of_list_In.
    Qed.

    Lemma sat_complete m : (∀ r, r ∈ all_rels → f_sat m r) →
      ∀ k t, fder G k t → ts_contains (tb_get m k) t = true.
    Proof.
      intros Hsat.
      assert (∀ k e r, (k, e) ∈ G → r ∈ f_rels (k, e) → f_sat m r) as Hs.
      { intros k e r ? ?. apply Hsat, elem_of_all_rels. eauto. }
      assert (∀ k l, (k, ESeq l) ∈ G →
        (∀ l1 y l2, l = l1 ++ y :: l2 → f_sat m (f_if l1 (FUnion k y))) ∧ f_sat m (f_if l (FInsE k))) as Hseq.
      { intros k l Hin. pose proof (f_build_seq_loop_forall (f_sat m) k [] l) as HH. cbn [app] in HH.
        apply HH; [|intros r Hr; by apply (Hs _ _ r Hin)].
        intros s s' r Hss. rewrite !f_if_sat. intros H1 H2. apply H1. intros y Hy. by apply H2, Hss. }
      assert (∀ k l y, (k, EUnion l) ∈ G → y ∈ l →
        f_sat m (FUnion k y) ∧ f_sat m (FIf [y] (FInsE k))) as Hun.
      { intros k l y Hin Hy. split; eapply (Hs k _ _ Hin); cbn [f_rels]; unfold f_build_union;
          rewrite elem_of_list_In, in_flat_map; exists y; rewrite <-!elem_of_list_In; (split; [done|]).
        - by left.
        - right. by left. }
      assert (∀ k, nullable G k → ts_contains (tb_get m k) None = true) as Hnull.
      { apply nullable_ind_decl.
        - intros k Hin. apply (Hs _ _ (FInsE k) Hin). by left.
        - intros k l Hin Hall. destruct (Hseq _ _ Hin) as [_ H]. rewrite f_if_sat in H. apply H.
          intros y Hy. rewrite Forall_forall in Hall. by apply Hall.
        - intros k l y Hin Hy _ IH. destruct (Hun _ _ _ Hin Hy) as [_ H]. apply H.
          intros z. rewrite elem_of_list_singleton. by intros ->. }
      intros k [t|]; [|apply Hnull]. cbn [fder].
      revert k t. apply starts_ind_decl.
      - intros k ty lit t Hin Hc. apply (Hs _ _ (FInsT k ty lit) Hin); [by left|done].
      - intros k l1 y l2 t Hin Hl1 Hy IH. destruct (Hseq _ _ Hin) as [H _].
        specialize (H l1 y l2 eq_refl). rewrite f_if_sat in H. apply H; [|done].
        intros z Hz. rewrite Forall_forall in Hl1. auto.
      - intros k l y t Hin Hy _ IH. destruct (Hun _ _ _ Hin Hy) as [H _]. by apply H.
    Qed.

    Lemma f_loop_exact fuel m : f_loop fuel all_rels [] = Some m →
      ∀ k t, ts_contains (tb_get m k) t = true ↔ fder G k t.
    Proof.
      intros Hl k t. split.
      - apply (f_loop_sound G fuel all_rels []); [..|done].
        + intros k' t'. by rewrite tb_get_nil, ts_contains_new.
        + intros r (k'&e&?&?)%elem_of_all_rels. by eapply f_rels_valid.
      - apply sat_complete. by apply (f_loop_sat fuel all_rels []).
    Qed.
  End exact.

  (** * Termination *)
  Section term.
    Variable (nv : nat) (U : gset string) (ks : list K).
    Definition tb_in m : Prop := ∀ k, ts_in nv U (tb_get m k).
    Definition tb_weight m : nat := foldr (λ k n, ts_weight U (tb_get m k) + n) 0 ks.

    Lemma tb_weight_bound m : tb_in m → tb_weight m ≤ length ks * S (nv * S (size U)).
    Proof.
      intros Hm. unfold tb_weight. induction ks as [|k l IH]; cbn [foldr length]; [lia|].
      pose proof (ts_weight_bound _ _ _ (Hm k)). lia.
    Qed.

    (** Replacing one entry by a heavier one. *)
    Lemma tb_weight_set m m' a (c : bool) : a ∈ ks →
      (∀ k, k ≠ a → tb_get m' k = tb_get m k) →
      ts_weight U (tb_get m a) + (if c then 1 else 0) ≤ ts_weight U (tb_get m' a) →
      tb_weight m + (if c then 1 else 0) ≤ tb_weight m'.
    Proof.
      intros Ha Ho Hw. unfold tb_weight.
      assert (∀ l, foldr (λ k n, ts_weight U (tb_get m k) + n) 0 l ≤
                   foldr (λ k n, ts_weight U (tb_get m' k) + n) 0 l) as Hmono.
      { induction l as [|k l IH]; cbn [foldr]; [lia|].
        destruct (decide (k = a)) as [->|Hne]; [destruct c; lia|]. rewrite (Ho k Hne). lia. }
      clear -Ha Ho Hw Hmono. induction ks as [|k l IH]; [by apply elem_of_nil in Ha|].
      cbn [foldr]. destruct (decide (k = a)) as [->|Hne].
      - specialize (Hmono l). lia.
      - apply elem_of_cons in Ha as [?|Ha]; [congruence|]. specialize (IH Ha). rewrite (Ho k Hne). lia.
    Qed.

    Fixpoint f_in (r : frel K) : Prop :=
      match r with
      | FInsE k => k ∈ ks
      | FInsT k ty lit => k ∈ ks ∧ ty < nv ∧ ∀ x : string, lit = Some x → x ∈ U
      | FUnion a b => a ∈ ks
      | FIf _ r => f_in r
      end.

    Lemma f_process_weight r m : tb_in m → f_in r →
      tb_in (snd (f_process r m)) ∧
      tb_weight m + (if fst (fst (f_process r m)) then 1 else 0) ≤ tb_weight (snd (f_process r m)) ∧
      (∀ r', snd (fst (f_process r m)) = Some r' → f_in r').
    Proof.
      intros Hm. induction r as [k|k ty lit|a b|set r IH]; intros Hr.
      - cbn [f_process]. pose proof (ts_insert_e_weight nv U (tb_get m k) (Hm k)) as [H1 H2].
        destruct (ts_insert_e (tb_get m k)) as [s ch]. cbn [fst snd] in *. split; [|split; [|done]].
        + intros k'. rewrite tb_get_insert. by case_decide.
        + apply (tb_weight_set _ _ k); [done| |].
          * intros k' ?. by rewrite tb_get_insert, decide_False.
          * by rewrite tb_get_insert, decide_True.
      - destruct Hr as (Hk&Hty&Hlit).
        cbn [f_process]. pose proof (ts_insert_weight nv U (tb_get m k) ty lit (Hm k) Hty Hlit) as [H1 H2].
        destruct (ts_insert (tb_get m k) ty lit) as [s ch]. cbn [fst snd] in *. split; [|split; [|done]].
        + intros k'. rewrite tb_get_insert. by case_decide.
        + apply (tb_weight_set _ _ k); [done| |].
          * intros k' ?. by rewrite tb_get_insert, decide_False.
          * by rewrite tb_get_insert, decide_True.
      - pose proof (f_union_changed m a b) as Hc. pose proof (f_union_get m a b) as Hg.
        assert (snd (fst (f_process (FUnion a b) m)) = Some (FUnion a b)) as Hk.
        { cbn [f_process]. by destruct (match _ with Some _ => _ | None => _ end). }
        rewrite Hk. destruct (f_process (FUnion a b) m) as [[c keep] m']. cbn [fst snd] in *.
        pose proof (ts_union_weight nv U (tb_get m a) (tb_get m b) false (Hm a) (Hm b)) as [H1 H2].
        split; [|split; [|by intros ? [= <-]]].
        + intros k. rewrite Hg. destruct (decide (k = a)) as [->|]; [|done]. by destruct (decide (a = b)).
        + apply (tb_weight_set _ _ a); [done| |].
          * intros k' ?. by rewrite Hg, decide_False.
          * rewrite Hg, decide_True by done. subst c. destruct (decide (a = b)); [lia|done].
      - cbn [f_process]. destruct (filter _ set) as [|z set'] eqn:E; [by apply IH|].
        cbn [fst snd]. split; [done|]. split; [lia|]. by intros ? [= <-].
    Qed.

    Lemma f_pass_weight rels m : tb_in m → (∀ r, r ∈ rels → f_in r) →
      tb_in (snd (f_pass rels m)) ∧
      tb_weight m + (if fst (fst (f_pass rels m)) then 1 else 0) ≤ tb_weight (snd (f_pass rels m)) ∧
      (∀ r', r' ∈ snd (fst (f_pass rels m)) → f_in r').
    Proof.
      revert m. induction rels as [|r rels IH]; intros m Hm Hr; cbn [f_pass].
      - cbn. split; [done|]. split; [lia|]. done.
      - destruct (f_process_weight r m) as (P1&P2&P3); [done|apply Hr; by left|].
        destruct (f_process r m) as [[c keep] m1]. cbn [fst snd] in *.
        destruct (IH m1) as (I1&I2&I3); [done|intros; apply Hr; by right|].
        destruct (f_pass rels m1) as [[c' rels'] m2]. cbn [fst snd] in *. split; [done|].
        split; [destruct c, c'; cbn; lia|].
        intros r'. destruct keep as [r0|]; [|auto]. intros [->|?]%elem_of_cons; auto.
    Qed.

    Lemma f_loop_fuel fuel rels m : tb_in m → (∀ r, r ∈ rels → f_in r) →
      length ks * S (nv * S (size U)) < fuel + tb_weight m → is_Some (f_loop fuel rels m).
    Proof.
      revert rels m. induction fuel as [|fuel IH]; intros rels m Hm Hr Hf; cbn [f_loop].
      - pose proof (tb_weight_bound m Hm). lia.
      - destruct (f_pass_weight rels m) as (P1&P2&P3); [done..|].
        destruct (f_pass rels m) as [[c rels'] m1]. cbn [fst snd] in *.
        destruct c; [|by eauto]. apply IH; [done..|]. lia.
    Qed.
  End term.

  Lemma f_loop_mono fuel fuel' rels m m' :
    f_loop fuel rels m = Some m' → fuel ≤ fuel' → f_loop fuel' rels m = Some m'.
  Proof.
    revert fuel' rels m. induction fuel as [|fuel IH]; intros fuel' rels m; [done|].
    destruct fuel' as [|fuel']; [lia|]. cbn [f_loop]. intros Hl Hf.
    destruct (f_pass rels m) as [[[] rels'] m1]; [|done]. apply IH; [done|lia].
  Qed.

  Lemma reg_toks_in (G : grammar K) k ty lit : (k, ETok ty lit) ∈ G → (ty, lit) ∈ reg_toks G.
  Proof.
    intros H. unfold reg_toks. rewrite elem_of_list_In, in_flat_map. exists (k, ETok ty lit).
    rewrite <-elem_of_list_In. split; [done|]. by left.
  Qed.
  Lemma reg_nv_lt (G : grammar K) ty lit : (ty, lit) ∈ reg_toks G → ty < reg_nv G.
  Proof.
    unfold reg_nv. induction (reg_toks G) as [|[ty' lit'] l IH]; [by intros ?%elem_of_nil|].
    cbn [foldr]. intros [[= -> ->]|H]%elem_of_cons; [lia|]. specialize (IH H). lia.
  Qed.
  Lemma reg_lits_in (G : grammar K) ty (x : string) : (ty, Some x) ∈ reg_toks G → x ∈ reg_lits G.
  Proof.
    intros H. unfold reg_lits. apply elem_of_list_to_set, elem_of_list_omap. by exists (ty, Some x).
  Qed.
  Lemma reg_syms_key (G : grammar K) k e : (k, e) ∈ G → k ∈ reg_syms G.
  Proof.
    intros H. unfold reg_syms. rewrite elem_of_list_In, in_flat_map. exists (k, e).
    rewrite <-elem_of_list_In. split; [done|]. by left.
  Qed.
  Lemma reg_syms_comp (G : grammar K) k e y : (k, e) ∈ G → y ∈ comps e → y ∈ reg_syms G.
  Proof.
    intros H Hy. unfold reg_syms. rewrite elem_of_list_In, in_flat_map. exists (k, e).
    rewrite <-elem_of_list_In. split; [done|]. right. by apply elem_of_list_In.
  Qed.

  Lemma f_in_if nv U ks set r : f_in nv U ks r → f_in nv U ks (f_if set r).
  Proof. by destruct set. Qed.

  Lemma f_rels_in (G : grammar K) k e r : (k, e) ∈ G → r ∈ f_rels (k, e) →
    f_in (reg_nv G) (reg_lits G) (reg_syms G) r.
  Proof.
    intros Hin. pose proof (reg_syms_key _ _ _ Hin) as Hk. destruct e as [|ty lit|l|l]; cbn [f_rels].
    - rewrite elem_of_list_singleton. by intros ->.
    - rewrite elem_of_list_singleton. intros ->. apply reg_toks_in in Hin. cbn. split; [done|].
      split; [by eapply reg_nv_lt|]. intros x ->. by eapply reg_lits_in.
    - unfold f_build_seq. generalize (@nil K). induction l as [|y l IH]; intros set; cbn [f_build_seq_loop].
      + rewrite elem_of_list_singleton. intros ->. by apply f_in_if.
      + assert (∀ l, (k, ESeq l) ∈ G → True) as _ by done.
        intros [->|Hr]%elem_of_cons; [by apply f_in_if|].
        clear IH Hin. revert Hr. generalize (bs_insert set y). clear set. revert r.
        induction l as [|z l IH]; intros r set; cbn [f_build_seq_loop].
        * rewrite elem_of_list_singleton. intros ->. by apply f_in_if.
        * intros [->|Hr]%elem_of_cons; [by apply f_in_if|]. by eapply IH.
    - unfold f_build_union. rewrite elem_of_list_In, in_flat_map. intros (y&Hy&Hr).
      apply elem_of_list_In in Hr. rewrite elem_of_cons, elem_of_list_singleton in Hr.
      by destruct Hr as [->| ->].
  Qed.

  Lemma first_build_some (G : grammar K) : ∃ m, first_build G = Some m ∧
    tb_in (reg_nv G) (reg_lits G) m.
  Proof.
    unfold first_build.
    assert (tb_in (reg_nv G) (reg_lits G) ([] : table K)) as Hnil.
    { intros k. rewrite tb_get_nil. apply ts_new_in. }
    assert (∀ r, r ∈ flat_map f_rels G → f_in (reg_nv G) (reg_lits G) (reg_syms G) r) as Hrels.
    { intros r (k&e&?&?)%(elem_of_all_rels G). by eapply f_rels_in. }
    destruct (f_loop_fuel (reg_nv G) (reg_lits G) (reg_syms G) (table_fuel G) (flat_map f_rels G) [])
      as [m Hm]; [done..| |].
    - unfold table_fuel. lia.
    - exists m. split; [done|]. revert Hm Hnil Hrels. generalize (table_fuel G) (flat_map f_rels G) ([] : table K).
      intros fuel. induction fuel as [|fuel IH]; intros rels m0; cbn [f_loop]; [done|].
      intros Hl Hm0 Hr. destruct (f_pass_weight (reg_nv G) (reg_lits G) (reg_syms G) rels m0) as (P1&P2&P3); [done..|].
      destruct (f_pass rels m0) as [[[] rels'] m1]; cbn [fst snd] in *; [by eapply IH|by simplify_eq].
  Qed.

  Lemma first_build_exact (G : grammar K) m : first_build G = Some m →
    ∀ k t, ts_contains (tb_get m k) t = true ↔ fder G k t.
  Proof. apply f_loop_exact. Qed.
End facts.
