(** What the conflict checks at one symbol decide, and what the jump table returns. *)
From Coq Require Import String.
From stdpp Require Import prelude list gmap strings relations.
From Verif Require Import SynSetModel SynSetFacts TableModel CfgSpec CfgFacts FirstFacts FollowFacts CheckFacts.
Local Open Scope nat_scope.
#[local] Arguments ts_contains : simpl never.
#[local] Arguments tb_get : simpl never.
#[local] Arguments ts_union : simpl never.
#[local] Arguments ts_insert : simpl never.

Lemma all_of_union s o inc ty : all_of (fst (ts_union s o inc)) ty → all_of s ty ∨ all_of o ty.
Proof.
  rewrite ts_union_unfold. unfold all_of, ts_contains. cbn [fst ts_map].
  setoid_rewrite lm_get_union. intros H.
  destruct (lm_get (ts_map s) ty) as [a|], (lm_get (ts_map o) ty) as [b|]; cbn in *; [|by right|by left..].
  destruct (fresh_string (a ∪ b)) as [x Hx]. specialize (H x). apply bool_decide_eq_true in H. done.
Qed.

Section facts.
  Context {K : Type} `{EqDecision K}.
  Variable (first follow : table K).
  Implicit Types (k a b x y : K).

  Definition F (y : K) (tk : option tok) : Prop := ts_contains (tb_get first y) tk = true.
  Definition Null (y : K) : Prop := F y None.
  Definition meet (a b : K) : Prop := ∃ tk, F a tk ∧ F b tk.

  Lemma fs_intersects_meet a b : fs_intersects (tb_get first a) (tb_get first b) = true ↔ meet a b.
  Proof. unfold fs_intersects. rewrite ts_intersects_spec. unfold meet, F. naive_solver. Qed.

  Lemma meet_comm a b : meet a b → meet b a.
  Proof. intros (t&?&?). by exists t. Qed.

  (** * Choice *)
  Lemma find_before_spec t inner ys :
    match find_before first t inner ys with
    | None => ∀ b, b ∈ ys → ¬ meet b inner
    | Some e => ∃ i b, ys !! i = Some b ∧ meet b inner ∧
        (∀ i' b', i' < i → ys !! i' = Some b' → ¬ meet b' inner) ∧
        e = GFirstFirst t b inner (ts_intersection_repr (tb_get first inner) (tb_get first b) true)
    end.
  Proof.
    induction ys as [|b ys IH]; cbn [find_before].
    - intros b Hb. by apply elem_of_nil in Hb.
    - destruct (fs_intersects _ _) eqn:E.
      + apply fs_intersects_meet in E. exists 0, b. split; [done|]. split; [by apply meet_comm|]. split; [lia|done].
      + assert (¬ meet b inner) as Hb.
        { intros Hm%meet_comm. apply fs_intersects_meet in Hm. congruence. }
        destruct (find_before first t inner ys) as [e|].
        * destruct IH as (i&b'&H1&H2&H3&->). exists (S i), b'. split; [done|]. split; [done|]. split; [|done].
          intros [|i'] b'' Hi Hl; [by simplify_eq/=|]. apply (H3 i'); [lia|done].
        * intros b' [->|?]%elem_of_cons; auto.
  Qed.

  Lemma ck_union_loop_spec t all pre ys C : all = pre ++ ys →
    (∀ tk, ts_contains C tk = true ↔ ∃ y, y ∈ pre ∧ F y tk) →
    match ck_union_loop first t all C ys with
    | None => ∀ i j yi yj, i < j → length pre ≤ j → all !! i = Some yi → all !! j = Some yj → ¬ meet yi yj
    | Some e => ∃ i j b inner, i < j ∧ length pre ≤ j ∧ all !! i = Some b ∧ all !! j = Some inner ∧
        meet b inner ∧
        (∀ i' b', i' < i → all !! i' = Some b' → ¬ meet b' inner) ∧
        (∀ i' j' yi yj, i' < j' → length pre ≤ j' → j' < j → all !! i' = Some yi → all !! j' = Some yj → ¬ meet yi yj) ∧
        e = GFirstFirst t b inner (ts_intersection_repr (tb_get first inner) (tb_get first b) true)
    end.
  Proof.
    revert pre C. induction ys as [|y ys IH]; intros pre C Hall HC; cbn [ck_union_loop].
    - intros i j yi yj Hij Hj Hi Hj'. apply lookup_lt_Some in Hj'. rewrite Hall, app_nil_r in Hj'. lia.
    - assert (all !! length pre = Some y) as Hy.
      { rewrite Hall, lookup_app_r by lia. by rewrite Nat.sub_diag. }
      specialize (IH (pre ++ [y]) (fst (fs_union C (tb_get first y)))).
      rewrite <-app_assoc in IH. specialize (IH Hall).
      assert (∀ tk, ts_contains (fst (fs_union C (tb_get first y))) tk = true ↔ ∃ z, z ∈ pre ++ [y] ∧ F z tk) as HC'.
      { intros tk. unfold fs_union. rewrite ts_contains_union, orb_true_iff, HC, andb_true_iff.
        setoid_rewrite elem_of_app. setoid_rewrite elem_of_list_singleton. unfold F.
        destruct tk; naive_solver. }
      specialize (IH HC'). rewrite app_length in IH. cbn [length] in IH.
      assert (fs_intersects C (tb_get first y) = true ↔ ∃ b, b ∈ pre ∧ meet b y) as Hint.
      { unfold fs_intersects. rewrite ts_intersects_spec. setoid_rewrite HC. unfold meet, F. naive_solver. }
      destruct (fs_intersects C (tb_get first y)).
      + destruct Hint as [(b&Hb&Hm) _]; [done|].
        pose proof (find_before_spec t y all) as Hf. destruct (find_before first t y all) as [e|].
        * destruct Hf as (i&b'&H1&H2&H3&->). exists i, (length pre), b', y.
          apply elem_of_list_lookup in Hb as [ib Hib]. pose proof (lookup_lt_Some _ _ _ Hib) as Hlt.
          split.
          { destruct (decide (i < length pre)); [done|]. exfalso. apply (H3 ib b); [lia| |done].
            rewrite Hall. by rewrite lookup_app_l. }
          split; [done|]. split; [done|]. split; [done|]. split; [done|]. split; [done|]. split; [|done].
          intros; lia.
        * exfalso. apply (Hf b); [|done]. rewrite Hall. set_solver.
      + assert (∀ b, b ∈ pre → ¬ meet b y) as Hno.
        { intros b Hb Hm. destruct Hint as [_ Hint]. by discriminate Hint; eauto. }
        destruct (ck_union_loop first t all _ ys) as [e|].
        * destruct IH as (i&j&b&inner&H1&H2&H3&H4&H5&H6&H7&->). exists i, j, b, inner.
          split; [done|]. split; [lia|]. do 4 (split; [done|]). split; [|done].
          intros i' j' yi yj Hij Hj1 Hj2 Hi' Hj'. destruct (decide (j' = length pre)) as [->|].
          -- rewrite Hy in Hj'. injection Hj' as <-. apply Hno. rewrite Hall, lookup_app_l in Hi' by done.
             by apply elem_of_list_lookup_2 in Hi'.
          -- apply (H7 i' j'); [done|lia|done..].
        * intros i' j' yi yj Hij Hj1 Hi' Hj'. destruct (decide (j' = length pre)) as [->|].
          -- rewrite Hy in Hj'. injection Hj' as <-. apply Hno. rewrite Hall, lookup_app_l in Hi' by done.
             by apply elem_of_list_lookup_2 in Hi'.
          -- apply (IH i' j'); [done|lia|done..].
  Qed.

  Definition ff_conflict (l : list K) : Prop :=
    ∃ i j yi yj, i < j ∧ l !! i = Some yi ∧ l !! j = Some yj ∧ meet yi yj.

  Lemma ck_union_spec t l :
    match ck_union_loop first t l ts_new l with
    | None => ¬ ff_conflict l
    | Some e => ∃ i j b inner, i < j ∧ l !! i = Some b ∧ l !! j = Some inner ∧ meet b inner ∧
        (∀ i' b', i' < i → l !! i' = Some b' → ¬ meet b' inner) ∧ ¬ ff_conflict (take j l) ∧
        e = GFirstFirst t b inner (ts_intersection_repr (tb_get first inner) (tb_get first b) true)
    end.
  Proof.
    pose proof (ck_union_loop_spec t l [] l ts_new eq_refl) as H.
    assert (∀ tk, ts_contains ts_new tk = true ↔ ∃ y, y ∈ [] ∧ F y tk) as Hn.
    { intros tk. rewrite ts_contains_new. set_solver. }
    specialize (H Hn). cbn [length] in H. destruct (ck_union_loop first t l ts_new l) as [e|].
    - destruct H as (i&j&b&inner&H1&_&H3&H4&H5&H6&H7&->). exists i, j, b, inner. do 5 (split; [done|]).
      split; [|done]. intros (i'&j'&yi&yj&Hij&Hi&Hj&Hm).
      rewrite lookup_take_Some in Hi. rewrite lookup_take_Some in Hj.
      destruct Hi, Hj. apply (H7 i' j' yi yj); [done|lia|done..].
    - intros (i&j&yi&yj&Hij&Hi&Hj&Hm). apply (H i j yi yj); [done|lia|done..].
  Qed.

  (** * Sequence *)
  Definition Open (y : K) (ty : nat) : Prop := ∀ s, F y (Some (ty, s)).
  Definition carry (pre : list K) (tk : tok) : Prop :=
    ∃ l1 y l2, pre = l1 ++ y :: l2 ∧ Null y ∧ F y (Some tk) ∧ (Forall Null l2 ∨ Open y (fst tk)).

  Definition seq_inv (pre : list K) (C : tset) : Prop :=
    (∀ tk, ts_contains C (Some tk) = true ↔ carry pre tk) ∧
    (∀ ty, all_of C ty → ∃ y, y ∈ pre ∧ Null y ∧ Open y ty).

  Lemma carry_snoc_null pre z tk : Null z → carry (pre ++ [z]) tk ↔ carry pre tk ∨ F z (Some tk).
  Proof.
    intros Hz. split.
    - intros (l1&y&l2&E&H1&H2&H3). destruct l2 as [|w l2] using rev_ind.
      + apply app_inj_tail in E as [-> ->]. by right.
      + rewrite app_comm_cons, app_assoc in E. apply app_inj_tail in E as [-> ->]. left.
        exists l1, y, l2. split; [done|]. split; [done|]. split; [done|].
        destruct H3 as [H3|H3]; [|by right]. left. by apply Forall_app in H3 as [??].
    - intros [(l1&y&l2&->&H1&H2&H3)|H].
      + exists l1, y, (l2 ++ [z]). split; [by rewrite <-app_assoc|]. split; [done|]. split; [done|].
        destruct H3 as [H3|H3]; [|by right]. left. apply Forall_app. split; [done|]. by constructor.
      + exists pre, z, []. split; [done|]. split; [done|]. split; [done|]. left. constructor.
  Qed.
  Lemma carry_snoc_full pre z tk : ¬ Null z → carry (pre ++ [z]) tk ↔
    ∃ y, y ∈ pre ∧ Null y ∧ Open y (fst tk).
  Proof.
    intros Hz. split.
    - intros (l1&y&l2&E&H1&H2&H3). destruct l2 as [|w l2] using rev_ind.
      + apply app_inj_tail in E as [-> ->]. done.
      + rewrite app_comm_cons, app_assoc in E. apply app_inj_tail in E as [-> ->].
        destruct H3 as [H3|H3].
        * apply Forall_app in H3 as [_ H3]. by inversion H3.
        * exists y. split; [set_solver|done].
    - intros (y&Hy&H1&H2). apply elem_of_list_split in Hy as (l1&l2&->).
      exists l1, y, (l2 ++ [z]). split; [by rewrite <-app_assoc|]. split; [done|].
      split; [|by right]. destruct tk as [ty s]. apply H2.
  Qed.

  Lemma seq_inv_snoc pre C z : seq_inv pre C →
    seq_inv (pre ++ [z]) (if ts_contains_e (tb_get first z)
                          then fst (fs_union_minus_eps C (tb_get first z)) else ts_clear C).
  Proof.
    intros [H1 H2]. destruct (ts_contains_e (tb_get first z)) eqn:E.
    - assert (Null z) as Hz by done. split.
      + intros tk. unfold fs_union_minus_eps. rewrite ts_contains_union, orb_true_iff, H1, carry_snoc_null by done.
        unfold F. done.
      + intros ty [Ha|Ha]%all_of_union.
        * destruct (H2 ty Ha) as (y&?&?). exists y. split; [set_solver|done].
        * exists z. split; [set_solver|]. split; [done|]. done.
    - assert (¬ Null z) as Hz by (unfold Null, F; change (ts_contains_e (tb_get first z) ≠ true); congruence). split.
      + intros tk. rewrite ts_contains_clear, carry_snoc_full by done. split.
        * intros (ty&src&[= ->]&Ha). by apply H2.
        * intros (y&Hy&Hn&Ho). destruct tk as [ty s]. exists ty, s. split; [done|]. intros s'.
          apply H1. apply elem_of_list_split in Hy as (l1&l2&->). exists l1, y, l2. split; [done|].
          split; [done|]. split; [apply Ho|by right].
      + intros ty Ha. destruct (H2 ty) as (y&?&?).
        * intros s. specialize (Ha s). apply ts_contains_clear in Ha as (ty'&s'&[= <- <-]&Ha). apply Ha.
        * exists y. split; [set_solver|done].
  Qed.

  Lemma seq_inv_init y : seq_inv [y] (if ts_contains_e (tb_get first y) then tb_get first y else ts_new).
  Proof.
    destruct (ts_contains_e (tb_get first y)) eqn:E.
    - split.
      + intros tk. split.
        * intros H. exists [], y, []. split; [done|]. split; [done|]. split; [done|]. left. constructor.
        * intros (l1&z&l2&Ez&_&H&_). destruct l1 as [|? []]; simplify_list_eq. done.
      + intros ty Ha. exists y. split; [by left|]. done.
    - assert (¬ Null y) as Hz by (unfold Null, F; change (ts_contains_e (tb_get first y) ≠ true); congruence). split.
      + intros tk. rewrite ts_contains_new. split; [done|].
        intros (l1&z&l2&Ez&H&_). destruct l1 as [|? []]; simplify_list_eq. by destruct Hz.
      + intros ty Ha. specialize (Ha ""%string). by rewrite ts_contains_new in Ha.
  Qed.

  (** The element called [cur] in the code after reading [pre]. *)
  Fixpoint seq_cur (cur : K) (ys : list K) : K :=
    match ys with
    | [] => cur
    | y :: r => seq_cur (if ts_contains_e (tb_get first y) then cur else y) r
    end.

  Lemma ck_seq_loop_spec t cur pre C ys : seq_inv pre C →
    match ck_seq_loop first t cur C ys with
    | None => ∀ l1 z l2, ys = l1 ++ z :: l2 → ¬ ∃ tk, carry (pre ++ l1) tk ∧ F z (Some tk)
    | Some e => ∃ l1 z l2 C', ys = l1 ++ z :: l2 ∧ seq_inv (pre ++ l1) C' ∧
        (∃ tk, carry (pre ++ l1) tk ∧ F z (Some tk)) ∧
        (∀ m1 w m2, l1 = m1 ++ w :: m2 → ¬ ∃ tk, carry (pre ++ m1) tk ∧ F w (Some tk)) ∧
        e = GSeq t (seq_cur cur l1) z (ts_intersection_repr C' (tb_get first z) false)
    end.
  Proof.
    revert pre cur C. induction ys as [|y ys IH]; intros pre cur C HC; cbn [ck_seq_loop].
    - intros [] ???; done.
    - pose proof (seq_inv_snoc pre C y HC) as HC'.
      assert (fs_intersects_minus_eps C (tb_get first y) = true ↔ ∃ tk, carry pre tk ∧ F y (Some tk)) as Hint.
      { unfold fs_intersects_minus_eps. rewrite ts_intersects_spec. destruct HC as [HC _].
        setoid_rewrite <-HC. unfold F. split.
        - intros ([tk|]&Hi&?&?); [eauto|]. by specialize (Hi eq_refl).
        - intros (tk&?&?). exists (Some tk). done. }
      destruct (fs_intersects_minus_eps C (tb_get first y)).
      + exists [], y, ys, C. rewrite app_nil_r. split; [done|]. split; [done|]. split; [by apply Hint|].
        split; [intros [] ???; done|done].
      + assert (¬ ∃ tk, carry pre tk ∧ F y (Some tk)) as Hno by (intros Hx; by apply Hint in Hx).
        assert (∃ cur' C', seq_inv (pre ++ [y]) C' ∧ cur' = (if ts_contains_e (tb_get first y) then cur else y) ∧
          (if ts_contains_e (tb_get first y)
           then ck_seq_loop first t cur (fst (fs_union_minus_eps C (tb_get first y))) ys
           else ck_seq_loop first t y (ts_clear C) ys) = ck_seq_loop first t cur' C' ys) as (cur'&C'&Hi&Hcur&->).
        { destruct (ts_contains_e (tb_get first y)); eauto. }
        specialize (IH _ cur' _ Hi). destruct (ck_seq_loop first t cur' C' ys) as [e|].
        * destruct IH as (l1&z&l2&C2&->&H1&H2&H3&->). rewrite <-app_assoc in H1, H2. cbn in H1, H2.
          exists (y :: l1), z, l2, C2. split; [done|]. split; [done|]. split; [done|]. split.
          -- intros m1 w m2 E. destruct m1 as [|? m1]; simplify_list_eq; [by rewrite ?app_nil_r|].
             specialize (H3 m1 w m2 eq_refl). by rewrite <-app_assoc in H3.
          -- cbn [seq_cur]. by rewrite <-Hcur.
        * intros m1 w m2 E. destruct m1 as [|? m1]; simplify_list_eq; [by rewrite ?app_nil_r|].
          specialize (IH m1 w m2 eq_refl). by rewrite <-app_assoc in IH.
  Qed.

  (** A sequence conflict as the code sees it. *)
  Definition seq_conflict (l : list K) : Prop :=
    ∃ l1 z l2 tk, l = l1 ++ z :: l2 ∧ carry l1 tk ∧ F z (Some tk).

  Lemma ck_seq_spec t y r :
    match ck_seq_loop first t y (if ts_contains_e (tb_get first y) then tb_get first y else ts_new) r with
    | None => ¬ seq_conflict (y :: r)
    | Some e => ∃ l1 z l2 C', y :: r = y :: l1 ++ z :: l2 ∧ seq_inv (y :: l1) C' ∧
        (∃ tk, carry (y :: l1) tk ∧ F z (Some tk)) ∧ ¬ seq_conflict (y :: l1) ∧
        e = GSeq t (seq_cur y l1) z (ts_intersection_repr C' (tb_get first z) false)
    end.
  Proof.
    assert (∀ r', (∀ m1 w m2, r' = m1 ++ w :: m2 → ¬ ∃ tk, carry (y :: m1) tk ∧ F w (Some tk)) →
              ¬ seq_conflict (y :: r')) as Hc.
    { intros r' H (l1&z&l2&tk&E&H1&H2). destruct l1 as [|? l1]; simplify_list_eq.
      - destruct H1 as (a&b&c&E&_). by destruct a.
      - apply (H l1 z l2 eq_refl). eauto. }
    pose proof (ck_seq_loop_spec t y [y] _ r (seq_inv_init y)) as H.
    destruct (ck_seq_loop first t y _ r) as [e|].
    - destruct H as (l1&z&l2&C'&->&H1&H2&H3&->). exists l1, z, l2, C'. split; [done|]. split; [done|].
      split; [done|]. split; [|done]. by apply Hc.
    - by apply Hc.
  Qed.

  (** * FIRST/FOLLOW at one symbol *)
  Definition W (y : K) (tk : option tok) : Prop := ts_contains (tb_get follow y) tk = true.
  Definition self_conflict (t : K) : Prop := Null t ∧ ∃ tk, F t (Some tk) ∧ W t (Some tk).
  Lemma ck_self_spec t :
    match ck_self first follow t with
    | None => ¬ self_conflict t
    | Some e => self_conflict t ∧
        e = GFirstFollow t (ts_intersection_repr (tb_get follow t) (tb_get first t) false)
    end.
  Proof.
    unfold ck_self. destruct (ts_contains_e (tb_get first t)) eqn:E; cbn [negb].
    - assert (Null t) as Hn by done.
      assert (fo_intersects_first (tb_get follow t) (tb_get first t) = true ↔
              ∃ tk, F t (Some tk) ∧ W t (Some tk)) as Hint.
      { unfold fo_intersects_first. rewrite ts_intersects_spec. unfold F, W. split.
        - intros ([tk|]&Hi&?&?); [eauto|]. by specialize (Hi eq_refl).
        - intros (tk&?&?). exists (Some tk). done. }
      destruct (fo_intersects_first _ _).
      + split; [|done]. split; [done|]. by apply Hint.
      + intros [_ H]. by apply Hint in H.
    - intros [Hn _]. unfold Null, F in Hn. change (ts_contains_e (tb_get first t) = true) in Hn. congruence.
  Qed.

  (** * All checks at one symbol *)
  Definition local_conflict (t : K) (e : entry K) : Prop :=
    match e with
    | EEps | ETok _ _ | ESeq [] => False
    | EUnion l => ff_conflict l ∨ self_conflict t
    | ESeq l => seq_conflict l ∨ self_conflict t
    end.
  Lemma ck_local_none t e : ck_local first follow t e = None ↔ ¬ local_conflict t e.
  Proof.
    destruct e as [|ty lit|[|y r]|l]; cbn [ck_local local_conflict]; [tauto|tauto|tauto|..].
    - pose proof (ck_seq_spec t y r) as H. pose proof (ck_self_spec t) as Hs.
      destruct (ck_seq_loop first t y _ r) as [e|].
      + destruct H as (l1&z&l2&C'&E&_&(tk&H1&H2)&_). split; [done|]. intros Hn. exfalso. apply Hn. left.
        exists (y :: l1), z, l2, tk. done.
      + destruct (ck_self first follow t); [split; [done|tauto]|tauto].
    - pose proof (ck_union_spec t l) as H. pose proof (ck_self_spec t) as Hs.
      destruct (ck_union_loop first t l ts_new l) as [e|].
      + destruct H as (i&j&b&inner&?&?&?&?&_). split; [done|]. intros Hn. exfalso. apply Hn. left.
        exists i, j, b, inner. done.
      + destruct (ck_self first follow t); [split; [done|tauto]|tauto].
  Qed.
End facts.
