(** Proofs about terminal sets. *)
From Coq Require Import String Ascii Lia.
From stdpp Require Import prelude list gmap strings infinite.
From Verif Require Import SynSetModel.
Local Open Scope nat_scope.

(** * LitSet *)
Lemma gset_size_0 (t : gset string) : size t = 0 ↔ t = ∅.
Proof.
  split.
  - intros H. apply leibniz_equiv. by apply size_empty_inv.
  - intros ->. apply size_empty.
Qed.

Lemma lit_new_union y : lit_union lit_new y = (y, negb (lit_is_empty y)).
Proof.
  destruct y as [t|]; cbn; [|done].
  rewrite union_empty_l_L. f_equal. f_equal. rewrite size_empty.
  destruct (Nat.eqb_spec 0 (size t)) as [H|H].
  - symmetry. apply bool_decide_eq_true. by apply gset_size_0.
  - symmetry. apply bool_decide_eq_false. intros ->. by rewrite size_empty in H.
Qed.

Lemma lit_union_nil x : lit_union x lit_new = (x, false).
Proof. destruct x as [s|]; cbn; [|done]. rewrite union_empty_r_L, Nat.eqb_refl. done. Qed.

Lemma lit_contains_new x : lit_contains lit_new x = false.
Proof. cbn. apply bool_decide_eq_false. set_solver. Qed.

Lemma lit_contains_union l o x :
  lit_contains (fst (lit_union l o)) x = lit_contains l x || lit_contains o x.
Proof.
  destruct l as [s|], o as [t|]; cbn; try done.
  - apply eq_bool_prop_intro. rewrite Is_true_true. rewrite Is_true_true.
    rewrite orb_true_iff, !bool_decide_eq_true. set_solver.
  - by rewrite orb_true_r.
Qed.

Lemma lit_contains_insert l y x :
  lit_contains (fst (lit_insert l y)) x = bool_decide (x = y) || lit_contains l x.
Proof.
  destruct l as [s|]; cbn.
  - apply eq_bool_prop_intro. rewrite !Is_true_true.
    rewrite orb_true_iff, !bool_decide_eq_true. set_solver.
  - by rewrite orb_true_r.
Qed.

Lemma fresh_string (s : gset string) : ∃ x, x ∉ s.
Proof. exists (fresh (elements s)). intros H%elem_of_elements. by apply infinite_is_fresh in H. Qed.

Lemma lit_union_changed l o :
  snd (lit_union l o) = true ↔ ∃ x, lit_contains o x = true ∧ lit_contains l x = false.
Proof.
  destruct l as [s|], o as [t|]; cbn.
  - rewrite negb_true_iff, Nat.eqb_neq. setoid_rewrite bool_decide_eq_true.
    setoid_rewrite bool_decide_eq_false. split.
    + intros H. destruct (decide (t ⊆ s)) as [Hsub|Hsub].
      { exfalso. apply H. f_equal. set_solver. }
      destruct (decide (set_Exists (λ x, x ∉ s) t)) as [(x&?&?)|Hn]; [by exists x|].
      exfalso. apply Hsub. intros x Hx. destruct (decide (x ∈ s)); [done|].
      exfalso. apply Hn. by exists x.
    + intros (x&Hx&Hn) Hs.
      assert (s ⊂ s ∪ t) as Hlt by set_solver.
      apply subset_size in Hlt. lia.
  - split; [|done]. intros _. destruct (fresh_string s) as [x Hx]. exists x.
    split; [done|]. by apply bool_decide_eq_false.
  - split; [done|]. by intros (x&?&?).
  - split; [done|]. by intros (x&?&?).
Qed.

Lemma lit_insert_changed l y : snd (lit_insert l y) = true ↔ lit_contains l y = false.
Proof. destruct l as [s|]; cbn; [|done]. by rewrite negb_true_iff. Qed.

Lemma lit_universe_changed l :
  snd (lit_union_universe l) = true ↔ ∃ x, lit_contains l x = false.
Proof.
  destruct l as [s|]; cbn.
  - split; [|done]. intros _. destruct (fresh_string s) as [x Hx]. exists x.
    by apply bool_decide_eq_false.
  - split; [done|]. by intros [??].
Qed.

Lemma lit_is_empty_spec l : lit_is_empty l = true ↔ ∀ x, lit_contains l x = false.
Proof.
  destruct l as [s|]; cbn.
  - rewrite bool_decide_eq_true. setoid_rewrite bool_decide_eq_false. set_solver.
  - split; [done|]. intros H. specialize (H ""%string). done.
Qed.

Lemma lit_nonempty_spec l : lit_is_empty l = false ↔ ∃ x, lit_contains l x = true.
Proof.
  destruct l as [s|]; cbn.
  - rewrite bool_decide_eq_false. setoid_rewrite bool_decide_eq_true. split.
    + intros H. apply set_choose_L in H. done.
    + set_solver.
  - split; [|done]. intros _. by exists ""%string.
Qed.

Lemma lit_intersects_spec l o :
  lit_intersects l o = true ↔ ∃ x, lit_contains l x = true ∧ lit_contains o x = true.
Proof.
  destruct l as [s|], o as [t|].
  - cbn. rewrite negb_true_iff, bool_decide_eq_false. setoid_rewrite bool_decide_eq_true. split.
    + intros H. apply set_choose_L in H. set_solver.
    + set_solver.
  - change (negb (lit_is_empty (LMatch s)) = true ↔ ∃ x, lit_contains (LMatch s) x = true ∧ true = true).
    rewrite negb_true_iff, lit_nonempty_spec. naive_solver.
  - change (negb (lit_is_empty (LMatch t)) = true ↔ ∃ x, true = true ∧ lit_contains (LMatch t) x = true).
    rewrite negb_true_iff, lit_nonempty_spec. naive_solver.
  - cbn. split; [|done]. intros _. by exists ""%string.
Qed.

Lemma lit_contains_intersection l o x :
  lit_contains (lit_intersection l o) x = lit_contains l x && lit_contains o x.
Proof.
  destruct l as [s|], o as [t|]; cbn; try done.
  - apply eq_bool_prop_intro. rewrite !Is_true_true.
    rewrite andb_true_iff, !bool_decide_eq_true. set_solver.
  - by rewrite andb_true_r.
Qed.

(** * arrays *)
Lemma lm_get_set m ty v ty' :
  lm_get (lm_set m ty v) ty' = if decide (ty' = ty) then v else lm_get m ty'.
Proof.
  unfold lm_get. revert m ty'. induction ty as [|k IH]; intros m ty'.
  - destruct m, ty'; done.
  - destruct m as [|x m]; cbn.
    + destruct ty' as [|ty']; cbn; [done|]. rewrite IH.
      destruct (decide (ty' = k)), (decide (S ty' = S k)); try lia; done.
    + destruct ty' as [|ty']; cbn; [done|]. rewrite IH.
      destruct (decide (ty' = k)), (decide (S ty' = S k)); try lia; done.
Qed.

Lemma lm_get_nil ty : lm_get [] ty = lit_new.
Proof. done. Qed.

Lemma lm_union_nil_r m : lm_union m [] = (m, false).
Proof. by destruct m. Qed.

Lemma lm_union_cons_nil y o :
  lm_union [] (y :: o) =
    (fst (lit_union lit_new y) :: fst (lm_union [] o), snd (lit_union lit_new y) || snd (lm_union [] o)).
Proof. cbn [lm_union]. by destruct (lm_union [] o), (lit_union lit_new y). Qed.
Lemma lm_union_cons x m y o :
  lm_union (x :: m) (y :: o) =
    (fst (lit_union x y) :: fst (lm_union m o), snd (lit_union x y) || snd (lm_union m o)).
Proof. cbn [lm_union]. by destruct (lm_union m o), (lit_union x y). Qed.

Lemma lm_get_union m o ty :
  lm_get (fst (lm_union m o)) ty = fst (lit_union (lm_get m ty) (lm_get o ty)).
Proof.
  unfold lm_get. revert m ty. induction o as [|y o IH]; intros m ty.
  - rewrite lm_union_nil_r. cbn [fst]. change (default lit_new ([] !! ty)) with lit_new.
    by rewrite lit_union_nil.
  - destruct m as [|x m].
    + rewrite lm_union_cons_nil. destruct ty as [|ty]; [done|]. cbn [fst].
      rewrite !lookup_cons, IH, !lookup_nil. done.
    + rewrite lm_union_cons. destruct ty as [|ty]; [done|]. cbn [fst].
      rewrite !lookup_cons, IH. done.
Qed.

Lemma lm_union_changed m o :
  snd (lm_union m o) = true ↔ ∃ ty, snd (lit_union (lm_get m ty) (lm_get o ty)) = true.
Proof.
  revert m. induction o as [|y o IH]; intros m.
  - rewrite lm_union_nil_r. cbn. split; [done|]. intros [ty H].
    change (lm_get [] ty) with lit_new in H. by rewrite lit_union_nil in H.
  - destruct m as [|x m].
    + rewrite lm_union_cons_nil. cbn [snd]. rewrite orb_true_iff, IH. split.
      * intros [H|[ty H]]; [by exists 0|by exists (S ty)].
      * intros [[|ty] H]; [by left|right; by exists ty].
    + rewrite lm_union_cons. cbn [snd]. rewrite orb_true_iff, IH. split.
      * intros [H|[ty H]]; [by exists 0|by exists (S ty)].
      * intros [[|ty] H]; [by left|right; by exists ty].
Qed.

Lemma lm_intersects_spec m o :
  lm_intersects m o = true ↔ ∃ ty, lit_intersects (lm_get m ty) (lm_get o ty) = true.
Proof.
  assert (∀ x, lit_intersects x lit_new = false) as Hn.
  { intros x. apply not_true_iff_false. rewrite lit_intersects_spec. intros (y&_&Hy).
    by rewrite lit_contains_new in Hy. }
  assert (∀ x, lit_intersects lit_new x = false) as Hn'.
  { intros x. apply not_true_iff_false. rewrite lit_intersects_spec. intros (y&Hy&_).
    by rewrite lit_contains_new in Hy. }
  revert o. induction m as [|x m IH]; intros o.
  - cbn. split; [done|]. intros [ty H]. rewrite lm_get_nil in H.
    change (lit_intersects lit_new (lm_get o ty) = true) in H. by rewrite Hn' in H.
  - destruct o as [|y o].
    + cbn. split; [done|]. intros [ty H]. rewrite lm_get_nil in H. by rewrite Hn in H.
    + cbn [lm_intersects]. rewrite orb_true_iff, IH. split.
      * intros [H|[ty H]]; [by exists 0|by exists (S ty)].
      * intros [[|ty] H]; [by left|right; by exists ty].
Qed.

(** * TerminalSet *)
Lemma ts_contains_new t : ts_contains ts_new t = false.
Proof. destruct t as [[ty src]|]; [|done]. apply lit_contains_new. Qed.

Lemma ts_contains_insert_e s t :
  ts_contains (fst (ts_insert_e s)) t = bool_decide (t = None) || ts_contains s t.
Proof. destruct t as [[ty src]|]; done. Qed.

Lemma ts_contains_insert s ty lit t :
  ts_contains (fst (ts_insert s ty lit)) t =
    match t with
    | Some (ty', src) => bool_decide (ty' = ty ∧ (lit = None ∨ lit = Some src)) || ts_contains s t
    | None => ts_contains s t
    end.
Proof.
  unfold ts_insert. destruct lit as [x|].
  - destruct (lit_insert _ x) as [v ch] eqn:E. destruct t as [[ty' src]|]; [|done].
    cbn. rewrite lm_get_set. destruct (decide (ty' = ty)) as [->|Hne].
    + replace v with (fst (lit_insert (lm_get (ts_map s) ty) x)) by (by rewrite E).
      rewrite lit_contains_insert. f_equal. apply bool_decide_ext. naive_solver.
    + rewrite (bool_decide_eq_false_2 (ty' = ty ∧ _)) by naive_solver. done.
  - destruct (lit_union_universe _) as [v ch] eqn:E. destruct t as [[ty' src]|]; [|done].
    cbn. rewrite lm_get_set. destruct (decide (ty' = ty)) as [->|Hne].
    + assert (v = LAny) as ->.
      { unfold lit_union_universe in E. destruct (lm_get (ts_map s) ty); by simplify_eq. }
      rewrite bool_decide_eq_true_2 by naive_solver. done.
    + rewrite (bool_decide_eq_false_2 (ty' = ty ∧ _)) by naive_solver. done.
Qed.

Lemma ts_insert_changed s ty lit :
  snd (ts_insert s ty lit) = true ↔
  ∃ src, (lit = None ∨ lit = Some src) ∧ ts_contains s (Some (ty, src)) = false.
Proof.
  unfold ts_insert. destruct lit as [x|].
  - destruct (lit_insert _ x) as [v ch] eqn:E. cbn [snd].
    replace ch with (snd (lit_insert (lm_get (ts_map s) ty) x)) by (by rewrite E).
    rewrite lit_insert_changed. cbn. naive_solver.
  - destruct (lit_union_universe _) as [v ch] eqn:E. cbn [snd].
    replace ch with (snd (lit_union_universe (lm_get (ts_map s) ty))) by (by rewrite E).
    rewrite lit_universe_changed. cbn. naive_solver.
Qed.

Lemma ts_union_unfold s o inc :
  ts_union s o inc =
    (TSet (fst (lm_union (ts_map s) (ts_map o))) (ts_e s || (inc && ts_e o)),
     (inc && (negb (ts_e s) && ts_e o)) || snd (lm_union (ts_map s) (ts_map o))).
Proof.
  unfold ts_union. destruct (lm_union _ _) as [m c]. f_equal. f_equal.
  destruct inc, (ts_e s), (ts_e o); done.
Qed.

Lemma ts_contains_union s o inc t :
  ts_contains (fst (ts_union s o inc)) t =
    ts_contains s t || (match t with None => inc | _ => true end && ts_contains o t).
Proof.
  rewrite ts_union_unfold. destruct t as [[ty src]|]; cbn; [|done].
  rewrite lm_get_union, lit_contains_union. done.
Qed.

Lemma ts_union_changed s o inc :
  snd (ts_union s o inc) = true ↔
  ∃ t, (t = None → inc = true) ∧ ts_contains o t = true ∧ ts_contains s t = false.
Proof.
  rewrite ts_union_unfold. cbn [snd]. rewrite orb_true_iff, lm_union_changed.
  setoid_rewrite lit_union_changed. split.
  - intros [H|(ty&x&H1&H2)].
    + exists None. destruct inc, (ts_e s) eqn:?, (ts_e o) eqn:?; done.
    + exists (Some (ty, x)). done.
  - intros ([[ty x]|]&Hi&H1&H2).
    + right. by exists ty, x.
    + left. rewrite Hi by done. cbn in *. by rewrite H1, H2.
Qed.

Lemma ts_intersects_spec s o inc :
  ts_intersects s o inc = true ↔
  ∃ t, (t = None → inc = true) ∧ ts_contains s t = true ∧ ts_contains o t = true.
Proof.
  unfold ts_intersects. rewrite orb_true_iff, lm_intersects_spec.
  setoid_rewrite lit_intersects_spec. split.
  - intros [H|(ty&x&H1&H2)].
    + exists None. cbn. destruct inc, (ts_e s) eqn:?, (ts_e o) eqn:?; try done.
    + exists (Some (ty, x)). done.
  - intros ([[ty x]|]&Hi&H1&H2).
    + right. by exists ty, x.
    + left. rewrite Hi by done. cbn in *. by rewrite H1, H2.
Qed.

Lemma lm_intersection_repr_spec ty m o r :
  r ∈ lm_intersection_repr ty m o ↔
  (∃ k x, r = RLit x ∧ lit_contains (lm_get m k) x = true ∧ lit_contains (lm_get o k) x = true ∧
          ¬ (lm_get m k = LAny ∧ lm_get o k = LAny)) ∨
  (∃ k, r = RTy (ty + k) ∧ lm_get m k = LAny ∧ lm_get o k = LAny).
Proof.
  revert ty o. induction m as [|x m IH]; intros ty o.
  - cbn. split; [set_solver|]. intros [(k&y&_&H&_)|(k&_&H&_)]; by rewrite lm_get_nil in H.
  - destruct o as [|y o].
    { cbn. split; [set_solver|]. intros [(k&z&_&_&H&_)|(k&_&_&H)]; by rewrite lm_get_nil in H. }
    cbn [lm_intersection_repr]. rewrite elem_of_app, IH.
    assert (r ∈ (if lit_is_empty (lit_intersection x y) then []
       else match lit_iter (lit_intersection x y) with Some ls => map RLit ls | None => [RTy ty] end) ↔
       (∃ z, r = RLit z ∧ lit_contains x z = true ∧ lit_contains y z = true ∧ ¬ (x = LAny ∧ y = LAny)) ∨
       (r = RTy ty ∧ x = LAny ∧ y = LAny)) as Hhd.
    { destruct (lit_is_empty (lit_intersection x y)) eqn:E.
      - rewrite lit_is_empty_spec in E. split; [set_solver|].
        intros [(z&_&H1&H2&_)|(_&->&->)].
        + specialize (E z). rewrite lit_contains_intersection, H1, H2 in E. done.
        + specialize (E ""%string). done.
      - clear E. setoid_rewrite <- andb_true_iff || idtac.
        destruct (lit_iter (lit_intersection x y)) as [ls|] eqn:E.
        + destruct (lit_intersection x y) as [s|] eqn:E2; [|done]. cbn in E. simplify_eq.
          rewrite elem_of_list_fmap. setoid_rewrite elem_of_elements.
          assert (¬ (x = LAny ∧ y = LAny)) as Hno by (intros [-> ->]; done).
          assert (∀ z, z ∈ s ↔ lit_contains x z = true ∧ lit_contains y z = true) as Hz.
          { intros z. rewrite <- andb_true_iff, <- lit_contains_intersection, E2. cbn.
            by rewrite bool_decide_eq_true. }
          setoid_rewrite Hz. naive_solver.
        + destruct x, y; try done. rewrite elem_of_list_singleton.
          split; [naive_solver|]. intros [(?&_&_&_&Hn)|(?&_)]; [|done].
          exfalso. by apply Hn. }
    rewrite Hhd. split.
    + intros [[(z&?&?&?&?)|(?&?&?)]|[(k&z&?&?&?&?)|(k&?&?&?)]].
      * left. exists 0, z. done.
      * right. exists 0. rewrite Nat.add_0_r. done.
      * left. exists (S k), z. done.
      * right. exists (S k). replace (ty + S k) with (S ty + k) by lia. done.
    + intros [([|k]&z&?&?&?&?)|([|k]&?&?&?)].
      * left. left. exists z. done.
      * right. left. exists k, z. done.
      * left. right. rewrite Nat.add_0_r in *. done.
      * right. right. exists k. replace (S ty + k) with (ty + S k) by lia. done.
Qed.

(** Order on denotations. *)
Definition ts_sub (s o : tset) : Prop := ∀ t, ts_contains s t = true → ts_contains o t = true.
Definition ts_same (s o : tset) : Prop := ∀ t, ts_contains s t = ts_contains o t.

#[global] Instance ts_sub_preorder : PreOrder ts_sub.
Proof. split; [by intros s t|]. intros a b c H1 H2 t Ht. by apply H2, H1. Qed.

Lemma ts_sub_union s o inc : ts_sub s (fst (ts_union s o inc)).
Proof. intros t Ht. by rewrite ts_contains_union, Ht. Qed.

(** * Weights, for termination *)
Definition lit_weight (U : gset string) (l : litset) : nat :=
  match l with LMatch s => size s | LAny => S (size U) end.
Definition lit_in (U : gset string) (l : litset) : Prop :=
  match l with LMatch s => s ⊆ U | LAny => True end.
Fixpoint lm_weight (U : gset string) (m : list litset) : nat :=
  match m with [] => 0 | x :: r => lit_weight U x + lm_weight U r end.
Definition ts_weight (U : gset string) (s : tset) : nat :=
  lm_weight U (ts_map s) + (if ts_e s then 1 else 0).
(** bounded by [nv] types and the literals [U] *)
Definition ts_in (nv : nat) (U : gset string) (s : tset) : Prop :=
  length (ts_map s) ≤ nv ∧ Forall (lit_in U) (ts_map s).

Lemma lit_weight_bound U l : lit_in U l → lit_weight U l ≤ S (size U).
Proof. destruct l; cbn; [|lia]. intros H%subseteq_size. lia. Qed.

Lemma lm_weight_bound U m : Forall (lit_in U) m → lm_weight U m ≤ length m * S (size U).
Proof.
  induction 1 as [|x m Hx _ IH]; cbn; [lia|]. apply lit_weight_bound in Hx. lia.
Qed.

Lemma ts_weight_bound nv U s : ts_in nv U s → ts_weight U s ≤ S (nv * S (size U)).
Proof.
  intros [H1 H2]. apply lm_weight_bound in H2. unfold ts_weight.
  assert (length (ts_map s) * S (size U) ≤ nv * S (size U)) by (apply Nat.mul_le_mono_r; done).
  destruct (ts_e s); lia.
Qed.

Lemma lit_union_weight U l o : lit_in U l → lit_in U o →
  lit_in U (fst (lit_union l o)) ∧
  lit_weight U l + (if snd (lit_union l o) then 1 else 0) ≤ lit_weight U (fst (lit_union l o)).
Proof.
  intros Hl Ho. destruct l as [s|], o as [t|]; cbn in *; [|split; [done|]..].
  - split; [set_solver|].
    destruct (Nat.eqb_spec (size s) (size (s ∪ t))); cbn; [lia|].
    assert (size s ≤ size (s ∪ t)) by (apply subseteq_size; set_solver). lia.
  - apply subseteq_size in Hl. lia.
  - lia.
  - lia.
Qed.

Lemma lm_union_weight U m o : Forall (lit_in U) m → Forall (lit_in U) o →
  Forall (lit_in U) (fst (lm_union m o)) ∧
  length (fst (lm_union m o)) = Nat.max (length m) (length o) ∧
  lm_weight U m + (if snd (lm_union m o) then 1 else 0) ≤ lm_weight U (fst (lm_union m o)).
Proof.
  intros Hm Ho. revert m Hm. induction Ho as [|y o Hy Ho IH]; intros m Hm.
  - rewrite lm_union_nil_r. cbn. split_and!; [done|lia|lia].
  - destruct m as [|x m].
    + rewrite lm_union_cons_nil. cbn [fst snd].
      destruct (IH [] ltac:(constructor)) as (H1&H2&H3).
      destruct (lit_union_weight U lit_new y) as [H4 H5]; [cbn; set_solver|done|].
      split_and!; [by constructor|cbn; by rewrite H2|]. cbn [lm_weight] in *.
      destruct (snd (lit_union lit_new y)), (snd (lm_union [] o)); cbn [orb]; lia.
    + apply Forall_cons in Hm as [Hx Hm]. rewrite lm_union_cons. cbn [fst snd].
      destruct (IH m Hm) as (H1&H2&H3).
      destruct (lit_union_weight U x y) as [H4 H5]; [done|done|].
      split_and!; [by constructor|cbn; by rewrite H2|]. cbn [lm_weight] in *.
      destruct (snd (lit_union x y)), (snd (lm_union m o)); cbn [orb]; lia.
Qed.

Lemma ts_union_weight nv U s o inc : ts_in nv U s → ts_in nv U o →
  ts_in nv U (fst (ts_union s o inc)) ∧
  ts_weight U s + (if snd (ts_union s o inc) then 1 else 0) ≤ ts_weight U (fst (ts_union s o inc)).
Proof.
  intros [L1 I1] [L2 I2]. rewrite ts_union_unfold. cbn [fst snd].
  destruct (lm_union_weight U _ _ I1 I2) as (H1&H2&H3).
  unfold ts_in, ts_weight. cbn [ts_map ts_e]. split; [split; [lia|done]|].
  destruct inc, (ts_e s), (ts_e o), (snd (lm_union (ts_map s) (ts_map o))); cbn; lia.
Qed.

Lemma lm_set_weight U m ty v : Forall (lit_in U) m → lit_in U v →
  lit_weight U (lm_get m ty) ≤ lit_weight U v →
  Forall (lit_in U) (lm_set m ty v) ∧ length (lm_set m ty v) = Nat.max (S ty) (length m) ∧
  lm_weight U (lm_set m ty v) + lit_weight U (lm_get m ty) = lm_weight U m + lit_weight U v.
Proof.
  revert m. induction ty as [|k IH]; intros m Hm Hv Hle.
  - destruct m as [|x m]; cbn.
    + split_and!; [by constructor|done|]. rewrite size_empty. lia.
    + apply Forall_cons in Hm as [Hx Hm]. split_and!; [by constructor|done|].
      unfold lm_get. cbn. lia.
  - destruct m as [|x m].
    + destruct (IH [] ltac:(constructor) Hv Hle) as (H1&H2&H3). cbn [lm_set].
      split_and!; [constructor; [cbn; set_solver|done]|cbn; rewrite H2; cbn; lia|].
      rewrite lm_get_nil in *. cbn [lm_weight] in *. cbn [lit_weight lit_new] in *.
      rewrite size_empty in *. lia.
    + apply Forall_cons in Hm as [Hx Hm].
      destruct (IH m Hm Hv Hle) as (H1&H2&H3). cbn [lm_set].
      split_and!; [by constructor|cbn; rewrite H2; done|].
      change (lm_get (x :: m) (S k)) with (lm_get m k). cbn [lm_weight]. lia.
Qed.

Lemma lm_get_in U m ty : Forall (lit_in U) m → lit_in U (lm_get m ty).
Proof.
  intros H. unfold lm_get. destruct (m !! ty) as [x|] eqn:E; cbn.
  - rewrite Forall_lookup in H. by eapply H.
  - set_solver.
Qed.

Lemma ts_insert_weight nv U s ty lit : ts_in nv U s → ty < nv →
  (∀ x, lit = Some x → x ∈ U) →
  ts_in nv U (fst (ts_insert s ty lit)) ∧
  ts_weight U s + (if snd (ts_insert s ty lit) then 1 else 0) ≤ ts_weight U (fst (ts_insert s ty lit)).
Proof.
  intros [L I] Hty Hlit. unfold ts_insert.
  set (l := lm_get (ts_map s) ty). pose proof (lm_get_in U _ ty I : lit_in U l) as Hl.
  assert (∃ v ch, (match lit with Some x => lit_insert l x | None => lit_union_universe l end) = (v, ch)
    ∧ lit_in U v ∧ lit_weight U l + (if ch then 1 else 0) ≤ lit_weight U v) as (v & ch & -> & Hv & Hw).
  { destruct lit as [x|].
    - specialize (Hlit x eq_refl). destruct l as [t|]; cbn in *.
      + eexists _, _. split; [done|]. cbn. split; [set_solver|].
        case_bool_decide; cbn.
        * rewrite Nat.add_0_r. apply subseteq_size. set_solver.
        * rewrite size_union by set_solver. rewrite size_singleton. lia.
      + eexists _, _. split; [done|]. cbn. split; [done|lia].
    - destruct l as [t|]; cbn in *; eexists _, _; (split; [done|]); cbn; (split; [done|]).
      + apply subseteq_size in Hl. lia.
      + lia. }
  assert (lit_weight U l ≤ lit_weight U v) as Hlv by (destruct ch; lia).
  destruct (lm_set_weight U (ts_map s) ty v I Hv Hlv) as (H1&H2&H3).
  fold l in H3. unfold ts_in, ts_weight. cbn [fst snd ts_map ts_e].
  split; [split; [lia|done]|]. lia.
Qed.

Lemma ts_insert_e_weight nv U s : ts_in nv U s →
  ts_in nv U (fst (ts_insert_e s)) ∧
  ts_weight U s + (if snd (ts_insert_e s) then 1 else 0) ≤ ts_weight U (fst (ts_insert_e s)).
Proof.
  intros [L I]. unfold ts_insert_e, ts_in, ts_weight. cbn. split; [done|].
  destruct (ts_e s); cbn; lia.
Qed.

Lemma ts_new_in nv U : ts_in nv U ts_new.
Proof. split; cbn; [lia|constructor]. Qed.

(** * clear *)
Lemma lm_get_clear m ty : lm_get (map lit_clear m) ty = lit_clear (lm_get m ty).
Proof.
  unfold lm_get. rewrite list_lookup_fmap. by destruct (m !! ty).
Qed.

Lemma ts_contains_clear s t :
  ts_contains (ts_clear s) t = true ↔
  ∃ ty src, t = Some (ty, src) ∧ ∀ src', ts_contains s (Some (ty, src')) = true.
Proof.
  destruct t as [[ty src]|]; cbn.
  - rewrite lm_get_clear. destruct (lm_get (ts_map s) ty) as [l|] eqn:E; cbn.
    + split.
      * intros H%bool_decide_eq_true. set_solver.
      * intros (ty'&src'&[= <- <-]&H). destruct (fresh_string l) as [x Hx].
        specialize (H x). rewrite E in H. cbn in H. apply bool_decide_eq_true in H. done.
    + split; [|done]. intros _. exists ty, src. split; [done|]. intros src'. by rewrite E.
  - split; [done|]. by intros (?&?&?&_).
Qed.

Lemma ts_insert_e_changed s : snd (ts_insert_e s) = true ↔ ts_contains s None = false.
Proof. cbn. by rewrite negb_true_iff. Qed.

Lemma ts_remove_e_contains s t :
  ts_contains (fst (ts_remove_e s)) t = ts_contains s t && negb (bool_decide (t = None)).
Proof. destruct t as [[ty src]|]; cbn; by rewrite ?andb_true_r, ?andb_false_r. Qed.

Lemma lm_get_any_iff m ty : lm_get m ty = LAny ↔ ∀ x, lit_contains (lm_get m ty) x = true.
Proof.
  destruct (lm_get m ty) as [s|]; cbn; [|done]. split; [done|]. intros H.
  destruct (fresh_string s) as [x Hx]. specialize (H x). apply bool_decide_eq_true in H. done.
Qed.

Definition all_of (s : tset) (ty : nat) : Prop := ∀ x, ts_contains s (Some (ty, x)) = true.

Lemma ts_intersection_repr_spec s o inc r :
  r ∈ ts_intersection_repr s o inc ↔
  match r with
  | REmpty => inc = true ∧ ts_contains s None = true ∧ ts_contains o None = true
  | RLit x => ∃ ty, ts_contains s (Some (ty, x)) = true ∧ ts_contains o (Some (ty, x)) = true ∧
                    ¬ (all_of s ty ∧ all_of o ty)
  | RTy ty => all_of s ty ∧ all_of o ty
  end.
Proof.
  assert (∀ s ty, all_of s ty ↔ lm_get (ts_map s) ty = LAny) as Hall.
  { intros s' ty. symmetry. apply lm_get_any_iff. }
  unfold ts_intersection_repr. rewrite elem_of_app, lm_intersection_repr_spec.
  assert (∀ (b : bool), r ∈ (if b then [REmpty] else []) ↔ b = true ∧ r = REmpty) as ->.
  { intros []; rewrite ?elem_of_list_singleton; [naive_solver|]. rewrite elem_of_nil. naive_solver. }
  rewrite !andb_true_iff. destruct r as [|x|ty]; cbn [ts_contains].
  - split; [|naive_solver]. intros [H|[(?&?&?&_)|(?&?&_)]]; naive_solver.
  - setoid_rewrite Hall. split.
    + intros [[_ ?]|[(k&y&[= <-]&?&?&?)|(?&?&_)]]; [done| |done]. eauto.
    + intros (k&?&?&?). right; left. eauto 10.
  - rewrite !Hall. split.
    + intros [[_ ?]|[(?&?&?&_)|(k&[= ->]&?&?)]]; done.
    + intros [? ?]. right; right. exists ty. auto.
Qed.

Lemma lm_to_repr_spec m : ∀ k r, r ∈ lm_to_repr k m ↔
  (∃ ty x, r = RLit x ∧ lit_contains (lm_get m ty) x = true ∧ lm_get m ty ≠ LAny) ∨
  (∃ ty, r = RTy (k + ty) ∧ lm_get m ty = LAny).
Proof.
  induction m as [|l m IH]; intros k r; cbn [lm_to_repr].
  - split; [by intros ?%not_elem_of_nil|]. unfold lm_get. setoid_rewrite lookup_nil. cbn.
    intros [(ty & x & _ & E & _)|(ty & _ & [=])]. by rewrite bool_decide_eq_true in E.
  - rewrite elem_of_app, IH.
    assert (H0 : r ∈ match lit_iter l with Some ls => map RLit ls | None => [RTy k] end ↔
      (∃ x, r = RLit x ∧ lit_contains l x = true ∧ l ≠ LAny) ∨ (r = RTy k ∧ l = LAny)).
    { destruct l as [s|]; cbn.
      - rewrite elem_of_list_fmap. setoid_rewrite elem_of_elements. setoid_rewrite bool_decide_eq_true. naive_solver.
      - rewrite elem_of_list_singleton. naive_solver. }
    rewrite H0. split.
    + intros [[(x & -> & E & N)|[-> ->]]|[(ty & x & -> & E & N)|(ty & -> & E)]].
      * left. by exists 0, x.
      * right. exists 0. by rewrite Nat.add_0_r.
      * left. by exists (S ty), x.
      * right. exists (S ty). split; [f_equal; lia|done].
    + intros [([|ty] & x & -> & E & N)|([|ty] & -> & E)].
      * left. left. eauto.
      * right. left. eauto.
      * left. right. split; [f_equal; lia|done].
      * right. right. exists ty. split; [f_equal; lia|done].
Qed.
Lemma ts_to_repr_spec s r :
  r ∈ ts_to_repr s ↔
  match r with
  | REmpty => ts_contains s None = true
  | RLit x => ∃ ty, ts_contains s (Some (ty, x)) = true ∧ ¬ all_of s ty
  | RTy ty => all_of s ty
  end.
Proof.
  assert (∀ s ty, all_of s ty ↔ lm_get (ts_map s) ty = LAny) as Hall.
  { intros s' ty. symmetry. apply lm_get_any_iff. }
  unfold ts_to_repr. rewrite elem_of_app, lm_to_repr_spec.
  assert (∀ (b : bool), r ∈ (if b then [REmpty] else []) ↔ b = true ∧ r = REmpty) as ->.
  { intros []; rewrite ?elem_of_list_singleton; [naive_solver|]. rewrite elem_of_nil. naive_solver. }
  destruct r as [|x|ty]; cbn [ts_contains].
  - naive_solver.
  - setoid_rewrite Hall. naive_solver.
  - rewrite Hall. naive_solver.
Qed.

Lemma fs_one_exact ty lit t : ts_contains (fs_one ty lit) t = true ↔
  ∃ src, t = Some (ty, src) ∧ (lit = None ∨ lit = Some src).
Proof.
  unfold fs_one. rewrite ts_contains_insert. destruct t as [[y x]|]; rewrite ts_contains_new.
  - rewrite orb_false_r, bool_decide_eq_true. naive_solver.
  - naive_solver.
Qed.
