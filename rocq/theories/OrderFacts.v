(** Registration order and TypeId order do not matter. *)
From Coq Require Import String.
From stdpp Require Import prelude list gmap strings relations.
From Verif Require Import SynSetModel SynSetFacts TableModel CfgSpec CfgFacts FirstFacts FollowFacts CheckFacts LocalFacts JumpFacts MetaFacts.
Local Open Scope nat_scope.
#[local] Arguments tb_get : simpl never.

(** * Sets with the same meaning have the same entries *)
Lemma lit_ext l o : (∀ x, lit_contains l x = lit_contains o x) → l = o.
Proof.
  intros H. destruct l as [s|], o as [s'|]; cbn [lit_contains] in H.
  - f_equal. apply leibniz_equiv. intros x. specialize (H x). destruct (bool_decide (x ∈ s)) eqn:E1, (bool_decide (x ∈ s')) eqn:E2;
      try done; rewrite ?bool_decide_eq_true, ?bool_decide_eq_false in *; tauto.
  - destruct (fresh_string s) as [x Hx]. specialize (H x). by rewrite bool_decide_false in H.
  - destruct (fresh_string s') as [x Hx]. specialize (H x). by rewrite bool_decide_false in H.
  - done.
Qed.
Lemma ts_same_iff s o : ts_same s o ↔ ts_e s = ts_e o ∧ ∀ ty, lm_get (ts_map s) ty = lm_get (ts_map o) ty.
Proof.
  split.
  - intros H. split; [apply (H None)|]. intros ty. apply lit_ext. intros x. apply (H (Some (ty, x))).
  - intros [H1 H2] [[ty x]|]; cbn; [by rewrite H2|done].
Qed.
Lemma lit_inter_new_r l : lit_intersection l lit_new = lit_new.
Proof. destruct l as [s|]; cbn; [|done]. unfold lit_new. f_equal. set_solver. Qed.
Lemma lit_inter_new_l l : lit_intersection lit_new l = lit_new.
Proof. destruct l as [s|]; cbn; [|done]. unfold lit_new. f_equal. set_solver. Qed.

(** The listing, from the entries alone. *)
Definition repr_at (ty : nat) (x y : litset) : list repr :=
  let i := lit_intersection x y in
  if lit_is_empty i then [] else match lit_iter i with Some ls => map RLit ls | None => [RTy ty] end.
Lemma repr_at_new_l ty y : repr_at ty lit_new y = [].
Proof. unfold repr_at. by rewrite lit_inter_new_l. Qed.
Lemma repr_at_new_r ty x : repr_at ty x lit_new = [].
Proof. unfold repr_at. by rewrite lit_inter_new_r. Qed.
Lemma lm_intersection_repr_n n ty m o : length m ≤ n →
  lm_intersection_repr ty m o = flat_map (λ i, repr_at (ty + i) (lm_get m i) (lm_get o i)) (seq 0 n).
Proof.
  revert ty m o. induction n as [|n IH]; intros ty m o Hn.
  - destruct m; [done|]. cbn in Hn. lia.
  - cbn [seq flat_map]. rewrite <-seq_shift, flat_map_concat_map, map_map, <-flat_map_concat_map.
    destruct m as [|x m].
    { rewrite lm_get_nil, repr_at_new_l. cbn [lm_intersection_repr app]. clear. induction (seq 0 n) as [|i l IH]; [done|].
      cbn [flat_map]. by rewrite lm_get_nil, repr_at_new_l. }
    cbn in Hn. destruct o as [|y o].
    { rewrite lm_get_nil, repr_at_new_r. cbn [lm_intersection_repr app]. clear. induction (seq 0 n) as [|i l IH]; [done|].
      cbn [flat_map]. by rewrite lm_get_nil, repr_at_new_r. }
    cbn [lm_intersection_repr]. rewrite Nat.add_0_r. change (lm_get (x :: m) 0) with x. change (lm_get (y :: o) 0) with y.
    f_equal. rewrite (IH (S ty) m o) by lia. rewrite !flat_map_concat_map. f_equal. apply map_ext. intros i.
    change (lm_get (x :: m) (S i)) with (lm_get m i). change (lm_get (y :: o) (S i)) with (lm_get o i).
    f_equal. lia.
Qed.
Lemma repr_same s s' o o' inc : ts_same s s' → ts_same o o' →
  ts_intersection_repr s o inc = ts_intersection_repr s' o' inc.
Proof.
  intros [Hs1 Hs2]%ts_same_iff [Ho1 Ho2]%ts_same_iff. unfold ts_intersection_repr. rewrite Hs1, Ho1. f_equal.
  rewrite !(lm_intersection_repr_n (length (ts_map s) + length (ts_map s'))) by lia.
  rewrite !flat_map_concat_map. f_equal. apply map_ext. intros i. by rewrite Hs2, Ho2.
Qed.
Lemma intersects_same s s' o o' inc : ts_same s s' → ts_same o o' →
  ts_intersects s o inc = ts_intersects s' o' inc.
Proof.
  intros Hs Ho. apply eq_iff_eq_true. rewrite !ts_intersects_spec. unfold ts_same in *.
  setoid_rewrite Hs. setoid_rewrite Ho. done.
Qed.
Lemma union_same s s' o o' inc : ts_same s s' → ts_same o o' →
  ts_same (fst (ts_union s o inc)) (fst (ts_union s' o' inc)).
Proof. intros Hs Ho t. rewrite !ts_contains_union. by rewrite Hs, Ho. Qed.
Lemma clear_same s s' : ts_same s s' → ts_same (ts_clear s) (ts_clear s').
Proof.
  rewrite !ts_same_iff. intros [H1 H2]. unfold ts_clear. cbn. split; [done|].
  intros ty. by rewrite !lm_get_clear, H2.
Qed.
Lemma contains_e_same s s' : ts_same s s' → ts_contains_e s = ts_contains_e s'.
Proof. intros H. apply (H None). Qed.

(** Registration of a set in a jump table. *)
Definition jt_add_at (j : jtable) (v ty : nat) (l : litset) : jtable :=
  match lit_iter l with
  | None => jt_register j v ty
  | Some ls => foldl (λ j x, jt_register_lit j v ty x) j ls
  end.
Lemma jt_add_at_new j v ty : jt_add_at j v ty lit_new = j.
Proof. unfold jt_add_at, lit_new. cbn [lit_iter]. by rewrite elements_empty. Qed.
Lemma jt_add_types_n n j v ty m : length m ≤ n →
  jt_add_types j v ty m = foldl (λ j i, jt_add_at j v (ty + i) (lm_get m i)) j (seq 0 n).
Proof.
  assert (∀ (f : nat → nat) (l : list nat) g j, foldl g j (map f l) = foldl (λ (j : jtable) i, g j (f i)) j l) as Hmap.
  { intros f l g. induction l as [|x l IH]; intros j'; [done|]. cbn. apply IH. }
  revert j ty m. induction n as [|n IH]; intros j ty m Hn.
  - destruct m; [done|]. cbn in Hn. lia.
  - cbn [seq foldl]. rewrite <-seq_shift, Hmap. destruct m as [|x m].
    + rewrite lm_get_nil, jt_add_at_new. cbn [jt_add_types]. clear. induction (seq 0 n) as [|i l IH]; [done|].
      cbn [foldl]. rewrite lm_get_nil, jt_add_at_new. apply IH.
    + cbn in Hn. cbn [jt_add_types]. rewrite (IH _ (S ty) m) by lia. rewrite Nat.add_0_r.
      change (lm_get (x :: m) 0) with x. fold (jt_add_at j v ty x).
      generalize (jt_add_at j v ty x). clear. induction (seq 0 n) as [|i l IH]; intros j; [done|].
      cbn [foldl]. rewrite IH. f_equal. change (lm_get (x :: m) (S i)) with (lm_get m i). f_equal. lia.
Qed.
Lemma jt_add_same j s s' v : ts_same s s' → jt_add j s v = jt_add j s' v.
Proof.
  intros [H1 H2]%ts_same_iff. unfold jt_add, ts_contains_e. rewrite H1.
  rewrite !(jt_add_types_n (length (ts_map s) + length (ts_map s'))) by lia.
  generalize (if ts_e s' then jt_register_eps j v else j). clear -H2.
  induction (seq 0 _) as [|i l IH]; intros j; [done|]. cbn [foldl]. by rewrite H2, IH.
Qed.

Section order.
  Context {K : Type} `{EqDecision K}.
  Implicit Types (k y t root : K).

  Lemma bt_get_perm_eq {V} (m m' : list (K * V)) k : NoDup m.*1 → m' ≡ₚ m → bt_get m' k = bt_get m k.
  Proof.
    intros Hn Hp. assert (NoDup m'.*1) as Hn' by (by rewrite Hp).
    assert (∀ l l' : list (K * V), NoDup l'.*1 → l ≡ₚ l' → ∀ v, bt_get l k = Some v → bt_get l' k = Some v) as H.
    { clear. intros l l' Hn Hp v Hv. apply bt_get_nodup; [done|]. rewrite <-Hp. by apply bt_get_in. }
    destruct (bt_get m' k) as [v|] eqn:E1.
    - symmetry. by eapply H.
    - destruct (bt_get m k) as [v|] eqn:E2; [|done]. apply (H _ m') in E2; [congruence|done|done].
  Qed.

  Section cong.
    Variables (first first' follow follow' : table K).
    Hypothesis Hfirst : ∀ k, ts_same (tb_get first k) (tb_get first' k).
    Hypothesis Hfollow : ∀ k, ts_same (tb_get follow k) (tb_get follow' k).

    Lemma find_before_same t inner ys : find_before first t inner ys = find_before first' t inner ys.
    Proof.
      induction ys as [|b ys IH]; [done|]. cbn [find_before]. rewrite IH. unfold fs_intersects.
      rewrite (intersects_same _ _ _ _ true (Hfirst inner) (Hfirst b)).
      by rewrite (repr_same _ _ _ _ true (Hfirst inner) (Hfirst b)).
    Qed.
    Lemma ck_union_same t all C C' ys : ts_same C C' →
      ck_union_loop first t all C ys = ck_union_loop first' t all C' ys.
    Proof.
      revert C C'. induction ys as [|y ys IH]; intros C C' HC; [done|]. cbn [ck_union_loop].
      unfold fs_intersects, fs_union. rewrite (intersects_same _ _ _ _ true HC (Hfirst y)), find_before_same.
      rewrite (IH _ (fst (ts_union C' (tb_get first' y) true))); [done|]. by apply union_same.
    Qed.
    Lemma ck_seq_same t cur C C' ys : ts_same C C' →
      ck_seq_loop first t cur C ys = ck_seq_loop first' t cur C' ys.
    Proof.
      revert cur C C'. induction ys as [|y ys IH]; intros cur C C' HC; [done|]. cbn [ck_seq_loop].
      unfold fs_intersects_minus_eps, fs_union_minus_eps.
      rewrite (intersects_same _ _ _ _ false HC (Hfirst y)), (repr_same _ _ _ _ false HC (Hfirst y)).
      rewrite (contains_e_same _ _ (Hfirst y)).
      rewrite (IH cur _ (fst (ts_union C' (tb_get first' y) false))) by (by apply union_same).
      by rewrite (IH y _ (ts_clear C')) by (by apply clear_same).
    Qed.
    Lemma ck_self_same t : ck_self first follow t = ck_self first' follow' t.
    Proof.
      unfold ck_self, fo_intersects_first. rewrite (contains_e_same _ _ (Hfirst t)).
      rewrite (intersects_same _ _ _ _ false (Hfollow t) (Hfirst t)).
      by rewrite (repr_same _ _ _ _ false (Hfollow t) (Hfirst t)).
    Qed.
    Lemma ck_local_same t e : ck_local first follow t e = ck_local first' follow' t e.
    Proof.
      destruct e as [|ty lit|[|y l]|l]; cbn [ck_local]; [done..| |].
      - rewrite ck_self_same. rewrite (contains_e_same _ _ (Hfirst y)).
        rewrite (ck_seq_same t y _ (if ts_contains_e (tb_get first' y) then tb_get first' y else ts_new)); [done|].
        by destruct (ts_contains_e _).
      - by rewrite ck_self_same, (ck_union_same t l ts_new ts_new).
    Qed.

    Variables (it it' : list (K * entry K)).
    Hypothesis Hit : ∀ k, bt_get it k = bt_get it' k.

    Lemma check_conflicts_same fuel t seen :
      check_conflicts it first follow fuel t seen = check_conflicts it' first' follow' fuel t seen.
    Proof.
      revert t seen. induction fuel as [|f IH]; intros t seen; [done|]. cbn [check_conflicts].
      rewrite <-Hit. destruct (bs_mem seen t); [done|]. destruct (bt_get it t) as [e|]; [|done].
      rewrite <-ck_local_same. destruct (ck_local first follow t e); [done|].
      generalize (bs_insert seen t). induction (comps e) as [|y l IHl]; intros s; [done|]. cbn [ck_all].
      rewrite IH. destruct (check_conflicts it' first' follow' f y s); [done..|]. apply IHl.
    Qed.
    Lemma build_jump_same fuel t seen jm :
      build_jump it first fuel t seen jm = build_jump it' first' fuel t seen jm.
    Proof.
      revert t seen jm. induction fuel as [|f IH]; intros t seen jm; [done|]. cbn [build_jump].
      rewrite <-Hit. destruct (bs_mem seen t); [done|].
      assert (∀ reg l i s jm, bj_all first (build_jump it first f) t reg i l s jm =
                bj_all first' (build_jump it' first' f) t reg i l s jm) as Hall.
      { intros reg l. induction l as [|y l IHl]; intros i s j; [done|]. cbn [bj_all].
        unfold jump_register. rewrite (jt_add_same _ _ _ i (Hfirst y)), IH.
        destruct (build_jump it' first' f y s _) as [[s' j']|]; [|done]. cbn [mbind option_bind]. apply IHl. }
      by destruct (bt_get it t) as [[]|].
    Qed.
  End cong.

  Lemma meta_build_order (regs regs' iter iter' : grammar K) root :
    functional regs → regs' ≡ₚ regs → iter ≡ₚ regs → iter' ≡ₚ regs →
    meta_equiv (meta_build regs iter root) (meta_build regs' iter' root).
  Proof.
    intros Hf Hr Hi Hi'.
    assert (functional regs') as Hf' by (unfold functional in *; by rewrite Hr).
    assert (iter' ≡ₚ regs') as Hi2 by (by rewrite Hi', Hr).
    assert (∀ k e, (k, e) ∈ regs → (k, e) ∈ regs') as H12 by (intros; by rewrite Hr).
    assert (∀ k e, (k, e) ∈ regs' → (k, e) ∈ regs) as H21 by (intros; by rewrite <-Hr).
    destruct (meta_build_cases regs iter root Hf Hi) as (first&follow&E1&E2&Hok&Hc).
    destruct (meta_build_cases regs' iter' root Hf' Hi2) as (first'&follow'&E1'&E2'&Hok'&Hc').
    assert (∀ k, ts_same (tb_get first k) (tb_get first' k)) as S1.
    { intros k t. apply eq_iff_eq_true. rewrite (tk_first _ _ _ _ Hok), (tk_first _ _ _ _ Hok'). split; by apply fder_ext. }
    assert (∀ k, ts_same (tb_get follow k) (tb_get follow' k)) as S2.
    { intros k t. apply eq_iff_eq_true. rewrite (tk_follow _ _ _ _ Hok), (tk_follow _ _ _ _ Hok'). split; by apply near_follow_ext. }
    assert (∀ k, bt_get iter k = bt_get iter' k) as Hit.
    { intros k. rewrite (bt_get_perm_eq regs iter), (bt_get_perm_eq regs iter'); done. }
    assert (length iter = length iter') as Hlen by (by rewrite Hi, Hi').
    clear Hc Hc'. unfold meta_build. rewrite E1, E1'. cbn [mbind option_bind].
    destruct (check_lr_good iter first (S (S (length iter))) root [] [] []) as (s1&s2&s3&->&_).
    { done. } { pose proof (unseen_bound iter []). lia. }
    destruct (check_lr_good iter' first' (S (S (length iter'))) root [] [] []) as (s1'&s2'&s3'&->&_).
    { done. } { pose proof (unseen_bound iter' []). lia. }
    rewrite E2, E2'. cbn [mbind option_bind].
    rewrite <-Hlen, <-(check_conflicts_same first first' follow follow' S1 S2 iter iter' Hit).
    rewrite <-(build_jump_same first first' S1 iter iter' Hit).
    pose proof (check_conflicts_good iter first follow (S (S (length iter))) root []) as Hck.
    destruct (check_conflicts iter first follow (S (S (length iter))) root []) as [|e|seen'].
    - destruct Hck. pose proof (unseen_bound iter []). lia.
    - done.
    - destruct (build_jump_spec iter first root) as (seen&jm&->&_). cbn. done.
  Qed.
End order.
