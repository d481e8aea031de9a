(** The statements of P_Syntax, assembled from the facts about the tables. *)
From Coq Require Import String.
From stdpp Require Import prelude list gmap strings relations.
From Verif Require Import SynSetModel SynSetFacts TableModel CfgSpec DebugSpec CfgFacts FirstFacts FollowFacts CheckFacts LocalFacts JumpFacts MetaFacts OrderFacts.
Local Open Scope nat_scope.
#[local] Arguments ts_contains : simpl never.
#[local] Arguments tb_get : simpl never.

Section facts.
  Context {K : Type} `{EqDecision K}.
  Implicit Types (k a b x y root : K) (G regs iter : grammar K).

  Lemma first_terminates regs : ∃ n m, ∀ fuel, n ≤ fuel → f_loop fuel (flat_map f_rels regs) [] = Some m.
  Proof.
    destruct (first_build_some regs) as (m&H&_). exists (table_fuel regs), m. intros fuel Hf.
    by eapply f_loop_mono.
  Qed.
  Lemma first_correct regs m : first_build regs = Some m → ∀ k,
    (∀ t, ts_contains (tb_get m k) (Some t) = true ↔ starts regs k t) ∧
    (ts_contains (tb_get m k) None = true ↔ nullable regs k).
  Proof.
    intros H k. split; [intros t; exact (first_build_exact regs m H k (Some t))|].
    exact (first_build_exact regs m H k None).
  Qed.
  Lemma follow_terminates regs iter root first : iter ≡ₚ regs → first_build regs = Some first →
    ∃ n m, ∀ fuel, n ≤ fuel →
      w_loop fuel first (flat_map w_rels iter) (bt_insert [] root (fo_insert_eof ts_new)) = Some m.
  Proof.
    intros Hp Hf. destruct (first_build_some regs) as (m&Hm&Hin). simplify_eq.
    destruct (follow_build_some iter first root) as (w&Hw).
    { eapply tb_in_ext; [|done]. intros k e He. by rewrite Hp. }
    exists (table_fuel iter), w. intros fuel Hfu. by eapply w_loop_mono.
  Qed.
  Lemma follow_near regs iter root first follow : iter ≡ₚ regs → first_build regs = Some first →
    follow_build iter first root = Some follow →
    ∀ k t, ts_contains (tb_get follow k) t = true ↔ near_follow regs root k t.
  Proof.
    intros Hp Hf Hw k t.
    assert (∀ k e, (k, e) ∈ regs → (k, e) ∈ iter) as H12 by (intros; by rewrite Hp).
    assert (∀ k e, (k, e) ∈ iter → (k, e) ∈ regs) as H21 by (intros; by rewrite <-Hp).
    rewrite (follow_build_exact iter first root follow).
    - split; by apply near_follow_ext.
    - intros k' t'. rewrite (first_build_exact regs first Hf). split; by apply fder_ext.
    - done.
  Qed.
  Lemma follow_sound regs iter root first follow : iter ≡ₚ regs → all_reachable regs root →
    first_build regs = Some first → follow_build iter first root = Some follow →
    ∀ k t, ts_contains (tb_get follow k) t = true → follows regs root k t.
  Proof. intros Hp Ha Hf Hw k t H. apply near_follow_follows; [done|]. by eapply (follow_near regs iter). Qed.
  Lemma follow_complete regs iter root first follow : iter ≡ₚ regs → no_nullable_interior regs →
    first_build regs = Some first → follow_build iter first root = Some follow →
    ∀ k t, follows regs root k t → ts_contains (tb_get follow k) t = true.
  Proof. intros Hp Ha Hf Hw k t H. eapply (follow_near regs iter); [done..|]. by apply follows_near. Qed.

  (** End of input needs no condition. *)
  Lemma follow_eof_near G root : ∀ δ, derives G [N root] δ → ∀ α k, δ = α ++ [N k] → near_follow G root k None.
  Proof.
    (* stronger: every symbol after which everything is nullable *)
    assert (∀ δ, derives G [N root] δ → ∀ α k β, δ = α ++ N k :: β → nulf G β → near_follow G root k None) as H.
    { apply (rtc_ind_r (λ δ, ∀ α k β, δ = α ++ N k :: β → nulf G β → near_follow G root k None)).
      - intros α k β E _. destruct α as [|? []]; simplify_list_eq. constructor.
      - intros δ δ' _ [α x γ β Hr] IH α' k β' E Hn.
        apply app_split in E as [(l&->&->)|(l&->&E)].
        + (* k before the expanded symbol *)
          apply nulf_app in Hn as [Hl Hn]. apply nulf_app in Hn as [Hg Hb].
          apply (IH α' k (l ++ N x :: β)); [by rewrite <-app_assoc|]. apply nulf_app. split; [done|].
          econstructor; eauto.
        + apply app_split in E as [(l'&E1&->)|(l'&->&->)].
          * apply nulf_app in Hn as [Hl Hb].
            pose proof (IH α x β eq_refl Hb) as Hx. destruct Hr as [x Hin|x ty lit t Hin Hc|x ys Hin|x ys y Hin Hy].
            -- by destruct l.
            -- by destruct l as [|? []].
            -- apply fmap_app_inv in E1 as (l1&l2&->&E3&->). destruct l2 as [|z l2]; [done|].
               cbn in E3. injection E3 as Ek ->. subst z. eapply nf_last; [done| |done]. by apply nulf_map.
            -- destruct l as [|? []]; simplify_list_eq. by eapply nf_union.
          * eapply (IH (α ++ N x :: l') k β'); [by rewrite <-app_assoc|done]. }
    intros δ Hd α k ->. eapply H; [done|done|]. constructor.
  Qed.
  Lemma follow_complete_eof regs iter root first follow : iter ≡ₚ regs →
    first_build regs = Some first → follow_build iter first root = Some follow →
    ∀ k, follows regs root k None → ts_contains (tb_get follow k) None = true.
  Proof.
    intros Hp Hf Hw k [α H]. eapply (follow_near regs iter); [done..|]. by eapply follow_eof_near.
  Qed.

  (** * Which conflict is reported *)
  Lemma meet_repr G root (first follow : table K) a b r : tables_ok G root first follow →
    r ∈ ts_intersection_repr (tb_get first a) (tb_get first b) true ↔ common_item G true a b r.
  Proof.
    intros Hok. rewrite ts_intersection_repr_spec. unfold all_of, common_item, opens.
    destruct r; setoid_rewrite (tk_first _ _ _ _ Hok); done.
  Qed.

  Lemma first_first_reported regs iter root self before inner r : functional regs → iter ≡ₚ regs →
    meta_build regs iter root = Some (inl (GFirstFirst self before inner r)) →
    ∃ l i j, reachable regs root self ∧ (self, EUnion l) ∈ regs ∧ i < j ∧
      l !! i = Some before ∧ l !! j = Some inner ∧ clash regs before inner ∧
      (∀ i' b', i' < i → l !! i' = Some b' → ¬ clash regs b' inner) ∧
      (∀ c, c ∈ r ↔ common_item regs true before inner c).
  Proof.
    intros Hf Hp Hm.
    destruct (meta_build_err regs iter root _ Hf Hp Hm) as (first&follow&k&ent&Hok&Hr&Hin&Hc).
    assert (ck_self first follow k = Some (GFirstFirst self before inner r) → False) as Hself.
    { intros Hs. pose proof (ck_self_spec first follow k) as H. rewrite Hs in H. by destruct H as [_ H]. }
    destruct ent as [|ty lit|[|y l]|l]; cbn [ck_local] in Hc; [done..| |].
    - pose proof (ck_seq_spec first k y l) as H. destruct (ck_seq_loop first k y _ l) as [e'|]; [|by apply Hself in Hc].
      simplify_eq. by destruct H as (l1&z&l2&C'&E&_&_&_&H).
    - pose proof (ck_union_spec first k l) as H. destruct (ck_union_loop first k l ts_new l) as [e'|]; [|by apply Hself in Hc].
      simplify_eq. destruct H as (i&j&b&inner'&Hij&Hi&Hj&Hmeet&Hmin&_&E). simplify_eq.
      exists l, i, j. split; [done|]. split; [done|]. split; [done|]. split; [done|]. split; [done|].
      split; [by apply (meet_clash regs root first follow)|]. split.
      + intros i' b' H1 H2 H3. apply (Hmin i' b' H1 H2). by apply (meet_clash regs root first follow).
      + intros c. rewrite (meet_repr regs root first follow) by done. unfold common_item.
        destruct c; naive_solver.
  Qed.
  Lemma first_first_rejected regs iter root k l i j a b : functional regs → iter ≡ₚ regs →
    reachable regs root k → (k, EUnion l) ∈ regs → i < j → l !! i = Some a → l !! j = Some b →
    clash regs a b → ∃ e, meta_build regs iter root = Some (inl e).
  Proof. intros Hf Hp Hr Hin Hij Hi Hj Hc. eapply meta_build_rejects; [done..|]. left. eauto 10. Qed.

  Lemma first_follow_reported regs iter root self r : functional regs → iter ≡ₚ regs →
    meta_build regs iter root = Some (inl (GFirstFollow self r)) →
    reachable regs root self ∧ nullable regs self ∧
    ∃ t, starts regs self t ∧ near_follow regs root self (Some t).
  Proof.
    intros Hf Hp Hm.
    destruct (meta_build_err regs iter root _ Hf Hp Hm) as (first&follow&k&ent&Hok&Hr&Hin&Hc).
    assert (ck_self first follow k = Some (GFirstFollow self r) → reachable regs root self ∧ nullable regs self ∧
      ∃ t, starts regs self t ∧ near_follow regs root self (Some t)) as Hself.
    { intros Hs. pose proof (ck_self_spec first follow k) as H. rewrite Hs in H. destruct H as [H E].
      simplify_eq. split; [done|]. by apply (self_conflict_near regs root first follow). }
    destruct ent as [|ty lit|[|y l]|l]; cbn [ck_local] in Hc; [done..| |].
    - pose proof (ck_seq_spec first k y l) as H. destruct (ck_seq_loop first k y _ l) as [e'|]; [|by apply Hself].
      simplify_eq. by destruct H as (l1&z&l2&C'&E&_&_&_&H).
    - pose proof (ck_union_spec first k l) as H. destruct (ck_union_loop first k l ts_new l) as [e'|]; [|by apply Hself].
      simplify_eq. by destruct H as (i&j&b&inner&_&_&_&_&_&_&H).
  Qed.

  (** The element named first in a sequence conflict. *)
  Lemma seq_cur_split first (ys m1 m2 : list K) cur : Forall (Null first) m2 → (m1 = [] ∨ ¬ Null first cur) →
    ∃ n1 n2, m1 ++ cur :: m2 ++ ys = n1 ++ seq_cur first cur ys :: n2 ∧
      Forall (Null first) n2 ∧ (n1 = [] ∨ ¬ Null first (seq_cur first cur ys)).
  Proof.
    revert m1 cur m2. induction ys as [|y ys IH]; intros m1 cur m2 H2 H1; cbn [seq_cur].
    - exists m1, m2. by rewrite app_nil_r.
    - destruct (ts_contains_e (tb_get first y)) eqn:Ey.
      + destruct (IH m1 cur (m2 ++ [y])) as (n1&n2&E&?&?); [|done|].
        * apply Forall_app. split; [done|]. by repeat constructor.
        * exists n1, n2. rewrite <-E, <-app_assoc. done.
      + destruct (IH (m1 ++ cur :: m2) y []) as (n1&n2&E&?&?); [done| |].
        * right. unfold Null, F. change (ts_contains (tb_get first y) None) with (ts_contains_e (tb_get first y)). congruence.
        * exists n1, n2. rewrite <-E. rewrite <-app_assoc. done.
  Qed.

  Lemma seq_reported regs iter root self cur next r : functional regs → iter ≡ₚ regs →
    meta_build regs iter root = Some (inl (GSeq self cur next r)) →
    ∃ m1 m2 m3, reachable regs root self ∧ (self, ESeq (m1 ++ cur :: m2 ++ next :: m3)) ∈ regs ∧
      seq_clash_seen regs (m1 ++ cur :: m2 ++ [next]) ∧ ¬ seq_clash_seen regs (m1 ++ cur :: m2) ∧
      Forall (nullable regs) m2 ∧ (m1 = [] ∨ ¬ nullable regs cur).
  Proof.
    intros Hf Hp Hm.
    destruct (meta_build_err regs iter root _ Hf Hp Hm) as (first&follow&k&ent&Hok&Hr&Hin&Hc).
    assert (ck_self first follow k = Some (GSeq self cur next r) → False) as Hself.
    { intros Hs. pose proof (ck_self_spec first follow k) as H. rewrite Hs in H. by destruct H as [_ H]. }
    destruct ent as [|ty lit|[|y l]|l]; cbn [ck_local] in Hc; [done..| |].
    - pose proof (ck_seq_spec first k y l) as H. destruct (ck_seq_loop first k y _ l) as [e'|]; [|by apply Hself in Hc].
      simplify_eq. destruct H as (l1&z&l2&C'&E&_&(tk&H1&H2)&Hno&E').
      injection E' as -> -> -> _. injection E as ->.
      destruct (seq_cur_split first l1 [] [] y) as (n1&n2&E&Hn2&Hn1); [done|by left|]. cbn [app] in E.
      exists n1, n2, l2. split; [done|]. split.
      { rewrite app_comm_cons, E, <-app_assoc in Hin. done. }
      rewrite <-!(seq_conflict_seen regs root first follow Hok), <-(Forall_Null regs root first follow Hok), <-(Null_nullable regs root first follow Hok).
      split; [|split; [by rewrite <-E|done]].
      exists (y :: l1), z, [], tk. split; [|done]. rewrite E, <-app_assoc. done.
    - pose proof (ck_union_spec first k l) as H. destruct (ck_union_loop first k l ts_new l) as [e'|]; [|by apply Hself in Hc].
      simplify_eq. by destruct H as (i&j&b&inner'&_&_&_&_&_&_&E).
  Qed.
  Lemma seq_rejected regs iter root k l : functional regs → iter ≡ₚ regs →
    reachable regs root k → (k, ESeq l) ∈ regs → seq_clash regs l → ∃ e, meta_build regs iter root = Some (inl e).
  Proof. intros Hf Hp Hr Hin Hc. eapply meta_build_rejects; [done..|]. left. by apply seq_clash_is_seen. Qed.
  Lemma seq_reported_partial regs iter root self cur next r : functional regs → iter ≡ₚ regs → no_open_nullable regs →
    meta_build regs iter root = Some (inl (GSeq self cur next r)) →
    ∃ l, reachable regs root self ∧ (self, ESeq l) ∈ regs ∧ seq_clash regs l.
  Proof.
    intros Hf Hp Ho Hm. destruct (seq_reported _ _ _ _ _ _ _ Hf Hp Hm) as (m1&m2&m3&Hr&Hin&Hc&_).
    eexists. split; [done|]. split; [done|].
    destruct Hc as (l1&y&l2&z&l3&t&E&Hn&Hor&Hst&Hst'). exists l1, y, l2, z, (l3 ++ m3), t.
    assert (m1 ++ cur :: m2 ++ next :: m3 = l1 ++ y :: l2 ++ z :: l3 ++ m3) as E'.
    { transitivity ((m1 ++ cur :: m2 ++ [next]) ++ m3).
      - rewrite <-!app_assoc. cbn. by rewrite <-app_assoc.
      - rewrite E, <-!app_assoc. cbn. by rewrite <-!app_assoc. }
    split; [done|]. split; [done|]. split; [|done]. destruct Hor as [?|Ho']; [done|].
    exfalso. eapply (Ho self _ y (fst t)); [exact Hin| |done|exact Ho']. rewrite E'. set_solver.
  Qed.

  (** * What the reports list *)
  Lemma first_follow_items regs iter root self r : functional regs → iter ≡ₚ regs →
    meta_build regs iter root = Some (inl (GFirstFollow self r)) →
    reachable regs root self ∧ nullable regs self ∧
    ∀ c, c ∈ r ↔ common (starts regs self) (λ t, near_follow regs root self (Some t)) c.
  Proof.
    intros Hf Hp Hm.
    destruct (meta_build_err regs iter root _ Hf Hp Hm) as (first&follow&k&ent&Hok&Hr&Hin&Hc).
    assert (ck_self first follow k = Some (GFirstFollow self r) → reachable regs root self ∧ nullable regs self ∧
      ∀ c, c ∈ r ↔ common (starts regs self) (λ t, near_follow regs root self (Some t)) c) as Hself.
    { intros Hs. pose proof (ck_self_spec first follow k) as H. rewrite Hs in H. destruct H as [H E].
      simplify_eq. split; [done|]. split; [by apply (self_conflict_near regs root first follow)|].
      intros c. rewrite ts_intersection_repr_spec. unfold all_of, common.
      destruct c; setoid_rewrite (tk_first _ _ _ _ Hok); setoid_rewrite (tk_follow _ _ _ _ Hok); cbn; naive_solver. }
    destruct ent as [|ty lit|[|y l]|l]; cbn [ck_local] in Hc; [done..| |].
    - pose proof (ck_seq_spec first k y l) as H. destruct (ck_seq_loop first k y _ l) as [e'|]; [|by apply Hself].
      simplify_eq. by destruct H as (l1&z&l2&C'&E&_&_&_&H).
    - pose proof (ck_union_spec first k l) as H. destruct (ck_union_loop first k l ts_new l) as [e'|]; [|by apply Hself].
      simplify_eq. by destruct H as (i&j&b&inner&_&_&_&_&_&_&H).
  Qed.

  Lemma seq_items regs iter root self cur next r : functional regs → iter ≡ₚ regs →
    meta_build regs iter root = Some (inl (GSeq self cur next r)) →
    ∃ m1 m2 m3, reachable regs root self ∧ (self, ESeq (m1 ++ cur :: m2 ++ next :: m3)) ∈ regs ∧
      ∀ c, c ∈ r ↔ common (carried regs (m1 ++ cur :: m2)) (starts regs next) c.
  Proof.
    intros Hf Hp Hm.
    destruct (meta_build_err regs iter root _ Hf Hp Hm) as (first&follow&k&ent&Hok&Hr&Hin&Hc).
    assert (ck_self first follow k = Some (GSeq self cur next r) → False) as Hself.
    { intros Hs. pose proof (ck_self_spec first follow k) as H. rewrite Hs in H. by destruct H as [_ H]. }
    destruct ent as [|ty lit|[|y l]|l]; cbn [ck_local] in Hc; [done..| |].
    - pose proof (ck_seq_spec first k y l) as H. destruct (ck_seq_loop first k y _ l) as [e'|]; [|by apply Hself in Hc].
      simplify_eq. destruct H as (l1&z&l2&C'&E&Hinv&_&_&E').
      injection E' as -> -> -> ->. injection E as ->.
      destruct (seq_cur_split first l1 [] [] y) as (n1&n2&E&Hn2&Hn1); [done|by left|]. cbn [app] in E.
      exists n1, n2, l2. split; [done|]. split.
      { rewrite app_comm_cons, E, <-app_assoc in Hin. done. }
      assert (∀ tk, ts_contains C' (Some tk) = true ↔ carried regs (n1 ++ seq_cur first y l1 :: n2) tk) as HC.
      { intros tk. rewrite <-E. rewrite (proj1 Hinv). unfold carry, carried, Open, opens.
        setoid_rewrite <-(Forall_Null regs root first follow Hok). setoid_rewrite <-(Null_nullable regs root first follow Hok).
        unfold F. setoid_rewrite (tk_first _ _ _ _ Hok). cbn. naive_solver. }
      intros c. rewrite ts_intersection_repr_spec. unfold all_of, common.
      destruct c; setoid_rewrite (tk_first _ _ _ _ Hok); rewrite ?HC; try setoid_rewrite HC; cbn; naive_solver.
    - pose proof (ck_union_spec first k l) as H. destruct (ck_union_loop first k l ts_new l) as [e'|]; [|by apply Hself in Hc].
      simplify_eq. by destruct H as (i&j&b&inner'&_&_&_&_&_&_&E).
  Qed.
End facts.
