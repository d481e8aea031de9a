(** Metadata: accept / reject decisions against derivations. *)
From Coq Require Import String.
From stdpp Require Import prelude list gmap strings relations.
From Verif Require Import SynSetModel SynSetFacts TableModel CfgSpec CfgFacts FirstFacts FollowFacts CheckFacts LocalFacts JumpFacts.
Local Open Scope nat_scope.
#[local] Arguments ts_contains : simpl never.
#[local] Arguments tb_get : simpl never.

(** * Grammars with the same declarations *)
Section ext.
  Context {K : Type} `{EqDecision K}.
  Variables G1 G2 : grammar K.
  Hypothesis Hext : ∀ k e, (k, e) ∈ G1 → (k, e) ∈ G2.
  Lemma rhs_ext k γ : rhs G1 k γ → rhs G2 k γ.
  Proof. destruct 1; econstructor; eauto. Qed.
  Lemma derives_ext α β : derives G1 α β → derives G2 α β.
  Proof.
    intros H. eapply rtc_subrel; [|exact H]. intros x y []. constructor. by apply rhs_ext.
  Qed.
  Lemma fder_ext k t : fder G1 k t → fder G2 k t.
  Proof. destruct t; cbn; unfold nullable, starts; [intros [β ?]; exists β|intros ?]; by apply derives_ext. Qed.
  Lemma near_follow_ext root k t : near_follow G1 root k t → near_follow G2 root k t.
  Proof.
    induction 1 as [|x l1 a b l2 t Hin Hst|x l1 a l2 t Hin Hn _ IH|x l y t Hin Hy _ IH].
    - constructor.
    - eapply nf_next; [by apply Hext|]. by apply (fder_ext b (Some t)).
    - eapply nf_last; [by apply Hext| |done]. eapply Forall_impl; [done|]. intros z. by apply (fder_ext z None).
    - eapply nf_union; [by apply Hext|done..].
  Qed.
  Lemma reg_toks_ext x : x ∈ reg_toks G1 → x ∈ reg_toks G2.
  Proof.
    unfold reg_toks. rewrite !elem_of_list_In, !in_flat_map. intros ([k e]&H1&H2). exists (k, e).
    split; [|done]. apply elem_of_list_In, Hext, elem_of_list_In, H1.
  Qed.
  Lemma reg_nv_ext : reg_nv G1 ≤ reg_nv G2.
  Proof.
    unfold reg_nv at 1. pose proof reg_toks_ext as H. induction (reg_toks G1) as [|[ty lit] l IH]; cbn [foldr]; [lia|].
    assert (ty < reg_nv G2) by (eapply reg_nv_lt, H; by left).
    assert (foldr (λ '(ty, _) (n : nat), S ty `max` n) 0 l ≤ reg_nv G2) by (apply IH; intros; apply H; by right).
    lia.
  Qed.
  Lemma reg_lits_ext : reg_lits G1 ⊆ reg_lits G2.
  Proof.
    intros x. unfold reg_lits. rewrite !elem_of_list_to_set, !elem_of_list_omap.
    intros (y&Hy&?). exists y. split; [by apply reg_toks_ext|done].
  Qed.
  Lemma tb_in_ext (m : table K) : tb_in (reg_nv G1) (reg_lits G1) m → tb_in (reg_nv G2) (reg_lits G2) m.
  Proof.
    intros H k. destruct (H k) as [H1 H2]. split; [pose proof reg_nv_ext; lia|].
    eapply Forall_impl; [done|]. intros [s|]; cbn; [|done]. pose proof reg_lits_ext. set_solver.
  Qed.
End ext.

Section meta.
  Context {K : Type} `{EqDecision K}.
  Implicit Types (k a b x y root : K) (G regs iter : grammar K).

  (** * Reachability *)
  Lemma greach_reachable G root k : greach G root k → reachable G root k.
  Proof.
    unfold greach. revert k. apply (rtc_ind_r (reachable G root)); [apply reachable_root|].
    intros a b _ (e&Ha&Hb) IH. eapply reachable_comp; [done| |done]. by apply bt_get_in.
  Qed.
  Lemma derives_greach G root δ : functional G → derives G [N root] δ → ∀ k, N k ∈ δ → greach G root k.
  Proof.
    intros Hf. revert δ. apply (rtc_ind_r (λ δ, ∀ k, N k ∈ δ → greach G root k)).
    - intros k Hk%elem_of_list_singleton. simplify_eq. apply rtc_refl.
    - intros δ δ' _ [α x γ β Hr] IH k. rewrite !elem_of_app. intros [Hk|[Hk|Hk]].
      + apply IH. rewrite elem_of_app. by left.
      + assert (greach G root x) as Hx by (apply IH; rewrite elem_of_app; right; by left).
        eapply rtc_r; [exact Hx|].
        destruct Hr as [x Hin|x ty lit t Hin Hc|x ys Hin|x ys y Hin Hy].
        * by apply elem_of_nil in Hk.
        * apply elem_of_list_singleton in Hk. done.
        * apply elem_of_list_fmap in Hk as (z&[= <-]&Hz). exists (ESeq ys). split; [by apply bt_get_nodup|done].
        * apply elem_of_list_singleton in Hk as [= ->]. exists (EUnion ys). split; [by apply bt_get_nodup|done].
      + apply IH. rewrite elem_of_app. right. by right.
  Qed.
  Lemma reachable_greach G root k : functional G → reachable G root k → greach G root k.
  Proof. intros Hf (α&β&H). eapply derives_greach; [done..|]. set_solver. Qed.

  (** * Decomposition of [meta_build] *)
  Record tables_ok (G : grammar K) root (first follow : table K) : Prop := {
    tk_first : ∀ k t, ts_contains (tb_get first k) t = true ↔ fder G k t;
    tk_follow : ∀ k t, ts_contains (tb_get follow k) t = true ↔ near_follow G root k t }.

  Lemma meta_build_cases regs iter root : functional regs → iter ≡ₚ regs →
    ∃ first follow, first_build regs = Some first ∧ follow_build iter first root = Some follow ∧
      tables_ok regs root first follow ∧
      ((∃ e k ent, meta_build regs iter root = Some (inl e) ∧ greach iter root k ∧
          bt_get iter k = Some ent ∧ ck_local first follow k ent = Some e ∧
          check_conflicts iter first follow (S (S (length iter))) root [] = CErr e) ∨
       (∃ (seen : list K) jm, meta_build regs iter root = Some (inr (Meta first follow jm)) ∧
          (∀ k ent, greach iter root k → bt_get iter k = Some ent → ck_local first follow k ent = None) ∧
          (∀ k, greach iter root k → k ∈ seen) ∧
          (∀ k, bt_get jm k = if decide (k ∈ seen) then
                          match bt_get iter k with
                          | Some (EUnion (y :: r)) => Some (jt_variants first 0 (y :: r) jt_new)
                          | _ => None
                          end
                        else None))).
  Proof.
    intros Hfun Hperm.
    assert (∀ k e, (k, e) ∈ regs → (k, e) ∈ iter) as H12 by (intros; by rewrite Hperm).
    assert (∀ k e, (k, e) ∈ iter → (k, e) ∈ regs) as H21 by (intros; by rewrite <-Hperm).
    destruct (first_build_some regs) as (first&Hfirst&Hin). exists first.
    pose proof (first_build_exact regs first Hfirst) as Hfe.
    destruct (follow_build_some iter first root) as (follow&Hfollow); [by eapply tb_in_ext|].
    exists follow.
    assert (∀ k t, ts_contains (tb_get first k) t = true ↔ fder iter k t) as Hfe'.
    { intros k t. rewrite Hfe. split; by apply fder_ext. }
    pose proof (follow_build_exact iter first root follow Hfe' Hfollow) as Hwe.
    split; [done|]. split; [done|]. split.
    { split; [done|]. intros k t. rewrite Hwe. split; by apply near_follow_ext. }
    unfold meta_build. rewrite Hfirst. cbn [mbind option_bind].
    destruct (check_lr_good iter first (S (S (length iter))) root [] [] []) as (s1&s2&s3&->&_).
    { done. } { pose proof (unseen_bound iter []). lia. }
    rewrite Hfollow. cbn [mbind option_bind].
    pose proof (check_conflicts_good iter first follow (S (S (length iter))) root []) as Hck.
    pose proof (check_conflicts_ok iter first follow root) as Hok.
    destruct (check_conflicts iter first follow (S (S (length iter))) root []) as [|e|seen'].
    - destruct Hck. pose proof (unseen_bound iter []). lia.
    - left. destruct Hck as (t&k&ent&->%elem_of_list_singleton&?&?&?); [pose proof (unseen_bound iter []); lia|].
      exists e, k, ent. done.
    - right. destruct (build_jump_spec iter first root) as (seen&jm&->&H1&H2). cbn [mbind option_bind].
      exists seen, jm. split; [done|]. split; [|done]. by eapply Hok.
  Qed.

  Lemma bt_get_perm regs iter k e : functional regs → iter ≡ₚ regs → bt_get iter k = Some e ↔ (k, e) ∈ regs.
  Proof.
    intros Hf Hp. split.
    - intros H%bt_get_in. by rewrite <-Hp.
    - intros H. apply bt_get_nodup; [|by rewrite Hp]. unfold functional in Hf. by rewrite Hp.
  Qed.
  Lemma greach_perm regs iter root k : functional regs → iter ≡ₚ regs → greach iter root k ↔ reachable regs root k.
  Proof.
    intros Hf Hp.
    assert (functional iter) as Hf' by (unfold functional in *; by rewrite Hp).
    assert (∀ k e, (k, e) ∈ regs → (k, e) ∈ iter) as H12 by (intros; by rewrite Hp).
    assert (∀ k e, (k, e) ∈ iter → (k, e) ∈ regs) as H21 by (intros; by rewrite <-Hp).
    split.
    - intros (α&β&H)%greach_reachable. exists α, β. by eapply derives_ext.
    - intros (α&β&H). apply reachable_greach; [done|]. exists α, β. by eapply derives_ext.
  Qed.

  (** * Local checks in derivational terms *)
  Section local.
    Variable (G : grammar K) (root : K) (first follow : table K).
    Hypothesis Hok : tables_ok G root first follow.

    Lemma F_fder y t : F first y t ↔ fder G y t.
    Proof. apply (tk_first _ _ _ _ Hok). Qed.
    Lemma Null_nullable y : Null first y ↔ nullable G y.
    Proof. apply (F_fder y None). Qed.
    Lemma meet_clash a b : meet first a b ↔ clash G a b.
    Proof.
      unfold meet, clash. setoid_rewrite F_fder. split.
      - intros ([t|]&?&?); [left; by exists t|by right].
      - intros [(t&?&?)|[??]]; [by exists (Some t)|by exists None].
    Qed.
    Lemma Forall_Null l : Forall (Null first) l ↔ Forall (nullable G) l.
    Proof. apply Forall_iff. intros y. apply Null_nullable. Qed.
    Lemma Open_opens y ty : Open first y ty ↔ opens G y ty.
    Proof. unfold Open, opens. by setoid_rewrite F_fder. Qed.
    Lemma seq_conflict_seen l : seq_conflict first l ↔ seq_clash_seen G l.
    Proof.
      split.
      - intros (l1&z&l3&t&->&(m1&y&m2&->&H1&H2&H3)&H4). exists m1, y, m2, z, l3, t.
        rewrite Null_nullable in H1. rewrite (F_fder y) in H2. rewrite (F_fder z) in H4.
        rewrite Forall_Null, Open_opens in H3. by rewrite <-app_assoc.
      - intros (m1&y&m2&z&l3&t&->&H1&H3&H2&H4). exists (m1 ++ y :: m2), z, l3, t.
        split; [by rewrite <-app_assoc|]. split; [|by apply (F_fder z (Some t))].
        exists m1, y, m2. rewrite Null_nullable, (F_fder y), Forall_Null, Open_opens. done.
    Qed.
    Lemma self_conflict_near t : self_conflict first follow t ↔
      nullable G t ∧ ∃ tk, starts G t tk ∧ near_follow G root t (Some tk).
    Proof.
      unfold self_conflict, W. rewrite Null_nullable. setoid_rewrite F_fder.
      setoid_rewrite (tk_follow _ _ _ _ Hok). done.
    Qed.
    Lemma ff_conflict_clash l : ff_conflict first l ↔
      ∃ i j yi yj, i < j ∧ l !! i = Some yi ∧ l !! j = Some yj ∧ clash G yi yj.
    Proof. unfold ff_conflict. by setoid_rewrite meet_clash. Qed.
  End local.

  Lemma seq_clash_is_seen G l : seq_clash G l → seq_clash_seen G l.
  Proof. intros (l1&y&l2&z&l3&t&?&?&?&?&?). exists l1, y, l2, z, l3, t. auto 10. Qed.

  (** * Rejections *)
  (** Where an error comes from. *)
  Lemma meta_build_err regs iter root e : functional regs → iter ≡ₚ regs →
    meta_build regs iter root = Some (inl e) →
    ∃ first follow k ent, tables_ok regs root first follow ∧ reachable regs root k ∧ (k, ent) ∈ regs ∧
      ck_local first follow k ent = Some e.
  Proof.
    intros Hf Hp Hm. destruct (meta_build_cases regs iter root Hf Hp) as (first&follow&_&_&Hok&[(e'&k&ent&He&Hr&Hb&Hc&_)|(?&?&He&_)]).
    - rewrite Hm in He. simplify_eq. exists first, follow, k, ent. split; [done|].
      rewrite <-(greach_perm regs iter) by done. rewrite <-(bt_get_perm regs iter) by done. done.
    - rewrite Hm in He. done.
  Qed.

  Lemma meta_build_total regs iter root : functional regs → iter ≡ₚ regs → ∃ r, meta_build regs iter root = Some r.
  Proof.
    intros Hf Hp. destruct (meta_build_cases regs iter root Hf Hp) as (first&follow&_&_&Hok&[(e'&k&ent&He&_)|(?&?&He&_)]); eauto.
  Qed.

  (** A conflict anywhere is rejected. *)
  Lemma meta_build_rejects regs iter root k ent : functional regs → iter ≡ₚ regs →
    reachable regs root k → (k, ent) ∈ regs →
    (match ent with
     | EUnion l => ∃ i j yi yj, i < j ∧ l !! i = Some yi ∧ l !! j = Some yj ∧ clash regs yi yj
     | ESeq l => seq_clash_seen regs l
     | _ => False
     end ∨ (match ent with ESeq (_ :: _) | EUnion _ => True | _ => False end ∧
            nullable regs k ∧ ∃ tk, starts regs k tk ∧ near_follow regs root k (Some tk))) →
    ∃ e, meta_build regs iter root = Some (inl e).
  Proof.
    intros Hf Hp Hr Hin Hc. destruct (meta_build_cases regs iter root Hf Hp) as (first&follow&_&_&Hok&[(e'&k'&ent'&He&_)|(?&?&He&Hall&_)]); [eauto|].
    exfalso. assert (ck_local first follow k ent = None) as Hn.
    { apply Hall; [by apply (greach_perm regs iter)|by apply (bt_get_perm regs iter)]. }
    apply ck_local_none in Hn. apply Hn. destruct Hc as [Hc|[Hs Hc]].
    - destruct ent as [|ty lit|l|l]; [done..| |]; cbn [local_conflict].
      + destruct l as [|y l].
        * destruct Hc as (l1&y&?&?&?&?&E&_). by destruct l1.
        * left. by apply (seq_conflict_seen regs root first follow).
      + left. by apply (ff_conflict_clash regs root first follow).
    - rewrite <-(self_conflict_near regs root first follow Hok) in Hc.
      destruct ent as [|ty lit|[|y l]|l]; cbn [local_conflict]; try done; by right.
  Qed.

  (** Accepted: no conflict at any reachable symbol. *)
  Lemma meta_build_accepts regs iter root md : functional regs → iter ≡ₚ regs →
    meta_build regs iter root = Some (inr md) →
    tables_ok regs root (md_first md) (md_follow md) ∧
    ∀ k ent, reachable regs root k → (k, ent) ∈ regs →
      match ent with
      | EUnion l => ¬ (∃ i j yi yj, i < j ∧ l !! i = Some yi ∧ l !! j = Some yj ∧ clash regs yi yj)
      | ESeq l => ¬ seq_clash_seen regs l
      | _ => True
      end ∧ (match ent with ESeq (_ :: _) | EUnion _ => True | _ => False end →
             nullable regs k → ∀ tk, starts regs k tk → ¬ near_follow regs root k (Some tk)).
  Proof.
    intros Hf Hp Hm. split.
    { destruct (meta_build_cases regs iter root Hf Hp) as (first&follow&_&_&Hok&[(e'&k'&ent'&He&_)|(?&?&He&Hall&_)]);
        rewrite Hm in He; simplify_eq. done. }
    intros k ent Hr Hin.
    assert (∀ P : Prop, (P → ∃ e, meta_build regs iter root = Some (inl e)) → ¬ P) as HP.
    { intros P HP p. destruct (HP p) as [e He]. rewrite Hm in He. done. }
    split.
    - destruct ent as [|ty lit|l|l]; [done..| |]; apply HP; intros Hc;
        (eapply (meta_build_rejects regs iter root k); [done..|by left]).
    - intros Hs Hn tk Hst. apply HP. intros Hnf.
      eapply (meta_build_rejects regs iter root k); [done..|]. right. eauto.
  Qed.

  (** * LL(1) *)
  (** A nullable symbol that starts with one of its followers. *)
  Lemma null_conflict_not_ll1 G root : functional G →
    ∀ k tk, starts G k tk → nullable G k → follows G root k (Some tk) → ¬ LL1 G root.
  Proof.
    intros Hfun. apply (starts_ind_decl G (λ k tk, nullable G k → follows G root k (Some tk) → ¬ LL1 G root)).
    - intros k ty lit t Hin _ Hn _ _. apply nullable_unfold in Hn.
      assert (∀ e, (k, e) ∈ G → e = ETok ty lit) as Hu.
      { intros e He. apply bt_get_nodup in He, Hin; [|done..]. congruence. }
      destruct Hn as [He|[(l&He&_)|(l&y&He&_)]]; by apply Hu in He.
    - intros k l1 y l2 t Hin Hl1 Hst IH Hn (α&β&Hd).
      assert (∀ e, (k, e) ∈ G → e = ESeq (l1 ++ y :: l2)) as Hu.
      { intros e He. apply bt_get_nodup in He, Hin; [|done..]. congruence. }
      apply nullable_unfold in Hn. destruct Hn as [He|[(l&He&Hall)|(l&z&He&_)]]; [by apply Hu in He| |by apply Hu in He].
      apply Hu in He. injection He as ->. apply Forall_app in Hall as [_ Hall]. apply Forall_cons in Hall as [Hy Hl2].
      apply IH; [done|]. exists (α ++ map N l1), β.
      pose proof (derives_step_in G root α k _ (T t :: β) (rhs_seq G k _ Hin) Hd) as H'.
      etrans; [exact H'|]. rewrite map_app. cbn. rewrite <-!app_assoc. cbn.
      do 2 apply derives_app_l. apply (derives_app_l G _ _ [N y]).
      apply (derives_app_r G (map N l2) [] (T t :: β)). by apply nulf_derives, nulf_map.
    - intros k l y t Hin Hy Hst IH Hn Hfol HLL.
      assert (∀ e, (k, e) ∈ G → e = EUnion l) as Hu.
      { intros e He. apply bt_get_nodup in He, Hin; [|done..]. congruence. }
      pose proof Hn as Hn0.
      apply nullable_unfold in Hn. destruct Hn as [He|[(l'&He&Hall)|(l'&z&He&Hz&Hnz)]]; [by apply Hu in He..|].
      apply Hu in He. injection He as ->.
      apply elem_of_list_lookup in Hy as [i Hi]. apply elem_of_list_lookup in Hz as [j Hj].
      assert (reachable G root k) as Hr.
      { destruct Hfol as (α&β&Hd). exists α, (T t :: β). done. }
      destruct (decide (j = i)) as [->|Hne].
      + assert (z = y) as -> by congruence. destruct Hfol as (α&β&Hd). apply IH; [done| |done]. exists α, β.
        apply (derives_step_in G root α k [N y] (T t :: β)); [|done]. econstructor; [done|].
        by eapply elem_of_list_lookup_2.
      + destruct (HLL k l Hr Hin j i z y Hne Hj Hi) as (_&_&H3). by eapply H3.
  Qed.

  Lemma seq_clash_not_ll1 G root k l : functional G → reachable G root k → (k, ESeq l) ∈ G →
    seq_clash G l → ¬ LL1 G root.
  Proof.
    intros Hf (α&β&Hd) Hin (l1&y&l2&z&l3&t&->&Hy&Hl2&Hst&Hz).
    apply (null_conflict_not_ll1 G root Hf y t); [done|done|].
    destruct Hz as [δ Hz]. exists (α ++ map N l1), (δ ++ map N l3 ++ β).
    pose proof (derives_step_in G root α k _ β (rhs_seq G k _ Hin) Hd) as H'.
    etrans; [exact H'|]. rewrite !map_app. cbn. rewrite map_app. cbn. rewrite <-!app_assoc. cbn.
    do 2 apply derives_app_l. apply (derives_app_l G _ _ [N y]). rewrite <-app_assoc. cbn.
    apply (derives_app G (map N l2) [] (N z :: map N l3 ++ β) (T t :: δ ++ map N l3 ++ β)).
    - by apply nulf_derives, nulf_map.
    - apply (derives_app_r G [N z] (T t :: δ) _ Hz).
  Qed.

  Lemma rejection_justified regs iter root e : functional regs → iter ≡ₚ regs → all_reachable regs root →
    (∀ self cur next r, e = GSeq self cur next r → no_open_nullable regs) →
    meta_build regs iter root = Some (inl e) → ¬ LL1 regs root.
  Proof.
    intros Hf Hp Hall Hopen Hm.
    destruct (meta_build_err regs iter root e Hf Hp Hm) as (first&follow&k&ent&Hok&Hr&Hin&Hc).
    assert (ck_self first follow k = Some e → ¬ LL1 regs root) as Hself.
    { intros Hs. pose proof (ck_self_spec first follow k) as H. rewrite Hs in H. destruct H as [H _].
      apply (self_conflict_near regs root _ _ Hok) in H as (Hn&tk&Hst&Hnf).
      eapply null_conflict_not_ll1; [done..|]. by apply near_follow_follows. }
    destruct ent as [|ty lit|[|y l]|l]; cbn [ck_local] in Hc; [done..| |].
    - pose proof (ck_seq_spec first k y l) as H. destruct (ck_seq_loop first k y _ l) as [e'|]; [|by apply Hself].
      simplify_eq. destruct H as (l1&z&l2&C'&E&_&(tk&H1&H2)&_&->).
      assert (seq_clash_seen regs (y :: l)) as Hseen.
      { apply (seq_conflict_seen regs root first follow Hok). exists (y :: l1), z, l2, tk. done. }
      eapply seq_clash_not_ll1; [done|done|done|].
      destruct Hseen as (m1&w&m2&z'&m3&t&E'&Hn&Ho&Hst&Hst'). exists m1, w, m2, z', m3, t.
      split; [done|]. split; [done|]. split; [|done]. destruct Ho as [?|Ho]; [done|]. exfalso.
      eapply (Hopen _ _ _ _ eq_refl k (y :: l) w (fst t)); [done| |done|done]. rewrite E'. set_solver.
    - pose proof (ck_union_spec first k l) as H. destruct (ck_union_loop first k l ts_new l) as [e'|]; [|by apply Hself].
      destruct H as (i&j&b&inner&Hij&Hi&Hj&Hmeet&_). apply (meet_clash regs root first follow Hok) in Hmeet.
      intros HLL. destruct (HLL k l Hr Hin i j b inner) as (H1&H2&_); [lia|done|done|].
      destruct Hmeet as [(t&?&?)|[??]]; eauto.
  Qed.

  Lemma accepted_ll1_near regs iter root md : functional regs → iter ≡ₚ regs →
    (∀ k l t, (k, EUnion l) ∈ regs → nullable regs k → starts regs k t → follows regs root k (Some t) → near_follow regs root k (Some t)) →
    meta_build regs iter root = Some (inr md) → LL1 regs root.
  Proof.
    intros Hf Hp Hni Hm. destruct (meta_build_accepts regs iter root md Hf Hp Hm) as [_ Hacc].
    intros k l Hr Hin i j yi yj Hij Hi Hj. destruct (Hacc k _ Hr Hin) as [H1 H2].
    assert (¬ clash regs yi yj) as Hc.
    { intros Hc. apply H1. destruct (decide (i < j)).
      - exists i, j, yi, yj. done.
      - exists j, i, yj, yi. split; [lia|]. split; [done|]. split; [done|].
        destruct Hc as [(t&?&?)|[??]]; [left; eauto|by right]. }
    split; [|split].
    - intros t ? ?. apply Hc. left. eauto.
    - intros ? ?. apply Hc. by right.
    - intros Hn t Hst Hfol.
      assert (nullable regs k) as Hk.
      { apply nullable_unfold. right; right. exists l, yi. split; [done|]. split; [|done]. by eapply elem_of_list_lookup_2. }
      assert (starts regs k t) as Hs.
      { apply starts_unfold. right; right. exists l, yj. split; [done|]. split; [|done]. by eapply elem_of_list_lookup_2. }
      apply (Hni _ _ _ Hin Hk Hs) in Hfol. by eapply H2.
  Qed.

  Lemma accepted_ll1 regs iter root md : functional regs → iter ≡ₚ regs → no_nullable_interior regs →
    meta_build regs iter root = Some (inr md) → LL1 regs root.
  Proof. intros Hf Hp Hni. apply accepted_ll1_near; [done..|]. intros k l t _ _ _. by apply follows_near. Qed.
  Lemma accepted_ll1_table regs iter root md : functional regs → iter ≡ₚ regs →
    meta_build regs iter root = Some (inr md) →
    (∀ k l t, (k, EUnion l) ∈ regs → nullable regs k → starts regs k t → follows regs root k (Some t) →
      ts_contains (tb_get (md_follow md) k) (Some t) = true) → LL1 regs root.
  Proof.
    intros Hf Hp Hm H. eapply accepted_ll1_near; [done..| |exact Hm]. intros k l t H1 H2 H3 H4.
    destruct (meta_build_accepts regs iter root md Hf Hp Hm) as [Hok _]. apply (tk_follow _ _ _ _ Hok). eauto.
  Qed.

  (** * Jump table *)
  Lemma jump_exact regs iter root md k l : functional regs → iter ≡ₚ regs →
    meta_build regs iter root = Some (inr md) → reachable regs root k → (k, EUnion l) ∈ regs →
    ∀ tk i, jump_look_up (md_jump md) k tk = Some i ↔ ∃ y, l !! i = Some y ∧
      match tk with Some t => starts regs y t | None => nullable regs y end.
  Proof.
    intros Hf Hp Hm Hr Hin tk i.
    destruct (meta_build_cases regs iter root Hf Hp) as (first&follow&_&_&Hok&[(e'&k'&ent'&He&_)|(seen&jm&He&Hall&Hseen&Hjm)]);
      rewrite Hm in He; simplify_eq. cbn [md_jump].
    apply (greach_perm regs iter) in Hr; [|done..]. apply (bt_get_perm regs iter) in Hin; [|done..].
    pose proof (Hall k _ Hr Hin) as Hnc. apply ck_local_none in Hnc. cbn [local_conflict] in Hnc.
    unfold jump_look_up. rewrite Hjm, decide_True, Hin by auto. destruct l as [|y l].
    - split; [done|]. by intros (y&?&_).
    - pose proof (jt_variants_knows first (y :: l) [] (y :: l) jt_new eq_refl) as Hk.
      cbn [length] in Hk. specialize (Hk ltac:(tauto) (jt_new_knows first) tk i). rewrite Hk.
      setoid_rewrite (F_fder regs root first follow Hok). unfold fder. by destruct tk.
  Qed.

  (** * Left recursion *)
  Section lrec.
    Variable G : grammar K.
    (** [b] can be the first symbol expanded from [a]. *)
    Inductive ledge : K → K → Prop :=
    | ledge_seq a l1 b l2 : (a, ESeq (l1 ++ b :: l2)) ∈ G → Forall (nullable G) l1 → ledge a b
    | ledge_union a l b : (a, EUnion l) ∈ G → b ∈ l → ledge a b.

    Definition lead (α : list (sym K)) (k : K) : Prop :=
      ∃ α1 j α2, α = α1 ++ N j :: α2 ∧ nulf G α1 ∧ rtc ledge j k.

    Lemma rhs_lead a γ k : rhs G a γ → lead γ k → tc ledge a k.
    Proof.
      intros Hr (α1&j&α2&E&Hn&Hj).
      assert (ledge a j) as He; [|by eapply tc_rtc_r; [apply tc_once|]].
      destruct Hr as [a Hin|a ty lit t Hin Hc|a ys Hin|a ys y Hin Hy].
      - by destruct α1.
      - by destruct α1 as [|? []].
      - apply fmap_app_inv in E as (l1&l2&->&E3&->). destruct l2 as [|z l2]; [done|]. cbn in E3.
        injection E3 as Ek ->. subst z. eapply ledge_seq; [done|]. by apply nulf_map.
      - destruct α1 as [|? []]; simplify_list_eq. by eapply ledge_union.
    Qed.

    Lemma step_lead α β k : step G α β → lead β k → lead α k.
    Proof.
      intros [α' a γ β' Hr] (α1&j&α2&E&Hn&Hj).
      apply app_split in E as [(l&->&->)|(l&->&E)].
      - exists α1, j, (l ++ N a :: β'). split; [by rewrite <-app_assoc|done].
      - apply nulf_app in Hn as [Hn1 Hn2]. apply app_split in E as [(l'&->&->)|(l'&->&->)].
        + exists α', a, β'. split; [done|]. split; [done|].
          apply tc_rtc. eapply rhs_lead; [done|]. by exists l, j, l'.
        + apply nulf_app in Hn2 as [Hg Hl]. exists (α' ++ N a :: l'), j, α2.
          split; [by rewrite <-app_assoc|]. split; [|done]. apply nulf_app. split; [done|]. econstructor; eauto.
    Qed.

    Lemma derives_lead α β k : derives G α β → lead β k → lead α k.
    Proof. induction 1; [done|]. intros. eapply step_lead; eauto. Qed.

    Lemma left_recursive_cycle k : left_recursive G k → tc ledge k k.
    Proof.
      intros [β Hd].
      inversion Hd as [x y Hst|x y z Hst Hrest]; subst.
      - inversion Hst as [α a γ β' Hr E1 E2]. destruct α as [|? []]; simplify_list_eq.
        eapply rhs_lead; [done|]. exists [], k, β. split; [done|split; [constructor|done]].
      - inversion Hst as [α a γ β' Hr E1 E2]. subst. destruct α as [|? []]; simplify_list_eq.
        eapply rhs_lead; [done|]. apply tc_rtc in Hrest. try rewrite app_nil_r in Hrest.
        eapply derives_lead; [exact Hrest|]. exists [], k, β. split; [done|]. split; [constructor|done].
    Qed.

    Lemma ledge_starts a b t : ledge a b → starts G b t → starts G a t.
    Proof.
      intros [a' l1 b' l2 Hin Hn|a' l b' Hin Hb] Hst; apply starts_unfold; right; [left|right]; eauto 10.
    Qed.
    Lemma rtc_ledge_starts a b t : rtc ledge a b → starts G b t → starts G a t.
    Proof. induction 1; [done|]. intros. eapply ledge_starts; eauto. Qed.

    Lemma anchored_starts k : anchored G k → ∃ t, starts G k t.
    Proof.
      induction 1 as [k ty lit Hin|k y l Hin _ [t IH]|k y l Hin _ [t IH]].
      - exists (ty, default ""%string lit). apply starts_unfold. left. exists ty, lit. split; [done|].
        split; [done|]. destruct lit; cbn; auto.
      - exists t. apply starts_unfold. right; left. exists (y :: l), [], y, l. split; [done|]. split; [done|]. split; [constructor|done].
      - exists t. apply starts_unfold. right; right. exists (y :: l), y. split; [done|]. split; [by left|done].
    Qed.

    Hypothesis Hfun : functional G.
    Hypothesis Hunion : ∀ k l, (k, EUnion l) ∈ G →
      ¬ ∃ i j yi yj, i < j ∧ l !! i = Some yi ∧ l !! j = Some yj ∧ clash G yi yj.
    Hypothesis Hseq : ∀ k l, (k, ESeq l) ∈ G → ¬ seq_clash G l.

    Lemma anchored_no_cycle k : anchored G k → tc ledge k k → False.
    Proof.
      induction 1 as [k ty lit Hin|k y l Hin Hy IH|k y l Hin Hy IH]; intros Hc;
        (assert (∀ e e', (k, e) ∈ G → (k, e') ∈ G → e = e') as Hu by
           (intros e e' He He'; apply bt_get_nodup in He, He'; [|done..]; congruence)).
      - assert (∃ j, ledge k j) as [j Hj] by (inversion Hc; subst; eauto).
        destruct Hj as [a l1 b l2 Hin'|a l b Hin']; specialize (Hu _ _ Hin Hin'); done.
      - assert (∃ j, ledge k j ∧ rtc ledge j k) as (j&Hj&Hjk).
        { inversion Hc; subst; [eauto using rtc_refl|]. eexists. split; [done|]. by apply tc_rtc. }
        inversion Hj as [a l1 b l2 Hin' Hn E1 E2|a l' b Hin' Hb E1 E2]; subst; specialize (Hu _ _ Hin Hin'); simplify_eq.
        destruct l1 as [|y' l1]; simplify_list_eq.
        + apply IH. eapply tc_rtc_l; [done|]. by apply tc_once.
        + inversion Hn as [|? ? Hy1 Hl1]; subst. destruct (anchored_starts _ Hy) as [t Ht].
          apply (Hseq _ _ Hin). exists [], y', l1, j, l2, t. split; [done|]. split; [done|]. split; [done|].
          split; [done|]. apply (rtc_ledge_starts j k); [done|].
          eapply ledge_starts; [|exact Ht]. apply (ledge_seq k [] y' (l1 ++ j :: l2)); [done|constructor].
      - assert (∃ j, ledge k j ∧ rtc ledge j k) as (j&Hj&Hjk).
        { inversion Hc; subst; [eauto using rtc_refl|]. eexists. split; [done|]. by apply tc_rtc. }
        inversion Hj as [a l1 b l2 Hin' Hn E1 E2|a l' b Hin' Hb E1 E2]; subst; specialize (Hu _ _ Hin Hin'); simplify_eq.
        apply elem_of_list_lookup in Hb as [i Hi]. destruct i as [|i]; simplify_eq/=.
        + apply IH. eapply tc_rtc_l; [done|]. by apply tc_once.
        + destruct (anchored_starts _ Hy) as [t Ht].
          apply (Hunion _ _ Hin). exists 0, (S i), y, j. split; [lia|]. split; [done|]. split; [done|].
          left. exists t. split; [done|]. apply (rtc_ledge_starts j k); [done|].
          eapply ledge_starts; [|exact Ht]. eapply ledge_union; [done|by left].
    Qed.
  End lrec.

  Lemma accepted_not_left_recursive regs iter root md k : functional regs → iter ≡ₚ regs →
    all_reachable regs root → all_anchored regs →
    meta_build regs iter root = Some (inr md) → ¬ left_recursive regs k.
  Proof.
    intros Hf Hp Hall Hanc Hm Hlr. apply left_recursive_cycle in Hlr.
    destruct (meta_build_accepts regs iter root md Hf Hp Hm) as [_ Hacc].
    eapply (anchored_no_cycle regs Hf); [..|exact Hlr].
    - intros x l Hin. by apply (Hacc x _ (Hall _ _ Hin) Hin).
    - intros x l Hin Hc. destruct (Hacc x _ (Hall _ _ Hin) Hin) as [Hn _]. by apply Hn, seq_clash_is_seen.
    - assert (∃ j, ledge regs k j) as [j Hj] by (inversion Hlr; subst; eauto).
      destruct Hj as [a l1 b l2 Hin|a l b Hin]; by eapply Hanc.
  Qed.

  (** The error kind is never [LeftRecursion]. *)
  Lemma never_left_recursion regs iter root e : functional regs → iter ≡ₚ regs →
    meta_build regs iter root = Some (inl e) → ∀ s t, e ≠ GLeftRecursion s t.
  Proof.
    intros Hf Hp Hm s t ->.
    destruct (meta_build_err regs iter root _ Hf Hp Hm) as (first&follow&k&ent&Hok&Hr&Hin&Hc).
    assert (ck_self first follow k = Some (GLeftRecursion s t) → False) as Hself.
    { intros Hs. pose proof (ck_self_spec first follow k) as H. rewrite Hs in H. by destruct H as [_ H]. }
    destruct ent as [|ty lit|[|y l]|l]; cbn [ck_local] in Hc; [done..| |].
    - pose proof (ck_seq_spec first k y l) as H. destruct (ck_seq_loop first k y _ l) as [e'|]; [|by apply Hself].
      simplify_eq. by destruct H as (l1&z&l2&C'&E&_&_&_&H).
    - pose proof (ck_union_spec first k l) as H. destruct (ck_union_loop first k l ts_new l) as [e'|]; [|by apply Hself].
      simplify_eq. by destruct H as (i&j&b&inner&_&_&_&_&_&_&H).
  Qed.
End meta.
