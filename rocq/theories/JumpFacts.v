(** The predictive table. *)
From Coq Require Import String.
From stdpp Require Import prelude list gmap strings relations.
From Verif Require Import SynSetModel SynSetFacts TableModel CfgSpec CfgFacts FirstFacts FollowFacts CheckFacts LocalFacts.
Local Open Scope nat_scope.
#[local] Arguments ts_contains : simpl never.
#[local] Arguments tb_get : simpl never.

Lemma jm_get_set m ty v ty' :
  jm_get (jm_set m ty v) ty' = if decide (ty' = ty) then v else jm_get m ty'.
Proof.
  unfold jm_get. revert m ty'. induction ty as [|k IH]; intros m ty'.
  - destruct m, ty'; done.
  - destruct m as [|x m]; cbn.
    + destruct ty' as [|ty']; cbn; [done|]. rewrite IH.
      destruct (decide (ty' = k)), (decide (S ty' = S k)); try lia; done.
    + destruct ty' as [|ty']; cbn; [done|]. rewrite IH.
      destruct (decide (ty' = k)), (decide (S ty' = S k)); try lia; done.
Qed.

Definition jt_entry (j : jtable) (ty : nat) : option nat * gmap string nat := jm_get (jt_map j) ty.

Lemma jt_lits_entry j v ty (ls : list string) ty' :
  jt_entry (foldl (λ j x, jt_register_lit j v ty x) j ls) ty' =
    if decide (ty' = ty) then (fst (jt_entry j ty), foldl (λ g x, <[x := v]> g) (snd (jt_entry j ty)) ls)
    else jt_entry j ty'.
Proof.
  revert j. induction ls as [|x ls IH]; intros j; cbn [foldl].
  - case_decide; [|done]. subst. by destruct (jt_entry j ty).
  - rewrite IH. unfold jt_entry, jt_register_lit. cbn [jt_map]. rewrite !jm_get_set.
    rewrite (decide_True (P:=ty=ty)) by done. by case_decide.
Qed.
Lemma jt_lits_eps j v ty (ls : list string) :
  jt_eps (foldl (λ j x, jt_register_lit j v ty x) j ls) = jt_eps j.
Proof. revert j. induction ls as [|x ls IH]; intros j; cbn [foldl]; [done|]. by rewrite IH. Qed.

Lemma foldl_insert_lookup (v : nat) (ls : list string) (g : gmap string nat) x :
  foldl (λ g x, <[x := v]> g) g ls !! x = if decide (x ∈ ls) then Some v else g !! x.
Proof.
  revert g. induction ls as [|y ls IH]; intros g; cbn [foldl].
  - by rewrite decide_False by apply not_elem_of_nil.
  - rewrite IH. destruct (decide (x ∈ ls)) as [Hx|Hx].
    + by rewrite decide_True by (by right).
    + destruct (decide (x = y)) as [->|Hne].
      * rewrite lookup_insert. by rewrite decide_True by left.
      * rewrite lookup_insert_ne by done. rewrite decide_False; [done|]. set_solver.
Qed.

(** One registration of a FIRST set: which entry results for a type. *)
Definition je_add (l : litset) (v : nat) (e : option nat * gmap string nat) : option nat * gmap string nat :=
  match l with
  | LAny => (Some v, snd e)
  | LMatch s => (fst e, foldl (λ g x, <[x := v]> g) (snd e) (elements s))
  end.

Lemma jt_add_types_spec m j v ty ty' :
  jt_entry (jt_add_types j v ty m) ty' =
    (if decide (ty ≤ ty') then je_add (lm_get m (ty' - ty)) v (jt_entry j ty') else jt_entry j ty') ∧
  jt_eps (jt_add_types j v ty m) = jt_eps j.
Proof.
  revert j ty. induction m as [|l m IH]; intros j ty; cbn [jt_add_types].
  - split; [|done]. case_decide; [|done]. rewrite lm_get_nil. unfold je_add, lit_new.
    rewrite elements_empty. cbn [foldl]. by destruct (jt_entry j ty').
  - destruct (IH (match lit_iter l with
                  | None => jt_register j v ty
                  | Some ls => foldl (λ j x, jt_register_lit j v ty x) j ls end) (S ty)) as [IH1 IH2].
    rewrite IH1, IH2. clear IH1 IH2 IH.
    assert (jt_eps (match lit_iter l with
                  | None => jt_register j v ty
                  | Some ls => foldl (λ j x, jt_register_lit j v ty x) j ls end) = jt_eps j) as ->.
    { destruct l; cbn [lit_iter]; [apply jt_lits_eps|done]. }
    split; [|done].
    assert (∀ z, jt_entry (match lit_iter l with
                  | None => jt_register j v ty
                  | Some ls => foldl (λ j x, jt_register_lit j v ty x) j ls end) z =
            if decide (z = ty) then je_add l v (jt_entry j ty) else jt_entry j z) as Hz.
    { intros z. destruct l as [s|]; cbn [lit_iter].
      - rewrite jt_lits_entry. done.
      - unfold jt_entry, jt_register. cbn [jt_map]. rewrite jm_get_set. done. }
    rewrite Hz. destruct (decide (ty' = ty)) as [->|Hne].
    + rewrite decide_False by lia. rewrite decide_True by lia. rewrite Nat.sub_diag. done.
    + destruct (decide (S ty ≤ ty')) as [Hle|Hle].
      * rewrite decide_True by lia. replace (ty' - ty) with (S (ty' - S ty)) by lia. done.
      * by rewrite decide_False by lia.
Qed.

Lemma jt_add_eps j s v : jt_look_up (jt_add j s v) None = if ts_e s then Some v else jt_look_up j None.
Proof.
  unfold jt_add, jt_look_up. destruct (jt_add_types_spec (ts_map s) (if ts_contains_e s then jt_register_eps j v else j) v 0 0) as [_ ->].
  unfold ts_contains_e. by destruct (ts_e s).
Qed.
Lemma jt_add_tok j s v (t : tok) :
  (∀ x, ts_contains s (Some (fst t, x)) = true → jt_look_up j (Some (fst t, x)) = None) →
  jt_look_up (jt_add j s v) (Some t) = if ts_contains s (Some t) then Some v else jt_look_up j (Some t).
Proof.
  destruct t as [ty x]. cbn [fst]. intros Hd. unfold jt_add, jt_look_up, jt_look_up_token in *. cbn [fst snd] in *.
  destruct (jt_add_types_spec (ts_map s) (if ts_contains_e s then jt_register_eps j v else j) v 0 ty) as [He _].
  unfold jt_entry in He. rewrite He. rewrite decide_True by lia. rewrite Nat.sub_0_r.
  replace (jt_map (if ts_contains_e s then jt_register_eps j v else j)) with (jt_map j) by (by destruct (ts_contains_e s)).
  unfold ts_contains in *. destruct (lm_get (ts_map s) ty) as [l|] eqn:El; cbn [je_add fst snd lit_contains] in *.
  - rewrite foldl_insert_lookup. destruct (decide (x ∈ elements l)) as [Hx|Hx].
    + rewrite bool_decide_true; [done|]. by apply elem_of_elements.
    + rewrite bool_decide_false; [done|]. intros ?. apply Hx. by apply elem_of_elements.
  - specialize (Hd x eq_refl). by destruct (snd (jm_get (jt_map j) ty) !! x).
Qed.

Section facts.
  Context {K : Type} `{EqDecision K}.
  Variable (prods : list (K * entry K)) (first : table K).
  Implicit Types (k a b x y t : K) (seen : list K) (jm : jump K).

  (** Registering the variants [ys] from index [i] on. *)
  Fixpoint jt_variants (i : nat) (ys : list K) (j : jtable) : jtable :=
    match ys with
    | [] => j
    | y :: r => jt_variants (S i) r (jt_add j (tb_get first y) i)
    end.

  (** [j] knows exactly the variants of [pre]. *)
  Definition jt_knows (pre : list K) (j : jtable) : Prop :=
    ∀ tk i, jt_look_up j tk = Some i ↔ ∃ y, pre !! i = Some y ∧ F first y tk.

  Lemma jt_variants_knows all pre ys j : all = pre ++ ys → ¬ ff_conflict first all →
    jt_knows pre j → jt_knows all (jt_variants (length pre) ys j).
  Proof.
    revert pre j. induction ys as [|y ys IH]; intros pre j Hall Hc Hj; cbn [jt_variants].
    - by rewrite Hall, app_nil_r.
    - specialize (IH (pre ++ [y]) (jt_add j (tb_get first y) (length pre))). rewrite <-app_assoc in IH.
      rewrite app_length in IH. cbn [length] in IH. rewrite Nat.add_1_r in IH. apply IH; [done..|].
      assert (all !! length pre = Some y) as Hy.
      { rewrite Hall, lookup_app_r by lia. by rewrite Nat.sub_diag. }
      assert (∀ tk, F first y tk → jt_look_up j tk = None) as Hd.
      { intros tk Htk. destruct (jt_look_up j tk) as [i|] eqn:E; [|done]. exfalso.
        apply Hj in E as (z&Hz&Hf). apply Hc. exists i, (length pre), z, y.
        pose proof (lookup_lt_Some _ _ _ Hz). split; [done|]. split; [|split; [done|]].
        - rewrite Hall. by rewrite lookup_app_l.
        - by exists tk. }
      intros tk i.
      assert (jt_look_up (jt_add j (tb_get first y) (length pre)) tk =
              if ts_contains (tb_get first y) tk then Some (length pre) else jt_look_up j tk) as ->.
      { destruct tk as [tk|]; [|apply jt_add_eps]. apply jt_add_tok. intros x Hx. by apply Hd. }
      destruct (ts_contains (tb_get first y) tk) eqn:E.
      + split.
        * intros [= <-]. exists y. split; [|done]. by rewrite lookup_app_r, Nat.sub_diag by lia.
        * intros (z&Hz&Hf). destruct (decide (i < length pre)) as [Hi|Hi].
          -- rewrite lookup_app_l in Hz by done. assert (jt_look_up j tk = Some i) as Hl by (apply Hj; eauto).
             rewrite Hd in Hl by done. done.
          -- apply lookup_lt_Some in Hz. rewrite app_length in Hz. cbn in Hz. f_equal. lia.
      + rewrite (Hj tk i). split.
        * intros (z&Hz&Hf). exists z. split; [|done]. rewrite lookup_app_l; [done|]. by eapply lookup_lt_Some.
        * intros (z&Hz&Hf). destruct (decide (i < length pre)) as [Hi|Hi].
          -- rewrite lookup_app_l in Hz by done. eauto.
          -- pose proof (lookup_lt_Some _ _ _ Hz) as Hl. rewrite app_length in Hl. cbn in Hl.
             replace i with (length pre) in Hz by lia. rewrite lookup_app_r, Nat.sub_diag in Hz by lia.
             cbn in Hz. simplify_eq. unfold F in Hf. congruence.
  Qed.

  Definition jump_ok (jm : jump K) seen0 seen : Prop :=
    ∀ k, k ∈ seen → k ∉ seen0 →
      bt_get jm k = match bt_get prods k with
                    | Some (EUnion (y :: r)) => Some (jt_variants 0 (y :: r) jt_new)
                    | _ => None
                    end.

  Definition bj_good (t0 : list K) seen jm (skip : K → Prop) (r : option (list K * jump K)) : Prop :=
    ∃ seen' jm', r = Some (seen', jm') ∧ seen ⊆ seen' ∧ t0 ⊆ seen' ∧
      (∀ k e, k ∈ seen' → k ∉ seen → bt_get prods k = Some e → comps e ⊆ seen') ∧
      (∀ k, (k ∈ seen ∨ k ∉ seen') → ¬ skip k → bt_get jm' k = bt_get jm k) ∧
      jump_ok jm' seen seen'.

  Lemma bj_all_good rec t reg i ys seen jm f :
    (∀ y seen jm, S (unseen prods seen) ≤ f → (∀ k, k ∉ seen → bt_get jm k = None) →
       bj_good [y] seen jm (λ _, False) (rec y seen jm)) →
    S (unseen prods seen) ≤ f → (∀ k, k ∉ seen → bt_get jm k = None) → t ∈ seen →
    bj_good ys seen jm (λ k, k = t) (bj_all first rec t reg i ys seen jm) ∧
    ∀ seen' jm', bj_all first rec t reg i ys seen jm = Some (seen', jm') →
      bt_get jm' t = if reg then match ys with [] => bt_get jm t
                                 | _ => Some (jt_variants i ys (default jt_new (bt_get jm t))) end
                     else bt_get jm t.
  Proof.
    intros Hrec. revert i seen jm. induction ys as [|y ys IH]; intros i seen jm Hf Hn Ht; cbn [bj_all].
    - split.
      + exists seen, jm. split; [done|]. split; [done|]. split; [apply list_subseteq_nil|].
        split; [done|]. split; [done|]. intros k ? ?. done.
      + intros ? ? [= <- <-]. by destruct reg.
    - set (jm1 := if reg then jump_register jm t (tb_get first y) i else jm).
      assert (∀ k, k ≠ t → bt_get jm1 k = bt_get jm k) as Hj1.
      { intros k Hk. unfold jm1. destruct reg; [|done]. unfold jump_register. by rewrite bt_get_insert, decide_False. }
      assert (bt_get jm1 t = if reg then Some (jt_add (default jt_new (bt_get jm t)) (tb_get first y) i) else bt_get jm t) as Hj2.
      { unfold jm1. destruct reg; [|done]. unfold jump_register. by rewrite bt_get_insert, decide_True. }
      destruct (Hrec y seen jm1 Hf) as (s1&j1&E1&A1&A2&A3&A4&A5).
      { intros k Hk. rewrite Hj1; [by apply Hn|]. intros ->. done. }
      rewrite E1. cbn [mbind option_bind].
      assert (bt_get j1 t = bt_get jm1 t) as Ht1 by (apply A4; [by left|tauto]).
      destruct (IH (S i) s1 j1) as [(s2&j2&E2&B1&B2&B3&B4&B5) HT].
      { pose proof (unseen_mono prods _ _ A1). lia. }
      { intros k Hk. rewrite A4; [|by right|tauto]. rewrite Hj1; [|intros ->; set_solver].
        apply Hn. set_solver. }
      { by apply A1. }
      rewrite E2 in HT |- *. specialize (HT s2 j2 eq_refl). split.
      + exists s2, j2. split; [done|]. split; [clear -A1 B1; set_solver|]. split; [clear -A2 B1 B2; set_solver|]. split; [|split].
        * intros k e Hk Hk' Hg. destruct (decide (k ∈ s1)) as [H1|H1]; [|by apply (B3 k e)].
          specialize (A3 k e H1 Hk' Hg). clear -A3 B1. set_solver.
        * intros k Hk Hkt. rewrite B4; [| |done].
          -- rewrite A4; [by apply Hj1| |tauto]. destruct Hk as [?|Hk]; [by left|]. right. set_solver.
          -- destruct Hk as [?|Hk]; [left; by apply A1|by right].
        * intros k Hk Hk'. destruct (decide (k ∈ s1)) as [H1|H1]; [|by apply B5].
          rewrite B4; [by apply A5|by left|]. intros ->. done.
      + intros ? ? [= <- <-]. rewrite HT, Ht1, Hj2. destruct reg; [|done].
        cbn [jt_variants default id]. by destruct ys.
  Qed.

  Lemma build_jump_good fuel t seen jm :
    S (unseen prods seen) ≤ fuel → (∀ k, k ∉ seen → bt_get jm k = None) →
    bj_good [t] seen jm (λ _, False) (build_jump prods first fuel t seen jm).
  Proof.
    revert t seen jm. induction fuel as [|f IH]; intros t seen jm Hf Hn; [lia|].
    cbn [build_jump]. destruct (bs_mem seen t) eqn:Em.
    { apply bs_mem_true in Em. exists seen, jm. split; [done|]. split; [done|]. split; [set_solver|].
      split; [done|]. split; [done|]. by intros k ? ?. }
    apply bs_mem_false in Em.
    pose proof (bs_insert_sub seen t) as Hi.
    assert (t ∈ bs_insert seen t) as Ht by (apply elem_of_bs_insert; by left).
    assert (∀ k, k ∉ bs_insert seen t → bt_get jm k = None) as Hn' by (intros k Hk; apply Hn; set_solver).
    assert (∀ e, bt_get prods t = e → (∀ l, e ≠ Some (ESeq l)) → (∀ l, e ≠ Some (EUnion l)) →
      bj_good [t] seen jm (λ _, False) (Some (bs_insert seen t, jm))) as Hleaf.
    { intros e He Hs Hu. exists (bs_insert seen t), jm. split; [done|]. split; [done|]. split; [set_solver|].
      split; [|split; [done|]].
      - intros k e' Hk Hk' Hg. apply elem_of_bs_insert in Hk as [->|?]; [|done].
        destruct e' as [| |l|l]; [apply list_subseteq_nil..| |]; subst; rewrite Hg in *; naive_solver.
      - intros k Hk Hk'. apply elem_of_bs_insert in Hk as [->|?]; [|done]. rewrite Hn by done. subst.
        destruct (bt_get prods t) as [[| | |[]]|]; naive_solver. }
    assert (∀ e reg, bt_get prods t = Some e →
      (match e with ESeq _ => reg = false | EUnion _ => reg = true | _ => False end) →
      bj_good [t] seen jm (λ _, False) (bj_all first (build_jump prods first f) t reg 0 (comps e) (bs_insert seen t) jm)) as Hcomp.
    { intros e reg Eg Hreg. pose proof (unseen_insert prods _ _ _ Eg Em) as Hu.
      destruct (bj_all_good (build_jump prods first f) t reg 0 (comps e) (bs_insert seen t) jm f)
        as [(s2&j2&E2&B1&B2&B3&B4&B5) HT]; [by apply IH|lia|done|done|].
      rewrite E2 in HT |- *. specialize (HT s2 j2 eq_refl). exists s2, j2. split; [done|]. split; [clear -Hi B1; set_solver|].
      split; [clear -Ht B1; set_solver|]. split; [|split].
      - intros k e' Hk Hk' Hg. destruct (decide (k = t)) as [->|Hne]; [simplify_eq; done|].
        apply (B3 k); [done| |done]. rewrite elem_of_bs_insert. tauto.
      - intros k Hk _. apply B4.
        + destruct Hk; [left; set_solver|by right].
        + intros ->. destruct Hk as [?|Hk]; [done|]. apply Hk. set_solver.
      - intros k Hk Hk'. destruct (decide (k = t)) as [->|Hne].
        + rewrite HT, Eg. rewrite (Hn t Em). destruct e as [| |l|l]; [done..| |]; subst reg; [done|].
          by destruct l.
        + apply B5; [done|]. rewrite elem_of_bs_insert. tauto. }
    destruct (bt_get prods t) as [[|ty lit|l|l]|] eqn:Eg.
    - by apply (Hleaf _ eq_refl).
    - by apply (Hleaf _ eq_refl).
    - by apply (Hcomp (ESeq l) false).
    - by apply (Hcomp (EUnion l) true).
    - by apply (Hleaf _ eq_refl).
  Qed.

  Lemma build_jump_spec root : ∃ seen jm,
    build_jump prods first (S (S (length prods))) root [] [] = Some (seen, jm) ∧
    (∀ k, greach prods root k → k ∈ seen) ∧
    (∀ k, bt_get jm k = if decide (k ∈ seen) then
                          match bt_get prods k with
                          | Some (EUnion (y :: r)) => Some (jt_variants 0 (y :: r) jt_new)
                          | _ => None
                          end
                        else None).
  Proof.
    destruct (build_jump_good (S (S (length prods))) root [] []) as (seen&jm&E&H1&H2&H3&H4&H5).
    - pose proof (unseen_bound prods []). lia.
    - done.
    - exists seen, jm. split; [done|]. split.
      + apply (rtc_ind_r (λ k, k ∈ seen)); [set_solver|]. intros a b _ (e&Ha&Hb) Hin.
        specialize (H3 a e Hin). apply H3; [by apply not_elem_of_nil|done|done].
      + intros k. destruct (decide (k ∈ seen)) as [Hk|Hk].
        * apply H5; [done|]. by apply not_elem_of_nil.
        * rewrite H4; [done|by right|tauto].
  Qed.

  Lemma jt_new_knows : jt_knows [] jt_new.
  Proof.
    intros tk i. split; [|by intros (y&?&_)]. destruct tk as [[ty x]|]; done.
  Qed.
End facts.
