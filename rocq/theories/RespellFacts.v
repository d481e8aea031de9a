(** How literals are spelled does not matter: the tables of the two grammars, and parsing with them. *)
From Coq Require Import String NArith.
From stdpp Require Import prelude list gmap strings relations.
From Verif Require Import LexModel LexSpec SynSetModel SynSetFacts TableModel CfgSpec CfgFacts FirstFacts LocalFacts MetaFacts StreamModel StreamSpec StreamFacts
  TypeModel TypeSpec TypeFacts ProduceModel ParseSpec LayoutSpec LayoutFacts AlikeFacts.
Local Open Scope nat_scope.
#[local] Arguments ts_contains : simpl never.
#[local] Arguments tb_get : simpl never.

(** * From one grammar to another *)
Section transfer.
  Variables (G G' : grammar prod) (KR : prod → prod → Prop) (R : tok → tok → Prop).
  Definition ER (e e' : entry prod) : Prop :=
    match e, e' with
    | EEps, EEps => True
    | ETok y o, ETok y' o' => ∀ a b, R a b → covers y o a → covers y' o' b
    | ESeq l, ESeq l' | EUnion l, EUnion l' => Forall2 KR l l'
    | _, _ => False
    end.
  Hypothesis HG : ∀ k k' e, KR k k' → (k, e) ∈ G → ∃ e', (k', e') ∈ G' ∧ ER e e'.
  Lemma nullable_transfer k : nullable G k → ∀ k', KR k k' → nullable G' k'.
  Proof.
    revert k. apply (nullable_ind_decl G (λ k, ∀ k', KR k k' → nullable G' k')).
    - intros k H k' Hk. destruct (HG _ _ _ Hk H) as ([] & H' & HE); try done. apply nullable_unfold. by left.
    - intros k l H IH k' Hk. destruct (HG _ _ _ Hk H) as ([| |l'|] & H' & HE); try done. cbn in HE. apply nullable_unfold. right; left.
      exists l'. split; [done|]. clear H H'. induction HE as [|x y l l' Hxy HE IHl]; [constructor|].
      apply Forall_cons in IH as [[_ Hx] IH]. constructor; [by apply Hx|by apply IHl].
    - intros k l y H Hy _ IH k' Hk. destruct (HG _ _ _ Hk H) as ([| | |l'] & H' & HE); try done. cbn in HE. apply nullable_unfold. right; right.
      apply elem_of_list_lookup in Hy as [i Hi]. destruct (Forall2_lookup_l _ _ _ _ _ HE Hi) as (y' & Hy' & Hyy).
      exists l', y'. split_and!; [done|by eapply elem_of_list_lookup_2|by apply IH].
  Qed.
  Lemma all_nullable l l' : Forall2 KR l l' → Forall (nullable G) l → Forall (nullable G') l'.
  Proof. induction 1 as [|x y l l' Hx Hl IH]; intros H; [constructor|]. apply Forall_cons in H as [H1 H2]. constructor; [by eapply nullable_transfer|auto]. Qed.
  Lemma starts_transfer k a : starts G k a → ∀ k' b, KR k k' → R a b → starts G' k' b.
  Proof.
    revert k a. apply (starts_ind_decl G (λ k a, ∀ k' b, KR k k' → R a b → starts G' k' b)).
    - intros k y o a H Hc k' b Hk Hab. destruct (HG _ _ _ Hk H) as ([|y' o'| |] & H' & HE); try done. cbn in HE.
      apply starts_unfold. left. exists y', o'. split; [done|]. by eapply HE.
    - intros k l1 y l2 a H Hl _ IH k' b Hk Hab. destruct (HG _ _ _ Hk H) as ([| |l'|] & H' & HE); try done. cbn in HE.
      apply Forall2_app_inv_l in HE as (l1' & r & H1 & H2 & ->). apply Forall2_cons_inv_l in H2 as (y' & l2' & Hy & H2 & ->).
      apply starts_unfold. right; left. eexists _, l1', y', l2'. split_and!; [done|done|by eapply all_nullable|by apply IH].
    - intros k l y a H Hy _ IH k' b Hk Hab. destruct (HG _ _ _ Hk H) as ([| | |l'] & H' & HE); try done. cbn in HE.
      apply elem_of_list_lookup in Hy as [i Hi]. destruct (Forall2_lookup_l _ _ _ _ _ HE Hi) as (y' & Hy' & Hyy).
      apply starts_unfold. right; right. exists l', y'. split_and!; [done|by eapply elem_of_list_lookup_2|by apply IH].
  Qed.
  Hypothesis Hfun : ∀ k k1 k2, KR k k1 → KR k k2 → k1 = k2.
  Hypothesis Htot : ∀ k e, (k, e) ∈ G → ∃ k', KR k k'.
  Variables (root root' : prod).
  Hypothesis Hroot : KR root root'.
  Lemma near_transfer k o : near_follow G root k o → ∀ k' o', KR k k' → option_Forall2 R o o' → near_follow G' root' k' o'.
  Proof.
    induction 1 as [|x l1 c d l2 t H1 H2|x l1 c l2 t H1 H2 _ IH|x l y t H1 H2 _ IH]; intros k' o' Hk Ho.
    - inversion Ho. rewrite (Hfun _ _ _ Hk Hroot). constructor.
    - inversion Ho as [? b Hb|]; subst. destruct (Htot _ _ H1) as [x' Hx]. destruct (HG _ _ _ Hx H1) as ([| |l'|] & H' & HE); try done. cbn in HE.
      apply Forall2_app_inv_l in HE as (l1' & r & E1 & E2 & ->). apply Forall2_cons_inv_l in E2 as (c' & r' & Hc & E2 & ->).
      apply Forall2_cons_inv_l in E2 as (d' & l2' & Hd & E2 & ->). rewrite (Hfun _ _ _ Hk Hc).
      eapply nf_next; [done|]. by eapply starts_transfer.
    - destruct (Htot _ _ H1) as [x' Hx]. destruct (HG _ _ _ Hx H1) as ([| |l'|] & H' & HE); try done. cbn in HE.
      apply Forall2_app_inv_l in HE as (l1' & r & E1 & E2 & ->). apply Forall2_cons_inv_l in E2 as (c' & r' & Hc & E2 & ->).
      rewrite (Hfun _ _ _ Hk Hc). eapply nf_last; [done|by eapply all_nullable|by apply IH].
    - destruct (Htot _ _ H1) as [x' Hx]. destruct (HG _ _ _ Hx H1) as ([| | |l'] & H' & HE); try done. cbn in HE.
      apply elem_of_list_lookup in H2 as [i Hi]. destruct (Forall2_lookup_l _ _ _ _ _ HE Hi) as (y' & Hy' & Hyy).
      rewrite (Hfun _ _ _ Hk Hyy). eapply nf_union; [done|by eapply elem_of_list_lookup_2|by apply IH].
  Qed.

  (** ** Conflicts *)
  Hypothesis Hl : ∀ a, ∃ b, R a b.
  Hypothesis Hr : ∀ b, ∃ a, R a b ∧ (a.1 = b.1).
  Hypothesis Hty : ∀ a b, R a b → a.1 = b.1.
  Lemma clash_transfer x y x' y' : clash G x y → KR x x' → KR y y' → clash G' x' y'.
  Proof.
    intros [(a & H1 & H2)|[H1 H2]] Hx Hy.
    - destruct (Hl a) as [b Hb]. left. exists b. split; [exact (starts_transfer x a H1 x' b Hx Hb)|exact (starts_transfer y a H2 y' b Hy Hb)].
    - right. split; [exact (nullable_transfer x H1 x' Hx)|exact (nullable_transfer y H2 y' Hy)].
  Qed.
  Lemma opens_transfer x x' y : opens G x y → KR x x' → opens G' x' y.
  Proof. intros H Hx s. destruct (Hr (y, s)) as ([y' s'] & Ha & E). cbn in E. subst y'. exact (starts_transfer x (y, s') (H s') x' (y, s) Hx Ha). Qed.
  Lemma seen_transfer l l' : seq_clash_seen G l → Forall2 KR l l' → seq_clash_seen G' l'.
  Proof.
    intros (l1 & y & l2 & z & l3 & t & -> & H1 & H2 & H3 & H4) HF.
    apply Forall2_app_inv_l in HF as (l1' & r & E1 & HF & ->). apply Forall2_cons_inv_l in HF as (y' & r' & Hy & HF & ->).
    apply Forall2_app_inv_l in HF as (l2' & r & E2 & HF & ->). apply Forall2_cons_inv_l in HF as (z' & l3' & Hz & HF & ->).
    destruct (Hl t) as [t' Ht]. exists l1', y', l2', z', l3', t'. split; [done|]. split; [exact (nullable_transfer y H1 y' Hy)|].
    split; [|split; [exact (starts_transfer y t H3 y' t' Hy Ht)|exact (starts_transfer z t H4 z' t' Hz Ht)]]. destruct H2 as [H2|H2]; [left; by eapply all_nullable|right].
    rewrite <- (Hty _ _ Ht). by eapply opens_transfer.
  Qed.
  Lemma conflict_transfer k k' e e' first follow first' follow' : KR k k' → ER e e' →
    tables_ok G root first follow → tables_ok G' root' first' follow' →
    local_conflict first follow k e → local_conflict first' follow' k' e'.
  Proof.
    intros Hk HE Hok Hok' Hc.
    assert (Hs : self_conflict first follow k → self_conflict first' follow' k').
    { rewrite (self_conflict_near _ _ _ _ Hok), (self_conflict_near _ _ _ _ Hok'). intros (H1 & a & H2 & H3).
      destruct (Hl a) as [b Hab]. split; [exact (nullable_transfer k H1 k' Hk)|]. exists b.
      split; [exact (starts_transfer k a H2 k' b Hk Hab)|]. apply (near_transfer k (Some a) H3 k' (Some b) Hk). by constructor. }
    destruct e as [|y o|l|l], e' as [|z o'|l'|l']; try done; cbn in HE.
    - destruct l as [|y l]; [done|]. destruct l' as [|y' l']; [by inversion HE|]. destruct Hc as [Hc|Hc]; [left|right; by apply Hs].
      apply (seq_conflict_seen _ _ _ _ Hok'). apply (seq_conflict_seen _ _ _ _ Hok) in Hc. exact (seen_transfer _ _ Hc HE).
    - destruct Hc as [Hc|Hc]; [left|right; by apply Hs].
      apply (ff_conflict_clash _ _ _ _ Hok'). apply (ff_conflict_clash _ _ _ _ Hok) in Hc as (i & j & yi & yj & Hij & Hi & Hj & Hc).
      destruct (Forall2_lookup_l _ _ _ _ _ HE Hi) as (zi & Hzi & Hi'). destruct (Forall2_lookup_l _ _ _ _ _ HE Hj) as (zj & Hzj & Hj').
      exists i, j, zi, zj. split_and!; [done..|]. exact (clash_transfer _ _ _ _ Hc Hi' Hj').
  Qed.
  Hypothesis Hf : functional G.
  Hypothesis Hf' : functional G'.
  Hypothesis Hre : ∀ k e, (k, e) ∈ G' → reachable G' root' k.
  Lemma accept_transfer iter iter' md' : iter ≡ₚ G → iter' ≡ₚ G' → meta_build G' iter' root' = Some (inr md') →
    ∃ md, meta_build G iter root = Some (inr md).
  Proof.
    intros Hi Hi' Hm.
    destruct (meta_build_cases G' iter' root' Hf' Hi') as (first'&follow'&_&_&Hok'&[(e0&k0&ent0&He&_)|(seen&jm&He&Hall&_)]); rewrite Hm in He; simplify_eq.
    destruct (meta_build_cases G iter root Hf Hi) as (first&follow&_&_&Hok&[(e&k&ent&He'&_&Hb&Hc&_)|(seen'&jm'&He'&_)]); [|by eexists].
    exfalso. apply (bt_get_perm G iter) in Hb; [|done..]. destruct (Htot _ _ Hb) as [k' Hk]. destruct (HG _ _ _ Hk Hb) as (e' & H & HE).
    assert (Hn : ck_local first' follow' k' e' = None).
    { apply Hall; [apply (greach_perm G' iter'); [done..|]; by eapply Hre|by apply (bt_get_perm G' iter')]. }
    apply ck_local_none in Hn. assert (Hn' : ck_local first follow k ent = None); [|congruence].
    apply ck_local_none. intros Hc'. apply Hn. exact (conflict_transfer k k' ent e' _ _ _ _ Hk HE Hok Hok' Hc').
  Qed.
End transfer.

(** * Productions *)
Fixpoint respell_prod (π : nat → string → string) (p : prod) : prod :=
  match p with
  | PTok n y lit => PTok n y (π y <$> lit)
  | PNamed n => PNamed n
  | PTuple l => PTuple (map (respell_prod π) l)
  | POpt p => POpt (respell_prod π p)
  | POneMore p => POneMore (respell_prod π p)
  | PPunct p q => PPunct (respell_prod π p) (respell_prod π q)
  | PEps => PEps
  | PBox p => PBox (respell_prod π p)
  end.

Lemma prod_of_respell π t : prod_of (respell π t) = respell_prod π (prod_of t).
Proof.
  revert t. fix IH 1. intros [n y x|n|l|t|t|t|t|t|t|t|t|t p|t p|t p]; cbn; try exact eq_refl; rewrite ?(IH t), ?(IH p); try exact eq_refl.
  f_equal. induction l as [|t l IHl]; [exact eq_refl|]. cbn. rewrite (IH t). by f_equal.
Qed.
Lemma pid_respell π p : pid (respell_prod π p) = respell_prod π (pid p).
Proof. induction p using prod_rect'; done. Qed.
Lemma key_respell π t : key (respell π t) = respell_prod π (key t).
Proof. unfold key. by rewrite prod_of_respell, pid_respell. Qed.

Lemma respell_prod_inj π lits p q : distinct_on π lits → prod_lits p ⊆ lits → prod_lits q ⊆ lits →
  respell_prod π p = respell_prod π q → p = q.
Proof.
  intros Hd. revert p q. fix IH 1. intros [n y x|n|l|p|p|p p'| |p] [n' y' x'|n'|l'|q|q|q q'| |q]; cbn; intros Hp Hq E; try discriminate E; try exact E.
  - injection E as -> -> E. destruct x as [x|], x' as [x'|]; cbn in E; try discriminate E; [|exact eq_refl]. injection E as E.
    rewrite (Hd y' x x'); [exact eq_refl|apply Hp; left|apply Hq; left|exact E].
  - injection E as E. f_equal. revert l' Hq E. induction l as [|p l IHl]; intros [|q l'] Hq E; cbn in *; try discriminate E; [exact eq_refl|].
    injection E as E1 E2. f_equal.
    + apply (IH p q); [intros x Hx; apply Hp, elem_of_app; by left|intros x Hx; apply Hq, elem_of_app; by left|exact E1].
    + apply IHl; [intros x Hx; apply Hp, elem_of_app; by right|intros x Hx; apply Hq, elem_of_app; by right|exact E2].
  - injection E as E. by rewrite (IH p q Hp Hq E).
  - injection E as E. by rewrite (IH p q Hp Hq E).
  - injection E as E1 E2. f_equal; [apply (IH p q)|apply (IH p' q')]; try assumption; intros x Hx; (apply Hp, elem_of_app; auto; fail) || (apply Hq, elem_of_app; auto).
  - injection E as E. by rewrite (IH p q Hp Hq E).
Qed.

(** * The registered productions *)
Definition respell_entry (π : nat → string → string) (e : entry prod) : entry prod :=
  match e with
  | EEps => EEps
  | ETok y o => ETok y (π y <$> o)
  | ESeq l => ESeq (map (respell_prod π) l)
  | EUnion l => EUnion (map (respell_prod π) l)
  end.
Section env.
  Variables (env : denv) (π : nat → string → string).
  Notation env' := (respell_env π env).
  Notation re := (respell_prod π).
  Lemma env_lookup n : env' !! n = respell_decl π <$> env !! n.
  Proof. apply list_lookup_fmap. Qed.
  Lemma fields_respell fs : field_prods (map (λ f : field, (respell π f.1, f.2)) fs) = map re (field_prods fs).
  Proof. unfold field_prods. rewrite !map_map. apply map_ext. intros f. apply prod_of_respell. Qed.
  Lemma pids_respell l : map pid (map re l) = map re (map pid l).
  Proof. rewrite !map_map. apply map_ext. intros p. apply pid_respell. Qed.
  Lemma kids_respell p : kids env' (re p) = map re <$> kids env p.
  Proof.
    destruct p as [n y x|n|l|p|p|p q| |p]; cbn; try done. rewrite env_lookup.
    destruct (env !! n) as [[fs|fs]|]; cbn; [| |done]; by rewrite fields_respell.
  Qed.
  Lemma entry_respell p : entry_of env' (re p) = respell_entry π <$> entry_of env p.
  Proof.
    destruct p as [n y x|n|l|p|p|p q| |p]; cbn; try done.
    - rewrite env_lookup. destruct (env !! n) as [[fs|fs]|]; cbn; [| |done]; by rewrite fields_respell, pids_respell.
    - by rewrite pids_respell.
    - by rewrite pid_respell.
    - by rewrite pid_respell.
    - by rewrite pid_respell.
  Qed.
  Lemma visible_respell p q' : visible env' (re p) q' ↔ ∃ q, q' = re q ∧ visible env p q.
  Proof.
    split.
    - intros H. remember (re p) as p' eqn:E. revert p E. induction H as [|a b c (ks & x & Hk & Hx & ->) Hbc IH]; intros p ->.
      + exists p. split; [done|apply rtc_refl].
      + rewrite kids_respell in Hk. apply fmap_Some in Hk as (ks' & Hk & ->). apply elem_of_list_fmap in Hx as (y & -> & Hy).
        rewrite pid_respell in IH. destruct (IH (pid y) eq_refl) as (q & -> & Hq). exists q. split; [done|].
        eapply rtc_l; [|exact Hq]. by exists ks', y.
    - intros (q & -> & H). induction H as [|a b c (ks & x & Hk & Hx & ->) Hbc IH]; [apply rtc_refl|].
      eapply rtc_l; [|exact IH]. exists (map re ks), (re x). rewrite kids_respell, Hk, pid_respell. split_and!; [done| |done].
      by apply elem_of_list_fmap_1.
  Qed.
End env.

Lemma no_jump (regs iter : list (prod * entry prod)) root md k : functional regs → iter ≡ₚ regs → meta_build regs iter root = Some (inr md) →
  (∀ l, (k, EUnion l) ∉ regs) → ∀ o, jump_look_up (md_jump md) k o = None.
Proof.
  intros Hf Hi Hm Hk o.
  destruct (meta_build_cases regs iter root Hf Hi) as (first&follow&_&_&_&[(e'&k'&ent'&He&_)|(seen&jm&He&_&_&Hjm)]); rewrite Hm in He; simplify_eq.
  cbn [md_jump]. unfold jump_look_up. rewrite Hjm. destruct (bt_get iter k) as [[|y x|l|l]|] eqn:E; try by destruct (decide _).
  apply (bt_get_perm regs iter) in E; [|done..]. by apply Hk in E.
Qed.

(** * Two grammars *)
Section two.
  Variables (env : denv) (t : ty) (π : nat → string → string).
  Notation env' := (respell_env π env).
  Notation t' := (respell π t).
  Notation re := (respell_prod π).
  Notation lits := (literals t ++ env_literals env).
  Notation R := (respelled π lits).
  Hypothesis Hd : distinct_on π lits.
  Definition KR (k k' : prod) : Prop := k' = re k ∧ prod_lits k ⊆ lits.

  Lemma KR_fun k k1 k2 : KR k k1 → KR k k2 → k1 = k2.
  Proof. intros [-> _] [-> _]. done. Qed.
  Lemma KR_inj k k1 k2 : flip KR k k1 → flip KR k k2 → k1 = k2.
  Proof using Hd. intros [-> H1] [E H2]. by eapply respell_prod_inj. Qed.
  Lemma R_ty a b : R a b → a.1 = b.1.
  Proof. by intros [H _]. Qed.
  Definition spelling (y : nat) : list string := map (λ a, π a.1 a.2) (filter (λ a, a.1 = y) lits).
  Lemma R_total a : ∃ b, R a b.
  Proof.
    destruct a as [y x]. destruct (decide ((y, x) ∈ lits)) as [H|H].
    - exists (y, π y x). split; [done|]. by left.
    - exists (y, fresh (spelling y)). split; [done|]. right. split; [done|]. cbn. intros z Hz E.
      apply (infinite_is_fresh (spelling y)). rewrite E. apply elem_of_list_fmap. exists (y, z). split; [done|]. by apply elem_of_list_filter.
  Qed.
  Lemma R_onto b : ∃ a, R a b ∧ a.1 = b.1.
  Proof.
    destruct b as [y x]. destruct (decide (x ∈ spelling y)) as [H|H].
    - apply elem_of_list_fmap in H as ([y' z] & -> & [E Hz]%elem_of_list_filter). cbn in E. subst y'. exists (y, z).
      split; [|done]. split; [done|]. by left.
    - exists (y, fresh (map snd lits)). split; [|done]. split; [done|]. right. split.
      + intros Hf. apply (infinite_is_fresh (map snd lits)). apply elem_of_list_fmap. eexists. split; [|exact Hf]. done.
      + cbn. intros z Hz E. apply H. apply elem_of_list_fmap. exists (y, z). split; [done|]. by apply elem_of_list_filter.
  Qed.

  Variables (regs regs' : list (prod * entry prod)).
  Hypothesis Hr : register_root env (prod_of t) = Some regs.
  Hypothesis Hr' : register_root env' (prod_of t') = Some regs'.
  Lemma key_root : pid (prod_of t') = re (key t).
  Proof. apply (key_respell π t). Qed.
  Lemma visible_good k : visible env (key t) k → prod_lits k ⊆ lits.
  Proof. intros Hv x Hx. by apply (visible_lits env t k). Qed.
  Lemma regs_good k e : (k, e) ∈ regs → KR k (re k).
  Proof using Hr. intros H. apply (register_root_spec env (prod_of t) regs Hr) in H as [H _]. split; [done|]. by apply visible_good. Qed.
  Lemma in_respell k e : prod_lits k ⊆ lits → (re k, e) ∈ regs' ↔ ∃ e0, e = respell_entry π e0 ∧ (k, e0) ∈ regs.
  Proof using Hr Hr' Hd.
    intros Hk. destruct (register_root_spec env' (prod_of t') regs' Hr') as [_ S']. destruct (register_root_spec env (prod_of t) regs Hr) as [_ S].
    rewrite S', key_root, visible_respell, entry_respell, fmap_Some. setoid_rewrite S. split.
    - intros [(k0 & E & Hv) (e0 & He & ->)]. assert (k0 = k) as ->.
      { symmetry. eapply respell_prod_inj; [exact Hd|done|by apply visible_good|done]. }
      by exists e0.
    - intros (e0 & -> & Hv & He). split; [by exists k|by exists e0].
  Qed.
  Lemma comps_good k e y : (k, e) ∈ regs → y ∈ comps e → prod_lits y ⊆ lits.
  Proof using Hr.
    intros H Hy. apply visible_good. destruct (register_root_spec env (prod_of t) regs Hr) as [_ S]. apply S in H as [Hv He].
    eapply rtc_r; [exact Hv|]. destruct (entry_kids _ _ _ He) as (ks & Hk & E). rewrite E in Hy.
    apply elem_of_list_fmap in Hy as (x & -> & Hx). by exists ks, x.
  Qed.
  Lemma KR_comps k e l : (k, e) ∈ regs → l = comps e → Forall2 KR l (map re l).
  Proof using Hr.
    intros H ->. assert (Hc := comps_good k e). specialize (λ y, Hc y H).
    induction (comps e) as [|y l IH]; cbn; constructor; [split; [done|apply Hc; left]|]. apply IH. intros z Hz. apply Hc. by right.
  Qed.
  Lemma tok_good k y x : (k, ETok y (Some x)) ∈ regs → (y, x) ∈ lits.
  Proof using Hr. intros H. by apply (registered_lits env t regs k). Qed.
  Lemma forth k k' e : KR k k' → (k, e) ∈ regs → ∃ e', (k', e') ∈ regs' ∧ ER KR R e e'.
  Proof using Hr Hr' Hd.
    intros [-> Hk] H. exists (respell_entry π e). split; [apply in_respell; [done|]; by exists e|].
    destruct e as [|y o|l|l]; cbn; [done| |by eapply KR_comps|by eapply KR_comps].
    intros a b [E Hab] [Hy Ho]. split; [congruence|]. destruct Ho as [->|Ho]; [by left|]. right. subst o. cbn. f_equal.
    destruct Hab as [[_ Hb]|[Ha _]]; [by rewrite Hb, Hy|]. destruct Ha. apply tok_good in H. rewrite <- Hy in H. by destruct a.
  Qed.
  Lemma Forall2_flip_map l : Forall2 KR l (map re l) → Forall2 (flip KR) (map re l) l.
  Proof. intros H. by apply Forall2_flip. Qed.
  Lemma back k k' e : flip KR k k' → (k, e) ∈ regs' → ∃ e', (k', e') ∈ regs ∧ ER (flip KR) (flip R) e e'.
  Proof using Hr Hr' Hd.
    intros [-> Hk] H. apply in_respell in H as (e0 & -> & H); [|done]. exists e0. split; [done|].
    destruct e0 as [|y o|l|l]; cbn; [done| |apply Forall2_flip_map; by eapply KR_comps|apply Forall2_flip_map; by eapply KR_comps].
    intros b a [E Hab] [Hy Ho]. split; [congruence|]. destruct o as [x|]; [|by left]. cbn in Ho. destruct Ho as [|Ho]; [done|]. injection Ho as Ho.
    right. f_equal. apply tok_good in H. destruct a as [ya xa], b as [yb xb]. cbn in *. subst ya yb.
    destruct Hab as [[Ha Hb]|[_ Hb]]; [apply (Hd y); [done..|congruence]|]. by destruct (Hb x).
  Qed.
  Lemma Hroot : KR (key t) (key t').
  Proof. split; [apply key_respell|]. apply visible_good, rtc_refl. Qed.
  Lemma back_total k e : (k, e) ∈ regs' → ∃ k', flip KR k k'.
  Proof using Hr'.
    intros H. apply (register_root_spec env' (prod_of t') regs' Hr') in H as [H _]. rewrite key_root in H.
    apply visible_respell in H as (q & -> & Hq). exists q. split; [done|]. by apply visible_good.
  Qed.
  Lemma starts_same k k' a b : KR k k' → R a b → starts regs k a ↔ starts regs' k' b.
  Proof using Hr Hr' Hd.
    intros Hk Hab. split; intros H.
    - exact (starts_transfer _ _ KR R forth k a H k' b Hk Hab).
    - exact (starts_transfer _ _ (flip KR) (flip R) back k' b H k a Hk Hab).
  Qed.
  Lemma nullable_same k k' : KR k k' → nullable regs k ↔ nullable regs' k'.
  Proof using Hr Hr' Hd.
    intros Hk. split; intros H.
    - exact (nullable_transfer _ _ KR R forth k H k' Hk).
    - exact (nullable_transfer _ _ (flip KR) (flip R) back k' H k Hk).
  Qed.
  Lemma near_same k k' o o' : KR k k' → option_Forall2 R o o' → near_follow regs (key t) k o ↔ near_follow regs' (key t') k' o'.
  Proof using Hr Hr' Hd.
    intros Hk Ho. split; intros H.
    - refine (near_transfer _ _ KR R forth KR_fun _ _ _ Hroot k o H k' o' Hk Ho). intros x e Hx. eexists. by eapply regs_good.
    - refine (near_transfer _ _ (flip KR) (flip R) back KR_inj back_total _ _ Hroot k' o' H k o Hk _). destruct Ho; by constructor.
  Qed.
  Lemma accept_same iter iter' : iter ≡ₚ regs → iter' ≡ₚ regs' →
    (∃ md, meta_build regs iter (key t) = Some (inr md)) ↔ ∃ md', meta_build regs' iter' (key t') = Some (inr md').
  Proof using Hr Hr' Hd.
    intros Hi Hi'. destruct (register_root_spec env (prod_of t) regs Hr) as [Hf _]. destruct (register_root_spec env' (prod_of t') regs' Hr') as [Hf' _].
    split.
    - intros [md Hm]. refine (accept_transfer _ _ (flip KR) (flip R) back KR_inj back_total _ _ Hroot _ _ _ Hf' Hf _ iter' iter md Hi' Hi Hm).
      + intros b. destruct (R_onto b) as (a & Hab & _). by exists a.
      + intros a. destruct (R_total a) as [b Hb]. exists b. split; [done|]. symmetry. by apply R_ty.
      + intros a b Hab. symmetry. by apply R_ty.
      + intros k e Hk. by eapply register_reachable.
    - intros [md' Hm']. refine (accept_transfer _ _ KR R forth KR_fun _ _ _ Hroot R_total R_onto R_ty Hf Hf' _ iter iter' md' Hi Hi' Hm').
      + intros k e Hk. eexists. by eapply regs_good.
      + intros k e Hk. by eapply register_reachable.
  Qed.

  Lemma sets_same iter iter' md md' : iter ≡ₚ regs → iter' ≡ₚ regs' →
    meta_build regs iter (key t) = Some (inr md) → meta_build regs' iter' (key t') = Some (inr md') →
    ∀ u, literals u ⊆ lits →
      respelled_set π lits (tb_get (md_first md) (key u)) (tb_get (md_first md') (key (respell π u))) ∧
      respelled_set π lits (tb_get (md_follow md) (key u)) (tb_get (md_follow md') (key (respell π u))) ∧
      ∀ o o', option_Forall2 R o o' → jump_look_up (md_jump md) (key u) o = jump_look_up (md_jump md') (key (respell π u)) o'.
  Proof using Hr Hr' Hd.
    intros Hi Hi' Hm Hm' u Hu. destruct (register_root_spec env (prod_of t) regs Hr) as [Hf _]. destruct (register_root_spec env' (prod_of t') regs' Hr') as [Hf' _].
    destruct (meta_build_accepts regs iter (key t) md Hf Hi Hm) as [Hok _]. destruct (meta_build_accepts regs' iter' (key t') md' Hf' Hi' Hm') as [Hok' _].
    assert (Hk : KR (key u) (key (respell π u))).
    { split; [apply key_respell|]. intros x Hx. unfold key in Hx. rewrite prod_lits_pid in Hx. by apply Hu, prod_lits_of. }
    split; [|split].
    - split; [intros a b Hab|]; apply eq_true_iff_eq; rewrite (tk_first _ _ _ _ Hok), (tk_first _ _ _ _ Hok'); cbn; [by apply starts_same|by apply nullable_same].
    - split; [intros a b Hab|]; apply eq_true_iff_eq; rewrite (tk_follow _ _ _ _ Hok), (tk_follow _ _ _ _ Hok'); apply near_same; try done; by constructor.
    - intros o o' Ho.
      assert (Hno : (∀ l, (key u, EUnion l) ∉ regs) → jump_look_up (md_jump md) (key u) o = jump_look_up (md_jump md') (key (respell π u)) o').
      { intros Hn. rewrite (no_jump regs iter (key t) md _ Hf Hi Hm Hn), (no_jump regs' iter' (key t') md' _ Hf' Hi' Hm'); [done|].
        intros l Hl. destruct (back _ _ _ Hk Hl) as ([| | |l'] & Hb & HE); try done. by apply Hn in Hb. }
      assert (Hb : ∀ e, (key u, e) ∈ regs → bt_get iter (key u) = Some e) by (intros e He; by apply (bt_get_perm regs iter)).
      destruct (bt_get iter (key u)) as [[|y x|l|l]|] eqn:E; try (apply Hno; intros l0 Hl; apply Hb in Hl; discriminate Hl). clear Hno Hb.
      apply (bt_get_perm regs iter) in E; [|done..]. destruct (forth _ _ _ Hk E) as ([| | |l'] & E' & HE); try done. cbn in HE.
      apply option_eq. intros i. rewrite (jump_exact regs iter (key t) md (key u) l Hf Hi Hm) by (done || by eapply register_reachable).
      rewrite (jump_exact regs' iter' (key t') md' _ l' Hf' Hi' Hm') by (done || by eapply register_reachable). split.
      + intros (y & Hy & H). destruct (Forall2_lookup_l _ _ _ _ _ HE Hy) as (y' & Hy' & Hyy). exists y'. split; [done|].
        destruct Ho; [by eapply starts_same|by eapply nullable_same].
      + intros (y' & Hy' & H). destruct (Forall2_lookup_r _ _ _ _ _ HE Hy') as (y & Hy & Hyy). exists y. split; [done|].
        destruct Ho; [by eapply starts_same|by eapply nullable_same].
  Qed.
End two.

(** * The tests of the parser *)
Section sees.
  Variables (π : nat → string → string) (lits : list tok).
  Notation R := (respelled π lits).
  Notation sees := (respelled_set π lits).
  Hypothesis Hd : distinct_on π lits.
  Lemma sees_ok s s' a b : sees s s' → R a b → ts_contains s (Some a) = ts_contains s' (Some b).
  Proof. intros [H _]. apply H. Qed.
  Lemma sees_e s s' : sees s s' → ts_contains_e s = ts_contains_e s' ∧ ts_contains s None = ts_contains s' None.
  Proof. intros [_ H]. by split. Qed.
  Lemma sees_one y : sees (fs_one y None) (fs_one y None).
  Proof.
    split; [|done]. intros [ya xa] [yb xb] [E _]. cbn in E. subst yb. apply eq_true_iff_eq. rewrite !fs_one_exact. naive_solver.
  Qed.
  Lemma sees_punct fol fol' ef ef' : sees fol fol' → sees ef ef' →
    sees (fst (fs_union_minus_eps (fst (ts_remove_e fol)) ef)) (fst (fs_union_minus_eps (fst (ts_remove_e fol')) ef')).
  Proof.
    intros [H1 N1] [H2 N2]. unfold fs_union_minus_eps. split.
    - intros a b Hab. rewrite !ts_contains_union, !ts_remove_e_contains, (H1 _ _ Hab), (H2 _ _ Hab). done.
    - rewrite !ts_contains_union, !ts_remove_e_contains, N1, N2. done.
  Qed.
  Lemma sees_lit y x : (y, x) ∈ lits → spelled R sees y x (π y x).
  Proof using Hd.
    intros Hl. assert (Hx : ∀ z z', R (y, z) (y, z') → z = x ↔ z' = π y x).
    { intros z z' [_ [[H1 H2]|[H1 H2]]]; cbn in *; subst.
      - split; [by intros ->|]. by apply Hd.
      - split; [intros ->; by destruct H1|]. intros ->. by destruct (H2 x). }
    split; [|done]. split; [|by cbn]. intros [ya xa] [yb xb] Hab. assert (E := proj1 Hab). cbn in E. subst yb. apply eq_true_iff_eq. rewrite !fs_one_exact. split.
    - intros (z & [= -> ->] & [|[= ->]]); [done|]. exists xb. split; [done|]. right. f_equal. symmetry. by apply (Hx z).
    - intros (z & [= -> ->] & [|[= E]]); [done|]. exists xa. split; [done|]. right. f_equal. symmetry. by apply (Hx xa z).
  Qed.
End sees.

Lemma ty_declared_respell π n t : ty_declared n t → ty_declared n (respell π t).
Proof.
  revert t. fix IH 1. intros [m y x|m|l|t|t|t|t|t|t|t|t|t p|t p|t p]; cbn; try exact (λ H, H); try exact (IH t);
    try (intros [H1 H2]; split; [exact (IH t H1)|exact (IH p H2)]).
  induction l as [|t l IHl]; [exact (λ H, H)|]. cbn. intros [H1 H2]. split; [exact (IH t H1)|exact (IHl H2)].
Qed.
Lemma env_declared_respell π env : env_declared env → env_declared (respell_env π env).
Proof.
  intros H d f (d0 & -> & Hd)%elem_of_list_fmap Hf. unfold respell_env. rewrite map_length.
  assert (Hf' : f ∈ map (λ f : field, (respell π f.1, f.2)) (decl_fields d0)) by by destruct d0.
  apply elem_of_list_fmap in Hf' as (f0 & -> & Hf0). cbn. apply ty_declared_respell. by eapply H.
Qed.

Lemma respell_accepted π env t : env_declared env → ty_declared (length env) t → distinct_on π (literals t ++ env_literals env) →
  (∃ md, accepted env t md) ↔ ∃ md', accepted (respell_env π env) (respell π t) md'.
Proof.
  intros He Ht Hd. destruct (register_root_total env t He Ht) as [regs Hr].
  destruct (register_root_total (respell_env π env) (respell π t)) as [regs' Hr'].
  { by apply env_declared_respell. }
  { unfold respell_env. rewrite map_length. by apply ty_declared_respell. }
  split.
  - intros (md & regs0 & iter & Hr0 & Hi & Hm). rewrite Hr in Hr0. simplify_eq.
    destruct (accept_same env t π Hd regs0 regs' Hr Hr' iter regs' Hi ltac:(done)) as [[md' H] _]; [by exists md|]. by exists md', regs', regs'.
  - intros (md' & regs0 & iter & Hr0 & Hi & Hm). rewrite Hr' in Hr0. simplify_eq.
    destruct (accept_same env t π Hd regs regs0 Hr Hr' regs iter ltac:(done) Hi) as [_ [md H]]; [by exists md'|]. by exists md, regs, regs.
Qed.
Lemma respell_tables π env t md md' : distinct_on π (literals t ++ env_literals env) →
  accepted env t md → accepted (respell_env π env) (respell π t) md' →
  let lits := literals t ++ env_literals env in
  ∀ u, literals u ⊆ lits →
    respelled_set π lits (tb_get (md_first md) (key u)) (tb_get (md_first md') (key (respell π u))) ∧
    respelled_set π lits (tb_get (md_follow md) (key u)) (tb_get (md_follow md') (key (respell π u))) ∧
    ∀ o o', option_Forall2 (respelled π lits) o o' →
      jump_look_up (md_jump md) (key u) o = jump_look_up (md_jump md') (key (respell π u)) o'.
Proof.
  intros Hd (regs & iter & Hr & Hi & Hm) (regs' & iter' & Hr' & Hi' & Hm') lits u Hu.
  by apply (sets_same env t π Hd regs regs' Hr Hr' iter iter').
Qed.
Lemma respell_parse π extract env f t md md' s1 s2 o1 s1' : distinct_on π (literals t ++ env_literals env) →
  accepted env t md → accepted (respell_env π env) (respell π t) md' →
  let lits := literals t ++ env_literals env in
  state_ok s1 → state_ok s2 → respelled_words π lits extract s1 s2 →
  run extract (parse env f t (inr md)) s1 = ODone (inr o1) s1' →
  ∃ o2 s2', run extract (parse (respell_env π env) f (respell π t) (inr md')) s2 = ODone (inr o2) s2' ∧
    option_Forall2 (across extract same_tree s1 s2) o1 o2 ∧
    respelled_words π lits extract s1' s2' ∧
    ∃ e1 e2, syntax_errors s1' = syntax_errors s1 ++ e1 ∧ syntax_errors s2' = syntax_errors s2 ++ e2 ∧
      Forall2 (across extract like_error s1 s2 (respelled_set π lits)) e1 e2.
Proof.
  intros Hd Ha Ha' lits. apply (parse_like extract (respelled π lits) (respelled_set π lits) (λ a b H, proj1 H) (sees_ok π lits) (sees_e π lits)
    (sees_one π lits) (sees_punct π lits) π (λ x, x ∈ lits) (sees_lit π lits Hd)).
  - intros u Hu. by apply (respell_tables π env t md md' Hd Ha Ha' u).
  - intros u Hu. by apply (respell_tables π env t md md' Hd Ha Ha' u).
  - intros n o o' Ho. apply (respell_tables π env t md md' Hd Ha Ha' (TNamed n)); [|done]. intros x Hx. by apply elem_of_nil in Hx.
  - done.
Qed.
Lemma respell_fresh π extract env f t md md' src1 evs1 src2 evs2 o1 s1' : distinct_on π (literals t ++ env_literals env) →
  accepted env t md → accepted (respell_env π env) (respell π t) md' →
  raw_ok (String.length src1) evs1 → raw_ok (String.length src2) evs2 →
  let toks evs := filter (λ t, extract (t_ty t) = false) (raw_tokens evs) in
  let lits := literals t ++ env_literals env in
  Forall2 (respelled π lits) (word src1 (toks evs1)) (word src2 (toks evs2)) →
  run extract (parse env f t (inr md)) (pst_new src1 evs1) = ODone (inr o1) s1' →
  ∃ o2 s2', run extract (parse (respell_env π env) f (respell π t) (inr md')) (pst_new src2 evs2) = ODone (inr o2) s2' ∧
    option_Forall2 (same_tree src1 (toks evs1) src2 (toks evs2)) o1 o2 ∧
    Forall2 (like_error src1 (toks evs1) src2 (toks evs2) (respelled_set π lits)) (syntax_errors s1') (syntax_errors s2') ∧
    map c_sem (p_tokens s1') = map c_sem (p_tokens s2').
Proof.
  intros Hd Ha Ha' H1 H2 toks lits Hw Hr. apply state_ok_new in H1, H2.
  destruct (respell_parse π extract env f t md md' (pst_new src1 evs1) (pst_new src2 evs2) o1 s1' Hd Ha Ha') as (o2 & s2' & A & B & C & e1 & e2 & E1 & E2 & D);
    [done|done|by split|done|].
  exists o2, s2'. rewrite E1, E2. split_and!; try done. apply C.
Qed.
