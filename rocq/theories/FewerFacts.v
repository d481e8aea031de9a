(** Parts of an accepted grammar, and what is left of it without some variants, are accepted. *)
From Coq Require Import String NArith.
From stdpp Require Import prelude list gmap strings relations.
From Verif Require Import LexModel LexSpec SynSetModel SynSetFacts TableModel CfgSpec CfgFacts FirstFacts LocalFacts MetaFacts StreamModel
  TypeModel TypeSpec TypeFacts ProduceModel ParseSpec StreamSpec MdFacts CompleteSpec CompleteFacts ExtendSpec.
Local Open Scope nat_scope.
#[local] Arguments ts_contains : simpl never.
#[local] Arguments tb_get : simpl never.

(** * From a grammar to a larger one *)
Section less.
  Variables (G G' : grammar prod).
  Definition less (e e' : entry prod) : Prop :=
    match e, e' with
    | EEps, EEps => True
    | ETok y o, ETok y' o' => y = y' ∧ o = o'
    | ESeq l, ESeq l' => l = l'
    | EUnion l, EUnion l' => ∃ f : nat → nat, (∀ i j, i < length l → j < length l → f i = f j → i = j) ∧ ∀ i y, l !! i = Some y → l' !! f i = Some y
    | _, _ => False
    end.
  Hypothesis HG : ∀ k e, (k, e) ∈ G → ∃ e', (k, e') ∈ G' ∧ less e e'.
  Lemma less_in l l' y : less (EUnion l) (EUnion l') → y ∈ l → y ∈ l'.
  Proof. intros (f & _ & H) [i Hi]%elem_of_list_lookup. apply elem_of_list_lookup. exists (f i). by apply H. Qed.
  Lemma nullable_less k : nullable G k → nullable G' k.
  Proof.
    revert k. apply (nullable_ind_decl G (nullable G')).
    - intros k H. destruct (HG _ _ H) as ([] & H' & HE); try done. apply nullable_unfold. by left.
    - intros k l H IH. destruct (HG _ _ H) as ([| |l'|] & H' & HE); try done. cbn in HE. subst l'. apply nullable_unfold. right; left.
      exists l. split; [done|]. eapply Forall_impl; [exact IH|]. by intros x [_ Hx].
    - intros k l y H Hy _ IH. destruct (HG _ _ H) as ([| | |l'] & H' & HE); try done. apply nullable_unfold. right; right.
      exists l', y. split_and!; [done|by eapply less_in|done].
  Qed.
  Lemma all_less l : Forall (nullable G) l → Forall (nullable G') l.
  Proof. intros H. eapply Forall_impl; [exact H|]. exact nullable_less. Qed.
  Lemma starts_less k a : starts G k a → starts G' k a.
  Proof.
    revert k a. apply (starts_ind_decl G (starts G')).
    - intros k y o a H Hc. destruct (HG _ _ H) as ([|y' o'| |] & H' & HE); try done. destruct HE as [<- <-]. apply starts_unfold. left. by exists y, o.
    - intros k l1 y l2 a H Hl _ IH. destruct (HG _ _ H) as ([| |l'|] & H' & HE); try done. cbn in HE. subst l'.
      apply starts_unfold. right; left. eexists _, l1, y, l2. split_and!; [done|done|by apply all_less|done].
    - intros k l y a H Hy _ IH. destruct (HG _ _ H) as ([| | |l'] & H' & HE); try done.
      apply starts_unfold. right; right. exists l', y. split_and!; [done|by eapply less_in|done].
  Qed.
  Lemma near_less root root' k a : near_follow G root k (Some a) → near_follow G' root' k (Some a).
  Proof.
    intros H. remember (Some a) as o eqn:E. induction H as [|x l1 c d l2 t H1 H2|x l1 c l2 t H1 H2 _ IH|x l y t H1 H2 _ IH]; [done|..].
    - destruct (HG _ _ H1) as ([| |l'|] & H' & HE); try done. cbn in HE. subst l'. injection E as ->. eapply nf_next; [done|]. by apply starts_less.
    - destruct (HG _ _ H1) as ([| |l'|] & H' & HE); try done. cbn in HE. subst l'. eapply nf_last; [done|by apply all_less|by apply IH].
    - destruct (HG _ _ H1) as ([| | |l'] & H' & HE); try done. eapply nf_union; [done|by eapply less_in|by apply IH].
  Qed.
  Lemma clash_less x y : clash G x y → clash G' x y.
  Proof. intros [(a & H1 & H2)|[H1 H2]]; [left; exists a; split; by apply starts_less|right; split; by apply nullable_less]. Qed.
  Lemma seen_less l : seq_clash_seen G l → seq_clash_seen G' l.
  Proof.
    intros (l1 & y & l2 & z & l3 & t & -> & H1 & H2 & H3 & H4). exists l1, y, l2, z, l3, t. split_and!; [done|by apply nullable_less| |by apply starts_less..].
    destruct H2 as [H2|H2]; [left; by apply all_less|right]. intros s. apply starts_less, H2.
  Qed.
  Lemma conflict_less root root' k e e' first follow first' follow' : less e e' →
    tables_ok G root first follow → tables_ok G' root' first' follow' →
    local_conflict first follow k e → local_conflict first' follow' k e'.
  Proof.
    intros HE Hok Hok' Hc.
    assert (Hs : self_conflict first follow k → self_conflict first' follow' k).
    { rewrite (self_conflict_near _ _ _ _ Hok), (self_conflict_near _ _ _ _ Hok'). intros (H1 & a & H2 & H3).
      split; [by apply nullable_less|]. exists a. split; [by apply starts_less|by eapply near_less]. }
    destruct e as [|y o|l|l], e' as [|z o'|l'|l']; try done.
    - cbn in HE. subst l'. destruct l as [|y l]; [done|]. destruct Hc as [Hc|Hc]; [left|right; by apply Hs].
      apply (seq_conflict_seen _ _ _ _ Hok'). apply (seq_conflict_seen _ _ _ _ Hok) in Hc. by apply seen_less.
    - destruct Hc as [Hc|Hc]; [left|right; by apply Hs].
      apply (ff_conflict_clash _ _ _ _ Hok'). apply (ff_conflict_clash _ _ _ _ Hok) in Hc as (i & j & yi & yj & Hij & Hi & Hj & Hc).
      destruct HE as (f & Hf & HE). pose proof (lookup_lt_Some _ _ _ Hi) as Li. pose proof (lookup_lt_Some _ _ _ Hj) as Lj. apply HE in Hi, Hj. apply clash_less in Hc.
      destruct (Nat.lt_trichotomy (f i) (f j)) as [H|[H|H]].
      + by exists (f i), (f j), yi, yj.
      + apply Hf in H; [lia|done..].
      + exists (f j), (f i), yj, yi. split_and!; [done..|]. destruct Hc as [(a & H1 & H2)|[H1 H2]]; [left; by exists a|by right].
  Qed.
  Variables (root root' : prod).
  Hypothesis Hf : functional G.
  Hypothesis Hf' : functional G'.
  Hypothesis Hre : ∀ k e, (k, e) ∈ G' → reachable G' root' k.
  Lemma accept_less iter iter' md' : iter ≡ₚ G → iter' ≡ₚ G' → meta_build G' iter' root' = Some (inr md') →
    ∃ md, meta_build G iter root = Some (inr md).
  Proof using HG Hf Hf' Hre.
    intros Hi Hi' Hm.
    destruct (meta_build_cases G' iter' root' Hf' Hi') as (first'&follow'&_&_&Hok'&[(e0&k0&ent0&He&_)|(seen&jm&He&Hall&_)]); rewrite Hm in He; simplify_eq.
    destruct (meta_build_cases G iter root Hf Hi) as (first&follow&_&_&Hok&[(e&k&ent&He'&_&Hb&Hc&_)|(seen'&jm'&He'&_)]); [|by eexists].
    exfalso. apply (bt_get_perm G iter) in Hb; [|done..]. destruct (HG _ _ Hb) as (e' & H & HE).
    assert (Hn : ck_local first' follow' k e' = None).
    { apply Hall; [apply (greach_perm G' iter'); [done..|]; by eapply Hre|by apply (bt_get_perm G' iter')]. }
    apply ck_local_none in Hn. assert (Hn' : ck_local first follow k ent = None); [|congruence].
    apply ck_local_none. intros Hc'. apply Hn. exact (conflict_less root root' k ent e' _ _ _ _ HE Hok Hok' Hc').
  Qed.
End less.

(** * Declarations *)
Section decls.
  Variables (ρ : nat → nat → nat) (env env' : denv).
  Hypothesis Hx : extends ρ env env'.
  Hypothesis Hinj : apart ρ env.
  Lemma extends_kids k ks x : kids env k = Some ks → x ∈ ks → ∃ ks', kids env' k = Some ks' ∧ x ∈ ks'.
  Proof using Hx.
    destruct k as [nm z lit|m|l|p|p|p q| |p]; try (intros H1 H2; by exists ks).
    cbn. destruct (env !! m) as [d|] eqn:Em; [|done]. cbn. intros [= <-] H. specialize (Hx m d Em). destruct d as [fs|vs].
    - rewrite Hx. cbn. by eexists.
    - destruct Hx as (vs' & -> & Hv). cbn. eexists. split; [done|]. unfold field_prods in *. cbn in H. apply elem_of_list_fmap in H as (v & -> & [i Hi]%elem_of_list_lookup).
      apply elem_of_list_fmap. exists v. split; [done|]. apply elem_of_list_lookup. exists (ρ m i). by apply Hv.
  Qed.
  Lemma extends_visible p q : visible env p q → visible env' p q.
  Proof using Hx.
    intros H. eapply rtc_subrel; [|exact H]. intros a b (ks & x & Hk & Hin & ->). destruct (extends_kids _ _ _ Hk Hin) as (ks' & Hk' & Hin'). by exists ks', x.
  Qed.
  Lemma extends_entry k e : entry_of env k = Some e → ∃ e', entry_of env' k = Some e' ∧ less e e'.
  Proof using Hx Hinj.
    assert (Hsame : ∀ e : entry prod, less e e).
    { intros []; cbn; try done. by exists id. }
    destruct k as [nm z lit|m|l|p|p|p q| |p]; try (intros H; exists e; split; [exact H|apply Hsame]).
    cbn. destruct (env !! m) as [d|] eqn:Em; [|done]. cbn. intros [= <-]. specialize (Hx m d Em). destruct d as [fs|vs].
    - rewrite Hx. cbn. eexists. split; done.
    - destruct Hx as (vs' & -> & Hv). cbn. eexists. split; [done|]. exists (ρ m). split.
      { unfold field_prods. rewrite !map_length. intros i j Hi Hj. by apply (Hinj m vs). }
      intros i y Hy. unfold field_prods in *. change (map pid (map (λ f : field, prod_of f.1) vs)) with (pid <$> ((λ f : field, prod_of f.1) <$> vs)) in Hy.
      change (map pid (map (λ f : field, prod_of f.1) vs')) with (pid <$> ((λ f : field, prod_of f.1) <$> vs')).
      rewrite list_lookup_fmap in Hy. apply fmap_Some in Hy as (p & Hp & ->). rewrite list_lookup_fmap in Hp. apply fmap_Some in Hp as (v & Hv' & ->).
      apply Hv in Hv'. rewrite list_lookup_fmap. apply fmap_Some. eexists. split; [|done]. rewrite list_lookup_fmap. apply fmap_Some. by exists v.
  Qed.
  Variables (root t : ty) (md' : metadata prod) (regs : list (prod * entry prod)) (regs' iter' : list (prod * entry prod)).
  Hypothesis Hr : register_root env (prod_of t) = Some regs.
  Hypothesis Hr' : register_root env' (prod_of root) = Some regs'.
  Hypothesis Hi' : iter' ≡ₚ regs'.
  Hypothesis Hm' : meta_build regs' iter' (key root) = Some (inr md').
  Hypothesis Hw : within env' root t.
  Lemma regs_less k e : (k, e) ∈ regs → ∃ e', (k, e') ∈ regs' ∧ less e e'.
  Proof using All.
    intros H. apply (proj2 (register_root_spec env (prod_of t) regs Hr)) in H as [Hv He].
    destruct (extends_entry _ _ He) as (e' & He' & Hle). exists e'. split; [|done].
    apply (proj2 (register_root_spec env' (prod_of root) regs' Hr')). split; [|done].
    unfold visible. etrans; [exact (V_within env' root regs' iter' md' Hr' Hi' Hm' t Hw)|]. by apply extends_visible.
  Qed.
  Lemma accepted_less iter : iter ≡ₚ regs → ∃ md, meta_build regs iter (key t) = Some (inr md).
  Proof using All.
    intros Hi. eapply (accept_less regs regs' regs_less (key t) (key root)); [| | |exact Hi|exact Hi'|exact Hm'].
    - by destruct (register_root_spec env (prod_of t) regs Hr).
    - by destruct (register_root_spec env' (prod_of root) regs' Hr').
    - intros k e Hk. by eapply register_reachable.
  Qed.
End decls.
Lemma fewer_accepted ρ env env' root t md' : extends ρ env env' → apart ρ env →
  env_declared env → ty_declared (length env) t → accepted env' root md' → within env' root t → ∃ md, accepted env t md.
Proof.
  intros Hx Hinj He Ht (regs' & iter' & Hr' & Hi' & Hm') Hw. destruct (register_root_total env t He Ht) as [regs Hr].
  destruct (accepted_less ρ env env' Hx Hinj root t md' regs regs' iter' Hr Hr' Hi' Hm' Hw regs ltac:(done)) as [md Hm].
  by exists md, regs, regs.
Qed.
Lemma fewer_tables ρ env env' root t md md' : extends ρ env env' → apart ρ env →
  accepted env t md → accepted env' root md' → within env' root t →
  (∀ u o, ts_contains (tb_get (md_first md) (key u)) o = true → ts_contains (tb_get (md_first md') (key u)) o = true) ∧
  (∀ u a, ts_contains (tb_get (md_follow md) (key u)) (Some a) = true → ts_contains (tb_get (md_follow md') (key u)) (Some a) = true) ∧
  ∀ n vs o i, within env t (TNamed n) → env !! n = Some (DEnum vs) →
    jump_look_up (md_jump md) (key (TNamed n)) o = Some i → jump_look_up (md_jump md') (key (TNamed n)) o = Some (ρ n i).
Proof.
  intros Hx Hinj (regs & iter & Hr & Hi & Hm) (regs' & iter' & Hr' & Hi' & Hm') Hw.
  pose proof (regs_less ρ env env' Hx Hinj root t md' regs regs' iter' Hr Hr' Hi' Hm' Hw) as Hl.
  split_and!.
  - intros u [a|] H.
    + apply (first_spec env' root regs' iter' md' Hr' Hi' Hm'). apply (first_spec env t regs iter md Hr Hi Hm) in H. exact (starts_less regs regs' Hl _ _ H).
    + apply (first_eps env' root regs' iter' md' Hr' Hi' Hm'). apply (first_eps env t regs iter md Hr Hi Hm) in H. exact (nullable_less regs regs' Hl _ H).
  - intros u a H. apply (follow_spec env' root regs' iter' md' Hr' Hi' Hm'). apply (follow_spec env t regs iter md Hr Hi Hm) in H.
    exact (near_less regs regs' Hl _ _ _ _ H).
  - intros n vs o i Hn En H.
    assert (Hv := V_within env t regs iter md Hr Hi Hm _ Hn).
    assert (Hv' : visible env' (key root) (key (TNamed n))).
    { unfold visible. etrans; [exact (V_within env' root regs' iter' md' Hr' Hi' Hm' t Hw)|]. by apply (extends_visible ρ env env' Hx). }
    destruct (Hx _ _ En) as (vs' & En' & Hvs).
    apply (jump_spec env t regs iter md Hr Hi Hm n vs o i Hv En) in H as (c & sem & Ec & H).
    apply (jump_spec env' root regs' iter' md' Hr' Hi' Hm' n vs' o _ Hv' En'). exists c, sem. split; [by apply Hvs|].
    destruct o as [a|]; [exact (starts_less regs regs' Hl _ _ H)|exact (nullable_less regs regs' Hl _ H)].
Qed.

(** * Parts *)
Lemma within_declared env t u : env_declared env → ty_declared (length env) t → within env t u → ty_declared (length env) u.
Proof.
  intros He Ht Hw. induction Hw as [|t c u Hc _ IH]; [done|]. apply IH. clear IH.
  destruct t as [m y x|m|l|t|t|t|t|t|t|t|t|t p|t p|t p]; cbn in Hc, Ht; try (by apply elem_of_nil in Hc); try (apply elem_of_list_singleton in Hc; by subst);
    try (apply elem_of_cons in Hc as [->|Hc]; [apply Ht|]; apply elem_of_list_singleton in Hc as ->; apply Ht).
  - destruct (env !! m) as [d|] eqn:Em; [|by apply elem_of_nil in Hc]. apply elem_of_list_fmap in Hc as (f & -> & Hf). eapply He; [by eapply elem_of_list_lookup_2|done].
  - induction l as [|a l IHl]; [by apply elem_of_nil in Hc|]. destruct Ht as [H1 H2]. apply elem_of_cons in Hc as [->|Hc]; [done|by apply IHl].
Qed.
Lemma extends_refl env : extends (λ _ i, i) env env.
Proof. intros n [fs|vs] E; [done|]. by exists vs. Qed.
Lemma part_accepted env root t md : env_declared env → ty_declared (length env) root → accepted env root md → within env root t → ∃ md', accepted env t md'.
Proof.
  intros He Ht Ha Hw. apply (fewer_accepted (λ _ i, i) env env root t md (extends_refl env)); [by intros ????|done| |done|done]. by eapply within_declared.
Qed.
Lemma within_all env P root t : within env root t → all_within env P root → all_within env P t.
Proof. intros Hw H u Hu. apply H. unfold within in *. by etrans. Qed.
Lemma part_parses extract env root t md : env_declared env → ty_declared (length env) root → accepted env root md → within env root t →
  filled env root → plain_enums env root → solid_delims env root → no_loop env root →
  (∀ regs, register_root env (prod_of root) = Some regs → no_nullable_interior regs) →
  ∃ md', accepted env t md' ∧ ∀ s, state_ok s → lang env t (word (p_src s) (to_come extract s)) → parsed_whole extract env md' t s.
Proof.
  intros He Ht Ha Hw Hfi Hpl Hso Hlo Hno. destruct (part_accepted env root t md He Ht Ha Hw) as [md' Ha']. exists md'. split; [done|].
  intros s Hs Hl. assert (Hreg : regular env t).
  { apply (regular_interior env t md' Ha'); [by eapply within_all|by eapply within_all|by eapply within_all| |].
    - assert (Hlt : no_loop env t) by by eapply within_all. destruct t; try done. by specialize (Hlt _ (rtc_refl _ _)).
    - intros regs Hr. destruct Ha as (regs' & iter' & Hr' & Hi' & Hm'). specialize (Hno _ Hr').
      pose proof (regs_less (λ _ i, i) env env (extends_refl env) ltac:(by intros ????) root t md regs regs' iter' Hr Hr' Hi' Hm' Hw) as Hle.
      intros k l i y Hk Hi H1 H2 Hn. destruct (Hle _ _ Hk) as ([| |l'|] & Hk' & E); try done. cbn in E. subst l'.
      apply (Hno _ _ _ _ Hk' Hi H1 H2). exact (nullable_less regs regs' Hle _ Hn). }
  destruct (parse_complete extract env t md' Ha' Hreg s Hs Hl) as (f0 & x & s' & _ & H1 & H2 & H3). exists f0, x, s'. split_and!; [by apply H3|done..].
Qed.
