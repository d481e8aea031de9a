(** Texts that are no literal do not matter: the tables, and parsing with them. *)
From Coq Require Import String NArith.
From stdpp Require Import prelude list gmap strings relations.
From Verif Require Import LexModel LexSpec SynSetModel TableModel CfgSpec FirstFacts MetaFacts StreamModel StreamSpec StreamFacts TypeModel TypeSpec TypeFacts ProduceModel ParseSpec LayoutSpec LayoutFacts.
Local Open Scope nat_scope.
#[local] Arguments ts_contains : simpl never.
#[local] Arguments tb_get : simpl never.

(** * Derivations *)
Section derive.
  Variable G : grammar prod.
  Variable lit : tok → Prop.
  Hypothesis Hlit : ∀ k y x, (k, ETok y (Some x)) ∈ G → lit (y, x).
  Variables (a b : tok).
  Hypothesis Hab : alike lit a b.

  Definition swap (s : sym prod) : sym prod :=
    match s with CfgSpec.N k => CfgSpec.N k | T t => T (if decide (t = a) then b else t) end.
  Lemma swap_N l : map swap (map CfgSpec.N l) = map CfgSpec.N l.
  Proof. rewrite map_map. by apply map_ext. Qed.
  Lemma rhs_swap k γ : rhs G k γ → rhs G k (map swap γ).
  Proof using Hlit Hab.
    intros [k0 H|k0 y x t H Hc|k0 l H|k0 l z H Hz].
    - by constructor.
    - cbn. eapply rhs_tok; [exact H|]. destruct (decide (t = a)) as [->|]; [|done].
      destruct Hc as [<- Hc], Hab as [E1 E2]. split; [done|]. destruct Hc as [->| ->]; [by left|]. right. f_equal.
      destruct E2 as [E2|[E2 _]]; [done|]. destruct E2. apply Hlit in H. by destruct a.
    - rewrite swap_N. by constructor.
    - cbn. by eapply rhs_union.
  Qed.
  Lemma derives_swap α β : derives G α β → derives G (map swap α) (map swap β).
  Proof using Hlit Hab.
    induction 1 as [|α β δ [α0 k γ β0 H] Hd IH]; [apply rtc_refl|]. eapply rtc_l; [|exact IH].
    rewrite !map_app. cbn. apply step_rhs. by apply rhs_swap.
  Qed.
  Lemma starts_alike k : starts G k a → starts G k b.
  Proof using Hlit Hab. intros [β H]. apply derives_swap in H. cbn in H. rewrite decide_True in H by done. by eexists. Qed.
  Lemma near_alike root k : near_follow G root k (Some a) → near_follow G root k (Some b).
  Proof using Hlit Hab.
    intros H. remember (Some a) as o eqn:E. induction H as [|x l1 c d l2 t H1 H2|x l1 c l2 t H1 H2 _ IH|x l y t H1 H2 _ IH]; [done|..].
    - injection E as ->. eapply nf_next; [done|]. by apply starts_alike.
    - eapply nf_last; [done..|]. by apply IH.
    - eapply nf_union; [done..|]. by apply IH.
  Qed.
End derive.
Lemma alike_sym lit a b : alike lit a b → alike lit b a.
Proof. intros [H1 [H2|[H2 H3]]]; split; auto. Qed.

(** * Literals that are registered *)
Fixpoint prod_lits (p : prod) : list tok :=
  match p with
  | PTok _ y (Some x) => [(y, x)]
  | PTok _ _ None | PNamed _ | PEps => []
  | PTuple l => flat_map prod_lits l
  | POpt p | POneMore p | PBox p => prod_lits p
  | PPunct p q => prod_lits p ++ prod_lits q
  end.
Lemma prod_lits_pid p : prod_lits (pid p) = prod_lits p.
Proof. induction p using prod_rect'; try done. Qed.
Lemma app_mono {A} (a a' b b' : list A) : a ⊆ a' → b ⊆ b' → a ++ b ⊆ a' ++ b'.
Proof. intros H1 H2 x [H|H]%elem_of_app; apply elem_of_app; auto. Qed.
Lemma prod_lits_of t : prod_lits (prod_of t) ⊆ literals t.
Proof.
  revert t. fix IH 1. intros [n y [x|]|n|l|t|t|t|t|t|t|t|t|t p|t p|t p]; cbn; try apply IH; try reflexivity.
  - induction l as [|t l IHl]; [reflexivity|]. exact (app_mono _ _ _ _ (IH t) IHl).
  - rewrite !app_nil_r. intros x Hx. apply elem_of_app. apply elem_of_app in Hx as [Hx|[Hx|Hx]%elem_of_app]; [left|right|left]; by (apply (IH t) || apply (IH p)).
  - exact (app_mono _ _ _ _ (IH t) (IH p)).
  - rewrite app_nil_r. exact (app_mono _ _ _ _ (IH t) (IH p)).
Qed.

Section reg.
  Variables (env : denv) (t : ty).
  Definition known (x : tok) : Prop := x ∈ literals t ++ env_literals env.

  Lemma field_lits n d p x : env !! n = Some d → p ∈ field_prods (decl_fields d) → x ∈ prod_lits p → x ∈ env_literals env.
  Proof.
    intros Hd (f & -> & Hf)%elem_of_list_fmap Hx. apply prod_lits_of in Hx. apply elem_of_list_In, in_flat_map. exists d.
    split; [by apply elem_of_list_In, (elem_of_list_lookup_2 _ n)|]. apply in_flat_map. exists f. split; by apply elem_of_list_In.
  Qed.
  Lemma kids_lits p ks q x : kids env p = Some ks → q ∈ ks → x ∈ prod_lits q → x ∈ prod_lits p ∨ x ∈ env_literals env.
  Proof.
    destruct p as [n y l|n|l|p|p|p p'| |p]; cbn; intros E Hq Hx; simplify_eq; try by apply elem_of_nil in Hq.
    - apply bind_Some in E as (d & Hd & [= <-]). right. by eapply field_lits.
    - left. apply elem_of_list_In, in_flat_map. exists q. split; by apply elem_of_list_In.
    - repeat (apply elem_of_cons in Hq as [->|Hq]); [by left|by apply elem_of_nil in Hx|by apply elem_of_nil in Hq].
    - repeat (apply elem_of_cons in Hq as [->|Hq]); [by left|by left|by apply elem_of_nil in Hq].
    - repeat (apply elem_of_cons in Hq as [->|Hq]); [by left; apply elem_of_app; left| |by apply elem_of_nil in Hq].
      left. cbn in Hx. rewrite app_nil_r in Hx. apply elem_of_app. apply elem_of_app in Hx as [Hx|Hx]; [by right|]. by apply elem_of_app.
  Qed.
  Lemma visible_lits q x : visible env (key t) q → x ∈ prod_lits q → known x.
  Proof.
    intros Hv. revert q Hv x. apply (rtc_ind_r (λ q, ∀ x, x ∈ prod_lits q → known x)).
    - intros x Hx. unfold key in Hx. rewrite prod_lits_pid in Hx. apply elem_of_app. left. by apply prod_lits_of.
    - intros p p' _ (ks & r & Hk & Hr & ->) IH x Hx. rewrite prod_lits_pid in Hx.
      destruct (kids_lits _ _ _ _ Hk Hr Hx); [by apply IH|]. apply elem_of_app. by right.
  Qed.
  Lemma registered_lits regs k y x : register_root env (prod_of t) = Some regs → (k, ETok y (Some x)) ∈ regs → known (y, x).
  Proof.
    intros Hr Hk. apply (register_root_spec env (prod_of t) regs Hr) in Hk as [Hv He].
    apply (visible_lits k); [done|]. destruct k; cbn in He; simplify_eq; try done; [left|].
    by apply bind_Some in He as ([] & _ & ?).
  Qed.

  Lemma tables_alike md : accepted env t md →
    (∀ p, blind known (tb_get (md_first md) p)) ∧ (∀ p, blind known (tb_get (md_follow md) p)) ∧
    ∀ p a b, alike known a b → jump_look_up (md_jump md) p (Some a) = jump_look_up (md_jump md) p (Some b).
  Proof.
    intros (regs & iter & Hr & Hi & Hm). destruct (register_root_spec env (prod_of t) regs Hr) as [Hf Hs].
    assert (Hlit : ∀ k y x, (k, ETok y (Some x)) ∈ regs → known (y, x)) by (intros k y x; by apply registered_lits).
    destruct (meta_build_accepts regs iter (key t) md Hf Hi Hm) as [Hok _]. split_and!.
    - intros p a b Hab. apply eq_true_iff_eq. rewrite !(tk_first _ _ _ _ Hok). cbn.
      split; eapply starts_alike; eauto using alike_sym.
    - intros p a b Hab. apply eq_true_iff_eq. rewrite !(tk_follow _ _ _ _ Hok).
      split; eapply near_alike; eauto using alike_sym.
    - intros p a b Hab.
      destruct (meta_build_cases regs iter (key t) Hf Hi) as (first&follow&_&_&_&[(e'&k'&ent'&He&_)|(seen&jm&He&_&_&Hjm)]);
        rewrite Hm in He; simplify_eq.
      destruct (bt_get iter p) as [[|y x|l|l]|] eqn:Ep; cbn [md_jump];
        try (unfold jump_look_up; rewrite Hjm, Ep; by destruct (decide (p ∈ seen))).
      apply (bt_get_perm regs iter) in Ep; [|done..]. pose proof (register_reachable env (prod_of t) regs p _ Hr Ep) as Hre.
      apply option_eq. intros i. pose proof (jump_exact regs iter (key t) _ p l Hf Hi Hm Hre Ep) as Hj. cbn [md_jump] in Hj. rewrite !Hj.
      split; intros (y & Hy & H); exists y; (split; [done|]); eapply starts_alike; eauto using alike_sym.
  Qed.
End reg.

Lemma tables_texts env t md : accepted env t md →
  let lit x := x ∈ literals t ++ env_literals env in
  ∀ p a b, alike lit a b →
    ts_contains (tb_get (md_first md) p) (Some a) = ts_contains (tb_get (md_first md) p) (Some b) ∧
    ts_contains (tb_get (md_follow md) p) (Some a) = ts_contains (tb_get (md_follow md) p) (Some b) ∧
    jump_look_up (md_jump md) p (Some a) = jump_look_up (md_jump md) p (Some b).
Proof. intros Ha lit p a b Hab. destruct (tables_alike env t md Ha) as (H1 & H2 & H3). split; [by apply H1|]. split; [by apply H2|by apply H3]. Qed.
Lemma parse_texts extract env f t md s1 s2 o1 s1' : accepted env t md →
  state_ok s1 → state_ok s2 → alike_words (λ x, x ∈ literals t ++ env_literals env) extract s1 s2 →
  Forall2 (across extract same_error s1 s2) (syntax_errors s1) (syntax_errors s2) →
  run extract (parse env f t (inr md)) s1 = ODone (inr o1) s1' →
  ∃ o2 s2', run extract (parse env f t (inr md)) s2 = ODone (inr o2) s2' ∧
    option_Forall2 (across extract same_tree s1 s2) o1 o2 ∧
    alike_words (λ x, x ∈ literals t ++ env_literals env) extract s1' s2' ∧
    Forall2 (across extract same_error s1 s2) (syntax_errors s1') (syntax_errors s2').
Proof. intros Ha. destruct (tables_alike env t md Ha) as (H1 & H2 & H3). by apply parse_alike. Qed.
Lemma fresh_texts extract env f t md src1 evs1 src2 evs2 o1 s1' : accepted env t md →
  raw_ok (String.length src1) evs1 → raw_ok (String.length src2) evs2 →
  let toks evs := filter (λ t, extract (t_ty t) = false) (raw_tokens evs) in
  Forall2 (alike (λ x, x ∈ literals t ++ env_literals env)) (word src1 (toks evs1)) (word src2 (toks evs2)) →
  run extract (parse env f t (inr md)) (pst_new src1 evs1) = ODone (inr o1) s1' →
  ∃ o2 s2', run extract (parse env f t (inr md)) (pst_new src2 evs2) = ODone (inr o2) s2' ∧
    option_Forall2 (same_tree src1 (toks evs1) src2 (toks evs2)) o1 o2 ∧
    Forall2 (same_error src1 (toks evs1) src2 (toks evs2)) (syntax_errors s1') (syntax_errors s2') ∧
    map c_sem (p_tokens s1') = map c_sem (p_tokens s2').
Proof.
  intros Ha H1 H2 toks Hw Hr. apply state_ok_new in H1, H2.
  destruct (parse_texts extract env f t md (pst_new src1 evs1) (pst_new src2 evs2) o1 s1') as (o2 & s2' & A & B & C & D);
    [done|done|done|by split|constructor|done|].
  exists o2, s2'. split_and!; try done. apply C.
Qed.
