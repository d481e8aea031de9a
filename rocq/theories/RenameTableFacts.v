(** Facts about renaming: registration and the tables. *)
From Coq Require Import String NArith.
From stdpp Require Import prelude list gmap strings relations.
From Verif Require Import SynSetModel SynSetFacts TableModel CfgSpec CfgFacts FirstFacts FollowFacts CheckFacts LocalFacts JumpFacts MetaFacts OrderFacts TypeModel StreamModel ProduceModel RenameSpec RenameRunFacts RenameProduceFacts.
Local Open Scope nat_scope.
#[local] Arguments ts_contains : simpl never.
#[local] Arguments tb_get : simpl never.

Section rename.
  Variable r : renaming.
  Hypothesis Hd : distinct r.
  Notation re_prod := (re_prod r). Notation re_tok := (re_tok r). Notation re_entry := (re_entry r). Notation re_reg := (re_reg r).
  Notation same_set := (same_set r). Notation same_gerr := (same_gerr r). Notation same_reprs := (same_reprs r).

  Lemma re_prod_inj p q : re_prod p = re_prod q → p = q.
  Proof using Hd.
    destruct Hd as (H1 & H2 & H3).
    revert q. induction p as [n y l|n|l IH|p IH|p IH|p q' IH1 IH2| |p IH] using prod_rect';
      intros [n' y' l'|n'|l'|p'|p'|p' p''| |p']; cbn; try done; intros E; injection E.
    - intros -> ->%H1 ->%H3. done.
    - by intros ->%H2.
    - clear E. revert l'. induction IH as [|x l Hx Hl IHl]; intros [|x' l']; try done. cbn. intros E. injection E as E1 E2.
      apply Hx in E1 as ->. apply IHl in E2. by injection E2 as ->.
    - by intros ->%IH.
    - by intros ->%IH.
    - by intros ->%IH2 ->%IH1.
    - by intros ->%IH.
  Qed.
  #[local] Instance re_prod_inj' : Inj (=) (=) re_prod.
  Proof using Hd. intros p q. apply re_prod_inj. Qed.

  (** * Derivations *)
  Definition re_sym (s : sym prod) : sym prod := match s with CfgSpec.N p => CfgSpec.N (re_prod p) | T t => T (re_tok t) end.
  Lemma re_tok_inj1 s t : re_tok s = re_tok t → s = t.
  Proof using Hd. intros E. assert (H : re_tok <$> Some s = re_tok <$> Some t) by (cbn; by rewrite E). apply (re_tok_inj r Hd) in H. by injection H. Qed.
  Lemma re_sym_inj : Inj (=) (=) re_sym.
  Proof using Hd. intros [p|s] [q|t]; cbn; try done; intros E; injection E; [by intros ->%re_prod_inj|]. intros H1 H2. f_equal. apply re_tok_inj1. destruct s, t; unfold RenameSpec.re_tok; cbn in *. by rewrite H1, H2. Qed.

  Section derive.
    Variable G : grammar prod.
    Notation G' := (map re_reg G).

    Lemma in_re k' e' : (k', e') ∈ G' ↔ ∃ k e, k' = re_prod k ∧ e' = re_entry e ∧ (k, e) ∈ G.
    Proof.
      change G' with (re_reg <$> G). rewrite elem_of_list_fmap. split.
      - intros ([k e] & E & H). injection E as -> ->. eauto.
      - intros (k & e & -> & -> & H). by exists (k, e).
    Qed.
    Lemma in_re1 k e : (k, e) ∈ G → (re_prod k, re_entry e) ∈ G'.
    Proof. intros H. apply in_re. eauto. Qed.
    Lemma in_seq k' l' : (k', ESeq l') ∈ G' → ∃ k l, k' = re_prod k ∧ l' = map re_prod l ∧ (k, ESeq l) ∈ G.
    Proof. intros (k & [|y lit|l|l] & -> & E & H)%in_re; try done. injection E as ->. eauto. Qed.
    Lemma in_union k' l' : (k', EUnion l') ∈ G' → ∃ k l, k' = re_prod k ∧ l' = map re_prod l ∧ (k, EUnion l) ∈ G.
    Proof. intros (k & [|y lit|l|l] & -> & E & H)%in_re; try done. injection E as ->. eauto. Qed.

    Lemma rhs_re k γ : rhs G k γ → rhs G' (re_prod k) (map re_sym γ).
    Proof.
      intros [k0 H|k0 y lit t H Hc|k0 l H|k0 l z H Hz]; apply in_re1 in H; cbn.
      - by constructor.
      - eapply rhs_tok; [exact H|]. destruct Hc as [<- Hc]. split; done.
      - assert (E : map re_sym (map CfgSpec.N l) = map CfgSpec.N (map re_prod l)) by (by rewrite !map_map). rewrite E. by constructor.
      - eapply rhs_union; [exact H|]. by apply elem_of_list_fmap_1.
    Qed.
    Lemma rhs_er k' γ' : rhs G' k' γ' → ∃ k γ, k' = re_prod k ∧ γ' = map re_sym γ ∧ rhs G k γ.
    Proof.
      intros [k0 H|k0 y lit t H Hc|k0 l H|k0 l z H Hz].
      - apply in_re in H as (k & [|y lit|l|l] & -> & E & H); try done. exists k, []. split; [done|]. split; [done|]. by constructor.
      - apply in_re in H as (k & [|y0 lit0|l|l] & -> & E & H); try done. cbn in E. injection E as -> ->. destruct t as [y x]. destruct Hc as [E Hc]. cbn in E, Hc. subst.
        exists k, [T (y0, x)]. split; [done|]. split; [done|]. by eapply rhs_tok.
      - apply in_seq in H as (k & l0 & -> & -> & H). exists k, (map CfgSpec.N l0). split; [done|]. split; [|by constructor]. by rewrite !map_map.
      - apply in_union in H as (k & l0 & -> & -> & H). change (map re_prod l0) with (re_prod <$> l0) in Hz. apply elem_of_list_fmap in Hz as (z0 & -> & Hz).
        exists k, [CfgSpec.N z0]. split; [done|]. split; [done|]. by eapply rhs_union.
    Qed.
    Lemma derives_re α β : derives G α β → derives G' (map re_sym α) (map re_sym β).
    Proof.
      induction 1 as [|α β γ H1 _ IH]; [apply rtc_refl|]. eapply rtc_l; [|exact IH]. destruct H1 as [a k c b H]. rewrite !map_app. cbn. constructor. by apply rhs_re.
    Qed.
    Lemma derives_er α' β' : derives G' α' β' → ∀ α, α' = map re_sym α → ∃ β, β' = map re_sym β ∧ derives G α β.
    Proof using Hd.
      induction 1 as [α'|α' β' γ' H1 _ IH]; intros α ->; [exists α; split; [done|apply rtc_refl]|].
      remember (map re_sym α) as x eqn:Ex. destruct H1 as [a' k' c' b' H]. apply rhs_er in H as (k & c & -> & -> & H).
      symmetry in Ex. apply map_eq_app in Ex as (a & b0 & -> & <- & Eb). destruct b0 as [|[p|t] b]; try done. cbn in Eb. injection Eb as Ep <-.
      apply re_prod_inj in Ep as ->. destruct (IH (a ++ c ++ b)) as (β & -> & Hβ); [by rewrite !map_app|].
      exists β. split; [done|]. eapply rtc_l; [|exact Hβ]. by constructor.
    Qed.
    Lemma fder_re p o : fder G p o → fder G' (re_prod p) (re_tok <$> o).
    Proof.
      destruct o as [t|]; cbn; unfold nullable, starts.
      - intros [β H]. exists (map re_sym β). exact (derives_re _ _ H).
      - intros H. exact (derives_re _ _ H).
    Qed.
    Lemma fder_er p o' : fder G' (re_prod p) o' → ∃ o, o' = re_tok <$> o ∧ fder G p o.
    Proof using Hd.
      destruct o' as [t'|]; cbn; unfold nullable, starts.
      - intros [β' H]. apply derives_er with (α := [CfgSpec.N p]) in H as (β & E & H); [|done]. destruct β as [|[q|t] β]; try done. cbn in E. injection E as E1 E2.
        exists (Some t). split; [cbn; f_equal; by destruct t'|]. by exists β.
      - intros H. apply derives_er with (α := [CfgSpec.N p]) in H as (β & E & H); [|done]. symmetry in E. apply map_eq_nil in E as ->. by exists None.
    Qed.
    Lemma near_re root k o : near_follow G root k o → near_follow G' (re_prod root) (re_prod k) (re_tok <$> o).
    Proof.
      induction 1 as [|x l1 a b l2 t Hin Hst|x l1 a l2 t Hin Hn _ IH|x l y t Hin Hy _ IH].
      - constructor.
      - apply in_re1 in Hin. cbn in Hin. rewrite map_app in Hin. cbn in Hin. eapply nf_next; [exact Hin|]. exact (fder_re b (Some t) Hst).
      - apply in_re1 in Hin. cbn in Hin. rewrite map_app in Hin. cbn in Hin. eapply nf_last; [exact Hin| |done].
        change (map re_prod l2) with (re_prod <$> l2). apply Forall_fmap. eapply Forall_impl; [exact Hn|]. intros z Hz. exact (fder_re z None Hz).
      - apply in_re1 in Hin. cbn in Hin. eapply nf_union; [exact Hin| |done]. by apply elem_of_list_fmap_1.
    Qed.
    Lemma near_er root k' o' : near_follow G' (re_prod root) k' o' → ∃ k o, k' = re_prod k ∧ o' = re_tok <$> o ∧ near_follow G root k o.
    Proof using Hd.
      induction 1 as [|x l1 a b l2 t Hin Hst|x l1 a l2 t Hin Hn _ IH|x l y t Hin Hy _ IH].
      - exists root, None. split; [done|]. split; [done|]. constructor.
      - apply in_seq in Hin as (x0 & l & -> & E & Hin). symmetry in E. apply map_eq_app in E as (m1 & m2 & -> & <- & E).
        destruct m2 as [|a0 [|b0 m2]]; try done. cbn in E. injection E as <- <- <-.
        destruct (fder_er b0 (Some t) Hst) as (o & Eo & Ho). destruct o as [t0|]; [|done]. injection Eo as Eo.
        exists a0, (Some t0). split; [done|]. split; [cbn; by f_equal|]. by eapply nf_next.
      - destruct IH as (k & o & -> & -> & H). apply in_seq in Hin as (x0 & l & Ex & E & Hin). apply re_prod_inj in Ex as ->.
        symmetry in E. apply map_eq_app in E as (m1 & m2 & -> & <- & E). destruct m2 as [|a0 m2]; try done. cbn in E. injection E as <- <-.
        exists a0, o. split; [done|]. split; [done|]. eapply nf_last; [exact Hin| |done].
        change (map re_prod m2) with (re_prod <$> m2) in Hn. rewrite Forall_fmap in Hn. eapply Forall_impl; [exact Hn|]. intros z Hz.
        destruct (fder_er z None Hz) as ([|] & E & Hz'); done.
      - destruct IH as (k & o & -> & -> & H). apply in_union in Hin as (x0 & l0 & Ex & -> & Hin). apply re_prod_inj in Ex as ->.
        change (map re_prod l0) with (re_prod <$> l0) in Hy. apply elem_of_list_fmap in Hy as (y0 & -> & Hy).
        exists y0, o. split; [done|]. split; [done|]. by eapply nf_union.
    Qed.
    Lemma functional_re : functional G → functional G'.
    Proof using Hd.
      unfold functional. intros H. change G' with (re_reg <$> G). rewrite <- list_fmap_compose.
      assert (E : (fst ∘ re_reg) <$> G = re_prod <$> G.*1) by (rewrite <- list_fmap_compose; done).
      rewrite E. apply NoDup_fmap_2; [exact re_prod_inj'|done].
    Qed.
  End derive.

  (** * Sets *)
  Lemma same_new : same_set ts_new ts_new.
  Proof. intros o'. split; [|intros (o & -> & H); by destruct o as [[]|]]. by destruct o' as [[y x]|]. Qed.
  Lemma same_inter s s' o o' inc : same_set s s' → same_set o o' → ts_intersects s' o' inc = ts_intersects s o inc.
  Proof using Hd.
    intros H1 H2. apply eq_iff_eq_true. rewrite !ts_intersects_spec. split.
    - intros (t' & Hi & H3 & H4). apply H1 in H3 as (t & -> & H3). rewrite (same_contains r Hd _ _ _ H2) in H4. exists t. split; [|done].
      intros ->. by apply Hi.
    - intros (t & Hi & H3 & H4). exists (re_tok <$> t). rewrite (same_contains r Hd _ _ _ H1), (same_contains r Hd _ _ _ H2). split; [|done].
      intros E. apply Hi. by destruct t.
  Qed.
  Lemma all_of_re s s' y : same_set s s' → all_of s' (rn_type r y) ↔ all_of s y.
  Proof using Hd.
    intros H. unfold all_of. split; intros Ha x; specialize (Ha x).
    - change (rn_type r y, x) with (re_tok (y, x)) in Ha. by rewrite (same_contains_some r Hd _ _ _ H) in Ha.
    - change (rn_type r y, x) with (re_tok (y, x)). by rewrite (same_contains_some r Hd _ _ _ H).
  Qed.
  Lemma all_of_er s s' y' : same_set s s' → all_of s' y' → ∃ y, y' = rn_type r y.
  Proof. intros H Ha. specialize (Ha EmptyString). apply H in Ha as ([[y x]|] & E & _); [|done]. injection E as -> _. eauto. Qed.
  Lemma same_repr s s' o o' inc : same_set s s' → same_set o o' → same_reprs (ts_intersection_repr s o inc) (ts_intersection_repr s' o' inc).
  Proof using Hd.
    intros H1 H2 z'. rewrite ts_intersection_repr_spec. split.
    - destruct z' as [|x|y']; intros Hz; cycle 2.
      + destruct Hz as [Ha Hb]. destruct (all_of_er _ _ _ H1 Ha) as [y ->]. exists (RTy y). split; [done|]. apply ts_intersection_repr_spec.
        by rewrite (all_of_re _ _ _ H1) in Ha; rewrite (all_of_re _ _ _ H2) in Hb.
      + exists REmpty. split; [done|]. apply ts_intersection_repr_spec. destruct Hz as (Hi & Ha & Hb).
        rewrite (same_contains r Hd _ _ None H1 : ts_contains s' None = _) in Ha. by rewrite (same_contains r Hd _ _ None H2 : ts_contains o' None = _) in Hb.
      + destruct Hz as (y' & Ha & Hb & Hn). apply H1 in Ha as ([[y x0]|] & E & Ha); [|done]. injection E as -> ->.
        exists (RLit x0). split; [done|]. apply ts_intersection_repr_spec. exists y. split; [done|].
        change (rn_type r y, x0) with (re_tok (y, x0)) in Hb. rewrite (same_contains_some r Hd _ _ _ H2) in Hb. split; [done|].
        by rewrite (all_of_re _ _ _ H1), (all_of_re _ _ _ H2) in Hn.
    - intros (z & -> & Hz). rewrite ts_intersection_repr_spec in Hz. destruct z as [|x|y]; cbn; cycle 2.
      + by rewrite (all_of_re _ _ _ H1), (all_of_re _ _ _ H2).
      + rewrite (same_contains r Hd _ _ None H1 : ts_contains s' None = _). by rewrite (same_contains r Hd _ _ None H2 : ts_contains o' None = _).
      + destruct Hz as (y & Ha & Hb & Hn). exists (rn_type r y). change (rn_type r y, x) with (re_tok (y, x)).
        rewrite (same_contains_some r Hd _ _ _ H1), (same_contains_some r Hd _ _ _ H2). split; [done|]. split; [done|].
        by rewrite (all_of_re _ _ _ H1), (all_of_re _ _ _ H2).
  Qed.
  Lemma same_clear s s' : same_set s s' → same_set (ts_clear s) (ts_clear s').
  Proof using Hd.
    intros H o'. rewrite ts_contains_clear. split.
    - intros (y' & x & -> & Ha). destruct (all_of_er _ _ _ H Ha) as [y ->]. exists (Some (y, x)). split; [done|]. apply ts_contains_clear.
      exists y, x. split; [done|]. by apply (all_of_re _ _ y H).
    - intros (o & -> & Ho). apply ts_contains_clear in Ho as (y & x & -> & Ha). exists (rn_type r y), x. split; [done|]. by apply (all_of_re _ _ y H).
  Qed.
  Lemma same_lits s s' y : same_set s s' → lm_get (ts_map s') (rn_type r y) = lm_get (ts_map s) y.
  Proof using Hd. intros H. apply lit_ext. intros x. exact (same_contains_some r Hd _ _ (y, x) H). Qed.

  (** * Checks *)
  Definition same_opt (a b : option (gerr prod)) : Prop := match a, b with Some e, Some e' => same_gerr e e' | None, None => True | _, _ => False end.
  Section cong.
    Variables (first first' follow follow' : table prod).
    Hypothesis Hfirst : ∀ p, same_set (tb_get first p) (tb_get first' (re_prod p)).
    Hypothesis Hfollow : ∀ p, same_set (tb_get follow p) (tb_get follow' (re_prod p)).

    Lemma find_before_re t inner ys : same_opt (find_before first t inner ys) (find_before first' (re_prod t) (re_prod inner) (map re_prod ys)).
    Proof using Hd Hfirst.
      induction ys as [|b ys IH]; [done|]. cbn [find_before map]. unfold fs_intersects. rewrite (same_inter _ _ _ _ true (Hfirst inner) (Hfirst b)).
      destruct (ts_intersects _ _ true); [|done]. cbn [same_opt RenameSpec.same_gerr]. split; [done|]. split; [done|]. split; [done|]. by apply same_repr.
    Qed.
    Lemma ck_union_re t all C C' ys : same_set C C' →
      same_opt (ck_union_loop first t all C ys) (ck_union_loop first' (re_prod t) (map re_prod all) C' (map re_prod ys)).
    Proof using Hd Hfirst.
      revert C C'. induction ys as [|y ys IH]; intros C C' HC; [done|]. cbn [ck_union_loop map]. unfold fs_intersects, fs_union.
      rewrite (same_inter _ _ _ _ true HC (Hfirst y)).
      pose proof (IH _ _ (same_union r Hd _ _ _ _ true HC (Hfirst y))) as Hc.
      destruct (ts_intersects _ _ true); [|done]. pose proof (find_before_re t y all) as Hb.
      destruct (find_before first t y all), (find_before first' _ _ _); done.
    Qed.
    Lemma ck_seq_re t cur C C' ys : same_set C C' →
      same_opt (ck_seq_loop first t cur C ys) (ck_seq_loop first' (re_prod t) (re_prod cur) C' (map re_prod ys)).
    Proof using Hd Hfirst.
      revert cur C C'. induction ys as [|y ys IH]; intros cur C C' HC; [done|]. cbn [ck_seq_loop map].
      unfold fs_intersects_minus_eps, fs_union_minus_eps. rewrite (same_inter _ _ _ _ false HC (Hfirst y)), (same_e r Hd _ _ (Hfirst y)).
      destruct (ts_intersects _ _ false).
      - cbn [same_opt RenameSpec.same_gerr]. split; [done|]. split; [done|]. split; [done|]. by apply same_repr.
      - destruct (ts_contains_e _); apply IH; [|by apply same_clear]. by apply same_union.
    Qed.
    Lemma ck_self_re t : same_opt (ck_self first follow t) (ck_self first' follow' (re_prod t)).
    Proof using Hd Hfirst Hfollow.
      unfold ck_self, fo_intersects_first. rewrite (same_e r Hd _ _ (Hfirst t)), (same_inter _ _ _ _ false (Hfollow t) (Hfirst t)).
      destruct (negb _); [done|]. destruct (ts_intersects _ _ false); [|done]. cbn [same_opt RenameSpec.same_gerr]. split; [done|]. by apply same_repr.
    Qed.
    Lemma ck_local_re t e : same_opt (ck_local first follow t e) (ck_local first' follow' (re_prod t) (re_entry e)).
    Proof using Hd Hfirst Hfollow.
      pose proof (ck_self_re t) as Hs. destruct e as [|ty lit|[|y l]|l]; cbn [ck_local RenameSpec.re_entry map]; [done..| |].
      - rewrite (same_e r Hd _ _ (Hfirst y)).
        assert (H : same_opt (ck_seq_loop first t y (if ts_contains_e (tb_get first y) then tb_get first y else ts_new) l)
          (ck_seq_loop first' (re_prod t) (re_prod y) (if ts_contains_e (tb_get first y) then tb_get first' (re_prod y) else ts_new) (map re_prod l))).
        { apply ck_seq_re. destruct (ts_contains_e _); [done|apply same_new]. }
        destruct (ck_seq_loop first _ _ _ _), (ck_seq_loop first' _ _ _ _); done.
      - pose proof (ck_union_re t l ts_new ts_new l same_new) as H.
        destruct (ck_union_loop first _ _ _ _), (ck_union_loop first' _ _ _ _); done.
    Qed.

    Variables (it it' : list (prod * entry prod)).
    Hypothesis Hit : ∀ p, bt_get it' (re_prod p) = re_entry <$> bt_get it p.

    Lemma mem_re (l : list prod) p : bs_mem (map re_prod l) (re_prod p) = bs_mem l p.
    Proof using Hd.
      unfold bs_mem. apply bool_decide_ext. change (map re_prod l) with (re_prod <$> l). rewrite elem_of_list_fmap. split; [|eauto].
      by intros (q & ->%re_prod_inj & H).
    Qed.
    Lemma insert_re (l : list prod) p : bs_insert (map re_prod l) (re_prod p) = map re_prod (bs_insert l p).
    Proof using Hd. unfold bs_insert. rewrite mem_re. destruct (bs_mem l p); [done|]. by rewrite map_app. Qed.
    Lemma comps_re e : comps (re_entry e) = map re_prod (comps e).
    Proof. by destruct e. Qed.
    Definition same_ck (a b : ck_res prod) : Prop :=
      match a, b with
      | CFuel, CFuel => True
      | CErr e, CErr e' => same_gerr e e'
      | COk l, COk l' => l' = map re_prod l
      | _, _ => False
      end.
    Lemma check_re fuel t seen :
      same_ck (check_conflicts it first follow fuel t seen) (check_conflicts it' first' follow' fuel (re_prod t) (map re_prod seen)).
    Proof using Hd Hfirst Hfollow Hit.
      revert t seen. induction fuel as [|f IH]; intros t seen; [done|]. cbn [check_conflicts].
      rewrite mem_re, insert_re, Hit. destruct (bs_mem seen t); [done|]. destruct (bt_get it t) as [e|]; [|done]. cbn [fmap option_fmap option_map].
      pose proof (ck_local_re t e) as Hl. destruct (ck_local first follow t e), (ck_local first' follow' _ _); try done.
      rewrite comps_re. generalize (bs_insert seen t). induction (comps e) as [|y l IHl]; intros s; [done|]. cbn [ck_all map].
      pose proof (IH y s) as Hy. destruct (check_conflicts it first follow f y s), (check_conflicts it' first' follow' f _ _); try done.
      cbn in Hy. subst. apply IHl.
    Qed.

    (** * Jump tables *)
    Definition same_jt (j j' : jtable) : Prop := jt_eps j' = jt_eps j ∧ ∀ y, jt_entry j' (rn_type r y) = jt_entry j y.
    Lemma same_jt_add j j' s s' v : same_jt j j' → same_set s s' → same_jt (jt_add j s v) (jt_add j' s' v).
    Proof using Hd.
      intros [H1 H2] Hs. unfold jt_add. rewrite (same_e r Hd _ _ Hs).
      set (a := if ts_contains_e s then jt_register_eps j v else j). set (a' := if ts_contains_e s then jt_register_eps j' v else j').
      assert (Ha : same_jt a a') by (subst a a'; destruct (ts_contains_e s); split; done).
      destruct Ha as [Ha1 Ha2]. clearbody a a'. split.
      - by rewrite !(proj2 (jt_add_types_spec _ _ _ _ 0)).
      - intros y. rewrite (proj1 (jt_add_types_spec _ _ _ _ _)), (proj1 (jt_add_types_spec _ _ _ _ _)), !decide_True by lia.
        by rewrite !Nat.sub_0_r, (same_lits _ _ _ Hs), Ha2.
    Qed.
    Lemma same_jt_new : same_jt jt_new jt_new.
    Proof. split; [done|]. intros y. done. Qed.
    Definition same_jump (m m' : jump prod) : Prop :=
      ∀ p, match bt_get m p, bt_get m' (re_prod p) with Some j, Some j' => same_jt j j' | None, None => True | _, _ => False end.
    Lemma same_register m m' t s s' v : same_jump m m' → same_set s s' → same_jump (jump_register m t s v) (jump_register m' (re_prod t) s' v).
    Proof using Hd.
      intros Hm Hs p. unfold jump_register. rewrite !bt_get_insert. destruct (decide (p = t)) as [->|Hn].
      - rewrite !decide_True by done. apply same_jt_add; [|done]. specialize (Hm t).
        destruct (bt_get m t), (bt_get m' (re_prod t)); done.
      - rewrite decide_False by (by intros ->%re_prod_inj). apply Hm.
    Qed.
    Definition same_bj (a b : option (list prod * jump prod)) : Prop :=
      match a, b with
      | Some (l, m), Some (l', m') => l' = map re_prod l ∧ same_jump m m'
      | None, None => True
      | _, _ => False
      end.
    Lemma build_jump_re fuel t seen jm jm' : same_jump jm jm' →
      same_bj (build_jump it first fuel t seen jm) (build_jump it' first' fuel (re_prod t) (map re_prod seen) jm').
    Proof using Hd Hfirst Hit.
      revert t seen jm jm'. induction fuel as [|f IH]; intros t seen jm jm' Hj; [done|]. cbn [build_jump].
      rewrite mem_re, insert_re, Hit. destruct (bs_mem seen t); [done|].
      assert (Hall : ∀ reg l i s jm jm', same_jump jm jm' → same_bj (bj_all first (build_jump it first f) t reg i l s jm)
                (bj_all first' (build_jump it' first' f) (re_prod t) reg i (map re_prod l) (map re_prod s) jm')).
      { intros reg l. induction l as [|y l IHl]; intros i s j j' Hjj; [done|]. cbn [bj_all map].
        assert (H : same_jump (if reg then jump_register j t (tb_get first y) i else j) (if reg then jump_register j' (re_prod t) (tb_get first' (re_prod y)) i else j')).
        { destruct reg; [|done]. by apply same_register. }
        pose proof (IH y s _ _ H) as Hy.
        destruct (build_jump it first f y s _) as [[s1 j1]|], (build_jump it' first' f _ _ _) as [[s2 j2]|]; try done.
        destruct Hy as [-> Hy]. cbn [mbind option_bind]. by apply IHl. }
      destruct (bt_get it t) as [[| |l|l]|]; cbn [fmap option_fmap option_map RenameSpec.re_entry]; try done; by apply Hall.
    Qed.
  End cong.

  Lemma meta_build_re (regs iter iter' : grammar prod) root :
    functional regs → iter ≡ₚ regs → iter' ≡ₚ map re_reg regs →
    ∃ m m', meta_build regs iter root = Some m ∧ meta_build (map re_reg regs) iter' (re_prod root) = Some m' ∧ same_meta r m m'.
  Proof using Hd.
    intros Hf Hi Hi'. pose proof (functional_re regs Hf) as Hf'.
    destruct (meta_build_cases regs iter root Hf Hi) as (first & follow & E1 & E2 & Hok & _).
    destruct (meta_build_cases _ iter' (re_prod root) Hf' Hi') as (first' & follow' & E1' & E2' & Hok' & _).
    assert (S1 : ∀ p, same_set (tb_get first p) (tb_get first' (re_prod p))).
    { intros p o'. rewrite (tk_first _ _ _ _ Hok'). setoid_rewrite (tk_first _ _ _ _ Hok). split; [apply fder_er|]. intros (o & -> & H). by apply fder_re. }
    assert (S2 : ∀ p, same_set (tb_get follow p) (tb_get follow' (re_prod p))).
    { intros p o'. rewrite (tk_follow _ _ _ _ Hok'). setoid_rewrite (tk_follow _ _ _ _ Hok). split.
      - intros (k & o & Ek & -> & H)%near_er. apply re_prod_inj in Ek as ->. eauto.
      - intros (o & -> & H). by apply near_re. }
    assert (Hit : ∀ p, bt_get iter' (re_prod p) = re_entry <$> bt_get iter p).
    { intros p. destruct (bt_get iter p) as [e|] eqn:E.
      - apply (bt_get_perm regs iter) in E; [|done..]. apply (bt_get_perm (map re_reg regs) iter'); [done..|]. by apply in_re1.
      - destruct (bt_get iter' (re_prod p)) as [e'|] eqn:E'; [|done]. apply (bt_get_perm (map re_reg regs) iter') in E'; [|done..].
        apply in_re in E' as (k & e & Ek & -> & H). apply re_prod_inj in Ek as <-. apply (bt_get_perm regs iter) in H; [|done..]. congruence. }
    assert (Hlen : length iter' = length iter) by (by rewrite Hi, Hi', map_length).
    unfold meta_build. rewrite E1, E1'. cbn [mbind option_bind].
    destruct (check_lr_good iter first (S (S (length iter))) root [] [] []) as (s1 & s2 & s3 & -> & _).
    { done. } { pose proof (unseen_bound iter []). lia. }
    destruct (check_lr_good iter' first' (S (S (length iter'))) (re_prod root) [] [] []) as (s1' & s2' & s3' & -> & _).
    { done. } { pose proof (unseen_bound iter' []). lia. }
    rewrite E2, E2'. cbn [mbind option_bind]. rewrite Hlen.
    pose proof (check_re first first' follow follow' S1 S2 iter iter' Hit (S (S (length iter))) root []) as Hc.
    pose proof (build_jump_re first first' S1 iter iter' Hit (S (S (length iter))) root [] [] []) as Hb.
    pose proof (check_conflicts_good iter first follow (S (S (length iter))) root []) as Hck.
    cbn [map] in Hc, Hb.
    destruct (check_conflicts iter first follow (S (S (length iter))) root []) as [|e|seen'],
      (check_conflicts iter' first' follow' (S (S (length iter))) (re_prod root) []) as [|e'|seen'']; try done.
    - destruct Hck. pose proof (unseen_bound iter []). lia.
    - exists (inl e), (inl e'). done.
    - destruct (build_jump_spec iter first root) as (seen & jm & E & _). rewrite E in Hb |- *.
      destruct (build_jump iter' first' _ _ _ _) as [[l' jm']|]; [|by destruct Hb].
      destruct Hb as [_ Hb]; [by intros p|]. cbn. eexists _, _. split; [done|]. split; [done|]. intros p. cbn. split; [apply S1|]. split; [apply S2|].
      intros o. unfold jump_look_up. specialize (Hb p). destruct (bt_get jm p) as [j|], (bt_get jm' (re_prod p)) as [j'|]; try done.
      destruct Hb as [Hb1 Hb2]. destruct o as [[y x]|]; cbn; [|done]. unfold jt_look_up_token. cbn.
      specialize (Hb2 y). unfold jt_entry in Hb2. by rewrite Hb2.
  Qed.

  (** * Registration *)
  Section register.
    Variables env env' : denv.
    Hypothesis He : redeclared r env env'.
    Lemma field_prods_re l : field_prods (map (re_field r) l) = map re_prod (field_prods l).
    Proof. unfold field_prods. rewrite !map_map. apply map_ext. intros [t s]. apply prod_of_re. Qed.
    Lemma map_pid_re l : map pid (map re_prod l) = map re_prod (map pid l).
    Proof. rewrite !map_map. apply map_ext. intros p. apply pid_re. Qed.
    Lemma kids_re p : kids env' (re_prod p) = map re_prod <$> kids env p.
    Proof using He.
      destruct p; cbn; try done. rewrite He. destruct (env !! n) as [[l|l]|]; cbn; [| |done]; by rewrite field_prods_re.
    Qed.
    Lemma entry_re p : entry_of env' (re_prod p) = re_entry <$> entry_of env p.
    Proof using He.
      destruct p; cbn; try done; rewrite ?map_pid_re, ?pid_re; try done.
      rewrite He. destruct (env !! n) as [[l|l]|]; cbn; [| |done]; by rewrite field_prods_re, map_pid_re.
    Qed.
    Lemma register_re f p regs : register env' f (re_prod p) (map re_reg regs) = map re_reg <$> register env f p regs.
    Proof using Hd He.
      revert p regs. induction f as [|f IH]; intros p regs; [done|]. cbn [register]. rewrite pid_re.
      assert (E : re_prod (pid p) ∈ (map re_reg regs).*1 ↔ pid p ∈ regs.*1).
      { change (map re_reg regs) with (re_reg <$> regs). rewrite <- list_fmap_compose.
        assert (E : (fst ∘ re_reg) <$> regs = re_prod <$> regs.*1) by (rewrite <- list_fmap_compose; done). rewrite E, elem_of_list_fmap.
        split; [|eauto]. by intros (q & ->%re_prod_inj & H). }
      destruct (decide (pid p ∈ regs.*1)) as [H|H]; [rewrite decide_True by tauto; done|]. rewrite decide_False by tauto.
      rewrite entry_re, kids_re. destruct (entry_of env (pid p)) as [e|]; [|done]. destruct (kids env (pid p)) as [ks|]; [|done]. cbn [mbind option_bind fmap option_fmap option_map].
      assert (Es : map re_reg regs ++ [(re_prod (pid p), re_entry e)] = map re_reg (regs ++ [(pid p, e)])) by (by rewrite map_app). rewrite Es. clear Es E H.
      generalize (regs ++ [(pid p, e)]). clear -IH. induction ks as [|k ks IHk]; intros l; [done|]. cbn [reg_all map]. rewrite IH.
      destruct (register env f k l) as [l1|]; [|done]. cbn. apply IHk.
    Qed.
  End register.
End rename.
