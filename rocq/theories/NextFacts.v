(** Sentences one after the other are read one by one. *)
From Coq Require Import String NArith.
From stdpp Require Import prelude list strings relations.
From Verif Require Import LexModel LexSpec SynSetModel TableModel StreamModel StreamSpec StreamFacts TypeModel TypeSpec TypeFacts CfgSpec CfgFacts FollowFacts
  MetaFacts ProduceModel ParseSpec ProgFacts FuelFacts TreeFacts SoundFacts LangFacts RunFacts InvFacts LookFacts MdFacts ParseFacts TermFacts CompleteSpec CompleteFacts NextSpec.
Local Open Scope nat_scope.

(** * Productive types have productive productions *)
Lemma productive_intro env t w : lang env t w → (∀ c, c ∈ subs env t → productive env c) → productive env t.
Proof.
  intros Hw H c Hc. inversion Hc as [|? b ? Hb Hbc]; subst; [by exists w|]. by apply (H b).
Qed.
Lemma langs_productive env ts : Forall (productive env) ts → ∃ w, langs env ts w.
Proof.
  induction 1 as [|t ts Ht _ [w Hw]]; [exists []; constructor|].
  destruct (Ht t) as [w1 H1]; [constructor|]. exists (w1 ++ w). by constructor.
Qed.
Lemma productive_sub env t c : productive env t → c ∈ subs env t → productive env c.
Proof. apply all_within_sub. Qed.
Lemma productive_tuple env ts : Forall (productive env) ts → productive env (TTuple ts).
Proof.
  intros H. destruct (langs_productive _ _ H) as [w Hw]. apply (productive_intro _ _ w); [by constructor|].
  rewrite Forall_forall in H. exact H.
Qed.
Lemma productive_opt env t : productive env t → productive env (TOpt t).
Proof. intros H. apply (productive_intro _ _ []); [constructor|]. cbn. by intros c ->%elem_of_list_singleton. Qed.
Lemma productive_star env t : productive env t → productive env (TStar t).
Proof. intros H. apply (productive_intro _ _ []); [apply (l_star _ _ 0); constructor|]. cbn. by intros c ->%elem_of_list_singleton. Qed.
Lemma productive_plus env t : productive env t → productive env (TPlus t).
Proof.
  intros H. destruct (langs_productive env [t]) as [w Hw]; [by constructor|].
  apply (productive_intro _ _ w); [by apply (l_plus _ _ 0)|]. cbn. by intros c ->%elem_of_list_singleton.
Qed.
Lemma component_productive env t k : productive env t → component env (key t) k → k = PEps ∨ ∃ c, k = key c ∧ productive env c.
Proof.
  intros Hp (ks & x & Hk & Hx & ->).
  induction t as [nm y lit|n|ts|t IH|t IH|t IH|t IH|t IH|t IH|t IH|t IH|t IH d IHd|t IH d IHd|t IH r IHr]; cbn in Hk.
  - injection Hk as <-. by apply elem_of_nil in Hx.
  - destruct (env !! n) as [dc|] eqn:En; [|done]. cbn in Hk. injection Hk as <-. right. unfold field_prods in Hx.
    apply elem_of_list_fmap in Hx as (f & -> & Hf). exists (fst f). split; [done|]. apply (productive_sub _ _ _ Hp). cbn. rewrite En.
    by apply elem_of_list_fmap_1.
  - injection Hk as <-. right. apply elem_of_list_fmap in Hx as (c & -> & Hc). exists c. split; [done|]. by apply (productive_sub _ _ _ Hp).
  - apply IH; [|done]. apply (productive_sub _ _ _ Hp). cbn. set_solver.
  - injection Hk as <-. assert (Hc : productive env t) by (apply (productive_sub _ _ _ Hp); cbn; set_solver).
    apply elem_of_cons in Hx as [->|Hx%elem_of_list_singleton]; [right; by exists t|left; by subst].
  - injection Hk as <-. assert (Hc : productive env t) by (apply (productive_sub _ _ _ Hp); cbn; set_solver).
    apply elem_of_cons in Hx as [->|Hx%elem_of_list_singleton]; [right; by exists t|left; by subst].
  - apply IH; [|done]. apply (productive_sub _ _ _ Hp). cbn. set_solver.
  - apply IH; [|done]. apply (productive_sub _ _ _ Hp). cbn. set_solver.
  - injection Hk as <-. assert (Hc : productive env t) by (apply (productive_sub _ _ _ Hp); cbn; set_solver). right.
    apply elem_of_cons in Hx as [->|Hx%elem_of_list_singleton]; [by exists t|]. subst x. exists (TStar t). split; [done|by apply productive_star].
  - injection Hk as <-. assert (Hc : productive env t) by (apply (productive_sub _ _ _ Hp); cbn; set_solver).
    apply elem_of_cons in Hx as [->|Hx%elem_of_list_singleton]; [right; exists (TPlus t); split; [done|by apply productive_plus]|left; by subst].
  - injection Hk as <-. assert (Hc : productive env t) by (apply (productive_sub _ _ _ Hp); cbn; set_solver). right.
    apply elem_of_cons in Hx as [->|Hx%elem_of_list_singleton]; [by exists t|]. subst x. exists (TStar t). split; [done|by apply productive_star].
  - injection Hk as <-. assert (Hc : productive env t) by (apply (productive_sub _ _ _ Hp); cbn; set_solver).
    assert (Hd : productive env d) by (apply (productive_sub _ _ _ Hp); cbn; set_solver). right.
    apply elem_of_cons in Hx as [->|Hx%elem_of_list_singleton]; [by exists t|]. subst x. exists (TStar (TTuple [d; t])). split; [done|].
    apply productive_star, productive_tuple. by repeat constructor.
  - injection Hk as <-. assert (Hc : productive env t) by (apply (productive_sub _ _ _ Hp); cbn; set_solver).
    assert (Hd : productive env d) by (apply (productive_sub _ _ _ Hp); cbn; set_solver). right.
    apply elem_of_cons in Hx as [->|Hx%elem_of_list_singleton]; [by exists t|]. subst x. exists (TOpt (TTuple [d; TOpt (TPunct t d)])). split; [done|].
    apply productive_opt, productive_tuple. do 2 (apply Forall_cons; split; [by try apply productive_opt|]). constructor.
  - injection Hk as <-. assert (Hc : productive env t) by (apply (productive_sub _ _ _ Hp); cbn; set_solver).
    assert (Hd : productive env r) by (apply (productive_sub _ _ _ Hp); cbn; set_solver). right.
    apply elem_of_cons in Hx as [->|Hx%elem_of_list_singleton]; [by exists t|]. subst x. by exists r.
Qed.
Lemma visible_productive env t k : productive env t → visible env (key t) k → k = PEps ∨ ∃ c, k = key c ∧ productive env c.
Proof.
  intros Hp. revert k. apply rtc_ind_r; [right; by exists t|]. intros k j _ Hj IH.
  destruct IH as [->|(c & -> & Hc)]; [|by eapply component_productive].
  destruct Hj as (ks & x & [= <-] & Hx & _). by apply elem_of_nil in Hx.
Qed.
Lemma entry_component env k e j : entry_of env k = Some e → j ∈ comps e → component env k j.
Proof.
  intros He Hj. destruct k as [n y lit|n|ps|p|p|p q| |p]; cbn in He; try done.
  - injection He as <-. by apply elem_of_nil in Hj.
  - destruct (env !! n) as [d|] eqn:En; [|done]. cbn in He. injection He as <-.
    assert (E : j ∈ map pid (field_prods (decl_fields d))) by (by destruct d).
    apply elem_of_list_fmap in E as (x & -> & Hx). exists (field_prods (decl_fields d)), x. cbn. rewrite En. done.
  - injection He as <-. apply elem_of_list_fmap in Hj as (x & -> & Hx). by exists ps, x.
  - injection He as <-. exists [p; PEps]. cbn in Hj. apply elem_of_cons in Hj as [->|Hj%elem_of_list_singleton]; [exists p|exists PEps]; set_solver.
  - injection He as <-. exists [p; POpt (POneMore p)]. cbn in Hj. apply elem_of_cons in Hj as [->|Hj%elem_of_list_singleton]; [exists p|exists (POpt (POneMore p))]; set_solver.
  - injection He as <-. exists [p; POpt (PTuple [q; POpt (PPunct p q)])]. cbn in Hj.
    apply elem_of_cons in Hj as [->|Hj%elem_of_list_singleton]; [exists p|exists (POpt (PTuple [q; POpt (PPunct p q)]))]; set_solver.
  - injection He as <-. by apply elem_of_nil in Hj.
Qed.

(** * After a sentence *)
Section next.
  Variable env : denv.
  Variable root : ty.
  Variable regs iter : grammar prod.
  Variable md : metadata prod.
  Hypothesis Hreg : register_root env (prod_of root) = Some regs.
  Hypothesis Hperm : iter ≡ₚ regs.
  Hypothesis Hmeta : meta_build regs iter (key root) = Some (inr md).
  Hypothesis Hprod : productive env root.
  Hypothesis Hr : regular env root.
  (** the type that ends before [y0]: the root, or the item of a loop *)
  Variable b : ty.
  Hypothesis Hb : within env root b.
  Hypothesis Hpl : no_punct_end env root b.
  Variable y0 : tok.
  Hypothesis Hy : ends_before env b y0.
  Notation vis k := (visible env (key root) k).
  Notation gen k w := (derives regs [N k] (map T w)).
  Notation "'MD' l" := (l env root regs iter md Hreg Hperm Hmeta) (at level 9, l at level 0, only parsing).

  Lemma vis_word k : vis k → ∃ w, gen k w.
  Proof using Hprod Hreg Hperm Hmeta.
    intros Hv. destruct (visible_productive env root k Hprod Hv) as [->|(c & -> & Hc)].
    - exists []. apply derives_rhs, rhs_eps. by apply (MD md_regs).
    - destruct (Hc c) as [w Hw]; [constructor|]. exists w. by apply (MD md_lang).
  Qed.
  Lemma rhs_vis k γ j : rhs regs k γ → N j ∈ γ → vis j.
  Proof using Hreg Hperm Hmeta.
    intros H Hj. destruct H as [k Hin|k ty lit t Hin Hc|k l Hin|k l y Hin Hy'].
    - by apply elem_of_nil in Hj.
    - by apply elem_of_list_singleton in Hj.
    - apply elem_of_list_fmap in Hj as (? & [= <-] & Hj). apply (MD md_regs) in Hin as [Hv He].
      eapply rtc_r; [exact Hv|]. by eapply entry_component.
    - apply elem_of_list_singleton in Hj as [= ->]. apply (MD md_regs) in Hin as [Hv He].
      eapply rtc_r; [exact Hv|]. by eapply entry_component.
  Qed.
  Lemma form_vis α β : derives regs α β → (∀ k, N k ∈ α → vis k) → ∀ k, N k ∈ β → vis k.
  Proof using Hreg Hperm Hmeta.
    clear Hy Hpl Hb Hr Hprod. induction 1 as [|α1 α2 α3 Hab _ IH]; [done|]. intros Ha. apply IH. intros k Hk.
    destruct Hab as [α k' γ β Hrhs]. apply elem_of_app in Hk as [Hk|Hk]; [apply Ha; set_solver|].
    apply elem_of_app in Hk as [Hk|Hk]; [by eapply rhs_vis|apply Ha; set_solver].
  Qed.
  Lemma form_word α : (∀ k, N k ∈ α → vis k) → ∃ w, derives regs α (map T w).
  Proof using Hprod Hreg Hperm Hmeta.
    clear Hy Hpl Hb Hr. induction α as [|x α IH]; intros H; [exists []; apply rtc_refl|].
    destruct IH as [w Hw]; [set_solver|]. destruct x as [k|t].
    - destruct (vis_word k) as [w1 H1]; [apply H; set_solver|]. exists (w1 ++ w). rewrite map_app.
      by apply (derives_app regs [N k] _ α).
    - exists (t :: w). cbn [map]. by apply (derives_app_l regs α (map T w) [T t]).
  Qed.

  Definition ctx (k : prod) : Prop := ∃ w0, ∀ w, gen k w → gen (key b) (w0 ++ w).
  Definition FL (k : prod) (x : tok) : Prop :=
    follows regs (key root) k (Some x) ∨ (x = y0 ∧ follows regs (key b) k None ∧ ctx k).

  Lemma null_vis k : nullable regs k → vis k.
  Proof using Hreg Hperm Hmeta.
    intros [H|[(l & H & _)|(l & z & H & _)]]%nullable_unfold; by apply (MD md_regs) in H as [H _].
  Qed.
  Lemma FL_seq k l1 a l2 x : (k, ESeq (l1 ++ a :: l2)) ∈ regs → starts_l regs l2 x → FL a x.
  Proof using Hreg. intros H1 H2. left. by eapply (follows_seq env root regs Hreg). Qed.
  Lemma FL_last k l1 a l2 x : (k, ESeq (l1 ++ a :: l2)) ∈ regs → Forall (nullable regs) l2 → FL k x → FL a x.
  Proof using Hreg Hperm Hmeta Hprod.
    clear Hy Hpl Hb Hr. intros H1 H2 [H|(-> & [α H] & [w0 Hw0])]; [left; by eapply (follows_last env root regs Hreg)|]. right. split; [done|].
    assert (Hn : derives regs (map N l2) []) by (by apply nulf_derives, nulf_map).
    assert (Hs : derives regs [N k] (map N l1 ++ [N a])).
    { etrans; [apply derives_rhs, (rhs_seq _ _ _ H1)|]. rewrite map_app. cbn [map].
      apply derives_app_l. apply (derives_app_l regs (map N l2) [] [N a] Hn). }
    split.
    - exists (α ++ map N l1). etrans; [exact H|]. rewrite <- app_assoc. by apply derives_app_l.
    - destruct (form_word (map N l1)) as [w1 Hw1].
      { intros j Hj. eapply rhs_vis; [apply (rhs_seq _ _ _ H1)|]. rewrite map_app. set_solver. }
      exists (w0 ++ w1). intros w Hw. rewrite <- app_assoc. apply Hw0. etrans; [exact Hs|]. rewrite map_app. by apply derives_app.
  Qed.
  Lemma FL_union k l y x : (k, EUnion l) ∈ regs → y ∈ l → FL k x → FL y x.
  Proof using Hreg.
    intros H1 H2 [H|(-> & [α H] & [w0 Hw0])]; [left; by eapply (follows_union env root regs Hreg)|]. right. split; [done|].
    assert (Hs : derives regs [N k] [N y]) by (by eapply derives_rhs, rhs_union).
    split.
    - exists α. etrans; [exact H|]. by apply derives_app_l.
    - exists w0. intros w Hw. apply Hw0. by etrans.
  Qed.
  Lemma FL_ll1 k x : nullable regs k → starts regs k x → FL k x → False.
  Proof using All.
    intros Hn Hs [H|(-> & _ & [w0 Hw0])].
    - exact (null_conflict_not_ll1 regs (key root) (MD md_functional) k x Hs Hn H (reg_ll1 _ _ Hr _ Hreg)).
    - destruct Hs as [β Hβ]. destruct (form_word β) as [w' Hw'].
      { intros j Hj. eapply form_vis; [exact Hβ| |set_solver]. intros i Hi%elem_of_list_singleton. injection Hi as ->. by apply null_vis. }
      apply (Hy w0 w').
      + rewrite <- (app_nil_r w0). apply (MD md_lang); [by apply (MD V_within)|]. apply Hw0, Hn.
      + apply (MD md_lang); [by apply (MD V_within)|]. apply Hw0. etrans; [exact Hβ|]. cbn [map].
        by apply (derives_app_l regs β (map T w') [T y0]).
  Qed.
  Lemma FL_punct t d x : within env root (TPunct t d) → FL (key (TPunct t d)) x → near_follow regs (key root) (key (TPunct t d)) (Some x).
  Proof using All.
    intros Hw [H|(_ & H & _)]; [by apply (reg_punct _ _ Hr _ Hreg)|]. by destruct (Hpl _ _ _ Hreg Hw).
  Qed.
  Lemma FL_base : FL (key b) y0.
  Proof using. right. split; [done|]. split; [exists []; apply rtc_refl|]. by exists []. Qed.
End next.

Lemma before_term env root md b a l u x : accepted env root md → regular env root → productive env root →
  within env root b → no_loop env b → no_punct_end env root b → aok a → a_rest a = l ++ u →
  (∀ y, head (word (a_src a) u) = Some y → ends_before env b y) → parses env (a_src a) (pos a) b l x →
  term (λ f, produce_md env md f b) a (λ r a', r = RSucc x ∧ adv a l a').
Proof.
  intros Hacc Hreg Hprod Hb Hnl Hpl Hok Eto Hu Hp. assert (Hacc' := Hacc). destruct Hacc' as (regs & iter & Hr & Hperm & Hmeta).
  destruct (head (word (a_src a) u)) as [y|] eqn:Ey.
  - specialize (Hu y eq_refl).
    eapply (parses_run env root regs iter md Hr Hperm Hmeta (FL root regs b y) (reg_enums _ _ Hreg)) with (u := u) (src := a_src a);
      [by eapply FL_seq|intros *; by eapply FL_last|intros *; by eapply FL_union
      |intros *; exact (FL_ll1 env root regs iter md Hr Hperm Hmeta Hprod Hreg b Hb Hpl y Hu _ _)
      |exact (reg_filled _ _ Hreg)|exact (reg_delims _ _ Hreg)|intros *; exact (FL_punct env root regs iter md Hr Hperm Hmeta Hprod Hreg b Hb Hpl y Hu _ _ _)|exact Hp|by split|done..|].
    intros z Hz. unfold nxt in Hz. rewrite Ey in Hz. injection Hz as <-. apply FL_base.
  - eapply (parses_run env root regs iter md Hr Hperm Hmeta (λ k x, follows regs (key root) k (Some x)) (reg_enums _ _ Hreg)) with (u := u) (src := a_src a);
      [exact (follows_seq env root regs Hr)|exact (follows_last env root regs Hr)|exact (follows_union env root regs Hr)|
      |exact (reg_filled _ _ Hreg)|exact (reg_delims _ _ Hreg)|by apply (reg_punct _ _ Hreg)|exact Hp|by split|done..|].
    + intros k y H1 H2 H3. exact (null_conflict_not_ll1 regs (key root) (md_functional _ _ _ _ _ Hr Hperm Hmeta) k y H2 H1 H3 (reg_ll1 _ _ Hreg _ Hr)).
    + intros z Hz. unfold nxt in Hz. congruence.
Qed.
Lemma produce_before extract env root md b s l u x : accepted env root md → regular env root → productive env root →
  within env root b → no_loop env b → no_punct_end env root b → state_ok s → to_come extract s = l ++ u →
  (∀ y, head (word (p_src s) u) = Some y → ends_before env b y) →
  parses env (p_src s) (end_of (p_tokens s)) b l x →
  ∃ f0 s', took extract s l s' ∧ only_bad_text s s' ∧ ∀ f, f0 ≤ f → run extract (produce_md env md f b) s = ODone (RSucc x) s'.
Proof.
  intros Hacc Hreg Hprod Hb Hnl Hpl Hok Eto Hu Hp.
  apply (term_produce extract env md b s x l); [intros c Hc; apply (reg_filled _ _ Hreg); by eapply rtc_transitive|done|].
  by eapply before_term; [..|by apply state_ok_abs| | |].
Qed.

Section reads.
  Context (extract : nat → bool) (env : denv) (root : ty) (md : metadata prod).
  Context (Hacc : accepted env root md) (Hreg : regular env root) (Hprod : productive env root) (Hnl : no_loop env root)
    (Hpl : no_punct_last env root).
  Lemma produce_next s l u x : state_ok s → to_come extract s = l ++ u →
    (∀ y, head (word (p_src s) u) = Some y → ends_before env root y) →
    parses env (p_src s) (end_of (p_tokens s)) root l x →
    ∃ f0 s', took extract s l s' ∧ only_bad_text s s' ∧ ∀ f, f0 ≤ f → run extract (produce_md env md f root) s = ODone (RSucc x) s'.
  Proof using All.
    intros Hok Eto Hu Hp. by eapply (produce_before extract env root md root); [..|constructor| | | | | |].
  Qed.
  Lemma parse_next s l u x : state_ok s → to_come extract s = l ++ u →
    (∀ y, head (word (p_src s) u) = Some y → ends_before env root y) →
    parses env (p_src s) (end_of (p_tokens s)) root l x →
    ∃ f0 s', took extract s l s' ∧ only_bad_text s s' ∧ ∀ f, f0 ≤ f → run extract (parse env f root (inr md)) s = ODone (inr (Some x)) s'.
  Proof using All.
    intros Hok Eto Hu Hp. destruct (produce_next s l u x Hok Eto Hu Hp) as (f0 & s' & H1 & H2 & H3).
    exists f0, s'. split_and!; [done..|]. intros f Hf. apply run_parse_succ. auto.
  Qed.
  Lemma parse_next_lang s l u : state_ok s → to_come extract s = l ++ u →
    (∀ y, head (word (p_src s) u) = Some y → ends_before env root y) → lang env root (word (p_src s) l) →
    ∃ f0 x s', parses env (p_src s) (end_of (p_tokens s)) root l x ∧ took extract s l s' ∧ only_bad_text s s' ∧
      ∀ f, f0 ≤ f → run extract (parse env f root (inr md)) s = ODone (inr (Some x)) s'.
  Proof using All.
    intros Hok Eto Hu Hl. assert (Hok' := state_ok_abs extract _ Hok). apply aok_pos in Hok' as [Hsp _].
    change (a_rest (abs extract s)) with (to_come extract s) in Hsp. rewrite Eto in Hsp. apply spans_ok_pos in Hsp as [Hsp _].
    destruct (lang_parses env (p_src s) root _ Hl (end_of (p_tokens s)) l) as [x Hx]; [by destruct Hreg|done|exact Hsp|].
    destruct (parse_next s l u x Hok Eto Hu Hx) as (f0 & s' & H). by exists f0, x, s'.
  Qed.
  Lemma pseq_begins src p n l xs y : pseq env src p (replicate n root) l xs → head (word src l) = Some y → ∃ w, lang env root (y :: w).
  Proof using Hnl.
    remember (replicate n root) as ts eqn:E. intros H. revert n E.
    induction H as [|p t ts l1 l2 x xs Hx _ IH]; intros n E Hh; [done|]. destruct n as [|n]; [done|]. injection E as -> E.
    destruct l1 as [|a l1]; [by eapply IH|]. apply parses_lang in Hx; [|done]. cbn in Hh. injection Hh as <-. eauto.
  Qed.
  Lemma only_bad_trans s1 s2 s3 : only_bad_text s1 s2 → only_bad_text s2 s3 → only_bad_text s1 s3.
  Proof using.
    intros (b1 & H1 & H2) (b2 & H3 & H4). exists (b1 ++ b2). rewrite H3, H1, H4, H2, map_app, <- !app_assoc. done.
  Qed.
  Lemma reads_all n xs s l u : self_delimiting env root → state_ok s → to_come extract s = l ++ u →
    (∀ y, head (word (p_src s) u) = Some y → ends_before env root y) →
    pseq env (p_src s) (end_of (p_tokens s)) (replicate n root) l xs →
    ∃ s', reads extract env md root s xs s' ∧ took extract s l s' ∧ only_bad_text s s'.
  Proof using All.
    intros Hsd. revert xs s l. induction n as [|n IH]; intros xs s l Hok Eto Hu Hp; cbn in Hp.
    - inversion Hp; subst. exists s. split; [constructor|]. split; [split_and!; [done|by rewrite app_nil_r|done]|].
      exists []. cbn. by rewrite !app_nil_r.
    - inversion Hp as [|? ? ? l1 l2 x xs' Hx Hxs]; subst. rewrite <- app_assoc in Eto.
      destruct (parse_next s l1 (l2 ++ u) x Hok Eto) as (f0 & s1 & Ht & Hb & Hrun); [|done|].
      { intros y Hy. destruct (head (word (p_src s) l2)) as [z|] eqn:Ez.
        - assert (z = y) as -> by (destruct l2; cbn in Ez, Hy; congruence). destruct (pseq_begins _ _ _ _ _ _ Hxs Ez) as [w Hw].
          by apply (Hsd y w).
        - apply Hu. by destruct l2. }
      assert (Hok1 : state_ok s1) by (eapply run_ok; [exact (Hrun f0 (le_n _))|done]).
      assert (Hpos : end_of (p_tokens s1) = end_pos (end_of (p_tokens s)) l1).
      { apply took_adv in Ht. exact (adv_pos _ _ _ Ht). }
      assert (Hsrc : p_src s1 = p_src s) by apply Ht.
      assert (Eto1 : to_come extract s1 = l2 ++ u).
      { destruct Ht as (_ & _ & Ht). rewrite Eto in Ht. by apply app_inv_head in Ht. }
      destruct (IH xs' s1 l2) as (s2 & H1 & H2 & H3); [done|done|by rewrite Hsrc|by rewrite Hsrc, Hpos|].
      exists s2. split; [by econstructor|]. split; [by eapply took_trans|by eapply only_bad_trans].
  Qed.
  Lemma reads_lang n s l u : self_delimiting env root → state_ok s → to_come extract s = l ++ u →
    (∀ y, head (word (p_src s) u) = Some y → ends_before env root y) →
    langs env (replicate n root) (word (p_src s) l) →
    ∃ xs s', pseq env (p_src s) (end_of (p_tokens s)) (replicate n root) l xs ∧
      reads extract env md root s xs s' ∧ took extract s l s' ∧ only_bad_text s s'.
  Proof using All.
    intros Hsd Hok Eto Hu Hl. assert (Hok' := state_ok_abs extract _ Hok). apply aok_pos in Hok' as [Hsp _].
    change (a_rest (abs extract s)) with (to_come extract s) in Hsp. rewrite Eto in Hsp. apply spans_ok_pos in Hsp as [Hsp _].
    assert (∃ xs, pseq env (p_src s) (end_of (p_tokens s)) (replicate n root) l xs) as [xs Hx].
    { destruct n as [|n].
      { inversion Hl as [Ew|]; subst. destruct l; [|done]. exists []. constructor. }
      destruct (lang_parses env (p_src s) (TTuple (replicate (S n) root)) _ (l_tuple _ _ _ Hl) (end_of (p_tokens s)) l) as [x Hx];
        [|done|exact Hsp|inversion Hx; subst; eauto].
      intros t' Ht. inversion Ht as [|? t2 ? H2 Ht2]; subst; [done|]. cbn [subs] in H2. apply elem_of_replicate_inv in H2 as ->.
      by apply (reg_filled _ _ Hreg). }
    destruct (reads_all n xs s l u Hsd Hok Eto Hu Hx) as (s' & H). by exists xs, s'.
  Qed.
End reads.
Lemma reads_grow extract env md root s xs s' : reads extract env md root s xs s' →
  ∃ es bad, p_errors s' = p_errors s ++ es ∧ p_invalid s' = p_invalid s ++ bad.
Proof.
  induction 1 as [s|s x s1 xs s2 f0 Hrun _ (es2 & b2 & H1 & H2)]; [exists [], []; by rewrite !app_nil_r|].
  destruct (cv_grow _ _ _ (run_conserves _ _ _ _ _ (Hrun f0 (le_n _)))) as ([b Hb] & _ & [e He]).
  exists (e ++ es2), (b ++ b2). by rewrite H1, H2, He, Hb, !(assoc_L (++)).
Qed.
Lemma reads_sound extract env md root s xs s' : filled env root → no_recover env root → state_ok s →
  reads extract env md root s xs s' → p_errors s' = p_errors s → p_invalid s' = p_invalid s →
  ∃ l, took extract s l s' ∧ pseq env (p_src s) (end_of (p_tokens s)) (replicate (length xs) root) l xs.
Proof.
  intros Hf Hr Hok H. revert Hok. induction H as [s|s x s1 xs s2 f0 Hrun Hrs IH]; intros Hok He Hi.
  - exists []. split; [split_and!; [done|by rewrite app_nil_r|done]|constructor].
  - destruct (cv_grow _ _ _ (run_conserves _ _ _ _ _ (Hrun f0 (le_n _)))) as ([b Hb] & _ & [e Hee]).
    destruct (reads_grow _ _ _ _ _ _ _ Hrs) as (es & bad & H1 & H2).
    rewrite He, Hee, <- app_assoc in H1. symmetry in H1. rewrite <- (app_nil_r (p_errors s)) in H1 at 2.
    apply app_inv_head, app_eq_nil in H1 as [-> ->].
    rewrite Hi, Hb, <- app_assoc in H2. symmetry in H2. rewrite <- (app_nil_r (p_invalid s)) in H2 at 2.
    apply app_inv_head, app_eq_nil in H2 as [-> ->]. rewrite app_nil_r in Hee, Hb.
    destruct (parse_clean extract env root md f0 s x s1 Hf Hr Hok (Hrun f0 (le_n _))) as (l1 & Ht & Hx).
    { exists []. cbn. by rewrite !app_nil_r. }
    assert (Hok1 : state_ok s1) by (eapply run_ok; [exact (Hrun f0 (le_n _))|done]).
    destruct (IH Hok1) as (l2 & Ht2 & Hxs); [congruence..|].
    exists (l1 ++ l2). split; [by eapply took_trans|]. cbn [length replicate]. constructor; [done|].
    assert (Hpos : end_of (p_tokens s1) = end_pos (end_of (p_tokens s)) l1).
    { apply took_adv in Ht. exact (adv_pos _ _ _ Ht). }
    rewrite <- Hpos. by rewrite <- (proj1 Ht).
Qed.

(** * Terminators *)
Lemma covered_sub env t (ts : list ty) (x : tok) : (∀ c, c ∈ ts → c ∈ subs env t) →
  (∃ c, c ∈ ts ∧ ∃ n y lit, within env c (TTok n y lit) ∧ covers y lit x) →
  ∃ n y lit, within env t (TTok n y lit) ∧ covers y lit x.
Proof. intros H (c & Hc & n & y & lit & Hw & Hx). exists n, y, lit. split; [|done]. eapply rtc_l; [|exact Hw]. by apply H. Qed.
Lemma alternate_in n t d c : c ∈ alternate n t d → c ∈ [t; d].
Proof.
  unfold alternate. rewrite elem_of_cons. intros [->|H]; [by left|]. induction n as [|n IH]; cbn in H; [by apply elem_of_nil in H|].
  rewrite !elem_of_cons in H. destruct H as [->|[->|H]]; [by right; left|by left|auto].
Qed.
Lemma lang_covered env t w : lang env t w → ∀ x, x ∈ w → ∃ n y lit, within env t (TTok n y lit) ∧ covers y lit x.
Proof.
  intros H. induction H using lang_mut with
    (P0 := λ ts w _, ∀ x, x ∈ w → ∃ c, c ∈ ts ∧ ∃ n y lit, within env c (TTok n y lit) ∧ covers y lit x); intros x Hx.
  - apply elem_of_list_singleton in Hx as ->. exists n, y, lit. split; [constructor|done].
  - eapply covered_sub; [|by apply IHlang]. cbn. by rewrite e.
  - eapply (covered_sub _ _ [t]); [|exists t; split; [by left|by apply IHlang]]. intros c ->%elem_of_list_singleton. cbn. rewrite e. cbn.
    apply elem_of_list_fmap. by exists (t, sem).
  - eapply covered_sub; [|by apply IHlang]. done.
  - eapply (covered_sub _ _ [t]); [|exists t; split; [by left|by apply IHlang]]. done.
  - by apply elem_of_nil in Hx.
  - eapply (covered_sub _ _ [t]); [|exists t; split; [by left|by apply IHlang]]. done.
  - by apply elem_of_nil in Hx.
  - eapply (covered_sub _ _ [t]); [|exists t; split; [by left|by apply IHlang]]. done.
  - eapply (covered_sub _ _ [t]); [|exists t; split; [by left|by apply IHlang]]. done.
  - eapply (covered_sub _ _ [t]); [|exists t; split; [by left|by apply IHlang]]. done.
  - eapply covered_sub; [|by apply IHlang]. intros c ->%elem_of_replicate_inv. by left.
  - eapply covered_sub; [|by apply IHlang]. intros c ->%elem_of_replicate_inv. by left.
  - eapply covered_sub; [|by apply IHlang]. intros c ->%elem_of_replicate_inv. by left.
  - eapply covered_sub; [|by apply IHlang]. intros c Hc. by apply alternate_in in Hc.
  - eapply covered_sub; [|by apply IHlang]. intros c [Hc|Hc]%elem_of_app; [by apply alternate_in in Hc|].
    destruct trailing; [|by apply elem_of_nil in Hc]. right. done.
  - eapply covered_sub; [|by apply IHlang]. done.
  - by apply elem_of_nil in Hx.
  - apply elem_of_app in Hx as [Hx|Hx]; [exists t; split; [by left|by apply IHlang]|].
    destruct (IHlang0 x Hx) as (c & Hc & H'). exists c. split; [by right|done].
Qed.
Lemma terminated_word env t n y lit w : lang env (TTuple [t; TTok n y (Some lit)]) w → ∃ w1, w = w1 ++ [(y, lit)] ∧ lang env t w1.
Proof.
  intros H. inversion H as [| | |? ? Hl| | | | | | | | | | | | |]; subst. inversion Hl as [|? ? w1 w2 H1 H2]; subst.
  inversion H2 as [|? ? w3 w4 H3 H4]; subst. inversion H4; subst. inversion H3 as [? ? ? [a b] [E1 [E2|E2]]| | | | | | | | | | | | | | | |]; subst; [done|].
  cbn in *. injection E2 as ->. by exists w1.
Qed.
Lemma terminated env t n y lit :
  all_within env (λ c, match c with TTok _ y' lit' => ¬ covers y' lit' (y, lit) | _ => True end) t →
  ∀ z, ends_before env (TTuple [t; TTok n y (Some lit)]) z.
Proof.
  intros Hno z w w' H1 H2. apply terminated_word in H1 as (w1 & -> & _), H2 as (w2 & E & H2).
  assert (Hin : (y, lit) ∈ w2).
  { destruct (exists_last (l := z :: w')) as (l & a & El); [done|]. rewrite El in E. rewrite app_assoc in E.
    apply app_inj_tail in E as [<- _]. set_solver. }
  destruct (lang_covered _ _ _ H2 _ Hin) as (m & y' & lit' & Hw & Hc). exact (Hno _ Hw Hc).
Qed.
Lemma terminated_delimits env t n y lit :
  all_within env (λ c, match c with TTok _ y' lit' => ¬ covers y' lit' (y, lit) | _ => True end) t →
  self_delimiting env (TTuple [t; TTok n y (Some lit)]).
Proof. intros H z w _. by apply terminated. Qed.
Lemma terminated_both env t n y lit :
  all_within env (λ c, match c with TTok _ y' lit' => ¬ covers y' lit' (y, lit) | _ => True end) t →
  (∀ z, ends_before env (TTuple [t; TTok n y (Some lit)]) z) ∧ self_delimiting env (TTuple [t; TTok n y (Some lit)]).
Proof. intros. split; [by apply terminated|by apply terminated_delimits]. Qed.
