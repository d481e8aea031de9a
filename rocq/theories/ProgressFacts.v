(** Termination and progress of [produce] for accepted types, continued. *)
From Coq Require Import String NArith.
From stdpp Require Import prelude list strings relations.
From Verif Require Import LexModel LexSpec LexFacts SynSetModel SynSetFacts TableModel StreamModel StreamSpec StreamFacts TypeModel TypeSpec TypeFacts CfgSpec CfgFacts MetaFacts ProduceModel ParseSpec ProgFacts FuelFacts TreeFacts SoundFacts LangFacts RunFacts InvFacts LookFacts MdFacts ParseFacts TermFacts.
Local Open Scope nat_scope.
#[local] Arguments ts_contains : simpl never.
#[local] Arguments ts_contains_e : simpl never.
#[local] Arguments tb_get : simpl never.

Lemma recover_loop_goes pR tf s x : aok s → ends pR (length (a_rest s)) → look s = Some x → ts_contains tf (Some x) = true →
  term pR s (λ _ s', shorter s' s) → ∀ panic errs, term (λ f, recover_loop f (pR f) tf panic errs) s (λ _ s', shorter s' s).
Proof.
  intros Hok HR El Ex Ht panic errs. apply term_S. cbn [recover_loop].
  apply term_bind_wp, wp_peek_src; [done|]. rewrite El, Ex. cbn [orb].
  apply (term_bind_kept (λ s', shorter s' s) (λ f, r ← pR (S f);
           match unres r with
           | (Some x, e) => mret (inl (x, errs ++ e))
           | (None, e) => mret (inr (merge_panic panic e))
           end)); [apply kept_shorter|].
  apply term_bind, term_shift. apply term_and_adv in Ht. eapply term_weaken; [exact Ht|]. intros r s1 [Hsh [l Hl]].
  assert (Hok1 : aok s1) by (by eapply adv_aok). unfold shorter in Hsh.
  destruct (unres r) as [[y|] e]; apply term_ret; (split; [done|]); [by apply term_ret|].
  assert (Hc : ∀ p : perr, term (λ f, _ ← consume; recover_loop f (pR (S f)) tf (Some p) errs) s1 (λ _ _, True)).
  { intros p. apply term_bind_wp, wp_consume. assert (Hp := adv_le _ _ _ (pop_adv s1)).
    apply (recover_loop_term (λ f, pR (S f))); [by apply aok_pop|apply ends_shift; eapply ends_le; [|exact HR]; lia|].
    intros _. apply term_shift. apply HR; [by apply aok_pop|lia]. }
  destruct (merge_panic panic e) as [p|].
  - apply (term_bind_wp (sp ← cur_span; mret (set_hi p (sp_hi sp)))), wp_bind, wp_cur_span, wp_ret. apply Hc.
  - apply (term_bind_wp (expecting tf)), wp_expecting. apply Hc.
Qed.

(** * FIRST on types *)
Section sta.
  Variable env : denv.
  Notation nulls l := (Forall (λ t, lang env t []) l).
  (** [sta t x]: a sentence of [t] can begin with [x]. *)
  Inductive sta : ty → tok → Prop :=
  | sta_tok n y lit x : covers y lit x → sta (TTok n y lit) x
  | sta_struct n fs l1 t l2 x : env !! n = Some (DStruct fs) → map fst fs = l1 ++ t :: l2 → nulls l1 → sta t x → sta (TNamed n) x
  | sta_enum n vs t x : env !! n = Some (DEnum vs) → t ∈ map fst vs → sta t x → sta (TNamed n) x
  | sta_tuple l1 t l2 x : nulls l1 → sta t x → sta (TTuple (l1 ++ t :: l2)) x
  | sta_box t x : sta t x → sta (TBox t) x
  | sta_quote t x : sta t x → sta (TQuote t) x
  | sta_parse t x : sta t x → sta (TParse t) x
  | sta_opt t x : sta t x → sta (TOpt t) x
  | sta_exists t x : sta t x → sta (TExists t) x
  | sta_plus t x : sta t x → sta (TPlus t) x
  | sta_star t x : sta t x → sta (TStar t) x
  | sta_loop t x : sta t x → sta (TLoop t) x
  | sta_split_l t d x : sta t x → sta (TSplit t d) x
  | sta_split_r t d x : lang env t [] → sta d x → sta (TSplit t d) x
  | sta_punct t d x : sta t x → sta (TPunct t d) x
  | sta_recover_l t r x : sta t x → sta (TRecover t r) x
  | sta_recover_r t r x : lang env t [] → sta r x → sta (TRecover t r) x.

  Fixpoint bare (t : ty) : ty := match t with TBox t | TQuote t | TParse t => bare t | _ => t end.
  Lemma key_bare t : key (bare t) = key t.
  Proof. induction t; cbn; try done. Qed.
  Lemma sta_bare t x : sta (bare t) x → sta t x.
  Proof. induction t; cbn; try done; intros; constructor; auto. Qed.
  Lemma bare_bare t : match bare t with TBox _ | TQuote _ | TParse _ => False | _ => True end.
  Proof. by induction t. Qed.
End sta.

Set Default Proof Using "All".
Section md.
  Variable env : denv.
  Variable root : ty.
  Variable regs iter : grammar prod.
  Variable md : metadata prod.
  Hypothesis Hreg : register_root env (prod_of root) = Some regs.
  Hypothesis Hperm : iter ≡ₚ regs.
  Hypothesis Hmeta : meta_build regs iter (key root) = Some (inr md).

  Notation F := (tb_get (md_first md)).
  Notation L := (tb_get (md_follow md)).
  Notation J := (jump_look_up (md_jump md)).
  Notation V t := (visible env (key root) (key t)).
  Notation nul := (MdFacts.nul regs).
  Notation fst_ := (MdFacts.fst_ regs).
  Notation fsts := (MdFacts.fsts regs).
  Notation nf := (MdFacts.nf root regs).
  Notation "'MD' l" := (l env root regs iter md Hreg Hperm Hmeta) (at level 9, l at level 0, only parsing).
  Notation prd t := (λ f, produce_md env md f t).
  Notation sta := (sta env).

  Lemma fst_PEps x : ¬ starts regs PEps x.
  Proof.
    intros [(?&?&H'&_)|[(?&?&?&?&H'&_)|(?&?&H'&_)]]%starts_unfold; by apply (MD md_regs) in H' as [_ [=]].
  Qed.
  Lemma map_key_app ts l1 y l2 : map key ts = l1 ++ y :: l2 → ∃ ts1 t ts2, ts = ts1 ++ t :: ts2 ∧ map key ts1 = l1 ∧ key t = y.
  Proof.
    revert l1. induction ts as [|c ts IH]; intros [|k l1] H; try done; cbn [map app] in H.
    - injection H as <- <-. by exists [], c, ts.
    - injection H as <- H. destruct (IH _ H) as (ts1 & t & ts2 & -> & <- & <-). by exists (c :: ts1), t, ts2.
  Qed.
  Lemma nulls_lang ts : Forall (λ t, V t) ts → Forall (nullable regs) (map key ts) → Forall (λ t, lang env t []) ts.
  Proof.
    intros Hv H%(MD nul_map). rewrite Forall_forall in Hv, H |- *. intros t Ht. apply (MD nul_lang); auto.
  Qed.

  Lemma fst_sta t x : V t → fst_ t x → sta t x.
  Proof.
    intros Hv H. enough (HH : ∀ k x, starts regs k x → ∀ t, k = key t → V t → sta t x) by exact (HH _ _ H t eq_refl Hv).
    clear t x Hv H.
    apply (starts_ind_decl regs (λ k x, ∀ t, k = key t → V t → sta t x)).
    - intros k y lit x Hin Hc t -> Hv. apply sta_bare. rewrite <- (key_bare t) in Hin, Hv. assert (Hb := bare_bare t).
      destruct (bare t) as [nm y' lit'|n|ts|t'|t'|t'|t'|t'|t'|t'|t'|t' d|t' d|t' r]; try done.
      + assert (E := MD ent_one _ _ _ Hin (MD ent_tok _ _ _ Hv)). injection E as -> ->. by constructor.
      + apply (MD md_regs) in Hin as [_ Hin]. cbn in Hin. destruct (env !! n) as [[]|]; done.
      + by apply (MD md_regs) in Hin as [_ Hin].
      + by apply (MD md_regs) in Hin as [_ Hin].
      + by apply (MD md_regs) in Hin as [_ Hin].
      + by apply (MD md_regs) in Hin as [_ Hin].
      + by apply (MD md_regs) in Hin as [_ Hin].
      + by apply (MD md_regs) in Hin as [_ Hin].
      + by apply (MD md_regs) in Hin as [_ Hin].
      + by apply (MD md_regs) in Hin as [_ Hin].
      + by apply (MD md_regs) in Hin as [_ Hin].
    - intros k l1 y l2 x Hin Hl1 Hst IH t -> Hv. apply sta_bare. rewrite <- (key_bare t) in Hin, Hv. assert (Hb := bare_bare t).
      destruct (bare t) as [nm y' lit'|n|ts|t'|t'|t'|t'|t'|t'|t'|t'|t' d|t' d|t' r]; try done.
      + by apply (MD md_regs) in Hin as [_ Hin].
      + destruct (env !! n) as [[fs|vs]|] eqn:En.
        * assert (E := MD ent_one _ _ _ (MD ent_struct _ _ Hv En) Hin). injection E as E.
          apply map_key_app in E as (ts1 & t' & ts2 & E & <- & <-).
          assert (HV : ∀ c, c ∈ map fst fs → V c) by (intros c Hc; by apply (MD V_named n (DStruct fs))).
          eapply (sta_struct _ _ _ ts1 t' ts2); [done|done| |].
          -- apply nulls_lang; [|done]. apply Forall_forall. intros c Hc. apply HV. rewrite E. set_solver.
          -- apply IH; [done|]. apply HV. rewrite E. set_solver.
        * assert (E := MD ent_one _ _ _ (MD ent_enum _ _ Hv En) Hin). done.
        * apply (MD md_regs) in Hin as [_ Hin]. cbn in Hin. by rewrite En in Hin.
      + assert (E := MD ent_one _ _ _ (MD ent_tuple _ Hv) Hin). injection E as E.
        apply map_key_app in E as (ts1 & t' & ts2 & -> & <- & <-).
        assert (HV : ∀ c, c ∈ ts1 ++ t' :: ts2 → V c) by (intros c Hc; by eapply (MD V_tuple)).
        constructor.
        -- apply nulls_lang; [|done]. apply Forall_forall. intros c Hc. apply HV. set_solver.
        -- apply IH; [done|]. apply HV. set_solver.
      + by apply (MD md_regs) in Hin as [_ Hin].
      + by apply (MD md_regs) in Hin as [_ Hin].
      + (* plus *) destruct (MD V_plus _ Hv) as [V1 V2].
        assert (E := MD ent_one _ _ _ (MD ent_plus _ Hv) Hin). injection E as E. cbn [map] in E.
        destruct l1 as [|a [|b l1]]; simplify_list_eq; [constructor; by apply IH| |by destruct l1].
        specialize (IH (TStar t') eq_refl V2). inversion IH; subst. by constructor.
      + by apply (MD md_regs) in Hin as [_ Hin].
      + (* loop *) destruct (MD V_plus _ Hv) as [V1 V2].
        assert (E := MD ent_one _ _ _ (MD ent_plus _ Hv) Hin). injection E as E. cbn [map] in E.
        destruct l1 as [|a [|b l1]]; simplify_list_eq; [constructor; by apply IH| |by destruct l1].
        specialize (IH (TStar t') eq_refl V2). inversion IH; subst. by constructor.
      + destruct (MD V_split _ _ Hv) as (V1 & V2 & V3 & _ & _).
        assert (E := MD ent_one _ _ _ (MD ent_split _ _ Hv) Hin). injection E as E. cbn [map] in E.
        destruct l1 as [|a [|b l1]]; simplify_list_eq; [apply sta_split_l; by apply IH| |by destruct l1].
        specialize (IH (TStar (TTuple [d; t'])) eq_refl V3). inversion IH as [| | | | | | | | | |c ? H1| | | | | |]; subst.
        apply Forall_cons in Hl1 as [Hl1 _]. assert (Hn : nul t') by done.
        inversion H1 as [| | |m1 c m2 ? Hm Hs Em| | | | | | | | | | | | |]; subst.
        destruct m1 as [|a m1].
        * injection Em as -> ->. apply sta_split_r; [by apply (MD nul_lang)|done].
        * injection Em as -> Em. destruct m1 as [|b m1]; [|injection Em as _ Em; by destruct m1].
          injection Em as -> ->. by apply sta_split_l.
      + assert (E := MD ent_one _ _ _ (MD ent_punct _ _ Hv) Hin). injection E as E. cbn [map] in E.
        destruct (MD V_punct _ _ Hv) as (V1 & _).
        destruct l1 as [|a [|b l1]]; simplify_list_eq; [apply sta_punct; by apply IH| |by destruct l1].
        apply Forall_cons in Hl1 as [Hl1 _]. by destruct (MD punct_not_null _ _ Hv) as [[] _].
      + assert (E := MD ent_one _ _ _ (MD ent_recover _ _ Hv) Hin). injection E as E. cbn [map] in E.
        assert (V1 : V t') by (apply (MD V_sub _ _ Hv); cbn; set_solver).
        assert (V2 : V r) by (apply (MD V_sub _ _ Hv); cbn; set_solver).
        destruct l1 as [|a [|b l1]]; simplify_list_eq; [apply sta_recover_l; by apply IH| |by destruct l1].
        apply Forall_cons in Hl1 as [Hl1 _]. apply sta_recover_r; [by apply (MD nul_lang)|by apply IH].
    - intros k l y x Hin Hy Hst IH t -> Hv. apply sta_bare. rewrite <- (key_bare t) in Hin, Hv. assert (Hb := bare_bare t).
      destruct (bare t) as [nm y' lit'|n|ts|t'|t'|t'|t'|t'|t'|t'|t'|t' d|t' d|t' r]; try done.
      + by apply (MD md_regs) in Hin as [_ Hin].
      + destruct (env !! n) as [[fs|vs]|] eqn:En.
        * assert (E := MD ent_one _ _ _ (MD ent_struct _ _ Hv En) Hin). done.
        * assert (E := MD ent_one _ _ _ (MD ent_enum _ _ Hv En) Hin). injection E as <-.
          apply elem_of_list_fmap in Hy as (c & -> & Hc).
          eapply (sta_enum _ _ _ c); [done|done|]. apply IH; [done|]. by apply (MD V_named n (DEnum vs)).
        * apply (MD md_regs) in Hin as [_ Hin]. cbn in Hin. by rewrite En in Hin.
      + by apply (MD md_regs) in Hin as [_ Hin].
      + assert (E := MD ent_one _ _ _ (MD ent_opt _ Hv) Hin). injection E as <-. assert (V1 := MD V_opt _ Hv).
        apply elem_of_cons in Hy as [->|Hy%elem_of_list_singleton]; [constructor; by apply IH|]. subst y. by apply fst_PEps in Hst.
      + assert (E := MD ent_one _ _ _ (MD ent_opt _ Hv) Hin). injection E as <-. assert (V1 := MD V_opt _ Hv).
        apply elem_of_cons in Hy as [->|Hy%elem_of_list_singleton]; [constructor; by apply IH|]. subst y. by apply fst_PEps in Hst.
      + by apply (MD md_regs) in Hin as [_ Hin].
      + assert (E := MD ent_one _ _ _ (MD ent_star _ Hv) Hin). injection E as <-. assert (V1 := MD V_star _ Hv).
        apply elem_of_cons in Hy as [->|Hy%elem_of_list_singleton].
        * specialize (IH (TPlus t') eq_refl V1). inversion IH; subst. by constructor.
        * subst y. by apply fst_PEps in Hst.
      + by apply (MD md_regs) in Hin as [_ Hin].
      + by apply (MD md_regs) in Hin as [_ Hin].
      + by apply (MD md_regs) in Hin as [_ Hin].
      + by apply (MD md_regs) in Hin as [_ Hin].
  Qed.

  Lemma V_fields n d : V (TNamed n) → env !! n = Some d → Forall (λ t, V t) (map fst (decl_fields d)).
  Proof. intros Hv En. apply Forall_forall. intros t Ht. by apply (MD V_named n d). Qed.
  Lemma lang_nul_all ts : Forall (λ t, V t) ts → Forall (λ t, lang env t []) ts → Forall (nullable regs) (map key ts).
  Proof.
    intros Hv H. apply (MD nul_map). rewrite Forall_forall in Hv, H |- *. intros t Ht. apply (MD nul_lang); auto.
  Qed.
  Lemma fsts_at l1 t l2 x : Forall (nullable regs) (map key l1) → fst_ t x → fsts (l1 ++ t :: l2) x.
  Proof.
    intros Hn Hx. unfold MdFacts.fsts. rewrite map_app. cbn [map]. apply starts_l_alt. eauto 10.
  Qed.
  Lemma sta_fst t x : sta t x → V t → fst_ t x.
  Proof.
    induction 1 as [nm y lit x Hc|n fs l1 t l2 x En Efs Hl1 Hs IH|n vs t x En Ht Hs IH|l1 t l2 x Hl1 Hs IH|t x Hs IH|t x Hs IH|t x Hs IH
      |t x Hs IH|t x Hs IH|t x Hs IH|t x Hs IH|t x Hs IH|t d x Hs IH|t d x Hn Hs IH|t d x Hs IH|t r x Hs IH|t r x Hn Hs IH]; intros Hv.
    - by apply (MD fst_tok).
    - apply (MD fst_struct _ _ _ Hv En). assert (HV := V_fields _ _ Hv En). cbn [decl_fields] in HV. rewrite Efs in HV |- *.
      apply Forall_app in HV as [HV1 [HV2 _]%Forall_cons]. apply fsts_at; [by apply lang_nul_all|by apply IH].
    - apply (MD fst_enum _ _ _ Hv En). exists t. split; [done|]. apply IH. by apply (MD V_named n (DEnum vs)).
    - apply (MD fst_tuple _ _ Hv). assert (HV : Forall (λ t, V t) (l1 ++ t :: l2)) by (apply Forall_forall; intros; by eapply (MD V_tuple)).
      apply Forall_app in HV as [HV1 [HV2 _]%Forall_cons]. apply fsts_at; [by apply lang_nul_all|by apply IH].
    - by apply IH.
    - by apply IH.
    - by apply IH.
    - apply (MD fst_opt _ _ Hv), IH. by apply (MD V_opt).
    - apply (MD fst_opt t x Hv), IH. by apply (MD V_opt).
    - apply (MD fst_plus _ _ Hv), IH. by destruct (MD V_plus _ Hv).
    - apply (MD fst_star _ _ Hv), IH. apply (MD V_star) in Hv. by destruct (MD V_plus _ Hv).
    - apply (MD fst_plus t x Hv), IH. by destruct (MD V_plus t Hv).
    - apply (MD fst_split _ _ _ Hv). left. apply IH. by destruct (MD V_split _ _ Hv).
    - apply (MD fst_split _ _ _ Hv). right. destruct (MD V_split _ _ Hv) as (V1 & V2 & _). split; [by apply (MD nul_lang)|by apply IH].
    - apply (MD fst_punct _ _ _ Hv), IH. by destruct (MD V_punct _ _ Hv).
    - apply (MD fst_recover _ _ _ Hv). left. apply IH. apply (MD V_sub _ _ Hv). cbn. set_solver.
    - apply (MD fst_recover _ _ _ Hv). right.
      split; [apply (MD nul_lang); [|done]|apply IH]; apply (MD V_sub _ _ Hv); cbn; set_solver.
  Qed.

  (** * Types that derive the empty sequence *)
  Hypothesis Henums : plain_enums env root.
  Notation W t := (within env root t).
  Notation rec := (produce_md env md).
  Lemma W_sub t c : W t → c ∈ subs env t → W c.
  Proof. intros Hw Hc. by eapply rtc_r. Qed.
  Lemma W_V t : W t → V t.
  Proof. apply (MD V_within). Qed.
  Lemma W_all t : W t → Forall (λ c, W c) (subs env t).
  Proof. intros Hw. apply Forall_forall. intros c. by apply W_sub. Qed.
  Lemma W_struct n d : W (TNamed n) → env !! n = Some d → Forall (λ c, W c) (map fst (decl_fields d)).
  Proof. intros Hw En. assert (H := W_all _ Hw). cbn in H. by rewrite En in H. Qed.

  (** [t] succeeds without consuming when the next token cannot begin it. *)
  Definition quiet (t : ty) : Prop := ∀ s, aok s → (∀ x, look s = Some x → ¬ fst_ t x) →
    term (prd t) s (λ r s', (∃ x, r = RSucc x) ∧ adv s [] s').

  Lemma seq_prefix l1 l2 acc s Q : Forall quiet l1 → aok s → (∀ x t, look s = Some x → t ∈ l1 → ¬ fst_ t x) →
    (∀ acc' s', adv s [] s' → term (λ f, produce_seq (rec f) l2 acc' []) s' Q) →
    term (λ f, produce_seq (rec f) (l1 ++ l2) acc []) s Q.
  Proof.
    intros H. revert acc s. induction H as [|t l1 Ht Hl1 IH]; intros acc s Hok Hx HQ; cbn [app].
    - apply HQ, adv_refl.
    - cbn [produce_seq]. apply (term_bind (prd t)).
      eapply term_weaken; [apply Ht; [done|]|].
      + intros x El. apply (Hx x t El). set_solver.
      + intros r s1 [[y ->] Hl]. cbn [unres]. cbn [app].
        apply IH; [by eapply adv_aok| |].
        * intros x c El Hc. rewrite (adv_look _ _ Hl) in El. apply (Hx x c El). set_solver.
        * intros acc' s2 H2. apply HQ. apply (adv_trans _ _ _ _ _ Hl H2).
  Qed.
  Lemma seq_quiet ts s : Forall quiet ts → aok s → (∀ x t, look s = Some x → t ∈ ts → ¬ fst_ t x) →
    term (λ f, produce_seq (rec f) ts [] []) s (λ r s', (∃ x, r = RSucc x) ∧ adv s [] s').
  Proof.
    intros Hq Hok Hx. rewrite <- (app_nil_r ts). apply seq_prefix; [done..|]. intros acc s' Hs'.
    cbn [produce_seq]. apply term_ret. split; [by eexists|done].
  Qed.
  Lemma fields_term fs xs s : term (λ _, apply_fields fs xs) s (λ _ s', adv s [] s').
  Proof.
    cut (term (λ _, apply_fields fs xs) s (λ _ s', a_rest s' = a_rest s)).
    { intros H. apply term_and_adv in H. eapply term_weaken; [exact H|]. intros [] s' [E [l Hl]].
      by rewrite (adv_same _ _ _ Hl E) in Hl. }
    revert xs s. induction fs as [|[t [sem|]] fs IH]; intros [|x xs] s; cbn [apply_fields]; try by apply term_ret.
    - apply (term_bind_wp (apply_semantic (tree_span x) sem) (λ _ _, apply_fields fs xs)), wp_apply. eapply term_weaken; [apply IH|]. by intros [] ?.
    - apply IH.
  Qed.
  Lemma get_src_term sp s : term (λ _, get_src sp) s (λ _ s', s' = s).
  Proof. exists 0, (arun (get_src sp) s). split; [done|]. unfold get_src. cbn [arun]. by destruct (span_get sp (a_src s)). Qed.
  Lemma langs_nil ts : langs env ts [] → Forall (λ t, lang env t []) ts.
  Proof.
    intros H. remember [] as w eqn:Ew. induction H as [|t ts w1 w2 H1 H2 IH]; [constructor|].
    apply app_nil in Ew as [-> ->]. constructor; [done|by apply IH].
  Qed.
  Lemma option_empty_term {X} (p : nat → M (res X)) sp set s : aok s → (∀ x, look s = Some x → ts_contains set (Some x) = false) →
    term (λ f, produce_option (p f) sp set) s (λ r s', (∃ x, r = RSucc x) ∧ adv s [] s').
  Proof.
    intros Hok Hx. unfold produce_option. apply term_bind_wp, wp_peek_src; [done|].
    destruct (look s) as [x|] eqn:El; [rewrite (Hx x eq_refl)|];
      apply (term_wp (e ← empty_span; mret (RSucc (e, None)))), wp_bind, wp_empty_span, wp_ret; (split; [by eexists|apply adv_refl]).
  Qed.
  Lemma first_false t x : ¬ fst_ t x → ts_contains (F (key t)) (Some x) = false.
  Proof. intros H. apply not_true_iff_false. by rewrite (MD first_spec). Qed.

  Lemma nul_quiet t : lang env t [] → W t → quiet t.
  Proof.
    assert (HH : ∀ t w, lang env t w → w = [] → W t → quiet t); [clear t|intros; by eapply HH].
    apply (lang_mut env (λ t w _, w = [] → W t → quiet t) (λ ts w _, w = [] → Forall (λ t, W t) ts → Forall quiet ts)).
    - done.
    - (* struct *) intros n fs w En Hls IH -> Hw s Hok Hx. assert (Hv := W_V _ Hw). apply term_S.
      apply (term_ext (λ f, r ← produce_seq (rec f) (map fst fs) [] [];
          match unres r with
          | (Some xs, e) => _ ← apply_fields fs xs; mret (res_into (TrSeq xs) e)
          | (None, e) => mret (RPanic e)
          end)). { intros f. unfold produce_md. cbn [produce]. by rewrite En. }
      assert (HW := W_struct _ _ Hw En). apply (term_bind (λ f, produce_seq (rec f) (map fst fs) [] [])).
      eapply term_weaken; [apply seq_quiet; [by apply IH|done|]|].
      + intros x t El Ht Hf. apply (Hx x El). apply (MD fst_struct _ _ _ Hv En).
        apply langs_nil in Hls. assert (HV := V_fields _ _ Hv En). cbn [decl_fields] in HV.
        apply elem_of_list_split in Ht as (l1 & l2 & E). rewrite E in *.
        apply Forall_app in HV as [HV1 _]. apply Forall_app in Hls as [Hls1 _]. apply fsts_at; [by apply lang_nul_all|done].
      + intros r s1 [[xs ->] Hl]. cbn [unres]. apply (term_bind (λ _, apply_fields fs xs)).
        eapply term_weaken; [apply fields_term|]. intros [] s2 Hl2. apply term_ret. split; [by eexists|].
        apply (adv_trans _ _ _ _ _ Hl Hl2).
    - (* enum *) intros n vs t sem w En Hin Hlt IH -> Hw. assert (H := Henums _ Hw). cbn in H. rewrite En in H. by destruct (H _ Hin).
    - (* tuple *) intros ts w Hls IH -> Hw s Hok Hx. assert (Hv := W_V _ Hw). apply term_S.
      apply (term_ext (λ f, r ← produce_seq (rec f) ts [] []; mret (res_map TrSeq r))); [done|].
      assert (HW := W_all _ Hw). cbn [subs] in HW. apply (term_bind (λ f, produce_seq (rec f) ts [] [])).
      eapply term_weaken; [apply seq_quiet; [by apply IH|done|]|].
      + intros x t El Ht Hf. apply (Hx x El). apply (MD fst_tuple _ _ Hv).
        apply langs_nil in Hls. assert (HV : Forall (λ t, V t) ts) by (eapply Forall_impl; [exact HW|]; intros ?; apply W_V).
        apply elem_of_list_split in Ht as (l1 & l2 & E). rewrite E in *.
        apply Forall_app in HV as [HV1 _]. apply Forall_app in Hls as [Hls1 _]. apply fsts_at; [by apply lang_nul_all|done].
      + intros r s1 [[xs ->] Hl]. apply term_ret. split; [by eexists|done].
    - (* box *) intros t w Hlt IH -> Hw s Hok Hx. apply term_S. apply (term_ext (prd t)); [done|]. apply IH; [done| |done|done].
      apply (W_sub _ _ Hw). cbn. set_solver.
    - (* none *) intros t _ Hw s Hok Hx. apply term_S. assert (Hv := W_V _ Hw).
      apply (term_bind (λ f, produce_option (rec f t) tree_span (F (key t)))). eapply term_weaken; [apply option_empty_term; [done|]|].
      + intros x El. apply first_false. rewrite <- (MD fst_opt) by done. by apply Hx.
      + intros r s1 [[xs ->] Hl]. apply term_ret. split; [by eexists|done].
    - intros t w Hlt IH -> Hw. destruct (MD opt_not_null _ (W_V _ Hw)). apply (MD nul_lang); [|done].
      apply W_V, (W_sub _ _ Hw). cbn. set_solver.
    - (* absent *) intros t _ Hw s Hok Hx. apply term_S. assert (Hv := W_V _ Hw).
      apply (term_bind (λ f, produce_option (rec f t) tree_span (F (key t)))). eapply term_weaken; [apply option_empty_term; [done|]|].
      + intros x El. apply first_false. rewrite <- (MD fst_opt) by exact Hv. by apply Hx.
      + intros r s1 [[xs ->] Hl]. apply term_ret. split; [by eexists|done].
    - intros t w Hlt IH -> Hw. destruct (MD opt_not_null t (W_V _ Hw)). apply (MD nul_lang); [|done].
      apply W_V, (W_sub _ _ Hw). cbn. set_solver.
    - (* quote *) intros t w Hlt IH -> Hw s Hok Hx. apply term_S. 
      apply (term_ext (λ f, r ← rec f t; match r with
        | RSucc x => s ← get_src (tree_span x); mret (RSucc (TrQuote (tree_span x) s))
        | RRec x e => s ← get_src (tree_span x); mret (RRec (TrQuote (tree_span x) s) e)
        | RPanic e => mret (RPanic e) end)); [done|]. apply (term_bind (prd t)).
      eapply term_weaken; [apply IH; [done| |done|done]|].
      + apply (W_sub _ _ Hw). cbn. set_solver.
      + intros r s1 [[x ->] Hl]. apply (term_bind (λ _, get_src (tree_span x))). eapply term_weaken; [apply get_src_term|].
        intros y s2 ->. apply term_ret. split; [by eexists|done].
    - (* parse *) intros t w Hlt IH -> Hw s Hok Hx. apply term_S. 
      apply (term_ext (λ f, r ← rec f t; match r with
        | RSucc x => s ← get_src (tree_span x); mret (RSucc (TrParse (tree_span x) s))
        | RRec x e => s ← get_src (tree_span x); mret (RRec (TrParse (tree_span x) s) e)
        | RPanic e => mret (RPanic e) end)); [done|]. apply (term_bind (prd t)).
      eapply term_weaken; [apply IH; [done| |done|done]|].
      + apply (W_sub _ _ Hw). cbn. set_solver.
      + intros r s1 [[x ->] Hl]. apply (term_bind (λ _, get_src (tree_span x))). eapply term_weaken; [apply get_src_term|].
        intros y s2 ->. apply term_ret. split; [by eexists|done].
    - (* plus *) intros t n w Hls IH -> Hw. apply langs_nil in Hls. cbn [replicate] in Hls. apply Forall_cons in Hls as [Hls _].
      destruct (MD plus_not_null t (W_V _ Hw)). apply (MD nul_lang); [|done]. apply W_V, (W_sub _ _ Hw). cbn. set_solver.
    - (* star *) intros t n w Hls IH -> Hw s Hok Hx. apply term_S. assert (Hv := W_V _ Hw).
      apply (term_bind (λ f, produce_option (produce_plus f (rec f t) (F (key (TPlus t)))) fst (F (key (TPlus t))))).
      eapply term_weaken; [apply (option_empty_term (λ f, produce_plus f (rec f t) (F (key (TPlus t))))); [done|]|].
      + intros x El. apply first_false. rewrite <- (MD fst_star_plus) by done. by apply Hx.
      + intros r s1 [[[sp o] ->] Hl]. apply term_ret. split; [by eexists|done].
    - (* loop *) intros t n w Hls IH -> Hw. apply langs_nil in Hls. cbn [replicate] in Hls. apply Forall_cons in Hls as [Hls _].
      destruct (MD plus_not_null t (W_V _ Hw)). apply (MD nul_lang); [|done]. apply W_V, (W_sub _ _ Hw). cbn. set_solver.
    - (* split *) intros t d n w Hls IH -> Hw s Hok Hx. assert (Hv := W_V _ Hw). assert (HW := W_all _ Hw). cbn [subs] in HW.
      apply Forall_cons in HW as [W1 [W2 _]%Forall_cons].
      assert (Hq : quiet t). { assert (HA : Forall quiet (alternate n t d)).
        { apply IH; [done|]. clear -W1 W2. induction n as [|n IHn]; cbn; repeat (constructor; try done). }
        destruct n; cbn in HA; by apply Forall_cons in HA as [? _]. }
      assert (Hnl : lang env t []). { apply langs_nil in Hls. destruct n; cbn in Hls; by apply Forall_cons in Hls as [? _]. }
      apply (MD nul_lang) in Hnl; [|by apply W_V].
      apply term_S. apply (term_ext (λ f, produce_split f (rec f t) (rec f d) (F (key t)) (F (key d)) (L (key (TSplit t d))))); [done|].
      unfold produce_split. apply (term_bind (prd t)). eapply term_weaken; [apply Hq; [done|]|].
      + intros x El Hf. apply (Hx x El). apply (MD fst_split _ _ _ Hv). by left.
      + intros r s1 [[x ->] Hl]. cbn [unres].
        apply (term_bind (λ f, split_outer f (rec f t) (rec f d) (F (key t)) (F (key d)) (L (key (TSplit t d))) [x] [] [])).
        apply term_S. cbn [split_outer]. apply term_bind_wp, wp_peek_src; [by eapply adv_aok|]. rewrite (adv_look _ _ Hl).
        destruct (look s) as [y|] eqn:El.
        * rewrite first_false; [apply term_ret, term_ret; split; [by eexists|done]|]. intros Hf. apply (Hx y eq_refl). apply (MD fst_split _ _ _ Hv). by right.
        * apply term_ret, term_ret. by split; [eexists|].
    - (* punct *) intros t d n tr w Hls IH -> Hw. apply langs_nil in Hls. 
      assert (Hn : lang env t []). { destruct n; cbn in Hls; by apply Forall_cons in Hls as [? _]. }
      destruct (MD punct_not_null t d (W_V _ Hw)) as [[] _]. apply (MD nul_lang); [|done]. apply W_V, (W_sub _ _ Hw). cbn. set_solver.
    - (* recover *) intros t r w Hls IH -> Hw s Hok Hx. assert (Hv := W_V _ Hw). assert (HW := W_all _ Hw). cbn [subs] in HW.
      assert (Hq := IH eq_refl HW). apply Forall_cons in Hq as [Q1 [Q2 _]%Forall_cons].
      apply langs_nil in Hls. apply Forall_cons in Hls as [N1 [N2 _]%Forall_cons]. apply Forall_cons in HW as [W1 [W2 _]%Forall_cons].
      apply (MD nul_lang) in N1; [|by apply W_V]. apply (MD nul_lang) in N2; [|by apply W_V].
      apply term_S. apply (term_ext (λ f, produce_recover f (rec f t) (rec f r) (F (key t)) (F (key r)))); [done|].
      unfold produce_recover. apply term_bind_wp, wp_peek_src; [done|].
      rewrite (proj2 (MD first_eps t) N1), orb_true_r.
      apply (term_bind (λ f, r ← rec f t; match unres r with
       | (Some x, e) => mret (None, tree_span x, Some x, e)
       | (None, e) => sp ← empty_span; mret (last e, sp, None, [])
       end)).
      apply (term_bind (prd t)). eapply term_weaken; [apply Q1; [done|]|].
      + intros x El Hf. apply (Hx x El). apply (MD fst_recover _ _ _ Hv). by left.
      + intros y s1 [[x ->] Hl]. cbn [unres]. apply term_ret.
        apply (term_bind (λ f, recover_loop f (rec f r) (F (key r)) None [])).
        assert (Hok1 : aok s1) by (by eapply adv_aok).
        assert (Hr : term (prd r) s1 (λ r s', (∃ x, r = RSucc x) ∧ adv s1 [] s')).
        { apply Q2; [done|]. rewrite (adv_look _ _ Hl). intros z El Hf. apply (Hx z El). apply (MD fst_recover _ _ _ Hv). by right. }
        apply term_S. cbn [recover_loop]. apply term_bind_wp, wp_peek_src; [done|].
        rewrite (proj2 (MD first_eps r) N2). destruct (look s1) as [z|].
        * rewrite orb_true_r.
          apply (term_bind (λ f, r ← rec (S f) r; match unres r with
           | (Some x, e) => mret (inl (x, [] ++ e))
           | (None, e) => mret (inr (merge_panic None e))
           end)).
          apply (term_bind (λ f, rec (S f) r)). apply (term_shift (prd r)). eapply term_weaken; [exact Hr|].
          intros y s2 [[x2 ->] Hl2]. cbn [unres]. apply term_ret, term_ret, term_ret. split; [by eexists|apply (adv_trans _ _ _ _ _ Hl Hl2)].
        * apply (term_bind (λ f, rec (S f) r)). apply (term_shift (prd r)). eapply term_weaken; [exact Hr|].
          intros y s2 [[x2 ->] Hl2]. cbn [unres]. apply term_ret, term_ret. split; [by eexists|apply (adv_trans _ _ _ _ _ Hl Hl2)].
    - intros; constructor.
    - intros t ts w1 w2 H1 IH1 H2 IH2 [-> ->]%app_nil [W1 W2]%Forall_cons. constructor; [by apply IH1|by apply IH2].
  Qed.

  (** * The main induction, on the length of the input *)
  Section step.
    Variable n : nat.
    Hypothesis Hends : ∀ t, W t → ends (prd t) n.
    Hypothesis Hgoes : ∀ t, W t → goes (prd t) (F (key t)) n.
    Notation "'at_n' s" := (length (a_rest s) = n) (at level 0, s at level 0, only parsing).

    Lemma seq_ends ts : Forall (λ t, W t) ts → ∀ acc errs s, aok s → length (a_rest s) < n →
      term (λ f, produce_seq (rec f) ts acc errs) s (λ _ _, True).
    Proof.
      induction 1 as [|t ts Ht _ IH]; intros acc errs s Hok Hn; cbn [produce_seq]; [by apply term_ret|].
      apply (term_bind (prd t)). assert (H := term_and_adv _ _ _ (Hends t Ht s Hok Hn)).
      eapply term_weaken; [exact H|]. intros r s1 [_ [l Hl]]. assert (Hle := adv_le _ _ _ Hl).
      destruct (unres r) as [[a|] e]; [|by apply term_ret]. apply IH; [by eapply adv_aok|lia].
    Qed.
    Lemma fields_tail (fs : list field) (r : res (list tree)) s :
      term (λ _, match unres r with
          | (Some xs, e) => _ ← apply_fields fs xs; mret (res_into (TrSeq xs) e)
          | (None, e) => mret (RPanic e)
          end) s (λ _ _, True).
    Proof.
      destruct (unres r) as [[xs|] e]; [|by apply term_ret]. apply (term_bind (λ _, apply_fields fs xs)).
      eapply term_weaken; [apply fields_term|]. intros. by apply term_ret.
    Qed.
    Lemma src_tail (c : span → string → tree) (r : res tree) s :
      term (λ _, match r with
        | RSucc x => s ← get_src (tree_span x); mret (RSucc (c (tree_span x) s))
        | RRec x e => s ← get_src (tree_span x); mret (RRec (c (tree_span x) s) e)
        | RPanic e => mret (RPanic e) end) s (λ _ _, True).
    Proof.
      destruct r as [x|x e|e]; [| |by apply term_ret]; apply (term_bind (λ _, get_src (tree_span x)));
        (eapply term_weaken; [apply get_src_term|]); intros; by apply term_ret.
    Qed.

    (** the prefix [l1] of a sequence is passed silently *)
    Lemma seq_goes l1 t l2 x s : Forall (λ t, W t) (l1 ++ t :: l2) → Forall (λ t, lang env t []) l1 →
      (∀ a c b, l1 = a ++ c :: b → ¬ fst_ c x) → aok s → at_n s → look s = Some x →
      (∀ s', aok s' → at_n s' → look s' = Some x → term (prd t) s' (λ _ s2, shorter s2 s')) →
      term (λ f, produce_seq (rec f) (l1 ++ t :: l2) [] []) s (λ _ s', shorter s' s).
    Proof.
      intros HW Hl1 Hno Hok Hn El Ht. apply Forall_app in HW as [HW1 [HWt HW2]%Forall_cons].
      apply seq_prefix; [|done| |].
      - rewrite Forall_forall in Hl1, HW1 |- *. intros c Hc. apply nul_quiet; auto.
      - intros y c Hy (a & b & E)%elem_of_list_split. assert (y = x) as -> by congruence. by eapply Hno.
      - intros acc s' Hs'. cbn [produce_seq]. assert (Hr := proj1 (adv_nil _ _ Hs')).
        apply (term_bind_kept (λ s', shorter s' s) (prd t)); [apply kept_shorter|].
        assert (H : term (prd t) s' (λ _ s2, shorter s2 s')).
        { apply Ht; [by eapply adv_aok|by rewrite Hr|by rewrite (adv_look _ _ Hs')]. }
        apply term_and_adv in H. eapply term_weaken; [exact H|]. intros r s2 [Hsh [l Hl]]. unfold shorter in Hsh |- *. rewrite Hr in Hsh.
        split; [done|]. destruct (unres r) as [[a|] e]; [|by apply term_ret].
        apply seq_ends; [done| |lia]. eapply adv_aok; [exact Hl|]. by eapply adv_aok.
    Qed.

    Lemma first_true t x : W t → fst_ t x → ts_contains (F (key t)) (Some x) = true.
    Proof. intros _. by apply (MD first_spec). Qed.

    Lemma plus_goes t s x : W t → V (TPlus t) → fst_ t x → aok s → at_n s → look s = Some x →
      term (prd t) s (λ _ s', shorter s' s) → term (λ f, produce_plus f (rec f t) (F (key (TPlus t)))) s (λ _ s', shorter s' s).
    Proof.
      intros Hw Hv Hx Hok Hn El Ht. apply (plus_term (λ s', shorter s' s) (prd t)); [done|apply kept_shorter| |].
      - eapply term_weaken; [exact Ht|]. intros r s' Hs. auto.
      - intros s1 y Hok1 Hs1 El1 Hy. unfold shorter in Hs1. apply (Hgoes t Hw s1 y Hok1 ltac:(lia) El1).
        apply (MD first_spec). apply (MD first_spec (TPlus t)) in Hy. by apply (MD fst_plus).
    Qed.

    Lemma option_goes {X} (p : nat → M (res X)) sp set s x : aok s → look s = Some x → ts_contains set (Some x) = true →
      term p s (λ _ s', shorter s' s) → term (λ f, produce_option (p f) sp set) s (λ _ s', shorter s' s).
    Proof.
      intros Hok El Hx Ht. unfold produce_option. apply term_bind_wp, wp_peek_src; [done|]. rewrite El, Hx.
      apply term_bind_kept; [apply kept_shorter|]. eapply term_weaken; [exact Ht|]. intros [y|y e|e] s' Hs'; (split; [done|]).
      - by apply term_ret.
      - by apply term_ret.
      - apply (term_wp (e1 ← empty_span; mret (RRec (e1, None) e))). by apply wp_bind, wp_empty_span, wp_ret.
    Qed.

    Lemma goes_n t x : sta t x → W t → ∀ s, aok s → at_n s → look s = Some x → term (prd t) s (λ _ s', shorter s' s).
    Proof.
      induction 1 as [nm y lit x Hc|m fs l1 t l2 x En Efs Hl1 Hs IH|m vs t x En Ht Hs IH|l1 t l2 x Hl1 Hs IH|t x Hs IH|t x Hs IH|t x Hs IH
        |t x Hs IH|t x Hs IH|t x Hs IH|t x Hs IH|t x Hs IH|t d x Hs IH|t d x Hnl Hs IH|t d x Hs IH|t r x Hs IH|t r x Hnl Hs IH]; intros Hw s Hok Hn El;
        assert (Hv := W_V _ Hw); apply term_S.
      - (* token *) assert (Hp := pop_shorter _ _ El). assert (El' := El). apply look_some in El' as (tk & rest & Er & Etk).
        destruct lit as [l|].
        + apply (term_wp (r ← parse_token_lit y l (L (key (TTok nm y (Some l)))); mret (res_map TrTok r))).
          apply wp_bind, wp_parse_token_lit; [done|]. rewrite Er. destruct x as [y' l']. destruct Hc as [E1 E2]. cbn in E1, E2.
          destruct (decide (look s = Some (y, l))) as [E|E]; [|rewrite El in E; naive_solver]. by apply wp_ret.
        + apply (term_wp (r ← parse_token y; mret (res_map TrTok r))).
          apply wp_bind, wp_parse_token. rewrite Er. destruct x as [y' l']. destruct Hc as [E1 _]. cbn in E1.
          destruct (decide (t_ty tk = y)) as [E|E]; [by apply wp_ret|]. cbn in Etk. congruence.
      - (* struct *)
        apply (term_ext (λ f, r ← produce_seq (rec f) (map fst fs) [] [];
          match unres r with
          | (Some xs, e) => _ ← apply_fields fs xs; mret (res_into (TrSeq xs) e)
          | (None, e) => mret (RPanic e)
          end)). { intros f. unfold produce_md. cbn [produce]. by rewrite En. }
        assert (HW := W_struct _ _ Hw En). cbn [decl_fields] in HW. rewrite Efs in HW |- *.
        apply (term_bind_kept (λ s', shorter s' s) (λ f, produce_seq (rec f) (l1 ++ t :: l2) [] [])); [apply kept_shorter|].
        eapply term_weaken; [apply (seq_goes l1 t l2 x); try done|].
        + intros a c b -> Hf. assert (HV := V_fields _ _ Hv En). cbn [decl_fields] in HV. rewrite Efs, <- app_assoc in HV. cbn [app] in HV.
          apply Forall_app in HV as [_ [HVc [HVb [HVt _]%Forall_cons]%Forall_app]%Forall_cons].
          apply Forall_app in Hl1 as [_ [Hc Hb]%Forall_cons].
          assert (Hin := MD ent_struct _ _ Hv En). rewrite Efs, <- app_assoc, map_app in Hin. cbn [app map] in Hin. rewrite map_app in Hin. cbn [map] in Hin.
          apply (MD no_seq_clash _ _ _ _ _ _ x Hin); [by apply (MD nul_lang)|by apply lang_nul_all|done|by apply sta_fst].
        + apply Forall_app in HW as [_ [HWt _]%Forall_cons]. intros s' ???. by apply IH.
        + intros r s' Hs'. split; [done|]. apply fields_tail.
      - (* enum *)
        apply elem_of_list_fmap in Ht as ([t' sem] & Et & Ht). cbn in Et. subst t'.
        assert (HWt : W t). { assert (HW := W_struct _ _ Hw En). rewrite Forall_forall in HW. apply HW. apply elem_of_list_fmap. by exists (t, sem). }
        apply elem_of_list_lookup in Ht as [i Hi].
        assert (Hx : fst_ t x) by (by apply sta_fst, W_V).
        assert (EJ : J (PNamed m) (Some x) = Some i) by (apply (MD jump_spec _ _ _ _ Hv En); eauto).
        apply (term_ext (λ f, tk ← peek_src;
          match i ← J (PNamed m) tk; v ← vs !! i; Some (i, v) with
          | Some (i, (t', sem)) =>
            r ← rec f t';
            match r, sem with
            | RSucc x, Some s | RRec x _, Some s =>
                _ ← apply_semantic (tree_span x) s; mret (res_map (TrVar i) r)
            | _, _ => mret (res_map (TrVar i) r)
            end
          | None => e ← expecting (F (PNamed m)); mret (RPanic [e])
          end)). { intros f. unfold produce_md. cbn [produce]. by rewrite En. }
        apply term_bind_wp, wp_peek_src; [done|]. rewrite El. rewrite EJ. cbn [mbind option_bind]. unfold field in *. rewrite Hi. cbn [mbind option_bind].
        apply (term_bind_kept (λ s', shorter s' s) (prd t)); [apply kept_shorter|]. eapply term_weaken; [by apply IH|].
        intros r s' Hs'. split; [done|]. destruct r as [y|y e|e], sem as [sem|]; try by apply term_ret.
        all: apply (term_bind_wp (apply_semantic (tree_span y) sem)), wp_apply; by apply term_ret.
      - (* tuple *)
        apply (term_ext (λ f, r ← produce_seq (rec f) (l1 ++ t :: l2) [] []; mret (res_map TrSeq r))); [done|].
        assert (HW := W_all _ Hw). cbn [subs] in HW.
        apply (term_bind_kept (λ s', shorter s' s) (λ f, produce_seq (rec f) (l1 ++ t :: l2) [] [])); [apply kept_shorter|].
        eapply term_weaken; [apply (seq_goes l1 t l2 x); try done|].
        + intros a c b -> Hf. assert (HV : Forall (λ t, V t) ((a ++ c :: b) ++ t :: l2)) by (eapply Forall_impl; [exact HW|]; intros ?; apply W_V).
          rewrite <- app_assoc in HV. cbn [app] in HV.
          apply Forall_app in HV as [_ [HVc [HVb [HVt _]%Forall_cons]%Forall_app]%Forall_cons].
          apply Forall_app in Hl1 as [_ [Hc Hb]%Forall_cons].
          assert (Hin' : (key (TTuple ((a ++ c :: b) ++ t :: l2)), ESeq (map key a ++ key c :: map key b ++ key t :: map key l2)) ∈ regs).
          { assert (E : map key ((a ++ c :: b) ++ t :: l2) = map key a ++ key c :: map key b ++ key t :: map key l2).
            { rewrite <- app_assoc. cbn [app]. rewrite map_app. cbn [map]. by rewrite map_app. }
            rewrite <- E. by apply (MD ent_tuple). }
          apply (MD no_seq_clash _ _ _ _ _ _ x Hin'); [by apply (MD nul_lang)|by apply lang_nul_all|done|by apply sta_fst].
        + apply Forall_app in HW as [_ [HWt _]%Forall_cons]. intros s' ???. by apply IH.
        + intros r s' Hs'. split; [done|]. by apply term_ret.
      - (* box *) apply (term_ext (prd t)); [done|]. apply IH; try done. apply (W_sub _ _ Hw). cbn. set_solver.
      - (* quote *)
        apply (term_ext (λ f, r ← rec f t; match r with
          | RSucc x => s ← get_src (tree_span x); mret (RSucc (TrQuote (tree_span x) s))
          | RRec x e => s ← get_src (tree_span x); mret (RRec (TrQuote (tree_span x) s) e)
          | RPanic e => mret (RPanic e) end)); [done|].
        apply (term_bind_kept (λ s', shorter s' s) (prd t)); [apply kept_shorter|].
        eapply term_weaken; [apply IH; try done; apply (W_sub _ _ Hw); cbn; set_solver|].
        intros r s' Hs'. split; [done|]. apply (src_tail TrQuote).
      - (* parse *)
        apply (term_ext (λ f, r ← rec f t; match r with
          | RSucc x => s ← get_src (tree_span x); mret (RSucc (TrParse (tree_span x) s))
          | RRec x e => s ← get_src (tree_span x); mret (RRec (TrParse (tree_span x) s) e)
          | RPanic e => mret (RPanic e) end)); [done|].
        apply (term_bind_kept (λ s', shorter s' s) (prd t)); [apply kept_shorter|].
        eapply term_weaken; [apply IH; try done; apply (W_sub _ _ Hw); cbn; set_solver|].
        intros r s' Hs'. split; [done|]. apply (src_tail TrParse).
      - (* option *) assert (Hwt : W t) by (apply (W_sub _ _ Hw); cbn; set_solver).
        apply (term_bind_kept (λ s', shorter s' s) (λ f, produce_option (rec f t) tree_span (F (key t)))); [apply kept_shorter|].
        eapply term_weaken; [apply (option_goes (prd t) _ _ s x); [done|done|by apply first_true, sta_fst, W_V|by apply IH]|].
        intros r s' Hs'. split; [done|]. by apply term_ret.
      - (* exists *) assert (Hwt : W t) by (apply (W_sub _ _ Hw); cbn; set_solver).
        apply (term_bind_kept (λ s', shorter s' s) (λ f, produce_option (rec f t) tree_span (F (key t)))); [apply kept_shorter|].
        eapply term_weaken; [apply (option_goes (prd t) _ _ s x); [done|done|by apply first_true, sta_fst, W_V|by apply IH]|].
        intros r s' Hs'. split; [done|]. by apply term_ret.
      - (* plus *) assert (Hwt : W t) by (apply (W_sub _ _ Hw); cbn; set_solver).
        apply (term_bind_kept (λ s', shorter s' s) (λ f, produce_plus f (rec f t) (F (key (TPlus t))))); [apply kept_shorter|].
        eapply term_weaken; [apply (plus_goes t s x); try done; [by apply sta_fst, W_V|by apply IH]|].
        intros r s' Hs'. split; [done|]. by apply term_ret.
      - (* star *) assert (Hwt : W t) by (apply (W_sub _ _ Hw); cbn; set_solver).
        apply (term_bind_kept (λ s', shorter s' s) (λ f, produce_option (produce_plus f (rec f t) (F (key (TPlus t)))) fst (F (key (TPlus t))))); [apply kept_shorter|].
        eapply term_weaken; [apply (option_goes (λ f, produce_plus f (rec f t) (F (key (TPlus t)))) _ _ s x); [done|done| |]|].
        + apply (MD first_spec). apply (MD fst_plus); [by apply (MD V_star)|]. by apply sta_fst, W_V.
        + apply (plus_goes t s x); try done; [by apply (MD V_star)|by apply sta_fst, W_V|by apply IH].
        + intros r s' Hs'. split; [done|]. by apply term_ret.
      - (* loop *) assert (Hwt : W t) by (apply (W_sub _ _ Hw); cbn; set_solver).
        assert (Hx : fst_ t x) by (by apply sta_fst, W_V).
        apply (term_ext (λ f, r ← produce_loop f (rec f t) (F (key (TLoop t))); mret (res_map (λ '(sp, l), TrList sp l) r))); [done|].
        apply (term_bind_kept (λ s', shorter s' s) (λ f, produce_loop f (rec f t) (F (key (TLoop t))))); [apply kept_shorter|].
        eapply (term_weaken _ _ (λ _ s', shorter s' s)); [|intros r s' Hs'; split; [done|]; by apply term_ret].
        unfold produce_loop. apply (term_bind_kept (λ s', shorter s' s) (λ f, loop_loop f (rec f t) (F (key (TLoop t))) [] [])); [apply kept_shorter|].
        eapply (term_weaken _ _ (λ _ s', shorter s' s)); [|intros [l errs] s' Hs'; split; [done|]].
        2:{ destruct (head l); [destruct (last l)|]; by apply term_ret. }
        apply term_S. cbn [loop_loop]. apply term_bind_wp, wp_peek_src; [done|]. rewrite El.
        assert (Hg : ∀ y, fst_ (TLoop t) y ↔ fst_ t y) by (intros y; apply (MD fst_plus t y Hv)).
        rewrite (proj2 (MD first_spec (TLoop t) x)) by (by apply Hg).
        apply (term_bind_wp (mret (Some x, []))), wp_ret. apply term_bind_wp, wp_cur_span.
        apply (term_bind_kept (λ s', shorter s' s) (λ f, rec (S f) t)); [apply kept_shorter|]. apply (term_shift (prd t)).
        assert (Ht := term_and_adv _ _ _ (IH Hwt s Hok Hn El)). eapply term_weaken; [exact Ht|].
        intros r s1 [Hs1 [l Hl]]. split; [done|]. unfold shorter in Hs1. destruct (unres r) as [o e].
        apply term_bind_wp, wp_cur_span. destruct (_ =? _); [by apply term_ret|].
        assert (Hok1 : aok s1) by (by eapply adv_aok).
        assert (Hgo : goes (λ f, rec (S f) t) (F (key (TLoop t))) n).
        { intros s2 y Hok2 Hn2 El2 Hy. apply (term_shift (prd t)). apply (Hgoes t Hwt s2 y Hok2 Hn2 El2).
          apply (MD first_spec). apply Hg. by apply (MD first_spec). }
        apply (loop_term (λ f, rec (S f) t)); [done|eapply goes_le; [|exact Hgo]; lia|eapply goes_goes_at; [exact Hgo|done|lia]].
      - (* split, from the left *)
        assert (HW := W_all _ Hw). cbn [subs] in HW. apply Forall_cons in HW as [W1 [W2 _]%Forall_cons].
        apply (term_ext (λ f, produce_split f (rec f t) (rec f d) (F (key t)) (F (key d)) (L (key (TSplit t d))))); [done|].
        apply (split_term _ _ _ (λ s', shorter s' s) (prd t) (prd d)); [done|apply kept_shorter|rewrite Hn; by apply Hends|rewrite Hn; by apply Hgoes|].
        left. eapply term_weaken; [by apply IH|]. intros r s' Hs'. auto.
      - (* split, from the right *)
        assert (HW := W_all _ Hw). cbn [subs] in HW. apply Forall_cons in HW as [W1 [W2 _]%Forall_cons].
        assert (Hx : fst_ d x) by (by apply sta_fst, W_V). destruct (MD V_split _ _ Hv) as (V1 & V2 & V3 & V4 & V5).
        assert (Hnx : ¬ fst_ t x).
        { intros Hf. apply (MD no_seq_clash _ [] _ [] _ [] x (MD ent_split _ _ Hv)); [by apply (MD nul_lang)|done|done|].
          apply (MD fst_star _ _ V3). apply (MD fst_tuple _ _ V4). by left. }
        apply (term_ext (λ f, produce_split f (rec f t) (rec f d) (F (key t)) (F (key d)) (L (key (TSplit t d))))); [done|].
        apply (split_term _ _ _ (λ s', shorter s' s) (prd t) (prd d)); [done|apply kept_shorter|rewrite Hn; by apply Hends|rewrite Hn; by apply Hgoes|].
        right. assert (Hq := nul_quiet t Hnl W1 s Hok). eapply term_weaken; [apply Hq|].
        + intros y Hy. by assert (y = x) as -> by congruence.
        + intros r s1 [[y ->] Hl]. split; [done|]. split; [done|]. exists x. split; [done|]. split; [by apply first_true|].
          assert (Hr := proj1 (adv_nil _ _ Hl)).
          eapply term_weaken; [apply IH; [done|by eapply adv_aok|by rewrite Hr|by rewrite (adv_look _ _ Hl)]|].
          intros r s2 Hs2. split; [|done]. unfold shorter in *. by rewrite Hr in Hs2.
      - (* punct *)
        assert (HW := W_all _ Hw). cbn [subs] in HW. apply Forall_cons in HW as [W1 [W2 _]%Forall_cons].
        apply (term_ext (λ f, produce_punct f (rec f t) (rec f d) (F (key t)) (F (key d)) (L (key (TPunct t d))))); [done|].
        apply (punct_term _ _ _ (λ s', shorter s' s) (prd t) (prd d)); [done|apply kept_shorter|rewrite Hn; by apply Hends|rewrite Hn; by apply Hgoes|].
        eapply term_weaken; [by apply IH|]. intros r s' Hs'. auto.
      - (* recover, head *)
        assert (HW := W_all _ Hw). cbn [subs] in HW. apply Forall_cons in HW as [W1 [W2 _]%Forall_cons].
        apply (term_ext (λ f, produce_recover f (rec f t) (rec f r) (F (key t)) (F (key r)))); [done|].
        unfold produce_recover. apply term_bind_wp, wp_peek_src; [done|].
        rewrite El, (first_true t x) by (by try apply sta_fst, W_V). cbn [orb].
        apply (term_bind_kept (λ s', shorter s' s) (λ f, r ← rec f t; match unres r with
         | (Some x, e) => mret (None, tree_span x, Some x, e)
         | (None, e) => sp ← empty_span; mret (last e, sp, None, [])
         end)); [apply kept_shorter|].
        apply (term_bind (prd t)). assert (Ht := term_and_adv _ _ _ (IH W1 s Hok Hn El)). eapply term_weaken; [exact Ht|].
        intros y s1 [Hs1 [l Hl]]. unfold shorter in Hs1. assert (Hok1 : aok s1) by (by eapply adv_aok).
        assert (Hrest : ∀ panic hsp hd errs, term (λ f, '(tl, panic', errs') ← recover_loop f (rec f r) (F (key r)) panic errs;
          let errs'' := errs' ++ option_list panic' in
          match tl with
          | Some x => mret (res_into (TrRecover hsp hd x) errs'')
          | None => mret (RPanic errs'')
          end) s1 (λ _ _, True)).
        { intros panic hsp hd errs. apply (term_bind (λ f, recover_loop f (rec f r) (F (key r)) panic errs)).
          eapply term_weaken; [apply (recover_loop_term (prd r)); [done| |]|].
          - eapply ends_le; [|apply (Hends r W2)]. lia.
          - intros _. apply (Hends r W2); [done|lia].
          - intros [[[tl|] panic'] errs'] s2 _; by apply term_ret. }
        destruct (unres y) as [[a|] e]; apply term_ret; (split; [done|apply Hrest]).
      - (* recover, tail *)
        assert (HW := W_all _ Hw). cbn [subs] in HW. apply Forall_cons in HW as [W1 [W2 _]%Forall_cons].
        assert (Hx : fst_ r x) by (by apply sta_fst, W_V).
        assert (Hnx : ¬ fst_ t x).
        { intros Hf. apply (MD no_seq_clash _ [] _ [] _ [] x (MD ent_recover _ _ Hv)); [by apply (MD nul_lang); [apply W_V|]|done..]. }
        apply (term_ext (λ f, produce_recover f (rec f t) (rec f r) (F (key t)) (F (key r)))); [done|].
        unfold produce_recover. apply term_bind_wp, wp_peek_src; [done|].
        rewrite (proj2 (MD first_eps t)), orb_true_r by (by apply (MD nul_lang); [apply W_V|]).
        apply (term_bind (λ f, r ← rec f t; match unres r with
         | (Some x, e) => mret (None, tree_span x, Some x, e)
         | (None, e) => sp ← empty_span; mret (last e, sp, None, [])
         end)).
        apply (term_bind (prd t)). eapply term_weaken; [apply (nul_quiet t Hnl W1 s Hok)|].
        + intros y Hy. by assert (y = x) as -> by congruence.
        + intros z s1 [[y ->] Hl]. cbn [unres]. apply term_ret. assert (Hr := proj1 (adv_nil _ _ Hl)).
          assert (Hok1 : aok s1) by (by eapply adv_aok). assert (El1 : look s1 = Some x) by (by rewrite (adv_look _ _ Hl)).
          apply (term_bind_kept (λ s', shorter s' s) (λ f, recover_loop f (rec f r) (F (key r)) None [])); [apply kept_shorter|].
          eapply term_weaken; [apply (recover_loop_goes (prd r) _ s1 x); [done| |done|by apply first_true|]|].
          * rewrite Hr, Hn. by apply Hends.
          * apply IH; [done|done|by rewrite Hr|done].
          * intros [[[tl|] panic'] errs'] s2 Hs2; (split; [unfold shorter in *; by rewrite Hr in Hs2|by apply term_ret]).
    Qed.

    Lemma goes_first t x s : W t → fst_ t x → aok s → at_n s → look s = Some x → term (prd t) s (λ _ s', shorter s' s).
    Proof. intros Hw Hf. apply goes_n; [|done]. by apply fst_sta; [apply W_V|]. Qed.
    Lemma goes_at_n t s : W t → aok s → length (a_rest s) ≤ n → goes_at (prd t) (F (key t)) s.
    Proof.
      intros Hw Hok Hn x El Hx. destruct (decide (length (a_rest s) = n)).
      - apply (goes_first t x); try done. by apply (MD first_spec).
      - apply (Hgoes t Hw s x); [done|lia|done|done].
    Qed.
    Lemma nul_ends t s : W t → nul t → aok s → length (a_rest s) ≤ n → term (prd t) s (λ _ _, True).
    Proof.
      intros Hw Hnl Hok Hn. apply (MD nul_lang) in Hnl; [|by apply W_V].
      destruct (look s) as [x|] eqn:El.
      - destruct (ts_contains (F (key t)) (Some x)) eqn:Ex.
        + eapply term_true. by apply (goes_at_n t s Hw Hok Hn x).
        + eapply term_true. apply (nul_quiet t Hnl Hw s Hok). intros y Hy Hf. assert (y = x) as -> by congruence.
          apply (MD first_spec) in Hf. congruence.
      - eapply term_true. apply (nul_quiet t Hnl Hw s Hok). intros y Hy. congruence.
    Qed.
    Lemma option_ends {X} (p : nat → M (res X)) sp set s : aok s →
      (∀ x, look s = Some x → ts_contains set (Some x) = true → term p s (λ _ _, True)) →
      term (λ f, produce_option (p f) sp set) s (λ _ _, True).
    Proof.
      intros Hok Hp. unfold produce_option. apply term_bind_wp, wp_peek_src; [done|].
      destruct (look s) as [x|]; [destruct (ts_contains set (Some x)) eqn:Ex|].
      - apply term_bind. eapply term_weaken; [by apply (Hp x)|]. intros [y|y e|e] s' _; by apply term_ret.
      - by apply term_ret.
      - by apply term_ret.
    Qed.
    Lemma plus_ends t s : W t → V (TPlus t) → aok s → length (a_rest s) ≤ n → term (prd t) s (λ _ _, True) →
      term (λ f, produce_plus f (rec f t) (F (key (TPlus t)))) s (λ _ _, True).
    Proof.
      intros Hw Hv Hok Hn Ht.
      assert (Hff : ∀ y, ts_contains (F (key (TPlus t))) (Some y) = true → ts_contains (F (key t)) (Some y) = true).
      { intros y Hy. apply (MD first_spec). apply (MD fst_plus _ _ Hv). by apply (MD first_spec). }
      apply (plus_term (λ _, True) (prd t)); [done|done| |].
      - destruct (look s) as [x|] eqn:El; [destruct (ts_contains (F (key (TPlus t))) (Some x)) eqn:Ex|].
        + eapply term_weaken; [apply (goes_at_n t s Hw Hok Hn x El); by apply Hff|]. auto.
        + eapply term_weaken; [exact Ht|]. auto.
        + eapply term_weaken; [exact Ht|]. auto.
      - intros s1 y Hok1 Hs1 El1 Hy. unfold shorter in Hs1. apply (goes_at_n t s1 Hw Hok1 ltac:(lia) y El1). by apply Hff.
    Qed.

    Lemma ends_n t : grounded env t → W t → ∀ s, aok s → at_n s → term (prd t) s (λ _ _, True).
    Proof.
      assert (Hseq : ∀ ts, (∀ t, t ∈ ts → W t → ∀ s, aok s → at_n s → term (prd t) s (λ _ _, True)) → Forall (λ t, W t) ts →
        ∀ acc errs s, aok s → at_n s → term (λ f, produce_seq (rec f) ts acc errs) s (λ _ _, True)).
      { induction ts as [|c ts IHts]; intros Hts HW acc errs s Hok Hn; cbn [produce_seq]; [by apply term_ret|].
        apply Forall_cons in HW as [HWc HW]. apply (term_bind (prd c)).
        assert (Hc := term_and_adv _ _ _ (Hts c ltac:(set_solver) HWc s Hok Hn)). eapply term_weaken; [exact Hc|].
        intros r s1 [_ [l Hl]]. assert (Hok1 : aok s1) by (by eapply adv_aok). assert (Hle := adv_le _ _ _ Hl).
        destruct (unres r) as [[a|] e]; [|by apply term_ret].
        destruct (decide (length (a_rest s1) = n)).
        - apply IHts; [|done..]. intros. apply Hts; [set_solver|done..].
        - apply seq_ends; [done|done|lia]. }
      induction 1 as [nm y lit|m fs En Hfs IH|m vs En|ts Hts IH|t Ht IH|t Ht IH|t Ht IH|t Ht IH|t d Ht IH|t d Ht IH|t|t|t|t|t r];
        intros Hw s Hok Hn; assert (Hv := W_V _ Hw); assert (HW := W_all _ Hw); cbn [subs] in HW; apply term_S.
      - destruct lit as [l|].
        + apply (term_wp (r ← parse_token_lit y l (L (key (TTok nm y (Some l)))); mret (res_map TrTok r))).
          apply wp_bind, wp_parse_token_lit; [done|]. destruct (a_rest s).
          * destruct (ts_contains_e _); by apply wp_ret.
          * destruct (decide _); [by apply wp_ret|]. destruct (ts_contains _ _); by apply wp_ret.
        + apply (term_wp (r ← parse_token y; mret (res_map TrTok r))).
          apply wp_bind, wp_parse_token. destruct (a_rest s); [by apply wp_ret|]. destruct (decide _); by apply wp_ret.
      - rewrite En in HW. cbn [decl_fields] in HW.
        apply (term_ext (λ f, r ← produce_seq (rec f) (map fst fs) [] [];
          match unres r with
          | (Some xs, e) => _ ← apply_fields fs xs; mret (res_into (TrSeq xs) e)
          | (None, e) => mret (RPanic e)
          end)). { intros f. unfold produce_md. cbn [produce]. by rewrite En. }
        apply (term_bind (λ f, produce_seq (rec f) (map fst fs) [] [])). eapply term_weaken; [by apply Hseq|].
        intros r s' _. apply fields_tail.
      - rewrite En in HW. cbn [decl_fields] in HW.
        apply (term_ext (λ f, tk ← peek_src;
          match i ← J (PNamed m) tk; v ← vs !! i; Some (i, v) with
          | Some (i, (t', sem)) =>
            r ← rec f t';
            match r, sem with
            | RSucc x, Some s | RRec x _, Some s =>
                _ ← apply_semantic (tree_span x) s; mret (res_map (TrVar i) r)
            | _, _ => mret (res_map (TrVar i) r)
            end
          | None => e ← expecting (F (PNamed m)); mret (RPanic [e])
          end)). { intros f. unfold produce_md. cbn [produce]. by rewrite En. }
        apply term_bind_wp, wp_peek_src; [done|]. destruct (J (PNamed m) (look s)) as [i|] eqn:EJ; [|by apply term_ret].
        apply (MD jump_spec _ _ _ _ Hv En) in EJ as (t & sem & Hi & Hf).
        cbn [mbind option_bind]. unfold field in *. rewrite Hi. cbn [mbind option_bind].
        assert (Hin : (t, sem) ∈ vs) by (by eapply elem_of_list_lookup_2).
        assert (HWt : W t). { rewrite Forall_forall in HW. apply HW. apply elem_of_list_fmap. by exists (t, sem). }
        destruct (look s) as [x|] eqn:El.
        + apply (term_bind (prd t)). eapply term_weaken; [by apply (goes_first t x)|].
          intros r s' _. destruct r as [y|y e|e], sem as [sem|]; try by apply term_ret.
          all: apply (term_bind_wp (apply_semantic (tree_span y) sem)), wp_apply; by apply term_ret.
        + assert (H := Henums _ Hw). cbn in H. rewrite En in H. destruct (H _ Hin). cbn. by apply (MD nul_lang); [apply W_V|].
      - apply (term_ext (λ f, r ← produce_seq (rec f) ts [] []; mret (res_map TrSeq r))); [done|].
        apply (term_bind (λ f, produce_seq (rec f) ts [] [])). eapply term_weaken; [by apply Hseq|]. intros. by apply term_ret.
      - apply (term_ext (prd t)); [done|]. apply Forall_cons in HW as [HW _]. by apply IH.
      - apply (term_ext (λ f, r ← rec f t; match r with
          | RSucc x => s ← get_src (tree_span x); mret (RSucc (TrQuote (tree_span x) s))
          | RRec x e => s ← get_src (tree_span x); mret (RRec (TrQuote (tree_span x) s) e)
          | RPanic e => mret (RPanic e) end)); [done|]. apply Forall_cons in HW as [HW _].
        apply (term_bind (prd t)). eapply term_weaken; [by apply IH|]. intros r s' _. apply (src_tail TrQuote).
      - apply (term_ext (λ f, r ← rec f t; match r with
          | RSucc x => s ← get_src (tree_span x); mret (RSucc (TrParse (tree_span x) s))
          | RRec x e => s ← get_src (tree_span x); mret (RRec (TrParse (tree_span x) s) e)
          | RPanic e => mret (RPanic e) end)); [done|]. apply Forall_cons in HW as [HW _].
        apply (term_bind (prd t)). eapply term_weaken; [by apply IH|]. intros r s' _. apply (src_tail TrParse).
      - apply Forall_cons in HW as [HW _].
        apply (term_bind (λ f, produce_plus f (rec f t) (F (key (TPlus t))))). eapply term_weaken; [apply plus_ends; [done|done|done|lia|by apply IH]|].
        intros. by apply term_ret.
      - apply Forall_cons in HW as [W1 [W2 _]%Forall_cons].
        apply (term_ext (λ f, produce_split f (rec f t) (rec f d) (F (key t)) (F (key d)) (L (key (TSplit t d))))); [done|].
        apply (split_term _ _ _ (λ _, True) (prd t) (prd d)); [done|done|rewrite Hn; by apply Hends|rewrite Hn; by apply Hgoes|].
        left. assert (H := term_and_adv _ _ _ (IH W1 s Hok Hn)). eapply term_weaken; [exact H|]. intros r s1 [_ [l Hl]]. split; [done|]. right.
        assert (Hle := adv_le _ _ _ Hl). apply goes_at_n; [done|by eapply adv_aok|lia].
      - apply Forall_cons in HW as [W1 [W2 _]%Forall_cons].
        apply (term_ext (λ f, produce_punct f (rec f t) (rec f d) (F (key t)) (F (key d)) (L (key (TPunct t d))))); [done|].
        apply (punct_term _ _ _ (λ _, True) (prd t) (prd d)); [done|done|rewrite Hn; by apply Hends|rewrite Hn; by apply Hgoes|].
        assert (H := term_and_adv _ _ _ (IH W1 s Hok Hn)). eapply term_weaken; [exact H|]. intros r s1 [_ [l Hl]]. split; [done|]. right.
        assert (Hle := adv_le _ _ _ Hl). apply goes_at_n; [done|by eapply adv_aok|lia].
      - apply Forall_cons in HW as [HW _]. apply (term_bind (λ f, produce_option (rec f t) tree_span (F (key t)))).
        eapply term_weaken; [apply (option_ends (prd t)); [done|]|intros; by apply term_ret].
        intros x El Hx. eapply term_true. by apply (goes_at_n t s HW Hok ltac:(lia) x).
      - apply Forall_cons in HW as [HW _]. apply (term_bind (λ f, produce_option (rec f t) tree_span (F (key t)))).
        eapply term_weaken; [apply (option_ends (prd t)); [done|]|intros; by apply term_ret].
        intros x El Hx. eapply term_true. by apply (goes_at_n t s HW Hok ltac:(lia) x).
      - apply Forall_cons in HW as [HW _]. assert (Hvp := MD V_star _ Hv).
        apply (term_bind (λ f, produce_option (produce_plus f (rec f t) (F (key (TPlus t)))) fst (F (key (TPlus t))))).
        eapply term_weaken; [apply (option_ends (λ f, produce_plus f (rec f t) (F (key (TPlus t))))); [done|]|intros; by apply term_ret].
        intros x El Hx. apply plus_ends; [done|done|done|lia|]. eapply term_true. apply (goes_at_n t s HW Hok ltac:(lia) x El).
        apply (MD first_spec). apply (MD fst_plus _ _ Hvp). by apply (MD first_spec).
      - apply Forall_cons in HW as [HW _].
        apply (term_ext (λ f, r ← produce_loop f (rec f t) (F (key (TLoop t))); mret (res_map (λ '(sp, l), TrList sp l) r))); [done|].
        apply (term_bind (λ f, produce_loop f (rec f t) (F (key (TLoop t))))).
        eapply (term_weaken _ _ (λ _ _, True)); [|intros; by apply term_ret].
        unfold produce_loop. apply (term_bind (λ f, loop_loop f (rec f t) (F (key (TLoop t))) [] [])).
        assert (Hff : ∀ y, ts_contains (F (key (TLoop t))) (Some y) = true → ts_contains (F (key t)) (Some y) = true).
        { intros y Hy. apply (MD first_spec). apply (MD fst_plus t y Hv). by apply (MD first_spec (TLoop t)). }
        eapply term_weaken; [apply (loop_term (prd t)); [done| |]|].
        + intros s1 y Hok1 Hn1 El1 Hy. apply (Hgoes t HW s1 y); [done|lia|done|by apply Hff].
        + intros y El Hy. apply (goes_at_n t s HW Hok ltac:(lia) y El). by apply Hff.
        + intros [l errs] s' _. destruct (head l); [destruct (last l)|]; by apply term_ret.
      - apply Forall_cons in HW as [W1 [W2 _]%Forall_cons].
        apply (term_ext (λ f, produce_recover f (rec f t) (rec f r) (F (key t)) (F (key r)))); [done|].
        unfold produce_recover. apply term_bind_wp, wp_peek_src; [done|].
        apply (term_bind (λ f, if ts_contains (F (key t)) (look s) || ts_contains_e (F (key t)) then
           r ← rec f t;
           match unres r with
           | (Some x, e) => mret (None, tree_span x, Some x, e)
           | (None, e) => sp ← empty_span; mret (last e, sp, None, [])
           end
         else e ← expecting (F (key t)); sp ← empty_span; mret (Some e, sp, None, []))).
        assert (Hrest : ∀ s1 panic hsp hd errs, aok s1 → length (a_rest s1) ≤ n →
          term (λ f, '(tl, panic', errs') ← recover_loop f (rec f r) (F (key r)) panic errs;
          let errs'' := errs' ++ option_list panic' in
          match tl with
          | Some x => mret (res_into (TrRecover hsp hd x) errs'')
          | None => mret (RPanic errs'')
          end) s1 (λ _ _, True)).
        { intros s1 panic hsp hd errs Hok1 Hn1. apply (term_bind (λ f, recover_loop f (rec f r) (F (key r)) panic errs)).
          eapply term_weaken; [apply (recover_loop_term (prd r)); [done| |]|].
          - eapply ends_le; [|apply (Hends r W2)]. lia.
          - intros [He|(x & El & Hx)].
            + apply nul_ends; [done| |done|done]. by apply (MD first_eps).
            + eapply term_true. by apply (goes_at_n r s1 W2 Hok1 Hn1 x).
          - intros [[[tl|] panic'] errs'] s2 _; by apply term_ret. }
        destruct (ts_contains (F (key t)) (look s) || ts_contains_e (F (key t))) eqn:Eg; [|by apply term_ret, Hrest; [|lia]].
        apply (term_bind (prd t)).
        assert (Ht : term (prd t) s (λ _ _, True)).
        { apply orb_true_iff in Eg as [Eg|Eg].
          - destruct (look s) as [x|] eqn:El.
            + eapply term_true. by apply (goes_at_n t s W1 Hok ltac:(lia) x).
            + apply nul_ends; [done| |done|lia]. by apply (MD first_eps).
          - apply nul_ends; [done| |done|lia]. by apply (MD first_eps). }
        apply term_and_adv in Ht. eapply term_weaken; [exact Ht|]. intros y s1 [_ [l Hl]].
        assert (Hok1 : aok s1) by (by eapply adv_aok). assert (Hle := adv_le _ _ _ Hl).
        destruct (unres y) as [[a|] e]; apply term_ret, Hrest; (done || lia).
    Qed.
  End step.

  Hypothesis Hgr : all_within env (grounded env) root.
  Lemma md_ends n : (∀ t, W t → ends (prd t) n) ∧ (∀ t, W t → goes (prd t) (F (key t)) n).
  Proof.
    induction n as [|n [IH1 IH2]]; [split; intros t Hw s; lia|]. split.
    - intros t Hw s Hok Hn. destruct (decide (length (a_rest s) = n)).
      + apply (ends_n n IH1 IH2 t); [by apply Hgr|done..].
      + apply (IH1 t Hw s); [done|lia].
    - intros t Hw s x Hok Hn El Hx. apply (goes_at_n n IH1 IH2 t s Hw Hok ltac:(lia) x El Hx).
  Qed.
  Lemma md_ends_all t s : W t → aok s → term (prd t) s (λ _ _, True).
  Proof. intros Hw Hok. apply (proj1 (md_ends (S (length (a_rest s)))) t Hw); [done|lia]. Qed.
  Lemma md_goes_all t x s : W t → aok s → look s = Some x → fst_ t x → term (prd t) s (λ _ s', shorter s' s).
  Proof.
    intros Hw Hok El Hf. apply (proj2 (md_ends (S (length (a_rest s)))) t Hw s x Hok); [lia|done|]. by apply (MD first_spec).
  Qed.
End md.

Lemma productive_grounded env t : productive env t → all_within env (grounded env) t.
Proof.
  intros H c Hc. destruct (H c Hc) as [w Hl]. clear -Hl. revert c w Hl.
  apply (lang_mut env (λ t w _, grounded env t) (λ ts w _, ∀ t, t ∈ ts → grounded env t)).
  - intros; constructor.
  - intros n fs w En Hls IH. by eapply g_struct.
  - intros. by eapply g_enum.
  - intros. by apply g_tuple.
  - intros. by apply g_box.
  - intros. by apply g_opt.
  - intros. by apply g_opt.
  - intros. by apply g_exists.
  - intros. by apply g_exists.
  - intros. by apply g_quote.
  - intros. by apply g_parse.
  - intros t n w Hls IH. apply g_plus, IH. cbn [replicate]. set_solver.
  - intros. by apply g_star.
  - intros. by apply g_loop.
  - intros t d n w Hls IH. apply g_split, IH. unfold alternate. set_solver.
  - intros t d n tr w Hls IH. apply g_punct, IH. unfold alternate. set_solver.
  - intros. by apply g_recover.
  - intros t []%elem_of_nil.
  - intros t ts w1 w2 _ H1 _ H2 c [->|Hc]%elem_of_cons; auto.
Qed.
