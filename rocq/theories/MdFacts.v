(** What acceptance of a root type says about the types used in it. *)
From Coq Require Import String NArith.
From stdpp Require Import prelude list strings relations.
From Verif Require Import LexModel SynSetModel SynSetFacts TableModel StreamModel StreamSpec TypeModel TypeSpec TypeFacts CfgSpec CfgFacts FirstFacts FollowFacts CheckFacts LocalFacts JumpFacts MetaFacts ProduceModel ParseSpec LangFacts TreeFacts InvFacts.
Local Open Scope nat_scope.
#[local] Arguments ts_contains : simpl never.
#[local] Arguments tb_get : simpl never.

(** [x] starts a sequence of symbols. *)
Fixpoint starts_l {K} (G : grammar K) (l : list K) (x : tok) : Prop :=
  match l with [] => False | y :: l => starts G y x ∨ (nullable G y ∧ starts_l G l x) end.
Lemma starts_l_alt {K} (G : grammar K) l x : starts_l G l x ↔
  ∃ l1 y l2, l = l1 ++ y :: l2 ∧ Forall (nullable G) l1 ∧ starts G y x.
Proof.
  induction l as [|y l IH]; cbn.
  - split; [done|]. intros (l1&?&?&E&_). by destruct l1.
  - rewrite IH. split.
    + intros [H|[H (l1&z&l2&->&H1&H2)]]; [by exists [], y, l|].
      exists (y :: l1), z, l2. split_and!; [done|by constructor|done].
    + intros ([|y' l1]&z&l2&E&H1&H2); injection E as -> ->; [by left|]. right.
      apply Forall_cons in H1 as [? ?]. eauto 10.
Qed.

Set Default Proof Using "All".
Section md.
  Variable env : denv.
  Variable root : ty.
  Variable regs iter : grammar prod.
  Variable md : metadata prod.
  Hypothesis Hreg : register_root env (prod_of root) = Some regs.
  Hypothesis Hperm : iter ≡ₚ regs.
  Hypothesis Hmeta : meta_build regs iter (key root) = Some (inr md).

  Notation F := (tb_get (md_first md)).
  Notation L := (tb_get (md_follow md)).
  Notation J := (jump_look_up (md_jump md)).
  Notation vis k := (visible env (key root) k).
  Notation V t := (visible env (key root) (key t)).
  Definition nul (t : ty) : Prop := nullable regs (key t).
  Definition fst_ (t : ty) (x : tok) : Prop := starts regs (key t) x.
  Definition nf (t : ty) (x : option tok) : Prop := near_follow regs (key root) (key t) x.
  Definition fsts (ts : list ty) (x : tok) : Prop := starts_l regs (map key ts) x.

  Lemma md_functional : functional regs.
  Proof. by destruct (register_root_spec _ _ _ Hreg). Qed.
  Lemma md_regs k e : (k, e) ∈ regs ↔ vis k ∧ entry_of env k = Some e.
  Proof. destruct (register_root_spec _ _ _ Hreg) as [_ H]. apply H. Qed.
  Lemma md_reach k : vis k → is_Some (entry_of env k) → reachable regs (key root) k.
  Proof. intros Hv [e He]. apply (register_reachable env (prod_of root) regs k e Hreg). by apply md_regs. Qed.
  Lemma md_tables : tables_ok regs (key root) (md_first md) (md_follow md).
  Proof. apply (meta_build_accepts regs iter (key root) md md_functional Hperm Hmeta). Qed.

  Lemma first_spec t x : ts_contains (F (key t)) (Some x) = true ↔ fst_ t x.
  Proof. apply (tk_first _ _ _ _ md_tables (key t) (Some x)). Qed.
  Lemma first_eps t : ts_contains_e (F (key t)) = true ↔ nul t.
  Proof. apply (tk_first _ _ _ _ md_tables (key t) None). Qed.
  Lemma follow_spec t x : ts_contains (L (key t)) x = true ↔ nf t x.
  Proof. apply (tk_follow _ _ _ _ md_tables (key t)). Qed.

  Lemma ent_one k e e' : (k, e) ∈ regs → (k, e') ∈ regs → e = e'.
  Proof. intros [_ H]%md_regs [_ H']%md_regs. congruence. Qed.

  (** * Unfolding by entry *)
  Lemma ent_tok_null k y lit : (k, ETok y lit) ∈ regs → ¬ nullable regs k.
  Proof.
    intros H [H'|[(l&H'&_)|(l&z&H'&_)]]%nullable_unfold; by specialize (ent_one _ _ _ H H').
  Qed.
  Lemma ent_tok_starts k y lit x : (k, ETok y lit) ∈ regs → starts regs k x ↔ covers y lit x.
  Proof.
    intros H. rewrite starts_unfold. split; [|eauto].
    intros [(y'&lit'&H'&Hc)|[(l&?&?&?&H'&_)|(l&z&H'&_)]]; specialize (ent_one _ _ _ H H') as E; by simplify_eq.
  Qed.
  Lemma ent_eps_null k : (k, EEps) ∈ regs → nullable regs k.
  Proof. intros H. apply nullable_unfold. by left. Qed.
  Lemma ent_eps_starts k x : (k, EEps) ∈ regs → ¬ starts regs k x.
  Proof.
    intros H [(y'&lit'&H'&Hc)|[(l&?&?&?&H'&_)|(l&z&H'&_)]]%starts_unfold; by specialize (ent_one _ _ _ H H').
  Qed.
  Lemma ent_seq_null k l : (k, ESeq l) ∈ regs → nullable regs k ↔ Forall (nullable regs) l.
  Proof.
    intros H. rewrite nullable_unfold. split; [|eauto 10].
    intros [H'|[(l'&H'&Hl)|(l'&z&H'&_)]]; specialize (ent_one _ _ _ H H') as E; by simplify_eq.
  Qed.
  Lemma ent_seq_starts k l x : (k, ESeq l) ∈ regs → starts regs k x ↔ starts_l regs l x.
  Proof.
    intros H. rewrite starts_unfold, starts_l_alt. split; [|intros (?&?&?&->&?&?); eauto 10].
    intros [(y'&lit'&H'&Hc)|[(l'&?&?&?&H'&->&?&?)|(l'&z&H'&_)]]; specialize (ent_one _ _ _ H H') as E; simplify_eq. eauto 10.
  Qed.
  Lemma ent_union_null k l : (k, EUnion l) ∈ regs → nullable regs k ↔ ∃ y, y ∈ l ∧ nullable regs y.
  Proof.
    intros H. rewrite nullable_unfold. split; [|intros (?&?&?); eauto 10].
    intros [H'|[(l'&H'&Hl)|(l'&z&H'&?&?)]]; specialize (ent_one _ _ _ H H') as E; simplify_eq. eauto.
  Qed.
  Lemma ent_union_starts k l x : (k, EUnion l) ∈ regs → starts regs k x ↔ ∃ y, y ∈ l ∧ starts regs y x.
  Proof.
    intros H. rewrite starts_unfold. split; [|intros (?&?&?); eauto 10].
    intros [(y'&lit'&H'&Hc)|[(l'&?&?&?&H'&->&?&?)|(l'&z&H'&?&?)]]; specialize (ent_one _ _ _ H H') as E; simplify_eq. eauto 10.
  Qed.

  (** * Visible types *)
  Lemma V_root : V root.
  Proof. apply rtc_refl. Qed.
  Lemma V_kid t ks c : V t → kids env (key t) = Some ks → prod_of c ∈ ks → V c.
  Proof. intros Hv Hk Hx. eapply rtc_r; [exact Hv|]. exists ks, (prod_of c). auto. Qed.
  Lemma V_star t : V (TStar t) → V (TPlus t).
  Proof. intros Hv. apply (V_kid _ _ (TPlus t) Hv eq_refl). set_solver. Qed.
  Lemma V_plus t : V (TPlus t) → V t ∧ V (TStar t).
  Proof. intros Hv. split; [apply (V_kid _ _ t Hv eq_refl)|apply (V_kid _ _ (TStar t) Hv eq_refl)]; set_solver. Qed.
  Lemma V_opt t : V (TOpt t) → V t.
  Proof. intros Hv. apply (V_kid _ _ t Hv eq_refl). set_solver. Qed.
  Lemma V_tuple ts t : V (TTuple ts) → t ∈ ts → V t.
  Proof.
    intros Hv Ht. apply (V_kid _ (map prod_of ts) t Hv eq_refl).
    apply elem_of_list_In, in_map, elem_of_list_In. done.
  Qed.
  Lemma V_named n d t : V (TNamed n) → env !! n = Some d → t ∈ map fst (decl_fields d) → V t.
  Proof.
    intros Hv En Ht. apply (V_kid _ (field_prods (decl_fields d)) t Hv); [cbn; by rewrite En|].
    unfold field_prods. apply elem_of_list_In, in_map_iff in Ht as (f & <- & Hf).
    apply elem_of_list_In, (in_map (λ f, prod_of f.1)). done.
  Qed.
  Lemma V_split t d : V (TSplit t d) → V t ∧ V d ∧ V (TStar (TTuple [d; t])) ∧ V (TTuple [d; t]) ∧ V (TPlus (TTuple [d; t])).
  Proof.
    intros Hv.
    assert (V2 : V (TStar (TTuple [d; t]))) by (apply (V_kid _ _ (TStar (TTuple [d; t])) Hv eq_refl); set_solver).
    assert (V3 := V_star _ V2). destruct (V_plus _ V3) as [V4 _].
    split_and!; [|by eapply V_tuple; [exact V4|set_solver]|done..].
    apply (V_kid _ _ t Hv eq_refl). set_solver.
  Qed.
  Lemma V_punct t d : V (TPunct t d) → V t ∧ V d ∧ V (TOpt (TTuple [d; TOpt (TPunct t d)])) ∧
    V (TTuple [d; TOpt (TPunct t d)]) ∧ V (TOpt (TPunct t d)).
  Proof.
    intros Hv.
    assert (V2 : V (TOpt (TTuple [d; TOpt (TPunct t d)]))) by (apply (V_kid _ _ (TOpt (TTuple [d; TOpt (TPunct t d)])) Hv eq_refl); set_solver).
    assert (V3 := V_opt _ V2).
    split_and!; [|by eapply V_tuple; [exact V3|set_solver]|done..|by eapply V_tuple; [exact V3|set_solver]].
    apply (V_kid _ _ t Hv eq_refl). set_solver.
  Qed.
  Lemma V_sub t c : V t → c ∈ subs env t → V c.
  Proof.
    destruct t as [nm y lit|n|ts|t|t|t|t|t|t|t|t|t d|t d|t r]; cbn [subs]; intros Hv Hc.
    - by apply elem_of_nil in Hc.
    - destruct (env !! n) as [d|] eqn:En; [|by apply elem_of_nil in Hc]. by eapply V_named.
    - by eapply V_tuple.
    - by apply elem_of_list_singleton in Hc as ->.
    - apply elem_of_list_singleton in Hc as ->. by apply V_opt.
    - apply elem_of_list_singleton in Hc as ->. by apply V_opt.
    - by apply elem_of_list_singleton in Hc as ->.
    - by apply elem_of_list_singleton in Hc as ->.
    - apply elem_of_list_singleton in Hc as ->. by apply V_plus.
    - apply elem_of_list_singleton in Hc as ->. by apply V_plus, V_star.
    - apply elem_of_list_singleton in Hc as ->. by apply V_plus.
    - destruct (V_split _ _ Hv) as (?&?&_). set_solver.
    - destruct (V_punct _ _ Hv) as (?&?&_). set_solver.
    - apply (V_tuple [t; r]); done.
  Qed.
  Lemma V_within_from t c : V t → within env t c → V c.
  Proof. intros Hv H. revert Hv. induction H as [|a b c Hab Hbc IH]; [done|]. intros Hv. apply IH. by eapply V_sub. Qed.
  Lemma V_within c : within env root c → V c.
  Proof. apply V_within_from, V_root. Qed.

  (** * Entries of types *)
  Lemma ent_tok nm y lit : V (TTok nm y lit) → (key (TTok nm y lit), ETok y lit) ∈ regs.
  Proof. intros Hv. by apply md_regs. Qed.
  Lemma ent_struct n fs : V (TNamed n) → env !! n = Some (DStruct fs) → (key (TNamed n), ESeq (map key (map fst fs))) ∈ regs.
  Proof.
    intros Hv En. apply md_regs. split; [done|]. cbn. rewrite En. cbn. unfold field_prods. by rewrite !map_map.
  Qed.
  Lemma ent_enum n vs : V (TNamed n) → env !! n = Some (DEnum vs) → (key (TNamed n), EUnion (map key (map fst vs))) ∈ regs.
  Proof.
    intros Hv En. apply md_regs. split; [done|]. cbn. rewrite En. cbn. unfold field_prods. by rewrite !map_map.
  Qed.
  Lemma ent_tuple ts : V (TTuple ts) → (key (TTuple ts), ESeq (map key ts)) ∈ regs.
  Proof. intros Hv. apply md_regs. split; [done|]. cbn. by rewrite map_map. Qed.
  Lemma ent_opt t : V (TOpt t) → (key (TOpt t), EUnion [key t; PEps]) ∈ regs.
  Proof. intros Hv. by apply md_regs. Qed.
  Lemma ent_star t : V (TStar t) → (key (TStar t), EUnion [key (TPlus t); PEps]) ∈ regs.
  Proof. intros Hv. by apply md_regs. Qed.
  Lemma ent_plus t : V (TPlus t) → (key (TPlus t), ESeq (map key [t; TStar t])) ∈ regs.
  Proof. intros Hv. by apply md_regs. Qed.
  Lemma ent_split t d : V (TSplit t d) → (key (TSplit t d), ESeq (map key [t; TStar (TTuple [d; t])])) ∈ regs.
  Proof. intros Hv. by apply md_regs. Qed.
  Lemma ent_punct t d : V (TPunct t d) → (key (TPunct t d), ESeq (map key [t; TOpt (TTuple [d; TOpt (TPunct t d)])])) ∈ regs.
  Proof. intros Hv. by apply md_regs. Qed.
  Lemma ent_recover t r : V (TRecover t r) → (key (TRecover t r), ESeq (map key [t; r])) ∈ regs.
  Proof. intros Hv. by apply md_regs. Qed.
  Lemma ent_PEps t : V (TOpt t) → (PEps, EEps) ∈ regs.
  Proof.
    intros Hv. apply md_regs. split; [|done]. eapply rtc_r; [exact Hv|]. exists [prod_of t; PEps], PEps. set_solver.
  Qed.

  (** * Nullability and FIRST *)
  Lemma nul_map ts : Forall (nullable regs) (map key ts) ↔ Forall nul ts.
  Proof. by rewrite Forall_fmap. Qed.
  Lemma nul_tok nm y lit : V (TTok nm y lit) → ¬ nul (TTok nm y lit).
  Proof. intros Hv. by eapply ent_tok_null, ent_tok. Qed.
  Lemma fst_tok nm y lit x : V (TTok nm y lit) → fst_ (TTok nm y lit) x ↔ covers y lit x.
  Proof. intros Hv. by eapply ent_tok_starts, ent_tok. Qed.
  Lemma nul_struct n fs : V (TNamed n) → env !! n = Some (DStruct fs) → nul (TNamed n) ↔ Forall nul (map fst fs).
  Proof. intros Hv En. unfold nul. rewrite (ent_seq_null _ _ (ent_struct _ _ Hv En)). apply nul_map. Qed.
  Lemma fst_struct n fs x : V (TNamed n) → env !! n = Some (DStruct fs) → fst_ (TNamed n) x ↔ fsts (map fst fs) x.
  Proof. intros Hv En. apply (ent_seq_starts _ _ _ (ent_struct _ _ Hv En)). Qed.
  Lemma nul_enum n vs : V (TNamed n) → env !! n = Some (DEnum vs) → nul (TNamed n) ↔ ∃ t, t ∈ map fst vs ∧ nul t.
  Proof.
    intros Hv En. unfold nul. rewrite (ent_union_null _ _ (ent_enum _ _ Hv En)). split.
    - intros (y & Hy & H). apply elem_of_list_fmap in Hy as (t & -> & Ht). eauto.
    - intros (t & Ht & H). exists (key t). split; [by apply elem_of_list_fmap_1|done].
  Qed.
  Lemma fst_enum n vs x : V (TNamed n) → env !! n = Some (DEnum vs) → fst_ (TNamed n) x ↔ ∃ t, t ∈ map fst vs ∧ fst_ t x.
  Proof.
    intros Hv En. unfold fst_. rewrite (ent_union_starts _ _ _ (ent_enum _ _ Hv En)). split.
    - intros (y & Hy & H). apply elem_of_list_fmap in Hy as (t & -> & Ht). eauto.
    - intros (t & Ht & H). exists (key t). split; [by apply elem_of_list_fmap_1|done].
  Qed.
  Lemma nul_tuple ts : V (TTuple ts) → nul (TTuple ts) ↔ Forall nul ts.
  Proof. intros Hv. unfold nul at 1. rewrite (ent_seq_null _ _ (ent_tuple _ Hv)). apply nul_map. Qed.
  Lemma fst_tuple ts x : V (TTuple ts) → fst_ (TTuple ts) x ↔ fsts ts x.
  Proof. intros Hv. apply (ent_seq_starts _ _ _ (ent_tuple _ Hv)). Qed.
  Lemma nul_opt t : V (TOpt t) → nul (TOpt t).
  Proof.
    intros Hv. apply (ent_union_null _ _ (ent_opt _ Hv)). exists PEps. split; [set_solver|].
    by eapply ent_eps_null, ent_PEps.
  Qed.
  Lemma fst_opt t x : V (TOpt t) → fst_ (TOpt t) x ↔ fst_ t x.
  Proof.
    intros Hv. unfold fst_. rewrite (ent_union_starts _ _ _ (ent_opt _ Hv)). split.
    - intros (y & Hy & H). apply elem_of_cons in Hy as [->|Hy%elem_of_list_singleton]; [done|]. subst y.
      by apply ent_eps_starts in H; [|by eapply ent_PEps].
    - intros H. exists (key t). split; [set_solver|done].
  Qed.
  Lemma nul_star t : V (TStar t) → nul (TStar t).
  Proof.
    intros Hv. apply (ent_union_null _ _ (ent_star _ Hv)). exists PEps. split; [set_solver|].
    eapply ent_eps_null, (ent_PEps (TPlus t)). done.
  Qed.
  Lemma fst_star_plus t x : V (TStar t) → fst_ (TStar t) x ↔ fst_ (TPlus t) x.
  Proof. intros Hv. apply (fst_opt (TPlus t)). done. Qed.
  Lemma nul_plus t : V (TPlus t) → nul (TPlus t) ↔ nul t.
  Proof.
    intros Hv. unfold nul. rewrite (ent_seq_null _ _ (ent_plus _ Hv)). destruct (V_plus _ Hv) as [_ V2].
    rewrite nul_map, !Forall_cons, Forall_nil. split; [by intros [? _]|]. intros H. split_and!; [done| |done].
    by apply nul_star.
  Qed.
  Lemma fst_plus t x : V (TPlus t) → fst_ (TPlus t) x ↔ fst_ t x.
  Proof.
    intros Hv. destruct (V_plus _ Hv) as [V1 V2].
    split; [|intros H; apply (ent_seq_starts _ _ _ (ent_plus _ Hv)); by left].
    unfold fst_. assert (Hp := ent_plus _ Hv). assert (Hs := ent_star _ V2). revert Hp Hs. clear Hv V1 V2.
    (* least fixed point: nothing new can come from the repetition *)
    intros Hp Hs. assert (He : ∀ x, ¬ starts regs PEps x).
    { intros y. intros [(?&?&H'&_)|[(?&?&?&?&H'&_)|(?&?&H'&_)]]%starts_unfold; by apply md_regs in H' as [_ [=]]. }
    cut (∀ k x, starts regs k x → k = key (TPlus t) ∨ k = key (TStar t) → starts regs (key t) x).
    { intros H Hst. apply (H _ _ Hst). by left. }
    apply (starts_ind_decl regs (λ k x, k = key (TPlus t) ∨ k = key (TStar t) → starts regs (key t) x)).
    - intros k y lit z Hin _ [->| ->]; [specialize (ent_one _ _ _ Hp Hin)|specialize (ent_one _ _ _ Hs Hin)]; done.
    - intros k l1 y l2 z Hin Hl Hst IH [->| ->]; [|by specialize (ent_one _ _ _ Hs Hin)].
      specialize (ent_one _ _ _ Hp Hin) as E. injection E as E. cbn [map] in E.
      destruct l1 as [|a [|b l1]]; simplify_list_eq; [done|apply IH; by right|by destruct l1].
    - intros k l y z Hin Hy Hst IH [->| ->]; [by specialize (ent_one _ _ _ Hp Hin)|].
      specialize (ent_one _ _ _ Hs Hin) as E. injection E as <-.
      apply elem_of_cons in Hy as [->|Hy%elem_of_list_singleton]; [apply IH; by left|]. subst y. by destruct (He z).
  Qed.
  Lemma fst_star t x : V (TStar t) → fst_ (TStar t) x ↔ fst_ t x.
  Proof. intros Hv. rewrite fst_star_plus by done. apply fst_plus. by apply V_star. Qed.
  Lemma nul_split t d : V (TSplit t d) → nul (TSplit t d) ↔ nul t.
  Proof.
    intros Hv. unfold nul at 1. rewrite (ent_seq_null _ _ (ent_split _ _ Hv)). destruct (V_split _ _ Hv) as (_&_&V2&_).
    rewrite nul_map, !Forall_cons, Forall_nil. split; [by intros [? _]|]. intros H. split_and!; [done| |done].
    by apply nul_star.
  Qed.
  Lemma fst_split t d x : V (TSplit t d) → fst_ (TSplit t d) x ↔ fst_ t x ∨ (nul t ∧ fst_ d x).
  Proof.
    intros Hv. unfold fst_ at 1. rewrite (ent_seq_starts _ _ _ (ent_split _ _ Hv)).
    destruct (V_split _ _ Hv) as (_&_&V2&V3&_). cbn [map starts_l].
    change (starts regs (key (TStar (TTuple [d; t]))) x) with (fst_ (TStar (TTuple [d; t])) x).
    rewrite (fst_star _ _ V2), (fst_tuple _ _ V3). unfold fsts. cbn [map starts_l]. unfold fst_, nul. tauto.
  Qed.
  Lemma nul_punct t d : V (TPunct t d) → nul (TPunct t d) ↔ nul t.
  Proof.
    intros Hv. unfold nul at 1. rewrite (ent_seq_null _ _ (ent_punct _ _ Hv)). destruct (V_punct _ _ Hv) as (_&_&V2&_).
    rewrite nul_map, !Forall_cons, Forall_nil. split; [by intros [? _]|]. intros H. split_and!; [done| |done].
    by apply nul_opt.
  Qed.
  Lemma nul_recover t r : V (TRecover t r) → nul (TRecover t r) ↔ nul t ∧ nul r.
  Proof.
    intros Hv. unfold nul at 1. rewrite (ent_seq_null _ _ (ent_recover _ _ Hv)).
    rewrite nul_map, !Forall_cons, Forall_nil. tauto.
  Qed.
  Lemma fst_recover t r x : V (TRecover t r) → fst_ (TRecover t r) x ↔ fst_ t x ∨ (nul t ∧ fst_ r x).
  Proof.
    intros Hv. unfold fst_ at 1. rewrite (ent_seq_starts _ _ _ (ent_recover _ _ Hv)).
    cbn [map starts_l]. unfold fst_, nul. tauto.
  Qed.

  (** * No conflicts *)
  Lemma no_clash k l i j a b : (k, EUnion l) ∈ regs → l !! i = Some a → l !! j = Some b → i ≠ j → ¬ clash regs a b.
  Proof.
    intros Hin Ha Hb Hij Hc.
    destruct (meta_build_accepts regs iter (key root) md md_functional Hperm Hmeta) as [_ Hacc].
    assert (reachable regs (key root) k) as Hr.
    { apply (register_reachable env (prod_of root) regs k _ Hreg Hin). }
    destruct (Hacc k _ Hr Hin) as [Hn _]. apply Hn.
    destruct (decide (i < j)).
    - exists i, j, a, b. auto.
    - exists j, i, b, a. split_and!; [lia|done..|]. destruct Hc as [(t&?&?)|[? ?]]; [left|right]; eauto.
  Qed.
  Lemma no_seq_clash k l1 y l2 z l3 x : (k, ESeq (l1 ++ y :: l2 ++ z :: l3)) ∈ regs → nullable regs y →
    Forall (nullable regs) l2 → starts regs y x → starts regs z x → False.
  Proof.
    intros Hin H1 H2 H3 H4.
    destruct (meta_build_accepts regs iter (key root) md md_functional Hperm Hmeta) as [_ Hacc].
    assert (reachable regs (key root) k) as Hr.
    { apply (register_reachable env (prod_of root) regs k _ Hreg Hin). }
    destruct (Hacc k _ Hr Hin) as [Hn _]. apply Hn. exists l1, y, l2, z, l3, x. auto 10.
  Qed.
  Lemma no_follow_clash k ent x : (k, ent) ∈ regs →
    match ent with ESeq (_ :: _) | EUnion _ => True | _ => False end →
    nullable regs k → starts regs k x → ¬ near_follow regs (key root) k (Some x).
  Proof.
    intros Hin He Hn Hs.
    destruct (meta_build_accepts regs iter (key root) md md_functional Hperm Hmeta) as [_ Hacc].
    assert (reachable regs (key root) k) as Hr.
    { apply (register_reachable env (prod_of root) regs k _ Hreg Hin). }
    destruct (Hacc k _ Hr Hin) as [_ H]. by apply H.
  Qed.

  Lemma opt_not_null t : V (TOpt t) → ¬ nul t.
  Proof.
    intros Hv Hn. apply (no_clash _ _ 0 1 _ _ (ent_opt _ Hv) eq_refl eq_refl); [done|].
    right. split; [done|]. by eapply ent_eps_null, ent_PEps.
  Qed.
  Lemma plus_not_null t : V (TPlus t) → ¬ nul t.
  Proof. intros Hv. destruct (V_plus _ Hv) as [_ V2]. rewrite <- nul_plus by done. by apply (opt_not_null (TPlus t)). Qed.
  Lemma star_not_null t : V (TStar t) → ¬ nul t.
  Proof. intros Hv. by apply plus_not_null, V_star. Qed.
  Lemma split_not_null t d : V (TSplit t d) → ¬ (nul t ∧ nul d).
  Proof.
    intros Hv [H1 H2]. destruct (V_split _ _ Hv) as (_&_&_&V3&V4). apply (plus_not_null _ V4).
    apply nul_tuple; [done|]. by repeat constructor.
  Qed.
  Lemma punct_not_null t d : V (TPunct t d) → ¬ nul t ∧ ¬ nul d.
  Proof.
    intros Hv. destruct (V_punct _ _ Hv) as (_&_&V2&V3&V4). split; intros Hn.
    - apply (opt_not_null _ V4). by apply nul_punct.
    - apply (opt_not_null _ V2). apply nul_tuple; [done|]. constructor; [done|]. apply Forall_singleton. by apply nul_opt.
  Qed.
  Lemma fst_punct t d x : V (TPunct t d) → fst_ (TPunct t d) x ↔ fst_ t x.
  Proof.
    intros Hv. unfold fst_ at 1. rewrite (ent_seq_starts _ _ _ (ent_punct _ _ Hv)).
    destruct (punct_not_null _ _ Hv) as [Hn _]. cbn [map starts_l]. unfold nul in Hn. unfold fst_. tauto.
  Qed.

  (** * The jump table *)
  Lemma jump_spec n vs x i : V (TNamed n) → env !! n = Some (DEnum vs) →
    J (PNamed n) x = Some i ↔ ∃ t sem, vs !! i = Some (t, sem) ∧ match x with Some x => fst_ t x | None => nul t end.
  Proof.
    intros Hv En. assert (Hin := ent_enum _ _ Hv En). cbn [key prod_of pid] in Hin.
    rewrite (jump_exact regs iter (key root) md _ _ md_functional Hperm Hmeta
      (register_reachable env (prod_of root) regs _ _ Hreg Hin) Hin x i).
    split.
    - intros (y & Hy & H). rewrite map_map in Hy. apply list_lookup_fmap_Some in Hy as ([t sem] & Hi & ->).
      exists t, sem. by destruct x.
    - intros (t & sem & Hy & H). exists (key t). split; [|by destruct x].
      rewrite map_map. apply list_lookup_fmap_Some. by exists (t, sem).
  Qed.
  Lemma md_jumps_ok : jumps_ok env F J.
  Proof.
    intros n vs x En Hx. change (PNamed n) with (key (TNamed n)) in Hx. apply first_spec in Hx.
    assert (Hv : V (TNamed n)).
    { unfold fst_ in Hx. apply starts_unfold in Hx as [(?&?&Hx&_)|[(?&?&?&?&Hx&_)|(?&?&Hx&_)]]; by apply md_regs in Hx as [? _]. }
    apply (fst_enum _ _ _ Hv En) in Hx as (t & Ht & Hx).
    apply elem_of_list_fmap in Ht as ([t' sem] & -> & Ht). apply elem_of_list_lookup in Ht as [i Hi].
    exists i, (t', sem). split; [|exact Hi]. apply (jump_spec _ _ _ _ Hv En). eauto.
  Qed.

  (** * Language *)
  Lemma md_lang t w : V t → lang env t w ↔ derives regs [N (key t)] (map T w).
  Proof. apply (lang_derives env regs (key root) md_functional md_regs). Qed.
  Lemma nul_lang t : V t → nul t ↔ lang env t [].
  Proof. intros Hv. by rewrite (md_lang t [] Hv). Qed.
  Lemma lang_fst t x w : V t → lang env t (x :: w) → fst_ t x.
  Proof. intros Hv H. apply (md_lang t _ Hv) in H. by exists (map T w). Qed.
End md.
