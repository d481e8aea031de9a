(** Sentences of accepted types are parsed without errors into their parse trees. *)
From Coq Require Import String NArith.
From stdpp Require Import prelude list strings relations.
From Verif Require Import LexModel LexSpec LexFacts SynSetModel SynSetFacts TableModel StreamModel StreamSpec StreamFacts TypeModel TypeSpec TypeFacts CfgSpec CfgFacts FollowFacts MetaFacts ProduceModel ParseSpec ProgFacts FuelFacts TreeFacts SoundFacts LangFacts RunFacts InvFacts LookFacts MdFacts ParseFacts TermFacts ProgressFacts CompleteSpec.
Local Open Scope nat_scope.
#[local] Arguments ts_contains : simpl never.
#[local] Arguments ts_contains_e : simpl never.
#[local] Arguments tb_get : simpl never.

Lemma term_plus {A} (m : nat → M A) k s Q : term m s Q → term (λ f, m (k + f)) s Q.
Proof. intros (f0 & o & H & Ho). exists f0, o. split; [|done]. intros f Hf. apply H. lia. Qed.
Definition nxt (src : string) (u : list token) : option tok := head (word src u).
Lemma look_nxt s : look s = nxt (a_src s) (a_rest s).
Proof. unfold look, nxt, word. by destruct (a_rest s). Qed.
Lemma adv_end s l s' u : adv s l s' → a_rest s = l ++ u → a_rest s' = u.
Proof. intros [_ _ H] E. rewrite E in H. by apply app_inv_head in H. Qed.

Lemma Forall_alt {A} (P : A → Prop) n a b : P a → P b → Forall P (concat (replicate n [a; b])).
Proof. intros Ha Hb. induction n as [|n IH]; cbn; [constructor|]. by do 2 (apply Forall_cons; split; [done|]). Qed.
Lemma cur_lt s l s' : aok s → adv s l s' → l ≠ [] → sp_lo (a_span s) < sp_lo (a_span s').
Proof.
  intros Hok Ha Hl. destruct l as [|t l]; [done|]. destruct (aok_pos _ (adv_aok _ _ _ Ha Hok)) as [H1 H2].
  rewrite (adv_pos _ _ _ Ha) in H1, H2. assert (Hsp := adv_spans _ _ _ Hok Ha). cbn in Hsp. destruct Hsp as (H3 & H4 & H5).
  change (t :: l) with ([t] ++ l) in H1, H2. rewrite end_pos_app in H1, H2. change (end_pos (pos s) [t]) with (sp_hi (t_span t)) in H1, H2.
  apply end_pos_ge in H5. unfold a_span. rewrite (adv_rest _ _ _ Ha). cbn [app].
  destruct (a_rest s') as [|t' r]; cbn in H1 |- *; lia.
Qed.

Lemma no_loop_below_inv env r : no_loop_below env r → (∃ t, r = TLoop t ∧ no_loop env t) ∨ no_loop env r.
Proof. destruct r; cbn; intros H; by eauto. Qed.

Set Default Proof Using "All".
(** * The followers in the grammar *)
Section follows.
  Variable env : denv.
  Variable root : ty.
  Variable regs : grammar prod.
  Hypothesis Hreg : register_root env (prod_of root) = Some regs.
  Lemma follows_in k e : (k, e) ∈ regs → reachable regs (key root) k.
  Proof. intros H. by apply (register_reachable env (prod_of root) regs k e Hreg). Qed.
  Lemma follows_seq k l1 a l2 x : (k, ESeq (l1 ++ a :: l2)) ∈ regs → starts_l regs l2 x → follows regs (key root) a (Some x).
  Proof.
    intros Hin Hs. apply starts_l_alt in Hs as (m1 & b & m2 & -> & Hm & [δ Hb]).
    destruct (follows_in _ _ Hin) as (α & β & H).
    assert (H' := derives_step_in regs (key root) α k _ β (rhs_seq regs k _ Hin) H).
    exists (α ++ map N l1), (δ ++ map N m2 ++ β). etrans; [exact H'|].
    rewrite !map_app. cbn [map]. rewrite map_app. cbn [map]. rewrite <-!app_assoc. cbn [app].
    do 2 apply derives_app_l. apply (derives_app_l regs _ _ [N a]).
    assert (derives regs (map N m1) []) as Hn' by by apply nulf_derives, nulf_map.
    etrans; [rewrite <- app_assoc; apply (derives_app_r regs (map N m1) [] _ Hn')|]. cbn [app].
    apply (derives_app_r regs [N b] (T x :: δ) (map N m2 ++ β) Hb).
  Qed.
  Lemma follows_last k l1 a l2 x : (k, ESeq (l1 ++ a :: l2)) ∈ regs → Forall (nullable regs) l2 →
    follows regs (key root) k (Some x) → follows regs (key root) a (Some x).
  Proof.
    intros Hin Hn (α & β & H). assert (derives regs (map N l2) []) as Hn' by by apply nulf_derives, nulf_map.
    exists (α ++ map N l1), β.
    pose proof (derives_step_in regs (key root) α k _ (T x :: β) (rhs_seq regs k _ Hin) H) as H'.
    etrans; [exact H'|]. rewrite map_app. cbn. rewrite <-!app_assoc. cbn.
    do 2 apply derives_app_l. apply (derives_app_l regs _ _ [N a]).
    apply (derives_app_r regs (map N l2) [] (T x :: β) Hn').
  Qed.
  Lemma follows_union k l y x : (k, EUnion l) ∈ regs → y ∈ l → follows regs (key root) k (Some x) → follows regs (key root) y (Some x).
  Proof.
    intros Hin Hy (α & β & H). exists α, β. apply (derives_step_in regs (key root) α k [N y]); [by econstructor|done].
  Qed.
End follows.

Section md.
  Variable env : denv.
  Variable root : ty.
  Variable regs iter : grammar prod.
  Variable md : metadata prod.
  Hypothesis Hreg : register_root env (prod_of root) = Some regs.
  Hypothesis Hperm : iter ≡ₚ regs.
  Hypothesis Hmeta : meta_build regs iter (key root) = Some (inr md).

  Notation F := (tb_get (md_first md)).
  Notation L := (tb_get (md_follow md)).
  Notation J := (jump_look_up (md_jump md)).
  Notation V t := (visible env (key root) (key t)).
  Notation nul := (MdFacts.nul regs).
  Notation fst_ := (MdFacts.fst_ regs).
  Notation fsts := (MdFacts.fsts regs).
  Notation nf := (MdFacts.nf root regs).
  Notation "'MD' l" := (l env root regs iter md Hreg Hperm Hmeta) (at level 9, l at level 0, only parsing).
  Notation rec f := (produce_md env md f).
  Notation prd t := (λ f, produce_md env md f t).
  Notation W0 t := (within env root t).
  (** What may come next: the followers in the grammar, or more. *)
  Variable FL : prod → tok → Prop.
  Definition foll (t : ty) (x : tok) : Prop := FL (key t) x.

  Hypothesis Henums : plain_enums env root.
  Hypothesis foll_seq : ∀ k l1 a l2 x, (k, ESeq (l1 ++ a :: l2)) ∈ regs → starts_l regs l2 x → FL a x.
  Hypothesis foll_last : ∀ k l1 a l2 x, (k, ESeq (l1 ++ a :: l2)) ∈ regs → Forall (nullable regs) l2 → FL k x → FL a x.
  Hypothesis foll_union : ∀ k l y x, (k, EUnion l) ∈ regs → y ∈ l → FL k x → FL y x.
  Hypothesis FL_ll1 : ∀ k x, nullable regs k → starts regs k x → FL k x → False.
  Hypothesis Hfill : filled env root.
  Hypothesis Hdel : solid_delims env root.
  Hypothesis Hpf : ∀ t d x, W0 (TPunct t d) → foll (TPunct t d) x → nf (TPunct t d) (Some x).

  Lemma no_foll t x : nul t → fst_ t x → foll t x → False.
  Proof. exact (FL_ll1 (key t) x). Qed.
  (** The types below [root] that contain no Loop. *)
  Definition W (t : ty) : Prop := W0 t ∧ no_loop env t.
  Lemma W_V t : W t → V t.
  Proof. intros [H _]. exact (ProgressFacts.W_V env root regs iter md Hreg Hperm Hmeta Henums _ H). Qed.
  Lemma W_sub t c : W t → c ∈ subs env t → W c.
  Proof.
    intros [H1 H2] Hc. split; [exact (ProgressFacts.W_sub env root regs iter md Hreg Hperm Hmeta Henums _ _ H1 Hc)|].
    intros c' Hc'. apply H2. eapply rtc_transitive; [by apply rtc_once|exact Hc'].
  Qed.
  Lemma W_all t : W t → Forall (λ c, W c) (subs env t).
  Proof. intros H. apply Forall_forall. intros c. by apply W_sub. Qed.
  Lemma W_struct n d : W (TNamed n) → env !! n = Some d → Forall (λ c, W c) (map fst (decl_fields d)).
  Proof. intros H En. assert (HW := W_all _ H). cbn [subs] in HW. by rewrite En in HW. Qed.

  Variable src : string.
  Notation parses := (parses env src).
  Notation pseq := (pseq env src).

  Definition ok_run (p : nat) (t : ty) (l : list token) (x : tree) : Prop :=
    ∀ s u, aok s → p = pos s → a_src s = src → a_rest s = l ++ u → (∀ y, nxt src u = Some y → foll t y) →
      term (prd t) s (λ r s', r = RSucc x ∧ adv s l s').
  Inductive pruns : nat → list ty → list token → list tree → Prop :=
  | pr_nil p : pruns p [] [] []
  | pr_cons p t ts l1 l2 x xs : parses p t l1 x → W t → ok_run p t l1 x → pruns (end_pos p l1) ts l2 xs →
      pruns p (t :: ts) (l1 ++ l2) (x :: xs).

  Lemma W_loop t : W t → no_loop env t.
  Proof. by intros []. Qed.
  Lemma parses_nul p t x : parses p t [] x → W t → nul t.
  Proof.
    intros H Hw. apply (MD nul_lang); [by apply W_V|]. apply (parses_lang _ _ _ _ _ _ H). by apply W_loop.
  Qed.
  Lemma parses_fst p t a l x y u : parses p t (a :: l) x → W t → nxt src (a :: u) = Some y → fst_ t y.
  Proof.
    intros H Hw E. apply parses_lang in H; [|by apply W_loop]. cbn in H, E. injection E as <-.
    eapply (MD lang_fst); [by apply W_V|exact H].
  Qed.
  Lemma parses_head p t l x u y : parses p t l x → W t → nxt src (l ++ u) = Some y → fst_ t y ∨ (nul t ∧ nxt src u = Some y).
  Proof.
    intros H Hw E. destruct l as [|a l]; [right|left].
    - split; [by eapply parses_nul|done].
    - by eapply (parses_fst p t a l x y (l ++ u)).
  Qed.
  (** A non nullable part begins with a token in FIRST. *)
  Lemma parses_some p t l x u : parses p t l x → W t → ¬ nul t → ∃ y, nxt src (l ++ u) = Some y ∧ fst_ t y.
  Proof.
    intros H Hw Hn. destruct l as [|a l]; [destruct Hn; by eapply parses_nul|].
    eexists. split; [reflexivity|]. by eapply (parses_fst p t a l x _ (l ++ u)).
  Qed.
  Lemma pruns_head p ts l xs u y : pruns p ts l xs → nxt src (l ++ u) = Some y →
    fsts ts y ∨ (Forall (nullable regs) (map key ts) ∧ nxt src u = Some y).
  Proof.
    induction 1 as [|p t ts l1 l2 x xs Hp Hw Hr Hs IH]; intros E; [right; split; [constructor|exact E]|].
    rewrite <- app_assoc in E. destruct (parses_head _ _ _ _ _ _ Hp Hw E) as [H|[Hn H]]; [left; left; exact H|].
    destruct (IH H) as [H'|[H' Hu]]; [left; right; by split|right]. split; [|done]. by constructor.
  Qed.

  (** The state after a part. *)
  Lemma after s l s' u : aok s → a_src s = src → a_rest s = l ++ u → adv s l s' →
    aok s' ∧ a_src s' = src ∧ a_rest s' = u ∧ pos s' = end_pos (pos s) l.
  Proof.
    intros Hok Hsrc E Ha. split_and!; [by eapply adv_aok|by rewrite (adv_src _ _ _ Ha)|by eapply adv_end|by apply adv_pos].
  Qed.

  Lemma pruns_seq p ts l xs : pruns p ts l xs → ∀ acc s u, aok s → p = pos s → a_src s = src → a_rest s = l ++ u →
    (∀ l1 t l2 y, ts = l1 ++ t :: l2 → fsts l2 y ∨ (Forall (nullable regs) (map key l2) ∧ nxt src u = Some y) → foll t y) →
    term (λ f, produce_seq (rec f) ts acc []) s (λ r s', r = RSucc (acc ++ xs) ∧ adv s l s').
  Proof.
    induction 1 as [|p t ts l1 l2 x xs Hp Hw Hr Hs IH]; intros acc s u Hok Epos Esrc Er Hf; cbn [produce_seq].
    - apply term_ret. rewrite app_nil_r. split; [done|apply adv_refl].
    - rewrite <- app_assoc in Er. apply (term_bind (prd t)). eapply term_weaken; [apply (Hr s (l2 ++ u)); [done..|]|].
      + intros y Hy. apply (Hf [] t ts y eq_refl). by eapply pruns_head.
      + intros r s1 [-> Ha]. cbn [unres]. destruct (after _ _ _ _ Hok Esrc Er Ha) as (Hok1 & Hsrc1 & Er1 & Hp1).
        cbn [app]. eapply term_weaken; [apply (IH (acc ++ [x]) s1 u); [done| |done|done|]|].
        * by rewrite Hp1, Epos.
        * intros m1 c m2 y -> Hy. apply (Hf (t :: m1) c m2 y eq_refl Hy).
        * intros r s2 [-> Ha2]. split; [by rewrite <- app_assoc|]. by eapply adv_trans.
  Qed.

  Lemma pruns_replicate_head p n t l xs u y : pruns p (replicate n t) l xs → ¬ nul t → nxt src (l ++ u) = Some y →
    fst_ t y ∨ (n = 0 ∧ nxt src u = Some y).
  Proof.
    intros H Hn E. destruct (pruns_head _ _ _ _ _ _ H E) as [Hf|[Hf Hu]].
    - left. destruct n as [|n]; [done|]. cbn in Hf. destruct Hf as [Hf|[Hf _]]; [done|by destruct Hn].
    - destruct n as [|n]; [by right|]. cbn in Hf. apply Forall_cons in Hf as [Hf _]. by destruct Hn.
  Qed.
  Lemma plus_item_foll p n t l xs u y : V (TPlus t) → pruns p (replicate n t) l xs →
    (∀ y, nxt src u = Some y → foll (TPlus t) y) → nxt src (l ++ u) = Some y → foll t y.
  Proof.
    intros Hv H Hu E. destruct (MD V_plus _ Hv) as [_ Hv2].
    destruct (pruns_replicate_head _ _ _ _ _ _ _ H (MD plus_not_null _ Hv) E) as [Hf|[_ Hy]].
    - apply (foll_seq _ [] (key t) [key (TStar t)] y (MD ent_plus _ Hv)). left. by apply (MD fst_star).
    - apply (foll_last _ [] (key t) [key (TStar t)] y (MD ent_plus _ Hv)); [|by apply Hu].
      apply Forall_cons. split; [by apply (MD nul_star)|constructor].
  Qed.
  Lemma plus_end t y : V (TPlus t) → foll (TPlus t) y → ts_contains (F (key (TPlus t))) (Some y) = false.
  Proof.
    intros Hv Hf. apply not_true_iff_false. intros Hc%(MD first_spec). destruct (MD V_plus _ Hv) as [_ Hv2].
    apply (no_foll (TStar t) y); [by apply (MD nul_star)|by apply (MD fst_star_plus)|].
    apply (foll_last _ [key t] (key (TStar t)) [] y (MD ent_plus _ Hv)); [constructor|done].
  Qed.
  Lemma pruns_iter p ts l xs t n : pruns p ts l xs → ts = replicate n t → V (TPlus t) → ∀ k acc hi s u,
    aok s → p = pos s → a_src s = src → a_rest s = l ++ u → (∀ y, nxt src u = Some y → foll (TPlus t) y) →
    term (λ f, iter_loop f (rec (k + f) t) (F (key (TPlus t))) acc [] hi) s
      (λ r s', r = (acc ++ xs, [], match last xs with Some z => tree_hi z | None => hi end) ∧ adv s l s').
  Proof.
    intros H. revert n. induction H as [|p c ts l1 l2 x xs Hp Hw Hr Hs IH]; intros n En Hv k acc hi s u Hok Epos Esrc Er Hu.
    - apply term_S. cbn [iter_loop]. apply term_bind_wp, wp_peek_src; [done|]. rewrite look_nxt, Esrc, Er. cbn [app].
      destruct (nxt src u) as [y|] eqn:Ey.
      + rewrite plus_end by auto. apply term_ret. rewrite app_nil_r. split; [done|apply adv_refl].
      + apply term_ret. rewrite app_nil_r. split; [done|apply adv_refl].
    - destruct n as [|n]; [done|]. cbn in En. injection En as -> ->. rewrite <- app_assoc in Er.
      apply term_S. cbn [iter_loop]. apply term_bind_wp, wp_peek_src; [done|]. rewrite look_nxt, Esrc, Er.
      destruct (parses_some _ _ _ _ (l2 ++ u) Hp Hw (MD plus_not_null _ Hv)) as (y & Ey & Hy). rewrite Ey.
      rewrite (proj2 (MD first_spec (TPlus t) y)) by (by apply (MD fst_plus)).
      apply (term_bind (λ f, rec (k + S f) t)). apply (term_ext (λ f, rec (S k + f) t)); [intros f; by rewrite <- plus_n_Sm|].
      apply (term_plus (prd t)). eapply term_weaken; [apply (Hr s (l2 ++ u)); [done..|]|].
      + intros z Hz. by eapply plus_item_foll.
      + intros r s1 [-> Ha]. cbn [unres]. destruct (after _ _ _ _ Hok Esrc Er Ha) as (Hok1 & Hsrc1 & Er1 & Hp1).
        apply (term_ext (λ f, iter_loop f (rec (S k + f) t) (F (key (TPlus t))) (acc ++ [x]) [] (tree_hi x))).
        { intros f. by rewrite <- plus_n_Sm. }
        eapply term_weaken; [apply (IH n eq_refl Hv (S k) (acc ++ [x]) (tree_hi x) s1 u); [done| |done..]|].
        * by rewrite Hp1, Epos.
        * intros r s2 [-> Ha2]. split; [|by eapply adv_trans]. rewrite <- app_assoc, last_cons. cbn. by destruct (last xs).
  Qed.
  Lemma pruns_plus p l xs t n : pruns p (replicate (S n) t) l xs → V (TPlus t) → ∀ s u,
    aok s → p = pos s → a_src s = src → a_rest s = l ++ u → (∀ y, nxt src u = Some y → foll (TPlus t) y) →
    term (λ f, produce_plus f (rec f t) (F (key (TPlus t)))) s (λ r s', r = RSucc (tree_span (TrSeq xs), xs) ∧ adv s l s').
  Proof.
    intros H Hv s u Hok Epos Esrc Er Hu. cbn [replicate] in H. inversion H as [|? c ts l1 l2 x xs' Hp Hw Hr Hs]; subst.
    rewrite <- app_assoc in Er. unfold produce_plus. apply (term_bind (prd t)).
    eapply term_weaken; [apply (Hr s (l2 ++ u)); [done..|]|].
    { intros z Hz. by eapply plus_item_foll. }
    intros r s1 [-> Ha]. cbn [unres]. destruct (after _ _ _ _ Hok Esrc Er Ha) as (Hok1 & Hsrc1 & Er1 & Hp1).
    apply (term_bind (λ f, iter_loop f (rec f t) (F (key (TPlus t))) [x] [] (tree_hi x)) (λ _ '(l, errs, hi), mret (res_into (Span (tree_lo x) hi, l) errs))).
    eapply term_weaken; [apply (pruns_iter _ _ _ _ t n Hs eq_refl Hv 0 [x] (tree_hi x) s1 u); done|].
    intros r s2 [-> Ha2]. apply term_ret. split; [|by eapply adv_trans]. cbn [res_into app].
    unfold tree_span. rewrite tree_hi_seq, last_cons. cbn [tree_lo]. by destruct (last xs').
  Qed.

  (** * Split *)
  Lemma split_star_foll t d y : V (TSplit t d) → foll (TSplit t d) y → foll (TStar (TTuple [d; t])) y.
  Proof. intros Hv Hf. apply (foll_last _ [key t] _ [] y (MD ent_split _ _ Hv)); [constructor|done]. Qed.
  Lemma split_fst_star t d y : V (TSplit t d) → fst_ d y → fst_ (TStar (TTuple [d; t])) y.
  Proof.
    intros Hv Hf. destruct (MD V_split _ _ Hv) as (_&_&V2&V3&_). apply (MD fst_star); [done|]. apply (MD fst_tuple); [done|]. by left.
  Qed.
  Lemma split_end t d y : V (TSplit t d) → foll (TSplit t d) y → ts_contains (F (key d)) (Some y) = false.
  Proof.
    intros Hv Hf. apply not_true_iff_false. intros Hc%(MD first_spec). destruct (MD V_split _ _ Hv) as (_&_&V2&V3&_).
    apply (no_foll (TStar (TTuple [d; t])) y); [by apply (MD nul_star)|by apply split_fst_star|by apply split_star_foll].
  Qed.
  (** What may come after an element: a delimiter, or what follows the list. *)
  Lemma split_next p n t d l zs u y : V (TSplit t d) → ¬ nul d → pruns p (concat (replicate n [d; t])) l zs →
    nxt src (l ++ u) = Some y → (∀ y, nxt src u = Some y → foll (TSplit t d) y) → fst_ d y ∨ foll (TSplit t d) y.
  Proof.
    intros Hv Hn H E Hu. destruct (pruns_head _ _ _ _ _ _ H E) as [Hf|[_ Hy]]; [|right; by apply Hu].
    destruct n as [|n]; [done|]. rewrite concat_replicate_S in Hf. cbn in Hf. destruct Hf as [Hf|[Hf _]]; [by left|by destruct Hn].
  Qed.
  Lemma split_elem_foll t d y : V (TSplit t d) → fst_ d y ∨ foll (TSplit t d) y → foll t y.
  Proof.
    intros Hv [Hf|Hf].
    - apply (foll_seq _ [] (key t) [_] y (MD ent_split _ _ Hv)). left. by apply split_fst_star.
    - destruct (MD V_split _ _ Hv) as (_&_&V2&V3&_).
      apply (foll_last _ [] (key t) [_] y (MD ent_split _ _ Hv)); [|done]. apply Forall_cons. split; [by apply (MD nul_star)|constructor].
  Qed.
  Lemma split_tuple_foll t d y : V (TSplit t d) → fst_ d y ∨ foll (TSplit t d) y → foll (TTuple [d; t]) y.
  Proof.
    intros Hv H. destruct (MD V_split _ _ Hv) as (_&_&V2&V3&V4). destruct H as [Hf|Hf].
    - apply (foll_seq _ [] _ [_] y (MD ent_plus _ V4)). left. by apply split_fst_star.
    - apply (foll_last _ [] _ [_] y (MD ent_plus _ V4)).
      + apply Forall_cons. split; [by apply (MD nul_star)|constructor].
      + apply (foll_union _ _ _ y (MD ent_star _ V2)); [set_solver|]. by apply split_star_foll.
  Qed.
  Lemma split_delim_foll t d y : V (TSplit t d) → fst_ t y ∨ (nul t ∧ (fst_ d y ∨ foll (TSplit t d) y)) → foll d y.
  Proof.
    intros Hv H. destruct (MD V_split _ _ Hv) as (_&_&V2&V3&V4). destruct H as [Hf|[Hn Hf]].
    - apply (foll_seq _ [] (key d) [key t] y (MD ent_tuple _ V3)). by left.
    - apply (foll_last _ [] (key d) [key t] y (MD ent_tuple _ V3)); [by repeat constructor|]. by apply split_tuple_foll.
  Qed.
  Lemma split_inner_run t ef pf fol k l x s u : parses (pos s) t l x → W t → ok_run (pos s) t l x → ef = F (key t) →
    aok s → a_src s = src → a_rest s = l ++ u → (∀ y, nxt src u = Some y → foll t y) →
    term (λ f, split_inner f (rec (k + f) t) ef pf fol None []) s (λ r s', r = (Some x, [], true) ∧ adv s l s').
  Proof.
    intros Hp Hw Hr -> Hok Esrc Er Hu. apply term_S. cbn [split_inner]. apply term_bind_wp, wp_peek_src; [done|].
    rewrite look_nxt, Esrc, Er.
    assert (Hc : ts_contains (F (key t)) (nxt src (l ++ u)) || ts_contains_e (F (key t)) = true).
    { apply orb_true_iff. destruct l as [|a l].
      - right. apply (MD first_eps). by eapply parses_nul.
      - left. apply (MD first_spec). by eapply (parses_fst _ _ a l x _ (l ++ u)). }
    rewrite Hc. apply (term_bind (λ f, r ← rec (k + S f) t; match unres r with
         | (Some t, e) => mret (inl (t, [] ++ e ++ option_list None))
         | (None, e) => tk' ← peek_src; mret (inr (tk', merge_panic None e))
         end)).
    apply (term_bind (λ f, rec (k + S f) t)). apply (term_ext (λ f, rec (S k + f) t)); [intros f; by rewrite <- plus_n_Sm|].
    apply (term_plus (prd t)). eapply term_weaken; [by apply (Hr s u)|].
    intros r s1 [-> Ha]. cbn [unres]. by apply term_ret, term_ret.
  Qed.
  Lemma split_outer_run t d p ts l zs n : pruns p ts l zs → ts = concat (replicate n [d; t]) → V (TSplit t d) → ¬ nul d →
    ∀ k elems puncts s u, aok s → p = pos s → a_src s = src → a_rest s = l ++ u → (∀ y, nxt src u = Some y → foll (TSplit t d) y) →
    term (λ f, split_outer f (rec (k + f) t) (rec (k + f) d) (F (key t)) (F (key d)) (L (key (TSplit t d))) elems puncts []) s
      (λ r s', r = (elems ++ odds zs, puncts ++ evens zs, []) ∧ adv s l s').
  Proof.
    intros H Ets Hv Hn. revert p ts l zs H Ets. induction n as [|n IH]; intros p ts l zs H Ets k elems puncts s u Hok Epos Esrc Er Hu; subst ts.
    - inversion H; subst. apply term_S. cbn [split_outer]. apply term_bind_wp, wp_peek_src; [done|]. rewrite look_nxt, Esrc, Er.
      change (odds []) with (@nil tree). change (evens []) with (@nil tree). rewrite !app_nil_r. cbn [app].
      destruct (nxt _ u) as [y|] eqn:Ey; [rewrite (split_end t) by auto|]; (apply term_ret; split; [done|apply adv_refl]).
    - rewrite concat_replicate_S in H. inversion H as [|? ? ? l1 l2 q ? Hp Hw Hr Hs]; subst.
      inversion Hs as [|? ? ? l3 l4 x zs' Hp2 Hw2 Hr2 Hs2]; subst. rewrite <- !app_assoc in Er.
      assert (Hnext : ∀ y, nxt src (l4 ++ u) = Some y → fst_ d y ∨ foll (TSplit t d) y).
      { intros y Hy. by eapply split_next. }
      apply term_S. cbn [split_outer]. apply term_bind_wp, wp_peek_src; [done|]. rewrite look_nxt, Esrc, Er.
      destruct (parses_some _ _ _ _ (l3 ++ l4 ++ u) Hp Hw Hn) as (y & Ey & Hy). rewrite Ey.
      rewrite (proj2 (MD first_spec d y)) by done.
      apply (term_bind (λ f, rec (k + S f) d)). apply (term_ext (λ f, rec (S k + f) d)); [intros f; by rewrite <- plus_n_Sm|].
      apply (term_plus (prd d)). eapply term_weaken; [apply (Hr s (l3 ++ l4 ++ u)); [done..|]|].
      { intros z Hz. apply (split_delim_foll t); [done|].
        destruct (parses_head _ _ _ _ _ _ Hp2 Hw2 Hz) as [?|[? ?]]; [by left|right]. auto. }
      intros r s1 [-> Ha]. cbn [unres]. destruct (after _ _ _ _ Hok Esrc Er Ha) as (Hok1 & Hsrc1 & Er1 & Hp1).
      apply (term_bind (λ f, split_inner f (rec (k + S f) t) (F (key t)) (F (key d)) (L (key (TSplit t d))) None [])
        (λ f '(o, errs', cont), if cont : bool then split_outer f (rec (k + S f) t) (rec (k + S f) d) (F (key t)) (F (key d)) (L (key (TSplit t d)))
             (elems ++ option_list o) (match o with Some _ => puncts ++ [q] | None => puncts end) errs'
             else mret (elems ++ option_list o, match o with Some _ => puncts ++ [q] | None => puncts end, errs'))).
      apply (term_ext (λ f, split_inner f (rec (S k + f) t) (F (key t)) (F (key d)) (L (key (TSplit t d))) None [])).
      { intros f. by rewrite <- plus_n_Sm. }
      rewrite <- Hp1 in *.
      eapply term_weaken; [eapply (split_inner_run t); [exact Hp2|done..|]|].
      { intros z Hz. apply (split_elem_foll t d); auto. }
      intros r s2 [-> Ha2]. destruct (after _ _ _ _ Hok1 Hsrc1 Er1 Ha2) as (Hok2 & Hsrc2 & Er2 & Hp3). cbn [option_list].
      apply (term_ext (λ f, split_outer f (rec (S k + f) t) (rec (S k + f) d) (F (key t)) (F (key d)) (L (key (TSplit t d))) (elems ++ [x]) (puncts ++ [q]) [])).
      { intros f. by rewrite <- plus_n_Sm. }
      eapply term_weaken; [eapply (IH _ _ _ _ Hs2 eq_refl (S k) (elems ++ [x]) (puncts ++ [q]) s2 u); done|].
      intros r s3 [-> Ha3]. split.
      + rewrite odds_cons, !evens_cons, odds_cons, <- !app_assoc. done.
      + eapply adv_trans; [done|]. by eapply adv_trans.
  Qed.
  Lemma split_run t d p n l zs : pruns p (alternate n t d) l zs → W (TSplit t d) →
    ok_run p (TSplit t d) l (TrSplit (tree_span (TrSeq zs)) (evens zs) (odds zs)).
  Proof.
    intros H Hw s u Hok Epos Esrc Er Hu. assert (Hv := W_V _ Hw).
    assert (Hn : ¬ nul d).
    { intros Hn. apply (MD nul_lang) in Hn; [|by apply (MD V_split _ _ Hv)]. by apply (Hdel _ (proj1 Hw)). }
    unfold alternate in H. inversion H as [|? ? ? l1 l2 x zs' Hp Hw1 Hr Hs]; subst. rewrite <- app_assoc in Er.
    apply term_S. apply (term_ext (λ f, produce_split f (rec f t) (rec f d) (F (key t)) (F (key d)) (L (key (TSplit t d))))); [done|].
    unfold produce_split. apply (term_bind (prd t)). eapply term_weaken; [apply (Hr s (l2 ++ u)); [done..|]|].
    { intros y Hy. apply (split_elem_foll t d); [done|]. by eapply split_next. }
    intros r s1 [-> Ha]. cbn [unres]. destruct (after _ _ _ _ Hok Esrc Er Ha) as (Hok1 & Hsrc1 & Er1 & Hp1).
    apply (term_bind (λ f, split_outer f (rec f t) (rec f d) (F (key t)) (F (key d)) (L (key (TSplit t d))) [x] [] [])
      (λ _ '(elems, puncts, errs), let hi := match last elems with Some x => tree_hi x | None => tree_lo x end in
        mret (res_into (TrSplit (Span (tree_lo x) hi) elems puncts) errs))).
    eapply term_weaken; [eapply (split_outer_run t d _ _ _ _ n Hs eq_refl Hv Hn 0 [x] [] s1 u); done|].
    intros r s2 [-> Ha2]. cbn [app]. apply term_ret. split; [|by eapply adv_trans].
    assert (Hlen : length zs' = 2 * n).
    { assert (Hl : ∀ p ts l zs, pruns p ts l zs → length zs = length ts).
      { clear. induction 1 as [|? ? ? ? ? ? ? ? ? ? ? IH]; cbn; [done|by rewrite IH]. }
      rewrite (Hl _ _ _ _ Hs). clear. induction n as [|n IH]; [done|]. rewrite concat_replicate_S. cbn [length]. rewrite IH. lia. }
    assert (Hlast := last_alternate x zs' n Hlen).
    replace (match last (x :: odds zs') with Some x0 => tree_hi x0 | None => tree_lo x end) with (tree_hi (TrSeq (x :: zs'))).
    2: { rewrite tree_hi_seq, <- Hlast. destruct (last (x :: odds zs')) eqn:E; [done|]. apply last_None in E. done. }
    rewrite evens_cons, odds_cons. done.
  Qed.

  Lemma pruns_pseq p ts l xs : pruns p ts l xs → pseq p ts l xs.
  Proof. induction 1; by constructor. Qed.

  (** * Punct *)
  Section punct.
    Variables t d : ty.
    Notation P := (TPunct t d).
    Notation O2 := (TOpt P).
    Notation T1 := (TTuple [d; O2]).
    Notation O1 := (TOpt T1).
    Hypothesis Hw : W P.
    Lemma Hv : V P.
    Proof. by apply W_V. Qed.
    Lemma V_o1 : V O1.
    Proof. by destruct (MD V_punct _ _ Hv) as (_&_&?&?&?). Qed.
    Lemma V_t1 : V T1.
    Proof. by destruct (MD V_punct _ _ Hv) as (_&_&?&?&?). Qed.
    Lemma V_o2 : V O2.
    Proof. by destruct (MD V_punct _ _ Hv) as (_&_&?&?&?). Qed.
    Lemma fst_o1 y : fst_ d y → fst_ O1 y.
    Proof. intros H. apply (MD fst_opt _ _ V_o1). apply (MD fst_tuple _ _ V_t1). by left. Qed.
    Lemma fst_o2 y : fst_ t y → fst_ O2 y.
    Proof. intros H. apply (MD fst_opt _ _ V_o2). by apply (MD fst_punct _ _ _ Hv). Qed.
    Lemma foll_o1 y : foll P y → foll O1 y.
    Proof. intros H. apply (foll_last _ [key t] _ [] y (MD ent_punct _ _ Hv)); [constructor|done]. Qed.
    Lemma foll_t1 y : foll P y → foll T1 y.
    Proof. intros H. apply (foll_union _ _ _ y (MD ent_opt _ V_o1)); [set_solver|by apply foll_o1]. Qed.
    Lemma foll_o2 y : foll P y → foll O2 y.
    Proof. intros H. apply (foll_last _ [key d] _ [] y (MD ent_tuple _ V_t1)); [constructor|by apply foll_t1]. Qed.
    Lemma punct_elem_foll y : fst_ d y ∨ foll P y → foll t y.
    Proof.
      intros [H|H].
      - apply (foll_seq _ [] (key t) [_] y (MD ent_punct _ _ Hv)). left. by apply fst_o1.
      - apply (foll_last _ [] (key t) [_] y (MD ent_punct _ _ Hv)); [|done].
        apply Forall_cons. split; [by apply (MD nul_opt), V_o1|constructor].
    Qed.
    Lemma punct_delim_foll y : fst_ t y ∨ foll P y → foll d y.
    Proof.
      intros [H|H].
      - apply (foll_seq _ [] (key d) [_] y (MD ent_tuple _ V_t1)). left. by apply fst_o2.
      - apply (foll_last _ [] (key d) [_] y (MD ent_tuple _ V_t1)); [|by apply foll_t1].
        apply Forall_cons. split; [by apply (MD nul_opt), V_o2|constructor].
    Qed.
    Lemma punct_end y : foll P y → ts_contains (F (key d)) (Some y) = false.
    Proof.
      intros Hf. apply not_true_iff_false. intros Hc%(MD first_spec).
      apply (no_foll O1 y); [apply (MD nul_opt), V_o1|by apply fst_o1|by apply foll_o1].
    Qed.
    Lemma punct_end_elem y : foll P y → ts_contains (F (key t)) (Some y) = false.
    Proof.
      intros Hf. apply not_true_iff_false. intros Hc%(MD first_spec).
      apply (no_foll O2 y); [apply (MD nul_opt), V_o2|by apply fst_o2|by apply foll_o2].
    Qed.
    Lemma punct_next p n (b : bool) l zs u y : pruns p (concat (replicate n [d; t]) ++ if b then [d] else []) l zs →
      nxt src (l ++ u) = Some y → (∀ y, nxt src u = Some y → foll P y) → fst_ d y ∨ foll P y.
    Proof.
      intros H E Hu. destruct (MD punct_not_null _ _ Hv) as [_ Hn].
      destruct (pruns_head _ _ _ _ _ _ H E) as [Hf|[_ Hy]]; [|right; by apply Hu].
      destruct n as [|n].
      - destruct b; [|done]. cbn in Hf. destruct Hf as [Hf|[Hf _]]; [by left|by destruct Hn].
      - rewrite concat_replicate_S in Hf. cbn in Hf. destruct Hf as [Hf|[Hf _]]; [by left|by destruct Hn].
    Qed.
    Notation ef := (F (key t)).
    Notation pf := (F (key d)).
    Notation fol := (L (key P)).
    Lemma punct_inner_run k l x s u : parses (pos s) t l x → W t → ok_run (pos s) t l x →
      aok s → a_src s = src → a_rest s = l ++ u → (∀ y, nxt src u = Some y → foll t y) →
      term (λ f, punct_inner f (rec (k + f) t) ef pf fol None []) s (λ r s', r = (Some x, [], true) ∧ adv s l s').
    Proof.
      intros Hp Hwt Hr Hok Esrc Er Hu. destruct (MD punct_not_null _ _ Hv) as [Hn _].
      apply term_S. cbn [punct_inner]. apply term_bind_wp, wp_peek_src; [done|].
      rewrite look_nxt, Esrc, Er. destruct (parses_some _ _ _ _ u Hp Hwt Hn) as (y & Ey & Hy). rewrite Ey.
      rewrite (proj2 (MD first_spec t y)) by done. cbn [negb andb].
      apply (term_bind (λ f, r ← rec (k + S f) t; match unres r with
             | (Some t, e) => mret (inl (t, [] ++ option_list None ++ e))
             | (None, e) => mret (inr (merge_panic None e))
             end)).
      apply (term_bind (λ f, rec (k + S f) t)). apply (term_ext (λ f, rec (S k + f) t)); [intros f; by rewrite <- plus_n_Sm|].
      apply (term_plus (prd t)). eapply term_weaken; [by apply (Hr s u)|].
      intros r s1 [-> Ha]. cbn [unres]. by apply term_ret, term_ret.
    Qed.
    Lemma punct_inner_end k s u : aok s → a_src s = src → a_rest s = u → (∀ y, nxt src u = Some y → foll P y) →
      term (λ f, punct_inner f (rec (k + f) t) ef pf fol None []) s (λ r s', r = (None, [], false) ∧ adv s [] s').
    Proof.
      intros Hok Esrc Er Hu. apply term_S. cbn [punct_inner]. apply term_bind_wp, wp_peek_src; [done|].
      rewrite look_nxt, Esrc, Er. destruct (nxt src u) as [y|] eqn:Ey.
      - assert (Hf := Hu y eq_refl). rewrite punct_end_elem by done.
        rewrite (proj2 (MD follow_spec P (Some y))) by (by apply Hpf; [exact (proj1 Hw)|]). cbn [negb andb].
        apply term_ret. split; [done|apply adv_refl].
      - apply term_ret. split; [done|apply adv_refl].
    Qed.
    Notation tl f k q elems puncts := (λ '(o, errs', cont),
        if cont : bool then punct_outer f (rec (k + S f) t) (rec (k + S f) d) ef pf fol (elems ++ option_list o) (puncts ++ [q]) errs'
        else mret (elems ++ option_list o, puncts ++ [q], errs')).
    Lemma punct_outer_run p ts l zs n (b : bool) : pruns p ts l zs → ts = concat (replicate n [d; t]) ++ (if b then [d] else []) →
      ∀ k elems puncts s u, aok s → p = pos s → a_src s = src → a_rest s = l ++ u → (∀ y, nxt src u = Some y → foll P y) →
      term (λ f, punct_outer f (rec (k + f) t) (rec (k + f) d) ef pf fol elems puncts []) s
        (λ r s', r = (elems ++ odds zs, puncts ++ evens zs, []) ∧ adv s l s').
    Proof.
      intros H Ets. destruct (MD punct_not_null _ _ Hv) as [_ Hn].
      revert p ts l zs H Ets. induction n as [|n IH]; intros p ts l zs H Ets k elems puncts s u Hok Epos Esrc Er Hu; subst ts.
      - destruct b.
        + cbn [replicate concat app] in H. inversion H as [|? ? ? l1 l2 q ? Hp Hwd Hr Hs]; subst. inversion Hs; subst. rewrite <- app_assoc in Er. cbn [app] in Er.
          apply term_S. cbn [punct_outer]. apply term_bind_wp, wp_peek_src; [done|]. rewrite look_nxt, Esrc, Er.
          destruct (parses_some _ _ _ _ u Hp Hwd Hn) as (y & Ey & Hy). rewrite Ey. rewrite (proj2 (MD first_spec d y)) by done.
          apply (term_bind (λ f, rec (k + S f) d)). apply (term_ext (λ f, rec (S k + f) d)); [intros f; by rewrite <- plus_n_Sm|].
          apply (term_plus (prd d)). eapply term_weaken; [apply (Hr s u); [done..|]|].
          { intros z Hz. apply punct_delim_foll. right. auto. }
          intros r s1 [-> Ha]. cbn [unres]. destruct (after _ _ _ _ Hok Esrc Er Ha) as (Hok1 & Hsrc1 & Er1 & Hp1).
          apply (term_bind (λ f, punct_inner f (rec (k + S f) t) ef pf fol None []) (λ f, tl f k q elems puncts)).
          apply (term_ext (λ f, punct_inner f (rec (S k + f) t) ef pf fol None [])).
          { intros f. by rewrite <- plus_n_Sm. }
          eapply term_weaken; [apply (punct_inner_end (S k) s1 u); done|].
          intros r s2 [-> Ha2]. apply term_ret. rewrite app_nil_r. split; [by rewrite app_nil_r|]. rewrite app_nil_r. rewrite <- (app_nil_r l1). by eapply adv_trans.
        + cbn [replicate concat app] in H. inversion H; subst. apply term_S. cbn [punct_outer]. apply term_bind_wp, wp_peek_src; [done|]. rewrite look_nxt, Esrc, Er.
          change (odds []) with (@nil tree). change (evens []) with (@nil tree). rewrite !app_nil_r. cbn [app].
          destruct (nxt _ u) as [y|] eqn:Ey; [rewrite punct_end by auto|]; (apply term_ret; split; [done|apply adv_refl]).
      - rewrite concat_replicate_S in H. cbn [app] in H. inversion H as [|? ? ? l1 l2 q ? Hp Hwd Hr Hs]; subst.
        inversion Hs as [|? ? ? l3 l4 x zs' Hp2 Hw2 Hr2 Hs2]; subst. rewrite <- !app_assoc in Er.
        assert (Hnext : ∀ y, nxt src (l4 ++ u) = Some y → fst_ d y ∨ foll P y).
        { intros y Hy. by eapply punct_next. }
        destruct (MD punct_not_null _ _ Hv) as [Hnt _].
        apply term_S. cbn [punct_outer]. apply term_bind_wp, wp_peek_src; [done|]. rewrite look_nxt, Esrc, Er.
        destruct (parses_some _ _ _ _ (l3 ++ l4 ++ u) Hp Hwd Hn) as (y & Ey & Hy). rewrite Ey.
        rewrite (proj2 (MD first_spec d y)) by done.
        apply (term_bind (λ f, rec (k + S f) d)). apply (term_ext (λ f, rec (S k + f) d)); [intros f; by rewrite <- plus_n_Sm|].
        apply (term_plus (prd d)). eapply term_weaken; [apply (Hr s (l3 ++ l4 ++ u)); [done..|]|].
        { intros z Hz. apply punct_delim_foll.
          destruct (parses_head _ _ _ _ _ _ Hp2 Hw2 Hz) as [?|[? ?]]; [by left|done]. }
        intros r s1 [-> Ha]. cbn [unres]. destruct (after _ _ _ _ Hok Esrc Er Ha) as (Hok1 & Hsrc1 & Er1 & Hp1).
        apply (term_bind (λ f, punct_inner f (rec (k + S f) t) ef pf fol None []) (λ f, tl f k q elems puncts)).
        apply (term_ext (λ f, punct_inner f (rec (S k + f) t) ef pf fol None [])).
        { intros f. by rewrite <- plus_n_Sm. }
        rewrite <- Hp1 in *.
        eapply term_weaken; [eapply punct_inner_run; [exact Hp2|done..|]|].
        { intros z Hz. apply punct_elem_foll. auto. }
        intros r s2 [-> Ha2]. destruct (after _ _ _ _ Hok1 Hsrc1 Er1 Ha2) as (Hok2 & Hsrc2 & Er2 & Hp3). cbn [option_list].
        apply (term_ext (λ f, punct_outer f (rec (S k + f) t) (rec (S k + f) d) ef pf fol (elems ++ [x]) (puncts ++ [q]) [])).
        { intros f. by rewrite <- plus_n_Sm. }
        eapply term_weaken; [eapply (IH _ _ _ _ Hs2 eq_refl (S k) (elems ++ [x]) (puncts ++ [q]) s2 u); done|].
        intros r s3 [-> Ha3]. split.
        + rewrite odds_cons, !evens_cons, odds_cons, <- !app_assoc. done.
        + eapply adv_trans; [done|]. by eapply adv_trans.
    Qed.
    Lemma punct_run p n (b : bool) l zs : pruns p (alternate n t d ++ if b then [d] else []) l zs →
      ok_run p P l (TrPunct (tree_span (TrSeq zs)) (evens zs) (odds zs)).
    Proof.
      intros H s u Hok Epos Esrc Er Hu. assert (Hq := pruns_pseq _ _ _ _ H).
      assert (Hsp : spans_ok p (String.length (a_src s)) (map t_span l)).
      { destruct (aok_pos _ Hok) as [Hsp _]. rewrite Er in Hsp. apply spans_ok_pos in Hsp as [Hsp _]. by rewrite Epos. }
      unfold alternate in H. cbn [app] in H. inversion H as [|? ? ? l1 l2 x zs' Hp Hw1 Hr Hs]; subst. rewrite <- app_assoc in Er.
      apply term_S. apply (term_ext (λ f, produce_punct f (rec f t) (rec f d) ef pf fol)); [done|].
      unfold produce_punct. apply (term_bind (prd t)). eapply term_weaken; [apply (Hr s (l2 ++ u)); [done..|]|].
      { intros y Hy. apply punct_elem_foll. by eapply punct_next. }
      intros r s1 [-> Ha]. cbn [unres]. destruct (after _ _ _ _ Hok Esrc Er Ha) as (Hok1 & Hsrc1 & Er1 & Hp1).
      apply (term_bind (λ f, punct_outer f (rec f t) (rec f d) ef pf fol [x] [] [])
        (λ _ '(elems, puncts, errs), let lo := tree_lo x in
          let hi1 := match last elems with Some x => tree_hi x | None => lo end in
          let hi2 := match last puncts with Some x => tree_hi x | None => lo end in
          mret (res_into (TrPunct (Span lo (Nat.max hi1 hi2)) elems puncts) errs))).
      eapply term_weaken; [eapply (punct_outer_run _ _ _ _ n b Hs eq_refl 0 [x] [] s1 u); done|].
      intros r s2 [-> Ha2]. cbn [app]. apply term_ret. split; [|by eapply adv_trans]. cbv zeta.
      assert (Hf : filled env P). { intros c Hc. apply Hfill. eapply rtc_transitive; [exact (proj1 Hw)|exact Hc]. }
      rewrite (pseq_hi_max _ _ _ _ _ _ _ _ (filled_alternate env t d n b Hf) Hq Hsp).
      rewrite evens_cons, odds_cons. done.
    Qed.
  End punct.

  (** * Recover *)
  Lemma recover_run t r p l x y : pruns p [t; r] l [x; y] → W (TRecover t r) → ok_run p (TRecover t r) l (TrRecover (tree_span x) (Some x) y).
  Proof.
    intros H Hw s u Hok Epos Esrc Er Hu. assert (Hv := W_V _ Hw).
    inversion H as [|? ? ? l1 l2 ? ? Hp Hw1 Hr Hs]; subst. inversion Hs as [|? ? ? l3 l4 ? ? Hp2 Hw2 Hr2 Hs2]; subst. inversion Hs2; subst.
    rewrite app_nil_r in Er. rewrite <- app_assoc in Er.
    assert (Hu2 : ∀ z, nxt src u = Some z → foll r z).
    { intros z Hz. apply (foll_last _ [key t] (key r) [] z (MD ent_recover _ _ Hv)); [constructor|by apply Hu]. }
    apply term_S. apply (term_ext (λ f, produce_recover f (rec f t) (rec f r) (F (key t)) (F (key r)))); [done|].
    unfold produce_recover. apply term_bind_wp, wp_peek_src; [done|]. rewrite look_nxt, Esrc, Er.
    assert (Hc : ts_contains (F (key t)) (nxt src (l1 ++ l3 ++ u)) || ts_contains_e (F (key t)) = true).
    { apply orb_true_iff. destruct l1 as [|a l1].
      - right. apply (MD first_eps). by eapply parses_nul.
      - left. apply (MD first_spec). by eapply (parses_fst _ _ a l1 x _ (l1 ++ l3 ++ u)). }
    rewrite Hc. apply (term_bind (λ f, r ← rec f t; match unres r with
       | (Some x, e) => mret (None, tree_span x, Some x, e)
       | (None, e) => sp ← empty_span; mret (last e, sp, None, [])
       end)).
    apply (term_bind (prd t)). eapply term_weaken; [apply (Hr s (l3 ++ u)); [done..|]|].
    { intros z Hz. destruct (parses_head _ _ _ _ _ _ Hp2 Hw2 Hz) as [Hf|[Hn Hf]].
      - apply (foll_seq _ [] (key t) [key r] z (MD ent_recover _ _ Hv)). by left.
      - apply (foll_last _ [] (key t) [key r] z (MD ent_recover _ _ Hv)); [by repeat constructor|by apply Hu]. }
    intros q s1 [-> Ha]. cbn [unres]. apply term_ret. destruct (after _ _ _ _ Hok Esrc Er Ha) as (Hok1 & Hsrc1 & Er1 & Hp1).
    apply (term_bind (λ f, recover_loop f (rec f r) (F (key r)) None [])).
    assert (Hrr : term (prd r) s1 (λ r s', r = RSucc y ∧ adv s1 l3 s')). { apply (Hr2 s1 u); done. }
    assert (Hc2 : ts_contains (F (key r)) (nxt src (l3 ++ u)) || ts_contains_e (F (key r)) = true).
    { apply orb_true_iff. destruct l3 as [|a l3].
      - right. apply (MD first_eps). by eapply parses_nul.
      - left. apply (MD first_spec). by eapply (parses_fst _ _ a l3 y _ (l3 ++ u)). }
    apply term_S. cbn [recover_loop]. apply term_bind_wp, wp_peek_src; [done|]. rewrite look_nxt, Hsrc1, Er1.
    destruct (nxt src (l3 ++ u)) as [z|] eqn:Ez.
    - rewrite Hc2. apply (term_bind (λ f, r ← rec (S f) r; match unres r with
           | (Some x, e) => mret (inl (x, [] ++ e))
           | (None, e) => mret (inr (merge_panic None e))
           end)).
      apply (term_bind (λ f, rec (S f) r)). apply (term_shift (prd r)). eapply term_weaken; [exact Hrr|].
      intros q s2 [-> Ha2]. cbn [unres]. apply term_ret, term_ret, term_ret. split; [done|]. rewrite app_nil_r. by eapply adv_trans.
    - assert (El : l3 = []) by (by destruct l3). subst l3.
      rewrite (proj2 (MD first_eps r)) by (by eapply parses_nul).
      apply (term_bind (λ f, rec (S f) r)). apply (term_shift (prd r)). eapply term_weaken; [exact Hrr|].
      intros q s2 [-> Ha2]. cbn [unres]. apply term_ret, term_ret. split; [done|]. by eapply adv_trans.
  Qed.

  (** * Optional parts *)
  Lemma option_none_run {X} (p : nat → M (res X)) sp t set s : nul t → (∀ y, ts_contains set (Some y) = true → fst_ t y) →
    aok s → a_src s = src → (∀ y, nxt src (a_rest s) = Some y → foll t y) →
    term (λ f, produce_option (p f) sp set) s (λ r s', r = RSucc (Span (pos s) (pos s), None) ∧ adv s [] s').
  Proof.
    intros Hn Hset Hok Esrc Hu. unfold produce_option. apply term_bind_wp, wp_peek_src; [done|]. rewrite look_nxt, Esrc.
    destruct (nxt src (a_rest s)) as [y|] eqn:Ey; [destruct (ts_contains set (Some y)) eqn:Ec|].
    - destruct (no_foll t y); auto.
    - apply (term_wp (e ← empty_span; mret (RSucc (e, None)))), wp_bind, wp_empty_span, wp_ret. split; [done|apply adv_refl].
    - apply (term_wp (e ← empty_span; mret (RSucc (e, None)))), wp_bind, wp_empty_span, wp_ret. split; [done|apply adv_refl].
  Qed.
  Lemma option_some_run {X} (p : nat → M (res X)) sp set s y (x : X) (Q : ast → Prop) : aok s → look s = Some y → ts_contains set (Some y) = true →
    term p s (λ r s', r = RSucc x ∧ Q s') →
    term (λ f, produce_option (p f) sp set) s (λ r s', r = RSucc (sp x, Some x) ∧ Q s').
  Proof.
    intros Hok Ey Hc H. unfold produce_option. apply term_bind_wp, wp_peek_src; [done|]. rewrite Ey, Hc.
    apply (term_bind p). eapply term_weaken; [exact H|]. intros r s' [-> HQ]. apply term_ret. done.
  Qed.

  (** * All types *)
  Lemma parses_run p t l x : parses p t l x → W t → ok_run p t l x.
  Proof.
    intros H. revert p t l x H.
    apply (parses_mut env src (λ p t l x _, W t → ok_run p t l x)
      (λ p ts l xs _, Forall (λ t, W t) ts → pruns p ts l xs)).
    - (* token *) intros p n y lit t [Hty Hlit] Hw s u Hok Epos Esrc Er Hu. apply term_S.
      apply (term_ext (λ _, r ← match lit with None => parse_token y | Some l => parse_token_lit y l (L (key (TTok n y lit))) end; mret (res_map TrTok r))).
      { done. }
      cbn [app] in Er. apply term_wp, wp_bind. destruct lit as [lit|].
      + apply wp_parse_token_lit; [done|]. rewrite Er. destruct (decide (look s = Some (y, lit))) as [E|Hne].
        * apply wp_ret. split; [done|]. by apply (pop_adv1 _ _ u).
        * destruct Hne. rewrite look_nxt, Esrc, Er. cbn. by rewrite Hlit, Hty.
      + apply wp_parse_token. rewrite Er. destruct (decide (t_ty t = y)) as [E|Hne]; [|done].
        apply wp_ret. split; [done|]. by apply (pop_adv1 _ _ u).
    - (* struct *) intros p n fs l xs En Hps IH Hw s u Hok Epos Esrc Er Hu. assert (Hv := W_V _ Hw). apply term_S.
      apply (term_ext (λ f, r ← produce_seq (rec f) (map fst fs) [] [];
          match unres r with
          | (Some xs, e) => _ ← apply_fields fs xs; mret (res_into (TrSeq xs) e)
          | (None, e) => mret (RPanic e)
          end)). { intros f. unfold produce_md. cbn [produce]. by rewrite En. }
      apply (term_bind (λ f, produce_seq (rec f) (map fst fs) [] [])).
      eapply term_weaken; [apply (pruns_seq _ _ _ _ (IH (W_struct _ _ Hw En)) [] s u); [done..|]|].
      + intros l1 t l2 y E Hy. assert (Hin := MD ent_struct _ _ Hv En). rewrite E, map_app in Hin. cbn [map] in Hin.
        destruct Hy as [Hy|[Hn Hy]]; [by eapply foll_seq|]. eapply foll_last; [done..|by apply Hu].
      + intros r s1 [-> Ha]. cbn [unres app]. apply (term_bind (λ _, apply_fields fs xs)).
        eapply term_weaken; [apply (fields_term env root regs iter md Hreg Hperm Hmeta Henums)|]. intros [] s2 Ha2. apply term_ret. split; [done|].
        rewrite <- (app_nil_r l). by eapply adv_trans.
    - (* enum *) intros p n vs i t sem l x En Hi Hp IH Hw s u Hok Epos Esrc Er Hu. assert (Hv := W_V _ Hw).
      assert (Ht : t ∈ map fst vs). { apply elem_of_list_lookup_2 in Hi. apply elem_of_list_In, (in_map fst), elem_of_list_In in Hi. done. }
      assert (Hwt : W t). { apply (W_sub _ _ Hw). cbn. by rewrite En. }
      assert (Hnt : ¬ nul t).
      { intros Hn. apply (MD nul_lang) in Hn; [|by apply W_V]. assert (He := Henums _ (proj1 Hw)). cbn in He. rewrite En in He.
        apply elem_of_list_lookup_2 in Hi. by apply (He _ Hi). }
      destruct (parses_some _ _ _ _ u Hp Hwt Hnt) as (y & Ey & Hy). apply term_S.
      apply (term_ext (λ f, tk ← peek_src;
          match i ← J (PNamed n) tk; v ← vs !! i; Some (i, v) with
          | Some (i, (t', sem)) =>
            r ← rec f t';
            match r, sem with
            | RSucc x, Some s | RRec x _, Some s =>
                _ ← apply_semantic (tree_span x) s; mret (res_map (TrVar i) r)
            | _, _ => mret (res_map (TrVar i) r)
            end
          | None => e ← expecting (F (PNamed n)); mret (RPanic [e])
          end)). { intros f. unfold produce_md. cbn [produce]. by rewrite En. }
      apply term_bind_wp, wp_peek_src; [done|]. rewrite look_nxt, Esrc, Er, Ey.
      rewrite (proj2 (MD jump_spec n vs (Some y) i Hv En)) by eauto. cbn [mbind option_bind]. rewrite Hi.
      apply (term_bind (prd t)). eapply term_weaken; [apply (IH Hwt s u); [done..|]|].
      + intros z Hz. assert (Hin := MD ent_enum _ _ Hv En). eapply foll_union; [exact Hin| |by apply Hu].
        apply elem_of_list_In, (in_map key), elem_of_list_In. done.
      + intros r s1 [-> Ha]. destruct sem as [sem|]; [|by apply term_ret].
        apply (term_wp (_ ← apply_semantic (tree_span x) sem; mret (res_map (TrVar i) (RSucc x)))), wp_bind, wp_apply, wp_ret. split; [done|].
        rewrite <- (app_nil_r l). eapply adv_trans; [done|apply mark_adv].
    - (* tuple *) intros p ts l xs Hps IH Hw s u Hok Epos Esrc Er Hu. assert (Hv := W_V _ Hw). apply term_S.
      apply (term_ext (λ f, r ← produce_seq (rec f) ts [] []; mret (res_map TrSeq r))); [done|].
      apply (term_bind (λ f, produce_seq (rec f) ts [] [])).
      eapply term_weaken; [apply (pruns_seq _ _ _ _ (IH (W_all _ Hw)) [] s u); [done..|]|].
      + intros l1 t l2 y E Hy. assert (Hin := MD ent_tuple _ Hv). rewrite E, map_app in Hin. cbn [map] in Hin. rewrite <- E in Hin.
        destruct Hy as [Hy|[Hn Hy]]; [by eapply foll_seq|]. eapply foll_last; [exact Hin|done|by apply Hu].
      + intros r s1 [-> Ha]. by apply term_ret.
    - (* box *) intros p t l x Hp IH Hw s u Hok Epos Esrc Er Hu. apply term_S. apply (term_ext (prd t)); [done|].
      apply (IH ltac:(apply (W_sub _ _ Hw); cbn; set_solver) s u); done.
    - (* none *) intros p t Hw s u Hok Epos Esrc Er Hu. assert (Hv := W_V _ Hw). apply term_S. cbn [app] in Er. subst u.
      apply (term_bind (λ f, produce_option (rec f t) tree_span (F (key t)))).
      eapply term_weaken; [apply (option_none_run (prd t) tree_span (TOpt t) (F (key t)) s); [by apply (MD nul_opt)| |done..]|].
      + intros y Hy%(MD first_spec). by apply (MD fst_opt).
      + intros r s1 [-> Ha]. apply term_ret. by rewrite Epos.
    - (* some *) intros p t l x Hp IH Hw s u Hok Epos Esrc Er Hu. assert (Hv := W_V _ Hw). apply term_S.
      assert (Hwt : W t) by (apply (W_sub _ _ Hw); cbn; set_solver).
      destruct (parses_some _ _ _ _ u Hp Hwt (MD opt_not_null _ Hv)) as (y & Ey & Hy).
      apply (term_bind (λ f, produce_option (rec f t) tree_span (F (key t)))).
      eapply term_weaken; [apply (option_some_run (prd t) tree_span (F (key t)) s y x (λ s', adv s l s')); [done| | |]|].
      + by rewrite look_nxt, Esrc, Er.
      + by apply (MD first_spec).
      + apply (IH Hwt s u); [done..|]. intros z Hz. eapply foll_union; [apply (MD ent_opt _ Hv)|set_solver|by apply Hu].
      + intros r s1 [-> Ha]. by apply term_ret.
    - (* absent *) intros p t Hw s u Hok Epos Esrc Er Hu. assert (Hv : V (TOpt t)) by exact (W_V _ Hw). apply term_S. cbn [app] in Er. subst u.
      apply (term_bind (λ f, produce_option (rec f t) tree_span (F (key t)))).
      eapply term_weaken; [apply (option_none_run (prd t) tree_span (TOpt t) (F (key t)) s); [by apply (MD nul_opt)| |done..]|].
      + intros y Hy%(MD first_spec). by apply (MD fst_opt).
      + intros r s1 [-> Ha]. apply term_ret. by rewrite Epos.
    - (* present *) intros p t l x Hp IH Hw s u Hok Epos Esrc Er Hu. assert (Hv : V (TOpt t)) by exact (W_V _ Hw). apply term_S.
      assert (Hwt : W t) by (apply (W_sub _ _ Hw); cbn; set_solver).
      destruct (parses_some _ _ _ _ u Hp Hwt (MD opt_not_null _ Hv)) as (y & Ey & Hy).
      apply (term_bind (λ f, produce_option (rec f t) tree_span (F (key t)))).
      eapply term_weaken; [apply (option_some_run (prd t) tree_span (F (key t)) s y x (λ s', adv s l s')); [done| | |]|].
      + by rewrite look_nxt, Esrc, Er.
      + by apply (MD first_spec).
      + apply (IH Hwt s u); [done..|]. intros z Hz. eapply foll_union; [apply (MD ent_opt _ Hv)|set_solver|by apply Hu].
      + intros r s1 [-> Ha]. by apply term_ret.
    - (* quote *) intros p t l x str Hp IH Hstr Hw s u Hok Epos Esrc Er Hu. apply term_S.
      assert (Hwt : W t) by (apply (W_sub _ _ Hw); cbn; set_solver).
      apply (term_ext (λ f, r ← rec f t; match r with
        | RSucc x => s ← get_src (tree_span x); mret (RSucc (TrQuote (tree_span x) s))
        | RRec x e => s ← get_src (tree_span x); mret (RRec (TrQuote (tree_span x) s) e)
        | RPanic e => mret (RPanic e) end)); [done|]. apply (term_bind (prd t)).
      eapply term_weaken; [apply (IH Hwt s u); done|].
      intros r s1 [-> Ha]. apply (term_wp (s ← get_src (tree_span x); mret (RSucc (TrQuote (tree_span x) s)))), wp_bind.
      eapply wp_get_src; [by rewrite (adv_src _ _ _ Ha), Esrc|]. by apply wp_ret.
    - (* parse *) intros p t l x str Hp IH Hstr Hw s u Hok Epos Esrc Er Hu. apply term_S.
      assert (Hwt : W t) by (apply (W_sub _ _ Hw); cbn; set_solver).
      apply (term_ext (λ f, r ← rec f t; match r with
        | RSucc x => s ← get_src (tree_span x); mret (RSucc (TrParse (tree_span x) s))
        | RRec x e => s ← get_src (tree_span x); mret (RRec (TrParse (tree_span x) s) e)
        | RPanic e => mret (RPanic e) end)); [done|]. apply (term_bind (prd t)).
      eapply term_weaken; [apply (IH Hwt s u); done|].
      intros r s1 [-> Ha]. apply (term_wp (s ← get_src (tree_span x); mret (RSucc (TrParse (tree_span x) s)))), wp_bind.
      eapply wp_get_src; [by rewrite (adv_src _ _ _ Ha), Esrc|]. by apply wp_ret.
    - (* plus *) intros p t n l xs Hps IH Hw s u Hok Epos Esrc Er Hu. apply term_S.
      apply (term_bind (λ f, produce_plus f (rec f t) (F (key (TPlus t))))).
      eapply term_weaken; [apply (pruns_plus p l xs t n) with (u := u); [|by apply W_V|done..]|].
      + apply IH. apply Forall_forall. intros c [-> _]%elem_of_replicate. apply (W_sub _ _ Hw). cbn. set_solver.
      + intros r s1 [-> Ha]. by apply term_ret.
    - (* star, empty *) intros p t Hw s u Hok Epos Esrc Er Hu. assert (Hv := W_V _ Hw). apply term_S. cbn [app] in Er. subst u.
      apply (term_bind (λ f, produce_option (produce_plus f (rec f t) (F (key (TPlus t)))) fst (F (key (TPlus t))))).
      eapply term_weaken; [apply (option_none_run (λ f, produce_plus f (rec f t) (F (key (TPlus t)))) fst (TStar t) (F (key (TPlus t))) s); [by apply (MD nul_star)| |done..]|].
      + intros y Hy%(MD first_spec). by apply (MD fst_star_plus).
      + intros r s1 [-> Ha]. apply term_ret. by rewrite Epos.
    - (* star *) intros p t n l xs Hps IH Hw s u Hok Epos Esrc Er Hu. assert (Hv := W_V _ Hw). assert (Hv2 := MD V_star _ Hv). apply term_S.
      assert (Hwt : W t) by (apply (W_sub _ _ Hw); cbn; set_solver).
      assert (Hpr : pruns p (replicate (S n) t) l xs).
      { apply IH. apply Forall_forall. by intros c [-> _]%elem_of_replicate. }
      apply (term_bind (λ f, produce_option (produce_plus f (rec f t) (F (key (TPlus t)))) fst (F (key (TPlus t))))).
      assert (∃ y, nxt src (l ++ u) = Some y ∧ fst_ t y) as (y & Ey & Hy).
      { inversion Hpr as [|? ? ? l1 l2 ? ? Hp ? ? ?]; subst. rewrite <- app_assoc. eapply parses_some; [done..|by apply (MD star_not_null)]. }
      eapply term_weaken; [apply (option_some_run (λ f, produce_plus f (rec f t) (F (key (TPlus t)))) fst (F (key (TPlus t))) s y (tree_span (TrSeq xs), xs) (λ s', adv s l s')); [done| | |]|].
      + by rewrite look_nxt, Esrc, Er.
      + apply (MD first_spec). by apply (MD fst_plus).
      + apply (pruns_plus p l xs t n) with (u := u); [done..|].
        intros z Hz. eapply (foll_union _ _ _ _ (MD ent_star _ Hv)); [set_solver|by apply Hu].
      + intros r s1 [-> Ha]. by apply term_ret.
    - intros p t Hw. exfalso. exact (proj2 Hw (TLoop t) (rtc_refl _ _)).
    - intros p t n l xs _ _ Hw. exfalso. exact (proj2 Hw (TLoop t) (rtc_refl _ _)).
    - (* split *) intros p t d n l zs Hps IH Hw. eapply split_run; [|done]. apply IH.
      assert (HW := W_all _ Hw). cbn [subs] in HW. apply Forall_cons in HW as [W1 [W2 _]%Forall_cons].
      apply Forall_cons; split; [done|]. by apply Forall_alt.
    - (* punct *) intros p t d n b l zs Hps IH Hw. apply (punct_run t d Hw p n b). apply IH.
      assert (HW := W_all _ Hw). cbn [subs] in HW. apply Forall_cons in HW as [W1 [W2 _]%Forall_cons].
      apply Forall_app. split; [|destruct b; [by apply Forall_cons|done]].
      apply Forall_cons; split; [done|]. by apply Forall_alt.
    - (* recover *) intros p t r l x y Hps IH Hw. apply recover_run; [|done]. apply IH. exact (W_all _ Hw).
    - constructor.
    - intros p t ts l1 l2 x xs Hp IH Hps IHs [W1 W2]%Forall_cons. constructor; auto.
  Qed.

  (** * Loop, at the end of the input *)
  Definition ok_end (p : nat) (t : ty) (l : list token) (x : tree) : Prop :=
    ∀ s, aok s → p = pos s → a_src s = src → a_rest s = l → term (prd t) s (λ r s', r = RSucc x ∧ adv s l s').
  Lemma parses_pruns p ts l xs : pseq p ts l xs → Forall (λ t, W t) ts → pruns p ts l xs.
  Proof.
    induction 1 as [|p t ts l1 l2 x xs Hp Hs IH]; intros HW; [constructor|]. apply Forall_cons in HW as [W1 W2].
    constructor; [done|done|by apply parses_run|by apply IH].
  Qed.
  Lemma pruns_loop p ts l xs t n : pruns p ts l xs → ts = replicate n t → V (TPlus t) → ∀ k acc s,
    aok s → p = pos s → a_src s = src → a_rest s = l →
    term (λ f, loop_loop f (rec (k + f) t) (F (key (TPlus t))) acc []) s (λ r s', r = (acc ++ xs, []) ∧ adv s l s').
  Proof.
    intros H. revert n. induction H as [|p c ts l1 l2 x xs Hp Hw Hr Hs IH]; intros n En Hv k acc s Hok Epos Esrc Er.
    - apply term_S. cbn [loop_loop]. apply term_bind_wp, wp_peek_src; [done|]. rewrite look_nxt, Esrc, Er.
      apply term_ret. rewrite app_nil_r. split; [done|apply adv_refl].
    - destruct n as [|n]; [done|]. cbn in En. injection En as -> ->.
      assert (Hnn := MD plus_not_null _ Hv). assert (l1 ≠ []) as Hl1. { intros ->. by apply parses_nul in Hp. }
      apply term_S. cbn [loop_loop]. apply term_bind_wp, wp_peek_src; [done|]. rewrite look_nxt, Esrc, Er.
      destruct (parses_some _ _ _ _ l2 Hp Hw Hnn) as (y & Ey & Hy). rewrite Ey.
      rewrite (proj2 (MD first_spec (TPlus t) y)) by (by apply (MD fst_plus)).
      apply (term_bind_wp (mret (Some y, []))), wp_ret. apply term_bind_wp, wp_cur_span.
      apply (term_bind (λ f, rec (k + S f) t)). apply (term_ext (λ f, rec (S k + f) t)); [intros f; by rewrite <- plus_n_Sm|].
      apply (term_plus (prd t)). eapply term_weaken; [apply (Hr s l2); [done..|]|].
      + intros z Hz. eapply (plus_item_foll _ n t l2 xs [] z Hv Hs); [done|]. by rewrite app_nil_r.
      + intros r s1 [-> Ha]. cbn [unres]. destruct (after _ _ _ _ Hok Esrc Er Ha) as (Hok1 & Hsrc1 & Er1 & Hp1).
        apply term_bind_wp, wp_cur_span. assert (Hlt := cur_lt _ _ _ Hok Ha Hl1).
        rewrite (proj2 (Nat.eqb_neq _ _)) by lia.
        apply (term_ext (λ f, loop_loop f (rec (S k + f) t) (F (key (TPlus t))) (acc ++ [x]) [])).
        { intros f. by rewrite <- plus_n_Sm. }
        eapply term_weaken; [apply (IH n eq_refl Hv (S k) (acc ++ [x]) s1); [done| |done..]|].
        * by rewrite Hp1, Epos.
        * intros r s2 [-> Ha2]. split; [|by eapply adv_trans]. by rewrite <- app_assoc.
  Qed.
  Lemma loop_run p t l x : parses p (TLoop t) l x → W0 (TLoop t) → no_loop env t → ok_end p (TLoop t) l x.
  Proof.
    intros H Hw0 Hnl s Hok Epos Esrc Er.
    assert (Hv : V (TPlus t)) by exact (ProgressFacts.W_V env root regs iter md Hreg Hperm Hmeta Henums _ Hw0).
    assert (Hw : W t).
    { split; [|done]. apply (ProgressFacts.W_sub env root regs iter md Hreg Hperm Hmeta Henums _ _ Hw0). cbn. set_solver. }
    assert (∃ n xs, pruns p (replicate n t) l xs ∧
      x = TrList (match xs with [] => Span p p | _ => tree_span (TrSeq xs) end) xs) as (n & xs & Hp & ->).
    { inversion H as [| | | | | | | | | | | | | | |? ? n ? xs Hs| | |]; subst.
      - exists 0, []. split; [constructor|done].
      - exists (S n), xs. split.
        + apply parses_pruns; [done|]. apply Forall_forall. by intros c [-> _]%elem_of_replicate.
        + by inversion Hs. }
    apply term_S. apply (term_bind (λ f, produce_loop f (rec f t) (F (key (TPlus t)))) (λ _ r, mret (res_map (λ '(sp, l), TrList sp l) r))).
    unfold produce_loop. apply (term_bind (λ f, loop_loop f (rec f t) (F (key (TPlus t))) [] [])
      (λ _ '(l, errs), sp ← match head l, last l with
         | Some a, Some b => mret (Span (tree_lo a) (tree_hi b))
         | _, _ => empty_span
         end; mret (res_into (sp, l) errs))).
    eapply term_weaken; [apply (pruns_loop _ _ _ _ t n Hp eq_refl Hv 0 [] s); done|].
    intros r s1 [-> Ha]. cbn [app]. assert (Hp1 := adv_pos _ _ _ Ha).
    destruct xs as [|z zs].
    - assert (l = []) as -> by (by inversion Hp). cbn [head last].
      apply (term_wp (sp ← empty_span; mret (res_into (sp, []) []))), wp_bind, wp_empty_span, wp_ret, term_ret.
      split; [|done]. cbn [res_into res_map]. rewrite Hp1, Epos. done.
    - cbn [head hd_error]. assert (is_Some (last (z :: zs))) as [w Hl] by (by apply last_is_Some). rewrite Hl.
      apply (term_wp (sp ← mret (Span (tree_lo z) (tree_hi w)); mret (res_into (sp, z :: zs) []))), wp_bind, wp_ret, wp_ret, term_ret.
      split; [|done]. cbn [res_into res_map]. unfold tree_span. rewrite tree_hi_seq, Hl. done.
  Qed.
  Lemma root_run p l x : parses p root l x → no_loop_below env root → ok_end p root l x.
  Proof.
    intros H Hnl. destruct (no_loop_below_inv _ _ Hnl) as [(t & E & Ht)|Hn].
    - assert (G : ∀ r, r = TLoop t → parses p r l x → W0 r → ok_end p r l x) by (intros r -> ? ?; by apply loop_run).
      apply (G root E H). constructor.
    - intros s Hok Epos Esrc Er. apply (parses_run p root l x H ltac:(split; [constructor|exact Hn]) s []); [done..|by rewrite app_nil_r|done].
  Qed.
End md.
Unset Default Proof Using.

(** * Sentences have parse trees *)
Section lang.
  Variable env : denv.
  Variable src : string.
  Lemma word_app l1 l2 : word src (l1 ++ l2) = word src l1 ++ word src l2.
  Proof. unfold word. by rewrite map_app. Qed.
  Lemma word_split l w1 w2 : word src l = w1 ++ w2 → ∃ l1 l2, l = l1 ++ l2 ∧ word src l1 = w1 ∧ word src l2 = w2.
  Proof.
    revert w1. induction l as [|t l IH]; intros w1 H.
    - cbn in H. symmetry in H. apply app_nil in H as [-> ->]. by exists [], [].
    - destruct w1 as [|y w1]; [by exists [], (t :: l)|]. cbn in H. injection H as H1 H2.
      destruct (IH w1 H2) as (l1 & l2 & -> & <- & <-). exists (t :: l1), l2. cbn. by rewrite H1.
  Qed.
  Lemma parses_text p t l x : parses env src p t l x → filled env t → spans_ok p (String.length src) (map t_span l) →
    ∃ s, span_get (tree_span x) src = Some s.
  Proof.
    intros H Hf Hs. destruct (parses_hull _ _ _ _ _ _ H Hf) as [H1 H2].
    destruct (lo_spec_bounds _ _ _ _ Hs H1) as [H3 H4]. destruct (end_pos_ge _ _ _ Hs) as [_ H5].
    destruct (span_get (tree_span x) src) as [s|] eqn:E; [by exists s|].
    destruct (span_get_spec (tree_span x) src) as (_ & _ & H6). apply H6 in E. cbn in E. lia.
  Qed.
  Lemma lang_parses t w : lang env t w → ∀ p l, filled env t → word src l = w → spans_ok p (String.length src) (map t_span l) →
    ∃ x, parses env src p t l x.
  Proof.
    intros H. revert t w H.
    apply (lang_mut env (λ t w _, ∀ p l, filled env t → word src l = w → spans_ok p (String.length src) (map t_span l) → ∃ x, parses env src p t l x)
      (λ ts w _, ∀ p l, Forall (filled env) ts → word src l = w → spans_ok p (String.length src) (map t_span l) → ∃ xs, pseq env src p ts l xs)).
    - intros n y lit t Hc p l _ E Hs. destruct l as [|a [|b l]]; try done. cbn in E. injection E as <-. destruct Hc as [Hy Hl]. cbn in Hy, Hl.
      exists (TrTok a). constructor. split; [done|]. destruct lit as [lit|]; [|done].
      cbn in Hs. destruct (text_of src a) eqn:E; [by destruct Hl as [?|[=->]]|]. unfold text_of, token_src in E.
      destruct (span_get_spec (t_span a) src) as (_ & _ & H6). apply H6 in E. lia.
    - intros n fs w En _ IH p l Hf E Hs. destruct (IH p l) as [xs Hx]; [|done..|by exists (TrSeq xs); econstructor].
      apply Forall_forall. intros c Hc. apply (all_within_sub _ _ _ _ Hf). cbn. by rewrite En.
    - intros n vs t sem w En Hin _ IH p l Hf E Hs. destruct (IH p l) as [x Hx]; [|done..|].
      + apply (all_within_sub _ _ _ _ Hf). cbn. rewrite En. cbn. apply elem_of_list_In, (in_map fst), elem_of_list_In in Hin. done.
      + apply elem_of_list_lookup_1 in Hin as [i Hi]. exists (TrVar i x). by econstructor.
    - intros ts w _ IH p l Hf E Hs. destruct (IH p l) as [xs Hx]; [|done..|by exists (TrSeq xs); constructor].
      apply Forall_forall. intros c Hc. by apply (all_within_sub _ _ _ _ Hf).
    - intros t w _ IH p l Hf E Hs. destruct (IH p l) as [x Hx]; [|done..|by exists x; constructor]. apply (all_within_sub _ _ _ _ Hf). cbn. set_solver.
    - intros t p l _ E _. destruct l; [|done]. eexists. constructor.
    - intros t w _ IH p l Hf E Hs. destruct (IH p l) as [x Hx]; [|done..|by eexists; apply p_some]. apply (all_within_sub _ _ _ _ Hf). cbn. set_solver.
    - intros t p l _ E _. destruct l; [|done]. eexists. constructor.
    - intros t w _ IH p l Hf E Hs. destruct (IH p l) as [x Hx]; [|done..|by eexists; eapply p_present]. apply (all_within_sub _ _ _ _ Hf). cbn. set_solver.
    - intros t w _ IH p l Hf E Hs. assert (Hf1 : filled env t). { apply (all_within_sub _ _ _ _ Hf). cbn. set_solver. }
      destruct (IH p l Hf1 E Hs) as [x Hx]. destruct (parses_text _ _ _ _ Hx Hf1 Hs) as [s Hg]. eexists. by eapply p_quote.
    - intros t w _ IH p l Hf E Hs. assert (Hf1 : filled env t). { apply (all_within_sub _ _ _ _ Hf). cbn. set_solver. }
      destruct (IH p l Hf1 E Hs) as [x Hx]. destruct (parses_text _ _ _ _ Hx Hf1 Hs) as [s Hg]. eexists. by eapply p_parse.
    - intros t n w _ IH p l Hf E Hs. destruct (IH p l) as [x Hx]; [|done..|by eexists; eapply p_plus].
      apply Forall_forall. intros c [-> _]%elem_of_replicate. apply (all_within_sub _ _ _ _ Hf). cbn. set_solver.
    - intros t n w _ IH p l Hf E Hs. destruct (IH p l) as [x Hx]; [|done..|].
      + apply Forall_forall. intros c [-> _]%elem_of_replicate. apply (all_within_sub _ _ _ _ Hf). cbn. set_solver.
      + destruct n as [|n]; [inversion Hx; subst; eexists; apply p_star_none|by eexists; eapply p_star].
    - intros t n w _ IH p l Hf E Hs. destruct (IH p l) as [x Hx]; [|done..|by eexists; eapply p_loop].
      apply Forall_forall. intros c [-> _]%elem_of_replicate. apply (all_within_sub _ _ _ _ Hf). cbn. set_solver.
    - intros t d n w _ IH p l Hf E Hs.
      assert (Ht : filled env t) by (apply (all_within_sub _ _ _ _ Hf); cbn; set_solver).
      assert (Hd : filled env d) by (apply (all_within_sub _ _ _ _ Hf); cbn; set_solver).
      destruct (IH p l) as [x Hx]; [|done..|by eexists; eapply p_split].
      apply Forall_cons. split; [done|]. by apply Forall_alt.
    - intros t d n b w _ IH p l Hf E Hs.
      assert (Ht : filled env t) by (apply (all_within_sub _ _ _ _ Hf); cbn; set_solver).
      assert (Hd : filled env d) by (apply (all_within_sub _ _ _ _ Hf); cbn; set_solver).
      destruct (IH p l) as [x Hx]; [|done..|by eexists; eapply p_punct].
      apply Forall_app. split; [|destruct b; [by apply Forall_cons|done]]. apply Forall_cons. split; [done|]. by apply Forall_alt.
    - intros t r w _ IH p l Hf E Hs. destruct (IH p l) as [xs Hx]; [|done..|].
      + apply Forall_forall. intros c Hc. by apply (all_within_sub _ _ _ _ Hf).
      + inversion Hx as [|? ? ? ? ? ? ? ? Hx2]; subst. inversion Hx2 as [|? ? ? ? ? ? ? ? Hx3]; subst. inversion Hx3; subst.
        eexists. by eapply p_recover.
    - intros p l _ E _. destruct l; [|done]. eexists. constructor.
    - intros t ts w1 w2 _ IH _ IHs p l [Hf Hfs]%Forall_cons E Hs.
      apply word_split in E as (l1 & l2 & -> & E1 & E2). apply spans_ok_pos in Hs as [Hs1 Hs2].
      destruct (IH p l1 Hf E1 Hs1) as [x Hx]. destruct (IHs (end_pos p l1) l2 Hfs E2 Hs2) as [xs Hxs]. eexists. by econstructor.
  Qed.
End lang.

(** * Statements about runs *)
Section run.
  Variable extract : nat → bool.
  Notation run := (run extract).
  Notation abs := (abs extract).
  Lemma term_produce env md t s x l : filled env t → state_ok s →
    term (λ f, produce_md env md f t) (abs s) (λ r s', r = RSucc x ∧ adv (abs s) l s') →
    ∃ f0 s', took extract s l s' ∧ only_bad_text s s' ∧ ∀ f, f0 ≤ f → run (produce_md env md f t) s = ODone (RSucc x) s'.
  Proof.
    intros Hf Hok (f0 & o & Ho & Hq).
    assert (Hnc : run (produce_md env md f0 t) s ≠ OCrash) by (by apply produce_no_crash).
    assert (Ha := run_abs extract (produce_md env md f0 t) s). rewrite (Ho f0) in Ha by lia.
    destruct (run (produce_md env md f0 t) s) as [| |r s'] eqn:E; cbn in Ha; subst o; [done..|].
    destruct Hq as [-> Hq]. exists f0, s'. split; [by apply took_adv|]. split; [by eapply produce_run_errors|].
    intros f Hle. rewrite <- E. apply le_run; [by apply produce_le|by rewrite E].
  Qed.
  Lemma run_parse_succ env md f t s x s' : run (produce_md env md f t) s = ODone (RSucc x) s' →
    run (parse env f t (inr md)) s = ODone (inr (Some x)) s'.
  Proof. intros H. unfold parse, parse_with. rewrite !run_bind. unfold produce_md in H. by rewrite H. Qed.

  Section conditions.
    Context env root md regs (Hacc : accepted env root md) (Hr : register_root env (prod_of root) = Some regs).
    Context (Hf : filled env root) (He : plain_enums env root) (Hd : solid_delims env root).
    Context (Hll1 : LL1 regs (key root)) (Hnear : ∀ t d x, within env root (TPunct t d) → follows regs (key root) (key (TPunct t d)) (Some x) → near_follow regs (key root) (key (TPunct t d)) (Some x)).
    Lemma produce_complete_ll1 t s l u x : within env root t → no_loop env t → state_ok s → to_come extract s = l ++ u →
      fits regs root t (p_src s) u → parses env (p_src s) (end_of (p_tokens s)) t l x →
      ∃ f0 s', took extract s l s' ∧ only_bad_text s s' ∧ ∀ f, f0 ≤ f → run (produce_md env md f t) s = ODone (RSucc x) s'.
    Proof using All.
      intros Hw Hnl Hok Eto Hu Hp. destruct Hacc as (regs' & iter & Hreg & Hperm & Hmeta). assert (regs' = regs) as -> by congruence.
      assert (Hft : filled env t). { intros c Hc. apply Hf. by eapply rtc_transitive. }
      apply (term_produce env md t s x l Hft Hok).
      eapply (parses_run env root regs iter md Hreg Hperm Hmeta (λ k x, follows regs (key root) k (Some x)) He) with (u := u) (src := p_src s);
        [exact (follows_seq env root regs Hreg)|exact (follows_last env root regs Hreg)|exact (follows_union env root regs Hreg)| |exact Hf|exact Hd|exact Hnear|exact Hp|by split|by apply state_ok_abs|done..].
      intros k y H1 H2 H3. exact (null_conflict_not_ll1 regs (key root) (md_functional _ _ _ _ _ Hreg Hperm Hmeta) k y H2 H1 H3 Hll1).
    Qed.
    Lemma root_complete_ll1 s x : no_loop_below env root → state_ok s →
      parses env (p_src s) (end_of (p_tokens s)) root (to_come extract s) x →
      ∃ f0 s', took extract s (to_come extract s) s' ∧ only_bad_text s s' ∧
        ∀ f, f0 ≤ f → run (produce_md env md f root) s = ODone (RSucc x) s'.
    Proof using All.
      intros Hnl Hok Hp. destruct Hacc as (regs' & iter & Hreg & Hperm & Hmeta). assert (regs' = regs) as -> by congruence.
      apply (term_produce env md root s x _ Hf Hok).
      eapply (root_run env root regs iter md Hreg Hperm Hmeta (λ k x, follows regs (key root) k (Some x)) He) with (src := p_src s);
        [exact (follows_seq env root regs Hreg)|exact (follows_last env root regs Hreg)|exact (follows_union env root regs Hreg)| |exact Hf|exact Hd|exact Hnear|exact Hp|done|by apply state_ok_abs|done..].
      intros k y H1 H2 H3. exact (null_conflict_not_ll1 regs (key root) (md_functional _ _ _ _ _ Hreg Hperm Hmeta) k y H2 H1 H3 Hll1).
    Qed.
  End conditions.
End run.

(** The simple condition: no nullable element strictly inside a sequence. *)
Lemma regular_interior env root md : accepted env root md → filled env root → plain_enums env root →
  solid_delims env root → no_loop_below env root →
  (∀ regs, register_root env (prod_of root) = Some regs → no_nullable_interior regs) → regular env root.
Proof.
  intros (regs & iter & Hr & Hperm & Hmeta) H1 H2 H3 H4 H. split; [done..| |].
  - intros regs' Hr'. assert (regs' = regs) as -> by congruence.
    eapply accepted_ll1; [exact (md_functional _ _ _ _ _ Hr Hperm Hmeta)|exact Hperm|by apply H|exact Hmeta].
  - intros regs' Hr' t d x _. apply follows_near. by apply H.
Qed.
(** Regular, from the FOLLOW sets computed being large enough. *)
Lemma regular_follow env root md : accepted env root md → filled env root → plain_enums env root →
  solid_delims env root → no_loop_below env root →
  (∀ regs, register_root env (prod_of root) = Some regs → ∀ k x,
    (∃ l, (k, EUnion l) ∈ regs ∧ nullable regs k ∧ starts regs k x) ∨ (∃ t d, k = key (TPunct t d) ∧ within env root (TPunct t d)) →
    follows regs (key root) k (Some x) → near_follow regs (key root) k (Some x)) → regular env root.
Proof.
  intros (regs & iter & Hr & Hperm & Hmeta) H1 H2 H3 H4 H. split; [done..| |].
  - intros regs' Hr'. assert (regs' = regs) as -> by congruence.
    eapply accepted_ll1_near; [exact (md_functional _ _ _ _ _ Hr Hperm Hmeta)|exact Hperm| |exact Hmeta].
    intros k l t ???. apply H; eauto.
  - intros regs' Hr' t d x Hw. apply (H _ Hr'). eauto.
Qed.
Section regular.
  Context (extract : nat → bool) env root md (Hacc : accepted env root md) (Hreg : regular env root).
  Lemma produce_complete regs t s l u x : register_root env (prod_of root) = Some regs → within env root t → no_loop env t →
    state_ok s → to_come extract s = l ++ u → fits regs root t (p_src s) u →
    parses env (p_src s) (end_of (p_tokens s)) t l x →
    ∃ f0 s', took extract s l s' ∧ only_bad_text s s' ∧ ∀ f, f0 ≤ f → run extract (produce_md env md f t) s = ODone (RSucc x) s'.
  Proof using Hacc Hreg.
    intros Hr. apply (produce_complete_ll1 extract env root md regs Hacc Hr); [by destruct Hreg..|by apply (reg_ll1 _ _ Hreg)|].
    by apply (reg_punct _ _ Hreg).
  Qed.
  Lemma parse_complete s : state_ok s → lang env root (word (p_src s) (to_come extract s)) →
    ∃ f0 x s', parses env (p_src s) (end_of (p_tokens s)) root (to_come extract s) x ∧
      took extract s (to_come extract s) s' ∧ only_bad_text s s' ∧
      ∀ f, f0 ≤ f → run extract (parse env f root (inr md)) s = ODone (inr (Some x)) s'.
  Proof using Hacc Hreg.
    intros Hok Hl. assert (Hok' := state_ok_abs extract _ Hok). apply aok_pos in Hok' as [Hsp _].
    destruct (lang_parses env (p_src s) root _ Hl (end_of (p_tokens s)) (to_come extract s)) as [x Hx]; [by destruct Hreg|done|exact Hsp|].
    assert (Hacc' := Hacc). destruct Hacc' as (regs & iter & Hr & Hperm & Hmeta).
    destruct (root_complete_ll1 extract env root md regs Hacc Hr (reg_filled _ _ Hreg) (reg_enums _ _ Hreg) (reg_delims _ _ Hreg) (reg_ll1 _ _ Hreg _ Hr)
      (reg_punct _ _ Hreg _ Hr) s x (reg_loop _ _ Hreg) Hok Hx) as (f0 & s' & H1 & H2 & H3).
    exists f0, x, s'. split_and!; [done..|]. intros f Hle. apply run_parse_succ. auto.
  Qed.
End regular.

(** A state with the tokens [l] to come after position [p]. *)
Definition state_at (src : string) (p : nat) (l : list token) : pst :=
  Pst src (map (λ t, RTok (t_ty t) (t_span t)) l) None []
    (match p with 0 => [] | S _ => [cell_of (Token (Span 0 p) 0)] end) [] [].
Lemma state_at_ok src p l : spans_ok p (String.length src) (map t_span l) → state_ok (state_at src p l).
Proof.
  intros H. unfold state_ok, state_at. cbn [p_tokens p_peeked p_evs p_src].
  assert (map raw_span (map (λ t, RTok (t_ty t) (t_span t)) l) = map t_span l) as -> by (by rewrite map_map).
  destruct p; cbn; [done|]. split_and!; [lia|lia|done].
Qed.
Lemma state_at_rest src p l : to_come (λ _, false) (state_at src p l) = l.
Proof.
  unfold to_come, state_at. cbn [p_peeked p_evs app].
  assert (raw_tokens (map (λ t, RTok (t_ty t) (t_span t)) l) = l) as ->.
  { induction l as [|[sp ty] l IH]; [done|]. cbn. by rewrite IH. }
  induction l as [|t l IH]; [done|]. rewrite filter_cons_True by done. by rewrite IH.
Qed.
Lemma state_at_end src p l : end_of (p_tokens (state_at src p l)) = p.
Proof. by destruct p. Qed.

Lemma unambiguous_at env root md t src p l x x' : accepted env root md → regular env root → within env root t → no_loop env t →
  spans_ok p (String.length src) (map t_span l) → parses env src p t l x → parses env src p t l x' → x = x'.
Proof.
  intros Hacc Hreg Hw Hnl Hs H1 H2. assert (Hacc' := Hacc). destruct Hacc' as (regs & iter & Hr & Hperm & Hmeta).
  assert (G : ∀ x, parses env src p t l x → ∃ f0 s', ∀ f, f0 ≤ f → run (λ _, false) (produce_md env md f t) (state_at src p l) = ODone (RSucc x) s').
  { intros y Hy. destruct (produce_complete (λ _, false) env root md Hacc Hreg regs t (state_at src p l) l [] y Hr Hw Hnl) as (f0 & s' & _ & _ & H).
    - by apply state_at_ok.
    - by rewrite state_at_rest, app_nil_r.
    - done.
    - by rewrite state_at_end.
    - by exists f0, s'. }
  destruct (G _ H1) as (f1 & s1 & E1). destruct (G _ H2) as (f2 & s2 & E2).
  specialize (E1 (f1 + f2) ltac:(lia)). specialize (E2 (f1 + f2) ltac:(lia)). congruence.
Qed.
Lemma unambiguous_root env root md src p l x x' : accepted env root md → regular env root →
  spans_ok p (String.length src) (map t_span l) → parses env src p root l x → parses env src p root l x' → x = x'.
Proof.
  intros Hacc Hreg Hs H1 H2. assert (Hacc' := Hacc). destruct Hacc' as (regs & iter & Hr & Hperm & Hmeta).
  assert (G : ∀ x, parses env src p root l x → ∃ f0 s', ∀ f, f0 ≤ f → run (λ _, false) (produce_md env md f root) (state_at src p l) = ODone (RSucc x) s').
  { intros y Hy. destruct (root_complete_ll1 (λ _, false) env root md regs Hacc Hr (reg_filled _ _ Hreg) (reg_enums _ _ Hreg) (reg_delims _ _ Hreg) (reg_ll1 _ _ Hreg _ Hr)
      (reg_punct _ _ Hreg _ Hr) (state_at src p l) y (reg_loop _ _ Hreg)) as (f0 & s' & _ & _ & H).
    - by apply state_at_ok.
    - by rewrite state_at_rest, state_at_end.
    - by exists f0, s'. }
  destruct (G _ H1) as (f1 & s1 & E1). destruct (G _ H2) as (f2 & s2 & E2).
  specialize (E1 (f1 + f2) ltac:(lia)). specialize (E2 (f1 + f2) ltac:(lia)). congruence.
Qed.
