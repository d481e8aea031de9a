(** Every tree is a tree of a repaired input. *)
From Coq Require Import String NArith.
From stdpp Require Import prelude list strings relations.
From Verif Require Import LexModel LexSpec LexFacts SynSetModel TableModel StreamModel StreamSpec StreamFacts TypeModel ProduceModel ParseSpec ProgFacts TreeFacts SoundFacts RunFacts InvFacts LookFacts NodeFacts LoopFacts LeafSpec LeafFacts CompleteFacts RepairSpec.
Local Open Scope nat_scope.
#[local] Arguments ts_contains : simpl never.
#[local] Arguments ts_contains_e : simpl never.
Notation W := (wp True True).

Section typed.
  Variable env : denv.
  Notation mends := (mends env).
  Notation mendss := (mendss env).
  Lemma mendss_app ts us xs ys k1 k2 : mendss ts xs k1 → mendss us ys k2 → mendss (ts ++ us) (xs ++ ys) (k1 ++ k2).
  Proof. induction 1; intros Hu; cbn; [done|]. rewrite <- (assoc_L (++)). constructor; auto. Qed.
  Lemma mendss_one t x k : mends t x k → mendss [t] [x] k.
  Proof. intros H. rewrite <- (app_nil_r k). constructor; [done|constructor]. Qed.
  Lemma mendss_snoc ts t xs x k1 k2 : mendss ts xs k1 → mends t x k2 → mendss (ts ++ [t]) (xs ++ [x]) (k1 ++ k2).
  Proof. intros H1 H2. apply mendss_app; [done|by apply mendss_one]. Qed.
  Definition many (t : ty) (xs : list tree) (ks : list kept) : Prop := mendss (replicate (length xs) t) xs ks.
  Lemma many_nil t : many t [] [].
  Proof. constructor. Qed.
  Lemma many_one t x k : mends t x k → many t [x] k.
  Proof. apply mendss_one. Qed.
  Lemma many_snoc t xs x k1 k2 : many t xs k1 → mends t x k2 → many t (xs ++ [x]) (k1 ++ k2).
  Proof. intros H1 H2. unfold many. rewrite app_length, Nat.add_1_r, replicate_S_end. by apply mendss_app, mendss_one. Qed.
  Lemma alternate_snoc n (t d : ty) : alternate (S n) t d = alternate n t d ++ [d; t].
  Proof.
    unfold alternate. cbn [app]. f_equal. induction n as [|n IH]; [done|]. cbn [replicate concat] in *. rewrite IH at 1. done.
  Qed.
  Definition alt (t d : ty) (a b : list tree) (ks : list kept) : Prop :=
    length a = S (length b) ∧ mendss (alternate (length b) t d) (interleave a b) ks.
  Lemma alt_snoc t d a b p x k1 k2 k3 : alt t d a b k1 → mends d p k2 → mends t x k3 → alt t d (a ++ [x]) (b ++ [p]) (k1 ++ k2 ++ k3).
  Proof.
    intros [Hl H1] H2 H3. split; [rewrite !app_length; cbn; lia|]. rewrite app_length. replace (length b + length [p]) with (S (length b)) by (cbn; lia).
    rewrite alternate_snoc, interleave_snoc by done. apply mendss_app; [done|]. constructor; [done|by apply mendss_one].
  Qed.
  Definition pun (t d : ty) (a b : list tree) (ks : list kept) : Prop := ∃ x gs, a = x :: omap snd gs ∧ b = map fst gs ∧
    mendss (t :: flat_map (λ g : tree * option tree, d :: match g.2 with Some _ => [t] | None => [] end) gs)
      (x :: flat_map (λ g, g.1 :: option_list g.2) gs) ks.
  Lemma pun_snoc t d a b p o k1 k2 k3 : pun t d a b k1 → mends d p k2 → match o with Some x => mends t x k3 | None => k3 = [] end →
    pun t d (a ++ option_list o) (b ++ [p]) (k1 ++ k2 ++ k3).
  Proof.
    intros (y & gs & -> & -> & H) Hp Ho. exists y, (gs ++ [(p, o)]). split_and!.
    - rewrite omap_app. cbn. by destruct o.
    - by rewrite map_app.
    - rewrite !flat_map_app. rewrite !app_comm_cons. apply mendss_app; [done|]. cbn. rewrite !app_nil_r.
      constructor; [done|]. destruct o as [x|]; [by apply mendss_one|subst; constructor].
  Qed.
End typed.

Section emb.
  Variable src : string.
  Variable ins : list token → kept → perr → Prop.
  Lemma rp_skips pre l : repairs src ins pre l [] [].
  Proof. revert pre. induction l as [|t l IH]; intros pre; constructor. apply IH. Qed.
  Lemma rp_app pre l1 l2 k1 k2 d1 d2 : repairs src ins pre l1 k1 d1 → repairs src ins (pre ++ l1) l2 k2 d2 →
    repairs src ins pre (l1 ++ l2) (k1 ++ k2) (d1 ++ d2).
  Proof.
    induction 1 as [pre|pre t l ks ds _ IH|pre t l ks ds _ IH|pre k e l ks ds Hk _ IH]; intros H; cbn.
    - by rewrite app_nil_r in H.
    - apply rp_skip, IH. by rewrite <- (assoc_L (++)).
    - apply rp_take, IH. by rewrite <- (assoc_L (++)).
    - apply rp_ins; [done|]. by apply IH.
  Qed.
End emb.

Lemma sl_pre {A} (a b : list A) : b `sublist_of` a ++ b.
Proof. by apply sublist_inserts_l. Qed.
Lemma sl_suf {A} (a b : list A) : a `sublist_of` a ++ b.
Proof. by apply sublist_inserts_r. Qed.
Lemma sl_skip {A} (k a b : list A) : a `sublist_of` b → k ++ a `sublist_of` k ++ b.
Proof. intros. by apply sublist_app. Qed.
Ltac sl := cbn; rewrite ?app_nil_r; rewrite <- ?(assoc_L (++)); repeat first [done|apply sublist_nil_l|apply sl_skip|apply sl_suf|apply sublist_inserts_l].

Section leaf.
  Variable env : denv.
  Variables (first follow : prod → tset) (jump : prod → option tok → option nat).
  Variables (root : ty) (src : string) (all : list token).
  Hypothesis Hall : spans_ok 0 (String.length src) (map t_span all).
  Notation produce := (produce env first follow jump).
  Notation st := (st src all).
  Notation ins := (missing env follow root src all).
  Notation mends := (mends env).
  Notation mendss := (mendss env).
  Notation many := (many env).

  Definition rch (s s' : ast) : Prop := ∃ l, adv s l s'.
  Lemma rch_refl s : rch s s.
  Proof. exists []. apply adv_refl. Qed.
  Lemma rch_trans a b c : rch a b → rch b c → rch a c.
  Proof. intros [l1 H1] [l2 H2]. exists (l1 ++ l2). by eapply adv_trans. Qed.
  Lemma rch_st a b : rch a b → st a → st b.
  Proof. intros [l H]. by eapply st_adv. Qed.
  Lemma ok s : st s → aok s.
  Proof. intros [H1 H2]. rewrite aok_eq. by rewrite H1, H2. Qed.

  (** The tokens [ks] with [R] come from the part of the input between the states. *)
  Definition acc (es : list perr) (s : ast) (R : list kept → Prop) (s' : ast) : Prop :=
    ∃ l ks ds, adv s l s' ∧ R ks ∧ repairs src ins (toks s) l ks ds ∧ ds `sublist_of` es.
  Lemma acc_nil es s (R : list kept → Prop) s' : rch s s' → R [] → acc es s R s'.
  Proof. intros [l Hl] H. exists l, [], []. split_and!; [done..| |apply sublist_nil_l]. apply rp_skips. Qed.
  Lemma acc_app es1 es2 es s s1 s2 (R1 R2 R : list kept → Prop) : acc es1 s R1 s1 → acc es2 s1 R2 s2 →
    (∀ k1 k2, R1 k1 → R2 k2 → R (k1 ++ k2)) → es1 ++ es2 `sublist_of` es → acc es s R s2.
  Proof.
    intros (l1 & k1 & d1 & A1 & H1 & E1 & D1) (l2 & k2 & d2 & A2 & H2 & E2 & D2) HR HS.
    exists (l1 ++ l2), (k1 ++ k2), (d1 ++ d2). split_and!; [by eapply adv_trans|auto| |].
    - apply rp_app; [exact E1|]. assert (toks s1 = toks s ++ l1) as <- by apply A1. exact E2.
    - etrans; [|exact HS]. by apply sublist_app.
  Qed.
  Lemma acc_to es es' s s1 s2 (R R' : list kept → Prop) : acc es s R s1 → rch s1 s2 → (∀ k, R k → R' k) → es `sublist_of` es' → acc es' s R' s2.
  Proof.
    intros H1 H2 HR Hs. eapply (acc_app es []); [exact H1|by apply (acc_nil [] s1 (λ k, k = []) s2)| |by rewrite app_nil_r].
    intros k1 k2 H ->. rewrite app_nil_r. auto.
  Qed.
  Lemma acc_mono es es' s s1 (R R' : list kept → Prop) : acc es s R s1 → (∀ k, R k → R' k) → es `sublist_of` es' → acc es' s R' s1.
  Proof. intros. eapply acc_to; eauto using rch_refl. Qed.

  Definition leafp {X} (Y : X → list kept → Prop) (p : M (res X)) : Prop :=
    ∀ s, st s → W p s (λ r s', ∀ x, value r = Some x → acc (errors_of r) s (Y x) s').

  Lemma lcall {X B} (Y : X → list kept → Prop) (p : M (res X)) (k : res X → M B) s Q : leafp Y p → st s →
    (∀ r s', rch s s' → st s' → (∀ x, value r = Some x → acc (errors_of r) s (Y x) s') → W (k r) s' Q) → W (p ≫= k) s Q.
  Proof.
    intros Hp Hst Hk. apply wp_bind, wp_adv. eapply wp_mono; [by apply Hp|]. intros r s' Hr l Hl.
    assert (rch s s') by (by exists l). apply Hk; [done|by eapply rch_st|done].
  Qed.
  Lemma lbind {A B} (m : M A) (k : A → M B) s (Q' : A → ast → Prop) Q : st s → W m s Q' →
    (∀ a s', rch s s' → st s' → Q' a s' → W (k a) s' Q) → W (m ≫= k) s Q.
  Proof.
    intros Hst Hm Hk. apply wp_bind, wp_adv. eapply wp_mono; [exact Hm|]. intros a s' Ha l Hl.
    assert (rch s s') by (by exists l). apply Hk; [done|by eapply rch_st|done].
  Qed.
  Lemma lskip {A B} (m : M A) (k : A → M B) s Q : st s →
    (∀ a s', rch s s' → st s' → W (k a) s' Q) → W (m ≫= k) s Q.
  Proof.
    intros Hst Hk. apply (lbind _ _ _ (λ _ _, True)); [done| |intros; by apply Hk].
    unfold wp. by destruct (arun m s).
  Qed.
  Lemma lret {X} (Y : X → list kept → Prop) (x : X) es s0 s : acc es s0 (Y x) s →
    W (mret (res_into x es)) s (λ r s', ∀ x, value r = Some x → acc (errors_of r) s0 (Y x) s').
  Proof. intros H. apply wp_ret. unfold value, errors_of. rewrite unres_into. cbn. by intros ? [= <-]. Qed.
  Lemma lpanic {X} (Y : X → list kept → Prop) es s0 s :
    W (mret (@RPanic X es)) s (λ r s', ∀ x, value r = Some x → acc (errors_of r) s0 (Y x) s').
  Proof. by apply wp_ret. Qed.
  Lemma lmap {X Z} (Y : X → list kept → Prop) (Y' : Z → list kept → Prop) (g : X → Z) (p : M (res X)) :
    leafp Y p → (∀ x k, Y x k → Y' (g x) k) → leafp Y' (r ← p; mret (res_map g r)).
  Proof.
    intros Hp Hg s Hst. apply (lcall Y); [done..|]. intros r s1 _ _ H. apply wp_ret. unfold value, errors_of in *. rewrite unres_map. cbn.
    intros y. destruct (unres r) as [[x|] e]; cbn in *; [|done]. intros [= <-]. eapply acc_mono; [by apply H|auto|done].
  Qed.

  Lemma seq_leaf rec us : (∀ t, t ∈ us → leafp (mends t) (rec t)) → ∀ ts xs errs s0 s, rch s0 s → st s → acc errs s0 (mendss ts xs) s →
    W (produce_seq rec us xs errs) s (λ r s', ∀ x, value r = Some x → acc (errors_of r) s0 (mendss (ts ++ us) x) s').
  Proof.
    induction us as [|t us IH]; intros Hr ts xs errs s0 s H0 Hst Ha; cbn [produce_seq].
    - rewrite app_nil_r. by apply (lret (mendss ts)).
    - apply (lcall (mends t)); [apply Hr; set_solver|done|]. intros r s1 H1 Hst1 Hx. unfold value, errors_of in Hx.
      destruct (unres r) as [[x|] e]; cbn in Hx; [|by apply (lpanic (mendss (ts ++ t :: us)))].
      rewrite (cons_middle t), (assoc_L (++)). apply IH; [set_solver|by eapply rch_trans|done|].
      eapply acc_app; [exact Ha|by apply Hx|intros; by apply mendss_snoc|sl].
  Qed.
  Lemma option_leaf {X} (Y : X → list kept → Prop) (p : M (res X)) sp set : leafp Y p →
    leafp (λ x k, match x.2 with Some y => x.1 = sp y ∧ Y y k | None => k = [] end) (produce_option p sp set).
  Proof.
    intros Hp s Hst. unfold produce_option.
    assert (Hn : ∀ s1, rch s s1 → acc [] s (λ k, k = []) s1) by (intros; by apply acc_nil).
    apply lskip; [done|]. intros tk s1 H1 Hst1. destruct tk as [x|]; [destruct (ts_contains set (Some x))|].
    - apply (lcall Y); [done..|]. intros r s2 H2 Hst2 Hx. unfold value, errors_of in Hx.
      destruct r as [y|y es|es]; cbn in Hx.
      + apply wp_ret. intros z [= <-]. cbn. eapply (acc_app [] []); [by apply Hn|by apply Hx| |sl]. by intros ? k -> ?.
      + apply wp_ret. intros z [= <-]. cbn. eapply (acc_app [] es); [by apply Hn|by apply Hx| |sl]. by intros ? k -> ?.
      + apply lskip; [done|]. intros e s3 H3 _. apply wp_ret. intros z [= <-]. cbn. apply acc_nil; [|done].
        eapply rch_trans; [done|]. by eapply rch_trans.
    - apply lskip; [done|]. intros e s3 H3 _. apply wp_ret. intros z [= <-]. cbn. apply Hn. by eapply rch_trans.
    - apply lskip; [done|]. intros e s3 H3 _. apply wp_ret. intros z [= <-]. cbn. apply Hn. by eapply rch_trans.
  Qed.
  Definition some (t : ty) (xs : list tree) (ks : list kept) : Prop := xs ≠ [] ∧ many t xs ks.
  Lemma some_one t x k : mends t x k → some t [x] k.
  Proof. intros H. split; [done|by apply many_one]. Qed.
  Lemma some_snoc t xs x k1 k2 : some t xs k1 → mends t x k2 → some t (xs ++ [x]) (k1 ++ k2).
  Proof. intros [_ H] Hx. split; [by destruct xs|by apply many_snoc]. Qed.
  Lemma iter_leaf t p set n : leafp (mends t) p → ∀ xs errs hi s0 s, rch s0 s → st s → acc errs s0 (some t xs) s →
    W (iter_loop n p set xs errs hi) s (λ q s', acc q.1.2 s0 (some t q.1.1) s').
  Proof.
    intros Hp. induction n as [|n IH]; intros xs errs hi s0 s H0 Hst Ha; [done|]. cbn [iter_loop].
    apply lskip; [done|]. intros tk s1 H1 Hst1.
    assert (Ha1 : ∀ es s', errs `sublist_of` es → rch s1 s' → acc es s0 (some t xs) s').
    { intros es s' He H. eapply acc_to; [exact Ha|by eapply rch_trans|done|sl]. }
    destruct tk as [x|]; [destruct (ts_contains set (Some x))|]; [|apply wp_ret; cbn; apply Ha1; [sl|apply rch_refl]..].
    apply (lcall (mends t)); [done..|]. intros r s2 H2 Hst2 Hx. unfold value, errors_of in Hx. destruct (unres r) as [[y|] e]; cbn in Hx.
    - apply IH; [eapply rch_trans; [done|]; by eapply rch_trans|done|].
      eapply acc_app; [apply (Ha1 errs s1); [sl|apply rch_refl]|by apply Hx|intros; by apply some_snoc|sl].
    - apply wp_ret. cbn. apply Ha1; [sl|done].
  Qed.
  Lemma plus_leaf t p set n : leafp (mends t) p → leafp (λ x, some t x.2) (produce_plus n p set).
  Proof.
    intros Hp s Hst. unfold produce_plus. apply (lcall (mends t)); [done..|]. intros r s1 H1 Hst1 Hx. unfold value, errors_of in Hx.
    destruct (unres r) as [[y|] e]; cbn in Hx; [|by apply wp_ret].
    eapply lbind; [done|apply (iter_leaf t p set n Hp _ _ _ s); [done..|]|].
    { eapply acc_mono; [by apply Hx|apply some_one|sl]. }
    intros [[l errs] hi] s2 _ _ Ha. by apply (lret (λ x, some t x.2)).
  Qed.
  Lemma loop_leaf t p set n : leafp (mends t) p → ∀ xs errs s0 s, rch s0 s → st s → acc errs s0 (many t xs) s →
    W (loop_loop n p set xs errs) s (λ q s', acc q.2 s0 (many t q.1) s').
  Proof.
    intros Hp. induction n as [|n IH]; intros xs errs s0 s H0 Hst Ha; [done|]. cbn [loop_loop].
    apply lskip; [done|]. intros tk s1 H1 Hst1.
    assert (Ha1 : ∀ es s', errs `sublist_of` es → rch s1 s' → acc es s0 (many t xs) s').
    { intros es s' He H. eapply acc_to; [exact Ha|by eapply rch_trans|done|sl]. }
    destruct tk as [x|]; [|apply wp_ret; cbn; apply Ha1; [sl|apply rch_refl]].
    eapply (lbind _ _ _ (λ q s', ∃ d, q.2 = errs ++ d)); [done| |].
    { destruct (ts_contains set (Some x)); [apply wp_ret; exists []; by rewrite app_nil_r|].
      do 4 (apply lskip; [done|]; intros). case_match. apply wp_ret. cbn. eauto. }
    intros [tk1 errs1] s2 H2 Hst2 [d He]. cbn in He. subst errs1. destruct tk1; [|apply wp_ret; cbn; apply Ha1; [sl|done]].
    apply lskip; [done|]. intros sp0 s3 H3 Hst3. apply (lcall (mends t)); [done..|]. intros r s4 H4 Hst4 Hx.
    unfold value, errors_of in Hx. destruct (unres r) as [o e]; cbn in Hx.
    assert (Ha4 : acc ((errs ++ d) ++ e) s0 (many t (xs ++ option_list o)) s4).
    { destruct o as [y|]; cbn.
      - eapply acc_app; [apply (Ha1 errs s3); [done|by eapply rch_trans]|by apply Hx|intros; by apply many_snoc|sl].
      - rewrite app_nil_r. apply Ha1; [sl|]. eapply rch_trans; [done|]. by eapply rch_trans. }
    apply lskip; [done|]. intros sp1 s5 H5 Hst5.
    assert (Ha5 : acc ((errs ++ d) ++ e) s0 (many t (xs ++ option_list o)) s5) by (eapply acc_to; [exact Ha4|done|done|sl]).
    destruct (sp_lo sp0 =? sp_lo sp1).
    - apply wp_ret. cbn. eapply acc_mono; [exact Ha5|done|sl].
    - apply IH; [|done..]. do 4 (eapply rch_trans; [eassumption|]). by eapply rch_trans.
  Qed.
  Lemma produce_loop_leaf t p set n : leafp (mends t) p → leafp (λ x, many t x.2) (produce_loop n p set).
  Proof.
    intros Hp s Hst. unfold produce_loop. eapply lbind; [done|apply (loop_leaf t p set n Hp _ _ s); [apply rch_refl|done|]|].
    { apply acc_nil; [apply rch_refl|apply many_nil]. }
    intros [l errs] s1 H1 Hst1 Ha. apply lskip; [done|]. intros sp s2 H2 Hst2.
    apply (lret (λ x, many t x.2)). by eapply acc_to.
  Qed.

  Lemma split_inner_leaf t pT ef pf fol n : leafp (mends t) pT → ∀ panic errs s0 s, rch s0 s → st s →
    W (split_inner n pT ef pf fol panic errs) s (λ q s', ∃ e, q.1.2 = errs ++ e ∧ match q.1.1 with Some x => acc e s0 (mends t x) s' | None => True end).
  Proof.
    intros Hp. induction n as [|n IH]; intros panic errs s0 s H0 Hst; [done|]. cbn [split_inner].
    apply lskip; [done|]. intros tk s1 H1 Hst1.
    eapply (lbind _ _ _ (λ q s', match q with inl (y0, es) => ∃ e, es = errs ++ e ∧ acc e s0 (mends t y0) s' | inr _ => True end)); [done| |].
    - destruct (ts_contains ef tk || ts_contains_e ef).
      + apply (lcall (mends t)); [done..|]. intros r s2 H2 Hst2 Hx. unfold value, errors_of in Hx. destruct (unres r) as [[y|] e]; cbn in Hx.
        * apply wp_ret. eexists. split; [done|]. eapply (acc_app [] e); [apply (acc_nil [] s0 (λ k, k = []) s1); [by eapply rch_trans|sl]|by apply Hx| |sl].
          by intros ? k ->.
        * apply lskip; [done|]. intros. by apply wp_ret.
      + destruct panic; (apply lskip; [done|]; intros; by apply wp_ret).
    - intros [[y0 es]|[tk' panic']] s2 H2 Hst2 Hq.
      + apply wp_ret. done.
      + destruct (ts_contains pf tk'); [apply wp_ret; cbn; first [by eexists|exists []; by rewrite app_nil_r]|].
        destruct (_ || _); [apply wp_ret; cbn; first [by eexists|exists []; by rewrite app_nil_r]|].
        apply lskip; [done|]. intros a s3 H3 Hst3. apply IH; [|done].
        do 2 (eapply rch_trans; [eassumption|]). by eapply rch_trans.
  Qed.
  Lemma split_outer_leaf t d pT pP ef pf fol n : leafp (mends t) pT → leafp (mends d) pP → ∀ xs ps errs s0 s, rch s0 s → st s →
    acc errs s0 (alt env t d xs ps) s →
    W (split_outer n pT pP ef pf fol xs ps errs) s (λ q s', acc q.2 s0 (alt env t d q.1.1 q.1.2) s').
  Proof.
    intros HT HP. induction n as [|n IH]; intros xs ps errs s0 s H0 Hst Ha; [done|]. cbn [split_outer].
    apply lskip; [done|]. intros tk s1 H1 Hst1.
    assert (Ha1 : ∀ es s', errs `sublist_of` es → rch s1 s' → acc es s0 (alt env t d xs ps) s').
    { intros es s' He H. eapply acc_to; [exact Ha|by eapply rch_trans|done|sl]. }
    destruct tk as [x|]; [destruct (ts_contains pf (Some x))|]; [|apply wp_ret; cbn; apply Ha1; [sl|apply rch_refl]..].
    apply (lcall (mends d)); [done..|]. intros r s2 H2 Hst2 Hx. unfold value, errors_of in Hx. destruct (unres r) as [[p|] e]; cbn in Hx.
    2:{ apply wp_ret. cbn. apply Ha1; [sl|done]. }
    eapply lbind; [done|apply (split_inner_leaf t pT ef pf fol n HT _ _ s2); [apply rch_refl|done]|].
    intros [[o errs'] cont] s3 H3 Hst3 (d' & He & Ho). cbn [fst snd] in He, Ho. subst errs'.
    assert (Ha3 : acc ((errs ++ e) ++ d') s0 (alt env t d (xs ++ option_list o) (match o with Some _ => ps ++ [p] | None => ps end)) s3).
    { destruct o as [y|].
      - change (option_list (Some y)) with [y].
        eapply (acc_app errs (e ++ d') _ _ s1 _ _ (λ k, ∃ k2 k3, k = k2 ++ k3 ∧ mends d p k2 ∧ mends t y k3));
          [apply (Ha1 errs s1); [sl|apply rch_refl]| |intros k1 ? H (k2 & k3 & -> & Hp & Hy); by apply alt_snoc|sl].
        eapply (acc_app e d'); [by apply Hx|exact Ho|by eauto 10|sl].
      - change (option_list None) with (@nil tree). rewrite app_nil_r. apply Ha1; [sl|by eapply rch_trans]. }
    destruct cont; [|by apply wp_ret]. apply IH; [|done..].
    do 3 (eapply rch_trans; [eassumption|]). done.
  Qed.
  Lemma produce_split_leaf t d pT pP ef pf fol n : leafp (mends t) pT → leafp (mends d) pP → leafp (mends (TSplit t d)) (produce_split n pT pP ef pf fol).
  Proof.
    intros HT HP s Hst. unfold produce_split. apply (lcall (mends t)); [done..|]. intros r s1 H1 Hst1 Hx. unfold value, errors_of in Hx.
    destruct (unres r) as [[y|] e]; cbn in Hx; [|by apply wp_ret].
    eapply lbind; [done|apply (split_outer_leaf t d pT pP ef pf fol n HT HP _ _ _ s); [done..|]|].
    { cbn. eapply acc_mono; [by apply Hx| |sl]. intros k Hk. split; [done|]. by apply mendss_one. }
    intros [[a b] errs] s2 _ _ Ha. cbn in Ha. apply (lret (mends (TSplit t d))). eapply acc_mono; [exact Ha| |sl].
    intros k [Hl Hk]. by constructor.
  Qed.

  Lemma punct_inner_leaf t pT ef pf fol n : leafp (mends t) pT → ∀ panic errs s0 s, rch s0 s → st s →
    W (punct_inner n pT ef pf fol panic errs) s (λ q s', ∃ e, q.1.2 = errs ++ e ∧ match q.1.1 with Some x => acc e s0 (mends t x) s' | None => True end).
  Proof.
    intros Hp. induction n as [|n IH]; intros panic errs s0 s H0 Hst; [done|]. cbn [punct_inner].
    apply lskip; [done|]. intros tk s1 H1 Hst1. destruct tk as [x|]; [|apply wp_ret; cbn; first [by eexists|exists []; by rewrite app_nil_r]].
    destruct (negb _ && _); [apply wp_ret; cbn; first [by eexists|exists []; by rewrite app_nil_r]|].
    eapply (lbind _ _ _ (λ q s', match q with inl (y0, es) => ∃ e, es = errs ++ e ∧ acc e s0 (mends t y0) s' | inr _ => True end)); [done| |].
    - destruct (ts_contains ef (Some x)).
      + apply (lcall (mends t)); [done..|]. intros r s2 H2 Hst2 Hx. unfold value, errors_of in Hx. destruct (unres r) as [[y|] e]; cbn in Hx.
        * apply wp_ret. eexists. split; [done|]. eapply (acc_app [] e); [apply (acc_nil [] s0 (λ k, k = []) s1); [by eapply rch_trans|sl]|by apply Hx| |sl].
          by intros ? k ->.
        * by apply wp_ret.
      + apply lskip; [done|]. intros. by apply wp_ret.
    - intros [[y0 es]|panic'] s2 H2 Hst2 Hq.
      + apply wp_ret. done.
      + apply lskip; [done|]. intros tk' s3 H3 Hst3.
        destruct (ts_contains pf tk'); [apply wp_ret; cbn; first [by eexists|exists []; by rewrite app_nil_r]|].
        destruct (_ || _); [apply wp_ret; cbn; first [by eexists|exists []; by rewrite app_nil_r]|].
        apply lskip; [done|]. intros a s4 H4 Hst4. apply IH; [|done].
        do 3 (eapply rch_trans; [eassumption|]). by eapply rch_trans.
  Qed.
  Lemma punct_outer_leaf t d pT pP ef pf fol n : leafp (mends t) pT → leafp (mends d) pP → ∀ xs ps errs s0 s, rch s0 s → st s →
    acc errs s0 (pun env t d xs ps) s →
    W (punct_outer n pT pP ef pf fol xs ps errs) s (λ q s', acc q.2 s0 (pun env t d q.1.1 q.1.2) s').
  Proof.
    intros HT HP. induction n as [|n IH]; intros xs ps errs s0 s H0 Hst Ha; [done|]. cbn [punct_outer].
    apply lskip; [done|]. intros tk s1 H1 Hst1.
    assert (Ha1 : ∀ es s', errs `sublist_of` es → rch s1 s' → acc es s0 (pun env t d xs ps) s').
    { intros es s' He H. eapply acc_to; [exact Ha|by eapply rch_trans|done|sl]. }
    destruct tk as [x|]; [destruct (ts_contains pf (Some x))|]; [|apply wp_ret; cbn; apply Ha1; [sl|apply rch_refl]..].
    apply (lcall (mends d)); [done..|]. intros r s2 H2 Hst2 Hx. unfold value, errors_of in Hx. destruct (unres r) as [[p|] e]; cbn in Hx.
    2:{ apply wp_ret. cbn. apply Ha1; [sl|done]. }
    eapply lbind; [done|apply (punct_inner_leaf t pT ef pf fol n HT _ _ s2); [apply rch_refl|done]|].
    intros [[o errs'] cont] s3 H3 Hst3 (d' & He & Ho). cbn [fst snd] in He, Ho. subst errs'.
    assert (Ha3 : acc ((errs ++ e) ++ d') s0 (pun env t d (xs ++ option_list o) (ps ++ [p])) s3).
    { eapply (acc_app errs (e ++ d') _ _ s1 _ _ (λ k, ∃ k2 k3, k = k2 ++ k3 ∧ mends d p k2 ∧ match o with Some y => mends t y k3 | None => k3 = [] end));
        [apply (Ha1 errs s1); [sl|apply rch_refl]| |intros k1 ? H (k2 & k3 & -> & Hp & Hy); by apply pun_snoc|sl].
      destruct o as [y|].
      - eapply (acc_app e d'); [by apply Hx|exact Ho|by eauto 10|sl].
      - eapply (acc_to e (e ++ d')); [by apply Hx|done| |sl]. intros k Hk. exists k, []. by rewrite app_nil_r. }
    destruct cont; [|by apply wp_ret]. apply IH; [|done..].
    do 3 (eapply rch_trans; [eassumption|]). done.
  Qed.
  Lemma produce_punct_leaf t d pT pP ef pf fol n : leafp (mends t) pT → leafp (mends d) pP → leafp (mends (TPunct t d)) (produce_punct n pT pP ef pf fol).
  Proof.
    intros HT HP s Hst. unfold produce_punct. apply (lcall (mends t)); [done..|]. intros r s1 H1 Hst1 Hx. unfold value, errors_of in Hx.
    destruct (unres r) as [[y|] e]; cbn in Hx; [|by apply wp_ret].
    eapply lbind; [done|apply (punct_outer_leaf t d pT pP ef pf fol n HT HP _ _ _ s); [done..|]|].
    { eapply acc_mono; [by apply Hx| |sl]. intros k Hk. exists y, []. split_and!; [done..|]. by apply mendss_one. }
    intros [[a b] errs] s2 _ _ Ha. cbn in Ha. apply (lret (mends (TPunct t d))). eapply acc_mono; [exact Ha| |sl].
    intros k (x & gs & -> & -> & H). by constructor.
  Qed.

  Lemma recover_leaf t pR tf n : leafp (mends t) pR → ∀ panic errs s0 s, rch s0 s → st s →
    W (recover_loop n pR tf panic errs) s (λ q s', ∃ e, q.2 = errs ++ e ∧ match q.1.1 with Some x => acc e s0 (mends t x) s' | None => True end).
  Proof.
    intros Hp. induction n as [|n IH]; intros panic errs s0 s H0 Hst; [done|]. cbn [recover_loop].
    apply lskip; [done|]. intros tk s1 H1 Hst1.
    assert (Hfound : ∀ y e s2, rch s1 s2 → acc e s1 (mends t y) s2 → acc e s0 (mends t y) s2).
    { intros y e s2 H2 Hx. eapply (acc_app [] e); [apply (acc_nil [] s0 (λ k, k = []) s1); [by eapply rch_trans|sl]|exact Hx| |sl].
      by intros ? k ->. }
    destruct tk as [x|].
    - eapply (lbind _ _ _ (λ q s', match q with inl (y0, es) => ∃ e, es = errs ++ e ∧ acc e s0 (mends t y0) s' | inr _ => True end)); [done| |].
      + destruct (_ || _); [|by apply wp_ret].
        apply (lcall (mends t)); [done..|]. intros r s2 H2 Hst2 Hx. unfold value, errors_of in Hx. destruct (unres r) as [[y|] e]; cbn in Hx.
        * apply wp_ret. eexists. split; [done|]. eapply acc_mono; [by apply Hfound, Hx|done|sl].
        * by apply wp_ret.
      + intros [[y0 es]|panic'] s2 H2 Hst2 Hq; [by apply wp_ret|].
        apply lskip; [done|]. intros p s3 H3 Hst3. apply lskip; [done|]. intros a s4 H4 Hst4. apply IH; [|done].
        do 3 (eapply rch_trans; [eassumption|]). by eapply rch_trans.
    - destruct (ts_contains_e tf); [|apply wp_ret; first [by eexists|exists []; by rewrite app_nil_r]].
      apply (lcall (mends t)); [done..|]. intros r s2 H2 Hst2 Hx. unfold value, errors_of in Hx. destruct (unres r) as [[y|] e]; cbn in Hx.
      + apply wp_ret. eexists. split; [done|]. eapply acc_mono; [by apply Hfound, Hx|done|sl].
      + apply wp_ret; first [by eexists|exists []; by rewrite app_nil_r].
  Qed.
  Lemma produce_recover_leaf t d pT pR hf tf n : leafp (mends t) pT → leafp (mends d) pR → leafp (mends (TRecover t d)) (produce_recover n pT pR hf tf).
  Proof.
    intros HT HR s Hst. unfold produce_recover. apply lskip; [done|]. intros tk s1 H1 Hst1.
    eapply (lbind _ _ _ (λ q s', acc q.2 s (λ k, match q.1.2 with Some x => mends t x k | None => k = [] end) s')); [done| |].
    { destruct (_ || _).
      - apply (lcall (mends t)); [done..|]. intros r s2 H2 Hst2 Hx. unfold value, errors_of in Hx. destruct (unres r) as [[y|] e]; cbn in Hx.
        + apply wp_ret. cbn. eapply (acc_app [] e); [by apply (acc_nil [] s (λ k, k = []) s1)|by apply Hx| |sl]. by intros ? k ->.
        + apply lskip; [done|]. intros sp s3 H3 Hst3. apply wp_ret. cbn. apply acc_nil; [|done]. do 2 (eapply rch_trans; [eassumption|]). done.
      - do 2 (apply lskip; [done|]; intros). apply wp_ret. cbn. apply acc_nil; [|done]. do 2 (eapply rch_trans; [eassumption|]). done. }
    intros [[[panic hsp] hd] errs] s2 H2 Hst2 Ha. cbn in Ha.
    eapply lbind; [done|apply (recover_leaf d pR tf n HR _ _ s2); [apply rch_refl|done]|].
    intros [[tl panic'] errs'] s3 H3 Hst3 (e' & He & Hq). cbn in He, Hq. subst errs'. destruct tl as [y|]; [|by apply wp_ret].
    apply (lret (mends (TRecover t d))). eapply (acc_app errs e'); [exact Ha|exact Hq| |sl].
    intros k1 k2 Hk1 Hk2. destruct hd; [apply m_recover; constructor; [done|by apply mendss_one]|]. subst k1. by apply m_headless.
  Qed.

  Lemma produce_leaf f t : within env root t → leafp (mends t) (produce f t).
  Proof.
    revert t. induction f as [|f IH]; intros t Hw s Hst; [done|].
    assert (Hsub : ∀ c, c ∈ subs env t → leafp (mends c) (produce f c)).
    { intros c Hc. apply IH. eapply rtc_r; [exact Hw|done]. }
    assert (Hok := ok _ Hst).
    destruct t as [n y lit|n|ts|t|t|t|t|t|t|t|t|t d|t d|t r]; cbn [ProduceModel.produce].
    - (* terminal *)
      apply wp_bind.
      assert (Htake : ∀ t r, a_rest s = t :: r → t_ty t = y → lit = None ∨ lit = Some (default ""%string (text_of src t)) →
        acc [] s (mends (TTok n y lit) (TrTok t)) (pop s)).
      { intros t r E Hy Hlit. destruct (pop_adv1 _ _ _ E) as [Hp _]. exists [t], [(t, default ""%string (text_of src t))], [].
        split_and!; [done|by constructor| |done]. apply rp_take, rp_nil. }
      destruct lit as [lit|].
      + assert (Hins : ts_contains (follow (key (TTok n y (Some lit)))) (look s) = true → look s ≠ Some (y, lit) →
          acc [PErr (a_span s) (Expecting (fs_one y (Some lit)))] s
            (mends (TTok n y (Some lit)) (TrTok (Token (match a_rest s with [] => a_span s | _ => Span (pos s) (pos s) end) y))) s).
        { intros H1 H2. eexists [], [(_, lit)], [_]. split_and!; [apply adv_refl|constructor; [done|by right]| |done]. apply rp_ins; [|apply rp_nil].
          exists n, y. split; [done|]. cbn [fst snd]. destruct Hst as [Hs Ha]. unfold inserted. rewrite <- Ha, drop_app.
          assert (Hh : head (word src (a_rest s)) = look s).
          { unfold look, word, text_of. rewrite Hs. by destruct (a_rest s). }
          rewrite Hh. split_and!; [done|done| |].
          - rewrite <- pos_toks. f_equal. unfold a_span. rewrite Hs. by destruct (a_rest s).
          - unfold at_next, a_span. rewrite Hs. destruct (a_rest s); set_solver. }
        apply wp_parse_token_lit; [done|]. unfold a_span in Hins. destruct (a_rest s) as [|t r] eqn:Er.
        * assert (Hn : look s = None) by (by apply look_none). rewrite Hn in Hins.
          change (ts_contains ?a None) with (ts_contains_e a) in Hins.
          destruct (ts_contains_e _); apply wp_ret; [|done]. intros x [= <-]. by apply Hins.
        * destruct (decide (look s = Some (y, lit))) as [Hlk|Hlk].
          -- apply wp_ret. intros x [= <-]. assert (Hlk' := Hlk). unfold look in Hlk'. rewrite Er in Hlk'. destruct Hst as [Hs _]. rewrite Hs in Hlk'. cbn in Hlk'.
             eapply Htake; [done|by injection Hlk'|]. right. unfold text_of. by injection Hlk' as _ ->.
          -- destruct (ts_contains _ _); apply wp_ret; [|done]. intros x [= <-]. by apply Hins.
      + apply wp_parse_token. destruct (a_rest s) as [|t r] eqn:Er; [by apply wp_ret|].
        case_decide as Hy; apply wp_ret; [|done]. intros x [= <-]. eapply Htake; [done|done|by left].
    - destruct (env !! n) as [[fs|vs]|] eqn:En; [| |done].
      + (* struct *)
        eapply lbind; [done|apply (seq_leaf _ _); [|apply rch_refl|done|apply acc_nil; [apply rch_refl|apply ms_nil]]|].
        { intros c Hc. apply Hsub. cbn. by rewrite En. }
        intros r s1 H1 Hst1 Hx. unfold value, errors_of in Hx. destruct (unres r) as [[xs|] e]; cbn in Hx; [|by apply wp_ret].
        apply lskip; [done|]. intros ? s2 H2 Hst2. apply (lret (mends (TNamed n))). eapply acc_to; [by apply Hx|done| |done].
        intros k Hk. by eapply m_struct.
      + (* enum *)
        apply lskip; [done|]. intros tk s1 H1 Hst1.
        destruct (_ ≫= _) as [[i [t' sem]]|] eqn:Ei; [|apply lskip; [done|]; intros; by apply wp_ret].
        assert (vs !! i = Some (t', sem)) as Hi.
        { destruct (jump (key (TNamed n)) tk) as [i'|]; [|done]. cbn in Ei.
          destruct (vs !! i') eqn:E; [|done]. cbn in Ei. injection Ei as -> ->. done. }
        assert (Ht' : t' ∈ subs env (TNamed n)).
        { cbn. rewrite En. cbn. assert (Hi' := Hi). apply elem_of_list_lookup_2 in Hi'.
          apply elem_of_list_In, (in_map fst), elem_of_list_In in Hi'. done. }
        apply (lcall (mends t')); [by apply Hsub|done|]. intros r s2 H2 Hst2 Hx.
        assert (Hfin : ∀ s3, rch s2 s3 → ∀ x, value (res_map (TrVar i) r) = Some x → acc (errors_of (res_map (TrVar i) r)) s (mends (TNamed n) x) s3).
        { intros s3 H3 x. unfold value, errors_of in *. rewrite unres_map. destruct (unres r) as [[z|] e]; cbn in *; [|done]. intros [= <-].
          eapply (acc_app [] e); [by apply (acc_nil [] s (λ k, k = []) s1)| |intros k1 k2 -> Hk; exact Hk|sl].
          eapply acc_to; [by apply Hx|done|intros; by eapply m_enum|done]. }
        destruct r as [x|x es|es], sem; try (apply lskip; [done|]; intros); apply wp_ret, Hfin; eauto using rch_refl.
    - (* tuple *)
      eapply lbind; [done|apply (seq_leaf _ _); [|apply rch_refl|done|apply acc_nil; [apply rch_refl|apply ms_nil]]|].
      { intros c Hc. apply Hsub. done. }
      intros r s1 H1 Hst1 Hx. apply wp_ret. unfold value, errors_of in *. rewrite unres_map. 
      destruct (unres r) as [[xs|] e]; cbn in *; [|done]. intros z [= <-]. eapply acc_mono; [by apply Hx| |done].
      intros k Hk. by constructor.
    - (* box *)
      eapply wp_mono; [apply Hsub; [cbn; set_solver|done]|]. cbn. intros r s' H x Hx. eapply acc_mono; [by apply H|by constructor|done].
    - (* option *)
      eapply lmap; [apply option_leaf, Hsub; cbn; set_solver| |done].
      intros [sp [x|]] k; cbn; intros H; [destruct H as [-> H]; by constructor|]. subst. constructor.
    - (* exists *)
      eapply lmap; [apply option_leaf, Hsub; cbn; set_solver| |done].
      intros [sp [x|]] k; cbn; intros H; [destruct H as [-> H]; by constructor|]. subst. constructor.
    - (* quote *)
      apply (lcall (mends t)); [apply Hsub; cbn; set_solver|done|]. intros r s1 H1 Hst1 Hx. unfold value, errors_of in Hx.
      destruct r as [x|x es|es]; [| |by apply wp_ret]; cbn in Hx.
      all: apply lskip; [done|]; intros str s2 H2 Hst2; apply wp_ret; intros z [= <-];
        eapply acc_to; [by apply Hx|done|by constructor|done].
    - (* parse *)
      apply (lcall (mends t)); [apply Hsub; cbn; set_solver|done|]. intros r s1 H1 Hst1 Hx. unfold value, errors_of in Hx.
      destruct r as [x|x es|es]; [| |by apply wp_ret]; cbn in Hx.
      all: apply lskip; [done|]; intros str s2 H2 Hst2; apply wp_ret; intros z [= <-];
        eapply acc_to; [by apply Hx|done|by constructor|done].
    - (* plus *)
      eapply lmap; [apply plus_leaf, Hsub; cbn; set_solver| |done]. intros [sp l] k [Hne Hk]. cbn in *. destruct l; [done|]. by constructor.
    - (* star *)
      eapply lmap; [apply option_leaf, plus_leaf, Hsub; cbn; set_solver| |done].
      intros [sp [[sp' l]|]] k; cbn; [intros (_ & _ & Hk); by constructor|]. intros ->. constructor. constructor.
    - (* loop *)
      eapply lmap; [apply produce_loop_leaf, Hsub; cbn; set_solver| |done]. intros [sp l] k Hk. by constructor.
    - apply produce_split_leaf; [apply Hsub; cbn; set_solver..|done].
    - apply produce_punct_leaf; [apply Hsub; cbn; set_solver..|done].
    - apply produce_recover_leaf; [apply Hsub; cbn; set_solver..|done].
  Qed.
End leaf.

Lemma repair_run extract env first follow jump f t s r s' x l : state_ok s →
  run extract (produce env first follow jump f t) s = ODone r s' → value r = Some x → took extract s l s' →
  ∃ ks es, mends env t x ks ∧ repairs (p_src s) (missing env follow t (p_src s) (all_tokens extract s)) (consumed s) l ks es ∧
    es `sublist_of` errors_of r.
Proof.
  intros Hok Hr Hx Hl. destruct (abs_st extract s Hok) as [H1 H2].
  assert (Hp := produce_leaf env first follow jump t (p_src s) (all_tokens extract s) H1 f t (rtc_refl _ _) (abs extract s) H2).
  assert (Hq := run_wp extract _ _ _ _ _ _ _ Hp Hr). destruct (Hq x Hx) as (l' & ks & ds & Ha & Hy & He & Hd).
  apply took_adv in Hl. rewrite (adv_inj _ _ _ _ Hl Ha). eauto.
Qed.
Lemma repair_parse extract env f root md s o s' x l : state_ok s →
  run extract (parse env f root (inr md)) s = ODone o s' → o = inr (Some x) → took extract s l s' →
  ∃ ks es, mends env root x ks ∧
    repairs (p_src s) (missing env (tb_get (md_follow md)) root (p_src s) (all_tokens extract s)) (consumed s) l ks es ∧
    es `sublist_of` p_errors s'.
Proof.
  intros Hok H -> Hl. apply parse_run in H as (x' & [= <-] & H). apply parse_with_run in H as (r & s1 & H & Hx & _ & He & Ha).
  apply took_adv in Hl. rewrite Ha in Hl. apply took_adv in Hl.
  destruct (repair_run _ _ _ _ _ _ _ _ _ _ x l Hok H (eq_sym Hx) Hl) as (ks & es & Hy & Hk & Hs). exists ks, es. split_and!; [done..|].
  rewrite He. by apply sublist_inserts_l.
Qed.
(** How many. *)
Lemma rp_count src ins pre l ks es : repairs src ins pre l ks es → length ks ≤ length l + length es.
Proof. induction 1; cbn in *; lia. Qed.

(** Without [tp::Punct], [tp::Recover] and [tp::Loop] the repaired input is a sentence. *)
Lemma strict_sub env t c : strict env t → c ∈ subs env t → strict env c.
Proof. intros H Hc u Hu. apply H. eapply rtc_l; [exact Hc|exact Hu]. Qed.
Lemma strict_subs env t (ts : list ty) : strict env t → (∀ c : ty, c ∈ ts → c ∈ subs env t) → Forall (strict env) ts.
Proof. intros H Hs. apply Forall_forall. intros c Hc. eapply strict_sub; [exact H|auto]. Qed.
Lemma kept_app a b : kept_word (a ++ b) = kept_word a ++ kept_word b.
Proof. apply map_app. Qed.
Lemma in_replicate (n : nat) (t c : ty) : c ∈ replicate n t → c = t.
Proof. intros H. by apply elem_of_replicate in H as [-> _]. Qed.
Lemma in_alternate n (t d c : ty) : c ∈ alternate n t d → c = t ∨ c = d.
Proof.
  unfold alternate. intros H. apply elem_of_cons in H as [->|H]; [by left|]. revert H. induction n as [|n IH]; cbn; [by intros ?%elem_of_nil|].
  intros [->|[->|H]%elem_of_cons]%elem_of_cons; auto.
Qed.
Lemma mends_lang env t x ks : mends env t x ks → strict env t → lang env t (kept_word ks).
Proof.
  revert t x ks. apply (mends_mut env (λ t x ks _, strict env t → lang env t (kept_word ks))
    (λ ts xs ks _, Forall (strict env) ts → langs env ts (kept_word ks))).
  - intros n y lit k s Hy Hl _. cbn. apply l_tok. by split.
  - intros n fs xs ks En _ IH Hs. eapply l_struct; [done|]. apply IH. eapply strict_subs; [exact Hs|]. intros c Hc. cbn. by rewrite En.
  - intros n vs i t sem x ks En Hi _ IH Hs. apply elem_of_list_lookup_2 in Hi. eapply l_enum; [done..|]. apply IH. eapply strict_sub; [exact Hs|].
    cbn. rewrite En. cbn. apply elem_of_list_fmap. by exists (t, sem).
  - intros ts xs ks _ IH Hs. constructor. apply IH. by eapply strict_subs.
  - intros t x ks _ IH Hs. constructor. apply IH. eapply strict_sub; [exact Hs|]. cbn. set_solver.
  - intros t sp _. constructor.
  - intros t x ks _ IH Hs. apply l_some. apply IH. eapply strict_sub; [exact Hs|]. cbn. set_solver.
  - intros t sp _. constructor.
  - intros t x ks _ IH Hs. apply l_present. apply IH. eapply strict_sub; [exact Hs|]. cbn. set_solver.
  - intros t x s ks _ IH Hs. constructor. apply IH. eapply strict_sub; [exact Hs|]. cbn. set_solver.
  - intros t x s ks _ IH Hs. constructor. apply IH. eapply strict_sub; [exact Hs|]. cbn. set_solver.
  - intros t sp x xs ks _ IH Hs. apply (l_plus _ _ (length xs)). apply IH. eapply strict_subs; [exact Hs|].
    intros c [->|Hc%in_replicate]%elem_of_cons; [|subst c]; cbn; set_solver.
  - intros t sp xs ks _ IH Hs. apply (l_star _ _ (length xs)). apply IH. eapply strict_subs; [exact Hs|].
    intros c Hc%in_replicate. subst c. cbn; set_solver.
  - intros t sp xs ks _ _ Hs. destruct (Hs (TLoop t)). apply rtc_refl.
  - intros t d sp a b ks _ _ IH Hs. apply (l_split _ _ _ (length b)). apply IH. eapply strict_subs; [exact Hs|].
    intros c [->| ->]%in_alternate; cbn; set_solver.
  - intros t d sp x gs ks _ _ Hs. destruct (Hs (TPunct t d)). apply rtc_refl.
  - intros t r sp x y ks _ _ Hs. destruct (Hs (TRecover t r)). apply rtc_refl.
  - intros t r sp y ks _ _ Hs. destruct (Hs (TRecover t r)). apply rtc_refl.
  - intros _. constructor.
  - intros t ts x xs k1 k2 _ IH1 _ IH2 Hs. rewrite kept_app. apply Forall_cons in Hs as [H1 H2]. constructor; auto.
Qed.
Lemma repair_sentence extract env f root md s o s' x l : state_ok s → strict env root →
  run extract (parse env f root (inr md)) s = ODone o s' → o = inr (Some x) → took extract s l s' →
  ∃ ks es, lang env root (kept_word ks) ∧ mends env root x ks ∧
    repairs (p_src s) (missing env (tb_get (md_follow md)) root (p_src s) (all_tokens extract s)) (consumed s) l ks es ∧
    es `sublist_of` p_errors s'.
Proof.
  intros Hok Hs Hr Ho Hl. destruct (repair_parse _ _ _ _ _ _ _ _ _ _ Hok Hr Ho Hl) as (ks & es & Hm & Hk & He). exists ks, es.
  split_and!; [by eapply mends_lang|done..].
Qed.
(** A sentence at a distance bounded by the errors. *)
Lemma repair_count extract env f root md s o s' x l : state_ok s → strict env root →
  run extract (parse env f root (inr md)) s = ODone o s' → o = inr (Some x) → took extract s l s' →
  ∃ w, lang env root w ∧ length w ≤ length l + length (p_errors s').
Proof.
  intros Hok Hs Hr Ho Hl. destruct (repair_sentence _ _ _ _ _ _ _ _ _ _ Hok Hs Hr Ho Hl) as (ks & es & HL & _ & Hk & He).
  exists (kept_word ks). split; [done|]. apply rp_count in Hk. apply sublist_length in He.
  assert (length (kept_word ks) = length ks) as -> by apply map_length. etrans; [exact Hk|]. by apply Nat.add_le_mono_l.
Qed.
