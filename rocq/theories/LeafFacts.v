(** The tokens of a tree are tokens of the input or announced insertions. *)
From Coq Require Import String NArith.
From stdpp Require Import prelude list strings relations.
From Verif Require Import LexModel LexSpec LexFacts SynSetModel TableModel StreamModel StreamSpec StreamFacts TypeModel ProduceModel ParseSpec ProgFacts TreeFacts SoundFacts RunFacts InvFacts LookFacts NodeFacts LoopFacts LeafSpec.
Local Open Scope nat_scope.
#[local] Arguments ts_contains : simpl never.
#[local] Arguments ts_contains_e : simpl never.
Notation W := (wp True True).

Lemma shuffle_l {A} (a : list A) : shuffle a [] a.
Proof. induction a; by constructor. Qed.
Lemma shuffle_r {A} (a : list A) : shuffle [] a a.
Proof. induction a; by constructor. Qed.
Lemma shuffle_app {A} (a b c a' b' c' : list A) : shuffle a b c → shuffle a' b' c' → shuffle (a ++ a') (b ++ b') (c ++ c').
Proof. intros H H'. induction H; cbn; [done|by constructor..]. Qed.
Lemma interleave_snoc {A} (a b : list A) p x : length a = S (length b) →
  interleave (a ++ [x]) (b ++ [p]) = interleave a b ++ [p; x].
Proof.
  revert b. induction a as [|y a IH]; intros [|z b] H; cbn in H; try lia.
  - destruct a; [done|]. cbn in H. lia.
  - cbn [app interleave]. by rewrite IH by lia.
Qed.

Section emb.
  Variable ins : list token → token → Prop.
  Lemma em_skips pre l : embeds ins pre l [].
  Proof. revert pre. induction l as [|t l IH]; intros pre; constructor. apply IH. Qed.
  Lemma em_app pre l1 l2 k1 k2 : embeds ins pre l1 k1 → embeds ins (pre ++ l1) l2 k2 → embeds ins pre (l1 ++ l2) (k1 ++ k2).
  Proof.
    induction 1 as [pre|pre t l ks _ IH|pre t l ks _ IH|pre k l ks Hk _ IH]; intros H; cbn.
    - by rewrite app_nil_r in H.
    - apply em_skip, IH. by rewrite <- (assoc_L (++)).
    - apply em_take, IH. by rewrite <- (assoc_L (++)).
    - apply em_ins; [done|]. by apply IH.
  Qed.
End emb.
Lemma em_mono (ins ins' : list token → token → Prop) pre l ks : (∀ p k, ins p k → ins' p k) → embeds ins pre l ks → embeds ins' pre l ks.
Proof. intros H. induction 1; [apply em_nil|by apply em_skip|by apply em_take|apply em_ins; auto]. Qed.

Section leaf.
  Variable env : denv.
  Variables (first follow : prod → tset) (jump : prod → option tok → option nat).
  Variables (root : ty) (src : string) (all : list token).
  Hypothesis Hall : spans_ok 0 (String.length src) (map t_span all).
  Notation produce := (produce env first follow jump).
  Notation st := (st src all).
  Notation ins es := (insertion env follow root src all es).

  Definition rch (s s' : ast) : Prop := ∃ l, adv s l s'.
  Lemma rch_refl s : rch s s.
  Proof. exists []. apply adv_refl. Qed.
  Lemma rch_trans a b c : rch a b → rch b c → rch a c.
  Proof. intros [l1 H1] [l2 H2]. exists (l1 ++ l2). by eapply adv_trans. Qed.
  Lemma rch_st a b : rch a b → st a → st b.
  Proof. intros [l H]. by eapply st_adv. Qed.
  Lemma ok s : st s → aok s.
  Proof. intros [H1 H2]. rewrite aok_eq. by rewrite H1, H2. Qed.

  (** The tokens [ks] with [R] come from the part of the input between the states. *)
  Definition acc (es : list perr) (s : ast) (R : list token → Prop) (s' : ast) : Prop :=
    ∃ l ks, adv s l s' ∧ R ks ∧ embeds (ins es) (toks s) l ks.
  Lemma ins_sub es es' p k : es ⊆ es' → ins es p k → ins es' p k.
  Proof. intros H (n & y & lit & Hw & H1 & H2 & H3 & H4). exists n, y, lit. split; [done|]. split_and!; [done..|by apply H]. Qed.
  Lemma acc_nil es s (R : list token → Prop) s' : rch s s' → R [] → acc es s R s'.
  Proof. intros [l Hl] H. exists l, []. split_and!; [done..|]. apply em_skips. Qed.
  Lemma acc_app es1 es2 es s s1 s2 (R1 R2 R : list token → Prop) : acc es1 s R1 s1 → acc es2 s1 R2 s2 →
    (∀ k1 k2, R1 k1 → R2 k2 → R (k1 ++ k2)) → es1 ⊆ es → es2 ⊆ es → acc es s R s2.
  Proof.
    intros (l1 & k1 & A1 & H1 & E1) (l2 & k2 & A2 & H2 & E2) HR S1 S2.
    exists (l1 ++ l2), (k1 ++ k2). split_and!; [by eapply adv_trans|auto|].
    apply em_app; [eapply em_mono; [|exact E1]; intros p k Hi; exact (ins_sub _ _ _ _ S1 Hi)|].
    assert (toks s1 = toks s ++ l1) as <- by apply A1. eapply em_mono; [|exact E2]. intros p k Hi; exact (ins_sub _ _ _ _ S2 Hi).
  Qed.
  Lemma acc_to es es' s s1 s2 (R R' : list token → Prop) : acc es s R s1 → rch s1 s2 → (∀ k, R k → R' k) → es ⊆ es' → acc es' s R' s2.
  Proof.
    intros H1 H2 HR Hs. eapply (acc_app es []); [exact H1|by apply (acc_nil [] s1 (λ k, k = []) s2)| |done|set_solver].
    intros k1 k2 H ->. rewrite app_nil_r. auto.
  Qed.
  Lemma acc_mono es es' s s1 (R R' : list token → Prop) : acc es s R s1 → (∀ k, R k → R' k) → es ⊆ es' → acc es' s R' s1.
  Proof. intros. eapply acc_to; eauto using rch_refl. Qed.

  Definition many (xs : list tree) (ks : list token) : Prop := ∃ kss, Forall2 yields xs kss ∧ ks = concat kss.
  Lemma many_nil : many [] [].
  Proof. by exists []. Qed.
  Lemma many_one x k : yields x k → many [x] k.
  Proof. intros H. exists [k]. split; [by constructor|]. cbn. by rewrite app_nil_r. Qed.
  Lemma many_app xs ys k1 k2 : many xs k1 → many ys k2 → many (xs ++ ys) (k1 ++ k2).
  Proof. intros (a & H1 & ->) (b & H2 & ->). exists (a ++ b). split; [by apply Forall2_app|]. by rewrite concat_app. Qed.
  Lemma many_snoc xs x k1 k2 : many xs k1 → yields x k2 → many (xs ++ [x]) (k1 ++ k2).
  Proof. intros H1 H2. apply many_app; [done|by apply many_one]. Qed.
  Lemma many_opt xs o k1 k2 : many xs k1 → match o with Some x => yields x k2 | None => k2 = [] end → many (xs ++ option_list o) (k1 ++ k2).
  Proof. destruct o as [x|]; cbn [option_list]; [apply many_snoc|]. intros H ->. by rewrite !app_nil_r. Qed.

  Definition leafp {X} (Y : X → list token → Prop) (p : M (res X)) : Prop :=
    ∀ s, st s → W p s (λ r s', ∀ x, value r = Some x → acc (errors_of r) s (Y x) s').

  Lemma lcall {X B} (Y : X → list token → Prop) (p : M (res X)) (k : res X → M B) s Q : leafp Y p → st s →
    (∀ r s', rch s s' → st s' → (∀ x, value r = Some x → acc (errors_of r) s (Y x) s') → W (k r) s' Q) → W (p ≫= k) s Q.
  Proof.
    intros Hp Hst Hk. apply wp_bind, wp_adv. eapply wp_mono; [by apply Hp|]. intros r s' Hr l Hl.
    assert (rch s s') by (by exists l). apply Hk; [done|by eapply rch_st|done].
  Qed.
  Lemma lbind {A B} (m : M A) (k : A → M B) s (Q' : A → ast → Prop) Q : st s → W m s Q' →
    (∀ a s', rch s s' → st s' → Q' a s' → W (k a) s' Q) → W (m ≫= k) s Q.
  Proof.
    intros Hst Hm Hk. apply wp_bind, wp_adv. eapply wp_mono; [exact Hm|]. intros a s' Ha l Hl.
    assert (rch s s') by (by exists l). apply Hk; [done|by eapply rch_st|done].
  Qed.
  Lemma lskip {A B} (m : M A) (k : A → M B) s Q : st s →
    (∀ a s', rch s s' → st s' → W (k a) s' Q) → W (m ≫= k) s Q.
  Proof.
    intros Hst Hk. apply (lbind _ _ _ (λ _ _, True)); [done| |intros; by apply Hk].
    unfold wp. by destruct (arun m s).
  Qed.
  Lemma lret {X} (Y : X → list token → Prop) (x : X) es s0 s : acc es s0 (Y x) s →
    W (mret (res_into x es)) s (λ r s', ∀ x, value r = Some x → acc (errors_of r) s0 (Y x) s').
  Proof. intros H. apply wp_ret. unfold value, errors_of. rewrite unres_into. cbn. by intros ? [= <-]. Qed.
  Lemma lpanic {X} (Y : X → list token → Prop) es s0 s :
    W (mret (@RPanic X es)) s (λ r s', ∀ x, value r = Some x → acc (errors_of r) s0 (Y x) s').
  Proof. by apply wp_ret. Qed.
  Lemma lmap {X Z} (Y : X → list token → Prop) (Y' : Z → list token → Prop) (g : X → Z) (p : M (res X)) :
    leafp Y p → (∀ x k, Y x k → Y' (g x) k) → leafp Y' (r ← p; mret (res_map g r)).
  Proof.
    intros Hp Hg s Hst. apply (lcall Y); [done..|]. intros r s1 _ _ H. apply wp_ret. unfold value, errors_of in *. rewrite unres_map. cbn.
    intros y. destruct (unres r) as [[x|] e]; cbn in *; [|done]. intros [= <-]. eapply acc_mono; [by apply H|auto|done].
  Qed.

  Lemma seq_leaf rec ts : (∀ t, t ∈ ts → leafp yields (rec t)) → ∀ xs errs s0 s, rch s0 s → st s → acc errs s0 (many xs) s →
    W (produce_seq rec ts xs errs) s (λ r s', ∀ x, value r = Some x → acc (errors_of r) s0 (many x) s').
  Proof.
    induction ts as [|t ts IH]; intros Hr xs errs s0 s H0 Hst Ha; cbn [produce_seq].
    - by apply (lret many).
    - apply (lcall yields); [apply Hr; set_solver|done|]. intros r s1 H1 Hst1 Hx. unfold value, errors_of in Hx.
      destruct (unres r) as [[x|] e]; cbn in Hx; [|by apply (lpanic many)].
      apply IH; [set_solver|by eapply rch_trans|done|].
      eapply acc_app; [exact Ha|by apply Hx|intros; by apply many_snoc|set_solver..].
  Qed.
  Lemma option_leaf {X} (Y : X → list token → Prop) (p : M (res X)) sp set : leafp Y p →
    leafp (λ x k, match x.2 with Some y => Y y k | None => k = [] end) (produce_option p sp set).
  Proof.
    intros Hp s Hst. unfold produce_option.
    assert (Hn : ∀ s1, rch s s1 → acc [] s (λ k, k = []) s1) by (intros; by apply acc_nil).
    apply lskip; [done|]. intros tk s1 H1 Hst1. destruct tk as [x|]; [destruct (ts_contains set (Some x))|].
    - apply (lcall Y); [done..|]. intros r s2 H2 Hst2 Hx. unfold value, errors_of in Hx.
      destruct r as [y|y es|es]; cbn in Hx.
      + apply wp_ret. intros z [= <-]. cbn. eapply (acc_app [] []); [by apply Hn|by apply Hx| |done..]. by intros ? k ->.
      + apply wp_ret. intros z [= <-]. cbn. eapply (acc_app [] es); [by apply Hn|by apply Hx| |set_solver..]. by intros ? k ->.
      + apply lskip; [done|]. intros e s3 H3 _. apply wp_ret. intros z [= <-]. cbn. apply acc_nil; [|done].
        eapply rch_trans; [done|]. by eapply rch_trans.
    - apply lskip; [done|]. intros e s3 H3 _. apply wp_ret. intros z [= <-]. cbn. apply Hn. by eapply rch_trans.
    - apply lskip; [done|]. intros e s3 H3 _. apply wp_ret. intros z [= <-]. cbn. apply Hn. by eapply rch_trans.
  Qed.
  Lemma iter_leaf p set n : leafp yields p → ∀ xs errs hi s0 s, rch s0 s → st s → acc errs s0 (many xs) s →
    W (iter_loop n p set xs errs hi) s (λ q s', acc q.1.2 s0 (many q.1.1) s').
  Proof.
    intros Hp. induction n as [|n IH]; intros xs errs hi s0 s H0 Hst Ha; [done|]. cbn [iter_loop].
    apply lskip; [done|]. intros tk s1 H1 Hst1.
    assert (Ha1 : ∀ es s', errs ⊆ es → rch s1 s' → acc es s0 (many xs) s').
    { intros es s' He H. eapply acc_to; [exact Ha|by eapply rch_trans|done|done]. }
    destruct tk as [x|]; [destruct (ts_contains set (Some x))|]; [|apply wp_ret; cbn; apply Ha1; [done|apply rch_refl]..].
    apply (lcall yields); [done..|]. intros r s2 H2 Hst2 Hx. unfold value, errors_of in Hx. destruct (unres r) as [[y|] e]; cbn in Hx.
    - apply IH; [eapply rch_trans; [done|]; by eapply rch_trans|done|].
      eapply acc_app; [apply (Ha1 errs s1); [done|apply rch_refl]|by apply Hx|intros; by apply many_snoc|set_solver..].
    - apply wp_ret. cbn. apply Ha1; [set_solver|done].
  Qed.
  Lemma plus_leaf p set n : leafp yields p → leafp (λ x, many x.2) (produce_plus n p set).
  Proof.
    intros Hp s Hst. unfold produce_plus. apply (lcall yields); [done..|]. intros r s1 H1 Hst1 Hx. unfold value, errors_of in Hx.
    destruct (unres r) as [[y|] e]; cbn in Hx; [|by apply wp_ret].
    eapply lbind; [done|apply (iter_leaf p set n Hp _ _ _ s); [done..|]|].
    { eapply acc_mono; [by apply Hx|apply many_one|done]. }
    intros [[l errs] hi] s2 _ _ Ha. by apply (lret (λ x, many x.2)).
  Qed.
  Lemma loop_leaf p set n : leafp yields p → ∀ xs errs s0 s, rch s0 s → st s → acc errs s0 (many xs) s →
    W (loop_loop n p set xs errs) s (λ q s', acc q.2 s0 (many q.1) s').
  Proof.
    intros Hp. induction n as [|n IH]; intros xs errs s0 s H0 Hst Ha; [done|]. cbn [loop_loop].
    apply lskip; [done|]. intros tk s1 H1 Hst1.
    assert (Ha1 : ∀ es s', errs ⊆ es → rch s1 s' → acc es s0 (many xs) s').
    { intros es s' He H. eapply acc_to; [exact Ha|by eapply rch_trans|done|done]. }
    destruct tk as [x|]; [|apply wp_ret; cbn; apply Ha1; [done|apply rch_refl]].
    eapply (lbind _ _ _ (λ q s', errs ⊆ q.2)); [done| |].
    { destruct (ts_contains set (Some x)); [by apply wp_ret|].
      do 4 (apply lskip; [done|]; intros). case_match. apply wp_ret. cbn. set_solver. }
    intros [tk1 errs1] s2 H2 Hst2 He. cbn in He. destruct tk1; [|apply wp_ret; cbn; by apply Ha1].
    apply lskip; [done|]. intros sp0 s3 H3 Hst3. apply (lcall yields); [done..|]. intros r s4 H4 Hst4 Hx.
    unfold value, errors_of in Hx. destruct (unres r) as [o e]; cbn in Hx.
    assert (Ha4 : acc (errs1 ++ e) s0 (many (xs ++ option_list o)) s4).
    { destruct o as [y|]; cbn.
      - eapply acc_app; [apply (Ha1 errs s3); [done|by eapply rch_trans]|by apply Hx|intros; by apply many_snoc|set_solver..].
      - rewrite app_nil_r. apply Ha1; [set_solver|]. eapply rch_trans; [done|]. by eapply rch_trans. }
    apply lskip; [done|]. intros sp1 s5 H5 Hst5.
    assert (Ha5 : acc (errs1 ++ e) s0 (many (xs ++ option_list o)) s5) by (eapply acc_to; [exact Ha4|done..]).
    destruct (sp_lo sp0 =? sp_lo sp1).
    - apply wp_ret. cbn. eapply acc_mono; [exact Ha5|done|set_solver].
    - apply IH; [|done..]. do 4 (eapply rch_trans; [eassumption|]). by eapply rch_trans.
  Qed.
  Lemma produce_loop_leaf p set n : leafp yields p → leafp (λ x, many x.2) (produce_loop n p set).
  Proof.
    intros Hp s Hst. unfold produce_loop. eapply lbind; [done|apply (loop_leaf p set n Hp _ _ s); [apply rch_refl|done|]|].
    { apply acc_nil; [apply rch_refl|apply many_nil]. }
    intros [l errs] s1 H1 Hst1 Ha. apply lskip; [done|]. intros sp s2 H2 Hst2.
    apply (lret (λ x, many x.2)). by eapply acc_to.
  Qed.

  Lemma split_inner_leaf pT ef pf fol n : leafp yields pT → ∀ panic errs s0 s, rch s0 s → st s →
    W (split_inner n pT ef pf fol panic errs) s (λ q s', errs ⊆ q.1.2 ∧ match q.1.1 with Some x => acc q.1.2 s0 (yields x) s' | None => True end).
  Proof.
    intros Hp. induction n as [|n IH]; intros panic errs s0 s H0 Hst; [done|]. cbn [split_inner].
    apply lskip; [done|]. intros tk s1 H1 Hst1.
    eapply (lbind _ _ _ (λ q s', match q with inl (t, es) => errs ⊆ es ∧ acc es s0 (yields t) s' | inr _ => True end)); [done| |].
    - destruct (ts_contains ef tk || ts_contains_e ef).
      + apply (lcall yields); [done..|]. intros r s2 H2 Hst2 Hx. unfold value, errors_of in Hx. destruct (unres r) as [[y|] e]; cbn in Hx.
        * apply wp_ret. split; [set_solver|]. eapply (acc_app [] e); [apply (acc_nil [] s0 (λ k, k = []) s1); [by eapply rch_trans|done]|by apply Hx| |set_solver..].
          by intros ? k ->.
        * apply lskip; [done|]. intros. by apply wp_ret.
      + destruct panic; (apply lskip; [done|]; intros; by apply wp_ret).
    - intros [[t es]|[tk' panic']] s2 H2 Hst2 Hq.
      + apply wp_ret. done.
      + destruct (ts_contains pf tk'); [apply wp_ret; cbn; split; [set_solver|done]|].
        destruct (_ || _); [apply wp_ret; cbn; split; [set_solver|done]|].
        apply lskip; [done|]. intros a s3 H3 Hst3. apply IH; [|done].
        do 2 (eapply rch_trans; [eassumption|]). by eapply rch_trans.
  Qed.
  Lemma split_outer_leaf pT pP ef pf fol n : leafp yields pT → leafp yields pP → ∀ xs ps errs s0 s, rch s0 s → st s →
    length xs = S (length ps) → acc errs s0 (many (interleave xs ps)) s →
    W (split_outer n pT pP ef pf fol xs ps errs) s (λ q s', acc q.2 s0 (many (interleave q.1.1 q.1.2)) s').
  Proof.
    intros HT HP. induction n as [|n IH]; intros xs ps errs s0 s H0 Hst Hlen Ha; [done|]. cbn [split_outer].
    apply lskip; [done|]. intros tk s1 H1 Hst1.
    assert (Ha1 : ∀ es s', errs ⊆ es → rch s1 s' → acc es s0 (many (interleave xs ps)) s').
    { intros es s' He H. eapply acc_to; [exact Ha|by eapply rch_trans|done|done]. }
    destruct tk as [x|]; [destruct (ts_contains pf (Some x))|]; [|apply wp_ret; cbn; apply Ha1; [done|apply rch_refl]..].
    apply (lcall yields); [done..|]. intros r s2 H2 Hst2 Hx. unfold value, errors_of in Hx. destruct (unres r) as [[p|] e]; cbn in Hx.
    2:{ apply wp_ret. cbn. apply Ha1; [set_solver|done]. }
    eapply lbind; [done|apply (split_inner_leaf pT ef pf fol n HT _ _ s2); [apply rch_refl|done]|].
    intros [[o errs'] cont] s3 H3 Hst3 [He Ho]. cbn [fst snd] in He, Ho.
    assert (Ha3 : acc errs' s0 (many (interleave (xs ++ option_list o) (match o with Some _ => ps ++ [p] | None => ps end))) s3).
    { destruct o as [y|].
      - change (option_list (Some y)) with [y]. rewrite interleave_snoc by done. change [p; y] with ([p] ++ [y]). rewrite (assoc_L (++)).
        eapply (acc_app (errs ++ e) errs'); [|exact Ho|intros; by apply many_snoc|set_solver..].
        eapply acc_app; [apply (Ha1 errs s1); [done|apply rch_refl]|by apply Hx|intros; by apply many_snoc|set_solver..].
      - change (option_list None) with (@nil tree). rewrite app_nil_r. apply Ha1; [set_solver|by eapply rch_trans]. }
    destruct cont; [|by apply wp_ret]. apply IH; [|done| |done].
    - do 3 (eapply rch_trans; [eassumption|]). done.
    - destruct o; rewrite ?app_length; cbn; lia.
  Qed.
  Lemma produce_split_leaf pT pP ef pf fol n : leafp yields pT → leafp yields pP → leafp yields (produce_split n pT pP ef pf fol).
  Proof.
    intros HT HP s Hst. unfold produce_split. apply (lcall yields); [done..|]. intros r s1 H1 Hst1 Hx. unfold value, errors_of in Hx.
    destruct (unres r) as [[y|] e]; cbn in Hx; [|by apply wp_ret].
    eapply lbind; [done|apply (split_outer_leaf pT pP ef pf fol n HT HP _ _ _ s); [done..|]|].
    { cbn. eapply acc_mono; [by apply Hx|apply many_one|done]. }
    intros [[a b] errs] s2 _ _ Ha. cbn in Ha. apply (lret yields). eapply acc_mono; [exact Ha| |done].
    intros k (kss & Hk & ->). by constructor.
  Qed.

  Definition both (xs ps : list tree) (ks : list token) : Prop := ∃ k1 k2, many xs k1 ∧ many ps k2 ∧ shuffle k1 k2 ks.
  Lemma both_l xs ps x k1 k2 : both xs ps k1 → yields x k2 → both (xs ++ [x]) ps (k1 ++ k2).
  Proof.
    intros (a & b & Ha & Hb & Hs) Hx. exists (a ++ k2), b. split_and!; [by apply many_snoc|done|].
    rewrite <- (app_nil_r b). apply shuffle_app; [done|apply shuffle_l].
  Qed.
  Lemma both_r xs ps x k1 k2 : both xs ps k1 → yields x k2 → both xs (ps ++ [x]) (k1 ++ k2).
  Proof.
    intros (a & b & Ha & Hb & Hs) Hx. exists a, (b ++ k2). split_and!; [done|by apply many_snoc|].
    rewrite <- (app_nil_r a). apply shuffle_app; [done|apply shuffle_r].
  Qed.
  Lemma punct_inner_leaf pT ef pf fol n : leafp yields pT → ∀ panic errs s0 s, rch s0 s → st s →
    W (punct_inner n pT ef pf fol panic errs) s (λ q s', errs ⊆ q.1.2 ∧ match q.1.1 with Some x => acc q.1.2 s0 (yields x) s' | None => True end).
  Proof.
    intros Hp. induction n as [|n IH]; intros panic errs s0 s H0 Hst; [done|]. cbn [punct_inner].
    apply lskip; [done|]. intros tk s1 H1 Hst1. destruct tk as [x|]; [|apply wp_ret; cbn; split; [set_solver|done]].
    destruct (negb _ && _); [apply wp_ret; cbn; split; [set_solver|done]|].
    eapply (lbind _ _ _ (λ q s', match q with inl (t, es) => errs ⊆ es ∧ acc es s0 (yields t) s' | inr _ => True end)); [done| |].
    - destruct (ts_contains ef (Some x)).
      + apply (lcall yields); [done..|]. intros r s2 H2 Hst2 Hx. unfold value, errors_of in Hx. destruct (unres r) as [[y|] e]; cbn in Hx.
        * apply wp_ret. split; [set_solver|]. eapply (acc_app [] e); [apply (acc_nil [] s0 (λ k, k = []) s1); [by eapply rch_trans|done]|by apply Hx| |set_solver..].
          by intros ? k ->.
        * by apply wp_ret.
      + apply lskip; [done|]. intros. by apply wp_ret.
    - intros [[t es]|panic'] s2 H2 Hst2 Hq.
      + apply wp_ret. done.
      + apply lskip; [done|]. intros tk' s3 H3 Hst3.
        destruct (ts_contains pf tk'); [apply wp_ret; cbn; split; [set_solver|done]|].
        destruct (_ || _); [apply wp_ret; cbn; split; [set_solver|done]|].
        apply lskip; [done|]. intros a s4 H4 Hst4. apply IH; [|done].
        do 3 (eapply rch_trans; [eassumption|]). by eapply rch_trans.
  Qed.
  Lemma punct_outer_leaf pT pP ef pf fol n : leafp yields pT → leafp yields pP → ∀ xs ps errs s0 s, rch s0 s → st s →
    acc errs s0 (both xs ps) s →
    W (punct_outer n pT pP ef pf fol xs ps errs) s (λ q s', acc q.2 s0 (both q.1.1 q.1.2) s').
  Proof.
    intros HT HP. induction n as [|n IH]; intros xs ps errs s0 s H0 Hst Ha; [done|]. cbn [punct_outer].
    apply lskip; [done|]. intros tk s1 H1 Hst1.
    assert (Ha1 : ∀ es s', errs ⊆ es → rch s1 s' → acc es s0 (both xs ps) s').
    { intros es s' He H. eapply acc_to; [exact Ha|by eapply rch_trans|done|done]. }
    destruct tk as [x|]; [destruct (ts_contains pf (Some x))|]; [|apply wp_ret; cbn; apply Ha1; [done|apply rch_refl]..].
    apply (lcall yields); [done..|]. intros r s2 H2 Hst2 Hx. unfold value, errors_of in Hx. destruct (unres r) as [[p|] e]; cbn in Hx.
    2:{ apply wp_ret. cbn. apply Ha1; [set_solver|done]. }
    eapply lbind; [done|apply (punct_inner_leaf pT ef pf fol n HT _ _ s2); [apply rch_refl|done]|].
    intros [[o errs'] cont] s3 H3 Hst3 [He Ho]. cbn [fst snd] in He, Ho.
    assert (Ha2 : acc (errs ++ e) s0 (both xs (ps ++ [p])) s2).
    { eapply acc_app; [apply (Ha1 errs s1); [done|apply rch_refl]|by apply Hx|intros; by apply both_r|set_solver..]. }
    assert (Ha3 : acc errs' s0 (both (xs ++ option_list o) (ps ++ [p])) s3).
    { destruct o as [y|].
      - change (option_list (Some y)) with [y]. eapply (acc_app (errs ++ e) errs'); [exact Ha2|exact Ho|intros; by apply both_l|set_solver..].
      - change (option_list None) with (@nil tree). rewrite app_nil_r. by eapply acc_to. }
    destruct cont; [|by apply wp_ret]. apply IH; [|done..].
    do 3 (eapply rch_trans; [eassumption|]). done.
  Qed.
  Lemma produce_punct_leaf pT pP ef pf fol n : leafp yields pT → leafp yields pP → leafp yields (produce_punct n pT pP ef pf fol).
  Proof.
    intros HT HP s Hst. unfold produce_punct. apply (lcall yields); [done..|]. intros r s1 H1 Hst1 Hx. unfold value, errors_of in Hx.
    destruct (unres r) as [[y|] e]; cbn in Hx; [|by apply wp_ret].
    eapply lbind; [done|apply (punct_outer_leaf pT pP ef pf fol n HT HP _ _ _ s); [done..|]|].
    { eapply acc_mono; [by apply Hx| |done]. intros k Hk. exists k, []. split_and!; [by apply many_one|apply many_nil|apply shuffle_l]. }
    intros [[a b] errs] s2 _ _ Ha. cbn in Ha. apply (lret yields). eapply acc_mono; [exact Ha| |done].
    intros k (k1 & k2 & (ks1 & F1 & ->) & (ks2 & F2 & ->) & Hs). by eapply y_punct.
  Qed.

  Lemma recover_leaf pR tf n : leafp yields pR → ∀ panic errs s0 s, rch s0 s → st s →
    W (recover_loop n pR tf panic errs) s (λ q s', errs ⊆ q.2 ∧ match q.1.1 with Some x => acc q.2 s0 (yields x) s' | None => True end).
  Proof.
    intros Hp. induction n as [|n IH]; intros panic errs s0 s H0 Hst; [done|]. cbn [recover_loop].
    apply lskip; [done|]. intros tk s1 H1 Hst1.
    assert (Hfound : ∀ y e s2, rch s1 s2 → acc e s1 (yields y) s2 → acc (errs ++ e) s0 (yields y) s2).
    { intros y e s2 H2 Hx. eapply (acc_app [] e); [apply (acc_nil [] s0 (λ k, k = []) s1); [by eapply rch_trans|done]|exact Hx| |set_solver..].
      by intros ? k ->. }
    destruct tk as [x|].
    - eapply (lbind _ _ _ (λ q s', match q with inl (t, es) => errs ⊆ es ∧ acc es s0 (yields t) s' | inr _ => True end)); [done| |].
      + destruct (_ || _); [|by apply wp_ret].
        apply (lcall yields); [done..|]. intros r s2 H2 Hst2 Hx. unfold value, errors_of in Hx. destruct (unres r) as [[y|] e]; cbn in Hx.
        * apply wp_ret. split; [set_solver|]. by apply Hfound, Hx.
        * by apply wp_ret.
      + intros [[t es]|panic'] s2 H2 Hst2 Hq; [by apply wp_ret|].
        apply lskip; [done|]. intros p s3 H3 Hst3. apply lskip; [done|]. intros a s4 H4 Hst4. apply IH; [|done].
        do 3 (eapply rch_trans; [eassumption|]). by eapply rch_trans.
    - destruct (ts_contains_e tf); [|by apply wp_ret].
      apply (lcall yields); [done..|]. intros r s2 H2 Hst2 Hx. unfold value, errors_of in Hx. destruct (unres r) as [[y|] e]; cbn in Hx.
      + apply wp_ret. cbn. split; [set_solver|]. by apply Hfound, Hx.
      + by apply wp_ret.
  Qed.
  Lemma produce_recover_leaf pT pR hf tf n : leafp yields pT → leafp yields pR → leafp yields (produce_recover n pT pR hf tf).
  Proof.
    intros HT HR s Hst. unfold produce_recover. apply lskip; [done|]. intros tk s1 H1 Hst1.
    eapply (lbind _ _ _ (λ q s', acc q.2 s (λ k, match q.1.2 with Some x => yields x k | None => k = [] end) s')); [done| |].
    { destruct (_ || _).
      - apply (lcall yields); [done..|]. intros r s2 H2 Hst2 Hx. unfold value, errors_of in Hx. destruct (unres r) as [[y|] e]; cbn in Hx.
        + apply wp_ret. cbn. eapply (acc_app [] e); [by apply (acc_nil [] s (λ k, k = []) s1)|by apply Hx| |set_solver..]. by intros ? k ->.
        + apply lskip; [done|]. intros sp s3 H3 Hst3. apply wp_ret. cbn. apply acc_nil; [|done]. do 2 (eapply rch_trans; [eassumption|]). done.
      - do 2 (apply lskip; [done|]; intros). apply wp_ret. cbn. apply acc_nil; [|done]. do 2 (eapply rch_trans; [eassumption|]). done. }
    intros [[[panic hsp] hd] errs] s2 H2 Hst2 Ha. cbn in Ha.
    eapply lbind; [done|apply (recover_leaf pR tf n HR _ _ s2); [apply rch_refl|done]|].
    intros [[tl panic'] errs'] s3 H3 Hst3 [He Hq]. cbn in He, Hq. destruct tl as [y|]; [|by apply wp_ret].
    apply (lret yields). eapply (acc_app errs errs'); [exact Ha|exact Hq| |set_solver..].
    intros k1 k2 Hk1 Hk2. destruct hd; [by constructor|]. subst k1. by constructor.
  Qed.

  Lemma produce_leaf f t : within env root t → leafp yields (produce f t).
  Proof.
    revert t. induction f as [|f IH]; intros t Hw s Hst; [done|].
    assert (Hsub : ∀ c, c ∈ subs env t → leafp yields (produce f c)).
    { intros c Hc. apply IH. eapply rtc_r; [exact Hw|done]. }
    assert (Hok := ok _ Hst).
    destruct t as [n y lit|n|ts|t|t|t|t|t|t|t|t|t d|t d|t r]; cbn [ProduceModel.produce].
    - (* terminal *)
      apply wp_bind.
      assert (Htake : ∀ t r, a_rest s = t :: r → acc [] s (yields (TrTok t)) (pop s)).
      { intros t r E. destruct (pop_adv1 _ _ _ E) as [Hp _]. exists [t], [t]. split_and!; [done|constructor|]. apply em_take, em_nil. }
      destruct lit as [lit|].
      + assert (Hins : ts_contains (follow (key (TTok n y (Some lit)))) (look s) = true → look s ≠ Some (y, lit) →
          acc [PErr (a_span s) (Expecting (fs_one y (Some lit)))] s
            (yields (TrTok (Token (match a_rest s with [] => a_span s | _ => Span (pos s) (pos s) end) y))) s).
        { intros H1 H2. eexists [], [_]. split_and!; [apply adv_refl|constructor|]. apply em_ins; [|apply em_nil].
          exists n, y, lit. split; [done|]. destruct Hst as [Hs Ha]. unfold inserted. rewrite <- Ha, drop_app.
          assert (Hh : head (word src (a_rest s)) = look s).
          { unfold look, word, text_of. rewrite Hs. by destruct (a_rest s). }
          rewrite Hh. split_and!; [done|done| |].
          - rewrite <- pos_toks. f_equal. unfold a_span. rewrite Hs. by destruct (a_rest s).
          - unfold at_next, a_span. rewrite Hs. destruct (a_rest s); set_solver. }
        apply wp_parse_token_lit; [done|]. unfold a_span in Hins. destruct (a_rest s) as [|t r] eqn:Er.
        * assert (Hn : look s = None) by (by apply look_none). rewrite Hn in Hins.
          change (ts_contains ?a None) with (ts_contains_e a) in Hins.
          destruct (ts_contains_e _); apply wp_ret; [|done]. intros x [= <-]. by apply Hins.
        * destruct (decide (look s = Some (y, lit))) as [Hlk|Hlk].
          -- apply wp_ret. intros x [= <-]. by eapply Htake.
          -- destruct (ts_contains _ _); apply wp_ret; [|done]. intros x [= <-]. by apply Hins.
      + apply wp_parse_token. destruct (a_rest s) as [|t r] eqn:Er; [by apply wp_ret|].
        case_decide as Hy; apply wp_ret; [|done]. intros x [= <-]. by eapply Htake.
    - destruct (env !! n) as [[fs|vs]|] eqn:En; [| |done].
      + (* struct *)
        eapply lbind; [done|apply (seq_leaf _ _); [|apply rch_refl|done|apply acc_nil; [apply rch_refl|apply many_nil]]|].
        { intros c Hc. apply Hsub. cbn. by rewrite En. }
        intros r s1 H1 Hst1 Hx. unfold value, errors_of in Hx. destruct (unres r) as [[xs|] e]; cbn in Hx; [|by apply wp_ret].
        apply lskip; [done|]. intros ? s2 H2 Hst2. apply (lret yields). eapply acc_to; [by apply Hx|done| |done].
        intros k (kss & Hk & ->). by constructor.
      + (* enum *)
        apply lskip; [done|]. intros tk s1 H1 Hst1.
        destruct (_ ≫= _) as [[i [t' sem]]|] eqn:Ei; [|apply lskip; [done|]; intros; by apply wp_ret].
        assert (vs !! i = Some (t', sem)) as Hi.
        { destruct (jump (key (TNamed n)) tk) as [i'|]; [|done]. cbn in Ei.
          destruct (vs !! i') eqn:E; [|done]. cbn in Ei. injection Ei as -> ->. done. }
        assert (Ht' : t' ∈ subs env (TNamed n)).
        { cbn. rewrite En. cbn. apply elem_of_list_lookup_2 in Hi. 
          apply elem_of_list_In, (in_map fst), elem_of_list_In in Hi. done. }
        apply (lcall yields); [by apply Hsub|done|]. intros r s2 H2 Hst2 Hx.
        assert (Hfin : ∀ s3, rch s2 s3 → ∀ x, value (res_map (TrVar i) r) = Some x → acc (errors_of (res_map (TrVar i) r)) s (yields x) s3).
        { intros s3 H3 x. unfold value, errors_of in *. rewrite unres_map. destruct (unres r) as [[z|] e]; cbn in *; [|done]. intros [= <-].
          eapply (acc_app [] e); [by apply (acc_nil [] s (λ k, k = []) s1)| |intros k1 k2 -> Hk; exact Hk|set_solver..].
          eapply acc_to; [by apply Hx|done|intros; by constructor|done]. }
        destruct r as [x|x es|es], sem; try (apply lskip; [done|]; intros); apply wp_ret, Hfin; eauto using rch_refl.
    - (* tuple *)
      eapply lbind; [done|apply (seq_leaf _ _); [|apply rch_refl|done|apply acc_nil; [apply rch_refl|apply many_nil]]|].
      { intros c Hc. apply Hsub. done. }
      intros r s1 H1 Hst1 Hx. apply wp_ret. unfold value, errors_of in *. rewrite unres_map. 
      destruct (unres r) as [[xs|] e]; cbn in *; [|done]. intros z [= <-]. eapply acc_mono; [by apply Hx| |done].
      intros k (kss & Hk & ->). by constructor.
    - (* box *)
      apply Hsub; [cbn; set_solver|done].
    - (* option *)
      eapply lmap; [apply option_leaf, Hsub; cbn; set_solver| |done].
      intros [sp [x|]] k; cbn; intros H; [by constructor|]. subst. constructor.
    - (* exists *)
      eapply lbind; [done|apply option_leaf; [apply Hsub; cbn; set_solver|done]|]. intros r s1 H1 _ _. apply wp_ret.
      intros x Hx. apply acc_nil; [done|]. unfold value in Hx. rewrite unres_map in Hx. destruct (unres r) as [[[sp o]|] e]; cbn in Hx; [|done].
      injection Hx as <-. constructor.
    - (* quote *)
      apply lskip; [done|]. intros r s1 H1 Hst1. destruct r as [x|x es|es]; [| |by apply wp_ret].
      all: apply lskip; [done|]; intros str s2 H2 Hst2; apply wp_ret; intros z [= <-]; apply acc_nil; [by eapply rch_trans|constructor].
    - (* parse *)
      apply lskip; [done|]. intros r s1 H1 Hst1. destruct r as [x|x es|es]; [| |by apply wp_ret].
      all: apply lskip; [done|]; intros str s2 H2 Hst2; apply wp_ret; intros z [= <-]; apply acc_nil; [by eapply rch_trans|constructor].
    - (* plus *)
      eapply lmap; [apply plus_leaf, Hsub; cbn; set_solver| |done]. intros [sp l] k (kss & Hk & ->). by constructor.
    - (* star *)
      eapply lmap; [apply option_leaf, plus_leaf, Hsub; cbn; set_solver| |done].
      intros [sp [[sp' l]|]] k; cbn; [intros (kss & Hk & ->); by constructor|]. intros ->. apply (y_list _ [] []). constructor.
    - (* loop *)
      eapply lmap; [apply produce_loop_leaf, Hsub; cbn; set_solver| |done]. intros [sp l] k (kss & Hk & ->). by constructor.
    - apply produce_split_leaf; [apply Hsub; cbn; set_solver..|done].
    - apply produce_punct_leaf; [apply Hsub; cbn; set_solver..|done].
    - apply produce_recover_leaf; [apply Hsub; cbn; set_solver..|done].
  Qed.
End leaf.

Lemma leaf_run extract env first follow jump f t s r s' x l : state_ok s →
  run extract (produce env first follow jump f t) s = ODone r s' → value r = Some x → took extract s l s' →
  ∃ ks, yields x ks ∧ embeds (insertion env follow t (p_src s) (all_tokens extract s) (errors_of r)) (consumed s) l ks.
Proof.
  intros Hok Hr Hx Hl. destruct (abs_st extract s Hok) as [H1 H2].
  assert (Hp := produce_leaf env first follow jump t (p_src s) (all_tokens extract s) H1 f t (rtc_refl _ _) (abs extract s) H2).
  assert (Hq := run_wp extract _ _ _ _ _ _ _ Hp Hr). destruct (Hq x Hx) as (l' & ks & Ha & Hy & He).
  apply took_adv in Hl. rewrite (adv_inj _ _ _ _ Hl Ha). eauto.
Qed.
Lemma leaf_parse extract env f root md s o s' x l : state_ok s →
  run extract (parse env f root (inr md)) s = ODone o s' → o = inr (Some x) → took extract s l s' →
  ∃ ks, yields x ks ∧
    embeds (insertion env (tb_get (md_follow md)) root (p_src s) (all_tokens extract s) (p_errors s')) (consumed s) l ks.
Proof.
  intros Hok H -> Hl. apply parse_run in H as (x' & [= <-] & H). apply parse_with_run in H as (r & s1 & H & Hx & _ & He & Ha).
  apply took_adv in Hl. rewrite Ha in Hl. apply took_adv in Hl.
  destruct (leaf_run _ _ _ _ _ _ _ _ _ _ x l Hok H (eq_sym Hx) Hl) as (ks & Hy & Hk). exists ks. split; [done|].
  eapply em_mono; [|exact Hk]. intros p k Hi. eapply ins_sub; [|exact Hi]. rewrite He. unfold errors_of. set_solver.
Qed.
(** Nothing inserted when there are no errors. *)
Lemma em_sub ins pre l ks : (∀ p k, ¬ ins p k) → embeds ins pre l ks → ks `sublist_of` l.
Proof. intros H. induction 1; [constructor|by constructor|by constructor|by destruct (H _ _ H0)]. Qed.
Lemma leaf_success extract env first follow jump f t s x s' l : state_ok s →
  run extract (produce env first follow jump f t) s = ODone (RSucc x) s' → took extract s l s' →
  ∃ ks, yields x ks ∧ ks `sublist_of` l.
Proof.
  intros Hok Hr Hl. destruct (leaf_run _ _ _ _ _ _ _ _ _ _ x l Hok Hr eq_refl Hl) as (ks & Hy & Hk). exists ks. split; [done|].
  eapply em_sub; [|exact Hk]. intros p k (n & y & lit & _ & _ & _ & _ & H). by apply elem_of_nil in H.
Qed.
