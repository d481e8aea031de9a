(** The registered productions derive exactly the language of the type. *)
From Coq Require Import String NArith.
From stdpp Require Import prelude list strings relations.
From Verif Require Import LexModel SynSetModel TableModel StreamModel StreamSpec TypeModel CfgSpec CfgFacts TypeSpec TypeFacts ProduceModel ParseSpec.
Local Open Scope nat_scope.

(** * Derivations of words, big step with a bound on the height *)
Section gen.
  Context {K : Type} (G : grammar K).
  Inductive genf : nat → list (sym K) → list tok → Prop :=
  | genf_nil n : genf n [] []
  | genf_T n t α w : genf n α w → genf n (T t :: α) (t :: w)
  | genf_N n k γ α w1 w2 : rhs G k γ → genf n γ w1 → genf (S n) α w2 →
      genf (S n) (N k :: α) (w1 ++ w2).

  Lemma genf_mono n m α w : n ≤ m → genf n α w → genf m α w.
  Proof.
    intros Hn H. revert m Hn. induction H as [|n t α w H IH|n k γ α w1 w2 Hr H1 IH1 H2 IH2]; intros m Hn.
    - constructor.
    - constructor. auto.
    - destruct m as [|m]; [lia|]. econstructor; [done|apply IH1; lia|apply IH2; lia].
  Qed.
  Lemma genf_app n α β w : genf n (α ++ β) w ↔ ∃ w1 w2, w = w1 ++ w2 ∧ genf n α w1 ∧ genf n β w2.
  Proof.
    split.
    - revert w. induction α as [|[k|t] α IH]; intros w; cbn.
      + intros H. exists [], w. split_and!; [done|constructor|done].
      + inversion 1 as [|? ? ? ? H1|m ? γ ? u1 u2 Hr H1 H2]; subst.
        apply IH in H2 as (v1 & v2 & -> & ? & ?). exists (u1 ++ v1), v2.
        split_and!; [by rewrite (assoc_L (++))|by econstructor|done].
      + inversion 1 as [|? ? ? w' H1|m ? γ ? u1 u2 Hr H1 H2]; subst.
        apply IH in H1 as (v1 & v2 & -> & ? & ?). exists (t :: v1), v2. split_and!; [done|by constructor|done].
    - intros (w1 & w2 & -> & H1 & H2). induction H1; cbn; [done|by constructor; auto|].
      rewrite <- (assoc_L (++)). econstructor; eauto.
  Qed.
  Lemma genf_words n w : genf n (map T w) w.
  Proof. induction w; cbn; by constructor. Qed.
  Lemma genf_words_inv n u w : genf n (map T u) w → u = w.
  Proof. revert w. induction u as [|t u IH]; intros w; cbn; inversion 1; subst; [done|]. f_equal. auto. Qed.

  Lemma genf_step n α β w : step G α β → genf n β w → genf (S n) α w.
  Proof.
    intros [a k γ b Hr] H. apply genf_app in H as (w1 & w2 & -> & H1 & H2).
    apply genf_app in H2 as (u1 & u2 & -> & H2 & H3). apply genf_app.
    exists w1, (u1 ++ u2). split; [done|]. split; [eapply genf_mono, H1; lia|].
    econstructor; [done..|]. eapply genf_mono, H3; lia.
  Qed.
  Lemma derives_genf α w : derives G α (map T w) → ∃ n, genf n α w.
  Proof.
    intros H. remember (map T w) as β eqn:E. revert E. induction H as [|α β γ Hs H IH]; intros ->.
    - exists 0. apply genf_words.
    - destruct (IH eq_refl) as [n Hn]. exists (S n). by eapply genf_step.
  Qed.
  Lemma genf_derives n α w : genf n α w → derives G α (map T w).
  Proof.
    induction 1 as [|n t α w H IH|n k γ α w1 w2 Hr H1 IH1 H2 IH2]; cbn.
    - apply rtc_refl.
    - apply (derives_app_l G _ _ [T t]). done.
    - rewrite map_app. apply (derives_app G [N k] _ α); [|done].
      eapply rtc_transitive; [by apply derives_rhs|done].
  Qed.
  Lemma derives_words α w : derives G α (map T w) ↔ ∃ n, genf n α w.
  Proof. split; [apply derives_genf|intros [n Hn]; by eapply genf_derives]. Qed.

  Lemma genf_one n k w : genf n [N k] w → ∃ m γ, n = S m ∧ rhs G k γ ∧ genf m γ w.
  Proof.
    inversion 1 as [| |m ? γ ? w1 w2 Hr H1 H2]; subst. inversion H2; subst. rewrite app_nil_r. eauto.
  Qed.
  Lemma genf_cons n k α w : genf n (N k :: α) w ↔ ∃ w1 w2, w = w1 ++ w2 ∧ genf n [N k] w1 ∧ genf n α w2.
  Proof. apply (genf_app n [N k] α). Qed.
End gen.

(** * Sequences *)
Lemma map_replicate {A B} (f : A → B) n x : map f (replicate n x) = replicate n (f x).
Proof. induction n; cbn; congruence. Qed.
Lemma langs_app env ts us w : langs env (ts ++ us) w ↔ ∃ w1 w2, w = w1 ++ w2 ∧ langs env ts w1 ∧ langs env us w2.
Proof.
  split.
  - revert w. induction ts as [|t ts IH]; intros w; cbn.
    + intros H. exists [], w. split_and!; [done|constructor|done].
    + inversion 1 as [|? ? w1 w2 H1 H2]; subst. apply IH in H2 as (v1 & v2 & -> & ? & ?).
      exists (w1 ++ v1), v2. split_and!; [by rewrite (assoc_L (++))|by constructor|done].
  - intros (w1 & w2 & -> & H1 & H2). induction H1; cbn; [done|]. rewrite <- (assoc_L (++)). by constructor.
Qed.
Lemma langs_cons env t ts w : langs env (t :: ts) w ↔ ∃ w1 w2, w = w1 ++ w2 ∧ lang env t w1 ∧ langs env ts w2.
Proof. split; [inversion 1; subst; eauto 10|intros (w1 & w2 & -> & ? & ?); by constructor]. Qed.
Lemma langs_nil env w : langs env [] w ↔ w = [].
Proof. split; [by inversion 1|intros ->; constructor]. Qed.
Lemma langs_one env t w : langs env [t] w ↔ lang env t w.
Proof.
  rewrite langs_cons. split.
  - intros (w1 & w2 & -> & H & ->%langs_nil). by rewrite app_nil_r.
  - intros H. exists w, []. rewrite app_nil_r. split_and!; [done..|constructor].
Qed.
Lemma langs_tuples env n d t w : langs env (replicate n (TTuple [d; t])) w ↔ langs env (concat (replicate n [d; t])) w.
Proof.
  revert w. induction n as [|n IH]; intros w; [done|].
  cbn. rewrite langs_cons. split.
  - intros (w1 & w2 & -> & H1 & H2%IH). inversion H1; subst. apply (langs_app _ [d; t]). eauto 10.
  - intros H%(langs_app _ [d; t]). destruct H as (w1 & w2 & -> & H1 & H2%IH). exists w1, w2. split_and!; [done|by constructor|done].
Qed.

Lemma lang_star_inv env t w : lang env (TStar t) w → ∃ n, langs env (replicate n t) w.
Proof. inversion 1; eauto. Qed.
Lemma lang_opt_inv env t w : lang env (TOpt t) w → w = [] ∨ lang env t w.
Proof. inversion 1; auto. Qed.
Lemma lang_tuple_inv env ts w : lang env (TTuple ts) w → langs env ts w.
Proof. by inversion 1. Qed.
Lemma lang_punct_inv env t d w : lang env (TPunct t d) w → ∃ n (b : bool), langs env (alternate n t d ++ if b then [d] else []) w.
Proof. inversion 1; eauto. Qed.

Section lang.
  Variable env : denv.
  Variable regs : grammar prod.
  Variable root : prod.
  Hypothesis Hfun : functional regs.
  Hypothesis Hregs : ∀ k e, (k, e) ∈ regs ↔ visible env root k ∧ entry_of env k = Some e.

  Lemma rhs_entry k γ : rhs regs k γ → ∃ e, entry_of env k = Some e ∧
    match e with
    | EEps => γ = []
    | ETok y lit => ∃ t, covers y lit t ∧ γ = [T t]
    | ESeq l => γ = map N l
    | EUnion l => ∃ y, y ∈ l ∧ γ = [N y]
    end.
  Proof. destruct 1 as [k H|k y lit t H Hc|k l H|k l y H Hy]; apply Hregs in H as [_ H]; (eexists; split; [exact H|]; cbn; eauto). Qed.

  Notation G n k w := (genf regs n [N k] w).

  Lemma gen_inv n k w : G n k w → ∃ m e, n = S m ∧ entry_of env k = Some e ∧
    match e with
    | EEps => w = []
    | ETok y lit => ∃ t, covers y lit t ∧ w = [t]
    | ESeq l => genf regs m (map N l) w
    | EUnion l => ∃ y, y ∈ l ∧ G m y w
    end.
  Proof.
    intros (m & γ & -> & Hr & Hg)%genf_one. apply rhs_entry in Hr as (e & He & H).
    exists m, e. split_and!; [done..|]. destruct e as [|y lit|l|l].
    - subst. by inversion Hg.
    - destruct H as (t & Hc & ->). exists t. split; [done|]. apply (genf_words_inv regs m [t]) in Hg. done.
    - by subst.
    - destruct H as (y & Hy & ->). eauto.
  Qed.

  (** Soundness of the productions *)
  Lemma gen_lang n : ∀ t w, G n (key t) w → lang env t w.
  Proof.
    induction n as [n IHn] using (well_founded_induction Nat.lt_wf_0).
    assert (IHs : ∀ m ts w, m < n → genf regs m (map N (map key ts)) w → langs env ts w).
    { intros m ts. induction ts as [|t ts IH]; intros w Hm; cbn [map].
      - inversion 1; subst. constructor.
      - intros (w1 & w2 & -> & H1 & H2)%genf_cons. constructor; [by apply (IHn m)|auto]. }
    induction t as [nm y lit|i|l _|t IHt|t _|t _|t IHt|t IHt|t _|t _|t _|t d _ _|t d _ _|t r _ _] using ty_ind'; intros w Hw.
    - apply gen_inv in Hw as (m & e & -> & [= <-] & t & Hc & ->). by constructor.
    - apply gen_inv in Hw as (m & e & -> & He & Hw). cbn in He.
      destruct (env !! i) as [[fs|vs]|] eqn:Ei; cbn in He; [| |done]; injection He as <-.
      + eapply l_struct; [done|]. apply (IHs m); [lia|]. unfold field_prods in Hw. rewrite !map_map in Hw. rewrite !map_map. exact Hw.
      + destruct Hw as (y & Hy & Hw). unfold field_prods in Hy. rewrite map_map in Hy.
        apply elem_of_list_In, in_map_iff in Hy as ([t sem] & <- & Hin). apply elem_of_list_In in Hin.
        eapply l_enum; [done..|]. apply (IHn m); [lia|done].
    - apply gen_inv in Hw as (m & e & -> & [= <-] & Hw). constructor. apply (IHs m); [lia|]. rewrite !map_map in Hw. rewrite !map_map. exact Hw.
    - constructor. auto.
    - apply gen_inv in Hw as (m & e & -> & [= <-] & y & Hy & Hw).
      apply elem_of_cons in Hy as [->|Hy]; [apply l_some, (IHn m); [lia|done]|].
      apply elem_of_list_singleton in Hy as ->. apply gen_inv in Hw as (? & e & -> & [= <-] & ->). constructor.
    - apply gen_inv in Hw as (m & e & -> & [= <-] & y & Hy & Hw).
      apply elem_of_cons in Hy as [->|Hy]; [apply l_present, (IHn m); [lia|done]|].
      apply elem_of_list_singleton in Hy as ->. apply gen_inv in Hw as (? & e & -> & [= <-] & ->). constructor.
    - constructor. auto.
    - constructor. auto.
    - apply gen_inv in Hw as (m & e & -> & [= <-] & Hw).
      apply (IHs m [t; TStar t]) in Hw; [|lia]. apply langs_cons in Hw as (w1 & w2 & -> & H1 & H2%langs_one).
      inversion H2; subst. eapply l_plus. cbn. by constructor.
    - apply gen_inv in Hw as (m & e & -> & [= <-] & y & Hy & Hw).
      apply elem_of_cons in Hy as [->|Hy].
      + apply (IHn m (Nat.lt_succ_diag_r m) (TPlus t)) in Hw. inversion Hw; subst. by eapply l_star.
      + apply elem_of_list_singleton in Hy as ->. apply gen_inv in Hw as (? & e & -> & [= <-] & ->).
        apply (l_star _ _ 0). constructor.
    - apply gen_inv in Hw as (m & e & -> & [= <-] & Hw).
      apply (IHs m [t; TStar t]) in Hw; [|lia]. apply langs_cons in Hw as (w1 & w2 & -> & H1 & H2%langs_one).
      inversion H2; subst. eapply l_loop. cbn. by constructor.
    - apply gen_inv in Hw as (m & e & -> & [= <-] & Hw).
      apply (IHs m [t; TStar (TTuple [d; t])]) in Hw; [|lia].
      apply langs_cons in Hw as (w1 & w2 & -> & H1 & H2%langs_one).
      apply lang_star_inv in H2 as [k H3]. apply langs_tuples in H3. apply (l_split _ _ _ k). by constructor.
    - apply gen_inv in Hw as (m & e & -> & [= <-] & Hw).
      apply (IHs m [t; TOpt (TTuple [d; TOpt (TPunct t d)])]) in Hw; [|lia].
      apply langs_cons in Hw as (w1 & w2 & -> & H1 & H2%langs_one).
      apply lang_opt_inv in H2 as [->|H3].
      { apply (l_punct _ _ _ 0 false). cbn. by repeat constructor. }
      apply lang_tuple_inv, langs_cons in H3 as (u1 & u2 & -> & H4 & H5%langs_one).
      apply lang_opt_inv in H5 as [->|H6].
      { apply (l_punct _ _ _ 0 true). cbn. by repeat constructor. }
      apply lang_punct_inv in H6 as (k & b & H7).
      apply (l_punct _ _ _ (S k) b). cbn. constructor; [done|]. by constructor.
    - apply gen_inv in Hw as (m & e & -> & [= <-] & Hw). constructor. apply (IHs m [t; r]); [lia|done].
  Qed.

  (** Completeness of the productions *)
  Notation vis k := (visible env root k).
  Definition der (k : prod) (w : list tok) : Prop := ∃ n, G n k w.
  Definition ders (ks : list prod) (w : list tok) : Prop := ∃ n, genf regs n (map N ks) w.

  Lemma ders_nil : ders [] [].
  Proof. exists 0. constructor. Qed.
  Lemma ders_cons k ks w1 w2 : der k w1 → ders ks w2 → ders (k :: ks) (w1 ++ w2).
  Proof.
    intros [n Hn] [m Hm]. exists (n + m). cbn. apply genf_cons. exists w1, w2.
    split_and!; [done|eapply genf_mono, Hn; lia|eapply genf_mono, Hm; lia].
  Qed.
  Lemma ders_one k w : der k w → ders [k] w.
  Proof. intros H. rewrite <- (app_nil_r w). apply ders_cons; [done|apply ders_nil]. Qed.
  Lemma ders_inv k ks w : ders (k :: ks) w → ∃ w1 w2, w = w1 ++ w2 ∧ der k w1 ∧ ders ks w2.
  Proof. intros [n (w1 & w2 & -> & H1 & H2)%genf_cons]. exists w1, w2. split_and!; [done|by exists n|by exists n]. Qed.
  Lemma der_rhs k γ n w : rhs regs k γ → genf regs n γ w → der k w.
  Proof. intros Hr Hg. exists (S n). rewrite <- (app_nil_r w). econstructor; [done..|constructor]. Qed.

  Lemma der_seq k l w : vis k → entry_of env k = Some (ESeq l) → ders l w → der k w.
  Proof. intros Hv He [n Hn]. eapply der_rhs; [|done]. constructor. by apply Hregs. Qed.
  Lemma der_union k l y w : vis k → entry_of env k = Some (EUnion l) → y ∈ l → der y w → der k w.
  Proof. intros Hv He Hy [n Hn]. eapply der_rhs; [|done]. eapply rhs_union; [by apply Hregs|done]. Qed.
  Lemma der_tok k y lit t : vis k → entry_of env k = Some (ETok y lit) → covers y lit t → der k [t].
  Proof.
    intros Hv He Hc. eapply (der_rhs _ _ 0); [eapply rhs_tok; [by apply Hregs|done]|].
    constructor. constructor.
  Qed.
  Lemma der_eps : vis PEps → der PEps [].
  Proof. intros Hv. eapply (der_rhs _ _ 0); [eapply rhs_eps; by apply Hregs|]. constructor. Qed.

  Lemma vis_kid k ks x : vis k → kids env k = Some ks → x ∈ ks → vis (pid x).
  Proof. intros Hv Hk Hx. eapply rtc_r; [exact Hv|]. exists ks, x. auto. Qed.

  Lemma der_opt_none p : vis (POpt p) → der (POpt p) [].
  Proof.
    intros Hv. eapply (der_union _ _ PEps); [done|done|set_solver|]. apply der_eps.
    apply (vis_kid _ [p; PEps] PEps Hv); [done|set_solver].
  Qed.
  Lemma der_opt_some p w : vis (POpt p) → der (pid p) w → der (POpt p) w.
  Proof. intros Hv H. eapply (der_union _ _ (pid p)); [done|done|set_solver|done]. Qed.
  Lemma vis_more p : vis (POneMore p) → vis (POpt (POneMore p)) ∧ vis (pid p).
  Proof.
    intros Hv. split.
    - apply (vis_kid _ _ (POpt (POneMore p)) Hv eq_refl). set_solver.
    - apply (vis_kid _ _ p Hv eq_refl). set_solver.
  Qed.
  Lemma der_more p n w : vis (POneMore p) → ders (replicate (S n) (pid p)) w → der (POneMore p) w.
  Proof.
    intros Hv. destruct (vis_more p Hv) as [Hv1 Hv2]. revert w. induction n as [|n IH]; intros w H.
    - eapply der_seq; [done|done|]. apply ders_inv in H as (w1 & w2 & -> & H1 & [m H2]).
      inversion H2; subst. apply ders_cons; [done|]. apply ders_one.
      by apply der_opt_none.
    - eapply der_seq; [done|done|]. apply ders_inv in H as (w1 & w2 & -> & H1 & H2).
      apply ders_cons; [done|]. apply ders_one.
      apply der_opt_some; [done|]. auto.
  Qed.
  Lemma der_star p n w : vis (POpt (POneMore p)) → ders (replicate n (pid p)) w → der (POpt (POneMore p)) w.
  Proof.
    intros Hv H. destruct n as [|n].
    - destruct H as [m H]. inversion H; subst. by apply der_opt_none.
    - apply der_opt_some; [done|]. apply (der_more _ n); [|done].
      apply (vis_kid _ _ (POneMore p) Hv eq_refl). set_solver.
  Qed.

  Lemma ders_tuples p q n w : vis (PTuple [q; p]) →
    ders (concat (replicate n [pid q; pid p])) w → ders (replicate n (PTuple [q; p])) w.
  Proof.
    intros Hv. revert w. induction n as [|n IH]; intros w; [done|]. cbn.
    intros (w1 & w2 & -> & H1 & (w3 & w4 & -> & H2 & H3)%ders_inv)%ders_inv.
    rewrite (assoc_L (++)). apply ders_cons; [|auto].
    eapply der_seq; [done|done|]. cbn. apply ders_cons; [done|]. by apply ders_one.
  Qed.

  Lemma der_punct p q n (b : bool) w : vis (PPunct p q) →
    ders (pid p :: concat (replicate n [pid q; pid p]) ++ if b then [pid q] else []) w → der (PPunct p q) w.
  Proof.
    intros Hv.
    assert (V1 : vis (POpt (PTuple [q; POpt (PPunct p q)]))).
    { apply (vis_kid _ _ (POpt (PTuple [q; POpt (PPunct p q)])) Hv eq_refl). set_solver. }
    assert (V2 : vis (PTuple [q; POpt (PPunct p q)])).
    { apply (vis_kid _ _ (PTuple [q; POpt (PPunct p q)]) V1 eq_refl). set_solver. }
    assert (V3 : vis (POpt (PPunct p q))).
    { apply (vis_kid _ _ (POpt (PPunct p q)) V2 eq_refl). set_solver. }
    revert w. induction n as [|n IH]; intros w (w1 & w2 & -> & H1 & H2)%ders_inv.
    - eapply der_seq; [done|done|]. apply ders_cons; [done|]. apply ders_one. cbn in H2. destruct b.
      + apply der_opt_some; [done|]. eapply der_seq; [done|done|]. cbn.
        apply ders_inv in H2 as (u1 & u2 & -> & H2 & [m H3]). inversion H3; subst.
        apply ders_cons; [done|]. apply ders_one.
        by apply der_opt_none.
      + destruct H2 as [m H2]. inversion H2; subst. by apply der_opt_none.
    - eapply der_seq; [done|done|]. apply ders_cons; [done|]. apply ders_one. cbn in H2.
      apply ders_inv in H2 as (u1 & u2 & -> & H2 & H3).
      apply der_opt_some; [done|]. eapply der_seq; [done|done|]. cbn.
      apply ders_cons; [done|]. apply ders_one.
      apply der_opt_some; [done|]. apply IH. done.
  Qed.

  Lemma lang_der t w : lang env t w → vis (key t) → der (key t) w.
  Proof.
    revert t w. apply (lang_mut env (λ t w _, vis (key t) → der (key t) w)
      (λ ts w _, Forall (λ t, vis (key t)) ts → ders (map key ts) w)).
    - intros n y lit t Hc Hv. by eapply der_tok.
    - intros n fs w En _ IH Hv. eapply der_seq; [done|cbn; by rewrite En|].
      unfold field_prods. rewrite map_map. rewrite map_map in IH. apply IH.
      apply Forall_forall. intros t Ht. apply (vis_kid _ (field_prods fs) (prod_of t) Hv); [cbn; by rewrite En|].
      unfold field_prods. apply elem_of_list_In, in_map_iff in Ht as (f & <- & Hf).
      apply elem_of_list_In, (in_map (λ f, prod_of f.1)). done.
    - intros n vs t sem w En Hin _ IH Hv.
      assert (Hf : prod_of t ∈ field_prods vs).
      { unfold field_prods. apply elem_of_list_In. apply elem_of_list_In in Hin. apply (in_map (λ f, prod_of f.1) _ _ Hin). }
      eapply (der_union _ _ (key t)); [done|cbn; by rewrite En| |].
      + apply elem_of_list_In, (in_map pid), elem_of_list_In. done.
      + apply IH. apply (vis_kid _ (field_prods vs) (prod_of t) Hv); [cbn; by rewrite En|done].
    - intros ts w _ IH Hv. eapply der_seq; [done|done|]. rewrite map_map. apply IH.
      apply Forall_forall. intros t Ht. apply (vis_kid _ (map prod_of ts) (prod_of t) Hv); [done|].
      apply elem_of_list_In, in_map, elem_of_list_In. done.
    - intros t w _ IH Hv. by apply IH.
    - intros t Hv. by apply der_opt_none.
    - intros t w _ IH Hv. apply der_opt_some; [done|]. apply IH. apply (vis_kid _ _ (prod_of t) Hv eq_refl). set_solver.
    - intros t Hv. by apply der_opt_none.
    - intros t w _ IH Hv. apply der_opt_some; [done|]. apply IH. apply (vis_kid _ _ (prod_of t) Hv eq_refl). set_solver.
    - intros t w _ IH Hv. by apply IH.
    - intros t w _ IH Hv. by apply IH.
    - intros t n w _ IH Hv. apply (der_more _ n); [done|]. rewrite map_replicate in IH. apply IH.
      apply Forall_replicate. by apply vis_more.
    - intros t n w _ IH Hv. apply (der_star _ n); [done|]. rewrite map_replicate in IH. apply IH.
      apply Forall_replicate. apply vis_more. apply (vis_kid _ _ (POneMore (prod_of t)) Hv eq_refl). set_solver.
    - intros t n w _ IH Hv. apply (der_more _ n); [done|]. rewrite map_replicate in IH. apply IH.
      apply Forall_replicate. by apply vis_more.
    - intros t d n w _ IH Hv.
      assert (V1 : vis (key t)) by (apply (vis_kid _ _ (prod_of t) Hv eq_refl); set_solver).
      assert (V2 : vis (POpt (POneMore (PTuple [prod_of d; prod_of t])))).
      { apply (vis_kid _ _ (POpt (POneMore (PTuple [prod_of d; prod_of t]))) Hv eq_refl). set_solver. }
      assert (V3 : vis (POneMore (PTuple [prod_of d; prod_of t]))).
      { apply (vis_kid _ _ (POneMore (PTuple [prod_of d; prod_of t])) V2 eq_refl). set_solver. }
      destruct (vis_more _ V3) as [_ V4]. cbn in V4.
      assert (V5 : vis (key d)) by (apply (vis_kid _ _ (prod_of d) V4 eq_refl); set_solver).
      eapply der_seq; [done|done|]. cbn [map].
      assert (H : ders (map key (alternate n t d)) w).
      { apply IH. constructor; [done|]. clear -V1 V5. induction n; cbn; [done|]. by repeat constructor. }
      unfold alternate in H. cbn [map] in H. apply ders_inv in H as (w1 & w2 & -> & H1 & H2).
      apply ders_cons; [done|]. apply ders_one.
      apply (der_star _ n); [done|]. apply ders_tuples; [done|].
      rewrite concat_map, map_replicate in H2. done.
    - intros t d n b w _ IH Hv.
      assert (V1 : vis (key t)) by (apply (vis_kid _ _ (prod_of t) Hv eq_refl); set_solver).
      assert (V2 : vis (POpt (PTuple [prod_of d; POpt (PPunct (prod_of t) (prod_of d))]))).
      { apply (vis_kid _ _ (POpt (PTuple [prod_of d; POpt (PPunct (prod_of t) (prod_of d))])) Hv eq_refl). set_solver. }
      assert (V4 : vis (PTuple [prod_of d; POpt (PPunct (prod_of t) (prod_of d))])).
      { apply (vis_kid _ _ (PTuple [prod_of d; POpt (PPunct (prod_of t) (prod_of d))]) V2 eq_refl). set_solver. }
      assert (V5 : vis (key d)) by (apply (vis_kid _ _ (prod_of d) V4 eq_refl); set_solver).
      apply (der_punct _ _ n b); [done|].
      assert (H : ders (map key (alternate n t d ++ if b then [d] else [])) w).
      { apply IH. apply Forall_app. split; [|destruct b; by repeat constructor].
        constructor; [done|]. clear -V1 V5. induction n; cbn; [done|]. by repeat constructor. }
      rewrite map_app in H. unfold alternate in H. cbn [map app] in H. rewrite concat_map, map_replicate in H.
      destruct b; done.
    - intros t r w _ IH Hv. eapply der_seq; [done|done|]. apply IH.
      repeat constructor.
      + apply (vis_kid _ _ (prod_of t) Hv eq_refl). set_solver.
      + apply (vis_kid _ _ (prod_of r) Hv eq_refl). set_solver.
    - intros _. apply ders_nil.
    - intros t ts w1 w2 _ IH1 _ IH2 [H1 H2]%Forall_cons. cbn. apply ders_cons; auto.
  Qed.

  Theorem lang_derives t w : vis (key t) → lang env t w ↔ derives regs [N (key t)] (map T w).
  Proof.
    intros Hv. rewrite derives_words. split; [intros H; by apply lang_der|intros [n Hn]; by eapply gen_lang].
  Qed.
End lang.

Lemma register_root_lang env t regs w : register_root env (prod_of t) = Some regs →
  derives regs [N (key t)] (map T w) ↔ lang env t w.
Proof.
  intros [Hnd Hspec]%register_root_spec. symmetry. apply (lang_derives env regs (key t) Hnd Hspec). apply rtc_refl.
Qed.
