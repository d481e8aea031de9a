(** Facts about derivations: inductive characterisations of nullable / FIRST of forms. *)
From Coq Require Import String.
From stdpp Require Import prelude list gmap strings relations.
From Verif Require Import SynSetModel TableModel CfgSpec.
Local Open Scope nat_scope.

Section facts.
  Context {K : Type} (G : grammar K).
  Notation sym := (sym K).
  Implicit Types α β γ δ : list sym.

  Inductive nulf : list sym → Prop :=
  | nulf_nil : nulf []
  | nulf_cons k γ β : rhs G k γ → nulf γ → nulf β → nulf (N k :: β).

  Inductive fstf : list sym → tok → Prop :=
  | fstf_T t β : fstf (T t :: β) t
  | fstf_N k γ β t : rhs G k γ → fstf γ t → fstf (N k :: β) t
  | fstf_skip k β t : nulf [N k] → fstf β t → fstf (N k :: β) t.

  Lemma nulf_app α β : nulf (α ++ β) ↔ nulf α ∧ nulf β.
  Proof.
    split.
    - remember (α ++ β) as δ eqn:E. intros H. revert α E.
      induction H as [|k γ δ Hr Hg IHg Hd IHd]; intros α E.
      + symmetry in E. apply app_eq_nil in E as [-> ->]. repeat constructor.
      + destruct α as [|a α]; simplify_list_eq.
        * split; [constructor|]. econstructor; eauto.
        * destruct (IHd _ eq_refl). split; [econstructor; eauto|done].
    - intros [Ha Hb]. induction Ha; [done|]. cbn. econstructor; eauto.
  Qed.

  Lemma nulf_cons_inv s β : nulf (s :: β) → (∃ k, s = N k) ∧ nulf [s] ∧ nulf β.
  Proof. inversion 1; subst. split; [eauto|]. split; [|done]. econstructor; eauto. constructor. Qed.

  Lemma nulf_forall α : nulf α ↔ Forall (λ s, nulf [s]) α.
  Proof.
    induction α as [|s α IH].
    - split; constructor.
    - rewrite (nulf_app [s] α), Forall_cons, IH. done.
  Qed.

  Lemma nulf_N k : nulf [N k] ↔ ∃ γ, rhs G k γ ∧ nulf γ.
  Proof.
    split.
    - inversion 1; subst; eauto.
    - intros (γ&?&?). econstructor; eauto. constructor.
  Qed.

  Lemma fstf_app α β t : fstf (α ++ β) t ↔ fstf α t ∨ (nulf α ∧ fstf β t).
  Proof.
    split.
    - remember (α ++ β) as δ eqn:E. intros H. revert α E.
      induction H as [t δ|k γ δ t Hr Hg IHg|k δ t Hk Hd IHd]; intros α E;
        (destruct α as [|a α]; simplify_list_eq; [right; split; [constructor|]|]).
      + constructor.
      + left. constructor.
      + econstructor; eauto.
      + left. econstructor; eauto.
      + by apply fstf_skip.
      + destruct (IHd _ eq_refl) as [?|[??]].
        * left. by apply fstf_skip.
        * right. split; [|done]. by apply (nulf_app [N k] α).
    - intros [H|[Hn H]].
      + induction H; cbn; [constructor|econstructor; eauto|by apply fstf_skip].
      + induction Hn as [|k γ δ Hr Hg IHg Hd IHd]; [done|]. cbn. apply fstf_skip; [|done].
        econstructor; eauto. constructor.
  Qed.

  Lemma fstf_N1 k t : fstf [N k] t ↔ ∃ γ, rhs G k γ ∧ fstf γ t.
  Proof.
    split.
    - inversion 1 as [| |? ? ? ? H']; subst; [eauto|]. inversion H'.
    - intros (γ&?&?). econstructor; eauto.
  Qed.

  Lemma step_nulf α β : step G α β → nulf β → nulf α.
  Proof.
    intros [α' k γ β' Hr]. rewrite !nulf_app. intros (Ha&Hg&Hb). split; [done|].
    econstructor; eauto.
  Qed.
  Lemma step_fstf α β t : step G α β → fstf β t → fstf α t.
  Proof.
    intros [α' k γ β' Hr]. rewrite !fstf_app. intros [?|(Ha&[Hg|[Hg Hb]])]; [by left| |]; right; split; try done.
    - econstructor; eauto.
    - apply fstf_skip; [|done]. rewrite nulf_N. eauto.
  Qed.

  Lemma derives_app_l α β δ : derives G α β → derives G (δ ++ α) (δ ++ β).
  Proof.
    intros H. eapply rtc_congruence; [|done]. intros x y [α' k γ β' Hr].
    rewrite !(assoc_L (++) δ α'). by constructor.
  Qed.
  Lemma derives_app_r α β δ : derives G α β → derives G (α ++ δ) (β ++ δ).
  Proof.
    intros H. eapply (rtc_congruence (λ x, x ++ δ)); [|done]. intros x y [α' k γ β' Hr].
    rewrite <-!(assoc_L (++)). cbn. by constructor.
  Qed.
  Lemma derives_app α β α' β' : derives G α β → derives G α' β' → derives G (α ++ α') (β ++ β').
  Proof. intros H1 H2. etrans; [by apply derives_app_r|by apply derives_app_l]. Qed.
  Lemma derives_rhs k γ : rhs G k γ → derives G [N k] γ.
  Proof.
    intros H. apply rtc_once. pose proof (step_rhs G [] k γ [] H) as Hs. cbn in Hs.
    by rewrite app_nil_r in Hs.
  Qed.

  Lemma nulf_derives α : derives G α [] ↔ nulf α.
  Proof.
    split.
    - intros H. remember [] as β eqn:E. induction H as [|x y z Hxy Hyz IH]; subst; [constructor|].
      eapply step_nulf; eauto.
    - induction 1 as [|k γ β Hr Hg IHg Hb IHb]; [done|].
      change (N k :: β) with ([N k] ++ β). apply (derives_app [N k] [] β []); [|done].
      etrans; [by apply derives_rhs|done].
  Qed.
  Lemma fstf_derives α t : (∃ β, derives G α (T t :: β)) ↔ fstf α t.
  Proof.
    split.
    - intros [β H]. remember (T t :: β) as δ eqn:E. induction H as [|x y z Hxy Hyz IH]; subst.
      + constructor.
      + eapply step_fstf; eauto.
    - induction 1 as [t β|k γ β t Hr Hg [δ IHg]|k β t Hk Hb [δ IHb]].
      + by exists β.
      + exists (δ ++ β). change (N k :: β) with ([N k] ++ β).
        apply (derives_app_r [N k] (T t :: δ) β).
        etrans; [by apply derives_rhs|done].
      + exists δ. apply (derives_app [N k] [] β (T t :: δ)); [|done]. by apply nulf_derives.
  Qed.

  Lemma nullable_nulf k : nullable G k ↔ nulf [N k].
  Proof. apply nulf_derives. Qed.
  Lemma starts_fstf k t : starts G k t ↔ fstf [N k] t.
  Proof. apply fstf_derives. Qed.

  Lemma nulf_map l : nulf (map N l) ↔ Forall (nullable G) l.
  Proof.
    rewrite nulf_forall, Forall_fmap. apply Forall_iff. intros k. by rewrite nullable_nulf.
  Qed.
  Lemma fstf_map l t : fstf (map N l) t ↔
    ∃ l1 y l2, l = l1 ++ y :: l2 ∧ Forall (nullable G) l1 ∧ starts G y t.
  Proof.
    induction l as [|y l IH].
    - split; [inversion 1|]. intros (l1&y&l2&E&_). by destruct l1.
    - change (map N (y :: l)) with ([N y] ++ map N l). rewrite fstf_app, IH.
      rewrite <-starts_fstf, <-nullable_nulf. split.
      + intros [H|[Hn (l1&z&l2&->&H1&H2)]].
        * by exists [], y, l.
        * exists (y :: l1), z, l2. split; [done|]. split; [by constructor|done].
      + intros (l1&z&l2&E&H1&H2). destruct l1 as [|a l1]; simplify_list_eq; [by left|].
        inversion H1; subst. right. split; [done|]. eauto 10.
  Qed.

  (** Nullability and FIRST of a symbol from its declaration. *)
  Lemma nullable_unfold k : nullable G k ↔
    (k, EEps) ∈ G ∨ (∃ l, (k, ESeq l) ∈ G ∧ Forall (nullable G) l) ∨
    (∃ l y, (k, EUnion l) ∈ G ∧ y ∈ l ∧ nullable G y).
  Proof.
    rewrite nullable_nulf, nulf_N. split.
    - intros (γ&Hr&Hg). destruct Hr as [k H|k ty lit t H Hc|k l H|k l y H Hy].
      + by left.
      + inversion Hg.
      + right; left. exists l. by rewrite <-nulf_map.
      + right; right. exists l, y. by rewrite nullable_nulf.
    - intros [H|[(l&H&Hl)|(l&y&H&Hy&Hn)]].
      + exists []. split; [by constructor|constructor].
      + exists (map N l). split; [by constructor|by apply nulf_map].
      + exists [N y]. split; [by econstructor|by apply nullable_nulf].
  Qed.
  Lemma starts_unfold k t : starts G k t ↔
    (∃ ty lit, (k, ETok ty lit) ∈ G ∧ covers ty lit t) ∨
    (∃ l l1 y l2, (k, ESeq l) ∈ G ∧ l = l1 ++ y :: l2 ∧ Forall (nullable G) l1 ∧ starts G y t) ∨
    (∃ l y, (k, EUnion l) ∈ G ∧ y ∈ l ∧ starts G y t).
  Proof.
    rewrite starts_fstf, fstf_N1. split.
    - intros (γ&Hr&Hg). destruct Hr as [k H|k ty lit t' H Hc|k l H|k l y H Hy].
      + inversion Hg.
      + inversion Hg; subst. left. eauto.
      + right; left. apply fstf_map in Hg as (l1&y&l2&->&?&?). eauto 10.
      + right; right. exists l, y. by rewrite starts_fstf.
    - intros [(ty&lit&H&Hc)|[(l&l1&y&l2&H&->&Hl&Hy)|(l&y&H&Hy&Hn)]].
      + exists [T t]. split; [by econstructor|constructor].
      + exists (map N (l1 ++ y :: l2)). split; [by constructor|]. apply fstf_map. eauto 10.
      + exists [N y]. split; [by econstructor|by apply starts_fstf].
  Qed.

  (** Induction principles following the declarations. *)
  Lemma nullable_ind_decl (P : K → Prop) :
    (∀ k, (k, EEps) ∈ G → P k) →
    (∀ k l, (k, ESeq l) ∈ G → Forall (λ y, nullable G y ∧ P y) l → P k) →
    (∀ k l y, (k, EUnion l) ∈ G → y ∈ l → nullable G y → P y → P k) →
    ∀ k, nullable G k → P k.
  Proof.
    intros H1 H2 H3.
    assert (∀ α, nulf α → ∀ k, N k ∈ α → P k) as HH.
    { induction 1 as [|k γ β Hr Hg IHg Hb IHb]; intros k' Hk'; [by apply elem_of_nil in Hk'|].
      apply elem_of_cons in Hk' as [[= ->]|Hk']; [|by apply IHb].
      destruct Hr as [k H|k ty lit t H Hc|k l H|k l y H Hy].
      - by apply H1.
      - inversion Hg.
      - apply (H2 k l H). apply Forall_forall. intros y Hy.
        apply nulf_map in Hg. rewrite Forall_forall in Hg. split; [by apply Hg|].
        apply IHg. by apply elem_of_list_fmap_1.
      - apply (H3 k l y H Hy); [by apply nullable_nulf|]. apply IHg. by left. }
    intros k Hk%nullable_nulf. eapply HH; [done|]. by left.
  Qed.
  Lemma starts_ind_decl (P : K → tok → Prop) :
    (∀ k ty lit t, (k, ETok ty lit) ∈ G → covers ty lit t → P k t) →
    (∀ k l1 y l2 t, (k, ESeq (l1 ++ y :: l2)) ∈ G → Forall (nullable G) l1 →
       starts G y t → P y t → P k t) →
    (∀ k l y t, (k, EUnion l) ∈ G → y ∈ l → starts G y t → P y t → P k t) →
    ∀ k t, starts G k t → P k t.
  Proof.
    intros H1 H2 H3.
    assert (∀ α t, fstf α t →
      ∃ α1 s α2, α = α1 ++ s :: α2 ∧ nulf α1 ∧
        match s with N k => starts G k t ∧ P k t | T t' => t' = t end) as HH.
    { intros α t H.
      induction H as [t β|k γ β t Hr Hg IHg|k β t Hk Hb IHb].
      - exists [], (T t), β. split; [done|]. split; [constructor|done].
      - exists [], (N k), β. split; [done|]. split; [constructor|].
        assert (starts G k t) as Hst by (apply starts_fstf, fstf_N1; eauto).
        split; [done|].
        destruct IHg as (α1&s&α2&->&Hn&Hs). inversion Hr as [? H E1 E2|? ty lit t' H Hc E1 E2|? l H E1 E2|? l y H Hy E1 E2]; subst.
        + by destruct α1.
        + destruct α1 as [|? [|]]; simplify_list_eq. eauto.
        + apply fmap_app_inv in E2 as (l1&l2&->&E3&->).
          destruct l2 as [|y l2]; [done|]. cbn in E3. injection E3 as -> ->.
          destruct Hs. eapply H2; eauto. by apply nulf_map.
        + destruct α1 as [|? [|]]; simplify_list_eq. destruct Hs. eauto.
      - destruct IHb as (α1&s&α2&->&Hn&Hs). exists (N k :: α1), s, α2. split; [done|].
        split; [|done]. by apply (nulf_app [N k] α1). }
    intros k t Hk%starts_fstf. apply HH in Hk as (α1&s&α2&E&_&Hs).
    destruct α1 as [|? [|]]; simplify_list_eq. by destruct Hs.
  Qed.
End facts.
