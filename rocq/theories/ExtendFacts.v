(** Facts about declarations with more variants. *)
From Coq Require Import String NArith.
From stdpp Require Import prelude list strings relations.
From Verif Require Import LexModel LexSpec LexFacts SynSetModel TableModel CfgSpec StreamModel StreamSpec StreamFacts TypeModel TypeSpec ProduceModel ParseSpec ProgFacts TreeFacts SoundFacts RunFacts ParseFacts MarkSpec SemFacts CompleteSpec CompleteFacts ExtendSpec.
Local Open Scope nat_scope.

Section extend.
  Variable ρ : nat → nat → nat.
  Variable env env' : denv.
  Hypothesis Hex : extends ρ env env'.
  Variable src : string.
  Notation renum := (renum ρ env).
  Notation parses1 := (parses env src).
  Notation parses2 := (parses env' src).

  Fixpoint renums (ts : list ty) (xs : list tree) : list tree :=
    match ts, xs with t :: ts, x :: xs => renum t x :: renums ts xs | _, _ => xs end.
  Lemma renums_fix ts xs : (fix go (ts : list ty) (xs : list tree) {struct xs} : list tree :=
    match ts, xs with t :: ts, x :: xs => renum t x :: go ts xs | _, _ => xs end) ts xs = renums ts xs.
  Proof. revert xs. induction ts as [|t ts IH]; intros [|x xs]; cbn; [done..|]. by rewrite IH. Qed.
  Lemma renum_box t x : renum (TBox t) x = renum t x.
  Proof. by destruct x. Qed.
  Lemma renum_struct n fs xs : env !! n = Some (DStruct fs) → renum (TNamed n) (TrSeq xs) = TrSeq (renums (map fst fs) xs).
  Proof. intros E. cbn. rewrite E. f_equal. apply renums_fix. Qed.
  Lemma renum_tuple ts xs : renum (TTuple ts) (TrSeq xs) = TrSeq (renums ts xs).
  Proof. cbn. f_equal. apply renums_fix. Qed.
  Lemma renum_enum n vs i v x : env !! n = Some (DEnum vs) → vs !! i = Some v → renum (TNamed n) (TrVar i x) = TrVar (ρ n i) (renum (fst v) x).
  Proof. intros E Ev. cbn. by rewrite E, Ev. Qed.

  Lemma renums_replicate n t xs : length xs ≤ n → renums (replicate n t) xs = map (renum t) xs.
  Proof. revert xs. induction n as [|n IH]; intros [|x xs] Hl; cbn in *; [done|lia|done|]. rewrite IH by lia. done. Qed.
  (** [alternate] from either end *)
  Lemma evens_map {A B} (f : A → B) l : evens (map f l) = map f (evens l).
  Proof. revert l. fix IH 1. intros [|x [|y l]]; [done..|]. cbn. f_equal. apply IH. Qed.
  Lemma renums_alternate n t d b zs : length zs = length (alternate n t d ++ if b : bool then [d] else []) →
    evens (renums (alternate n t d ++ if b then [d] else []) zs) = map (renum t) (evens zs) ∧
    odds (renums (alternate n t d ++ if b then [d] else []) zs) = map (renum d) (odds zs).
  Proof.
    revert zs. induction n as [|n IH]; intros zs.
    - destruct b; cbn; destruct zs as [|x [|y [|]]]; cbn; try lia; done.
    - change (alternate (S n) t d) with (t :: d :: alternate n t d).
      destruct zs as [|x [|y zs]]; cbn [app length]; intros E; [lia..|]. destruct (IH zs) as [H1 H2]; [lia|].
      cbn [renums]. rewrite !evens_cons, !odds_cons, !evens_cons. cbn [map]. by rewrite H1, H2.
  Qed.

  Lemma span_seq xs ys : map tree_span xs = map tree_span ys → tree_span (TrSeq xs) = tree_span (TrSeq ys).
  Proof.
    intros E. unfold tree_span at 1 2. f_equal.
    - destruct xs, ys; try done. cbn in E. unfold tree_span in E. cbn. congruence.
    - rewrite !tree_hi_seq. assert (H : last (map tree_span xs) = last (map tree_span ys)) by congruence.
      change (map tree_span) with (fmap (M := list) tree_span) in H. rewrite !fmap_last in H.
      destruct (last xs), (last ys); cbn in H; try done. unfold tree_span in H. congruence.
  Qed.

  Lemma renum_parses p t l x : parses1 p t l x → parses2 p t l (renum t x) ∧ tree_span (renum t x) = tree_span x.
  Proof using Hex.
    revert p t l x.
    refine (parses_mut env src (λ p t l x _, parses2 p t l (renum t x) ∧ tree_span (renum t x) = tree_span x)
      (λ p ts l xs _, pseq env' src p ts l (renums ts xs) ∧ map tree_span (renums ts xs) = map tree_span xs)
      _ _ _ _ _ _ _ _ _ _ _ _ _ _ _ _ _ _ _ _ _).
    - intros. split; [by constructor|done].
    - intros p n fs l xs E _ [H1 H2]. rewrite (renum_struct _ fs) by done. split; [|by apply span_seq].
      eapply p_struct; [exact (Hex _ _ E)|done].
    - intros p n vs i t sem l x E Ev _ [H1 H2]. rewrite (renum_enum _ vs _ (t, sem)) by done. destruct (Hex _ _ E) as (vs' & E' & Hv).
      split; [|exact H2]. eapply p_enum; [exact E'|exact (Hv _ _ Ev)|done].
    - intros p ts l xs _ [H1 H2]. rewrite renum_tuple. split; [by constructor|by apply span_seq].
    - intros p t l x _ [H1 H2]. rewrite renum_box. split; [by constructor|done].
    - intros. split; [constructor|done].
    - intros p t l x _ [H1 H2]. split; [|done]. cbn. rewrite <- H2. by constructor.
    - intros. split; [constructor|done].
    - intros p t l x _ [H1 H2]. split; [|done]. cbn. rewrite <- H2. econstructor. exact H1.
    - intros p t l x s _ [H1 H2] Es. split; [|done]. cbn. rewrite <- H2. econstructor; [exact H1|by rewrite H2].
    - intros p t l x s _ [H1 H2] Es. split; [|done]. cbn. rewrite <- H2. econstructor; [exact H1|by rewrite H2].
    - intros p t n l xs Hp [H1 H2]. split; [|done]. apply pseq_length in Hp. rewrite replicate_length in Hp.
      change (renum (TPlus t) (TrList (tree_span (TrSeq xs)) xs)) with (TrList (tree_span (TrSeq xs)) (map (renum t) xs)).
      rewrite renums_replicate in H1, H2 by lia. rewrite <- (span_seq _ _ H2). by eapply p_plus.
    - intros. split; [constructor|done].
    - intros p t n l xs Hp [H1 H2]. split; [|done]. apply pseq_length in Hp. rewrite replicate_length in Hp.
      change (renum (TStar t) (TrList (tree_span (TrSeq xs)) xs)) with (TrList (tree_span (TrSeq xs)) (map (renum t) xs)).
      rewrite renums_replicate in H1, H2 by lia. rewrite <- (span_seq _ _ H2). by eapply p_star.
    - intros. split; [constructor|done].
    - intros p t n l xs Hp [H1 H2]. split; [|done]. apply pseq_length in Hp. rewrite replicate_length in Hp.
      change (renum (TLoop t) (TrList (tree_span (TrSeq xs)) xs)) with (TrList (tree_span (TrSeq xs)) (map (renum t) xs)).
      rewrite renums_replicate in H1, H2 by lia. rewrite <- (span_seq _ _ H2). by eapply p_loop.
    - intros p t d n l zs Hp [H1 H2]. split; [|done]. apply pseq_length in Hp.
      change (renum (TSplit t d) (TrSplit (tree_span (TrSeq zs)) (evens zs) (odds zs))) with
        (TrSplit (tree_span (TrSeq zs)) (map (renum t) (evens zs)) (map (renum d) (odds zs))).
      destruct (renums_alternate n t d false zs) as [E1 E2]; [by rewrite app_nil_r|]. rewrite app_nil_r in E1, E2.
      rewrite <- (span_seq _ _ H2), <- E1, <- E2. by eapply p_split.
    - intros p t d n tr l zs Hp [H1 H2]. split; [|done]. apply pseq_length in Hp.
      change (renum (TPunct t d) (TrPunct (tree_span (TrSeq zs)) (evens zs) (odds zs))) with
        (TrPunct (tree_span (TrSeq zs)) (map (renum t) (evens zs)) (map (renum d) (odds zs))).
      destruct (renums_alternate n t d tr zs) as [E1 E2]; [done|].
      rewrite <- (span_seq _ _ H2), <- E1, <- E2. by eapply p_punct.
    - intros p t r l x y _ [H1 H2]. cbn in H1, H2. injection H2 as E1 E2 E3 E4.
      change (renum (TRecover t r) (TrRecover (tree_span x) (Some x) y)) with (TrRecover (tree_span x) (Some (renum t x)) (renum r y)).
      assert (E : tree_span (renum t x) = tree_span x) by (unfold tree_span; by rewrite E1, E2).
      rewrite <- E. split; [by constructor|]. unfold tree_span. cbn. congruence.
    - intros. split; [constructor|done].
    - intros p t ts l1 l2 x xs _ [H1 H2] _ [H3 H4]. cbn. split; [by constructor|]. by rewrite H2, H4.
  Qed.

  (** ** Marks *)
  Lemma pseq_at p ts l xs i x : pseq env src p ts l xs → xs !! i = Some x → ∃ t p' l', ts !! i = Some t ∧ parses1 p' t l' x.
  Proof.
    intros H. revert i. induction H as [|p t ts l1 l2 y ys H1 H2 IH] using pseq_ind; intros [|i] Hi; [done..| |].
    - injection Hi as <-. eexists _, _, _. split; [done|exact H1].
    - by apply IH.
  Qed.
  Lemma renums_at ts xs i t x : ts !! i = Some t → xs !! i = Some x → renums ts xs !! i = Some (renum t x).
  Proof.
    revert xs i. induction ts as [|u ts IH]; intros [|y xs] [|i] H1 H2; try done.
    - injection H1 as ->. injection H2 as ->. done.
    - by apply IH.
  Qed.
  Lemma field_at (fs : list field) i v : fs !! i = Some v → map fst fs !! i = Some (fst v).
  Proof. revert i. induction fs as [|f fs IH]; intros [|i] H; [done..| |by apply IH]. by injection H as ->. Qed.
  Lemma renums_length ts xs : length (renums ts xs) = length xs.
  Proof. revert xs. induction ts as [|u ts IH]; intros [|y xs]; cbn; [done..|]. by rewrite IH. Qed.
  Lemma evens_odds_at {A} (zs : list A) : (∀ z, z ∈ evens zs → ∃ i, zs !! (2 * i) = Some z) ∧ (∀ z, z ∈ odds zs → ∃ i, zs !! S (2 * i) = Some z).
  Proof.
    induction zs as [|x zs [IH1 IH2]]; [split; intros z H; inversion H|]. rewrite evens_cons, odds_cons. split; intros z Hz.
    - apply elem_of_cons in Hz as [->|Hz]; [by exists 0|]. destruct (IH2 _ Hz) as [i Hi]. exists (S i). replace (2 * S i) with (S (S (2 * i))) by lia. exact Hi.
    - destruct (IH1 _ Hz) as [i Hi]. by exists i.
  Qed.
  Lemma alternate_at n t d b i u : (alternate n t d ++ if b : bool then [d] else []) !! i = Some u →
    u = if Nat.even i then t else d.
  Proof.
    revert i. induction n as [|n IH]; intros i.
    - destruct b; destruct i as [|[|i]]; intros H; cbn in H; simplify_eq; done.
    - change (alternate (S n) t d) with (t :: d :: alternate n t d). destruct i as [|[|i]]; cbn [app lookup list_lookup]; [cbn; congruence..|].
      intros H. by apply IH in H.
  Qed.
  Lemma punct_parts p t d n b l zs : pseq env src p (alternate n t d ++ if b : bool then [d] else []) l zs →
    (∀ x, x ∈ evens zs → ∃ p' l', parses1 p' t l' x) ∧ (∀ x, x ∈ odds zs → ∃ p' l', parses1 p' d l' x).
  Proof.
    intros H. split; intros x Hx; apply evens_odds_at in Hx as [i Hi]; destruct (pseq_at _ _ _ _ _ _ H Hi) as (u & p' & l' & Hu & Hp);
      apply alternate_at in Hu as ->.
    - rewrite Nat.even_mul in Hp. eauto.
    - rewrite Nat.even_succ, Nat.odd_mul in Hp. eauto.
  Qed.
  Lemma list_parts p t n l xs : pseq env src p (replicate n t) l xs → ∀ x, x ∈ xs → ∃ p' l', parses1 p' t l' x.
  Proof.
    intros H x [i Hi]%elem_of_list_lookup. destruct (pseq_at _ _ _ _ _ _ H Hi) as (u & p' & l' & Hu & Hp).
    apply lookup_replicate in Hu as [-> _]. eauto.
  Qed.

  Lemma renum_part_to t x sp sem : part env t x sp sem → ∀ p l, parses1 p t l x → part env' t (renum t x) sp sem.
  Proof using Hex.
    induction 1 as [n fs i t sem xs x E Ef Ei|n fs i t o xs x sp sem E Ef Ei H IH|n vs i t sem x E Ev|n vs i t o x sp sem E Ev H IH
      |ts i t xs x sp sem Et Ei H IH|t x sp sem H IH|t sp0 x sp sem H IH|t k sp0 xs x sp sem Ht Hi H IH
      |t d sp0 xs ys x sp sem Hi H IH|t d sp0 xs ys y sp sem Hi H IH|t d sp0 xs ys x sp sem Hi H IH|t d sp0 xs ys y sp sem Hi H IH
      |t r sp0 x y sp sem H IH|t r sp0 o y sp sem H IH]; intros p l Hp.
    - rewrite (renum_struct _ fs) by done. inversion Hp as [ | ? ? fs' ? ? E2 Hs | | | | | | | | | | | | | | | | |]; subst. rewrite E in E2. injection E2 as <-.
      destruct (pseq_at _ _ _ _ _ _ Hs Ei) as (u & p' & l' & Hu & Hx). rewrite (field_at _ _ _ Ef) in Hu. injection Hu as <-.
      rewrite <- (proj2 (renum_parses _ _ _ _ Hx)). eapply a_field; [exact (Hex _ _ E)|exact Ef|].
      apply renums_at; [|done]. exact (field_at _ _ _ Ef).
    - rewrite (renum_struct _ fs) by done. inversion Hp as [ | ? ? fs' ? ? E2 Hs | | | | | | | | | | | | | | | | |]; subst. rewrite E in E2. injection E2 as <-.
      destruct (pseq_at _ _ _ _ _ _ Hs Ei) as (u & p' & l' & Hu & Hx). rewrite (field_at _ _ _ Ef) in Hu. injection Hu as <-.
      eapply a_in_field; [exact (Hex _ _ E)|exact Ef| |by eapply IH].
      apply renums_at; [|done]. exact (field_at _ _ _ Ef).
    - rewrite (renum_enum _ vs _ (t, Some sem)) by done. destruct (Hex _ _ E) as (vs' & E' & Hv).
      inversion Hp as [ | | ? ? vs2 ? t2 ? ? ? E2 Ev2 Hx | | | | | | | | | | | | | | |  |]; subst. rewrite E in E2. injection E2 as <-.
      rewrite Ev in Ev2. injection Ev2 as <- <-. rewrite <- (proj2 (renum_parses _ _ _ _ Hx)). eapply a_variant; [exact E'|exact (Hv _ _ Ev)].
    - rewrite (renum_enum _ vs _ (t, o)) by done. destruct (Hex _ _ E) as (vs' & E' & Hv).
      inversion Hp as [ | | ? ? vs2 ? t2 ? ? ? E2 Ev2 Hx | | | | | | | | | | | | | | |  |]; subst. rewrite E in E2. injection E2 as <-.
      rewrite Ev in Ev2. injection Ev2 as <- <-. eapply a_in_variant; [exact E'|exact (Hv _ _ Ev)|]. by eapply IH.
    - rewrite renum_tuple. inversion Hp as [ | | | ? ? ? ? Hs | | | | | | | | | | | | | | |]; subst.
      destruct (pseq_at _ _ _ _ _ _ Hs Ei) as (u & p' & l' & Hu & Hx). rewrite Et in Hu. injection Hu as <-.
      eapply a_tuple; [exact Et|by apply renums_at|by eapply IH].
    - rewrite renum_box. inversion Hp; subst. apply a_box. by eapply IH.
    - inversion Hp; subst. cbn. apply a_some. by eapply IH.
    - assert (Hx : ∃ p' l', parses1 p' k l' x).
      { destruct Ht as [-> | [-> | ->]]; inversion Hp; subst; try (by apply elem_of_nil in Hi); by eapply list_parts. }
      destruct Hx as (p' & l' & Hx).
      assert (E : renum t (TrList sp0 xs) = TrList sp0 (map (renum k) xs)) by (by destruct Ht as [-> | [-> | ->]]). rewrite E.
      eapply a_list; [exact Ht|apply elem_of_list_fmap; by exists x|by eapply IH].
    - inversion Hp as [ | | | | | | | | | | | | | | | | ? ? ? n ? zs Hz | |]; subst. rewrite <- (app_nil_r (alternate n t d)) in Hz.
      destruct (proj1 (punct_parts _ _ _ n false _ _ Hz) _ Hi) as (p' & l' & Hx).
      cbn. eapply a_split_elem; [apply elem_of_list_fmap; by exists x|by eapply IH].
    - inversion Hp as [ | | | | | | | | | | | | | | | | ? ? ? n ? zs Hz | |]; subst. rewrite <- (app_nil_r (alternate n t d)) in Hz.
      destruct (proj2 (punct_parts _ _ _ n false _ _ Hz) _ Hi) as (p' & l' & Hx).
      cbn. eapply a_split_sep; [apply elem_of_list_fmap; by exists y|by eapply IH].
    - inversion Hp as [ | | | | | | | | | | | | | | | | | ? ? ? n tr ? zs Hz |]; subst.
      destruct (proj1 (punct_parts _ _ _ _ _ _ _ Hz) _ Hi) as (p' & l' & Hx).
      cbn. eapply a_punct_elem; [apply elem_of_list_fmap; by exists x|by eapply IH].
    - inversion Hp as [ | | | | | | | | | | | | | | | | | ? ? ? n tr ? zs Hz |]; subst.
      destruct (proj2 (punct_parts _ _ _ _ _ _ _ Hz) _ Hi) as (p' & l' & Hx).
      cbn. eapply a_punct_sep; [apply elem_of_list_fmap; by exists y|by eapply IH].
    - inversion Hp as [ | | | | | | | | | | | | | | | | | | ? ? ? ? ? ? Hs]; subst. cbn. apply a_rec_head.
      destruct (pseq_at _ _ _ _ 0 _ Hs eq_refl) as (u & p' & l' & Hu & Hx). cbn in Hu. injection Hu as <-. by eapply IH.
    - inversion Hp as [ | | | | | | | | | | | | | | | | | | ? ? ? ? ? ? Hs]; subst. cbn. apply a_rec_tail.
      destruct (pseq_at _ _ _ _ 1 _ Hs eq_refl) as (u & p' & l' & Hu & Hx). cbn in Hu. injection Hu as <-. by eapply IH.
  Qed.
  Lemma renums_at_inv ts xs i t y : length xs ≤ length ts → ts !! i = Some t → renums ts xs !! i = Some y → ∃ x, xs !! i = Some x ∧ y = renum t x.
  Proof.
    intros _ Ht Hy. destruct (xs !! i) as [x|] eqn:E.
    - exists x. split; [done|]. rewrite (renums_at _ _ _ _ _ Ht E) in Hy. by injection Hy.
    - apply lookup_ge_None in E. rewrite lookup_ge_None_2 in Hy; [done|]. by rewrite renums_length.
  Qed.
  Lemma field_at_inv (fs : list field) i t : map fst fs !! i = Some t → ∃ o, fs !! i = Some (t, o).
  Proof. revert i. induction fs as [|[u o] fs IH]; intros [|i] H; [done..| |by apply IH]. injection H as ->. by exists o. Qed.

  Definition back t x : Prop := ∀ sp sem, part env' t (renum t x) sp sem → part env t x sp sem.
  Definition backs (ts : list ty) (xs : list tree) : Prop := ∀ i t x, ts !! i = Some t → xs !! i = Some x → back t x.
  Lemma backs_list n t xs : length xs = n → backs (replicate n t) xs → ∀ y sp sem, y ∈ map (renum t) xs → part env' t y sp sem → ∃ x, x ∈ xs ∧ part env t x sp sem.
  Proof.
    intros Hl H y sp sem (x & -> & Hx)%elem_of_list_fmap Hp. exists x. split; [done|].
    apply elem_of_list_lookup in Hx as [i Hi]. apply (H i t); [|done|done]. apply lookup_replicate_2.
    apply lookup_lt_Some in Hi. lia.
  Qed.
  Lemma backs_punct n t d b zs : length zs = length (alternate n t d ++ if b : bool then [d] else []) →
    backs (alternate n t d ++ if b then [d] else []) zs →
    (∀ x, x ∈ evens zs → back t x) ∧ (∀ x, x ∈ odds zs → back d x).
  Proof.
    intros Hl H. split; intros x Hx; apply evens_odds_at in Hx as [i Hi].
    - destruct (lookup_lt_is_Some_2 (alternate n t d ++ if b then [d] else []) (2 * i)) as [u Hu]; [apply lookup_lt_Some in Hi; lia|].
      assert (E := alternate_at _ _ _ _ _ _ Hu). rewrite Nat.even_mul in E. cbn in E. subst u. by eapply H.
    - destruct (lookup_lt_is_Some_2 (alternate n t d ++ if b then [d] else []) (S (2 * i))) as [u Hu]; [apply lookup_lt_Some in Hi; lia|].
      assert (E := alternate_at _ _ _ _ _ _ Hu). rewrite Nat.even_succ, Nat.odd_mul in E. cbn in E. subst u. by eapply H.
  Qed.

  Lemma renum_part_from p t l x : parses1 p t l x → back t x.
  Proof using Hex.
    revert p t l x.
    refine (parses_mut env src (λ p t l x _, back t x) (λ p ts l xs _, backs ts xs)
      _ _ _ _ _ _ _ _ _ _ _ _ _ _ _ _ _ _ _ _ _).
    - intros p n y lit t _ sp sem H. inversion H.
    - intros p n fs l xs E Hs IH sp sem H. rewrite (renum_struct _ fs) in H by done.
      assert (E' := Hex _ _ E). cbn in E'.
      assert (G : ∀ i t o y, fs !! i = Some (t, o) → renums (map fst fs) xs !! i = Some y → ∃ x, xs !! i = Some x ∧ y = renum t x ∧ tree_span y = tree_span x ∧ back t x).
      { intros i t o y Hf Hy. apply field_at in Hf. cbn in Hf. destruct (renums_at_inv (map fst fs) xs i t y) as (x & Hx & ->); [|done..|].
        { rewrite <- (pseq_length _ _ _ _ _ _ Hs). done. }
        exists x. split; [done|]. split; [done|]. destruct (pseq_at _ _ _ _ _ _ Hs Hx) as (u & p' & l' & Hu & Hp). rewrite Hf in Hu. injection Hu as <-.
        split; [by apply (renum_parses _ _ _ _ Hp)|]. by eapply IH. }
      inversion H as [? fs' i t ? ? y E2 Hf Hy|? fs' i t o ? y ? ? E2 Hf Hy Hp| | | | | | | | | | | |]; subst; rewrite E' in E2; injection E2 as <-.
      + destruct (G _ _ _ _ Hf Hy) as (x & Hx & _ & -> & _). by eapply a_field.
      + destruct (G _ _ _ _ Hf Hy) as (x & Hx & -> & _ & Hb). eapply a_in_field; [done..|]. by apply Hb.
    - intros p n vs i t sem0 l x E Ev Hx IH sp sem H. rewrite (renum_enum _ vs _ (t, sem0)) in H by done. destruct (Hex _ _ E) as (vs' & E' & Hv). cbn in H.
      apply Hv in Ev as Ev'.
      inversion H as [| |? vs2 ? t2 ? ? E2 Ev2|? vs2 ? t2 o ? ? ? E2 Ev2 Hp| | | | | | | | | |]; subst; rewrite E' in E2; injection E2 as <-;
        assert (E3 := eq_trans (eq_sym Ev') Ev2); injection E3 as E3 E4; subst t2.
      + subst sem0. rewrite (proj2 (renum_parses _ _ _ _ Hx)). by eapply a_variant.
      + eapply a_in_variant; [done..|]. by apply IH.
    - intros p ts l xs Hs IH sp sem H. rewrite renum_tuple in H.
      inversion H as [| | | |? i t ? y ? ? Ht Hy Hp| | | | | | | | |]; subst.
      destruct (renums_at_inv ts xs i t y) as (x & Hx & ->); [|done..|]. { by rewrite <- (pseq_length _ _ _ _ _ _ Hs). }
      eapply a_tuple; [done..|]. by eapply IH.
    - intros p t l x _ IH sp sem H. rewrite renum_box in H. inversion H; subst; [..|by destruct_or?]; apply a_box; by apply IH.
    - intros p t sp sem H. inversion H; subst; by destruct_or?.
    - intros p t l x _ IH sp sem H. cbn in H. inversion H; subst. apply a_some. by apply IH.
    - intros p t sp sem H. inversion H; subst; by destruct_or?.
    - intros p t l x _ IH sp sem H. inversion H; subst; by destruct_or?.
    - intros p t l x s _ IH E sp sem H. inversion H; subst; by destruct_or?.
    - intros p t l x s _ IH E sp sem H. inversion H; subst; by destruct_or?.
    - intros p t n l xs Hs IH sp sem H. apply pseq_length in Hs. rewrite replicate_length in Hs.
      inversion H as [| | | | | | |? k ? ? y ? ? Hk Hy Hp| | | | | |]; subst. assert (k = t) as -> by naive_solver.
      destruct (backs_list _ _ _ (eq_sym Hs) IH _ _ _ Hy Hp) as (x & Hx & Hq). eapply a_list; eauto.
    - intros p t sp sem H. cbn in H. inversion H as [| | | | | | |? k ? ? y ? ? Hk Hy Hp| | | | | |]; subst. by apply elem_of_nil in Hy.
    - intros p t n l xs Hs IH sp sem H. apply pseq_length in Hs. rewrite replicate_length in Hs.
      inversion H as [| | | | | | |? k ? ? y ? ? Hk Hy Hp| | | | | |]; subst. assert (k = t) as -> by naive_solver.
      destruct (backs_list _ _ _ (eq_sym Hs) IH _ _ _ Hy Hp) as (x & Hx & Hq). eapply a_list; eauto.
    - intros p t sp sem H. cbn in H. inversion H as [| | | | | | |? k ? ? y ? ? Hk Hy Hp| | | | | |]; subst. by apply elem_of_nil in Hy.
    - intros p t n l xs Hs IH sp sem H. apply pseq_length in Hs. rewrite replicate_length in Hs.
      inversion H as [| | | | | | |? k ? ? y ? ? Hk Hy Hp| | | | | |]; subst. assert (k = t) as -> by naive_solver.
      destruct (backs_list _ _ _ (eq_sym Hs) IH _ _ _ Hy Hp) as (x & Hx & Hq). eapply a_list; eauto.
    - intros p t d n l zs Hs IH sp sem H. apply pseq_length in Hs. rewrite <- (app_nil_r (alternate n t d)) in Hs, IH.
      destruct (backs_punct n t d false zs) as [H1 H2]; [done..|].
      inversion H as [| | | | | | | |? ? ? ? ? y ? ? Hy Hp|? ? ? ? ? y ? ? Hy Hp| | | |]; subst; apply elem_of_list_fmap in Hy as (x & -> & Hx).
      + eapply a_split_elem; [done|]. by apply H1.
      + eapply a_split_sep; [done|]. by apply H2.
    - intros p t d n tr l zs Hs IH sp sem H. apply pseq_length in Hs.
      destruct (backs_punct n t d tr zs) as [H1 H2]; [done..|].
      inversion H as [| | | | | | | | | |? ? ? ? ? y ? ? Hy Hp|? ? ? ? ? y ? ? Hy Hp| |]; subst; apply elem_of_list_fmap in Hy as (x & -> & Hx).
      + eapply a_punct_elem; [done|]. by apply H1.
      + eapply a_punct_sep; [done|]. by apply H2.
    - intros p t r l x y _ IH sp sem H. inversion H; subst.
      + apply a_rec_head. by apply (IH 0 t x).
      + apply a_rec_tail. by apply (IH 1 r y).
    - intros p i t x Hi. done.
    - intros p t ts l1 l2 x xs _ IH1 _ IH2 [|i] u y Hu Hy; [|by eapply IH2]. injection Hu as <-. injection Hy as <-. done.
  Qed.
  Lemma renum_part p t l x sp sem : parses1 p t l x → part env t x sp sem ↔ part env' t (renum t x) sp sem.
  Proof using Hex. intros H. split; [intros Hp; by eapply renum_part_to|by eapply renum_part_from]. Qed.
End extend.

Lemma extend_lang ρ env env' t w : extends ρ env env' → lang env t w → lang env' t w.
Proof.
  intros Hex. revert t w.
  refine (lang_mut env (λ t w _, lang env' t w) (λ ts w _, langs env' ts w) _ _ _ _ _ _ _ _ _ _ _ _ _ _ _ _ _ _ _).
  - intros. by constructor.
  - intros n fs w E _ H. eapply l_struct; [exact (Hex _ _ E)|done].
  - intros n vs t sem w E Ht _ H. destruct (Hex _ _ E) as (vs' & E' & Hv). apply elem_of_list_lookup in Ht as [i Hi].
    eapply l_enum; [exact E'| |exact H]. eapply elem_of_list_lookup_2. exact (Hv _ _ Hi).
  - intros. by constructor.
  - intros. by constructor.
  - intros. constructor.
  - intros. by constructor.
  - intros. constructor.
  - intros. by constructor.
  - intros. by constructor.
  - intros. by constructor.
  - intros. by eapply l_plus.
  - intros. by eapply l_star.
  - intros. by eapply l_loop.
  - intros. by eapply l_split.
  - intros. by eapply l_punct.
  - intros. by constructor.
  - constructor.
  - intros. by constructor.
Qed.

Lemma took_whole extract s l s' : took extract s l s' → to_come extract s' = [] → to_come extract s = l.
Proof. intros (_ & _ & E) E'. by rewrite E, E', app_nil_r. Qed.

Lemma extend_parse ρ extract env env' root md md' f s x s' :
  extends ρ env env' → accepted env' root md' → regular env' root → filled env root → no_recover env root → state_ok s →
  run extract (parse env f root (inr md)) s = ODone (inr (Some x)) s' → only_bad_text s s' → to_come extract s' = [] →
  ∃ f0 s'', (∀ f, f0 ≤ f → run extract (parse env' f root (inr md')) s = ODone (inr (Some (renum ρ env root x))) s'') ∧
    only_bad_text s s'' ∧ consumed s'' = consumed s' ∧ to_come extract s'' = [].
Proof.
  intros Hex Hacc Hreg Hf Hn Hok Hrun Hb He.
  destruct (parse_clean _ _ _ _ _ _ _ _ Hf Hn Hok Hrun Hb) as (l & Ht & Hp).
  assert (El := took_whole _ _ _ _ Ht He). subst l. apply (renum_parses ρ env env' Hex) in Hp as [Hp _].
  assert (Hacc' := Hacc). destruct Hacc' as (regs & iter & Hr & Hperm & Hmeta).
  destruct (root_complete_ll1 extract env' root md' regs Hacc Hr (reg_filled _ _ Hreg) (reg_enums _ _ Hreg) (reg_delims _ _ Hreg) (reg_ll1 _ _ Hreg _ Hr)
      (reg_punct _ _ Hreg _ Hr) s _ (reg_loop _ _ Hreg) Hok Hp) as (f0 & s2 & H1 & H2 & H3).
  exists f0, s2. split; [intros; apply run_parse_succ; auto|]. split; [done|].
  destruct H1 as (_ & E1 & E2), Ht as (_ & E3 & E4). split; [congruence|].
  rewrite <- (app_nil_r (to_come extract s)) in E2 at 1. by apply app_inv_head in E2.
Qed.

Lemma cells_eq (a b : list cell) : map c_tok a = map c_tok b →
  (∀ i c d, a !! i = Some c → b !! i = Some d → ∀ n, tagged c n ↔ tagged d n) → a = b.
Proof.
  revert b. induction a as [|c a IH]; intros [|d b] E H; try done. cbn in E. injection E as E1 E2. f_equal.
  - assert (G := H 0 c d eq_refl eq_refl). destruct c as [t1 m1], d as [t2 m2]. cbn in E1. subst t2. f_equal.
    apply N.bits_inj. intros n. specialize (G n). unfold tagged in G. cbn in G.
    destruct (N.testbit m1 n), (N.testbit m2 n); naive_solver.
  - apply IH; [done|]. intros i. exact (H (S i)).
Qed.

Lemma extend_marks ρ extract env env' root md md' f f' s x s' s'' :
  extends ρ env env' → filled env root → no_recover env root → open_marks env root →
  filled env' root → no_recover env' root → open_marks env' root → state_ok s →
  run extract (parse env f root (inr md)) s = ODone (inr (Some x)) s' → only_bad_text s s' →
  run extract (parse env' f' root (inr md')) s = ODone (inr (Some (renum ρ env root x))) s'' → only_bad_text s s'' →
  consumed s'' = consumed s' → p_tokens s'' = p_tokens s'.
Proof.
  intros Hex Hf Hn Ho Hf' Hn' Ho' Hok H1 B1 H2 B2 Ec. apply cells_eq; [exact Ec|].
  intros i c d Hc Hd b.
  destruct (parse_clean _ _ _ _ _ _ _ _ Hf Hn Hok H1 B1) as (l & _ & Hp).
  rewrite (parse_exact _ _ _ _ _ _ _ _ _ _ _ Hok Hf' Hn' Ho' H2 B2 Hc), (parse_exact _ _ _ _ _ _ _ _ _ _ _ Hok Hf Hn Ho H1 B1 Hd).
  assert (Esp : c_lo c = c_lo d ∧ c_hi c = c_hi d).
  { assert (E : map c_tok (p_tokens s'') !! i = map c_tok (p_tokens s') !! i) by (unfold consumed in Ec; by rewrite Ec).
    change (map c_tok) with (fmap (M := list) c_tok) in E. rewrite !list_lookup_fmap, Hc, Hd in E. cbn in E. injection E as E.
    unfold c_lo, c_hi. by rewrite E. }
  assert (Hin : ∀ sp, is_inside sp c ↔ is_inside sp d) by (intros sp; unfold is_inside; destruct Esp as [-> ->]; done).
  split; (intros [H|(sp & sem & P1 & P2 & P3)]; [by left|right; exists sp, sem; split; [|split; [done|by apply Hin]]]).
  - by apply (renum_part ρ env env' Hex _ _ _ _ _ _ _ Hp).
  - by apply (renum_part ρ env env' Hex _ _ _ _ _ _ _ Hp).
Qed.
