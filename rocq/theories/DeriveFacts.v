(** Lemmas about the derive macros. *)
From Coq Require Import String.
From stdpp Require Import prelude list strings.
From Verif Require Import MacroModel DeriveModel DeriveSpec.
Local Open Scope nat_scope.

Lemma self_first fs m c : span_struct fs m = inr c → fields_of fs ≠ [] →
  ∃ f, c = CField f m ∧ self_field fs f = Some 0.
Proof.
  destruct fs as [|[|f l]|[|f l]]; cbn; intros Hc Hf; try done; simplify_eq; eexists; (split; [done|]); [done|].
  cbn. by rewrite String.eqb_refl.
Qed.
Lemma span_struct_ok fs m : fields_of fs ≠ [] → ∃ c, span_struct fs m = inr c.
Proof. destruct fs as [|[|f l]|[|f l]]; cbn; intros Hf; try done; eauto. Qed.

Definition first_pat (fs : dfields) (p : pat) : Prop := pat_field fs p = Some 0.
Lemma span_arms_ok vs : (∀ v, v ∈ vs → fields_of (snd v) ≠ []) →
  ∃ arms, span_arms vs = inr arms ∧ Forall2 (λ v a, fst a = fst v ∧ first_pat (snd v) (snd a)) vs arms.
Proof.
  induction vs as [|[x fs] vs IH]; intros H; cbn [span_arms]; [eauto|].
  destruct IH as (arms & E & F); [intros v Hv; apply H; by right|].
  assert (Hx : fields_of fs ≠ []) by (apply (H (x, fs)); left).
  destruct fs as [|[|f l]|[|f l]]; try done; rewrite E; eexists; (split; [done|]); constructor; try done.
  split; [done|]. unfold first_pat. cbn. by rewrite String.eqb_refl.
Qed.
Lemma find_arm_ok vs arms i x fs : NoDup (map fst vs) →
  Forall2 (λ v a, fst a = fst v ∧ first_pat (snd v) (snd a)) vs arms → vs !! i = Some (x, fs) →
  ∃ p, find_arm arms x = Some p ∧ first_pat fs p.
Proof.
  intros Hn F. revert i. induction F as [|[y gs] [y' p] vs arms [E P] F IH]; intros i Hi; [done|].
  cbn in E, P. subst y'. cbn [map] in Hn. apply NoDup_cons in Hn as [Hy Hn]. cbn [find_arm].
  destruct i as [|i]; cbn in Hi.
  - simplify_eq. rewrite String.eqb_refl. eauto.
  - destruct (String.eqb_spec x y) as [->|Hne]; [|by eapply IH].
    exfalso. apply Hy. apply elem_of_list_fmap. exists (y, fs). split; [done|]. by eapply elem_of_list_lookup_2.
Qed.

Lemma to_span_works d : names_ok d → has_first d → ∃ lo hi, derive_to_span d = inr (lo, hi) ∧
  compiles d lo = true ∧ compiles d hi = true ∧
  ∀ A (call : meth → A → nat) v, value_of d v → ∃ a, head (dv_fields v) = Some a ∧
    exec call d lo v = Some (call MLo a) ∧ exec call d hi v = Some (call MHi a).
Proof.
  intros Hn [H0 H]. destruct d as [fs|vs|l]; [..|done].
  - assert (Hf : fields_of fs ≠ []) by (apply H; left).
    destruct (span_struct_ok fs MLo Hf) as [lo Hlo]. destruct (span_struct_ok fs MHi Hf) as [hi Hhi].
    exists lo, hi. cbn. rewrite Hlo, Hhi. destruct (self_first _ _ _ Hlo Hf) as (f & -> & E1).
    destruct (self_first _ _ _ Hhi Hf) as (g & -> & E2). rewrite E1, E2. split_and!; [done..|].
    intros A call v (gs & Hv & Hl). cbn in Hv. destruct (dv_variant v); [|done]. injection Hv as <-.
    destruct (dv_fields v) as [|a r]; [destruct (fields_of fs); done|]. exists a. done.
  - assert (Hf : ∀ v, v ∈ vs → fields_of (snd v) ≠ []).
    { intros v Hv. apply H. cbn. apply elem_of_list_fmap. eauto. }
    destruct (span_arms_ok vs Hf) as (arms & E & F). cbn. unfold span_enum. rewrite E.
    exists (CMatch arms MLo), (CMatch arms MHi). cbn [compiles exec].
    assert (C : negb (length arms =? 0) && forallb (λ v, match find_arm arms (fst v) with
                    | Some p => match pat_field (snd v) p with Some _ => true | None => false end
                    | None => false end) vs = true).
    { apply andb_true_iff. split.
      - apply Forall2_length in F. rewrite <- F. destruct vs; done.
      - apply forallb_forall. intros [x fs] Hx. apply elem_of_list_In in Hx. apply elem_of_list_lookup in Hx as [i Hi].
        destruct (find_arm_ok _ _ _ _ _ Hn F Hi) as (p & E1 & E2). cbn [fst snd]. rewrite E1. unfold first_pat in E2. by rewrite E2. }
    split_and!; [done..|]. intros A call v (gs & Hv & Hl). cbn in Hv. rewrite list_lookup_fmap in Hv.
    destruct (vs !! dv_variant v) as [[x fs]|] eqn:Hi; [|done]. injection Hv as <-. cbn [snd] in Hl.
    destruct (find_arm_ok _ _ _ _ _ Hn F Hi) as (p & E1 & E2). unfold first_pat in E2.
    destruct (dv_fields v) as [|a r]; [exfalso; apply elem_of_list_lookup_2, Hf in Hi; cbn in Hi; destruct (fields_of fs); done|].
    exists a. cbn. rewrite E1. cbn. by rewrite E2.
Qed.

Lemma span_arms_find vs arms i x fs : NoDup (map fst vs) → span_arms vs = inr arms → vs !! i = Some (x, fs) →
  ∃ p, find_arm arms x = Some p ∧ (is_Some (pat_field fs p) → fields_of fs ≠ []).
Proof.
  revert arms i. induction vs as [|[y gs] vs IH]; intros arms i Hn Ha Hi; [done|].
  cbn [map] in Hn. apply NoDup_cons in Hn as [Hy Hn]. cbn [span_arms] in Ha.
  assert (T : ∀ p l, arms = (y, p) :: l → span_arms vs = inr l →
    (is_Some (pat_field gs p) → fields_of gs ≠ []) →
    ∃ p, find_arm arms x = Some p ∧ (is_Some (pat_field fs p) → fields_of fs ≠ [])).
  { intros p l -> Hl Hg. cbn [find_arm]. destruct i as [|i]; cbn in Hi.
    - simplify_eq. rewrite String.eqb_refl. eauto.
    - destruct (String.eqb_spec x y) as [->|Hne]; [|by eapply IH].
      exfalso. apply Hy. apply elem_of_list_fmap. exists (y, fs). split; [done|]. by eapply elem_of_list_lookup_2. }
  destruct gs as [|[|f l]|[|f l]]; try done; destruct (span_arms vs) as [|l']; try done; injection Ha as <-;
    eapply T; try done; cbn; by intros [? ?].
Qed.
Lemma to_span_only d lo hi : names_ok d → derive_to_span d = inr (lo, hi) → compiles d lo = true → has_first d.
Proof.
  intros Hn Hd Hc. destruct d as [fs|vs|l]; [..|done]; cbn in Hd.
  - destruct (span_struct fs MLo) as [|lo'] eqn:E; [done|]. destruct (span_struct fs MHi); [done|]. injection Hd as -> ->.
    split; [done|]. intros gs ->%elem_of_list_singleton. destruct fs as [|[|f l]|[|f l]]; cbn in E; simplify_eq; done.
  - unfold span_enum in Hd. destruct (span_arms vs) as [|arms] eqn:E; [done|]. injection Hd as <- <-.
    cbn in Hc. apply andb_true_iff in Hc as [C1 C2]. rewrite forallb_forall in C2. split.
    + destruct vs; [|done]. cbn in E. by injection E as <-.
    + intros fs Hfs. cbn in Hfs. apply elem_of_list_fmap in Hfs as ([x gs] & -> & Hv). cbn [snd].
      assert (C := C2 (x, gs) (proj1 (elem_of_list_In _ _) Hv)). cbn [fst snd] in C.
      apply elem_of_list_lookup in Hv as [i Hi]. destruct (span_arms_find _ _ _ _ _ Hn E Hi) as (p & E1 & E2).
      rewrite E1 in C. apply E2. destruct (pat_field gs p); done.
Qed.

Lemma parse_node_type_spec t args : parse_node_type t = inr args ↔ generic t args.
Proof.
  split.
  - destruct t as [segs|]; [|done]. cbn. destruct segs as [|s segs _] using rev_ind; [done|]. rewrite last_snoc.
    destruct s as [x [|l|]]; intros [= <-]. by exists segs, x.
  - intros (segs & x & ->). cbn. by rewrite last_snoc.
Qed.
Lemma node_accepts d c : derive_node d = inr c ↔
  ∃ f l args, generic (df_ty f) args ∧
    ((d = DdStruct (DfUnnamed (f :: l)) ∧ c = NodeCode (FbTuple (length l)) "0" args) ∨
     (d = DdStruct (DfNamed (f :: l)) ∧ c = NodeCode (FbNamed (df_name f)) (df_name f) args)).
Proof.
  split.
  - intros H. destruct d as [[|[|f l]|[|f l]]|vs|l]; try done; cbn in H;
      destruct (parse_node_type (df_ty f)) as [|args] eqn:E; try done; injection H as <-; apply parse_node_type_spec in E.
    + exists f, l, args. split; [done|]. left. by rewrite Nat.sub_0_r.
    + exists f, l, args. split; [done|]. by right.
  - intros (f & l & args & G & [[-> ->]|[-> ->]]); apply parse_node_type_spec in G; cbn; rewrite G; [|done].
    by rewrite Nat.sub_0_r.
Qed.
Lemma node_works f l args : generic (df_ty f) args → ∃ c, derive_node (DdStruct (DfUnnamed (f :: l))) = inr c ∧
  nc_target c = args ∧
  (∀ A (dflt : nat → A) node, ∃ xs, node_from dflt c node = Some (node :: xs) ∧ length xs = length l ∧
     ∀ i x, xs !! i = Some x → x = dflt (S i)) ∧
  (∀ A V (value : A → V) a xs, length xs = length l → node_get value (DfUnnamed (f :: l)) c (a :: xs) = Some (value a)).
Proof.
  intros G. exists (NodeCode (FbTuple (length l)) "0" args). split; [apply node_accepts; eauto 10|]. split_and!.
  - done.
  - intros A dflt node. eexists. split; [done|]. split.
    + by rewrite map_length, seq_length.
    + intros i x Hx. rewrite list_lookup_fmap in Hx. destruct (seq 1 (length l) !! i) eqn:E; [|done].
      apply lookup_seq in E as [-> _]. by injection Hx.
  - done.
Qed.
Lemma node_named f l args : generic (df_ty f) args → ∃ c, derive_node (DdStruct (DfNamed (f :: l))) = inr c ∧
  ∀ A (dflt : nat → A) node, node_from dflt c node = None.
Proof. intros G. eexists. split; [apply node_accepts; eauto 10|done]. Qed.
Lemma node_only d c : derive_node d = inr c → ∃ f l args, generic (df_ty f) args ∧
  (d = DdStruct (DfUnnamed (f :: l)) ∨ d = DdStruct (DfNamed (f :: l))).
Proof. intros (f & l & args & G & [[-> _]|[-> _]])%node_accepts; eauto 10. Qed.

Lemma span_arms_empty vs arms : span_arms vs = inr arms →
  (∀ v, v ∈ vs → fields_of (snd v) ≠ []) ∨ ∃ x, (x, DfUnnamed []) ∈ vs.
Proof.
  revert arms. induction vs as [|[x fs] vs IH]; intros arms Ha; [left; by intros v ?%elem_of_nil|]. cbn [span_arms] in Ha.
  assert (T : fields_of fs ≠ [] ∨ fs = DfUnnamed []).
  { destruct fs as [|[|f l]|[|f l]]; try done; auto. }
  assert (∃ l, span_arms vs = inr l) as [l Hl].
  { destruct fs as [|k|[|f k]]; try done; destruct (span_arms vs); eauto. }
  destruct T as [T| ->]; [|right; exists x; left].
  destruct (IH _ Hl) as [IH'|[y Hy]]; [left|right; exists y; by right].
  intros v [->|Hv]%elem_of_cons; auto.
Qed.
Lemma to_span_refuses d : ¬ has_first d →
  (∃ e, derive_to_span d = inl e) ∨ d = DdStruct (DfUnnamed []) ∨ d = DdEnum [] ∨
  (∃ vs, d = DdEnum vs ∧ ∃ x, (x, DfUnnamed []) ∈ vs).
Proof.
  intros H. destruct d as [fs|vs|l]; cbn; [..|eauto].
  - destruct fs as [|[|f l]|[|f l]]; eauto; exfalso; apply H; (split; [done|]); by intros gs ->%elem_of_list_singleton.
  - destruct (decide (vs = [])) as [->|Hne]; [auto|].
    unfold span_enum. destruct (span_arms vs) as [e|arms] eqn:E; [eauto|]. do 3 right. exists vs. split; [done|].
    destruct (span_arms_empty _ _ E) as [Hf|He]; [|done]. exfalso. apply H. split; [destruct vs; done|].
    cbn. intros gs (v & -> & Hv)%elem_of_list_fmap. auto.
Qed.

Lemma derive_once d :
  (∀ c, derive_to_span d = inr c → definitions (with_derive d (from_result_keep_input d (derive_to_span d))) = 1) ∧
  (∀ c, derive_node d = inr c → definitions (with_derive d (from_result_keep_input d (derive_node d))) = 1).
Proof. split; intros c E; by rewrite E. Qed.
Lemma derive_twice d :
  (∀ e, derive_to_span d = inl e → definitions (with_derive d (from_result_keep_input d (derive_to_span d))) = 2) ∧
  (∀ e, derive_node d = inl e → definitions (with_derive d (from_result_keep_input d (derive_node d))) = 2).
Proof. split; intros c E; by rewrite E. Qed.
