(** What every run of [produce] keeps, whatever the tables, types, outcome: no out-of-range
    slice, positions of nodes and errors, element counts, what errors list. *)
From Coq Require Import String NArith.
From stdpp Require Import prelude list strings relations.
From Verif Require Import LexModel LexSpec LexFacts SynSetModel SynSetFacts TableModel StreamModel StreamSpec StreamFacts
  TypeModel ProduceModel CfgSpec ParseSpec ProgFacts TreeFacts SoundFacts.
Local Open Scope nat_scope.
#[local] Arguments ts_contains : simpl never.
#[local] Arguments ts_contains_e : simpl never.

(** Positions the parser has passed, or the input has ended. *)
Definition near (s : ast) (n : nat) : Prop := n ≤ pos s ∨ a_rest s = [].
(** Positions where the input or a token starts or ends. *)
Definition edge (s : ast) (n : nat) : Prop :=
  n = 0 ∨ n = String.length (a_src s) ∨ ∃ t, t ∈ toks s ++ a_rest s ∧ (n = sp_lo (t_span t) ∨ n = sp_hi (t_span t)).
Definition readable (s : ast) (sp : span) : Prop := near s (sp_hi sp) ∧ edge s (sp_lo sp) ∧ edge s (sp_hi sp).

(** * Strict preconditions: only the look-ahead and passed text may be read *)
Fixpoint wps {A} (m : M A) (s : ast) (Q : A → ast → Prop) : Prop :=
  match m with
  | Ret a => Q a s
  | Fuel => True
  | Peek k => wps (k (head (a_rest s))) s Q
  | ToSrc t k => head (a_rest s) = Some t ∧ ∃ x, token_src t (a_src s) = Some x ∧ wps (k (t_ty t, x)) s Q
  | Consume k => wps (k (head (a_rest s))) (pop s) Q
  | EmptySpan k => wps (k (Span (pos s) (pos s))) s Q
  | CurSpan k => wps (k (a_span s)) s Q
  | GetSrc sp k => readable s sp ∧ ∃ x, span_get sp (a_src s) = Some x ∧ wps (k x) s Q
  | Apply sp sem k => wps k (mark s sp sem) Q
  | Extend es k => wps k s Q
  end.

Lemma wps_wp {A} (m : M A) s Q : wps m s Q → wp True False m s Q.
Proof.
  unfold wp. revert s. induction m as [| |k IH|t k IH|k IH|k IH|k IH|sp k IH|sp sem k IH|es k IH];
    intros s; cbn [wps arun]; try done; try apply IH.
  - intros (_ & x & -> & H). by apply IH.
  - unfold pop. destruct (a_rest s); apply IH.
  - intros (_ & x & -> & H). by apply IH.
Qed.
Lemma wps_mono {A} (m : M A) s (Q Q' : A → ast → Prop) : wps m s Q → (∀ a s', Q a s' → Q' a s') → wps m s Q'.
Proof.
  intros H HQ. revert s H. induction m as [| |k IH|t k IH|k IH|k IH|k IH|sp k IH|sp sem k IH|es k IH];
    intros s; cbn [wps]; auto; intros (? & x & ? & ?); eauto.
Qed.
Lemma wps_bind {A B} (m : M A) (f : A → M B) s Q : wps m s (λ a s', wps (f a) s' Q) → wps (m ≫= f) s Q.
Proof.
  rewrite bindM_eq. revert s. induction m as [| |k IH|t k IH|k IH|k IH|k IH|sp k IH|sp sem k IH|es k IH];
    intros s; cbn [wps bindM]; auto; intros (? & x & ? & ?); eauto.
Qed.
Lemma wps_call {A} (m : M A) s (Q Q' : A → ast → Prop) :
  wps m s Q → (∀ a s' l, adv s l s' → Q a s' → Q' a s') → wps m s Q'.
Proof.
  intros H HQ. revert H.
  assert (Hgen : ∀ s0 l0, adv s l0 s0 → wps m s0 Q → wps m s0 Q'); [|apply (Hgen s [] (adv_refl s))].
  induction m as [| |k IH|t k IH|k IH|k IH|k IH|sp k IH|sp sem k IH|es k IH];
    intros s0 l0 H0; cbn [wps]; intros H; eauto.
  - destruct H as (? & x & ? & ?). eauto.
  - eapply IH; [|done]. eapply adv_trans; [done|apply pop_adv].
  - destruct H as (? & x & ? & ?). eauto.
  - eapply IH; [|done]. eapply adv_trans; [done|apply mark_adv].
Qed.
Lemma wps_ret {A} (a : A) s (Q : A → ast → Prop) : Q a s → wps (mret a) s Q.
Proof. done. Qed.
Lemma wps_peek_src s (Q : option tok → ast → Prop) : aok s → Q (look s) s → wps peek_src s Q.
Proof.
  intros Hok H. unfold peek_src. cbn [wps].
  destruct (a_rest s) as [|t r] eqn:E; cbn [head hd_error].
  - unfold look in H. by rewrite E in H.
  - destruct (look_src s t r Hok E) as (x & Hx & Hl). cbn [wps]. rewrite E. split; [done|].
    exists x. split; [done|]. by rewrite Hl in H.
Qed.
Lemma wps_consume s (Q : option token → ast → Prop) : Q (head (a_rest s)) (pop s) → wps consume s Q.
Proof. done. Qed.
Lemma wps_empty_span s (Q : span → ast → Prop) : Q (Span (pos s) (pos s)) s → wps empty_span s Q.
Proof. done. Qed.
Lemma wps_cur_span s (Q : span → ast → Prop) : Q (a_span s) s → wps cur_span s Q.
Proof. done. Qed.
Lemma wps_expecting set s (Q : perr → ast → Prop) : Q (PErr (a_span s) (Expecting set)) s → wps (expecting set) s Q.
Proof. done. Qed.
Lemma wps_apply sp sem s (Q : unit → ast → Prop) : Q tt (mark s sp sem) → wps (apply_semantic sp sem) s Q.
Proof. done. Qed.
Lemma wps_get_src sp s x (Q : string → ast → Prop) : readable s sp → span_get sp (a_src s) = Some x → Q x s → wps (get_src sp) s Q.
Proof. intros Hn H HQ. split; [done|]. exists x. done. Qed.
Lemma wps_parse_token ty s (Q : res token → ast → Prop) :
  match a_rest s with
  | t :: _ => if decide (t_ty t = ty) then Q (RSucc t) (pop s)
              else Q (RPanic [PErr (a_span s) (Expecting (fs_one ty None))]) s
  | [] => Q (RPanic [PErr (a_span s) (Expecting (fs_one ty None))]) s
  end → wps (parse_token ty) s Q.
Proof.
  intros H. unfold parse_token. apply wps_bind. cbn [wps peek]. destruct (a_rest s) as [|t r]; cbn [head hd_error]; [done|].
  destruct (Nat.eqb_spec (t_ty t) ty); case_decide; done.
Qed.
Lemma wps_parse_token_lit ty lit fol s (Q : res token → ast → Prop) : aok s →
  match a_rest s with
  | t :: _ =>
    if decide (look s = Some (ty, lit)) then Q (RSucc t) (pop s)
    else if ts_contains fol (look s) then
      Q (RRec (Token (Span (pos s) (pos s)) ty) [PErr (a_span s) (Expecting (fs_one ty (Some lit)))]) s
    else Q (RPanic [PErr (a_span s) (Expecting (fs_one ty (Some lit)))]) s
  | [] =>
    if ts_contains_e fol then
      Q (RRec (Token (a_span s) ty) [PErr (a_span s) (Expecting (fs_one ty (Some lit)))]) s
    else Q (RPanic [PErr (a_span s) UnexpectedEof]) s
  end → wps (parse_token_lit ty lit fol) s Q.
Proof.
  intros Hok H. unfold parse_token_lit. apply wps_bind. cbn [wps peek]. destruct (a_rest s) as [|t r] eqn:E; cbn [head hd_error].
  - by destruct (ts_contains_e fol).
  - destruct (look_src s t r Hok E) as (x & Hx & Hl). cbn [wps]. rewrite E. split; [done|]. exists x. split; [done|].
    cbn [snd]. destruct (decide (look s = Some (ty, lit))) as [Heq|Hne]; rewrite Hl in *.
    + injection Heq as -> ->. by rewrite Nat.eqb_refl, bool_decide_eq_true_2.
    + assert ((t_ty t =? ty) && bool_decide (x = lit) = false) as ->.
      { apply andb_false_iff. destruct (Nat.eqb_spec (t_ty t) ty); [|by left]. right.
        apply bool_decide_eq_false. congruence. }
      change (@Some tok (t_ty t, x)) with (@Some (nat * string) (t_ty t, x)) in H |- *.
      by destruct (ts_contains fol (Some (t_ty t, x))).
Qed.

(** * Token sets *)
Lemma fs_one_contains ty lit y x : ts_contains (fs_one ty lit) (Some (y, x)) = true ↔
  y = ty ∧ (lit = None ∨ lit = Some x).
Proof. unfold fs_one. rewrite ts_contains_insert, ts_contains_new, orb_false_r. apply bool_decide_eq_true. Qed.
Lemma union_minus_contains a b t : ts_contains (fst (fs_union_minus_eps (fst (ts_remove_e a)) b)) (Some t) =
  ts_contains a (Some t) || ts_contains b (Some t).
Proof.
  unfold fs_union_minus_eps. rewrite ts_contains_union, ts_remove_e_contains.
  rewrite bool_decide_eq_false_2 by done. by rewrite andb_true_r.
Qed.

Section inv.
  Variable env : denv.
  Variables (first follow : prod → tset) (jump : prod → option tok → option nat).
  (** The source and all tokens of the input. *)
  Variables (src : string) (all : list token).
  Hypothesis Hall : spans_ok 0 (String.length src) (map t_span all).
  Notation produce := (produce env first follow jump).

  Definition st (s : ast) : Prop := a_src s = src ∧ toks s ++ a_rest s = all.
  Lemma st_aok s : st s → aok s.
  Proof. intros [H1 H2]. rewrite aok_eq. by rewrite H1, H2. Qed.
  Hint Resolve st_aok : core.
  Lemma st_adv s l s' : adv s l s' → st s → st s'.
  Proof. intros [A B C] [H1 H2]. split; [congruence|]. rewrite B, <- H2, C. by rewrite (assoc_L (++)). Qed.

  (** * Positions *)
  Definition cur (s : ast) : nat := sp_lo (a_span s).
  Definition bnd (n : nat) : Prop :=
    n = 0 ∨ n = String.length src ∨ ∃ t, t ∈ all ∧ (n = sp_lo (t_span t) ∨ n = sp_hi (t_span t)).

  Lemma all_in t : t ∈ all → sp_lo (t_span t) < sp_hi (t_span t) ∧ sp_hi (t_span t) ≤ String.length src.
  Proof.
    intros Ht. destruct (spans_ok_in _ _ _ (t_span t) Hall) as (_ & ? & ?); [|done].
    by apply elem_of_list_In, in_map, elem_of_list_In.
  Qed.
  Lemma bnd_le n : bnd n → n ≤ String.length src.
  Proof. intros [->|[->|(t & Ht & H)]]; [lia..|]. apply all_in in Ht. lia. Qed.
  Lemma rest_in s t r : st s → a_rest s = t :: r → t ∈ all.
  Proof. intros [_ H] E. rewrite <- H, E. set_solver. Qed.
  Lemma bnd_pos s : st s → bnd (pos s).
  Proof.
    intros [_ H]. rewrite pos_toks. unfold end_pos. destruct (last (toks s)) as [t|] eqn:E; [|by left].
    right; right. exists t. split; [|by right]. rewrite <- H. apply elem_of_app. left. 
    apply last_Some_elem_of. done.
  Qed.
  Lemma bnd_span s : st s → bnd (sp_lo (a_span s)) ∧ bnd (sp_hi (a_span s)) ∧ sp_lo (a_span s) ≤ sp_hi (a_span s).
  Proof.
    intros Hst. unfold a_span. destruct (a_rest s) as [|t r] eqn:E.
    - rewrite (proj1 Hst). cbn. split_and!; [by right; left..|done].
    - apply (rest_in _ _ _ Hst) in E. split_and!; [right; right; eauto..|]. apply all_in in E. lia.
  Qed.
  (** Where a token or the end of the source is. *)
  Definition start (n : nat) : Prop := n = String.length src ∨ ∃ t, t ∈ all ∧ n = sp_lo (t_span t).
  Lemma start_bnd n : start n → bnd n.
  Proof. intros [->|(t & Ht & ->)]; [by right; left|]. right; right. eauto. Qed.
  Lemma start_span s : st s → start (sp_lo (a_span s)).
  Proof.
    intros Hst. unfold a_span. destruct (a_rest s) as [|t r] eqn:E; [rewrite (proj1 Hst); by left|].
    apply (rest_in _ _ _ Hst) in E. right. eauto.
  Qed.
  Lemma pos_cur s : st s → pos s ≤ cur s.
  Proof.
    intros Hst. destruct (aok_pos _ (st_aok _ Hst)) as [H1 H2]. unfold cur, a_span.
    destruct (a_rest s) as [|t r]; [done|]. cbn in H1. lia.
  Qed.
  Lemma pos_adv s l s' : adv s l s' → st s → pos s ≤ pos s'.
  Proof.
    intros Hl Hst. rewrite (adv_pos _ _ _ Hl). apply (end_pos_ge (String.length (a_src s))). by apply (adv_spans _ _ s'); [apply st_aok|].
  Qed.
  Lemma cur_adv s l s' : adv s l s' → st s → cur s ≤ cur s'.
  Proof.
    intros Hl Hst. destruct l as [|t l].
    - destruct (adv_nil _ _ Hl) as (H1 & _ & H2). unfold cur, a_span. by rewrite H1, H2.
    - assert (Hst' := st_adv _ _ _ Hl Hst). assert (H := pos_cur _ Hst').
      rewrite (adv_pos _ _ _ Hl) in H.
      assert (Hsp := adv_spans _ _ _ (st_aok _ Hst) Hl). cbn in Hsp. destruct Hsp as (H1 & H2 & H3).
      change (t :: l) with ([t] ++ l) in H. rewrite end_pos_app in H. change (end_pos (pos s) [t]) with (sp_hi (t_span t)) in H.
      apply end_pos_ge in H3. destruct Hl as [_ _ Hr]. unfold cur at 1, a_span. rewrite Hr. cbn. lia.
  Qed.
  Lemma rest_adv s l s' : adv s l s' → a_rest s' ≠ [] → a_rest s ≠ [].
  Proof. intros [_ _ H] Hn E. rewrite E in H. symmetry in H. apply app_nil in H as [_ ?]. done. Qed.
  Lemma rest_adv0 s l s' : adv s l s' → a_rest s = [] → a_rest s' = [].
  Proof. intros [_ _ H] E. rewrite E in H. symmetry in H. by apply app_nil in H as [_ ?]. Qed.

  (** * Errors *)
  (** The tables send every token of FIRST of an enum to a variant. *)
  Definition jumps_ok : Prop := ∀ n vs x, env !! n = Some (DEnum vs) →
    ts_contains (first (PNamed n)) (Some x) = true →
    ∃ i v, jump (PNamed n) (Some x) = Some i ∧ vs !! i = Some v.
  Definition unlisted (set : tset) (n : nat) : Prop := ∀ t x, t ∈ all → sp_lo (t_span t) = n →
    token_src t src = Some x → ts_contains set (Some (t_ty t, x)) = false.
  Definition good_kind (k : ekind) (n : nat) : Prop :=
    match k with UnexpectedCharacters => False | Expecting set => jumps_ok → unlisted set n | _ => True end.
  Definition good_err (e : perr) : Prop :=
    sp_lo (e_span e) ≤ sp_hi (e_span e) ∧ start (sp_lo (e_span e)) ∧ bnd (sp_hi (e_span e)) ∧
    good_kind (e_kind e) (sp_lo (e_span e)).
  Definition err_in (s s' : ast) (e : perr) : Prop :=
    good_err e ∧ cur s ≤ sp_lo (e_span e) ∧ sp_lo (e_span e) ≤ cur s'.

  Lemma unlisted_here s set : st s → (∀ x, look s = Some x → ts_contains set (Some x) = false) →
    unlisted set (cur s).
  Proof.
    intros Hst Hset t x Ht Hlo Hx. assert (Hpc := pos_cur _ Hst).
    destruct Hst as [Hs Ha]. rewrite <- Ha in Ht. apply elem_of_app in Ht as [Ht|Ht].
    - exfalso. rewrite <- Ha in Hall. apply spans_ok_pos in Hall as [H1 H2].
      assert (sp_hi (t_span t) ≤ end_pos 0 (toks s)).
      { clear -H1 Ht. apply elem_of_list_split in Ht as (l1 & l2 & E). rewrite E in *. apply spans_ok_pos in H1 as [_ H1].
        cbn in H1. destruct H1 as (_ & _ & H1). apply end_pos_ge in H1.
        rewrite end_pos_app. change (t :: l2) with ([t] ++ l2). rewrite end_pos_app. cbn. change (end_pos _ [t]) with (sp_hi (t_span t)). lia. }
      assert (sp_lo (t_span t) < sp_hi (t_span t)).
      { destruct (spans_ok_in _ _ _ (t_span t) H1) as (_ & ? & ?); [|done]. by apply elem_of_list_In, in_map, elem_of_list_In. }
      rewrite <- pos_toks in H. lia.
    - destruct (a_rest s) as [|h r] eqn:E; [by apply elem_of_nil in Ht|].
      apply elem_of_cons in Ht as [->|Ht].
      + apply Hset. unfold look. rewrite E, Hs. by rewrite Hx.
      + exfalso. rewrite <- Ha in Hall. apply spans_ok_pos in Hall as [_ H2]. cbn in H2. destruct H2 as (_ & H3 & H4).
        destruct (spans_ok_in _ _ _ (t_span t) H4) as (? & _ & _); [by apply elem_of_list_In, in_map, elem_of_list_In|].
        unfold cur, a_span in Hlo. rewrite E in Hlo. lia.
  Qed.
  Lemma err_here s k : st s → good_kind k (cur s) → err_in s s (PErr (a_span s) k).
  Proof. intros Hst Hk. destruct (bnd_span s Hst) as (? & ? & ?). assert (H2 := start_span s Hst). split; [by split_and!|done]. Qed.
  Lemma err_expecting s set : st s → (∀ x, look s = Some x → ts_contains set (Some x) = false) →
    err_in s s (PErr (a_span s) (Expecting set)).
  Proof. intros Hst H. apply err_here; [done|]. intros _. by apply unlisted_here. Qed.
  Lemma err_mono s0 l s s' l' s'' e : st s0 → adv s0 l s → st s' → adv s' l' s'' → err_in s s' e → err_in s0 s'' e.
  Proof.
    intros H0 H1 H2 H3 (Hg & ? & ?). split; [done|]. apply cur_adv in H1; [|done]. apply cur_adv in H3; [|done]. lia.
  Qed.
  Lemma err_l s0 l s s' e : st s0 → adv s0 l s → err_in s s' e → err_in s0 s' e.
  Proof. intros H0 H1 (Hg & ? & ?). split; [done|]. apply cur_adv in H1; [|done]. lia. Qed.
  Lemma err_r s s' l s'' e : st s' → adv s' l s'' → err_in s s' e → err_in s s'' e.
  Proof. intros H0 H1 (Hg & ? & ?). split; [done|]. apply cur_adv in H1; [|done]. lia. Qed.
  Definition errs_in (s s' : ast) (es : list perr) : Prop := Forall (err_in s s') es.
  Lemma errs_l s0 l s s' es : st s0 → adv s0 l s → errs_in s s' es → errs_in s0 s' es.
  Proof. intros H0 H1 H. eapply Forall_impl; [exact H|]. intros e. by apply (err_l _ l). Qed.
  Lemma errs_r s s' l s'' es : st s' → adv s' l s'' → errs_in s s' es → errs_in s s'' es.
  Proof. intros H0 H1 H. eapply Forall_impl; [exact H|]. intros e. by apply (err_r _ _ l). Qed.
  Lemma errs_app s s' e1 e2 : errs_in s s' e1 → errs_in s s' e2 → errs_in s s' (e1 ++ e2).
  Proof. intros. by apply Forall_app. Qed.
  Lemma errs_nil s s' : errs_in s s' [].
  Proof. constructor. Qed.
  Lemma errs_one s s' e : err_in s s' e → errs_in s s' [e].
  Proof. intros. apply Forall_singleton. done. Qed.
  Lemma set_hi_here s s' p : st s' → err_in s s' p → err_in s s' (set_hi p (sp_hi (a_span s'))).
  Proof.
    intros Hst ((H1 & H2 & H3 & H4) & H5 & H6). destruct (bnd_span s' Hst) as (B1 & B2 & B3).
    split; [split_and!|]; cbn; try done. fold (cur s') in B3. lia.
  Qed.
  Lemma merge_in s s1 l s2 panic e : st s1 → adv s1 l s2 → errs_in s s1 (option_list panic) → errs_in s1 s2 e →
    cur s ≤ cur s1 →
    errs_in s s2 (option_list (merge_panic panic e)).
  Proof.
    intros Hst Hl Hp He Hc. unfold merge_panic. destruct (last e) as [x|] eqn:E; [|by apply (errs_r _ s1 l)].
    apply last_Some_elem_of in E. assert (Hx := proj1 (Forall_forall _ _) He x E). cbn.
    apply errs_one. destruct panic as [p|].
    - apply Forall_cons in Hp as [((H1 & H2 & H3 & H4) & H5 & H6) _]. destruct Hx as ((X1 & X2 & X3 & X4) & X5 & X6).
      split; [split_and!|]; cbn; try done; lia.
    - destruct Hx as (? & ? & ?). split; [done|]. lia.
  Qed.

  (** * Nodes *)
  Definition span_in (s s' : ast) (sp : span) : Prop :=
    bnd (sp_lo sp) ∧ bnd (sp_hi sp) ∧
    (a_rest s' ≠ [] → pos s ≤ sp_lo sp ∧ sp_lo sp ≤ sp_hi sp ∧ sp_hi sp ≤ pos s').
  Definition shape (y : tree) : Prop :=
    match y with
    | TrSplit _ a b => length a = S (length b)
    | TrPunct _ a b => 1 ≤ length a ∧ length a ≤ S (length b)
    | TrQuote sp x | TrParse sp x => span_get sp src = Some x
    | _ => True
    end.
  Definition node_in (s s' : ast) (y : tree) : Prop := span_in s s' (tree_span y) ∧ shape y.
  Definition tree_in (s s' : ast) (x : tree) : Prop := Forall (node_in s s') (nodes x).
  Definition trees_in (s s' : ast) (l : list tree) : Prop := Forall (tree_in s s') l.
  Definition seq_in (s s' : ast) (l : list tree) : Prop :=
    trees_in s s' l ∧
    (a_rest s' ≠ [] → ∀ a b, head l = Some a → last l = Some b → tree_lo a ≤ tree_hi b).

  Lemma tree_here s s' x : tree_in s s' x → span_in s s' (tree_span x).
  Proof. intros H. destruct x; apply Forall_cons in H as [[H _] _]; exact H. Qed.
  Lemma span_mono s0 l s s' l' s'' sp : st s0 → adv s0 l s → st s' → adv s' l' s'' → span_in s s' sp → span_in s0 s'' sp.
  Proof.
    intros H0 H1 H2 H3 (A & B & C). split; [done|]. split; [done|]. intros Hr.
    destruct C as (C1 & C2 & C3); [by eapply rest_adv|].
    apply pos_adv in H1; [|done]. apply pos_adv in H3; [|done]. lia.
  Qed.
  Lemma tree_mono s0 l s s' l' s'' x : st s0 → adv s0 l s → st s' → adv s' l' s'' → tree_in s s' x → tree_in s0 s'' x.
  Proof.
    intros H0 H1 H2 H3 H. eapply Forall_impl; [exact H|]. intros y [Hy ?]. split; [|done].
    by eapply (span_mono _ l _ _ l').
  Qed.
  Lemma tree_l s0 l s s' x : st s0 → adv s0 l s → st s' → tree_in s s' x → tree_in s0 s' x.
  Proof. intros. eapply (tree_mono _ l _ _ []); eauto using adv_refl. Qed.
  Lemma tree_r s s' l s'' x : st s → st s' → adv s' l s'' → tree_in s s' x → tree_in s s'' x.
  Proof. intros. eapply (tree_mono _ [] _ _ l); eauto using adv_refl. Qed.
  Lemma seq_r s s' l s'' xs : st s → st s' → adv s' l s'' → seq_in s s' xs → seq_in s s'' xs.
  Proof.
    intros H1 H2 H3 [H4 H5]. split; [eapply Forall_impl; [exact H4|]; intros ??; by apply (tree_r _ s' l)|].
    intros Hr. apply H5. by eapply rest_adv.
  Qed.
  Lemma seq_nil s s' : seq_in s s' [].
  Proof. split; [constructor|]. done. Qed.
  Lemma seq_snoc s s1 l s2 xs x : st s → st s1 → adv s1 l s2 → (∃ l0, adv s l0 s1) →
    seq_in s s1 xs → tree_in s1 s2 x → seq_in s s2 (xs ++ [x]).
  Proof.
    intros H0 H1 H2 [l0 H3] [H4 H5] Hx. assert (Hst2 := st_adv _ _ _ H2 H1).
    split.
    - apply Forall_app. split; [eapply Forall_impl; [exact H4|]; intros ??; by apply (tree_r _ s1 l)|].
      apply Forall_singleton. by apply (tree_l _ l0 s1).
    - intros Hr a b Ha Hb. rewrite last_snoc in Hb. injection Hb as ->.
      destruct (tree_here _ _ _ Hx) as (_ & _ & Hb). destruct (Hb Hr) as (B1 & B2 & _). cbn in B1, B2.
      destruct xs as [|y xs]; cbn in Ha; injection Ha as ->; [done|].
      destruct (last (a :: xs)) as [z|] eqn:El; [|by apply last_None in El].
      assert (Hr1 : a_rest s1 ≠ []) by (by eapply rest_adv).
      assert (H6 := H5 Hr1 a z eq_refl eq_refl).
      apply last_Some_elem_of in El. assert (Hz := proj1 (Forall_forall _ _) H4 z El).
      destruct (tree_here _ _ _ Hz) as (_ & _ & Hz'). destruct (Hz' Hr1) as (_ & _ & Z). cbn in Z. lia.
  Qed.
  Lemma seq_one s s' x : tree_in s s' x → seq_in s s' [x].
  Proof.
    intros H. split; [by apply Forall_singleton|]. intros Hr a b [= <-] [= <-].
    destruct (tree_here _ _ _ H) as (_ & _ & Hb). destruct (Hb Hr) as (_ & ? & _). done.
  Qed.
  (** The span from the first to the last of a sequence *)
  Lemma seq_span s s' xs a b : seq_in s s' xs → head xs = Some a → last xs = Some b →
    span_in s s' (Span (tree_lo a) (tree_hi b)).
  Proof.
    intros [H1 H2] Ha Hb.
    assert (Ia : a ∈ xs) by (by apply head_Some_elem_of). assert (Ib : b ∈ xs) by (by apply last_Some_elem_of).
    destruct (tree_here _ _ _ (proj1 (Forall_forall _ _) H1 a Ia)) as (A1 & _ & A3).
    destruct (tree_here _ _ _ (proj1 (Forall_forall _ _) H1 b Ib)) as (_ & B2 & B3).
    split_and!; [done..|]. intros Hr. destruct (A3 Hr) as (? & _ & _). destruct (B3 Hr) as (_ & _ & ?).
    specialize (H2 Hr a b Ha Hb). cbn in *. lia.
  Qed.
  Lemma trees_nodes s s' l : trees_in s s' l → Forall (node_in s s') (flat_map nodes l).
  Proof. induction 1; cbn; [constructor|]. by apply Forall_app. Qed.
  Lemma tree_seq s s' xs : xs ≠ [] → seq_in s s' xs → tree_in s s' (TrSeq xs).
  Proof.
    intros Hne H. constructor; [|by apply trees_nodes, H]. split; [|done].
    destruct xs as [|a xs]; [done|]. destruct (last (a :: xs)) as [b|] eqn:E; [|by apply last_None in E].
    assert (tree_span (TrSeq (a :: xs)) = Span (tree_lo a) (tree_hi b)) as ->.
    { unfold tree_span. f_equal. by rewrite tree_hi_seq, E. }
    by apply (seq_span _ _ (a :: xs)).
  Qed.
  Lemma span_pos s s' l : st s → adv s l s' → span_in s s' (Span (pos s') (pos s')).
  Proof.
    intros Hst Hl. assert (Hst' := st_adv _ _ _ Hl Hst). split_and!; cbn; [by apply bnd_pos..|].
    intros _. apply pos_adv in Hl; [|done]. lia.
  Qed.

  (** * Results *)
  Definition inv (s : ast) (r : res tree) (s' : ast) : Prop :=
    errs_in s s' (unres r).2 ∧
    match unres r with
    | (Some x, _) => tree_in s s' x
    | (None, e) => e = [] → a_rest s' = []
    end.
  Definition invp (p : M (res tree)) : Prop := ∀ s, st s → wps p s (inv s).

  (** * Runs from a fixed start *)
  Definition reach (s0 s : ast) : Prop := st s0 ∧ ∃ l, adv s0 l s.
  Lemma reach_st s0 s : reach s0 s → st s.
  Proof. intros [H [l Hl]]. by eapply st_adv. Qed.
  Lemma reach_refl s : st s → reach s s.
  Proof. intros H. split; [done|]. exists []. apply adv_refl. Qed.
  Lemma reach_trans a b c : reach a b → reach b c → reach a c.
  Proof. intros [H [l1 H1]] [_ [l2 H2]]. split; [done|]. exists (l1 ++ l2). by eapply adv_trans. Qed.
  Lemma reach_adv a b l c : reach a b → adv b l c → reach a c.
  Proof. intros H Hl. eapply reach_trans; [done|]. split; [by eapply reach_st|eauto]. Qed.
  Lemma reach_pop a b : reach a b → reach a (pop b).
  Proof. intros H. eapply reach_adv; [done|apply pop_adv]. Qed.
  Lemma reach_mark a b sp sem : reach a b → reach a (mark b sp sem).
  Proof. intros H. eapply reach_adv; [done|apply mark_adv]. Qed.
  Lemma reach_cur a b : reach a b → cur a ≤ cur b.
  Proof. intros [H [l Hl]]. by eapply cur_adv. Qed.
  Lemma reach_pos a b : reach a b → pos a ≤ pos b.
  Proof. intros [H [l Hl]]. by eapply pos_adv. Qed.
  Lemma reach_rest a b : reach a b → a_rest a = [] → a_rest b = [].
  Proof. intros [H [l Hl]]. by eapply rest_adv0. Qed.
  Lemma errs_from s0 s s' es : errs_in s s' es → reach s0 s → errs_in s0 s' es.
  Proof. intros He [H [l Hl]]. revert He. by apply (errs_l _ l). Qed.
  Lemma errs_to s s' s'' es : errs_in s s' es → reach s' s'' → errs_in s s'' es.
  Proof. intros He [H [l Hl]]. revert He. by apply (errs_r _ _ l). Qed.
  Lemma tree_from s0 s s' x : tree_in s s' x → reach s0 s → reach s s' → tree_in s0 s' x.
  Proof. intros Hx [H [l Hl]] H'. revert Hx. apply (tree_l _ l); [done..|]. by eapply reach_st. Qed.
  Lemma tree_to s s' s'' x : tree_in s s' x → reach s s' → reach s' s'' → tree_in s s'' x.
  Proof. intros Hx [H [l Hl]] [H' [l' Hl']]. by apply (tree_r _ s' l'). Qed.
  Lemma seq_to s s' s'' x : seq_in s s' x → reach s s' → reach s' s'' → seq_in s s'' x.
  Proof. intros Hx [H [l Hl]] [H' [l' Hl']]. by apply (seq_r _ s' l'). Qed.
  Lemma trees_to s s' s'' x : trees_in s s' x → reach s s' → reach s' s'' → trees_in s s'' x.
  Proof. intros H H1 H2. eapply Forall_impl; [exact H|]. intros ??. by apply (tree_to _ s'). Qed.
  Lemma seq_add s s1 s2 xs x : reach s s1 → reach s1 s2 → seq_in s s1 xs → tree_in s1 s2 x → seq_in s s2 (xs ++ [x]).
  Proof. intros [H [l Hl]] [H' [l' Hl']]. by apply (seq_snoc _ _ l'); eauto. Qed.
  Lemma merge_to s s1 s2 panic e : reach s s1 → reach s1 s2 → errs_in s s1 (option_list panic) → errs_in s1 s2 e →
    errs_in s s2 (option_list (merge_panic panic e)).
  Proof. intros H [H' [l' Hl']] H1 H2. apply (merge_in _ s1 l'); try done. by apply reach_cur. Qed.
  Lemma set_hi_to s s1 p : reach s s1 → errs_in s s1 [p] → errs_in s s1 [set_hi p (sp_hi (a_span s1))].
  Proof. intros H He. apply (proj1 (Forall_singleton _ _)) in He. apply errs_one, set_hi_here; [by eapply reach_st|done]. Qed.
  Lemma errs_here s s1 e : reach s s1 → err_in s1 s1 e → errs_in s s1 [e].
  Proof. intros H He. eapply errs_from; [|done]. by apply errs_one. Qed.
  Lemma unres_into {A} (a : A) es : unres (res_into a es) = (Some a, es).
  Proof. by destruct es. Qed.
  Lemma unres_map {A B} (f : A → B) r : unres (res_map f r) = (f <$> (unres r).1, (unres r).2).
  Proof. by destruct r. Qed.

  Lemma wps_step {A} (m : M A) s0 s (Q Q' : A → ast → Prop) : reach s0 s → wps m s Q →
    (∀ a s', reach s0 s' → reach s s' → Q a s' → Q' a s') → wps m s Q'.
  Proof.
    intros H0 H HQ. eapply wps_call; [exact H|]. intros a s' l Hl. apply HQ.
    - by eapply reach_adv.
    - split; [by eapply reach_st|eauto].
  Qed.
  Lemma wps_look s0 s (Q : option tok → ast → Prop) : reach s0 s → Q (look s) s → wps peek_src s Q.
  Proof. intros H. apply wps_peek_src. by eapply st_aok, reach_st. Qed.
  Hint Resolve reach_st reach_refl reach_pop reach_mark errs_nil : core.

  Lemma produce_seq_inv rec ts s0 s acc errs : reach s0 s → (∀ t, t ∈ ts → invp (rec t)) →
    seq_in s0 s acc → errs_in s0 s errs →
    wps (produce_seq rec ts acc errs) s (λ r s', errs_in s0 s' (unres r).2 ∧
      match unres r with
      | (Some xs, _) => seq_in s0 s' xs ∧ length xs = length acc + length ts
      | (None, e) => e = [] → a_rest s' = []
      end).
  Proof.
    revert s acc errs. induction ts as [|t ts IH]; intros s acc errs H0 Hrec Hacc He; cbn [produce_seq].
    - apply wps_ret. rewrite unres_into. cbn. split_and!; [done..|lia].
    - apply wps_bind. eapply (wps_step _ s0); [done|apply Hrec; [set_solver|eauto]|].
      intros r s1 H01 H1 [He1 Hr]. destruct (unres r) as [[x|] e]; cbn [snd] in He1.
      + eapply wps_mono; [apply IH|].
        * done.
        * intros; apply Hrec; set_solver.
        * by eapply (seq_add _ s).
        * apply errs_app; [by eapply errs_to|by eapply errs_from].
        * intros r2 s2 [He2 H2]. split; [done|]. destruct (unres r2) as [[xs|] e2]; [|done].
          destruct H2 as [H2 ->]. split; [done|]. rewrite app_length. cbn. lia.
      + apply wps_ret. cbn. split; [apply errs_app; [by eapply errs_to|by eapply errs_from]|].
        intros [_ ->]%app_eq_self. auto.
  Qed.

  Lemma apply_fields_inv fs xs s0 s : reach s0 s → wps (apply_fields fs xs) s (λ _ s', reach s0 s' ∧ reach s s').
  Proof.
    intros H0. eapply (wps_step _ s0); [done| |].
    - instantiate (1 := λ _ _, True). clear H0. revert xs s.
      induction fs as [|[t [sem|]] fs IH]; intros [|x xs] s; cbn [apply_fields]; try done.
      apply wps_bind, wps_apply, IH.
    - auto.
  Qed.

  Lemma produce_option_inv {X} (p : M (res X)) (sp : X → span) set (P : ast → X → Prop) s : st s →
    wps p s (λ r s', errs_in s s' (unres r).2 ∧
      match unres r with (Some x, _) => P s' x ∧ span_in s s' (sp x) | (None, e) => e = [] → a_rest s' = [] end) →
    wps (produce_option p sp set) s (λ r s', errs_in s s' (unres r).2 ∧
      match unres r with
      | (Some (sp', o), _) => span_in s s' sp' ∧ match o with Some x => sp' = sp x ∧ P s' x | None => True end
      | (None, _) => False
      end).
  Proof.
    intros Hst Hp. unfold produce_option. apply wps_bind, (wps_look s); [auto|].
    assert (Hnone : wps (e ← empty_span; mret (RSucc (e, @None X))) s (λ r s', errs_in s s' (unres r).2 ∧
      match unres r with
      | (Some (sp', o), _) => span_in s s' sp' ∧ match o with Some x => sp' = sp x ∧ P s' x | None => True end
      | (None, _) => False
      end)).
    { apply wps_bind, wps_empty_span, wps_ret. cbn. split_and!; [apply errs_nil| |done]. by apply (span_pos _ _ []), adv_refl. }
    destruct (look s) as [tk|]; [|done]. destruct (ts_contains set (Some tk)); [|done].
    apply wps_bind. eapply (wps_step _ s); [auto|exact Hp|]. intros r s1 H01 _ [He Hr].
    destruct r as [x|x es|es]; cbn [unres fst snd] in *.
    - apply wps_ret. cbn. destruct Hr. auto.
    - apply wps_ret. cbn. destruct Hr. auto.
    - apply wps_bind, wps_empty_span, wps_ret. cbn. split_and!; [done| |done].
      destruct H01 as [_ [l Hl]]. by apply (span_pos _ _ l).
  Qed.

  Lemma iter_loop_inv p n set s0 s acc errs hi z : invp p → reach s0 s → seq_in s0 s acc → errs_in s0 s errs →
    last acc = Some z → hi = tree_hi z →
    wps (iter_loop n p set acc errs hi) s (λ '(xs, es, hi') s', seq_in s0 s' xs ∧ errs_in s0 s' es ∧
      head xs = head acc ∧ ∃ z', last xs = Some z' ∧ hi' = tree_hi z').
  Proof.
    intros Hp. revert s acc errs hi z. induction n as [|n IH]; intros s acc errs hi z H0 Hacc He Hz Hhi; cbn [iter_loop]; [done|].
    apply wps_bind, (wps_look s0); [done|].
    destruct (look s) as [tk|]; [|apply wps_ret; eauto 10]. destruct (ts_contains set (Some tk)); [|apply wps_ret; eauto 10].
    apply wps_bind. eapply (wps_step _ s0); [done|apply Hp; eauto|]. intros r s1 H01 H1 [He1 Hr].
    destruct (unres r) as [[x|] e]; cbn [snd] in He1.
    - eapply wps_mono; [eapply (IH _ _ _ _ x)|].
      + done.
      + by eapply (seq_add _ s).
      + apply errs_app; [by eapply errs_to|by eapply errs_from].
      + by rewrite last_snoc.
      + done.
      + intros [[xs es] hi'] s2 (? & ? & Hh & ?). split_and!; try done. rewrite Hh. destruct acc; [done|]. done.
    - apply wps_ret. split_and!; eauto; [by eapply seq_to|]. apply errs_app; [by eapply errs_to|by eapply errs_from].
  Qed.

  Lemma tree_list s s' sp xs : span_in s s' sp → trees_in s s' xs → tree_in s s' (TrList sp xs).
  Proof. intros H1 H2. constructor; [|by apply trees_nodes]. split; [|done]. by destruct sp. Qed.

  Lemma produce_plus_inv p n set s : invp p → st s →
    wps (produce_plus n p set) s (λ r s', errs_in s s' (unres r).2 ∧
      match unres r with
      | (Some (sp, xs), _) => tree_in s s' (TrList sp xs)
      | (None, e) => e = [] → a_rest s' = []
      end).
  Proof.
    intros Hp Hst. unfold produce_plus. apply wps_bind. eapply (wps_step _ s); [auto|by apply Hp|].
    intros r s1 H01 _ [He Hr]. destruct (unres r) as [[x|] e]; cbn [snd] in He; [|by apply wps_ret].
    apply wps_bind. eapply wps_mono; [eapply (iter_loop_inv _ _ _ s _ _ _ _ x)|]; try done.
    { by apply seq_one. }
    intros [[xs es] hi] s2 (Hs & He2 & Hh & z & Hz & ->). apply wps_ret. rewrite unres_into. cbn [snd].
    split; [done|]. apply tree_list; [|apply Hs]. by eapply seq_span.
  Qed.

  (** Loop *)
  Lemma skip_loop_inv n set s hi lo : st s → bnd hi → lo ≤ hi → lo ≤ cur s →
    wps (skip_loop n set (look s) hi) s (λ '(tk, hi') s', tk = look s' ∧ bnd hi' ∧ lo ≤ hi').
  Proof.
    revert s hi. induction n as [|n IH]; intros s hi Hst Hb Hlo Hc; cbn [skip_loop]; [done|].
    destruct (look s) as [tk|] eqn:El; [|apply wps_ret; by rewrite El].
    destruct (ts_contains set (Some tk)); [apply wps_ret; by rewrite El|].
    apply wps_bind, wps_cur_span. apply wps_bind, wps_consume. apply wps_bind, (wps_look s); [auto|].
    destruct (bnd_span s Hst) as (B1 & B2 & B3). fold (cur s) in B3.
    apply IH; [by eapply (reach_st s); auto|done|lia|]. assert (H := reach_cur s (pop s)). 
    assert (reach s (pop s)) by auto. apply H in H0. lia.
  Qed.

  Lemma loop_loop_inv p n set s0 s acc errs : invp p → reach s0 s → seq_in s0 s acc → errs_in s0 s errs →
    wps (loop_loop n p set acc errs) s (λ '(xs, es) s', seq_in s0 s' xs ∧ errs_in s0 s' es).
  Proof.
    intros Hp. revert s acc errs. induction n as [|n IH]; intros s acc errs H0 Hacc He; cbn [loop_loop]; [done|].
    apply wps_bind, (wps_look s0); [done|].
    destruct (look s) as [tk|] eqn:El; [|by apply wps_ret].
    apply wps_bind. eapply (wps_step _ s0 s (λ '(tk1, es1) s1, errs_in s0 s1 es1)); [done| |].
    { destruct (ts_contains set (Some tk)); [by apply wps_ret|].
      apply wps_bind, wps_cur_span. apply wps_bind, wps_consume. apply wps_bind, (wps_look s0); [auto|].
      destruct (bnd_span s (reach_st _ _ H0)) as (B1 & B2 & B3).
      assert (Hss := start_span s (reach_st _ _ H0)).
      apply wps_bind. 
      assert (Hpop : reach s (pop s)) by eauto. assert (Hcp := reach_cur _ _ Hpop).
      eapply (wps_step _ s); [done|apply (skip_loop_inv _ _ _ _ (sp_lo (a_span s)))|]; try done; [eauto|].
      intros [tk1 hi] s1 H1 _ (_ & Hb & Hlo). apply wps_ret. apply errs_app.
      - by eapply errs_to.
      - apply errs_one. assert (Hc0 := reach_cur _ _ H0). assert (Hc1 := reach_cur _ _ H1). unfold cur in *.
        split; [split_and!; done|]. cbn. unfold cur. lia. }
    intros [tk1 es1] s1 H01 H1 He1. destruct tk1 as [tk1|].
    2: { apply wps_ret. split; [|done]. by eapply seq_to. }
    apply wps_bind, wps_cur_span. apply wps_bind. eapply (wps_step _ s0); [done|apply Hp; eauto|].
    intros r s2 H02 H2 [He2 Hr].
    destruct (unres r) as [o e]; cbn [snd] in He2.
    assert (Hs2 : seq_in s0 s2 (acc ++ option_list o)).
    { destruct o as [x|]; cbn [option_list].
      - eapply (seq_add _ s1); [done|done|by eapply seq_to|done].
      - rewrite app_nil_r. eapply (seq_to _ s); [done|done|]. by eapply reach_trans. }
    assert (He3 : errs_in s0 s2 (es1 ++ e)).
    { apply errs_app; [by eapply errs_to|by eapply errs_from]. }
    apply wps_bind, wps_cur_span. destruct (sp_lo (a_span s1) =? sp_lo (a_span s2)).
    - apply wps_ret. split; [done|]. apply errs_app; [done|]. eapply errs_here; [done|]. apply err_here; [eauto|done].
    - by apply IH.
  Qed.

  Lemma produce_loop_inv p n set s : invp p → st s →
    wps (produce_loop n p set) s (λ r s', errs_in s s' (unres r).2 ∧
      match unres r with (Some (sp, xs), _) => tree_in s s' (TrList sp xs) | (None, _) => False end).
  Proof.
    intros Hp Hst. unfold produce_loop. apply wps_bind.
    eapply (wps_step _ s); [auto|apply (loop_loop_inv _ _ _ s); [done|auto|apply seq_nil|apply errs_nil]|].
    intros [xs es] s1 H01 _ [Hs He].
    apply wps_bind. apply (wps_mono _ _ (λ sp s2, s2 = s1 ∧ span_in s s1 sp)).
    { assert (span_in s s1 (Span (pos s1) (pos s1))).
      { destruct H01 as [_ [l Hl]]. by apply (span_pos _ _ l). }
      destruct (head xs) as [a|] eqn:Ea; [|by apply wps_empty_span]. destruct (last xs) as [b|] eqn:Eb; [|by apply wps_empty_span].
      apply wps_ret. split; [done|]. by eapply seq_span. }
    intros sp s2 [-> Hsp]. apply wps_ret. rewrite unres_into. cbn [snd]. split; [done|]. apply tree_list; [done|apply Hs].
  Qed.

  (** Split *)
  Lemma split_inner_inv pT n ef pf fol panic errs s0 s : invp pT → reach s0 s →
    errs_in s0 s errs → errs_in s0 s (option_list panic) →
    wps (split_inner n pT ef pf fol panic errs) s (λ '(o, es, cont) s', errs_in s0 s' es ∧
      match o with Some x => tree_in s s' x | None => True end).
  Proof.
    intros HT. revert panic s. induction n as [|n IH]; intros panic s H0 He Hpn; cbn [split_inner]; [done|].
    apply wps_bind, (wps_look s0); [done|]. apply wps_bind.
    eapply (wps_step _ s0 s (λ step s1,
      match step with
      | inl (x, es) => errs_in s0 s1 es ∧ tree_in s s1 x
      | inr (tk', panic') => errs_in s0 s1 (option_list panic')
      end)); [done| |].
    { destruct (ts_contains ef (look s) || ts_contains_e ef) eqn:Eef.
      - apply wps_bind. eapply (wps_step _ s0); [done|apply HT; eauto|]. intros r s1 H01 H1 [He1 Hr].
        destruct (unres r) as [[x|] e]; cbn [snd] in He1.
        + apply wps_ret. split; [|done]. apply errs_app; [by eapply errs_to|].
          apply errs_app; [by eapply errs_from|by eapply errs_to].
        + apply wps_bind, (wps_look s0); [done|]. apply wps_ret. by eapply (merge_to _ s).
      - destruct panic as [q|].
        + apply wps_bind, wps_cur_span, wps_ret. by apply set_hi_to.
        + apply wps_bind, wps_expecting, wps_ret. eapply errs_here; [done|]. apply err_expecting; [eauto|].
          intros x Hx. apply orb_false_iff in Eef as [Eef _]. by rewrite Hx in Eef. }
    intros step s1 H01 H1 H. destruct step as [[x es]|[tk' panic']]; [by apply wps_ret|].
    assert (Hdone : errs_in s0 s1 (errs ++ option_list panic')).
    { apply errs_app; [by eapply errs_to|done]. }
    destruct (ts_contains pf tk'); [by apply wps_ret|].
    destruct (bool_decide (tk' = None) || ts_contains fol tk'); [by apply wps_ret|].
    apply wps_bind, wps_consume. 
    assert (Hpop : reach s1 (pop s1)) by eauto.
    eapply (wps_step _ s0); [by apply reach_pop|apply IH|]; [by apply reach_pop| | |].
    { eapply errs_to; [done|]. by eapply reach_trans. }
    { by eapply errs_to. }
    intros [[o es] cont] s2 H02 H2 [He2 Ho]. split; [done|]. destruct o as [x|]; [|done].
    eapply tree_from; [done| |done]. by eapply reach_trans.
  Qed.

  Lemma split_outer_inv pT pP n ef pf fol elems puncts errs s0 s : invp pT → invp pP → reach s0 s →
    seq_in s0 s elems → elems ≠ [] → trees_in s0 s puncts → errs_in s0 s errs → length elems = S (length puncts) →
    wps (split_outer n pT pP ef pf fol elems puncts errs) s (λ '(xs, qs, es) s',
      seq_in s0 s' xs ∧ trees_in s0 s' qs ∧ errs_in s0 s' es ∧ length xs = S (length qs) ∧ head xs = head elems).
  Proof.
    intros HT HP. revert s elems puncts errs. induction n as [|n IH]; intros s elems puncts errs H0 Hel Hne Hpu He Hlen;
      cbn [split_outer]; [done|].
    apply wps_bind, (wps_look s0); [done|].
    destruct (look s) as [tk|]; [|by apply wps_ret]. destruct (ts_contains pf (Some tk)); [|by apply wps_ret].
    apply wps_bind. eapply (wps_step _ s0); [done|apply HP; eauto|]. intros r s1 H01 H1 [He1 Hr].
    destruct (unres r) as [[q|] e]; cbn [snd] in He1.
    2: { apply wps_ret. split_and!; [by eapply seq_to|by eapply trees_to| |done|done].
      apply errs_app; [by eapply errs_to|by eapply errs_from]. }
    apply wps_bind. eapply (wps_step _ s0); [done|apply (split_inner_inv _ _ _ _ _ _ _ s0); [done|done| |done]|].
    { apply errs_app; [by eapply errs_to|by eapply errs_from]. }
    intros [[o es] cont] s2 H02 H2 [He2 Ho].
    assert (H12 : reach s s2) by (by eapply reach_trans).
    assert (Hel' : seq_in s0 s2 (elems ++ option_list o)).
    { destruct o as [x|]; cbn [option_list]; [|rewrite app_nil_r; by eapply seq_to].
      eapply (seq_add _ s1); [done|done|by eapply seq_to|done]. }
    assert (Hpu' : trees_in s0 s2 match o with Some _ => puncts ++ [q] | None => puncts end).
    { destruct o as [x|]; [|by eapply trees_to]. apply Forall_app. split; [by eapply trees_to|].
      apply Forall_singleton. eapply (tree_to _ s1); [|done..]. by eapply (tree_from _ s). }
    assert (Hlen' : length (elems ++ option_list o) = S (length match o with Some _ => puncts ++ [q] | None => puncts end)).
    { destruct o; rewrite !app_length; cbn; lia. }
    assert (Hhd : head (elems ++ option_list o) = head elems) by (by destruct elems).
    destruct cont; [|apply wps_ret; split_and!; done].
    eapply wps_mono; [apply IH; try done; by destruct elems|].
    intros [[xs qs] es'] s3 (? & ? & ? & ? & Hh). split_and!; try done. by rewrite Hh.
  Qed.

  Lemma tree_split s s' sp a b : span_in s s' sp → trees_in s s' a → trees_in s s' b → length a = S (length b) →
    tree_in s s' (TrSplit sp a b).
  Proof.
    intros H1 H2 H3 H4. constructor; [split; [by destruct sp|done]|]. apply Forall_app. split; by apply trees_nodes.
  Qed.
  Lemma produce_split_inv pT pP n ef pf fol : invp pT → invp pP → invp (produce_split n pT pP ef pf fol).
  Proof.
    intros HT HP s Hst. unfold produce_split. apply wps_bind. eapply (wps_step _ s); [auto|by apply HT|].
    intros r s1 H01 _ [He Hr]. destruct (unres r) as [[x|] e] eqn:Er; cbn [snd] in He; [|by apply wps_ret].
    apply wps_bind. eapply wps_mono; [apply (split_outer_inv _ _ _ _ _ _ _ _ _ s)|]; try done.
    { by apply seq_one. }
    { constructor. }
    intros [[xs qs] es] s2 (Hs & Hq & He2 & Hlen & Hh). apply wps_ret. unfold inv. rewrite unres_into. cbn [snd].
    split; [done|]. destruct (last xs) as [z|] eqn:Ez; [|apply last_None in Ez; by subst].
    apply tree_split; [by eapply seq_span|apply Hs|done|done].
  Qed.

  (** Punct *)
  Lemma punct_inner_inv pT n ef pf fol panic errs s0 s : invp pT → reach s0 s →
    errs_in s0 s errs → errs_in s0 s (option_list panic) →
    wps (punct_inner n pT ef pf fol panic errs) s (λ '(o, es, cont) s', errs_in s0 s' es ∧
      match o with Some x => tree_in s s' x | None => True end).
  Proof.
    intros HT. revert panic s. induction n as [|n IH]; intros panic s H0 He Hpn; cbn [punct_inner]; [done|].
    apply wps_bind, (wps_look s0); [done|].
    assert (errs_in s0 s (errs ++ option_list panic)) by (by apply errs_app).
    destruct (look s) as [tk|] eqn:El; [|by apply wps_ret].
    destruct (negb (ts_contains ef (Some tk)) && ts_contains fol (Some tk)) eqn:Efol; [by apply wps_ret|].
    apply wps_bind.
    eapply (wps_step _ s0 s (λ step s1,
      match step with
      | inl (x, es) => errs_in s0 s1 es ∧ tree_in s s1 x
      | inr panic' => errs_in s0 s1 (option_list panic')
      end)); [done| |].
    { destruct (ts_contains ef (Some tk)) eqn:Eef.
      - apply wps_bind. eapply (wps_step _ s0); [done|apply HT; eauto|]. intros r s1 H01 H1 [He1 Hr].
        destruct (unres r) as [[x|] e]; cbn [snd] in He1.
        + apply wps_ret. split; [|done]. apply errs_app; [by eapply errs_to|].
          apply errs_app; [by eapply errs_to|by eapply errs_from].
        + apply wps_ret. by eapply (merge_to _ s).
      - apply wps_bind, wps_cur_span, wps_ret. destruct panic as [q|].
        + by apply set_hi_to.
        + eapply errs_here; [done|]. apply err_expecting; [eauto|].
          intros x Hx. rewrite El in Hx. injection Hx as <-. rewrite union_minus_contains. cbn in Efol. by rewrite Efol, Eef. }
    intros step s1 H01 H1 H'. destruct step as [[x es]|panic']; [by apply wps_ret|].
    assert (Hdone : errs_in s0 s1 (errs ++ option_list panic')).
    { apply errs_app; [by eapply errs_to|done]. }
    apply wps_bind, (wps_look s0); [done|].
    destruct (ts_contains pf (look s1)); [by apply wps_ret|].
    destruct (bool_decide (look s1 = None) || ts_contains fol (look s1)); [by apply wps_ret|].
    apply wps_bind, wps_consume. 
    assert (Hpop : reach s1 (pop s1)) by eauto.
    eapply (wps_step _ s0); [by apply reach_pop|apply IH|]; [by apply reach_pop| | |].
    { eapply errs_to; [done|]. by eapply reach_trans. }
    { by eapply errs_to. }
    intros [[o es] cont] s2 H02 H2 [He2 Ho]. split; [done|]. destruct o as [x|]; [|done].
    eapply tree_from; [done| |done]. by eapply reach_trans.
  Qed.

  Lemma punct_outer_inv pT pP n ef pf fol elems puncts errs s0 s : invp pT → invp pP → reach s0 s →
    seq_in s0 s elems → elems ≠ [] → trees_in s0 s puncts → errs_in s0 s errs → length elems ≤ S (length puncts) →
    wps (punct_outer n pT pP ef pf fol elems puncts errs) s (λ '(xs, qs, es) s',
      seq_in s0 s' xs ∧ trees_in s0 s' qs ∧ errs_in s0 s' es ∧ length xs ≤ S (length qs) ∧ head xs = head elems).
  Proof.
    intros HT HP. revert s elems puncts errs. induction n as [|n IH]; intros s elems puncts errs H0 Hel Hne Hpu He Hlen;
      cbn [punct_outer]; [done|].
    apply wps_bind, (wps_look s0); [done|].
    destruct (look s) as [tk|]; [|by apply wps_ret]. destruct (ts_contains pf (Some tk)); [|by apply wps_ret].
    apply wps_bind. eapply (wps_step _ s0); [done|apply HP; eauto|]. intros r s1 H01 H1 [He1 Hr].
    destruct (unres r) as [[q|] e]; cbn [snd] in He1.
    2: { apply wps_ret. split_and!; [by eapply seq_to|by eapply trees_to| |done|done].
      apply errs_app; [by eapply errs_to|by eapply errs_from]. }
    apply wps_bind. eapply (wps_step _ s0); [done|apply (punct_inner_inv _ _ _ _ _ _ _ s0); [done|done| |done]|].
    { apply errs_app; [by eapply errs_to|by eapply errs_from]. }
    intros [[o es] cont] s2 H02 H2 [He2 Ho].
    assert (H12 : reach s s2) by (by eapply reach_trans).
    assert (Hel' : seq_in s0 s2 (elems ++ option_list o)).
    { destruct o as [x|]; cbn [option_list]; [|rewrite app_nil_r; by eapply seq_to].
      eapply (seq_add _ s1); [done|done|by eapply seq_to|done]. }
    assert (Hpu' : trees_in s0 s2 (puncts ++ [q])).
    { apply Forall_app. split; [by eapply trees_to|].
      apply Forall_singleton. eapply (tree_to _ s1); [|done..]. by eapply (tree_from _ s). }
    assert (Hlen' : length (elems ++ option_list o) ≤ S (length (puncts ++ [q]))).
    { destruct o; rewrite !app_length; cbn; lia. }
    assert (Hhd : head (elems ++ option_list o) = head elems) by (by destruct elems).
    destruct cont; [|apply wps_ret; split_and!; done].
    eapply wps_mono; [apply IH; try done; by destruct elems|].
    intros [[xs qs] es'] s3 (? & ? & ? & ? & Hh). split_and!; try done. by rewrite Hh.
  Qed.

  Lemma tree_punct s s' sp a b : span_in s s' sp → trees_in s s' a → trees_in s s' b → 1 ≤ length a → length a ≤ S (length b) →
    tree_in s s' (TrPunct sp a b).
  Proof.
    intros H1 H2 H3 H4 H5. constructor; [split; [by destruct sp|done]|]. apply Forall_app. split; by apply trees_nodes.
  Qed.
  Lemma produce_punct_inv pT pP n ef pf fol : invp pT → invp pP → invp (produce_punct n pT pP ef pf fol).
  Proof.
    intros HT HP s Hst. unfold produce_punct. apply wps_bind. eapply (wps_step _ s); [auto|by apply HT|].
    intros r s1 H01 _ [He Hr]. destruct (unres r) as [[x|] e] eqn:Er; cbn [snd] in He; [|by apply wps_ret].
    apply wps_bind. eapply wps_mono; [apply (punct_outer_inv _ _ _ _ _ _ _ _ _ s)|]; try done.
    { by apply seq_one. }
    { constructor. }
    intros [[xs qs] es] s2 (Hs & Hq & He2 & Hlen & Hh). apply wps_ret. unfold inv. rewrite unres_into. cbn [snd].
    split; [done|]. destruct (last xs) as [z|] eqn:Ez; [|apply last_None in Ez; by subst].
    assert (Hsp := seq_span _ _ _ _ _ Hs Hh Ez).
    apply tree_punct; [|apply Hs|done|destruct xs; [done|cbn; lia]|done].
    destruct (last qs) as [q|] eqn:Eq.
    - apply last_Some_elem_of in Eq. assert (Hqi := proj1 (Forall_forall _ _) Hq q Eq). apply tree_here in Hqi.
      destruct Hsp as (A1 & A2 & A3), Hqi as (B1 & B2 & B3). cbn in *. split_and!; [done| |].
      + cbn. by destruct (Nat.max_spec (tree_hi z) (tree_hi q)) as [[_ ->]|[_ ->]].
      + intros Hrest. cbn. specialize (A3 Hrest). specialize (B3 Hrest). lia.
    - destruct Hsp as (A1 & A2 & A3). cbn in *. split_and!; [done| |].
      + cbn. by destruct (Nat.max_spec (tree_hi z) (tree_lo x)) as [[_ ->]|[_ ->]].
      + intros Hrest. cbn. specialize (A3 Hrest). lia.
  Qed.

  (** Recover *)
  Lemma recover_loop_inv pR n tf panic errs s0 s : invp pR → reach s0 s →
    errs_in s0 s errs → errs_in s0 s (option_list panic) →
    wps (recover_loop n pR tf panic errs) s (λ '(o, panic', es) s',
      errs_in s0 s' es ∧ errs_in s0 s' (option_list panic') ∧
      match o with Some x => tree_in s s' x | None => a_rest s' = [] end).
  Proof.
    intros HR. revert panic s. induction n as [|n IH]; intros panic s H0 He Hpn; cbn [recover_loop]; [done|].
    apply wps_bind, (wps_look s0); [done|].
    destruct (look s) as [tk|] eqn:El.
    - apply wps_bind.
      eapply (wps_step _ s0 s (λ step s1,
        match step with
        | inl (x, es) => errs_in s0 s1 es ∧ errs_in s0 s1 (option_list panic) ∧ tree_in s s1 x
        | inr panic' => errs_in s0 s1 (option_list panic') ∧
            (panic' = None → ∀ x, look s1 = Some x → ts_contains tf (Some x) = false)
        end)); [done| |].
      { destruct (ts_contains tf (Some tk) || ts_contains_e tf) eqn:Etf.
        - apply wps_bind. eapply (wps_step _ s0); [done|apply HR; eauto|]. intros r s1 H01 H1 [He1 Hr].
          destruct (unres r) as [[x|] e]; cbn [snd] in He1.
          + apply wps_ret. split_and!; [|by eapply errs_to|done]. apply errs_app; [by eapply errs_to|by eapply errs_from].
          + apply wps_ret. split; [by eapply (merge_to _ s)|].
            intros Hm x Hx. unfold merge_panic in Hm. destruct (last e) eqn:Ee; [done|]. apply last_None in Ee.
            apply Hr in Ee. apply look_none in Ee. congruence.
        - apply wps_ret. split; [done|]. intros _ x Hx. rewrite El in Hx. injection Hx as <-. by apply orb_false_iff in Etf as [? _]. }
      intros step s1 H01 H1 H. destruct step as [[x es]|panic']; [by apply wps_ret|].
      destruct H as [Hp' Hn].
      apply wps_bind. apply (wps_mono _ _ (λ q s2, s2 = s1 ∧ errs_in s0 s1 [q])).
      { destruct panic' as [q|]; [apply wps_bind, wps_cur_span, wps_ret|apply wps_expecting].
        - split; [done|]. by apply set_hi_to.
        - split; [done|]. eapply errs_here; [done|]. apply err_expecting; [eauto|]. auto. }
      intros q s2 [-> Hq]. apply wps_bind, wps_consume.
      assert (Hpop : reach s1 (pop s1)) by eauto.
      eapply (wps_step _ s0); [by apply reach_pop|apply IH|]; [by apply reach_pop| | |].
      { eapply errs_to; [done|]. by eapply reach_trans. }
      { by eapply errs_to. }
      intros [[o panic2] es] s2 H02 H2 (He2 & Hp2 & Ho). split_and!; [done..|]. destruct o as [x|]; [|done].
      eapply tree_from; [done| |done]. by eapply reach_trans.
    - apply look_none in El. destruct (ts_contains_e tf) eqn:Etf; [|by apply wps_ret].
      apply wps_bind. eapply (wps_step _ s0); [done|apply HR; eauto|]. intros r s1 H01 H1 [He1 Hr].
      destruct (unres r) as [[x|] e]; cbn [snd] in He1; apply wps_ret.
      + split_and!; [|by eapply errs_to|done]. apply errs_app; [by eapply errs_to|by eapply errs_from].
      + split_and!; [by eapply errs_to|by eapply (merge_to _ s)|by eapply reach_rest].
  Qed.

  Lemma tree_recover s s1 s2 sp hd x : reach s s1 → reach s1 s2 → span_in s s1 sp →
    match hd with Some y => tree_in s s1 y | None => True end → tree_in s1 s2 x →
    tree_in s s2 (TrRecover sp hd x).
  Proof.
    intros H01 H12 Hsp Hhd Hx. constructor.
    - split; [|done]. destruct Hsp as (A1 & A2 & A3). destruct (tree_here _ _ _ Hx) as (B1 & B2 & B3). cbn in *.
      split_and!; [done..|]. intros Hr. cbn. destruct (B3 Hr) as (? & ? & ?).
      destruct A3 as (? & ? & ?); [intros E; apply Hr; by eapply reach_rest|]. lia.
    - apply Forall_app. split.
      + destruct hd as [y|]; [|constructor]. by eapply (tree_to _ s1).
      + by eapply (tree_from _ s1).
  Qed.
  Lemma produce_recover_inv pT pR n hf tf : invp pT → invp pR → invp (produce_recover n pT pR hf tf).
  Proof.
    intros HT HR s Hst. unfold produce_recover. apply wps_bind, (wps_look s); [auto|]. apply wps_bind.
    eapply (wps_step _ s s (λ '(panic, sp, hd, errs) s1, errs_in s s1 (option_list panic) ∧ errs_in s s1 errs ∧
      span_in s s1 sp ∧ match hd with Some y => tree_in s s1 y | None => True end)); [auto| |].
    { destruct (ts_contains hf (look s) || ts_contains_e hf) eqn:Ehf.
      - apply wps_bind. eapply (wps_step _ s); [auto|by apply HT|]. intros r s1 H01 _ [He Hr].
        destruct (unres r) as [[x|] e]; cbn [snd] in He.
        + apply wps_ret. split_and!; [apply errs_nil|done|by apply tree_here|done].
        + apply wps_bind, wps_empty_span, wps_ret. split_and!; [|apply errs_nil| |done].
          * destruct (last e) as [y|] eqn:Ee; [|apply errs_nil]. apply last_Some_elem_of in Ee.
            apply errs_one. by apply (proj1 (Forall_forall _ _) He).
          * destruct H01 as [_ [l Hl]]. by apply (span_pos _ _ l).
      - apply wps_bind, wps_expecting. apply wps_bind, wps_empty_span, wps_ret. split_and!; [|apply errs_nil| |done].
        + apply errs_one. apply err_expecting; [done|]. intros x Hx. apply orb_false_iff in Ehf as [Ehf _]. by rewrite Hx in Ehf.
        + by apply (span_pos _ _ []), adv_refl. }
    intros [[[panic sp] hd] errs] s1 H01 _ (Hp & He & Hsp & Hhd).
    apply wps_bind. eapply (wps_step _ s); [done|by apply (recover_loop_inv _ _ _ _ _ s)|].
    intros [[o panic'] es] s2 H02 H12 (He2 & Hp2 & Ho).
    assert (Hall' : errs_in s s2 (es ++ option_list panic')) by (by apply errs_app).
    destruct o as [x|]; apply wps_ret.
    - unfold inv. rewrite unres_into. split; [done|]. by eapply (tree_recover _ s1).
    - split; [done|]. cbn. done.
  Qed.

  (** * All types *)
  Lemma tree_text s s' x : reach s s' → tree_in s s' x →
    readable s' (tree_span x) ∧ ∃ str, span_get (tree_span x) (a_src s') = Some str ∧ span_get (tree_span x) src = Some str.
  Proof.
    intros H01 Hx. destruct (tree_here _ _ _ Hx) as (A1 & A2 & A3).
    destruct (reach_st _ _ H01) as [Hsrc Htoks]. rewrite Hsrc. split.
    - unfold readable, edge. rewrite Hsrc, Htoks. split; [|done]. unfold near. destruct (a_rest s') eqn:E; [by right|]. left. destruct A3 as (_ & _ & ?); done.
    - destruct (span_get (tree_span x) src) as [str|] eqn:E; [eauto|].
      destruct (span_get_spec (tree_span x) src) as (_ & _ & H). apply H in E as [_ E]. apply bnd_le in A1. lia.
  Qed.

  Lemma tok_in s t s' : span_in s s' (t_span t) → tree_in s s' (TrTok t).
  Proof. intros H. apply Forall_singleton. split; [|done]. by destruct t as [[lo hi] y]. Qed.
  Lemma span_pop s t r : st s → a_rest s = t :: r → span_in s (pop s) (t_span t).
  Proof.
    intros Hst E. destruct (pop_adv1 s t r E) as [Hl _].
    assert (Ht := rest_in _ _ _ Hst E). split_and!; [right; right; eauto..|]. intros _.
    rewrite (adv_pos _ _ _ Hl). change (end_pos (pos s) [t]) with (sp_hi (t_span t)).
    destruct (aok_pos _ (st_aok _ Hst)) as [H1 _].
    rewrite E in H1. cbn in H1. lia.
  Qed.

  Lemma produce_inv f t : filled env t → invp (produce f t).
  Proof.
    revert t. induction f as [|f IH]; intros t Hf s Hst; [done|].
    assert (Hsub : ∀ c, c ∈ subs env t → invp (produce f c)).
    { intros c Hc. apply IH. by eapply all_within_sub. }
    assert (Hok := st_aok _ Hst).
    destruct t as [n y lit|n|ts|t|t|t|t|t|t|t|t|t d|t d|t r]; cbn [ProduceModel.produce].
    - (* terminal *)
      apply wps_bind.
      assert (Hun : ∀ l, look s ≠ None → (∀ x, look s = Some (y, x) → l ≠ None ∧ l ≠ Some x) → errs_in s s [PErr (a_span s) (Expecting (fs_one y l))]).
      { intros l Hn Hl. apply errs_one, err_expecting; [done|]. intros [y' x] Hx. apply not_true_iff_false. rewrite fs_one_contains.
        intros [-> Hor]. destruct (Hl _ Hx). by destruct Hor. }
      assert (Heof : ∀ l, look s = None → errs_in s s [PErr (a_span s) (Expecting (fs_one y l))]).
      { intros l Hn. apply errs_one, err_expecting; [done|]. intros x Hx. congruence. }
      destruct lit as [lit|].
      + apply wps_parse_token_lit; [done|]. destruct (a_rest s) as [|t r] eqn:Er.
        * assert (Hn : look s = None) by (by apply look_none).
          destruct (ts_contains_e _); apply wps_ret.
          -- split; [by apply Heof|]. cbn. apply tok_in. destruct (bnd_span s Hst) as (?&?&?).
             split_and!; [done..|]. by rewrite Er.
          -- split; [apply errs_one, err_here; done|]. cbn. done.
        * assert (Hn : look s ≠ None) by (rewrite look_none, Er; done).
          destruct (decide (look s = Some (y, lit))) as [Hlk|Hlk].
          -- apply wps_ret. split; [apply errs_nil|]. cbn. apply tok_in. by eapply span_pop.
          -- assert (errs_in s s [PErr (a_span s) (Expecting (fs_one y (Some lit)))]).
             { apply Hun; [done|]. intros x Hx. split; [done|]. intros [= ->]. done. }
             destruct (ts_contains _ _); apply wps_ret; (split; [done|]); cbn; [|done].
             apply tok_in. by apply (span_pos _ _ []), adv_refl.
      + apply wps_parse_token. destruct (a_rest s) as [|t r] eqn:Er.
        { apply wps_ret. split; [apply Heof; by apply look_none|]. done. }
        case_decide as Hy; apply wps_ret.
        * split; [apply errs_nil|]. cbn. apply tok_in. by eapply span_pop.
        * split; [|done]. cbn. apply Hun; [rewrite look_none, Er; done|]. intros x Hx. exfalso.
          apply look_some in Hx as (t' & r' & E' & Hy'). rewrite Er in E'. injection E' as <- <-. done.
    - destruct (env !! n) as [[fs|vs]|] eqn:En; [| |done].
      + (* struct *)
        apply wps_bind. eapply (wps_step _ s); [auto|apply (produce_seq_inv _ _ s); [auto| |apply seq_nil|apply errs_nil]|].
        { intros c Hc. apply Hsub. cbn. by rewrite En. }
        intros r s1 H01 _ [He Hr]. destruct (unres r) as [[xs|] e]; cbn [snd] in He; [|by apply wps_ret].
        destruct Hr as [Hs Hlen]. apply wps_bind. eapply wps_mono; [by apply (apply_fields_inv _ _ s)|].
        intros ? s2 [H02 H12]. apply wps_ret. unfold inv. rewrite unres_into. cbn [snd]. split; [by eapply errs_to|].
        eapply (tree_to _ s1); [|done..]. apply tree_seq; [|done]. intros ->.
        apply all_within_here in Hf. cbn in Hf. rewrite En in Hf. cbn in Hf, Hlen. rewrite map_length in Hlen. by destruct fs.
      + (* enum *)
        apply wps_bind, (wps_look s); [auto|].
        destruct (_ ≫= _) as [[i [t' sem]]|] eqn:Ei.
        2: { apply wps_bind, wps_expecting, wps_ret. split; [|done]. cbn. apply errs_one, err_here; [done|].
          intros Hj. apply unlisted_here; [done|]. intros x Hx. apply not_true_iff_false. intros Hc.
          destruct (Hj n vs x En Hc) as (i & v & E1 & E2). rewrite Hx in Ei.
          change (key (TNamed n)) with (PNamed n) in Ei. rewrite E1 in Ei. cbn in Ei. by destruct (vs !! i). }
        assert (vs !! i = Some (t', sem)) as Hi.
        { destruct (jump (key (TNamed n)) (look s)) as [i'|]; [|done]. cbn in Ei.
          destruct (vs !! i') eqn:E; [|done]. cbn in Ei. injection Ei as -> ->. done. }
        assert (Ht' : t' ∈ subs env (TNamed n)).
        { cbn. rewrite En. cbn. apply elem_of_list_lookup_2 in Hi. 
          apply elem_of_list_In, (in_map fst), elem_of_list_In in Hi. done. }
        apply wps_bind. eapply (wps_step _ s); [auto|by apply (Hsub t')|].
        intros r s1 H01 _ [He Hr].
        assert (Hfin : ∀ s2, reach s1 s2 → inv s (res_map (TrVar i) r) s2).
        { intros s2 H12. unfold inv. rewrite unres_map. destruct (unres r) as [[x|] e]; cbn in *.
          - split; [by eapply errs_to|]. eapply (tree_to _ s1); [|done..]. constructor; [|done].
            split; [|done]. apply tree_here in Hr. done.
          - split; [by eapply errs_to|]. intros Ee. eapply reach_rest; [done|auto]. }
        destruct r as [x|x es|es], sem; try (apply wps_bind, wps_apply); apply wps_ret, Hfin; eauto.
    - (* tuple *)
      apply wps_bind. eapply (wps_step _ s); [auto|apply (produce_seq_inv _ _ s); [auto| |apply seq_nil|apply errs_nil]|].
      { intros c Hc. apply Hsub. done. }
      intros r s1 H01 _ [He Hr]. apply wps_ret. unfold inv. rewrite unres_map.
      destruct (unres r) as [[xs|] e]; cbn in *; [|done].
      destruct Hr as [Hs Hlen]. split; [done|]. apply tree_seq; [|done]. intros ->.
      apply all_within_here in Hf. cbn in Hf, Hlen. by destruct ts.
    - (* box *)
      apply Hsub; [cbn; set_solver|done].
    - (* option *)
      apply wps_bind. eapply wps_mono; [apply (produce_option_inv _ _ _ (λ s', tree_in s s')); [done|]|].
      { eapply wps_mono; [apply Hsub; [cbn; set_solver|done]|]. intros r s1 [He Hr]. split; [done|].
        destruct (unres r) as [[x|] e]; [|done]. split; [done|]. by apply tree_here. }
      intros r s1 [He Hr]. apply wps_ret. unfold inv. rewrite unres_map. 
      destruct (unres r) as [[[sp o]|] e]; cbn in *; [|done]. split; [done|]. destruct Hr as [Hsp Ho].
      constructor; [split; [by destruct sp|done]|]. destruct o as [x|]; [|constructor]. apply Ho.
    - (* exists *)
      apply wps_bind. eapply wps_mono; [apply (produce_option_inv _ _ _ (λ s', tree_in s s')); [done|]|].
      { eapply wps_mono; [apply Hsub; [cbn; set_solver|done]|]. intros r s1 [He Hr]. split; [done|].
        destruct (unres r) as [[x|] e]; [|done]. split; [done|]. by apply tree_here. }
      intros r s1 [He Hr]. apply wps_ret. unfold inv. rewrite unres_map. 
      destruct (unres r) as [[[sp o]|] e]; cbn in *; [|done]. split; [done|]. destruct Hr as [Hsp Ho].
      constructor; [split; [by destruct sp|done]|]. constructor.
    - (* quote *)
      apply wps_bind. eapply (wps_step _ s); [auto|apply Hsub; [cbn; set_solver|done]|]. intros r s1 H01 _ [He Hr].
      destruct r as [x|x es|es]; cbn [unres fst snd] in *; [| |by apply wps_ret].
      all: destruct (tree_text _ _ _ H01 Hr) as (Hnear & str & Hg1 & Hg2).
      all: apply wps_bind; eapply wps_get_src; [done..|]; apply wps_ret; (split; [done|]).
      all: apply Forall_singleton; (split; [exact (tree_here _ _ _ Hr)|done]).
    - (* parse *)
      apply wps_bind. eapply (wps_step _ s); [auto|apply Hsub; [cbn; set_solver|done]|]. intros r s1 H01 _ [He Hr].
      destruct r as [x|x es|es]; cbn [unres fst snd] in *; [| |by apply wps_ret].
      all: destruct (tree_text _ _ _ H01 Hr) as (Hnear & str & Hg1 & Hg2).
      all: apply wps_bind; eapply wps_get_src; [done..|]; apply wps_ret; (split; [done|]).
      all: apply Forall_singleton; (split; [exact (tree_here _ _ _ Hr)|done]).
    - (* plus *)
      apply wps_bind. eapply wps_mono; [apply produce_plus_inv; [apply Hsub; cbn; set_solver|done]|].
      intros r s1 [He Hr]. apply wps_ret. unfold inv. rewrite unres_map.
      destruct (unres r) as [[[sp o]|] e]; cbn in *; done.
    - (* star *)
      apply wps_bind. eapply wps_mono; [apply (produce_option_inv _ _ _ (λ s' x, tree_in s s' (TrList x.1 x.2))); [done|]|].
      { eapply wps_mono; [apply produce_plus_inv; [apply Hsub; cbn; set_solver|done]|]. intros r s1 [He Hr]. split; [done|].
        destruct (unres r) as [[[sp xs]|] e]; [|done]. split; [done|]. apply tree_here in Hr. by destruct sp. }
      intros r s1 [He Hr]. apply wps_ret. unfold inv. rewrite unres_map. 
      destruct (unres r) as [[[sp o]|] e]; cbn in *; [|done]. split; [done|]. destruct Hr as [Hsp Ho].
      destruct o as [[sp' xs]|]; [apply Ho|]. apply tree_list; [done|constructor].
    - (* loop *)
      apply wps_bind. eapply wps_mono; [apply produce_loop_inv; [apply Hsub; cbn; set_solver|done]|].
      intros r s1 [He Hr]. apply wps_ret. unfold inv. rewrite unres_map.
      destruct (unres r) as [[[sp o]|] e]; cbn in *; done.
    - apply produce_split_inv; [apply Hsub; cbn; set_solver..|done].
    - apply produce_punct_inv; [apply Hsub; cbn; set_solver..|done].
    - apply produce_recover_inv; [apply Hsub; cbn; set_solver..|done].
  Qed.
End inv.
