(** The nodes of produced trees and the errors. *)
From Coq Require Import String NArith.
From stdpp Require Import prelude list strings relations.
From Verif Require Import LexModel LexSpec LexFacts SynSetModel SynSetFacts TableModel StreamModel StreamSpec StreamFacts TypeModel TypeSpec TypeFacts CfgSpec MetaFacts ProduceModel ParseSpec ProgFacts FuelFacts TreeFacts SoundFacts LangFacts RunFacts InvFacts LookFacts MdFacts ParseFacts.
Local Open Scope nat_scope.
#[local] Arguments ts_contains : simpl never.
#[local] Arguments tb_get : simpl never.

Lemma interleave_evens {A} (l : list A) : interleave (evens l) (odds l) = l.
Proof.
  cut (∀ n (l : list A), length l ≤ n → interleave (evens l) (odds l) = l); [eauto|].
  clear l. induction n as [|n IH]; intros [|x [|y l]] Hn; try done; [cbn in Hn; lia..|].
  rewrite evens_cons, odds_cons, odds_cons, evens_cons. cbn [interleave].
  rewrite IH; [done|]. cbn in Hn. lia.
Qed.
Lemma elem_evens {A} (x : A) l : x ∈ evens l ∨ x ∈ odds l → x ∈ l.
Proof.
  revert x. cut (∀ n (l : list A), length l ≤ n → ∀ x, x ∈ evens l ∨ x ∈ odds l → x ∈ l); [intros H x; by eapply H|].
  clear l. induction n as [|n IH]; intros [|y l] Hn x.
  - done || (cbn; by intros [?%elem_of_nil|?%elem_of_nil]).
  - cbn in Hn; lia.
  - cbn; by intros [?%elem_of_nil|?%elem_of_nil].
  - rewrite evens_cons, odds_cons. intros [[->|H]%elem_of_cons|H]; [by left|right..]; apply IH; auto; cbn in Hn; lia.
Qed.

Section nodes.
  Variable env : denv.
  Variable src : string.
  Notation parses := (parses env src).
  Notation pseq := (pseq env src).

  Definition placed (p : nat) (t : ty) (l : list token) (y : tree) : Prop :=
    ∃ l1 l' l2 t', l = l1 ++ l' ++ l2 ∧ within env t t' ∧ parses (end_pos p l1) t' l' y.
  Definition placeds (p : nat) (ts : list ty) (l : list token) (y : tree) : Prop :=
    ∃ t l1 l' l2, t ∈ ts ∧ l = l1 ++ l' ++ l2 ∧ placed (end_pos p l1) t l' y.
  Lemma placed_here p t l x : parses p t l x → placed p t l x.
  Proof. intros H. exists [], l, [], t. rewrite app_nil_r. split_and!; [done|apply rtc_refl|done]. Qed.
  Lemma placed_sub p t c l y : c ∈ subs env t → placed p c l y → placed p t l y.
  Proof. intros Hc (l1 & l' & l2 & t' & -> & Hw & H). exists l1, l', l2, t'. split_and!; [done|by eapply rtc_l|done]. Qed.
  Lemma placeds_subs p t ts l y : Forall (λ c, c ∈ subs env t) ts → placeds p ts l y → placed p t l y.
  Proof.
    intros Hts (c & l1 & l' & l2 & Hc & -> & (m1 & m' & m2 & t' & -> & Hw & H)).
    rewrite Forall_forall in Hts. exists (l1 ++ m1), m', (m2 ++ l2), t'. split_and!.
    - by rewrite <- !(assoc_L (++)).
    - eapply rtc_l; [|exact Hw]. by apply Hts.
    - by rewrite end_pos_app.
  Qed.
  Lemma nodes_here x : nodes x = x :: tail (nodes x).
  Proof. by destruct x. Qed.

  Lemma alternate_subs t d n (b : bool) c : c ∈ alternate n t d ++ (if b then [d] else []) → c ∈ [t; d].
  Proof.
    intros [H|H]%elem_of_app; [|destruct b; set_solver].
    apply elem_of_cons in H as [->|H]; [set_solver|].
    induction n as [|n IH]; cbn in H; [by apply elem_of_nil in H|set_solver].
  Qed.

  Lemma parses_nodes p t l x : parses p t l x → ∀ y, y ∈ nodes x → placed p t l y.
  Proof.
    intros H. revert p t l x H.
    apply (parses_mut env src (λ p t l x _, ∀ y, y ∈ nodes x → placed p t l y)
      (λ p ts l xs _, ∀ y, y ∈ flat_map nodes xs → placeds p ts l y)).
    - intros p n y lit t H z Hz. cbn in Hz. apply elem_of_list_singleton in Hz as ->. apply placed_here. by constructor.
    - intros p n fs l xs En H IH y Hy. cbn [nodes] in Hy. apply elem_of_cons in Hy as [->|Hy].
      + apply placed_here. by econstructor.
      + eapply placeds_subs; [|by apply IH]. apply Forall_forall. intros c Hc. cbn. by rewrite En.
    - intros p n vs i t sem l x En Hi H IH y Hy. cbn [nodes] in Hy. apply elem_of_cons in Hy as [->|Hy].
      + apply placed_here. by econstructor.
      + eapply placed_sub; [|by apply IH]. cbn. rewrite En. cbn. apply elem_of_list_lookup_2 in Hi.
        apply elem_of_list_In, (in_map fst), elem_of_list_In in Hi. done.
    - intros p ts l xs H IH y Hy. cbn [nodes] in Hy. apply elem_of_cons in Hy as [->|Hy].
      + apply placed_here. by constructor.
      + eapply placeds_subs; [|by apply IH]. by apply Forall_forall.
    - intros p t l x H IH y Hy. eapply placed_sub; [|by apply IH]. cbn. set_solver.
    - intros p t y Hy. cbn in Hy. apply elem_of_list_singleton in Hy as ->. apply placed_here. constructor.
    - intros p t l x H IH y Hy. cbn [nodes] in Hy. apply elem_of_cons in Hy as [->|Hy].
      + apply placed_here. by constructor.
      + eapply placed_sub; [|by apply IH]. cbn. set_solver.
    - intros p t y Hy. cbn in Hy. apply elem_of_list_singleton in Hy as ->. apply placed_here. constructor.
    - intros p t l x H IH y Hy. cbn in Hy. apply elem_of_list_singleton in Hy as ->. apply placed_here. by econstructor.
    - intros p t l x s H IH Hs y Hy. cbn in Hy. apply elem_of_list_singleton in Hy as ->. apply placed_here. by constructor.
    - intros p t l x s H IH Hs y Hy. cbn in Hy. apply elem_of_list_singleton in Hy as ->. apply placed_here. by constructor.
    - intros p t n l xs H IH y Hy. cbn [nodes] in Hy. apply elem_of_cons in Hy as [->|Hy].
      + apply placed_here. by econstructor.
      + eapply placeds_subs; [|by apply IH]. apply Forall_replicate. cbn. set_solver.
    - intros p t y Hy. cbn in Hy. apply elem_of_list_singleton in Hy as ->. apply placed_here. constructor.
    - intros p t n l xs H IH y Hy. cbn [nodes] in Hy. apply elem_of_cons in Hy as [->|Hy].
      + apply placed_here. by econstructor.
      + eapply placeds_subs; [|by apply IH]. apply Forall_replicate. cbn. set_solver.
    - intros p t y Hy. cbn in Hy. apply elem_of_list_singleton in Hy as ->. apply placed_here. constructor.
    - intros p t n l xs H IH y Hy. cbn [nodes] in Hy. apply elem_of_cons in Hy as [->|Hy].
      + apply placed_here. by econstructor.
      + eapply placeds_subs; [|by apply IH]. apply Forall_replicate. cbn. set_solver.
    - intros p t d n l zs H IH y Hy. cbn [nodes] in Hy. apply elem_of_cons in Hy as [->|Hy].
      + apply placed_here. by econstructor.
      + eapply placeds_subs; [|apply IH].
        * apply Forall_forall. intros c Hc. apply (alternate_subs t d n false). by rewrite app_nil_r.
        * apply elem_of_list_In, in_flat_map. rewrite <- flat_map_app in Hy.
          apply elem_of_list_In, in_flat_map in Hy as (z & Hz & Hy). exists z. split; [|done].
          apply elem_of_list_In, elem_evens, elem_of_app, elem_of_list_In. done.
    - intros p t d n b l zs H IH y Hy. cbn [nodes] in Hy. apply elem_of_cons in Hy as [->|Hy].
      + apply placed_here. by econstructor.
      + eapply placeds_subs; [|apply IH].
        * apply Forall_forall. intros c Hc. by apply (alternate_subs t d n b).
        * apply elem_of_list_In, in_flat_map. rewrite <- flat_map_app in Hy.
          apply elem_of_list_In, in_flat_map in Hy as (z & Hz & Hy). exists z. split; [|done].
          apply elem_of_list_In, elem_evens, elem_of_app, elem_of_list_In. done.
    - intros p t r l x z H IH y Hy. cbn [nodes] in Hy. apply elem_of_cons in Hy as [->|Hy].
      + apply placed_here. by constructor.
      + eapply placeds_subs; [|apply IH]; [by apply Forall_forall|]. cbn. by rewrite app_nil_r.
    - intros p y Hy. by apply elem_of_nil in Hy.
    - intros p t ts l1 l2 x xs H1 IH1 H2 IH2 y Hy. cbn [flat_map] in Hy. apply elem_of_app in Hy as [Hy|Hy].
      + exists t, [], l1, l2. split_and!; [by left|done|]. by apply IH1.
      + apply IH2 in Hy as (c & m1 & m' & m2 & Hc & -> & H). exists c, (l1 ++ m1), m', m2.
        split_and!; [by right|by rewrite <- !(assoc_L (++))|]. by rewrite end_pos_app.
  Qed.

  Lemma pseq_in_order len p ts l xs : Forall (filled env) ts → spans_ok p len (map t_span l) → pseq p ts l xs → in_order xs.
  Proof.
    intros Hf Hs H. revert Hf Hs. induction H as [|p t ts l1 l2 x xs H1 H2 IH] using pseq_ind; intros Hf Hs; [by intros []|].
    apply Forall_cons in Hf as [Hf Hfs]. apply spans_ok_pos in Hs as [Hs1 Hs2].
    intros [|i] a b Ha Hb; cbn in Ha, Hb.
    - injection Ha as <-. destruct xs as [|y xs]; [done|]. injection Hb as <-.
      inversion H2 as [|? t2 ts2 la lb ? ? Hy Hys]; subst.
      apply Forall_cons in Hfs as [Hf2 _].
      destruct (parses_hull _ _ _ _ _ _ H1 Hf) as [_ ->]. destruct (parses_hull _ _ _ _ _ _ Hy Hf2) as [Hlo _].
      apply spans_ok_pos in Hs2 as [Hs2 _]. by apply (lo_spec_bounds len) in Hlo as [? _].
    - by eapply (IH Hfs Hs2 i).
  Qed.
  Lemma filled_subs t ts : filled env t → Forall (λ c, c ∈ subs env t) ts → Forall (filled env) ts.
  Proof. intros Hf H. eapply Forall_impl; [exact H|]. intros c Hc. by apply (all_within_sub _ _ _ _ Hf). Qed.
  Lemma parses_in_order len p t l x : filled env t → spans_ok p len (map t_span l) → parses p t l x → in_order (parts_of x).
  Proof.
    assert (Hone : ∀ y, in_order [y]) by (by intros y [|[|i]] a b).
    assert (Hnil : in_order []) by (by intros i).
    intros Hf Hs H. induction H as [|p n fs l xs En H| | |p t l x H IH| | | | | | | | | | | | | | ] using parses_ind; cbn [parts_of]; auto.
    - eapply (pseq_in_order len); [|exact Hs|exact H]. eapply filled_subs; [exact Hf|]. apply Forall_forall.
      intros c Hc. cbn. by rewrite En.
    - eapply (pseq_in_order len); [|exact Hs|eassumption]. eapply filled_subs; [exact Hf|]. by apply Forall_forall.
    - apply IH; [|done]. apply (all_within_sub _ _ _ _ Hf). cbn. set_solver.
    - eapply (pseq_in_order len); [|exact Hs|eassumption]. eapply filled_subs; [exact Hf|]. apply Forall_replicate. cbn. set_solver.
    - eapply (pseq_in_order len); [|exact Hs|eassumption]. eapply filled_subs; [exact Hf|]. apply Forall_replicate. cbn. set_solver.
    - eapply (pseq_in_order len); [|exact Hs|eassumption]. eapply filled_subs; [exact Hf|]. apply Forall_replicate. cbn. set_solver.
    - rewrite interleave_evens. eapply (pseq_in_order len); [|exact Hs|eassumption]. eapply filled_subs; [exact Hf|].
      apply Forall_forall. intros c Hc. apply (alternate_subs t d n false). by rewrite app_nil_r.
    - rewrite interleave_evens. eapply (pseq_in_order len); [|exact Hs|eassumption]. eapply filled_subs; [exact Hf|].
      apply Forall_forall. intros c Hc. by apply (alternate_subs t d n trailing).
    - eapply (pseq_in_order len); [|exact Hs|eassumption]. eapply filled_subs; [exact Hf|]. by apply Forall_forall.
  Qed.

  Lemma parses_solid p t l x : parses p t l x → solid env t → ∃ tk, head l = Some tk ∧ tree_lo x = sp_lo (t_span tk).
  Proof.
    assert (Happ : ∀ l1 l2 (y : tree) , (∃ tk, head l1 = Some tk ∧ tree_lo y = sp_lo (t_span tk)) →
      ∃ tk, head (l1 ++ l2) = Some tk ∧ tree_lo y = sp_lo (t_span tk)).
    { intros l1 l2 y (tk & H & ?). exists tk. by destruct l1. }
    intros H. revert p t l x H.
    apply (parses_mut env src (λ p t l x _, solid env t → ∃ tk, head l = Some tk ∧ tree_lo x = sp_lo (t_span tk))
      (λ p ts l xs _, ∀ t ts', ts = t :: ts' → solid env t → ∃ tk, head l = Some tk ∧ tree_lo (TrSeq xs) = sp_lo (t_span tk)));
      try (intros; match goal with Hs : solid _ _ |- _ => inversion Hs; subst end; done).
    - intros p n y lit t _ _. by exists t.
    - intros p n fs l xs En _ IH Hs. inversion Hs; simplify_eq. by eapply IH.
    - intros p n vs i t sem l x En Hi _ IH Hs. inversion Hs; simplify_eq. apply IH.
      apply elem_of_list_lookup_2 in Hi. match goal with H : ∀ v, _ → _ |- _ => by apply (H _ Hi) end.
    - intros p ts l xs _ IH Hs. inversion Hs; subst. by eapply IH.
    - intros p t l x _ IH Hs. inversion Hs; subst. auto.
    - intros p t l x s _ IH _ Hs. inversion Hs; subst. by apply IH.
    - intros p t l x s _ IH _ Hs. inversion Hs; subst. by apply IH.
    - intros p t n l xs _ IH Hs. inversion Hs; subst. by eapply (IH t).
    - intros p t d n l zs _ IH Hs. inversion Hs; subst. by eapply (IH t).
    - intros p t d n b l zs _ IH Hs. inversion Hs; subst. by eapply (IH t).
    - intros p t r l x y _ IH Hs. inversion Hs; subst. by eapply (IH t).
    - intros p t ts l1 l2 x xs _ IH _ _ t' ts' [= -> ->] Hs. exact (Happ l1 l2 x (IH Hs)).
  Qed.

  Lemma punct_counts p t l sp a b : parses p t l (TrPunct sp a b) → length a = length b ∨ length a = S (length b).
  Proof.
    remember (TrPunct sp a b) as x eqn:E. intros H.
    induction H using parses_ind; try done; [by auto|]. injection E as _ <- <-.
    clear. revert zs. cut (∀ n (zs : list tree), length zs ≤ n → length (evens zs) = length (odds zs) ∨ length (evens zs) = S (length (odds zs))); [eauto|].
    induction n as [|n IH]; intros [|z zs] Hn; cbn in Hn; try lia; [by left..|].
    rewrite evens_cons, odds_cons. cbn [length]. destruct (IH zs); lia.
  Qed.
End nodes.

Section runs.
  Variable extract : nat → bool.
  Variable env : denv.
  Variables (first follow : prod → tset) (jump : prod → option tok → option nat).
  Notation produce := (produce env first follow jump).
  Notation abs := (abs extract).
  Variables (f : nat) (t : ty) (s : pst) (r : res tree) (s' : pst).
  Hypotheses (Hok : state_ok s) (Hf : filled env t) (Hr : run extract (produce f t) s = ODone r s').

  Lemma node_facts x y : value r = Some x → y ∈ nodes x →
    node_in (p_src s) (all_tokens extract s) (abs s) (abs s') y.
  Proof.
    intros Hx Hy. destruct (produce_run_inv _ _ _ _ _ _ _ _ _ _ Hok Hf Hr) as [_ H].
    assert (Hx' : (unres r).1 = Some x) by done. destruct (unres r) as [o e]; cbn in Hx'; subst o.
    unfold tree_in in H. rewrite Forall_forall in H. by apply H.
  Qed.
  Lemma node_split x sp a b : value r = Some x → TrSplit sp a b ∈ nodes x → length a = S (length b).
  Proof. intros Hx Hy. by destruct (node_facts _ _ Hx Hy) as [_ H]. Qed.
  Lemma node_punct x sp a b : value r = Some x → TrPunct sp a b ∈ nodes x → 1 ≤ length a ∧ length a ≤ S (length b).
  Proof. intros Hx Hy. by destruct (node_facts _ _ Hx Hy) as [_ H]. Qed.
  Lemma node_quote x sp str : value r = Some x → TrQuote sp str ∈ nodes x → span_get sp (p_src s) = Some str.
  Proof. intros Hx Hy. by destruct (node_facts _ _ Hx Hy) as [_ H]. Qed.
  Lemma node_parse x sp str : value r = Some x → TrParse sp str ∈ nodes x → span_get sp (p_src s) = Some str.
  Proof. intros Hx Hy. by destruct (node_facts _ _ Hx Hy) as [_ H]. Qed.
  Lemma node_boundary x y : value r = Some x → y ∈ nodes x →
    boundary extract s (tree_lo y) ∧ boundary extract s (tree_hi y).
  Proof. intros Hx Hy. destruct (node_facts _ _ Hx Hy) as [(H1 & H2 & _) _]. split; [exact H1|exact H2]. Qed.
  Lemma node_ordered x y : value r = Some x → y ∈ nodes x → to_come extract s' ≠ [] →
    end_of (p_tokens s) ≤ tree_lo y ∧ tree_lo y ≤ tree_hi y ∧ tree_hi y ≤ end_of (p_tokens s').
  Proof. intros Hx Hy Hne. destruct (node_facts _ _ Hx Hy) as [(_ & _ & H) _]. by apply H. Qed.
  Lemma boundary_le n : boundary extract s n → n ≤ String.length (p_src s).
  Proof.
    intros H. destruct (abs_st extract s Hok) as [H1 _]. destruct H as [->|[->|(tk & Ht & H)]]; [lia..|].
    destruct (spans_ok_in _ _ _ (t_span tk) H1) as (_ & ? & ?); [|lia].
    apply elem_of_list_In, in_map, elem_of_list_In. done.
  Qed.
  Lemma error_facts e : e ∈ errors_of r → sp_lo (e_span e) ≤ sp_hi (e_span e) ∧
    boundary extract s (sp_lo (e_span e)) ∧ boundary extract s (sp_hi (e_span e)) ∧
    sp_hi (e_span e) ≤ String.length (p_src s) ∧ end_of (p_tokens s) ≤ sp_lo (e_span e).
  Proof.
    intros He. destruct (produce_run_inv _ _ _ _ _ _ _ _ _ _ Hok Hf Hr) as [H _].
    unfold errs_in in H. rewrite Forall_forall in H. destruct (H e He) as [(H1 & H2 & H3 & _) [H4 _]].
    split_and!; [done|by eapply start_bnd|done|by apply boundary_le|].
    destruct (abs_st extract s Hok) as [H5 H6].
    assert (H7 := pos_cur _ _ H5 (abs s) H6). change (pos (abs s)) with (end_of (p_tokens s)) in H7. lia.
  Qed.
  Lemma error_starts e : e ∈ errors_of r → sp_lo (e_span e) = String.length (p_src s) ∨
    ∃ tk, tk ∈ to_come extract s ∧ sp_lo (e_span e) = sp_lo (t_span tk).
  Proof.
    intros He. destruct (error_facts e He) as (_ & _ & _ & _ & H5).
    destruct (produce_run_inv _ _ _ _ _ _ _ _ _ _ Hok Hf Hr) as [H _].
    unfold errs_in in H. rewrite Forall_forall in H. destruct (H e He) as [(_ & H2 & _) _].
    destruct H2 as [H2|(tk & Htk & H2)]; [by left|]. right. exists tk. split; [|done].
    apply elem_of_app in Htk as [Htk|Htk]; [exfalso|done].
    assert (Ha := state_ok_abs extract s Hok). rewrite aok_eq, map_app in Ha. apply spans_ok_app in Ha as [Ha _].
    apply elem_of_list_split in Htk as (l1 & l2 & Htk).
    change (toks (abs s)) with (consumed s) in Ha. rewrite Htk in Ha.
    assert (Hend : end_of (p_tokens s) = end_pos 0 (l1 ++ [tk] ++ l2)).
    { change (l1 ++ [tk] ++ l2) with (l1 ++ tk :: l2). rewrite <- Htk. exact (pos_toks (abs s)). }
    rewrite !end_pos_app in Hend. apply spans_ok_pos in Ha as [_ Ha]. cbn in Ha. destruct Ha as (_ & Ha1 & Ha2).
    destruct (end_pos_ge _ _ _ Ha2) as [Ha3 _]. change (end_pos (end_pos 0 l1) [tk]) with (sp_hi (t_span tk)) in Hend. lia.
  Qed.
  Lemma error_unlisted e set tk x : jumps_ok env first jump → e ∈ errors_of r → e_kind e = Expecting set →
    tk ∈ all_tokens extract s → sp_lo (t_span tk) = sp_lo (e_span e) → text_of (p_src s) tk = Some x →
    ts_contains set (Some (t_ty tk, x)) = false.
  Proof.
    intros Hj He Hk Ht Hlo Hx. destruct (produce_run_inv _ _ _ _ _ _ _ _ _ _ Hok Hf Hr) as [H _].
    unfold errs_in in H. rewrite Forall_forall in H. destruct (H e He) as [(_ & _ & _ & H4) _].
    rewrite Hk in H4. cbn in H4. by apply (H4 Hj tk x).
  Qed.
  Lemma error_kind e : e ∈ errors_of r → e_kind e ≠ UnexpectedCharacters.
  Proof.
    intros He Hk. destruct (produce_run_inv _ _ _ _ _ _ _ _ _ _ Hok Hf Hr) as [H _].
    unfold errs_in in H. rewrite Forall_forall in H. destruct (H e He) as [(_ & _ & _ & H4) _]. by rewrite Hk in H4.
  Qed.
End runs.

(** Error free trees. *)
Lemma clean_nodes extract env first follow jump f t s x s' l y : state_ok s → filled env t → no_recover env t →
  run extract (produce env first follow jump f t) s = ODone (RSucc x) s' → took extract s l s' → y ∈ nodes x →
  ∃ l1 l' l2 t', l = l1 ++ l' ++ l2 ∧ within env t t' ∧
    let p := end_pos (end_of (p_tokens s)) l1 in
    parses env (p_src s) p t' l' y ∧
    tree_hi y = end_pos p l' ∧
    (tree_lo y = p ∨ ∃ tk, head l' = Some tk ∧ tree_lo y = sp_lo (t_span tk)) ∧
    (solid env t' → ∃ tk, head l' = Some tk ∧ tree_lo y = sp_lo (t_span tk)) ∧
    tree_lo y ≤ tree_hi y ∧ tree_hi y ≤ String.length (p_src s) ∧ in_order (parts_of y).
Proof.
  intros Hok Hf Hn Hr Hl Hy. destruct (produce_run_sound0 _ _ _ _ _ _ _ _ _ _ Hok Hf Hn Hr) as (l0 & Hl0 & Hp).
  apply took_adv in Hl, Hl0. assert (l0 = l) as -> by (by eapply adv_inj).
  assert (Hs : spans_ok (end_of (p_tokens s)) (String.length (p_src s)) (map t_span l)).
  { apply (adv_spans (StreamFacts.abs extract s) l (StreamFacts.abs extract s')); [by apply state_ok_abs|done]. }
  destruct (parses_nodes _ _ _ _ _ _ Hp y Hy) as (l1 & l' & l2 & t' & -> & Hw & H).
  exists l1, l', l2, t'. split_and!; [done..|]. cbn zeta.
  assert (Hf' : filled env t') by (intros t2 H2; apply Hf; by eapply rtc_transitive).
  apply spans_ok_pos in Hs as [_ Hs]. apply spans_ok_pos in Hs as [Hs _].
  destruct (parses_hull _ _ _ _ _ _ H Hf') as [H1 H2].
  destruct (lo_spec_bounds _ _ _ _ Hs H1) as [H3 H4]. destruct (end_pos_ge _ _ _ Hs) as [_ H5].
  split_and!; try done; [|lia|lia|].
  - intros Hso. by eapply parses_solid.
  - by eapply parses_in_order.
Qed.
Lemma clean_punct extract env first follow jump f t s x s' sp a b : state_ok s → filled env t → no_recover env t →
  run extract (produce env first follow jump f t) s = ODone (RSucc x) s' → TrPunct sp a b ∈ nodes x →
  1 ≤ length a ∧ (length b = length a ∨ length b = length a - 1).
Proof.
  intros Hok Hf Hn Hr Hy. destruct (produce_run_sound0 _ _ _ _ _ _ _ _ _ _ Hok Hf Hn Hr) as (l0 & Hl0 & Hp).
  destruct (parses_nodes _ _ _ _ _ _ Hp _ Hy) as (l1 & l' & l2 & t' & -> & Hw & H).
  apply punct_counts in H.
  destruct (node_punct _ _ _ _ _ _ _ _ _ _ Hok Hf Hr x sp a b eq_refl Hy). lia.
Qed.

(** Unrecognised text lies in the source. *)
Lemma bad_text_spans len from evs sp : spans_ok from len (map raw_span evs) → sp ∈ bad_text evs →
  sp_lo sp < sp_hi sp ∧ sp_hi sp ≤ len.
Proof.
  intros H Hin. assert (H' := lexer_spans_gen from len [] evs H).
  destruct (spans_ok_in _ _ _ sp H') as (_ & ? & ?); [|done].
  unfold bad_text in Hin. apply elem_of_list_omap in Hin as ([es tk] & Hb & Hh). cbn in Hh.
  unfold out_spans. apply elem_of_list_In, in_flat_map. exists (hull es, tk). split.
  - apply in_map_iff. exists (es, tk). split; [done|]. by apply elem_of_list_In.
  - rewrite Hh. cbn. by left.
Qed.
Lemma run_bad_text {A} extract (m : M A) s a s' bad sp : state_ok s → run extract m s = ODone a s' →
  p_invalid s' = p_invalid s ++ bad → sp ∈ bad → sp_lo sp < sp_hi sp ∧ sp_hi sp ≤ String.length (p_src s).
Proof.
  intros Hok Hr Hb Hin. assert (H := cv_invalid _ _ _ (run_conserves _ _ _ _ _ Hr)).
  rewrite Hb, <- (assoc_L (++)) in H. apply app_inv_head in H.
  unfold state_ok in Hok. apply spans_ok_app in Hok as [_ Hok]. apply spans_ok_app in Hok as [_ Hok].
  eapply bad_text_spans; [exact Hok|]. change (sp ∈ invalids (p_evs s)). rewrite <- H. set_solver.
Qed.
Lemma parse_error_spans extract env t md f s o s' : filled env t → state_ok s →
  run extract (parse env f t (inr md)) s = ODone o s' →
  ∃ es, p_errors s' = p_errors s ++ es ∧
    ∀ e, e ∈ es → sp_lo (e_span e) ≤ sp_hi (e_span e) ∧ sp_hi (e_span e) ≤ String.length (p_src s).
Proof.
  intros Hf Hok (x & -> & H)%parse_run.
  destruct (parse_with_run _ _ _ _ _ _ _ _ _ _ H) as (r & s1 & H1 & -> & Hs & He & Habs).
  destruct (produce_run_errors _ _ _ _ _ _ _ _ _ _ H1) as (bad & Hb1 & Hb2).
  exists (map (λ sp, PErr sp UnexpectedCharacters) bad ++ (unres r).2). split.
  { by rewrite He, Hb2, (assoc_L (++)). }
  intros e [He'|He']%elem_of_app.
  - apply elem_of_list_fmap in He' as (sp & -> & Hsp). cbn.
    destruct (run_bad_text _ _ _ _ _ _ sp Hok H1 Hb1 Hsp). lia.
  - destruct (error_facts _ _ _ _ _ _ _ _ _ _ Hok Hf H1 e He') as (? & _ & _ & ? & _). done.
Qed.
Lemma accepted_unlisted extract env root md f t s r s' e set tk x : accepted env root md → filled env t →
  state_ok s → run extract (produce_md env md f t) s = ODone r s' → e ∈ errors_of r → e_kind e = Expecting set →
  tk ∈ all_tokens extract s → sp_lo (t_span tk) = sp_lo (e_span e) → text_of (p_src s) tk = Some x →
  ts_contains set (Some (t_ty tk, x)) = false.
Proof.
  intros (regs & iter & Hr & Hp & Hm) Hf Hok Hrun. eapply error_unlisted; [done..|].
  eapply md_jumps_ok; done.
Qed.
