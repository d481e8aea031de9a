(** Facts about registration. *)
From Coq Require Import String NArith.
From stdpp Require Import prelude list strings relations.
From Verif Require Import SynSetModel TableModel TypeModel CfgSpec CfgFacts TypeSpec.
Local Open Scope nat_scope.

Lemma ty_ind' (P : ty → Prop) :
  (∀ n y l, P (TTok n y l)) → (∀ n, P (TNamed n)) → (∀ l, Forall P l → P (TTuple l)) →
  (∀ t, P t → P (TBox t)) → (∀ t, P t → P (TOpt t)) → (∀ t, P t → P (TExists t)) →
  (∀ t, P t → P (TQuote t)) → (∀ t, P t → P (TParse t)) → (∀ t, P t → P (TPlus t)) →
  (∀ t, P t → P (TStar t)) → (∀ t, P t → P (TLoop t)) →
  (∀ t p, P t → P p → P (TSplit t p)) → (∀ t p, P t → P p → P (TPunct t p)) →
  (∀ t p, P t → P p → P (TRecover t p)) → ∀ t, P t.
Proof.
  intros H1 H2 H3 H4 H5 H6 H7 H8 H9 H10 H11 H12 H13 H14. fix IH 1.
  intros [n y l|n|l|t|t|t|t|t|t|t|t|t p|t p|t p].
  3: { apply H3. induction l as [|x l IHl]; constructor; [apply IH|exact IHl]. }
  - apply H1.
  - apply H2.
  - apply H4, IH.
  - apply H5, IH.
  - apply H6, IH.
  - apply H7, IH.
  - apply H8, IH.
  - apply H9, IH.
  - apply H10, IH.
  - apply H11, IH.
  - apply H12; apply IH.
  - apply H13; apply IH.
  - apply H14; apply IH.
Qed.

Lemma pid_pid p : pid (pid p) = pid p.
Proof. induction p; done. Qed.
Lemma pid_not_box p q : pid p ≠ PBox q.
Proof. induction p; done. Qed.

Section facts.
  Variable env : denv.

  Lemma entry_kids k e : entry_of env k = Some e → ∃ ks, kids env k = Some ks ∧ comps e = map pid ks.
  Proof.
    destruct k; cbn; try (intros [= <-]; eexists; split; done).
    destruct (env !! n) as [[l|l]|]; cbn; intros [= <-]; eauto.
  Qed.
  Lemma kids_entry k ks : kids env k = Some ks → ∃ e, entry_of env k = Some e ∧ comps e = map pid ks.
  Proof.
    destruct k; cbn; try (intros [= <-]; eexists; split; done).
    destruct (env !! n) as [[l|l]|]; cbn; intros [= <-]; eauto.
  Qed.

  Notation regs_t := (list (prod * entry prod)).

  (** What a finished registration has done. *)
  Record reg_done (ps : list prod) (regs regs' : regs_t) : Prop := {
    rg_grow : ∃ new, regs' = regs ++ new ∧
      ∀ k e, (k, e) ∈ new → entry_of env k = Some e ∧
        (∃ p, p ∈ ps ∧ visible env (pid p) k) ∧
        (∀ q, component env k q → q ∈ regs'.*1);
    rg_here : ∀ p, p ∈ ps → pid p ∈ regs'.*1;
    rg_nodup : NoDup regs.*1 → NoDup regs'.*1 }.

  Lemma reg_all_done rec ps regs regs' :
    (∀ p r r', p ∈ ps → rec p r = Some r' → reg_done [p] r r') →
    reg_all rec ps regs = Some regs' → reg_done ps regs regs'.
  Proof.
    revert regs. induction ps as [|p ps IH]; intros regs Hrec; cbn.
    - intros [= <-]. constructor; [|by intros ? ?%elem_of_nil|done].
      exists []. rewrite app_nil_r. split; [done|]. by intros ? ? ?%elem_of_nil.
    - destruct (rec p regs) as [r1|] eqn:E; cbn; [|done]. intros H.
      apply Hrec in E; [|set_solver]. apply IH in H; [|intros; apply Hrec; set_solver].
      destruct E as [(n1 & -> & E1) E2 E3], H as [(n2 & -> & H1) H2 H3].
      constructor.
      + exists (n1 ++ n2). split; [by rewrite (assoc_L (++))|]. intros k e [Hk|Hk]%elem_of_app.
        * destruct (E1 _ _ Hk) as (A & (q & Hq & Hv) & B). split; [done|]. split; [set_solver|].
          intros q' Hq'. apply B in Hq'. rewrite fmap_app. set_solver.
        * destruct (H1 _ _ Hk) as (A & (q & Hq & Hv) & B). split; [done|]. split; [set_solver|].
          intros q' Hq'. apply B in Hq'. done.
      + intros q [->|Hq]%elem_of_cons; [|auto]. rewrite fmap_app. apply elem_of_app. left.
        apply E2. set_solver.
      + auto.
  Qed.

  Lemma register_done f p regs regs' : register env f p regs = Some regs' → reg_done [p] regs regs'.
  Proof.
    revert p regs regs'. induction f as [|f IH]; intros p regs regs'; cbn; [done|].
    case_decide as Hin.
    - intros [= <-]. constructor; [|set_solver|done].
      exists []. rewrite app_nil_r. split; [done|]. by intros ? ? ?%elem_of_nil.
    - destruct (entry_of env (pid p)) as [e|] eqn:He; cbn; [|done].
      destruct (kids env (pid p)) as [ks|] eqn:Hk; cbn; [|done].
      intros H. apply reg_all_done in H; [|intros ? ? ? _; apply IH].
      destruct H as [(n & -> & H1) H2 H3].
      assert (Hp : pid p ∈ ((regs ++ [(pid p, e)]) ++ n).*1).
      { rewrite !fmap_app. cbn. set_solver. }
      constructor.
      + exists ((pid p, e) :: n). split; [by rewrite <- (assoc_L (++))|].
        intros k e' [[= -> ->]|Hin']%elem_of_cons.
        * split; [done|]. split; [exists p; split; [set_solver|apply rtc_refl]|].
          intros q (ks' & x & Hks & Hx & ->). assert (ks' = ks) as -> by congruence. auto.
        * destruct (H1 _ _ Hin') as (A & (x & Hx & Hv) & B). split; [done|]. split; [|done].
          exists p. split; [set_solver|]. eapply rtc_l; [|exact Hv]. exists ks, x. auto.
      + intros q ->%elem_of_list_singleton. done.
      + intros Hnd. apply H3. rewrite fmap_app. cbn. apply NoDup_app. split; [done|].
        split; [|by apply NoDup_singleton]. intros x Hx ->%elem_of_list_singleton. done.
  Qed.

  Lemma register_root_spec p regs : register_root env p = Some regs →
    NoDup regs.*1 ∧
    ∀ k e, (k, e) ∈ regs ↔ visible env (pid p) k ∧ entry_of env k = Some e.
  Proof.
    intros [(n & Hn & H1) H2 H3]%register_done. cbn in Hn. subst n.
    split; [apply H3; constructor|]. intros k e. split.
    - intros (A & (q & ->%elem_of_list_singleton & Hv) & _)%H1. done.
    - intros [Hv He].
      assert (Hk : k ∈ regs.*1).
      { assert (Hp : pid p ∈ regs.*1) by (apply H2; set_solver).
        clear He. revert Hp. induction Hv as [|a b c Hab Hv IH]; [done|].
        intros [[a' ea] [-> Ha]]%elem_of_list_fmap. apply IH.
        destruct (H1 _ _ Ha) as (_ & _ & B). by apply B. }
      apply elem_of_list_fmap in Hk as [[k' e'] [Heq Hk]]. cbn in Heq. subst k'.
      destruct (H1 _ _ Hk) as (A & _ & _). congruence.
  Qed.

  (** Termination *)
  Section term.
    Variable U : list prod.
    Hypothesis HU : ∀ k, k ∈ U → ∃ ks, kids env k = Some ks ∧ ∀ x, x ∈ ks → pid x ∈ U.

    Lemma register_total f p (regs : regs_t) : pid p ∈ U → NoDup regs.*1 → regs.*1 ⊆ U →
      length U < f + length regs → ∃ regs', register env f p regs = Some regs' ∧ regs'.*1 ⊆ U ∧
        length regs ≤ length regs'.
    Proof.
      revert p regs. induction f as [|f IH]; intros p regs Hp Hnd Hsub Hlen.
      { assert (length regs.*1 ≤ length U).
        { apply submseteq_length. by apply NoDup_submseteq. }
        rewrite fmap_length in *. lia. }
      cbn. case_decide as Hin; [eauto|].
      destruct (HU _ Hp) as (ks & Hks & Hkin). destruct (kids_entry _ _ Hks) as (e & He & _).
      rewrite He, Hks. cbn.
      assert (Hnd1 : NoDup (regs ++ [(pid p, e)]).*1).
      { rewrite fmap_app. cbn. apply NoDup_app. split; [done|].
        split; [|by apply NoDup_singleton]. intros x Hx ->%elem_of_list_singleton. done. }
      assert (Hsub1 : (regs ++ [(pid p, e)]).*1 ⊆ U).
      { rewrite fmap_app. cbn. intros x [?| ->%elem_of_list_singleton]%elem_of_app; auto. }
      assert (Hlen1 : length U < f + length (regs ++ [(pid p, e)])).
      { rewrite app_length. cbn. lia. }
      assert (length regs ≤ length (regs ++ [(pid p, e)])) as Hle by (rewrite app_length; cbn; lia).
      revert Hnd1 Hsub1 Hlen1 Hle. generalize (regs ++ [(pid p, e)]) as r. clear He Hks.
      induction ks as [|x ks IHk]; intros r Hnd1 Hsub1 Hlen1 Hle; cbn; [eauto|].
      destruct (IH x r) as (r1 & Hr1 & Hs1 & Hl1); [set_solver|done|done|lia|]. rewrite Hr1. cbn.
      apply IHk; try done.
      - set_solver.
      - by eapply (rg_nodup _ _ _ (register_done _ _ _ _ Hr1)).
      - lia.
      - lia.
    Qed.
  End term.

  (** More fuel changes nothing. *)
  Lemma register_fuel f f' p regs regs' : f ≤ f' →
    register env f p regs = Some regs' → register env f' p regs = Some regs'.
  Proof.
    revert f' p regs regs'. induction f as [|f IH]; intros [|f'] p regs regs' Hf; cbn; try done; [lia|].
    case_decide; [done|].
    destruct (entry_of env (pid p)) as [e|]; cbn; [|done].
    destruct (kids env (pid p)) as [ks|]; cbn; [|done].
    generalize (regs ++ [(pid p, e)]) as r. induction ks as [|x ks IHk]; intros r; cbn; [done|].
    destruct (register env f x r) as [r1|] eqn:E; cbn; [|done].
    rewrite (IH f' x r r1) by (done || lia). cbn. apply IHk.
  Qed.

  (** The parts of declared productions are closed. *)
  Fixpoint prod_declared (n : nat) (p : prod) : Prop :=
    match p with
    | PTok _ _ _ | PEps => True
    | PNamed i => i < n
    | PTuple l => Forall id (map (prod_declared n) l)
    | POpt p | POneMore p | PBox p => prod_declared n p
    | PPunct p q => prod_declared n p ∧ prod_declared n q
    end.

  Lemma ty_prod_declared n t : ty_declared n t → prod_declared n (prod_of t).
  Proof.
    induction t as [| |l IH| | | | | | | | |t p IH1 IH2|t p IH1 IH2|t p IH1 IH2] using ty_ind';
      cbn; try (by auto); try (intros [? ?]; repeat constructor; cbn; auto).
    - rewrite map_map. induction IH as [|x l Hx Hl IHl]; cbn; [constructor|].
      intros [H1 H2]. constructor; cbn; auto.
  Qed.

  Lemma parts_pid p : pid p ∈ parts p.
  Proof. induction p; cbn; set_solver. Qed.
  Lemma parts_of_pid p : parts (pid p) = parts p.
  Proof. induction p; done. Qed.

  Lemma parts_kids p k : prod_declared (length env) p → k ∈ parts p → ∃ ks, kids env k = Some ks ∧
    ∀ x, x ∈ ks → pid x ∈ parts p ∨
      ∃ n d, k = PNamed n ∧ env !! n = Some d ∧ x ∈ field_prods (decl_fields d).
  Proof.
    induction p as [n y l|n|l IH|p IH|p IH|p q IH1 IH2| |p IH] using prod_rect'; cbn [parts].
    - intros _ ->%elem_of_list_singleton. cbn. eexists. split; [done|]. set_solver.
    - intros Hn ->%elem_of_list_singleton. apply lookup_lt_is_Some_2 in Hn as [d Hd].
      exists (field_prods (decl_fields d)). cbn [kids]. rewrite Hd. split; [done|].
      intros x Hx. right. eauto.
    - intros Hd [->|Hin]%elem_of_cons.
      + cbn. eexists. split; [done|]. intros x Hx. left. apply elem_of_cons. right.
        apply elem_of_list_In, in_flat_map. exists x. split; [by apply elem_of_list_In|].
        apply elem_of_list_In, parts_pid.
      + apply elem_of_list_In, in_flat_map in Hin as (x & Hx & Hin).
        apply elem_of_list_In in Hx, Hin. cbn in Hd. rewrite Forall_map in Hd.
        rewrite Forall_forall in IH, Hd.
        destruct (IH x Hx (Hd x Hx) Hin) as (ks & Hks & Hc). exists ks. split; [done|].
        intros x' Hx'. destruct (Hc x' Hx') as [Hl|?]; [|auto]. left.
        apply elem_of_cons. right. apply elem_of_list_In, in_flat_map. exists x.
        split; by apply elem_of_list_In.
    - cbn. intros Hd [->|[->|Hin]%elem_of_cons]%elem_of_cons.
      + cbn. eexists. split; [done|]. intros x Hx. left.
        assert (Hpp := parts_pid p). set_solver.
      + cbn. eexists. split; [done|]. set_solver.
      + destruct (IH Hd Hin) as (ks & Hks & Hc). exists ks. split; [done|]. set_solver.
    - cbn. intros Hd [->|[->|[->|Hin]%elem_of_cons]%elem_of_cons]%elem_of_cons.
      + cbn. eexists. split; [done|]. intros x Hx. left.
        assert (Hpp := parts_pid p). set_solver.
      + cbn. eexists. split; [done|]. set_solver.
      + cbn. eexists. split; [done|]. set_solver.
      + destruct (IH Hd Hin) as (ks & Hks & Hc). exists ks. split; [done|]. set_solver.
    - cbn [prod_declared]. intros [Hd1 Hd2].
      assert (Hpp := parts_pid p). assert (Hqq := parts_pid q).
      rewrite !elem_of_cons, elem_of_app.
      intros [->|[->|[->|[->|[->|[Hin|Hin]]]]]]; cbn.
      1-5: eexists; split; [done|]; intros x Hx; left; set_solver.
      + destruct (IH1 Hd1 Hin) as (ks & Hks & Hc). exists ks. split; [done|]. set_solver.
      + destruct (IH2 Hd2 Hin) as (ks & Hks & Hc). exists ks. split; [done|]. set_solver.
    - intros _ ->%elem_of_list_singleton. cbn. eexists. split; [done|]. set_solver.
    - cbn. auto.
  Qed.

  Lemma register_root_total t : env_declared env → ty_declared (length env) t →
    ∃ regs, register_root env (prod_of t) = Some regs.
  Proof.
    intros Henv Ht. unfold register_root.
    assert (HU : ∀ k, k ∈ all_parts env (prod_of t) →
      ∃ ks, kids env k = Some ks ∧ ∀ x, x ∈ ks → pid x ∈ all_parts env (prod_of t)).
    { intros k Hk. unfold all_parts in *.
      assert (Hmem : ∀ d p x, d ∈ env → p ∈ field_prods (decl_fields d) → x ∈ parts p →
        x ∈ flat_map (λ d, flat_map parts (field_prods (decl_fields d))) env).
      { intros d p x Hd Hp Hx. apply elem_of_list_In, in_flat_map. exists d.
        split; [by apply elem_of_list_In|]. apply in_flat_map. exists p.
        split; by apply elem_of_list_In. }
      assert (Hpk : ∃ p, prod_declared (length env) p ∧ k ∈ parts p ∧
        ∀ x, x ∈ parts p → x ∈ parts (prod_of t) ++ flat_map (λ d, flat_map parts (field_prods (decl_fields d))) env).
      { apply elem_of_app in Hk as [Hk|Hk].
        - exists (prod_of t). split; [by apply ty_prod_declared|]. set_solver.
        - apply elem_of_list_In, in_flat_map in Hk as (d & Hd & Hk).
          apply in_flat_map in Hk as (p & Hp & Hk). apply elem_of_list_In in Hd, Hp, Hk.
          exists p. split; [|split; [done|]].
          + unfold field_prods in Hp. apply elem_of_list_In, in_map_iff in Hp as (f & <- & Hf).
            apply elem_of_list_In in Hf. apply ty_prod_declared. by eapply Henv.
          + intros x Hx. apply elem_of_app. right. by eapply Hmem. }
      destruct Hpk as (p & Hpd & Hkp & Hall).
      destruct (parts_kids p k Hpd Hkp) as (ks & Hks & Hc). exists ks. split; [done|].
      intros x Hx. destruct (Hc x Hx) as [Hl|(n & d & _ & Hd & Hf)]; [auto|].
      apply elem_of_app. right. eapply Hmem; [by eapply elem_of_list_lookup_2|done|apply parts_pid]. }
    destruct (register_total _ HU (S (length (all_parts env (prod_of t)))) (prod_of t) [])
      as (regs & Hr & _); cbn; eauto.
    - apply elem_of_app. left. apply parts_pid.
    - constructor.
    - set_solver.
    - lia.
  Qed.

  (** Everything registered is reachable in the grammar sense. *)
  Lemma register_reachable p regs k e : register_root env p = Some regs →
    (k, e) ∈ regs → reachable regs (pid p) k.
  Proof.
    intros Hr Hk. destruct (register_root_spec _ _ Hr) as [Hnd Hspec].
    apply Hspec in Hk as [Hv _].
    cut (∀ a, rtc (component env) a k → visible env (pid p) a → reachable regs (pid p) a →
      reachable regs (pid p) k).
    { intros H. apply (H (pid p)); [done|apply rtc_refl|]. exists [], []. apply rtc_refl. }
    clear Hv e. intros a Hak. induction Hak as [|a b c Hab Hbc IH]; [done|].
    intros Hva Hra. destruct Hab as (ks & x & Hks & Hx & Hb).
    apply IH.
    { eapply rtc_r; [exact Hva|]. exists ks, x. auto. }
    destruct (kids_entry _ _ Hks) as (ent & Hent & Hcomps).
    assert (Ha : (a, ent) ∈ regs) by (by apply Hspec).
    assert (Hbe : b ∈ comps ent).
    { rewrite Hcomps, Hb. apply elem_of_list_In, in_map, elem_of_list_In. done. }
    destruct Hra as (α & β & Hd).
    destruct ent as [|ty lit|l|l]; cbn in Hbe; try (by apply elem_of_nil in Hbe).
    - apply elem_of_list_split in Hbe as (l1 & l2 & ->).
      exists (α ++ map N l1), (map N l2 ++ β).
      eapply rtc_r; [exact Hd|].
      replace ((α ++ map N l1) ++ N b :: map N l2 ++ β) with (α ++ map N (l1 ++ b :: l2) ++ β).
      + apply step_rhs. by apply rhs_seq.
      + rewrite map_app. cbn. by rewrite <- !(assoc_L (++)).
    - exists α, β. eapply rtc_r; [exact Hd|]. change (α ++ N b :: β) with (α ++ [N b] ++ β).
      apply step_rhs. by eapply rhs_union.
  Qed.
End facts.
