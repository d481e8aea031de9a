(** Facts about lexicon inference (C96). *)
From Coq Require Import String.
From stdpp Require Import prelude list strings relations.
From Verif Require Import LexModel SynSetModel TableModel StreamModel TypeModel TypeSpec TypeFacts ProduceModel CfgSpec CfgFacts
  MetaFacts ParseSpec LangFacts MdFacts InferModel InferSpec.
Local Open Scope nat_scope.

Lemma agree_ok r rs l : agree r rs = LOk l ↔ r = LOk l ∧ Forall (λ r', r' = LOk l) rs.
Proof.
  induction rs as [|r' rs IH]; cbn [agree]; [by rewrite Forall_nil; tauto|]. rewrite Forall_cons. split.
  - destruct r as [a| |], r' as [b| |]; try done. destruct (Nat.eqb_spec a b) as [->|]; [|done]. rewrite IH. naive_solver.
  - intros (-> & -> & H). rewrite Nat.eqb_refl. by apply IH.
Qed.

Section infer.
  Variable env : denv.
  Variable tl : nat → nat.
  Notation lexicon := (lexicon env tl).

  Lemma lexicon_more f g p l : lexicon f p = LOk l → f ≤ g → lexicon g p = LOk l.
  Proof.
    revert g p l. induction f as [|f IH]; intros g p l H Hg; [done|]. destruct g as [|g]; [lia|].
    assert (IH' : ∀ p l, lexicon f p = LOk l → lexicon g p = LOk l) by (intros q k Hq; apply IH; [done|lia]).
    destruct p as [n y lit|n|[|p ps]|p|p|p q| |p]; cbn [InferModel.lexicon] in H |- *; try done; auto.
    - destruct (env !! n) as [d|]; [|done]. destruct (decl_fields d) as [|[t s] r]; [done|]. by apply IH'.
    - apply agree_ok in H as [H1 H2]. apply agree_ok. split; [by apply IH'|].
      rewrite Forall_fmap in H2 |- *. eapply Forall_impl; [exact H2|]. cbn. intros q Hq. by apply IH'.
    - apply agree_ok in H as [H1 H2]. apply agree_ok. split; [by apply IH'|].
      rewrite Forall_singleton in H2 |- *. by apply IH'.
  Qed.
  (** Resolved with a large enough limit. *)
  Definition has (p : prod) (l : nat) : Prop := ∃ f, lexicon f p = LOk l.
  Lemma has_pid p l : has (pid p) l ↔ has p l.
  Proof.
    induction p; cbn [pid]; try done. rewrite IHp. split; intros [f H].
    - by exists (S f).
    - destruct f; [done|]. by exists f.
  Qed.
  Lemma has_opt p l : has (POpt p) l ↔ has p l.
  Proof. split; intros [f H]; [destruct f; [done|]; by exists f|by exists (S f)]. Qed.
  Lemma has_more p l : has (POneMore p) l ↔ has p l.
  Proof. split; intros [f H]; [destruct f; [done|]; by exists f|by exists (S f)]. Qed.
  Lemma has_all ps l : Forall (λ p, has p l) ps → ∃ f, Forall (λ p, lexicon f p = LOk l) ps.
  Proof.
    induction 1 as [|p ps [f Hf] _ [g Hg]]; [by exists 0|]. exists (f `max` g). constructor.
    - eapply lexicon_more; [exact Hf|lia].
    - eapply Forall_impl; [exact Hg|]. intros q Hq. eapply lexicon_more; [exact Hq|lia].
  Qed.
  Lemma has_tuple ps l : has (PTuple ps) l ↔ ps ≠ [] ∧ Forall (λ p, has p l) ps.
  Proof.
    split.
    - intros [[|f] H]; [done|]. destruct ps as [|p ps]; [done|]. cbn [InferModel.lexicon] in H.
      apply agree_ok in H as [H1 H2]. split; [done|]. constructor; [by exists f|].
      rewrite Forall_fmap in H2. eapply Forall_impl; [exact H2|]. intros q Hq. by exists f.
    - intros [Hn H]. destruct ps as [|p ps]; [done|]. destruct (has_all _ _ H) as [f Hf].
      apply Forall_cons in Hf as [H1 H2]. exists (S f). cbn [InferModel.lexicon]. apply agree_ok. split; [done|].
      by apply Forall_fmap.
  Qed.
  Lemma has_punct p q l : has (PPunct p q) l ↔ has p l ∧ has q l.
  Proof.
    split.
    - intros [[|f] H]; [done|]. cbn [InferModel.lexicon] in H. apply agree_ok in H as [H1 H2%List.Forall_inv].
      split; by exists f.
    - intros [H1 H2]. destruct (has_all [p; q] l) as [f Hf]; [by repeat constructor|].
      apply Forall_cons in Hf as [F1 F2]. exists (S f). cbn [InferModel.lexicon]. apply agree_ok. split; [done|].
      rewrite Forall_singleton. by apply List.Forall_inv in F2.
  Qed.
  Lemma has_one p l l' : has p l → has p l' → l = l'.
  Proof.
    intros [f Hf] [g Hg]. apply (lexicon_more _ (f `max` g)) in Hf; [|lia]. apply (lexicon_more _ (f `max` g)) in Hg; [|lia]. congruence.
  Qed.

  Context (lim : nat) (Hc : compiles env tl lim).
  Lemma has_fields n d l : env !! n = Some d → has (PNamed n) l → Forall (λ p, has p l) (field_prods (decl_fields d)).
  Proof using Hc.
    intros En H. destruct (Hc n) as (l' & d' & H1 & En' & Hf); [by eapply lookup_lt_Some|]. simplify_eq.
    assert (l = l') as -> by (apply (has_one _ _ _ H); by exists lim).
    eapply Forall_impl; [exact Hf|]. intros p Hp. by exists lim.
  Qed.
  Lemma has_kid p q l : component env p q → has p l → q = PEps ∨ has q l.
  Proof using Hc.
    intros (ks & x & Hk & Hx & ->) H. rewrite has_pid.
    destruct p as [n y lit|n|ps|p|p|p p'| |p]; cbn [kids] in Hk.
    - injection Hk as <-. by apply elem_of_nil in Hx.
    - destruct (env !! n) as [d|] eqn:En; [|done]. cbn in Hk. injection Hk as <-. right.
      pose proof (has_fields n d l En H) as HF. rewrite Forall_forall in HF. by apply HF.
    - injection Hk as <-. right. apply has_tuple in H as [_ HF]. rewrite Forall_forall in HF. by apply HF.
    - injection Hk as <-. rewrite has_opt in H. apply elem_of_cons in Hx as [->|Hx%elem_of_list_singleton]; [by right|].
      left. by subst.
    - injection Hk as <-. right. apply elem_of_cons in Hx as [->|Hx%elem_of_list_singleton]; [by apply has_more|].
      subst x. by rewrite has_opt.
    - injection Hk as <-. right. pose proof H as H0. apply has_punct in H as [H1 H2].
      apply elem_of_cons in Hx as [->|Hx%elem_of_list_singleton]; [done|].
      subst x. apply has_opt, has_tuple. split; [done|]. constructor; [done|]. rewrite Forall_singleton. by rewrite has_opt.
    - injection Hk as <-. by apply elem_of_nil in Hx.
    - done.
  Qed.
  Lemma eps_alone p : component env PEps p → False.
  Proof using. intros (ks & x & [= <-] & Hx & _). by apply elem_of_nil in Hx. Qed.
  Lemma has_visible p q l : visible env p q → has p l → q = PEps ∨ has q l.
  Proof using Hc.
    induction 1 as [|p q r Hpq Hqr IH]; [by right|]. intros H. destruct (has_kid _ _ _ Hpq H) as [->|H']; [|by apply IH].
    inversion Hqr as [|? ? ? H1]; subst; [by left|]. by apply eps_alone in H1.
  Qed.
  Lemma has_sub t c l : c ∈ subs env t → has (prod_of t) l → has (prod_of c) l.
  Proof using Hc.
    destruct t as [nm y lit|n|ts|t|t|t|t|t|t|t|t|t d|t d|t r]; cbn [subs prod_of]; intros Hx H.
    - by apply elem_of_nil in Hx.
    - destruct (env !! n) as [d|] eqn:En; [|by apply elem_of_nil in Hx].
      pose proof (has_fields n d l En H) as HF. unfold field_prods in HF.
      apply elem_of_list_fmap in Hx as (x & -> & Hx). rewrite Forall_fmap, Forall_forall in HF. by apply (HF x).
    - apply has_tuple in H as [_ HF]. rewrite Forall_fmap, Forall_forall in HF. by apply (HF c).
    - apply elem_of_list_singleton in Hx as ->. rewrite <- has_pid in H. cbn [pid] in H. by rewrite has_pid in H.
    - apply elem_of_list_singleton in Hx as ->. by rewrite has_opt in H.
    - apply elem_of_list_singleton in Hx as ->. by rewrite has_opt in H.
    - by apply elem_of_list_singleton in Hx as ->.
    - by apply elem_of_list_singleton in Hx as ->.
    - apply elem_of_list_singleton in Hx as ->. by apply has_more.
    - apply elem_of_list_singleton in Hx as ->. by apply has_more, has_opt.
    - apply elem_of_list_singleton in Hx as ->. by apply has_more.
    - apply has_tuple in H as [_ HF]. apply Forall_cons in HF as [H1 H2%List.Forall_inv].
      rewrite has_opt, has_more, has_tuple in H2; destruct H2 as [_ H2]. apply Forall_cons in H2 as [H2 _].
      apply elem_of_cons in Hx as [->|Hx%elem_of_list_singleton]; [done|]. by subst.
    - apply has_punct in H as [H1 H2]. apply elem_of_cons in Hx as [->|Hx%elem_of_list_singleton]; [done|]. by subst.
    - apply has_tuple in H as [_ HF]. apply Forall_cons in HF as [H1 H2%List.Forall_inv].
      apply elem_of_cons in Hx as [->|Hx%elem_of_list_singleton]; [done|]. by subst.
  Qed.
  Lemma has_within t c l : within env t c → has (prod_of t) l → has (prod_of c) l.
  Proof using Hc. induction 1 as [|a b c Hab _ IH]; [done|]. intros H. apply IH. by eapply has_sub. Qed.
End infer.

Fixpoint tsize (t : ty) : nat :=
  match t with
  | TBox t | TOpt t | TExists t | TQuote t | TParse t | TPlus t | TStar t | TLoop t => S (tsize t)
  | _ => 1
  end.
(** * Circles *)
Lemma lexicon_asks env tl f t c l : asks env t c → lexicon env tl f (prod_of t) = LOk l →
  ∃ g, lexicon env tl g (prod_of c) = LOk l ∧ (g < f ∨ (g = f ∧ tsize c < tsize t)).
Proof.
  intros Ha H. destruct f as [|f]; [done|].
  assert (U : ∀ p, lexicon env tl f p = LOk l → p = prod_of c →
     ∃ g, lexicon env tl g (prod_of c) = LOk l ∧ (g < S f ∨ (g = S f ∧ tsize c < tsize t))).
  { intros p Hp ->. exists f. split; [done|]. left. lia. }
  assert (T : ∀ p ps, lexicon env tl (S f) (PTuple ps) = LOk l → p ∈ ps → lexicon env tl f p = LOk l).
  { intros p ps Hps Hp. destruct ps as [|q ps]; [done|]. cbn [lexicon] in Hps. apply agree_ok in Hps as [H1 H2].
    apply elem_of_cons in Hp as [->|Hp]; [done|]. rewrite Forall_fmap, Forall_forall in H2. by apply H2. }
  destruct t as [nm y lit|n|ts|t|t|t|t|t|t|t|t|t d|t d|t r]; cbn [asks prod_of] in *; try done;
    try (subst c; cbn [lexicon] in H; by eapply U).
  - cbn [lexicon] in H. destruct (env !! n) as [[fs|vs]|]; [..|done]; cbn [decl_fields] in H.
    + destruct fs as [|[t s] r]; [done|]. injection Ha as ->. by eapply U.
    + destruct vs as [|[t s] r]; [done|]. injection Ha as ->. by eapply U.
  - eapply U; [eapply T; [exact H|by apply elem_of_list_fmap_1]|done].
  - subst c. exists (S f). split; [done|]. right. split; [done|]. cbn; lia.
  - subst c. exists (S f). split; [done|]. right. split; [done|]. cbn; lia.
  - subst c. cbn [lexicon] in H. destruct f as [|f]; [done|]. exists f. split; [exact H|]. left. lia.
  - destruct Ha as [->| ->]; [eapply U; [eapply T; [exact H|by left]|done]|].
    assert (H2 : lexicon env tl f (POpt (POneMore (PTuple [prod_of d; prod_of t]))) = LOk l).
    { eapply T; [exact H|]. right. by left. }
    destruct f as [|[|[|f]]]; [done..|]. cbn [lexicon] in H2. apply agree_ok in H2 as [H2 _]. exists f. split; [done|]. left. lia.
  - cbn [lexicon] in H. apply agree_ok in H as [H1 H2]. apply List.Forall_inv in H2.
    destruct Ha as [->| ->]; (eapply U; [|done]); [exact H1|exact H2].
  - destruct Ha as [->| ->]; (eapply U; [eapply T; [exact H|]|done]); [by left|right; by left].
Qed.
Lemma lexicon_asks_tc env tl f t c l : tc (asks env) t c → lexicon env tl f (prod_of t) = LOk l →
  ∃ g, lexicon env tl g (prod_of c) = LOk l ∧ (g < f ∨ (g = f ∧ tsize c < tsize t)).
Proof.
  intros Ht. revert f. induction Ht as [t c H|t u c H _ IH]; intros f Hf; [by eapply lexicon_asks|].
  destruct (lexicon_asks _ _ _ _ _ _ H Hf) as (g & Hg & Hd). destruct (IH _ Hg) as (h & Hh & Hd').
  exists h. split; [done|]. lia.
Qed.
Lemma circle env tl t : tc (asks env) t t → ∀ f l, lexicon env tl f (prod_of t) ≠ LOk l.
Proof.
  intros Ht f. induction f as [f IH] using lt_wf_ind. intros l H.
  destruct (lexicon_asks_tc _ _ _ _ _ _ Ht H) as (g & Hg & [Hlt|[_ Hs]]); [|lia]. by apply (IH g Hlt l).
Qed.

Lemma one_lexicon env tl lim root l nm y lit : compiles env tl lim → lexicon env tl lim (prod_of root) = LOk l →
  within env root (TTok nm y lit) → tl nm = l.
Proof.
  intros Hc Hl Hw. destruct (has_within env tl lim Hc _ _ l Hw) as [f H]; [by exists lim|].
  destruct f as [|f]; [done|]. by injection H.
Qed.

(** * No left recursion *)
Set Default Proof Using "All".
Section md.
  Variable env : denv.
  Variable tl : nat → nat.
  Variable lim : nat.
  Variable l : nat.
  Variable root : ty.
  Variable regs iter : grammar prod.
  Variable md : metadata prod.
  Hypothesis Hreg : register_root env (prod_of root) = Some regs.
  Hypothesis Hperm : iter ≡ₚ regs.
  Hypothesis Hmeta : meta_build regs iter (key root) = Some (inr md).
  Hypothesis Hc : compiles env tl lim.
  Hypothesis Hl : lexicon env tl lim (prod_of root) = LOk l.
  Notation V t := (visible env (key root) (key t)).
  Notation vis k := (visible env (key root) k).
  Notation "'MD' l" := (l env root regs iter md Hreg Hperm Hmeta) (at level 9, l at level 0, only parsing).

  Lemma vis_has k : vis k → k = PEps ∨ has env tl k l.
  Proof. intros Hv. apply (has_visible env tl lim Hc _ _ l Hv). apply has_pid. by exists lim. Qed.
  Lemma lex_anchored f p : lexicon env tl f p = LOk l → vis (pid p) → anchored regs (pid p).
  Proof.
    revert p. induction f as [|f IH]; intros p H Hv; [done|].
    assert (K : ∀ ks x, kids env (pid p) = Some ks → x ∈ ks → vis (pid x)).
    { intros ks x Hk Hx. eapply rtc_r; [exact Hv|]. by exists ks, x. }
    assert (R : ∀ e, entry_of env (pid p) = Some e → (pid p, e) ∈ regs) by (intros e He; by apply (MD md_regs)).
    destruct p as [n y lit|n|[|p ps]|p|p|p q| |p]; cbn [lexicon pid kids entry_of] in *; try done.
    - by eapply anchored_tok, R.
    - destruct (env !! n) as [d|] eqn:En; [|done]. cbn in K, R.
      destruct (decl_fields d) as [|[t s] r] eqn:Ed; [done|].
      assert (A : anchored regs (pid (prod_of t))).
      { apply IH; [done|]. eapply K; [done|]. by left. }
      destruct d as [fs|vs]; cbn [decl_fields] in Ed; subst; cbn [field_prods map fst] in R.
      + eapply anchored_seq; [by apply R|done].
      + eapply anchored_union; [by apply R|done].
    - apply agree_ok in H as [H _]. eapply anchored_seq; [by apply R|]. apply IH; [done|]. eapply K; [done|by left].
    - eapply anchored_union; [by apply R|]. apply IH; [done|]. eapply K; [done|by left].
    - eapply anchored_seq; [by apply R|]. apply IH; [done|]. eapply K; [done|by left].
    - apply agree_ok in H as [H _]. eapply anchored_seq; [by apply R|]. apply IH; [done|]. eapply K; [done|by left].
    - by apply IH.
  Qed.
  Lemma compiled_anchored : all_anchored regs.
  Proof.
    intros k e Hin He. apply (MD md_regs) in Hin as [Hv Hent].
    destruct (vis_has k Hv) as [->|[f Hf]]; [cbn in Hent; congruence|].
    assert (E : pid k = k) by (destruct k; done).
    rewrite <- E. apply (lex_anchored f); [done|]. by rewrite E.
  Qed.

  Lemma no_cycle k : ¬ tc (ledge regs) k k.
  Proof.
    intros Ht. destruct (meta_build_accepts regs iter (key root) md (MD md_functional) Hperm Hmeta) as [_ Hacc].
    assert (Hall : ∀ k e, (k, e) ∈ regs → reachable regs (key root) k).
    { intros k' e Hin. apply (register_reachable env (prod_of root) regs k' e Hreg Hin). }
    eapply (anchored_no_cycle regs (MD md_functional)); [..|exact Ht].
    - intros x ys Hin. by apply (Hacc x _ (Hall _ _ Hin) Hin).
    - intros x ys Hin Hcl. destruct (Hacc x _ (Hall _ _ Hin) Hin) as [Hn _]. by apply Hn, seq_clash_is_seen.
    - assert (∃ j, ledge regs k j) as [j Hj] by (inversion Ht; subst; eauto).
      destruct Hj as [a l1 b l2 Hin|a ys b Hin]; by eapply compiled_anchored.
  Qed.
  Lemma nulls_at ts : (∀ t, t ∈ ts → V t) → Forall (λ t, lang env t []) ts → Forall (nullable regs) (map key ts).
  Proof.
    intros Hv H. apply Forall_fmap. rewrite Forall_forall in H |- *. intros t Ht. apply (MD nul_lang); auto.
  Qed.
  Lemma seq_front k ts c : (k, ESeq (map key ts)) ∈ regs → (∀ t, t ∈ ts → V t) → in_front env ts c → ledge regs k (key c).
  Proof.
    intros Hin Hv (l1 & l2 & -> & Hn). rewrite map_app in Hin. cbn [map] in Hin. eapply ledge_seq; [exact Hin|].
    apply nulls_at; [|done]. intros t Ht. apply Hv. set_solver.
  Qed.
  Lemma front_edge t c : V t → front env t c → V c ∧ ((key t = key c ∧ tsize c < tsize t) ∨ tc (ledge regs) (key t) (key c)).
  Proof.
    destruct t as [nm y lit|n|ts|t|t|t|t|t|t|t|t|t d|t d|t r]; cbn [front]; intros Hv Hf; try done.
    - destruct (env !! n) as [[fs|vs]|] eqn:En; [| |done].
      + split; [destruct Hf as (l1 & l2 & E & _); eapply (MD V_named); [done..|]; cbn [decl_fields]; rewrite E; set_solver|].
        right. apply tc_once. eapply seq_front; [by apply (MD ent_struct)| |exact Hf].
        intros t Ht. by eapply (MD V_named).
      + split; [by eapply (MD V_named)|]. right. apply tc_once. eapply ledge_union; [by apply (MD ent_enum)|].
        apply elem_of_list_fmap. by exists c.
    - split; [destruct Hf as (l1 & l2 & -> & _); eapply (MD V_tuple); [done|]; set_solver|].
      right. apply tc_once. eapply seq_front; [by apply (MD ent_tuple)| |exact Hf]. intros t Ht. by eapply (MD V_tuple).
    - subst c. split; [done|]. left. split; [done|]. cbn; lia.
    - subst c. split; [by apply (MD V_opt)|]. right. apply tc_once. eapply ledge_union; [by apply (MD ent_opt)|]. by left.
    - subst c. split; [by apply (MD V_opt)|]. right. apply tc_once. eapply ledge_union; [by apply (MD ent_opt)|]. by left.
    - subst c. split; [done|]. left. split; [done|]. cbn; lia.
    - subst c. split; [done|]. left. split; [done|]. cbn; lia.
    - subst c. destruct (MD V_plus _ Hv) as [V1 V2]. split; [done|]. right. apply tc_once.
      eapply (ledge_seq _ _ []); [by apply (MD ent_plus)|constructor].
    - subst c. assert (V0 := MD V_star _ Hv). destruct (MD V_plus _ V0) as [V1 V2]. split; [done|]. right.
      eapply tc_l; [eapply ledge_union; [by apply (MD ent_star)|by left]|]. apply tc_once.
      eapply (ledge_seq _ _ []); [by apply (MD ent_plus)|constructor].
    - subst c. destruct (MD V_plus _ Hv) as [V1 V2]. split; [done|]. right. apply tc_once.
      eapply (ledge_seq _ _ []); [by apply (MD ent_plus)|constructor].
    - destruct (MD V_split _ _ Hv) as (V1&V2&V3&V4&V5).
      destruct Hf as ([|a [|b [|]]] & l2 & E & Hn); cbn in E; simplify_eq.
      + split; [done|]. right. apply tc_once. eapply (ledge_seq _ _ []); [by apply (MD ent_split)|constructor].
      + split; [done|]. right. apply List.Forall_inv in Hn.
        eapply tc_l; [eapply (ledge_seq _ _ [_] _ []); [by apply (MD ent_split)|]|].
        { rewrite Forall_singleton. by apply (MD nul_lang). }
        eapply tc_l; [eapply ledge_union; [by apply (MD ent_star)|by left]|].
        eapply tc_l; [eapply (ledge_seq _ _ []); [by apply (MD ent_plus)|constructor]|].
        apply tc_once. eapply (ledge_seq _ _ []); [exact (MD ent_tuple [c; a] V4)|constructor].
    - destruct (MD V_punct _ _ Hv) as (V1&V2&V3&V4&V5).
      destruct Hf as ([|a [|b [|]]] & l2 & E & Hn); cbn in E; simplify_eq.
      + split; [done|]. right. apply tc_once. eapply (ledge_seq _ _ []); [by apply (MD ent_punct)|constructor].
      + apply List.Forall_inv in Hn. destruct (MD punct_not_null _ _ Hv) as [Hnn _]. exfalso. by apply Hnn, (MD nul_lang).
    - split; [destruct Hf as (l1 & l2 & E & _); apply (MD V_tuple [t; r]); [done|]; rewrite E; set_solver|].
      right. apply tc_once. eapply seq_front; [by apply (MD ent_recover)| |exact Hf]. intros c' Hc'. by apply (MD V_tuple [t; r]).
  Qed.
  Lemma front_path t c : V t → tc (front env) t c → (key t = key c ∧ tsize c < tsize t) ∨ tc (ledge regs) (key t) (key c).
  Proof.
    intros Hv H. revert Hv. induction H as [t c H|t u c H _ IH]; intros Hv.
    - by apply front_edge.
    - destruct (front_edge _ _ Hv H) as [Hu [[E1 S1]|E1]]; destruct (IH Hu) as [[E2 S2]|E2].
      + left. split; [congruence|lia].
      + right. by rewrite E1.
      + right. by rewrite <- E2.
      + right. by eapply tc_transitive.
  Qed.
  Lemma never_itself t : within env root t → ¬ begins_itself env t.
  Proof.
    intros Hw H. destruct (front_path t t (MD V_within _ Hw) H) as [[_ S]|E]; [lia|]. by apply no_cycle in E.
  Qed.
End md.
Lemma not_left_recursive env tl lim root l md t : compiles env tl lim → lexicon env tl lim (prod_of root) = LOk l →
  accepted env root md → within env root t → ¬ begins_itself env t.
Proof. intros Hc Hl (regs & iter & H1 & H2 & H3). by eapply never_itself. Qed.

(** * Without circles the lexicons are found *)
Lemma asks_sub env t c : asks env t c → c ∈ subs env t.
Proof.
  destruct t as [nm y lit|n|ts|t|t|t|t|t|t|t|t|t d|t d|t r]; cbn [asks subs]; intros H; try done; try (subst c; by left).
  - destruct (env !! n) as [[fs|vs]|]; [| |done]; cbn [decl_fields] in *.
    + destruct (map fst fs); [done|]. injection H as ->. by left.
    + destruct (map fst vs); [done|]. injection H as ->. by left.
  - destruct H as [->| ->]; [by left|right; by left].
  - destruct H as [->| ->]; [by left|right; by left].
  - destruct H as [->| ->]; [by left|right; by left].
Qed.
Lemma no_circle_has env tl n0 l : shaped env (TNamed n0) → (∀ nm y lit, within env (TNamed n0) (TTok nm y lit) → tl nm = l) →
  (∀ n, ¬ tc (asks env) (TNamed n) (TNamed n)) →
  ∀ k V t, NoDup V → Forall (λ m, m < length env) V → length env ≤ length V + k → (∀ m, m ∈ V → tc (asks env) (TNamed m) t) →
    within env (TNamed n0) t → has env tl (prod_of t) l.
Proof.
  intros Hsh Hl Hno. induction k as [k IH] using lt_wf_ind. intros V t HV HB Hk.
  induction t as [nm y lit|n|ts IHts|t IHt|t IHt|t IHt|t IHt|t IHt|t IHt|t IHt|t IHt|t d IHt IHd|t d IHt IHd|t d IHt IHd] using ty_ind'; intros Ht Hw.
  - exists 1. cbn [prod_of lexicon]. f_equal. by eapply Hl.
  - destruct (Hsh _ Hw) as (dc & En & Hd). destruct (decl_fields dc) as [|[c q] r] eqn:Ed; [done|].
    assert (Hn : n ∉ V) by (intros Hin; by apply (Hno n), Ht).
    assert (Hlt := lookup_lt_Some _ _ _ En).
    assert (Ha : asks env (TNamed n) c).
    { cbn [asks]. rewrite En. destruct dc; cbn [decl_fields] in Ed; by rewrite Ed. }
    assert (Hle : length (n :: V) ≤ length env).
    { rewrite <- (seq_length (length env) 0). apply submseteq_length, NoDup_submseteq; [by constructor|]. intros x Hx. apply elem_of_seq.
      apply elem_of_cons in Hx as [->|Hx]; [lia|]. rewrite Forall_forall in HB. specialize (HB _ Hx). lia. }
    cbn [length] in Hle. destruct k as [|k]; [lia|].
    destruct (IH k) with (V := n :: V) (t := c) as [f Hf]; [lia|by constructor|by constructor|cbn; lia| | |].
    + intros m Hm. apply elem_of_cons in Hm as [->|Hm]; [by apply tc_once|]. eapply tc_r; [by apply Ht|done].
    + eapply rtc_r; [exact Hw|]. by apply asks_sub.
    + exists (S f). cbn [prod_of lexicon]. by rewrite En, Ed.
  - cbn [prod_of]. apply has_tuple. split; [intros E; apply fmap_nil_inv in E; subst ts; by apply (Hsh _ Hw)|].
    apply Forall_fmap. rewrite Forall_forall in IHts |- *. intros c Hc. apply IHts; [done| |eapply rtc_r; [exact Hw|done]].
    intros m Hm. eapply tc_r; [by apply Ht|done].
  - apply has_pid. cbn [pid prod_of]. apply has_pid. apply IHt; [|eapply rtc_r; [exact Hw|by left]]. intros m Hm. eapply tc_r; [by apply Ht|done].
  - cbn [prod_of]. apply has_opt, IHt; [|eapply rtc_r; [exact Hw|by left]]. intros m Hm. eapply tc_r; [by apply Ht|done].
  - cbn [prod_of]. apply has_opt, IHt; [|eapply rtc_r; [exact Hw|by left]]. intros m Hm. eapply tc_r; [by apply Ht|done].
  - apply IHt; [|eapply rtc_r; [exact Hw|by left]]. intros m Hm. eapply tc_r; [by apply Ht|done].
  - apply IHt; [|eapply rtc_r; [exact Hw|by left]]. intros m Hm. eapply tc_r; [by apply Ht|done].
  - cbn [prod_of]. apply has_more, IHt; [|eapply rtc_r; [exact Hw|by left]]. intros m Hm. eapply tc_r; [by apply Ht|done].
  - cbn [prod_of]. apply has_opt, has_more, IHt; [|eapply rtc_r; [exact Hw|by left]]. intros m Hm. eapply tc_r; [by apply Ht|done].
  - cbn [prod_of]. apply has_more, IHt; [|eapply rtc_r; [exact Hw|by left]]. intros m Hm. eapply tc_r; [by apply Ht|done].
  - assert (Hd : has env tl (prod_of d) l) by (apply IHd; [intros m Hm; eapply tc_r; [by apply Ht|by right]|eapply rtc_r; [exact Hw|right; by left]]).
    assert (Hc : has env tl (prod_of t) l) by (apply IHt; [intros m Hm; eapply tc_r; [by apply Ht|by left]|eapply rtc_r; [exact Hw|by left]]).
    cbn [prod_of]. apply has_tuple. split; [done|]. repeat (apply Forall_cons; split); [done| |by apply Forall_nil].
    apply has_opt, has_more, has_tuple. split; [done|]. by repeat (apply Forall_cons; split).
  - assert (Hd : has env tl (prod_of d) l) by (apply IHd; [intros m Hm; eapply tc_r; [by apply Ht|by right]|eapply rtc_r; [exact Hw|right; by left]]).
    assert (Hc : has env tl (prod_of t) l) by (apply IHt; [intros m Hm; eapply tc_r; [by apply Ht|by left]|eapply rtc_r; [exact Hw|by left]]).
    cbn [prod_of]. by apply has_punct.
  - assert (Hd : has env tl (prod_of d) l) by (apply IHd; [intros m Hm; eapply tc_r; [by apply Ht|by right]|eapply rtc_r; [exact Hw|right; by left]]).
    assert (Hc : has env tl (prod_of t) l) by (apply IHt; [intros m Hm; eapply tc_r; [by apply Ht|by left]|eapply rtc_r; [exact Hw|by left]]).
    cbn [prod_of]. apply has_tuple. split; [done|]. by repeat (apply Forall_cons; split).
Qed.
Lemma no_circle_checks env tl : (∀ n, n < length env → shaped env (TNamed n) ∧ one_enum env tl (TNamed n)) →
  (∀ n, ¬ tc (asks env) (TNamed n) (TNamed n)) → ∀ n, n < length env → ∃ f, ∀ g, f ≤ g → checks env tl g n.
Proof.
  intros Hsh Hno n Hn. destruct (Hsh n Hn) as [Hs [l Hl]].
  assert (Hhas : ∀ t, within env (TNamed n) t → has env tl (prod_of t) l).
  { intros t Hw. apply (no_circle_has env tl n l Hs Hl Hno (length env) [] t); [constructor|constructor|cbn; lia|set_solver|done]. }
  destruct (Hs (TNamed n)) as (d & En & _); [constructor|].
  assert (HF : Forall (λ p, has env tl p l) (PNamed n :: field_prods (decl_fields d))).
  { constructor; [apply (Hhas (TNamed n)); constructor|]. unfold field_prods. apply Forall_fmap, Forall_forall. intros x Hx. apply Hhas.
    apply rtc_once. cbn [subs]. rewrite En. by apply elem_of_list_fmap_1. }
  apply has_all in HF as [f HF]. exists f. intros g Hg. exists l, d.
  apply Forall_cons in HF as [H1 H2]. split_and!; [by eapply lexicon_more|done|].
  eapply Forall_impl; [exact H2|]. intros p Hp. eapply lexicon_more; [exact Hp|done].
Qed.
Lemma has_shaped env tl lim t l : compiles env tl lim → has env tl (prod_of t) l → shaped env t.
Proof.
  intros Hc H c Hw. assert (Hh := has_within env tl lim Hc _ _ l Hw H). destruct Hh as [[|f] Hf]; [done|].
  destruct c as [nm y lit|n|[|c ts]|c|c|c|c|c|c|c|c|c d|c d|c r]; try done.
  cbn [prod_of lexicon] in Hf. destruct (env !! n) as [d|]; [|done]. exists d. split; [done|]. by destruct (decl_fields d).
Qed.
Lemma compiles_iff env tl : (∃ lim, compiles env tl lim) ↔
  ∀ n, n < length env → shaped env (TNamed n) ∧ one_enum env tl (TNamed n) ∧ ¬ tc (asks env) (TNamed n) (TNamed n).
Proof.
  split.
  - intros [lim Hc] n Hn. destruct (Hc n Hn) as (l & d & H1 & _ & _). split_and!.
    + eapply has_shaped; [done|]. by exists lim.
    + exists l. intros nm y lit Hw. by eapply (one_lexicon env tl lim (TNamed n)).
    + intros Hci. by apply (circle env tl _ Hci lim l).
  - intros H.
    assert (Hno : ∀ n, ¬ tc (asks env) (TNamed n) (TNamed n)).
    { intros n Hci. destruct (decide (n < length env)) as [Hn|Hn]; [by apply (H n Hn)|].
      assert (En : env !! n = None) by (apply lookup_ge_None; lia).
      inversion Hci as [? ? Ha|? ? ? Ha]; subst; cbn [asks] in Ha; by rewrite En in Ha. }
    assert (Hall : ∀ n, n < length env → ∃ f, ∀ g, f ≤ g → checks env tl g n).
    { apply no_circle_checks; [|done]. intros n Hn. by destruct (H n Hn) as (? & ? & _). }
    assert (Hmax : ∀ k, k ≤ length env → ∃ f, ∀ n, n < k → ∀ g, f ≤ g → checks env tl g n).
    { induction k as [|k IHk]; intros Hk; [exists 0; lia|]. destruct IHk as [f1 H1]; [lia|]. destruct (Hall k) as [f2 H2]; [lia|].
      exists (f1 `max` f2). intros n Hn g Hg. destruct (decide (n = k)) as [->|]; [apply H2; lia|apply H1; lia]. }
    destruct (Hmax _ (le_n _)) as [f Hf]. exists f. intros n Hn. by apply Hf.
Qed.
