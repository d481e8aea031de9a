(** The work and the nesting of a parse are linear in the number of tokens. *)
From Coq Require Import String NArith.
From stdpp Require Import prelude list strings relations.
From Verif Require Import LexModel LexSpec LexFacts SynSetModel SynSetFacts TableModel StreamModel StreamSpec StreamFacts TypeModel TypeSpec TypeFacts CfgSpec CfgFacts MetaFacts ProduceModel ParseSpec ProgFacts FuelFacts TreeFacts SoundFacts LangFacts RunFacts InvFacts LookFacts MdFacts ParseFacts TermFacts ProgressFacts EndFacts CostSpec CostFacts RankFacts.
Local Open Scope nat_scope.
#[local] Arguments ts_contains : simpl never.
#[local] Arguments ts_contains_e : simpl never.
#[local] Arguments tb_get : simpl never.

Lemma ub_peek c s (Q : option token → ast → nat → Prop) : Q (head (a_rest s)) s (c + 1) → ub c peek s Q.
Proof. intros H. by apply (ub_step c 1). Qed.
Lemma ub_eof c s (Q : perr → ast → nat → Prop) : Q (PErr (a_span s) UnexpectedEof) s (c + 1) → ub c unexpected_eof s Q.
Proof. intros H. by apply (ub_step c 1). Qed.
Lemma ub_tosrc {A} c t (k : tok → M A) s Q : (∀ x, ub (c + 1) (k (t_ty t, x)) s Q) → ub c (ToSrc t k) s Q.
Proof.
  intros H. unfold ub in *. cbn [arun acost]. destruct (token_src t (a_src s)) as [x|]; [|done].
  specialize (H x). destruct (arun (k (t_ty t, x)) s) as [| |a s']; [done..|]. destruct H as (c' & ? & ?). exists c'. split; [lia|done].
Qed.
Lemma adv_same_look s l s' : adv s l s' → len s' = len s → look s' = look s.
Proof.
  intros Hl E. apply adv_look. destruct (adv_short _ _ _ Hl) as [H| ->]; [unfold shorter in H; lia|done].
Qed.
Lemma pop_cases s t : head (a_rest s) = Some t → shorter (pop s) s.
Proof. unfold shorter, pop. destruct (a_rest s); cbn; [done|]. intros _. lia. Qed.
Lemma fields_bound fs xs c s : ub c (apply_fields fs xs) s (λ _ s' c', c' ≤ c + length fs ∧ a_rest s' = a_rest s).
Proof.
  revert xs c s. induction fs as [|[t [sem|]] fs IH]; intros [|x xs] c s; cbn [apply_fields length]; try (apply ub_ret; split; [lia|done]).
  - apply ub_bind, ub_apply. eapply ub_mono; [apply IH|]. intros ? s' c' [H ->]. split; [lia|done].
  - eapply ub_mono; [apply IH|]. intros ? s' c' [H ->]. split; [lia|done].
Qed.

Set Default Proof Using "All".
Section md.
  Variable env : denv.
  Variable root : ty.
  Variable regs iter : grammar prod.
  Variable md : metadata prod.
  Hypothesis Hreg : register_root env (prod_of root) = Some regs.
  Hypothesis Hperm : iter ≡ₚ regs.
  Hypothesis Hmeta : meta_build regs iter (key root) = Some (inr md).
  Hypothesis Henums : plain_enums env root.

  Notation F := (tb_get (md_first md)).
  Notation L := (tb_get (md_follow md)).
  Notation J := (jump_look_up (md_jump md)).
  Notation V t := (visible env (key root) (key t)).
  Notation W t := (within env root t).
  Notation nul := (MdFacts.nul regs).
  Notation fst_ := (MdFacts.fst_ regs).
  Notation "'MD' l" := (l env root regs iter md Hreg Hperm Hmeta) (at level 9, l at level 0, only parsing).
  Notation "'ME' l" := (l env root regs iter md Hreg Hperm Hmeta Henums) (at level 9, l at level 0, only parsing).
  Notation rec := (produce_md env md).
  Notation st := (RankFacts.st regs).
  Notation rank := (RankFacts.rank env regs).

  Variables N R : nat.
  Hypothesis HN : ∀ t, W t → length (subs env t) ≤ N.
  Hypothesis HR : ∀ t lk, W t → rank R t lk.

  Fixpoint zc (r : nat) : nat := match r with O => 0 | S r => (N + 2) * zc r + N + 20 end.
  Notation Z := (zc R).
  Definition yc (r : nat) : nat := r * (2 * (N + 4) * Z + N + 60).
  Notation Y := (yc R).
  Definition Bc : nat := Y + 2 * Z + 60.
  Notation B := Bc.
  Notation pot := (pot B).
  Notation lin := (lin B).
  Notation bdd := (bdd B).
  Notation uni := (uni B Z Y).
  Definition Dc (s : ast) (r : nat) : nat := len s * (R + 4) + r + 4.

  Lemma zc_mono r r' : r ≤ r' → zc r ≤ zc r'.
  Proof. induction 1 as [|r' H IH]; [done|]. cbn [zc]. nia. Qed.
  Lemma HBc : Y + 2 * Z + 60 ≤ B.
  Proof. done. Qed.

  Lemma go_rec t f : W t → go (rec f t) (F (key t)).
  Proof.
    intros Hw s x Hok El Ef. apply (ME goes_wpt t x); [|done..].
    apply (MD fst_sta); [by apply (ME W_V)|]. by apply (MD first_spec).
  Qed.
  Lemma go_st t f s : W t → aok s → st (look s) t → wp True True (rec f t) s (λ _ s', shorter s' s).
  Proof. intros Hw Hok (x & El & Hx). apply (go_rec t f Hw s x); [done|done|]. by apply (MD first_spec). Qed.
  Lemma first_st t x s : ts_contains (F (key t)) (Some x) = true → look s = Some x → st (look s) t.
  Proof. intros H El. exists x. split; [done|]. by apply (MD first_spec). Qed.
  Lemma first_or t lk : ts_contains (F (key t)) lk || ts_contains_e (F (key t)) = true → st lk t ∨ nul t.
  Proof.
    intros [H|H]%orb_true_iff; [|right; by apply (MD first_eps)].
    destruct lk as [x|]; [left; exists x; split; [done|by apply (MD first_spec)]|right; by apply (MD first_eps)].
  Qed.

  Section step.
    Variables f r : nat.
    Hypothesis Hr : r < R.
    Hypothesis HC : ∀ c t s, W t → aok s → rank r t (look s) → Dc s r ≤ f → ub c (rec f t) s (λ _ s' c', bdd (zc r) (yc r) c s c' s').
    Hypothesis HU : ∀ c t s, W t → aok s → Dc s R ≤ f → ub c (rec f t) s (λ _ s' c', bdd Z Y c s c' s').

    Lemma uni_rec t n : W t → n * (R + 4) ≤ f → uni (rec f t) n.
    Proof. intros Hw Hn c s Hok Hs. apply HU; [done|done|]. unfold Dc. nia. Qed.
    (** A call made before anything is consumed. *)
    Lemma child {X} c t s (k : res tree → M X) Q : W t → aok s → rank r t (look s) → Dc s r ≤ f →
      (∀ x s' c', aok s' → len s' = len s → look s' = look s → ¬ st (look s) t → c' ≤ c + zc r → ub c' (k x) s' Q) →
      (∀ x s' c', aok s' → shorter s' s → c' + pot s' + B ≤ c + yc r + pot s → ub c' (k x) s' Q) →
      ub c (rec f t ≫= k) s Q.
    Proof.
      intros Hw Hok Hrk Hf H1 H2. apply ub_bind, ub_adv. 
      destruct (ME st_dec t (look s)) as [Hst|Hst].
      - eapply ub_mono; [apply (ub_wp _ _ _ _ _ (HC c t s Hw Hok Hrk Hf) (go_st t f s Hw Hok Hst))|].
        intros x s' c' [Hb Hs] l Hl. apply H2; [by eapply adv_aok|done|exact (bdd_short B Z Y HBc _ _ _ _ _ _ Hb Hs)].
      - eapply ub_mono; [by apply HC|]. intros x s' c' [[E Hc]|[Hs Hc]] l Hl.
        + apply H1; [by eapply adv_aok|done|by eapply adv_same_look|done|done].
        + apply H2; [by eapply adv_aok|done|done].
    Qed.
    Lemma seq_lin n0 ts : Forall (λ t, W t) ts → n0 * (R + 4) ≤ f → ∀ c s acc errs, aok s → len s < n0 →
      ub c (produce_seq (rec f) ts acc errs) s (λ _ s' c', lin (length ts * Z) c s c' s').
    Proof.
      intros HW Hn0. induction HW as [|t ts Hw HW IH]; intros c s acc errs Hok Hn; cbn [produce_seq length].
      - apply ub_ret. unfold CostFacts.lin. lia.
      - eapply uni_lin; [apply HBc|by apply uni_rec|done|done|]. intros x s1 c1 Hok1 Hle Hc1.
        destruct (unres x) as [[y|] e].
        + eapply ub_mono; [apply IH; [done|lia]|]. unfold CostFacts.lin. intros; cbn beta in *. lia.
        + apply ub_ret. unfold CostFacts.lin. lia.
    Qed.
    Lemma seq_bd ts : Forall (λ t, W t) ts → ∀ c s acc errs, aok s → seqrk (st (look s)) (λ t, rank r t (look s)) ts → Dc s r ≤ f →
      ub c (produce_seq (rec f) ts acc errs) s (λ _ s' c', bdd (length ts * zc r) (yc r + length ts * zc r + length ts * Z) c s c' s').
    Proof.
      intros HW. induction HW as [|t ts Hw HW IH]; intros c s acc errs Hok Hrk Hf; cbn [produce_seq length].
      - apply ub_ret. left. split; [done|lia].
      - cbn [seqrk] in Hrk. destruct Hrk as [H1 H2]. apply (child c t s); [done..| |].
        + intros x s1 c1 Hok1 El Ek Hst Hc1. destruct H2 as [?|H2]; [done|]. destruct (unres x) as [[y|] e].
          * eapply ub_mono; [apply IH; [done|by rewrite Ek|unfold Dc in *; lia]|]. intros ? s2 c2 [[E2 Hc2]|[Hs2 Hc2]].
            -- left. split; [congruence|lia].
            -- right. unfold shorter in *. split; [lia|]. rewrite (pot_eq B s s1 El) in Hc2. lia.
          * apply ub_ret. left. split; [done|lia].
        + intros x s1 c1 Hok1 Hs1 Hc1. unfold shorter in Hs1. destruct (unres x) as [[y|] e].
          * apply ub_adv. eapply ub_mono; [apply (seq_lin (len s) ts HW); [unfold Dc in Hf; lia|done|done]|]. intros ? s2 c2 Hc2 l Hl.
            assert (Hle := adv_le _ _ _ Hl). unfold CostFacts.lin in Hc2. right. unfold shorter. split; [lia|]. lia.
          * apply ub_ret. right. unfold shorter. split; [lia|]. lia.
    Qed.

    Lemma consts : zc (S r) = N * zc r + 2 * zc r + N + 20 ∧ yc (S r) = yc r + 2 * (N * Z) + 8 * Z + N + 60 ∧ zc r ≤ Z ∧ N * zc r ≤ N * Z ∧ yc r + 2 * Z + 60 ≤ B ∧ yc (S r) + 2 * Z + 60 ≤ B.
    Proof.
      assert (Hz : zc r ≤ Z) by (apply zc_mono; lia).
      assert (HY : yc r + (2 * (N + 4) * Z + N + 60) ≤ Y) by (unfold yc; nia).
      split_and!; [cbn [zc]; lia|unfold yc; lia|done|nia|unfold Bc; lia|].
      assert (E : yc (S r) = yc r + (2 * (N + 4) * Z + N + 60)) by (unfold yc; lia). rewrite E. unfold Bc. lia.
    Qed.
    Ltac fin := first [ left; split; [lia|lia] | right; unfold shorter in *; split; [lia|lia] ].

    Lemma iter_bd t F' n c s acc errs hi : (∀ x, ts_contains F' (Some x) = true ↔ fst_ t x) → aok s → ¬ st (look s) t → 0 < n →
      ub c (iter_loop n (rec f t) F' acc errs hi) s (λ _ s' c', s' = s ∧ c' ≤ c + 2).
    Proof.
      intros HF Hok Hst Hn. destruct n as [|n]; [lia|]. cbn [iter_loop]. apply ub_bind, ub_peek_src; [done|].
      destruct (look s) as [x|] eqn:El; [|apply ub_ret; split; [done|lia]].
      destruct (ts_contains F' (Some x)) eqn:Ef; [|apply ub_ret; split; [done|lia]].
      destruct Hst. exists x. split; [done|]. by apply HF.
    Qed.
    Lemma go_like t F' : W t → (∀ x, ts_contains F' (Some x) = true ↔ fst_ t x) → go (rec f t) F'.
    Proof. intros Hw HF s x Hok El Ef. apply (go_rec t f Hw s x); [done|done|]. apply (MD first_spec). by apply HF. Qed.
    Lemma plus_bd t F' c s : W t → (∀ x, ts_contains F' (Some x) = true ↔ fst_ t x) → aok s → rank r t (look s) → Dc s r ≤ f →
      ub c (produce_plus f (rec f t) F') s (λ _ s' c', bdd (zc r + 2) (yc r + 2) c s c' s').
    Proof.
      intros Hw HF Hok Hrk Hf. unfold produce_plus. apply (child c t s); [done..| |].
      - intros x s1 c1 Hok1 El Ek Hst Hc1. destruct (unres x) as [[y|] e]; [|apply ub_ret; fin].
        apply ub_bind. eapply ub_mono; [apply (iter_bd t); [done|done|by rewrite Ek|unfold Dc in Hf; lia]|].
        intros [[l errs] hi] s2 c2 [-> Hc2]. apply ub_ret. fin.
      - intros x s1 c1 Hok1 Hs1 Hc1. destruct (unres x) as [[y|] e]; [|apply ub_ret; fin].
        apply ub_bind, ub_adv. eapply ub_mono; [apply (iter_lin B Z Y HBc _ F' (len s)); [apply uni_rec; [done|unfold Dc in Hf; lia]|by apply go_like|done|done|unfold Dc, shorter in *; lia]|].
        intros [[l errs] hi] s2 c2 Hc2 l' Hl. assert (Hle := adv_le _ _ _ Hl). unfold CostFacts.lin in Hc2. apply ub_ret. fin.
    Qed.
    Lemma option_bd {X} (p : M (res X)) sp F' z y c s : aok s → 
      (∀ c x, look s = Some x → ts_contains F' (Some x) = true → ub c p s (λ _ s' c', bdd z y c s c' s')) →
      ub c (produce_option p sp F') s (λ _ s' c', bdd (z + 3) (y + 3) c s c' s').
    Proof.
      intros Hok Hp. unfold produce_option. apply ub_bind, ub_peek_src; [done|]. destruct (look s) as [x|] eqn:El.
      - destruct (ts_contains F' (Some x)) eqn:Ef.
        + apply ub_bind. eapply ub_mono; [by apply (Hp _ x)|]. intros [v|v es|es] s' c' [[E Hc]|[E Hc]].
          1-4: apply ub_ret; fin. 1-2: apply ub_bind, ub_empty_span, ub_ret; fin.
        + apply ub_bind, ub_empty_span, ub_ret. fin.
      - apply ub_bind, ub_empty_span, ub_ret. fin.
    Qed.
    Lemma rec_bd t c s : W t → aok s → rank r t (look s) → Dc s r ≤ f → ub c (rec f t) s (λ _ s' c', bdd (zc r) (yc r) c s c' s').
    Proof. apply HC. Qed.
    Lemma loop_bd t F' n c s acc errs : W t → (∀ x, ts_contains F' (Some x) = true ↔ fst_ t x) → aok s → (st (look s) t → rank r t (look s)) → Dc s r ≤ f → len s < n →
      ub c (loop_loop n (rec f t) F' acc errs) s (λ _ s' c', bdd 10 (yc r + 30) c s c' s').
    Proof.
      intros Hw HF Hok Hrk Hf Hn. destruct n as [|n]; [lia|]. cbn [loop_loop].
      assert (Hu : uni (rec f t) (len s)) by (apply uni_rec; [done|unfold Dc in Hf; lia]). assert (Hg := go_like t F' Hw HF).
      destruct consts as (_ & _ & _ & _ & HBr & _). assert (HB := HBc).
      apply ub_bind, ub_peek_src; [done|]. destruct (look s) as [x|] eqn:El; [|apply ub_ret; fin].
      apply ub_bind. destruct (ts_contains F' (Some x)) eqn:Ef.
      - apply ub_ret. apply ub_bind, ub_cur_span. rewrite <- El in Hrk. assert (Hst : st (look s) t) by (exists x; split; [done|by apply HF]).
        apply (child _ t s); [done|done|by apply Hrk|done|intros; done|].
        intros v s1 c1 Hok1 Hs1 Hc1. destruct (unres v) as [o e]. apply ub_bind, ub_cur_span. destruct (_ =? _); [apply ub_ret; fin|].
        apply ub_adv. eapply ub_mono; [apply (loop_lin B Z Y HB _ F' (len s) Hu Hg); [done|done|unfold shorter in Hs1; lia]|].
        intros ? s2 c2 Hc2 l Hl. assert (Hle := adv_le _ _ _ Hl). unfold CostFacts.lin in Hc2. fin.
      - apply ub_bind, ub_cur_span, ub_bind, ub_consume, ub_bind, ub_peek_src; [by apply aok_pop|].
        assert (Hs := pop_shorter _ _ El). assert (Hp := pot_lt B Z Y HBc _ _ Hs). unfold shorter in Hs.
        apply ub_bind, ub_adv. eapply ub_mono; [apply (skip_lin B Z Y HB F' n); [by apply aok_pop|lia]|].
        intros [tk1 hi] s1 c1 (Hl1 & E1 & Hin) l Hl. unfold CostFacts.lin in Hl1. cbn [fst] in E1, Hin. assert (Hle := adv_le _ _ _ Hl).
        assert (Hok1 : aok s1) by (eapply adv_aok; [exact Hl|by apply aok_pop]).
        apply ub_ret. destruct tk1 as [x1|]; [|apply ub_ret; fin].
        apply ub_bind, ub_cur_span. eapply (uni_go B Z Y HB); [exact Hu|exact Hg|done|lia|by symmetry|done|].
        intros v s2 c2 Hok2 Hs2 Hc2. destruct (unres v) as [o e]. apply ub_bind, ub_cur_span. destruct (_ =? _); [apply ub_ret; fin|].
        apply ub_adv. eapply ub_mono; [apply (loop_lin B Z Y HB _ F' (len s) Hu Hg); [done|unfold shorter in Hs2; lia|unfold shorter in Hs2; lia]|].
        intros ? s3 c3 Hc3 l' Hl'. assert (Hle' := adv_le _ _ _ Hl'). unfold CostFacts.lin in Hc3. fin.
    Qed.
    Lemma split_bd t d fol n c s elems puncts errs : W t → W d → aok s → (st (look s) d → rank r d (look s)) → Dc s r ≤ f → len s < n →
      ub c (split_outer n (rec f t) (rec f d) (F (key t)) (F (key d)) fol elems puncts errs) s (λ _ s' c', bdd 2 (yc r + Z + 20) c s c' s').
    Proof.
      intros Wt Wd Hok Hrk Hf Hn. destruct n as [|n]; [lia|]. cbn [split_outer].
      assert (Hf' : len s * (R + 4) ≤ f) by (unfold Dc in Hf; lia). assert (HB := HBc).
      assert (Ht := uni_rec t _ Wt Hf'). assert (Hd := uni_rec d _ Wd Hf').
      apply ub_bind, ub_peek_src; [done|]. destruct (look s) as [x|] eqn:El; [|apply ub_ret; fin].
      destruct (ts_contains (F (key d)) (Some x)) eqn:Ef; [|apply ub_ret; fin]. assert (Hst := first_st d x s Ef El). rewrite <- El in Hrk.
      apply (child _ d s); [done|done|by apply Hrk|done|intros; done|].
      intros v s1 c1 Hok1 Hs1 Hc1. destruct (unres v) as [[p|] e]; [|apply ub_ret; fin].
      apply ub_bind, ub_adv. eapply ub_mono; [apply (split_inner_lin B Z Y HB _ _ _ _ (len s) Ht n); [done|done|unfold shorter in Hs1; lia]|].
      intros [[o errs'] cont] s2 c2 Hc2 l Hl. unfold CostFacts.lin in Hc2. assert (Hle := adv_le _ _ _ Hl). unfold shorter in Hs1.
      destruct cont; [|apply ub_ret; fin]. apply ub_adv.
      eapply ub_mono; [apply (split_outer_lin B Z Y HB _ _ _ _ _ (len s) Ht Hd (go_rec d f Wd) n); [by eapply adv_aok|lia|lia]|].
      intros ? s3 c3 Hc3 l' Hl'. assert (Hle' := adv_le _ _ _ Hl'). unfold CostFacts.lin in Hc3. fin.
    Qed.
    Lemma punct_bd t d fol n c s elems puncts errs : W t → W d → aok s → (st (look s) d → rank r d (look s)) → Dc s r ≤ f → len s < n →
      ub c (punct_outer n (rec f t) (rec f d) (F (key t)) (F (key d)) fol elems puncts errs) s (λ _ s' c', bdd 2 (yc r + Z + 20) c s c' s').
    Proof.
      intros Wt Wd Hok Hrk Hf Hn. destruct n as [|n]; [lia|]. cbn [punct_outer].
      assert (Hf' : len s * (R + 4) ≤ f) by (unfold Dc in Hf; lia). assert (HB := HBc).
      assert (Ht := uni_rec t _ Wt Hf'). assert (Hd := uni_rec d _ Wd Hf').
      apply ub_bind, ub_peek_src; [done|]. destruct (look s) as [x|] eqn:El; [|apply ub_ret; fin].
      destruct (ts_contains (F (key d)) (Some x)) eqn:Ef; [|apply ub_ret; fin]. assert (Hst := first_st d x s Ef El). rewrite <- El in Hrk.
      apply (child _ d s); [done|done|by apply Hrk|done|intros; done|].
      intros v s1 c1 Hok1 Hs1 Hc1. destruct (unres v) as [[p|] e]; [|apply ub_ret; fin].
      apply ub_bind, ub_adv. eapply ub_mono; [apply (punct_inner_lin B Z Y HB _ _ _ _ (len s) Ht n); [done|done|unfold shorter in Hs1; lia]|].
      intros [[o errs'] cont] s2 c2 Hc2 l Hl. unfold CostFacts.lin in Hc2. assert (Hle := adv_le _ _ _ Hl). unfold shorter in Hs1.
      destruct cont; [|apply ub_ret; fin]. apply ub_adv.
      eapply ub_mono; [apply (punct_outer_lin B Z Y HB _ _ _ _ _ (len s) Ht Hd (go_rec d f Wd) n); [by eapply adv_aok|lia|lia]|].
      intros ? s3 c3 Hc3 l' Hl'. assert (Hle' := adv_le _ _ _ Hl'). unfold CostFacts.lin in Hc3. fin.
    Qed.
    Lemma recover_bd d n c s panic errs : W d → aok s → (st (look s) d ∨ nul d → rank r d (look s)) → Dc s r ≤ f → S (len s) < n →
      ub c (recover_loop n (rec f d) (F (key d)) panic errs) s (λ _ s' c', bdd (zc r + 2) (yc r + zc r + 2 * Z + 30) c s c' s').
    Proof.
      intros Wd Hok Hrk Hf Hn. destruct n as [|n]; [lia|]. cbn [recover_loop].
      assert (Hf' : len s * (R + 4) ≤ f) by (unfold Dc in Hf; lia). assert (HB := HBc).
      assert (Hd := uni_rec d _ Wd Hf').
      apply ub_bind, ub_peek_src; [done|]. destruct (look s) as [x|] eqn:El.
      - assert (Hnext : ∀ s1 panic' c1, aok s1 → (len s1 = len s ∧ look s1 = Some x ∧ c1 ≤ c + 2 + zc r) ∨ (shorter s1 s ∧ c1 + pot s1 + B ≤ c + 2 + yc r + pot s) →
          ub c1 (p ← match panic' with
                | Some p => sp ← cur_span; mret (set_hi p (sp_hi sp))
                | None => expecting (F (key d))
                end;
            _ ← consume;
            recover_loop n (rec f d) (F (key d)) (Some p) errs) s1 (λ _ s' c', bdd (zc r + 2) (yc r + zc r + 2 * Z + 30) c s c' s')).
        { intros s1 panic' c1 Hok1 Hc1.
          assert (Hc : ∀ p : perr, ub (c1 + 1) (_ ← consume; recover_loop n (rec f d) (F (key d)) (Some p) errs) s1
            (λ _ s' c', bdd (zc r + 2) (yc r + zc r + 2 * Z + 30) c s c' s')).
          { intros p. apply ub_bind, ub_consume. apply ub_adv. assert (Hle := adv_le _ _ _ (pop_adv s1)). assert (Hpl := pot_le B Z Y HBc _ _ Hle).
            assert (Hpop : shorter (pop s1) s ∧ c1 + pot (pop s1) + B ≤ c + 2 + yc r + zc r + pot s).
            { destruct Hc1 as [(E1 & E2 & Hc1)|[Hs1 Hc1]].
              - assert (Hs := pop_shorter _ _ E2). assert (Hp := pot_lt B Z Y HBc _ _ Hs). assert (He := pot_eq B _ _ E1). unfold shorter in *. lia.
              - unfold shorter in *. lia. }
            destruct Hpop as [Hsp Hcp]. unfold shorter in Hsp.
            eapply ub_mono; [apply (recover_lin B Z Y HB _ _ (len s) Hd n); [by apply aok_pop|done|lia]|].
            intros ? s2 c2 Hc2 l Hl. assert (Hle2 := adv_le _ _ _ Hl). unfold CostFacts.lin in Hc2. fin. }
          destruct panic' as [p|].
          - apply ub_bind, ub_bind, ub_cur_span, ub_ret. apply Hc.
          - apply ub_bind, ub_expecting. apply Hc. }
        apply ub_bind. destruct (ts_contains (F (key d)) (Some x) || ts_contains_e (F (key d))) eqn:Ef.
        + rewrite <- El in Ef, Hrk. apply first_or in Ef. apply (child _ d s); [done|done|by apply Hrk|done| |].
          * intros v s1 c1 Hok1 E1 Ek Hst Hc1. destruct (unres v) as [[y|] e]; [apply ub_ret, ub_ret; fin|].
            apply ub_ret. apply Hnext; [done|]. left. split; [done|]. split; [by rewrite Ek|lia].
          * intros v s1 c1 Hok1 Hs1 Hc1. destruct (unres v) as [[y|] e]; [apply ub_ret, ub_ret; fin|].
            apply ub_ret. apply Hnext; [done|]. right. split; [done|lia].
        + apply ub_ret. apply Hnext; [done|]. left. split; [done|]. split; [done|lia].
      - destruct (ts_contains_e (F (key d))) eqn:Ef; [|apply ub_ret; fin]. rewrite <- El in Hrk.
        apply (child _ d s); [done|done|apply Hrk; right; by apply (MD first_eps)|done| |].
        + intros v s1 c1 Hok1 E1 Ek Hst Hc1. destruct (unres v) as [[y|] e]; apply ub_ret; fin.
        + intros v s1 c1 Hok1 Hs1 Hc1. destruct (unres v) as [[y|] e]; apply ub_ret; fin.
    Qed.

    Lemma step_bd c t s : W t → aok s → rank (S r) t (look s) → Dc s (S r) ≤ S f →
      ub c (rec (S f) t) s (λ _ s' c', bdd (zc (S r)) (yc (S r)) c s c' s').
    Proof.
      intros Hw Hok Hrk Hf0. destruct consts as (Ez & Ey & Hz & HNz & HBr & HBs). assert (HB := HBc).
      assert (Hf : Dc s r ≤ f) by (unfold Dc in *; lia). assert (Hlf : len s + 3 < f) by (unfold Dc in Hf; lia).
      assert (Hf' : len s * (R + 4) ≤ f) by (unfold Dc in Hf; lia). assert (Hv := ME W_V _ Hw). assert (Hwidth := HN _ Hw). clear Hf0.
      unfold produce_md at 1. unfold RankFacts.rank in Hrk.
      destruct t as [nm y lit|n|ts|t|t|t|t|t|t|t|t|t d|t d|t d]; cbn [produce rk] in Hrk |- *; fold (rec f); cbn [subs] in Hwidth.
      - apply ub_bind. destruct lit as [l|].
        + unfold parse_token_lit. apply ub_bind, ub_peek. destruct (head (a_rest s)) as [tk|] eqn:Eh.
          * apply ub_tosrc. intros x. destruct (_ && _).
            -- apply ub_bind, ub_consume, ub_ret, ub_ret. assert (Hs := pop_cases _ _ Eh). assert (Hp := pot_lt B Z Y HBc _ _ Hs). fin.
            -- destruct (ts_contains _ _).
               ++ apply ub_bind, ub_empty_span, ub_bind, ub_expecting, ub_ret, ub_ret. fin.
               ++ apply ub_bind, ub_expecting, ub_ret, ub_ret. fin.
          * destruct (ts_contains_e _).
            -- apply ub_bind, ub_cur_span, ub_bind, ub_expecting, ub_ret, ub_ret. fin.
            -- apply ub_bind, ub_eof, ub_ret, ub_ret. fin.
        + unfold parse_token. apply ub_bind, ub_peek. destruct (head (a_rest s)) as [tk|] eqn:Eh.
          * destruct (_ =? _).
            -- apply ub_bind, ub_consume, ub_ret, ub_ret. assert (Hs := pop_cases _ _ Eh). assert (Hp := pot_lt B Z Y HBc _ _ Hs). fin.
            -- apply ub_bind, ub_cur_span, ub_ret, ub_ret. fin.
          * apply ub_bind, ub_cur_span, ub_ret, ub_ret. fin.
      - destruct (env !! n) as [[fs|vs]|] eqn:En; [| |done].
        + assert (HW := ME W_struct _ _ Hw En). cbn [decl_fields] in HW, Hwidth. apply ub_bind. eapply ub_mono; [by apply (seq_bd _ HW)|].
          assert (Hl1 : length (map fst fs) * zc r ≤ N * zc r) by nia. assert (Hl2 : length (map fst fs) * Z ≤ N * Z) by nia.
          intros x s1 c1 Hb. destruct (unres x) as [[xs|] e]; [|apply ub_ret; destruct Hb as [[E1 Hc1]|[Hs1 Hc1]]; fin].
          apply ub_bind. eapply ub_mono; [apply fields_bound|]. intros [] s2 c2 [Hc2 E2]. apply ub_ret.
          assert (Hp2 := pot_eq B s1 s2 (f_equal length E2)). apply (f_equal length) in E2. rewrite map_length in *. unfold field in *.
          destruct Hb as [[E1 Hc1]|[Hs1 Hc1]]; fin.
        + apply ub_bind, ub_peek_src; [done|]. cbn [key prod_of pid]. destruct (J (PNamed n) (look s)) as [i|] eqn:EJ; cbn [mbind option_bind].
          * assert (EJ' := EJ). apply (MD jump_spec _ _ _ _ Hv En) in EJ' as (t' & sem & Hi & Hx). unfold field in *. rewrite Hi. cbn [mbind option_bind].
            assert (Hin : (t', sem) ∈ vs) by (by eapply elem_of_list_lookup_2).
            assert (Hin' : t' ∈ map fst vs) by (apply elem_of_list_fmap; by exists (t', sem)).
            assert (Hw' : W t'). { assert (HW := ME W_struct _ _ Hw En). rewrite Forall_forall in HW. by apply HW. }
            assert (Hst : st (look s) t').
            { destruct (look s) as [x|] eqn:El; [by exists x|]. exfalso. assert (H := Henums _ Hw). cbn in H. rewrite En in H.
              destruct (H _ Hin). apply (MD nul_lang); [by apply (ME W_V)|done]. }
            apply (child _ t' s); [done|done|by apply Hrk|done|intros; done|]. intros x s1 c1 Hok1 Hs1 Hc1.
            destruct x as [x|x es|es], sem as [sem|]; try (apply ub_ret; fin).
            -- apply ub_bind, ub_apply, ub_ret. assert (Hp := pot_eq B s1 (mark s1 (tree_span x) sem) eq_refl).
               right. unfold shorter in *. cbn [mark a_rest] in *. split; [lia|]. lia.
            -- apply ub_bind, ub_apply, ub_ret. assert (Hp := pot_eq B s1 (mark s1 (tree_span x) sem) eq_refl).
               right. unfold shorter in *. cbn [mark a_rest] in *. split; [lia|]. lia.
          * apply ub_bind, ub_expecting, ub_ret. fin.
      - assert (HW := ME W_all _ Hw). cbn [subs] in HW. apply ub_bind. eapply ub_mono; [by apply (seq_bd _ HW)|].
        assert (Hl1 : length ts * zc r ≤ N * zc r) by nia. assert (Hl2 : length ts * Z ≤ N * Z) by nia.
        intros x s1 c1 Hb. apply ub_ret. destruct Hb as [[E1 Hc1]|[Hs1 Hc1]]; fin.
      - assert (Wt : W t) by (apply (ME W_sub _ _ Hw); cbn; set_solver). eapply ub_mono; [by apply HC|]. intros ? s1 c1 [[E1 Hc1]|[Hs1 Hc1]]; fin.
      - assert (Wt : W t) by (apply (ME W_sub _ _ Hw); cbn; set_solver). apply ub_bind. eapply ub_mono.
        + apply (option_bd _ _ _ (zc r) (yc r)); [done|]. intros c' x El Ef. apply HC; [done|done|apply Hrk; by eapply first_st|done].
        + intros x s1 c1 [[E1 Hc1]|[Hs1 Hc1]]; apply ub_ret; fin.
      - assert (Wt : W t) by (apply (ME W_sub _ _ Hw); cbn; set_solver). apply ub_bind. eapply ub_mono.
        + apply (option_bd _ _ _ (zc r) (yc r)); [done|]. intros c' x El Ef. apply HC; [done|done|apply Hrk; by eapply first_st|done].
        + intros x s1 c1 [[E1 Hc1]|[Hs1 Hc1]]; apply ub_ret; fin.
      - assert (Wt : W t) by (apply (ME W_sub _ _ Hw); cbn; set_solver). apply ub_bind. eapply ub_mono; [by apply HC|].
        intros [x|x es|es] s1 c1 Hb.
        1-2: apply ub_bind, ub_get_src; intros v; apply ub_ret; destruct Hb as [[E1 Hc1]|[Hs1 Hc1]]; fin.
        apply ub_ret. destruct Hb as [[E1 Hc1]|[Hs1 Hc1]]; fin.
      - assert (Wt : W t) by (apply (ME W_sub _ _ Hw); cbn; set_solver). apply ub_bind. eapply ub_mono; [by apply HC|].
        intros [x|x es|es] s1 c1 Hb.
        1-2: apply ub_bind, ub_get_src; intros v; apply ub_ret; destruct Hb as [[E1 Hc1]|[Hs1 Hc1]]; fin.
        apply ub_ret. destruct Hb as [[E1 Hc1]|[Hs1 Hc1]]; fin.
      - assert (Wt : W t) by (apply (ME W_sub _ _ Hw); cbn; set_solver). apply ub_bind. eapply ub_mono.
        + apply (plus_bd t); [done| |done|done|done]. intros x. rewrite (MD first_spec (TPlus t) x). by apply (MD fst_plus).
        + intros x s1 c1 [[E1 Hc1]|[Hs1 Hc1]]; apply ub_ret; fin.
      - assert (Wt : W t) by (apply (ME W_sub _ _ Hw); cbn; set_solver). apply ub_bind.
        assert (HF : ∀ x, ts_contains (F (key (TPlus t))) (Some x) = true ↔ fst_ t x).
        { intros x. rewrite (MD first_spec (TPlus t) x). by apply (MD fst_plus), (MD V_star). }
        eapply ub_mono.
        + apply (option_bd _ _ _ (zc r + 2) (yc r + 2)); [done|]. intros c' x El Ef. apply (plus_bd t); [done|done|done| |done].
          apply Hrk. exists x. split; [done|by apply HF].
        + intros x s1 c1 [[E1 Hc1]|[Hs1 Hc1]]; apply ub_ret; fin.
      - assert (Wt : W t) by (apply (ME W_sub _ _ Hw); cbn; set_solver). apply ub_bind.
        assert (HF : ∀ x, ts_contains (F (key (TLoop t))) (Some x) = true ↔ fst_ t x).
        { intros x. rewrite (MD first_spec (TLoop t) x). by apply (MD fst_plus t x). }
        unfold produce_loop. apply ub_bind. eapply ub_mono; [apply (loop_bd t); [done|done|done|done|done|lia]|].
        intros [l errs] s1 c1 Hb. apply ub_bind.
        destruct (head l) as [a|]; [destruct (last l) as [b|]|]; [apply ub_ret|apply ub_empty_span|apply ub_empty_span];
          apply ub_ret, ub_ret; destruct Hb as [[E1 Hc1]|[Hs1 Hc1]]; fin.
      - destruct (ME W_two (TSplit t d) t d eq_refl Hw) as [W1 W2]. destruct Hrk as [Rt Rd]. unfold produce_split.
        apply (child _ t s); [done|done|done|done| |].
        + intros x s1 c1 Hok1 E1 Ek Hst Hc1. destruct (unres x) as [[v|] e]; [|apply ub_ret; fin].
          assert (Hp1 := pot_eq B _ _ E1). apply ub_bind. eapply ub_mono.
          * apply split_bd; [done|done|done| |unfold Dc in *; lia|lia]. rewrite Ek. intros Hs. by destruct (Rd Hs).
          * intros [[elems puncts] errs] s2 c2 [[E2 Hc2]|[Hs2 Hc2]]; apply ub_ret; fin.
        + intros x s1 c1 Hok1 Hs1 Hc1. destruct (unres x) as [[v|] e]; [|apply ub_ret; fin].
          apply ub_bind, ub_adv. eapply ub_mono.
          * apply (split_outer_lin B Z Y HB _ _ _ _ _ (len s) (uni_rec t _ W1 Hf') (uni_rec d _ W2 Hf') (go_rec d f W2)); [done|done|unfold shorter in *; lia].
          * intros [[elems puncts] errs] s2 c2 Hc2 l Hl. assert (Hle := adv_le _ _ _ Hl). unfold CostFacts.lin in Hc2. apply ub_ret. fin.
      - destruct (ME W_two (TPunct t d) t d eq_refl Hw) as [W1 W2]. destruct Hrk as [Rt Rd]. unfold produce_punct.
        apply (child _ t s); [done|done|done|done| |].
        + intros x s1 c1 Hok1 E1 Ek Hst Hc1. destruct (unres x) as [[v|] e]; [|apply ub_ret; fin].
          assert (Hp1 := pot_eq B _ _ E1). apply ub_bind. eapply ub_mono.
          * apply punct_bd; [done|done|done| |unfold Dc in *; lia|lia]. rewrite Ek. intros Hs. by destruct (Rd Hs).
          * intros [[elems puncts] errs] s2 c2 [[E2 Hc2]|[Hs2 Hc2]]; apply ub_ret; fin.
        + intros x s1 c1 Hok1 Hs1 Hc1. destruct (unres x) as [[v|] e]; [|apply ub_ret; fin].
          apply ub_bind, ub_adv. eapply ub_mono.
          * apply (punct_outer_lin B Z Y HB _ _ _ _ _ (len s) (uni_rec t _ W1 Hf') (uni_rec d _ W2 Hf') (go_rec d f W2)); [done|done|unfold shorter in *; lia].
          * intros [[elems puncts] errs] s2 c2 Hc2 l Hl. assert (Hle := adv_le _ _ _ Hl). unfold CostFacts.lin in Hc2. apply ub_ret. fin.
      - destruct (ME W_two (TRecover t d) t d eq_refl Hw) as [W1 W2]. destruct Hrk as [Rt Rd]. unfold produce_recover.
        apply ub_bind, ub_peek_src; [done|].
        assert (Htail : ∀ (q : option perr * span * option tree * list perr) s1 c1, aok s1 → 
          (len s1 = len s ∧ look s1 = look s ∧ ¬ st (look s) t ∧ c1 ≤ c + 4 + zc r) ∨ (shorter s1 s ∧ c1 + pot s1 + B ≤ c + 3 + yc r + pot s) →
          ub c1 (let '(panic, hsp, hd, errs) := q in
            '(tl, panic', errs') ← recover_loop f (rec f d) (F (key d)) panic errs;
            let errs'' := errs' ++ option_list panic' in
            match tl with
            | Some x => mret (res_into (TrRecover hsp hd x) errs'')
            | None => mret (RPanic errs'')
            end) s1 (λ _ s' c', bdd (zc (S r)) (yc (S r)) c s c' s')).
        { intros [[[panic hsp] hd] errs] s1 c1 Hok1 [(E1 & Ek & Hst & Hc1)|[Hs1 Hc1]]; apply ub_bind.
          - assert (Hp1 := pot_eq B _ _ E1). eapply ub_mono.
            + apply recover_bd; [done|done| |unfold Dc in *; lia|lia]. rewrite Ek. intros Hs. by destruct (Rd Hs).
            + intros [[tl panic'] errs'] s2 c2 Hb. destruct tl; apply ub_ret; destruct Hb as [[E2 Hc2]|[Hs2 Hc2]]; fin.
          - apply ub_adv. eapply ub_mono.
            + apply (recover_lin B Z Y HB _ _ (len s) (uni_rec d _ W2 Hf')); [done|done|unfold shorter in *; lia].
            + intros [[tl panic'] errs'] s2 c2 Hc2 l Hl. assert (Hle := adv_le _ _ _ Hl). unfold CostFacts.lin in Hc2. destruct tl; apply ub_ret; fin. }
        apply ub_bind. destruct (ts_contains (F (key t)) (look s) || ts_contains_e (F (key t))) eqn:Ef.
        + apply first_or in Ef. apply (child _ t s); [done|done|by apply Rt|done| |].
          * intros x s1 c1 Hok1 E1 Ek Hst Hc1. destruct (unres x) as [[v|] e].
            -- apply ub_ret. apply (Htail (None, tree_span v, Some v, e) s1); [done|]. left. split_and!; [done|done|done|lia].
            -- apply ub_bind, ub_empty_span, ub_ret. apply (Htail (last e, _, None, []) s1); [done|]. left. split_and!; [done|done|done|lia].
          * intros x s1 c1 Hok1 Hs1 Hc1. destruct (unres x) as [[v|] e].
            -- apply ub_ret. apply (Htail (None, tree_span v, Some v, e) s1); [done|]. right. split; [done|lia].
            -- apply ub_bind, ub_empty_span, ub_ret. apply (Htail (last e, _, None, []) s1); [done|]. right. split; [done|lia].
        + apply ub_bind, ub_expecting, ub_bind, ub_empty_span, ub_ret. apply (Htail (Some _, _, None, []) s); [done|]. left.
          split_and!; [done|done| |lia]. intros (x & El & Hx). apply orb_false_iff in Ef as [Ef _]. rewrite El in Ef. apply (MD first_spec) in Hx. exact (eq_true_false_abs _ Hx Ef).
    Qed.
  End step.

  Lemma all_bd f : ∀ r c t s, r ≤ R → W t → aok s → rank r t (look s) → Dc s r ≤ f → ub c (rec f t) s (λ _ s' c', bdd (zc r) (yc r) c s c' s').
  Proof.
    induction f as [|f IH]; intros r c t s Hr Hw Hok Hrk Hf; [unfold Dc in Hf; lia|].
    destruct r as [|r]; [done|]. apply step_bd; [lia| | |done|done|done|done].
    - intros c' t' s' ????. apply IH; [lia|done..].
    - intros c' t' s' ???. apply IH; [lia|done|done|by apply HR|done].
  Qed.
  Lemma parse_bd f c s : aok s → Dc s R ≤ f → ub c (rec f root) s (λ _ s' c', c' ≤ c + Z + B * len s).
  Proof.
    intros Hok Hf. eapply ub_mono; [apply all_bd; [done|apply rtc_refl|done|apply HR, rtc_refl|done]|].
    intros ? s' c' Hb%(bdd_lin B Z Y HBc). unfold CostFacts.lin, CostFacts.pot in Hb. lia.
  Qed.
End md.
Unset Default Proof Using.

(** * Statements about runs *)
Lemma parse_linear env root md : accepted env root md → filled env root → plain_enums env root → all_within env (grounded env) root →
  ∃ K, ∀ extract s f, state_ok s → K * (1 + length (to_come extract s)) ≤ f →
    ∃ o s', run extract (parse env f root (inr md)) s = ODone (inr o) s' ∧
      operations extract (parse env f root (inr md)) s ≤ K * (1 + length (to_come extract s)).
Proof.
  intros Hacc Hfl He Hg. assert (Hacc' := Hacc). destruct Hacc as (regs & iter & Hreg & Hperm & Hmeta).
  destruct (width_uniform env root regs iter md Hreg Hperm Hmeta He) as [N HN].
  destruct (rank_uniform env root regs iter md Hreg Hperm Hmeta He Hg) as [R HR].
  exists (R + 5 + zc N R + Bc N R). intros extract s f Hok Hf. change (to_come extract s) with (a_rest (abs extract s)) in *.
  assert (Hok' : aok (abs extract s)) by (by apply state_ok_abs).
  assert (HD : Dc R (abs extract s) R ≤ f) by (unfold Dc; nia).
  assert (Hub := parse_bd env root regs iter md Hreg Hperm Hmeta He N R HN HR f 0 (abs extract s) Hok' HD).
  assert (Hub' : ub 0 (parse env f root (inr md)) (abs extract s) (λ _ _ c', c' ≤ zc N R + Bc N R * len (abs extract s) + 1)).
  { unfold parse, parse_with. apply ub_bind, ub_bind. fold (produce_md env md f root). eapply ub_mono; [exact Hub|].
    intros r s' c' Hc'. destruct r as [x|x es|es].
    - apply ub_ret, ub_ret. lia.
    - apply (ub_step _ 1); [done|]. apply ub_ret. lia.
    - apply (ub_step _ 1); [done|]. apply ub_ret. lia. }
  assert (Hnf : run extract (parse env f root (inr md)) s ≠ OFuel).
  { intros E. assert (H := run_abs extract (parse env f root (inr md)) s). rewrite E in H. unfold ub in Hub'. by rewrite <- H in Hub'. }
  destruct (parse_ends extract env root md s Hacc' Hfl He Hg Hok) as (f0 & o & s' & Ho).
  assert (Hrun : run extract (parse env f root (inr md)) s = ODone (inr o) s').
  { rewrite <- (Ho (f `max` f0)) by lia. symmetry. apply le_run; [apply parse_le; lia|done]. }
  exists o, s'. split; [done|]. rewrite operations_abs. assert (Ha := run_done _ _ _ _ _ Hrun).
  unfold ub in Hub'. rewrite Ha in Hub'.
  destruct Hub' as (c' & H1 & H2). nia.
Qed.
Lemma parse_linear_productive env root md : accepted env root md → filled env root → plain_enums env root → productive env root →
  ∃ K, ∀ extract s f, state_ok s → K * (1 + length (to_come extract s)) ≤ f →
    ∃ o s', run extract (parse env f root (inr md)) s = ODone (inr o) s' ∧
      operations extract (parse env f root (inr md)) s ≤ K * (1 + length (to_come extract s)).
Proof. intros ??? H%productive_grounded. by apply parse_linear. Qed.
