(** Counting the operations of a run; amortised bounds for the loops. *)
From Coq Require Import String NArith.
From stdpp Require Import prelude list strings relations.
From Verif Require Import LexModel LexSpec LexFacts SynSetModel SynSetFacts TableModel StreamModel StreamSpec StreamFacts TypeModel ProduceModel ParseSpec ProgFacts CostSpec TermFacts EndFacts.
Local Open Scope nat_scope.
#[local] Arguments ts_contains : simpl never.
#[local] Arguments ts_contains_e : simpl never.

Fixpoint acost {A} (m : M A) (s : ast) : nat :=
  match m with
  | Ret _ | Fuel => 0
  | Peek k => S (acost (k (head (a_rest s))) s)
  | ToSrc t k => S match token_src t (a_src s) with Some x => acost (k (t_ty t, x)) s | None => 0 end
  | Consume k =>
    S match a_rest s with
      | t :: r => acost (k (Some t)) (Ast (a_src s) (vec_push (a_done s) t) r)
      | [] => acost (k None) s
      end
  | EmptySpan k => S (acost (k (Span (end_of (a_done s)) (end_of (a_done s)))) s)
  | CurSpan k => S (acost (k (a_span s)) s)
  | GetSrc sp k => S match span_get sp (a_src s) with Some x => acost (k x) s | None => 0 end
  | Apply sp sem k => S (acost k (Ast (a_src s) (vec_apply_semantic (a_done s) sp sem) (a_rest s)))
  | Extend es k => S (acost k s)
  end.

Section run.
  Variable extract : nat → bool.
  Notation abs := (abs extract).
  Notation stream := (stream extract).
  Lemma operations_abs {A} (m : M A) s : operations extract m s = acost m (abs s).
  Proof.
    revert s. induction m as [| |k IH|t k IH|k IH|k IH|k IH|sp k IH|sp sem k IH|es k IH];
      intros s; cbn [operations acost]; [done|done|..]; try (f_equal; [idtac]).
    - rewrite IH, abs_fill. destruct (fill_spec extract s) as (_ & -> & _). done.
    - change (a_src (abs s)) with (p_src s). destruct (token_src t (p_src s)); [apply IH|done].
    - destruct (fill_spec extract s) as (_ & Hp & _).
      assert (Ha := abs_fill extract s).
      destruct (fill extract s) as [src evs pk inv toks ext err]. cbn in Hp. subst pk.
      unfold StreamFacts.abs in Ha. cbn [p_src p_tokens] in Ha. injection Ha as -> -> Hst.
      unfold StreamFacts.stream at 1 in Hst. cbn [p_peeked p_evs] in Hst.
      unfold take_peeked. cbn [p_peeked].
      change (a_rest (abs s)) with (stream s).
      destruct (stream s) as [|t r] eqn:Es; cbn [head hd_error app] in Hst |- *; f_equal.
      + rewrite IH. f_equal. unfold StreamFacts.abs, StreamFacts.stream. cbn [p_peeked p_evs p_src p_tokens app].
        rewrite Hst. unfold StreamFacts.stream in Es. by rewrite Es.
      + rewrite IH. f_equal. unfold StreamFacts.abs, StreamFacts.stream. cbn [p_peeked p_evs p_src p_tokens app].
        f_equal. injection Hst as Hst. done.
    - apply IH.
    - rewrite IH. destruct (fill_spec extract s) as (_ & Hp & _). rewrite abs_fill, Hp. f_equal. f_equal.
      unfold a_span. change (a_rest (abs s)) with (stream s).
      assert (Ha := abs_fill extract s). unfold StreamFacts.abs in Ha. injection Ha as -> _ _. by destruct (stream s).
    - change (a_src (abs s)) with (p_src s). destruct (span_get sp (p_src s)); [apply IH|done].
    - apply IH.
    - by rewrite IH.
  Qed.
End run.

Lemma acost_bind {A B} (m : M A) (f : A → M B) s :
  acost (m ≫= f) s = acost m s + match arun m s with ODone a s' => acost (f a) s' | _ => 0 end.
Proof.
  rewrite bindM_eq. revert s.
  induction m as [| |k IH|t k IH|k IH|k IH|k IH|sp k IH|sp sem k IH|es k IH]; intros s;
    cbn [bindM arun acost]; try done; cbn [plus]; f_equal; auto.
  - destruct (token_src t (a_src s)); auto.
  - destruct (a_rest s); auto.
  - destruct (span_get sp (a_src s)); auto.
Qed.

(** The run from [s] does not run out of fuel, and where it ends, having performed at most
    [c' - c] operations, [Q a s' c'] holds. *)
Definition ub {A} (c : nat) (m : M A) (s : ast) (Q : A → ast → nat → Prop) : Prop :=
  match arun m s with OFuel => False | OCrash => True | ODone a s' => ∃ c', c + acost m s ≤ c' ∧ Q a s' c' end.
Lemma ub_ret {A} c (a : A) s (Q : A → ast → nat → Prop) : Q a s c → ub c (mret a) s Q.
Proof. intros H. exists c. split; [cbn; lia|done]. Qed.
Lemma ub_mono {A} c (m : M A) s (Q Q' : A → ast → nat → Prop) : ub c m s Q → (∀ a s' c', Q a s' c' → Q' a s' c') → ub c m s Q'.
Proof. unfold ub. destruct (arun m s); [done..|]. intros (c' & H & HQ) Hm. eauto. Qed.
Lemma ub_bind {A B} c (m : M A) (f : A → M B) s Q : ub c m s (λ a s' c', ub c' (f a) s' Q) → ub c (m ≫= f) s Q.
Proof.
  unfold ub. rewrite arun_bind, acost_bind. destruct (arun m s) as [| |a s']; [done..|]. intros (c' & Hc & H).
  destruct (arun (f a) s') as [| |b s2]; [done..|]. destruct H as (c2 & Hc2 & H). exists c2. split; [lia|done].
Qed.
Lemma ub_adv {A} c (m : M A) s (Q : A → ast → nat → Prop) : ub c m s (λ a s' c', ∀ l, adv s l s' → Q a s' c') → ub c m s Q.
Proof.
  unfold ub. destruct (arun m s) as [| |a s'] eqn:E; [done..|]. intros (c' & Hc & H).
  apply arun_adv in E as [l Hl]. exists c'. eauto.
Qed.
Lemma ub_wp {A} c (m : M A) s (Q : A → ast → nat → Prop) (P : A → ast → Prop) : ub c m s Q → wp True True m s P →
  ub c m s (λ a s' c', Q a s' c' ∧ P a s').
Proof. unfold ub, wp. destruct (arun m s) as [| |a s']; [done..|]. intros (c' & Hc & H) HP. eauto. Qed.
Lemma ub_step {A} c k (m : M A) s (Q : A → ast → nat → Prop) :
  acost m s ≤ k → wp False True m s (λ a s', Q a s' (c + k)) → ub c m s Q.
Proof. unfold ub, wp. intros Hk. destruct (arun m s) as [| |a s']; [done..|]. intros HQ. exists (c + k). split; [lia|done]. Qed.
Lemma ub_peek_src c s (Q : option tok → ast → nat → Prop) : aok s → Q (look s) s (c + 2) → ub c peek_src s Q.
Proof.
  intros Hok H. apply (ub_step c 2); [|by apply wp_peek_src]. unfold peek_src. cbn [acost].
  destruct (head (a_rest s)); cbn [acost]; [destruct (token_src _ _)|]; cbn [acost]; lia.
Qed.
Lemma ub_consume c s (Q : option token → ast → nat → Prop) : Q (head (a_rest s)) (pop s) (c + 1) → ub c consume s Q.
Proof. intros H. apply (ub_step c 1); [|by apply wp_consume]. unfold consume. cbn [acost]. by destruct (a_rest s). Qed.
Lemma ub_cur_span c s (Q : span → ast → nat → Prop) : Q (a_span s) s (c + 1) → ub c cur_span s Q.
Proof. intros H. by apply (ub_step c 1). Qed.
Lemma ub_empty_span c s (Q : span → ast → nat → Prop) : Q (Span (pos s) (pos s)) s (c + 1) → ub c empty_span s Q.
Proof. intros H. by apply (ub_step c 1). Qed.
Lemma ub_expecting c set s (Q : perr → ast → nat → Prop) : Q (PErr (a_span s) (Expecting set)) s (c + 1) → ub c (expecting set) s Q.
Proof. intros H. by apply (ub_step c 1). Qed.
Lemma ub_apply c sp sem s (Q : unit → ast → nat → Prop) : Q tt (mark s sp sem) (c + 1) → ub c (apply_semantic sp sem) s Q.
Proof. intros H. by apply (ub_step c 1). Qed.
Lemma ub_get_src c sp s (Q : string → ast → nat → Prop) : (∀ x, Q x s (c + 1)) → ub c (get_src sp) s Q.
Proof.
  intros H. unfold ub, get_src. cbn [arun acost]. destruct (span_get sp (a_src s)); [|done].
  exists (c + 1). split; [cbn; lia|apply H].
Qed.

Notation len s := (length (a_rest s)).

(** * Amortised bounds *)
Section pot.
  (** [B] pays for a token consumed; [Z] bounds a production that consumes nothing, and
      [Y + B (k - 1)] one that consumes [k > 0] tokens. *)
  Variables B Z Y : nat.
  Hypothesis HB : Y + 2 * Z + 60 ≤ B.
  Definition pot (s : ast) : nat := B * len s.
  Definition lin (a c : nat) (s : ast) (c' : nat) (s' : ast) : Prop := c' + pot s' ≤ c + a + pot s.
  Definition bdd (z y c : nat) (s : ast) (c' : nat) (s' : ast) : Prop :=
    (len s' = len s ∧ c' ≤ c + z) ∨ (shorter s' s ∧ c' + pot s' + B ≤ c + y + pot s).
  Lemma pot_eq s s' : len s' = len s → pot s' = pot s.
  Proof. unfold pot. by intros ->. Qed.
  Lemma pot_lt s s' : shorter s' s → pot s' + B ≤ pot s.
  Proof. unfold pot, shorter. intros. nia. Qed.
  Lemma pot_le s s' : len s' ≤ len s → pot s' ≤ pot s.
  Proof. unfold pot. intros. nia. Qed.
  Lemma bdd_lin c s c' s' : bdd Z Y c s c' s' → lin Z c s c' s'.
  Proof using HB. unfold bdd, lin. intros [[H%pot_eq ?]|[? ?]]; lia. Qed.
  Lemma bdd_short z y c s c' s' : bdd z y c s c' s' → shorter s' s → c' + pot s' + B ≤ c + y + pot s.
  Proof. unfold bdd, shorter. intros [[? ?]|[? ?]]; lia. Qed.

  (** [p] is bounded on less input than [n], and consumes something when the next token is in [F]. *)
  Definition uni (p : M (res tree)) (n : nat) : Prop :=
    ∀ c s, aok s → len s < n → ub c p s (λ _ s' c', bdd Z Y c s c' s').
  Definition go (p : M (res tree)) (F : tset) : Prop :=
    ∀ s x, aok s → look s = Some x → ts_contains F (Some x) = true → wp True True p s (λ _ s', shorter s' s).
  Lemma uni_le p n n' : n' ≤ n → uni p n → uni p n'.
  Proof. intros Hn H c s ??. apply H; [done|lia]. Qed.
  Lemma uni_go {X} (f : res tree → M X) c p n F s x Q : uni p n → go p F → aok s → len s < n → look s = Some x → ts_contains F (Some x) = true →
    (∀ r s' c', aok s' → shorter s' s → c' + pot s' + B ≤ c + Y + pot s → ub c' (f r) s' Q) → ub c (p ≫= f) s Q.
  Proof.
    intros Hu Hg Hok Hn El Ef HQ. apply ub_bind, ub_adv. eapply ub_mono.
    - apply (ub_wp c p s _ _ (Hu c s Hok Hn) (Hg s x Hok El Ef)).
    - intros r s' c' [Hb Hs] l Hl. apply HQ; [by eapply adv_aok|done|by eapply bdd_short].
  Qed.
  Lemma uni_lin {X} (f : res tree → M X) c p n s Q : uni p n → aok s → len s < n →
    (∀ r s' c', aok s' → len s' ≤ len s → c' + pot s' ≤ c + Z + pot s → ub c' (f r) s' Q) → ub c (p ≫= f) s Q.
  Proof using HB.
    intros Hu Hok Hn HQ. apply ub_bind, ub_adv. eapply ub_mono; [by apply Hu|].
    intros r s' c' Hb%bdd_lin l Hl. apply HQ; [by eapply adv_aok|by eapply adv_le|done].
  Qed.

  Lemma iter_lin p F n0 : uni p n0 → go p F → ∀ n c s acc errs hi, aok s → len s < n0 → len s < n →
    ub c (iter_loop n p F acc errs hi) s (λ _ s' c', lin 2 c s c' s').
  Proof using HB.
    intros Hu Hg n. induction n as [|n IH]; intros c s acc errs hi Hok Hn0 Hn; [lia|]. cbn [iter_loop].
    apply ub_bind, ub_peek_src; [done|]. destruct (look s) as [x|] eqn:El; [|apply ub_ret; unfold lin; lia].
    destruct (ts_contains F (Some x)) eqn:Ef; [|apply ub_ret; unfold lin; lia].
    eapply uni_go; [done..|]. intros r s1 c1 Hok1 Hs1 Hc1. unfold shorter in Hs1.
    destruct (unres r) as [[t|] e]; [|apply ub_ret; unfold lin; lia].
    eapply ub_mono; [apply IH; [done|lia|lia]|]. unfold lin. intros; cbn beta in *. lia.
  Qed.
  Lemma skip_lin F n : ∀ c s hi, aok s → len s < n →
    ub c (skip_loop n F (look s) hi) s (λ r s' c', lin 0 c s c' s' ∧ r.1 = look s' ∧ match r.1 with Some x => ts_contains F (Some x) = true | None => True end).
  Proof using HB.
    induction n as [|n IH]; intros c s hi Hok Hn; [lia|]. cbn [skip_loop].
    destruct (look s) as [x|] eqn:El; [|apply ub_ret; unfold lin; split; [lia|done]].
    destruct (ts_contains F (Some x)) eqn:Ef; [apply ub_ret; unfold lin; split; [lia|done]|].
    apply ub_bind, ub_cur_span, ub_bind, ub_consume, ub_bind, ub_peek_src; [by apply aok_pop|].
    assert (Hs := pop_shorter _ _ El). assert (Hp := pot_lt _ _ Hs). unfold shorter in Hs.
    eapply ub_mono; [apply IH; [by apply aok_pop|lia]|]. unfold lin. intros r s' c' (? & ? & ?). split; [lia|done].
  Qed.
  Lemma loop_lin p F n0 : uni p n0 → go p F → ∀ n c s acc errs, aok s → len s < n0 → len s < n →
    ub c (loop_loop n p F acc errs) s (λ _ s' c', lin 10 c s c' s').
  Proof using HB.
    intros Hu Hg n. induction n as [|n IH]; intros c s acc errs Hok Hn0 Hn; [lia|]. cbn [loop_loop].
    apply ub_bind, ub_peek_src; [done|]. destruct (look s) as [x|] eqn:El; [|apply ub_ret; unfold lin; lia].
    apply ub_bind.
    assert (Hitem : ∀ (r : option tok * list perr) s1 c1, r.1 = look s1 → match r.1 with Some x => ts_contains F (Some x) = true | None => True end →
      aok s1 → len s1 ≤ len s → c1 + pot s1 ≤ c + 2 + pot s →
      ub c1 (let '(tk1, errs1) := r in match tk1 with
        | None => mret (acc, errs1)
        | Some _ =>
          sp0 ← cur_span;
          r ← p;
          let '(o, e) := unres r in
          let acc1 := acc ++ option_list o in
          let errs2 := errs1 ++ e in
          sp1 ← cur_span;
          if sp_lo sp0 =? sp_lo sp1 then mret (acc1, errs2 ++ [PErr sp1 NoAdvance])
          else loop_loop n p F acc1 errs2
        end) s1 (λ _ s' c', lin 10 c s c' s')).
    { intros [tk1 errs1] s1 c1 E1 Hin Hok1 Hle Hc1. cbn [fst] in E1, Hin. destruct tk1 as [x1|]; [|apply ub_ret; unfold lin; lia].
      apply ub_bind, ub_cur_span. eapply uni_go; [done|done|done|lia|by symmetry|done|].
      intros r s2 c2 Hok2 Hs2 Hc2. unfold shorter in Hs2. destruct (unres r) as [o e].
      apply ub_bind, ub_cur_span. destruct (_ =? _); [apply ub_ret; unfold lin; lia|].
      eapply ub_mono; [apply IH; [done|lia|lia]|]. unfold lin. intros; cbn beta in *. lia. }
    destruct (ts_contains F (Some x)) eqn:Ef.
    - apply ub_ret. apply (Hitem (Some x, errs) s); [done|done|done|lia|lia].
    - apply ub_bind, ub_cur_span, ub_bind, ub_consume, ub_bind, ub_peek_src; [by apply aok_pop|].
      assert (Hs := pop_shorter _ _ El). assert (Hp := pot_lt _ _ Hs). unfold shorter in Hs.
      apply ub_bind, ub_adv. eapply ub_mono; [apply (skip_lin F n); [by apply aok_pop|lia]|].
      intros [tk1 hi] s1 c1 (Hl1 & E1 & Hin) l Hl. unfold lin in Hl1. cbn [fst] in E1, Hin. assert (Hle := adv_le _ _ _ Hl).
      apply ub_ret. apply (Hitem (tk1, _) s1); [done|done|eapply adv_aok; [exact Hl|by apply aok_pop]|lia|lia].
  Qed.

  Section split.
    Variables ef pf fol : tset.
    Lemma split_inner_lin pT n0 : uni pT n0 → ∀ n c s panic errs, aok s → len s < n0 → len s < n →
      ub c (split_inner n pT ef pf fol panic errs) s (λ _ s' c', lin (Z + 10) c s c' s').
    Proof using HB.
      intros Hu n. induction n as [|n IH]; intros c s panic errs Hok Hn0 Hn; [lia|]. cbn [split_inner].
      apply ub_bind, ub_peek_src; [done|]. apply ub_bind.
      assert (Hnext : ∀ s1 panic' c1, aok s1 → len s1 ≤ len s → c1 + pot s1 ≤ c + Z + 4 + pot s →
        ub c1 (if ts_contains pf (look s1) then mret (None, errs ++ option_list panic', true)
        else
          if bool_decide (look s1 = None) || ts_contains fol (look s1)
          then mret (None, errs ++ option_list panic', false)
          else _ ← consume; split_inner n pT ef pf fol panic' errs) s1 (λ _ s' c', lin (Z + 10) c s c' s')).
      { intros s1 panic' c1 Hok1 Hle Hc1. destruct (ts_contains pf (look s1)); [apply ub_ret; unfold lin; lia|].
        destruct (bool_decide (look s1 = None)) eqn:En; [apply ub_ret; unfold lin; lia|].
        apply bool_decide_eq_false in En. destruct (look s1) as [x|] eqn:El; [|done].
        destruct (ts_contains fol (Some x)); [apply ub_ret; unfold lin; lia|]. cbn [orb].
        apply ub_bind, ub_consume. assert (Hs := pop_shorter _ _ El). assert (Hp := pot_lt _ _ Hs). unfold shorter in Hs.
        eapply ub_mono; [apply IH; [by apply aok_pop|lia|lia]|]. unfold lin. intros; cbn beta in *. lia. }
      destruct (ts_contains ef (look s) || ts_contains_e ef).
      - eapply uni_lin; [done|done|done|]. intros r s1 c1 Hok1 Hle Hc1.
        destruct (unres r) as [[t|] e]; [apply ub_ret, ub_ret; unfold lin; lia|].
        apply ub_bind, ub_peek_src; [done|]. apply ub_ret. apply Hnext; [done|lia|lia].
      - destruct panic as [p|].
        + apply ub_bind, ub_cur_span, ub_ret. apply Hnext; [done|lia|lia].
        + apply ub_bind, ub_expecting, ub_ret. apply Hnext; [done|lia|lia].
    Qed.
    Lemma split_outer_lin pT pP n0 : uni pT n0 → uni pP n0 → go pP pf → ∀ n c s elems puncts errs, aok s → len s < n0 → len s < n →
      ub c (split_outer n pT pP ef pf fol elems puncts errs) s (λ _ s' c', lin 2 c s c' s').
    Proof using HB.
      intros HT HP Hg n. induction n as [|n IH]; intros c s elems puncts errs Hok Hn0 Hn; [lia|]. cbn [split_outer].
      apply ub_bind, ub_peek_src; [done|]. destruct (look s) as [x|] eqn:El; [|apply ub_ret; unfold lin; lia].
      destruct (ts_contains pf (Some x)) eqn:Ef; [|apply ub_ret; unfold lin; lia].
      eapply uni_go; [done..|]. intros r s1 c1 Hok1 Hs1 Hc1. unfold shorter in Hs1.
      destruct (unres r) as [[p|] e]; [|apply ub_ret; unfold lin; lia].
      apply ub_bind, ub_adv. eapply ub_mono; [apply (split_inner_lin pT n0 HT n); [done|lia|lia]|].
      intros [[o errs'] cont] s2 c2 Hc2 l Hl. unfold lin in Hc2. assert (Hle := adv_le _ _ _ Hl).
      destruct cont; [|apply ub_ret; unfold lin; lia].
      eapply ub_mono; [apply IH; [by eapply adv_aok|lia|lia]|]. unfold lin. intros; cbn beta in *. lia.
    Qed.
    Lemma punct_inner_lin pT n0 : uni pT n0 → ∀ n c s panic errs, aok s → len s < n0 → len s < n →
      ub c (punct_inner n pT ef pf fol panic errs) s (λ _ s' c', lin (Z + 10) c s c' s').
    Proof using HB.
      intros Hu n. induction n as [|n IH]; intros c s panic errs Hok Hn0 Hn; [lia|]. cbn [punct_inner].
      apply ub_bind, ub_peek_src; [done|]. destruct (look s) as [x|] eqn:El; [|apply ub_ret; unfold lin; lia].
      destruct (_ && _); [apply ub_ret; unfold lin; lia|]. apply ub_bind.
      assert (Hnext : ∀ s1 panic' c1, aok s1 → len s1 ≤ len s → c1 + pot s1 ≤ c + Z + 4 + pot s →
        ub c1 (tk' ← peek_src;
          if ts_contains pf tk' then mret (None, errs ++ option_list panic', true)
          else
            if bool_decide (tk' = None) || ts_contains fol tk'
            then mret (None, errs ++ option_list panic', false)
            else _ ← consume; punct_inner n pT ef pf fol panic' errs) s1 (λ _ s' c', lin (Z + 10) c s c' s')).
      { intros s1 panic' c1 Hok1 Hle Hc1. apply ub_bind, ub_peek_src; [done|].
        destruct (ts_contains pf (look s1)); [apply ub_ret; unfold lin; lia|].
        destruct (bool_decide (look s1 = None)) eqn:En; [apply ub_ret; unfold lin; lia|].
        apply bool_decide_eq_false in En. destruct (look s1) as [x1|] eqn:El1; [|done].
        destruct (ts_contains fol (Some x1)); [apply ub_ret; unfold lin; lia|]. cbn [orb].
        apply ub_bind, ub_consume. assert (Hs := pop_shorter _ _ El1). assert (Hp := pot_lt _ _ Hs). unfold shorter in Hs.
        eapply ub_mono; [apply IH; [by apply aok_pop|lia|lia]|]. unfold lin. intros; cbn beta in *. lia. }
      destruct (ts_contains ef (Some x)).
      - eapply uni_lin; [done|done|done|]. intros r s1 c1 Hok1 Hle Hc1.
        destruct (unres r) as [[t|] e]; [apply ub_ret, ub_ret; unfold lin; lia|].
        apply ub_ret. apply Hnext; [done|lia|lia].
      - apply ub_bind, ub_cur_span, ub_ret. apply Hnext; [done|lia|lia].
    Qed.
    Lemma punct_outer_lin pT pP n0 : uni pT n0 → uni pP n0 → go pP pf → ∀ n c s elems puncts errs, aok s → len s < n0 → len s < n →
      ub c (punct_outer n pT pP ef pf fol elems puncts errs) s (λ _ s' c', lin 2 c s c' s').
    Proof using HB.
      intros HT HP Hg n. induction n as [|n IH]; intros c s elems puncts errs Hok Hn0 Hn; [lia|]. cbn [punct_outer].
      apply ub_bind, ub_peek_src; [done|]. destruct (look s) as [x|] eqn:El; [|apply ub_ret; unfold lin; lia].
      destruct (ts_contains pf (Some x)) eqn:Ef; [|apply ub_ret; unfold lin; lia].
      eapply uni_go; [done..|]. intros r s1 c1 Hok1 Hs1 Hc1. unfold shorter in Hs1.
      destruct (unres r) as [[p|] e]; [|apply ub_ret; unfold lin; lia].
      apply ub_bind, ub_adv. eapply ub_mono; [apply (punct_inner_lin pT n0 HT n); [done|lia|lia]|].
      intros [[o errs'] cont] s2 c2 Hc2 l Hl. unfold lin in Hc2. assert (Hle := adv_le _ _ _ Hl).
      destruct cont; [|apply ub_ret; unfold lin; lia].
      eapply ub_mono; [apply IH; [by eapply adv_aok|lia|lia]|]. unfold lin. intros; cbn beta in *. lia.
    Qed.
  End split.

  Lemma recover_lin pR tf n0 : uni pR n0 → ∀ n c s panic errs, aok s → len s < n0 → S (len s) < n →
    ub c (recover_loop n pR tf panic errs) s (λ _ s' c', lin (2 * Z + 10) c s c' s').
  Proof using HB.
    intros Hu.
    assert (Hend : ∀ n c s panic errs, aok s → len s < n0 → a_rest s = [] → 0 < n →
      ub c (recover_loop n pR tf panic errs) s (λ _ s' c', lin (Z + 2) c s c' s')).
    { intros [|n] c s panic errs Hok Hn0 Er Hn; [lia|]. cbn [recover_loop]. apply ub_bind, ub_peek_src; [done|].
      rewrite (proj2 (look_none s) Er). destruct (ts_contains_e tf); [|apply ub_ret; unfold lin; lia].
      eapply uni_lin; [done|done|done|]. intros r s1 c1 Hok1 Hle Hc1.
      destruct (unres r) as [[?|] ?]; apply ub_ret; unfold lin; lia. }
    intros n. induction n as [|n IH]; intros c s panic errs Hok Hn0 Hn; [lia|].
    destruct (look s) as [x|] eqn:El.
    2:{ eapply ub_mono; [apply Hend; [done|done|by apply look_none|lia]|]. unfold lin. intros; cbn beta in *; lia. }
    cbn [recover_loop]. apply ub_bind, ub_peek_src; [done|]. rewrite El. apply ub_bind.
    assert (Hnext : ∀ s1 panic' c1, aok s1 → len s1 ≤ len s → c1 + pot s1 ≤ c + Z + 2 + pot s →
      ub c1 (p ← match panic' with
            | Some p => sp ← cur_span; mret (set_hi p (sp_hi sp))
            | None => expecting tf
            end;
        _ ← consume;
        recover_loop n pR tf (Some p) errs) s1 (λ _ s' c', lin (2 * Z + 10) c s c' s')).
    { intros s1 panic' c1 Hok1 Hle Hc1.
      assert (Hc : ∀ p : perr, ub (c1 + 1) (_ ← consume; recover_loop n pR tf (Some p) errs) s1 (λ _ s' c', lin (2 * Z + 10) c s c' s')).
      { intros p. apply ub_bind, ub_consume. destruct (look s1) as [x1|] eqn:El1.
        - assert (Hs := pop_shorter _ _ El1). assert (Hp := pot_lt _ _ Hs). unfold shorter in Hs.
          eapply ub_mono; [apply IH; [by apply aok_pop|lia|lia]|]. unfold lin. intros; cbn beta in *. lia.
        - assert (Er := proj1 (look_none s1) El1). unfold pop. rewrite Er.
          eapply ub_mono; [apply Hend; [done|lia|done|lia]|]. unfold lin. intros; cbn beta in *. lia. }
      destruct panic' as [p|].
      - apply ub_bind, ub_bind, ub_cur_span, ub_ret. apply Hc.
      - apply ub_bind, ub_expecting. apply Hc. }
    destruct (ts_contains tf (Some x) || ts_contains_e tf).
    - eapply uni_lin; [done|done|done|]. intros r s1 c1 Hok1 Hle Hc1.
      destruct (unres r) as [[y|] e]; [apply ub_ret, ub_ret; unfold lin; lia|]. apply ub_ret. apply Hnext; [done|lia|lia].
    - apply ub_ret. apply Hnext; [done|lia|lia].
  Qed.
End pot.
