(** Lemmas about containers. *)
From Coq Require Import String.
From stdpp Require Import prelude list strings.
From Verif Require Import LexModel SynSetModel TableModel StreamModel StreamSpec StreamFacts TypeModel ProduceModel ParseSpec ParseEx IterModel IterSpec.
Local Open Scope nat_scope.

Section Iter.
  Context {V : Type} (c : container V) (build : list tree → V).
  Variable extract : nat → bool.
  Variable p : M (res tree).
  Variable first : tset.
  Variable holds : list tree → ct_state c → Prop.
  Hypothesis Hstep : ∀ l s, holds l s → ∃ k, ct_step c s = inr k ∧ (∀ t, holds (l ++ [t]) (k (Some t))) ∧ ct_step c (k None) = inl (build l).
  Notation go := (run extract).

  Lemma collect_fwd n : ∀ acc errs hi st s l es h s', holds acc st →
    go (iter_loop n p first acc errs hi) s = ODone (l, es, h) s' →
    ∀ m, S n ≤ m → go (collect c m p first st None errs hi) s = ODone (build l, es, h) s'.
  Proof.
    induction n as [|n IH]; intros acc errs hi st s l es h s' Hh Hr m Hm; [done|].
    destruct m as [|m]; [lia|]. destruct (Hstep _ _ Hh) as (k & Hk & Hk1 & Hk2). cbn [collect iter_loop] in *. rewrite Hk.
    unfold iter_next. rewrite !run_bind. rewrite run_bind in Hr. destruct (go peek_src s) as [| |tk s1]; [done..|].
    destruct m as [|m]; [lia|].
    destruct tk as [x|]; [destruct (ts_contains first (Some x))|].
    - rewrite run_bind in *. destruct (go p s1) as [| |r s2]; [done..|]. destruct (unres r) as [[t|] e].
      + cbn [run mret M_ret]. eapply IH; [apply Hk1|exact Hr|lia].
      + injection Hr as <- <- <- <-. cbn [run mret M_ret collect]. by rewrite Hk2.
    - injection Hr as <- <- <- <-. cbn [run mret M_ret collect]. by rewrite Hk2.
    - injection Hr as <- <- <- <-. cbn [run mret M_ret collect]. by rewrite Hk2.
  Qed.
  Lemma collect_bwd m : ∀ acc errs hi st s v es h s', holds acc st →
    go (collect c m p first st None errs hi) s = ODone (v, es, h) s' →
    ∃ l, v = build l ∧ go (iter_loop m p first acc errs hi) s = ODone (l, es, h) s'.
  Proof.
    induction m as [|m IH]; intros acc errs hi st s v es h s' Hh Hr; [done|].
    destruct (Hstep _ _ Hh) as (k & Hk & Hk1 & Hk2). cbn [collect iter_loop] in *. rewrite Hk in Hr.
    unfold iter_next in Hr. rewrite !run_bind in Hr. rewrite run_bind. destruct (go peek_src s) as [| |tk s1]; [done..|].
    destruct tk as [x|]; [destruct (ts_contains first (Some x))|].
    - rewrite run_bind in *. destruct (go p s1) as [| |r s2]; [done..|]. destruct (unres r) as [[t|] e].
      + cbn [run mret M_ret] in Hr. eapply IH; [apply Hk1|exact Hr].
      + cbn [run mret M_ret] in Hr. destruct m as [|m]; [done|]. cbn [collect] in Hr. rewrite Hk2 in Hr. injection Hr as <- <- <- <-. by exists acc.
    - cbn [run mret M_ret] in Hr. destruct m as [|m]; [done|]. cbn [collect] in Hr. rewrite Hk2 in Hr. injection Hr as <- <- <- <-. by exists acc.
    - cbn [run mret M_ret] in Hr. destruct m as [|m]; [done|]. cbn [collect] in Hr. rewrite Hk2 in Hr. injection Hr as <- <- <- <-. by exists acc.
  Qed.
End Iter.

Lemma built_into {V} (build : list tree → V) sp l es : built build (res_into (sp, l) es) = res_into (sp, build l) es.
Proof. by destruct es. Qed.
Lemma plus_fwd {V} (c : container V) build extract n p first s r s' : orderly c build →
  run extract (produce_plus n p first) s = ODone r s' →
  ∀ m, n + 2 ≤ m → run extract (plus_into c m p first) s = ODone (built build r) s'.
Proof.
  intros (holds & Hi & Hs) Hr m Hm. unfold produce_plus, plus_into in *. rewrite run_bind in *.
  destruct (run extract p s) as [| |x s1]; [done..|]. destruct (unres x) as [[t|] e]; [|by injection Hr as <- <-].
  rewrite run_bind in *. destruct (run extract (iter_loop _ _ _ _ _ _) s1) as [| |[[l es] h] s2] eqn:El; [done..|].
  injection Hr as <- <-. destruct m as [|m]; [lia|]. cbn [collect]. destruct (Hs _ _ Hi) as (k & Hk & Hk1 & _). rewrite Hk.
  rewrite (collect_fwd c build extract p first holds Hs _ _ _ _ (k (Some t)) _ _ _ _ _ (Hk1 t) El) by lia. cbn. by rewrite built_into.
Qed.
Lemma plus_bwd {V} (c : container V) build extract m p first s r s' : orderly c build →
  run extract (plus_into c m p first) s = ODone r s' →
  ∃ n r', r = built build r' ∧ run extract (produce_plus n p first) s = ODone r' s'.
Proof.
  intros (holds & Hi & Hs) Hr. unfold plus_into in *. rewrite run_bind in Hr.
  destruct (run extract p s) as [| |x s1] eqn:Ep; [done..|]. destruct (unres x) as [[t|] e] eqn:Ex.
  2: { injection Hr as <- <-. exists 0, (RPanic e). split; [done|]. unfold produce_plus. by rewrite run_bind, Ep, Ex. }
  rewrite run_bind in Hr. destruct m as [|m]; [done|]. cbn [collect] in Hr. destruct (Hs _ _ Hi) as (k & Hk & Hk1 & _). rewrite Hk in Hr.
  destruct (run extract (collect _ _ _ _ _ _ _ _) s1) as [| |[[v es] h] s2] eqn:El; [done..|]. injection Hr as <- <-.
  destruct (collect_bwd c build extract p first holds Hs _ _ _ _ (k (Some t)) _ _ _ _ _ (Hk1 t) El) as (l & -> & Hl).
  exists m, (res_into (Span (tree_lo t) h, l) es). rewrite built_into. split; [done|].
  unfold produce_plus. rewrite run_bind, Ep, Ex, run_bind. cbn [app] in Hl. by rewrite Hl.
Qed.
(** [Star], for lists: what ProduceModel has inline. *)
Definition star_list (n : nat) (p : M (res tree)) (first : tset) : M (res (span * list tree)) :=
  r ← produce_option (produce_plus n p first) fst first;
  mret (res_map (λ '(sp, o), match o with Some (sp', l) => (sp', l) | None => (sp, []) end) r).
Lemma star_fwd {V} (c : container V) build extract n p first s r s' : orderly c build →
  run extract (star_list n p first) s = ODone r s' →
  ∀ m, n + 2 ≤ m → run extract (star_into c (build []) m p first) s = ODone (built build r) s'.
Proof.
  intros Ho Hr m Hm. unfold star_list, star_into, produce_option in *. rewrite !run_bind in *.
  destruct (run extract peek_src s) as [| |[x|] s1]; [done..| |].
  - destruct (ts_contains first (Some x)).
    + rewrite !run_bind in *. destruct (run extract (produce_plus n p first) s1) as [| |r1 s2] eqn:Ep; [done..|].
      rewrite (plus_fwd c build _ _ _ _ _ _ _ Ho Ep m Hm). destruct r1 as [[sp l]|[sp l] es|es]; cbn in *; by injection Hr as <- <-.
    + rewrite !run_bind in *. cbn in *. by injection Hr as <- <-.
  - rewrite !run_bind in *. cbn in *. by injection Hr as <- <-.
Qed.
Lemma star_bwd {V} (c : container V) build extract m p first s r s' : orderly c build →
  run extract (star_into c (build []) m p first) s = ODone r s' →
  ∃ n r', r = built build r' ∧ run extract (star_list n p first) s = ODone r' s'.
Proof.
  intros Ho Hr. unfold star_into in Hr. rewrite run_bind in Hr. unfold produce_option in Hr. rewrite run_bind in Hr.
  destruct (run extract peek_src s) as [| |[x|] s1] eqn:Es; [done..| |].
  - destruct (ts_contains first (Some x)) eqn:Ec.
    + rewrite run_bind in Hr. destruct (run extract (plus_into c m p first) s1) as [| |r1 s2] eqn:Ep; [done..|].
      destruct (plus_bwd c build _ _ _ _ _ _ _ Ho Ep) as (n & r' & -> & Hp).
      destruct (run extract (star_list n p first) s) as [| |y s3] eqn:E.
      1-2: exfalso; unfold star_list, produce_option in E; rewrite !run_bind, Es, Ec, run_bind, Hp in E; by destruct r'.
      exists n, y. assert (E0 := E). unfold star_list, produce_option in E. rewrite !run_bind, Es, Ec, run_bind, Hp in E.
      destruct r' as [[sp l]|[sp l] es|es]; cbn in *; injection Hr as <- <-; injection E as <- <-; (split; [done|exact E0]).
    + rewrite run_bind in Hr. cbn in Hr. injection Hr as <- <-. eexists 0, (RSucc (_, [])). split; [done|].
      unfold star_list, produce_option. rewrite run_bind, run_bind, Es, Ec. done.
  - rewrite run_bind in Hr. cbn in Hr. injection Hr as <- <-. eexists 0, (RSucc (_, [])). split; [done|].
    unfold star_list, produce_option. rewrite run_bind, run_bind, Es. done.
Qed.

Lemma vec_orderly : orderly vec_container (λ l, l).
Proof.
  exists (λ l s, s = (l, false)). split; [done|]. intros l s ->. eexists. split; [done|]. split; [done|]. done.
Qed.
Lemma count_orderly : orderly count_container length.
Proof.
  exists (λ l s, s = (length l, false)). split; [done|]. intros l s ->. eexists. split; [done|]. split; [|done].
  intros t. cbn. by rewrite app_length, Nat.add_1_r.
Qed.

Section Prod.
  Context {V : Type} (c : container V) (build : list tree → V) (extract : nat → bool) (env : denv)
    (first follow : prod → tset) (jump : prod → option tok → option nat).
  Hypothesis Ho : orderly c build.
  Notation produce := (produce env first follow jump).
  Lemma plus_same f t s r s' : run extract (produce (S f) (TPlus t)) s = ODone r s' →
    ∀ m, f + 2 ≤ m → run extract (plus_into c m (produce f t) (first (key (TPlus t)))) s = ODone (in_container build r) s'.
  Proof.
    intros Hr m Hm. cbn [ProduceModel.produce] in Hr. rewrite run_bind in Hr.
    destruct (run extract (produce_plus f _ _) s) as [| |x s1] eqn:E; [done..|].
    rewrite (plus_fwd c build _ _ _ _ _ _ _ Ho E m Hm). destruct x as [[[] l]|[[] l] es|es]; cbn in Hr; injection Hr as <- <-; done.
  Qed.
  Lemma star_same f t s r s' : run extract (produce (S f) (TStar t)) s = ODone r s' →
    ∀ m, f + 2 ≤ m → run extract (star_into c (build []) m (produce f t) (first (key (TPlus t)))) s = ODone (in_container build r) s'.
  Proof.
    intros Hr m Hm. cbn [ProduceModel.produce] in Hr. rewrite run_bind in Hr.
    destruct (run extract (produce_option _ _ _) s) as [| |x s1] eqn:E; [done..|].
    assert (El : run extract (star_list f (produce f t) (first (key (TPlus t)))) s =
      ODone (res_map (λ '(sp, o), match o with Some (sp', l) => (sp', l) | None => (sp, []) end) x) s1).
    { unfold star_list. by rewrite run_bind, E. }
    rewrite (star_fwd c build _ _ _ _ _ _ _ Ho El m Hm). destruct x as [[[] [[[] l]|]]|[[] [[[] l]|]] es|es]; cbn in Hr; injection Hr as <- <-; done.
  Qed.
End Prod.

(** * Other containers *)
Lemma plus_accepted : accepted [] (TPlus tId) (md_get [] (TPlus tId)).
Proof. eexists _, _. split; [by vm_compute|]. split; [done|]. by vm_compute. Qed.
Lemma early_stops : ∃ V (c : container V) md s f r s' v s'', accepted [] (TPlus tId) md ∧ state_ok s ∧
  run no_extract (produce_md [] md (S f) (TPlus tId)) s = ODone r s' ∧ to_come no_extract s' = [] ∧
  run no_extract (plus_into c (f + 2) (produce_md [] md f tId) (tb_get (md_first md) (key (TPlus tId)))) s = ODone v s'' ∧
  to_come no_extract s'' ≠ [].
Proof.
  exists (option tree), first_container, (md_get [] (TPlus tId)), (start "aa"), 20. do 4 eexists.
  split; [exact plus_accepted|]. split; [apply start_ok|]. split; [by vm_compute|]. split; [by vm_compute|]. split; [by vm_compute|by vm_compute].
Qed.
Lemma unfused_accepted : accepted [] (TPlus (TTuple [tL; tId])) (md_get [] (TPlus (TTuple [tL; tId]))).
Proof. eexists _, _. split; [by vm_compute|]. split; [done|]. by vm_compute. Qed.
Lemma unfused : ∃ (c : container (list tree)) md s f sp l es s' sp2 l2 es2 s'', accepted [] (TPlus (TTuple [tL; tId])) md ∧ state_ok s ∧
  run no_extract (produce_md [] md (S f) (TPlus (TTuple [tL; tId]))) s = ODone (RRec (TrList sp l) es) s' ∧ length l = 1 ∧
  run no_extract (plus_into c (f + 2) (produce_md [] md f (TTuple [tL; tId])) (tb_get (md_first md) (key (TPlus (TTuple [tL; tId]))))) s =
    ODone (RRec (sp2, l2) es2) s'' ∧ length l2 = 2.
Proof.
  exists eager_container, (md_get [] (TPlus (TTuple [tL; tId]))), (start "(a((a"), 20. do 8 eexists.
  split; [exact unfused_accepted|]. split; [apply start_ok|]. split; [by vm_compute|]. split; [done|]. split; [by vm_compute|done].
Qed.
