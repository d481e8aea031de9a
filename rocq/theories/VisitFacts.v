(** Facts about the number of calls of the grammar analysis. *)
From Coq Require Import String.
From stdpp Require Import prelude list gmap strings.
From Verif Require Import SynSetModel TableModel TypeModel RoundSpec VisitSpec.
Local Open Scope nat_scope.

Section visits.
  Context {K : Type} `{EqDecision K}.
  Variable (prods : list (K * entry K)) (first follow : table K).

  (** The parts of productions not seen yet *)
  Definition left_over (seen : list K) : nat := sum_list_with (λ kx, if bool_decide (fst kx ∈ seen) then 0 else width (snd kx)) prods.

  Lemma mono_insert seen t (l : list (K * entry K)) :
    sum_list_with (λ kx : K * entry K, if bool_decide (kx.1 ∈ bs_insert seen t) then 0 else width kx.2) l ≤
    sum_list_with (λ kx : K * entry K, if bool_decide (kx.1 ∈ seen) then 0 else width kx.2) l.
  Proof.
    induction l as [|[k e] l IH]; [done|]. cbn [sum_list_with fst snd].
    assert (bool_decide (k ∈ seen) = true → bool_decide (k ∈ bs_insert seen t) = true).
    { rewrite !bool_decide_eq_true. unfold bs_insert. destruct (bs_mem seen t); [done|]. set_solver. }
    destruct (bool_decide (k ∈ seen)); [rewrite H by done; lia|]. destruct (bool_decide (k ∈ bs_insert seen t)); lia.
  Qed.
  Lemma left_over_insert seen t : left_over (bs_insert seen t) ≤ left_over seen.
  Proof. apply mono_insert. Qed.
  Lemma left_over_expand seen t e : bs_mem seen t = false → bt_get prods t = Some e →
    left_over (bs_insert seen t) + width e ≤ left_over seen.
  Proof.
    intros Hs. assert (Hn : t ∉ seen) by (unfold bs_mem in Hs; by apply bool_decide_eq_false in Hs).
    unfold left_over. induction prods as [|[k e'] l IH]; cbn [bt_get sum_list_with fst snd]; [done|].
    destruct (decide (k = t)) as [->|Hk].
    - intros E. assert (e' = e) as -> by (destruct (decide (t = t)); congruence).
      assert (Hl := mono_insert seen t l).
      rewrite (bool_decide_eq_false_2 _ Hn). rewrite bool_decide_eq_true_2; [lia|]. unfold bs_insert. rewrite Hs. set_solver.
    - intros E. assert (E' : bt_get l t = Some e) by (destruct (decide (t = k)); congruence). specialize (IH E').
      assert (bool_decide (k ∈ seen) = true → bool_decide (k ∈ bs_insert seen t) = true).
      { rewrite !bool_decide_eq_true. unfold bs_insert. destruct (bs_mem seen t); [done|]. set_solver. }
      destruct (bool_decide (k ∈ seen)); [rewrite H by done; lia|]. destruct (bool_decide (k ∈ bs_insert seen t)); lia.
  Qed.
  Lemma left_over_all seen : left_over seen + length prods ≤ extent prods.
  Proof.
    unfold left_over, extent. induction prods as [|[k e] l IH]; [done|]. cbn [sum_list_with fst snd length].
    destruct (bool_decide (k ∈ seen)); lia.
  Qed.

  (** ** Conflicts *)
  Definition ck_fine (n b : nat) (seen : list K) (c : ck_res K) : Prop :=
    match c with COk seen' => n + left_over seen' ≤ b + left_over seen | _ => n ≤ b + left_over seen end.
  Lemma ck_all_count rec' rec ys : (∀ y seen, snd (rec' y seen) = rec y seen ∧ ck_fine (fst (rec' y seen)) 1 seen (rec y seen)) →
    ∀ seen, snd (ck_all_n rec' ys seen) = ck_all rec ys seen ∧ ck_fine (fst (ck_all_n rec' ys seen)) (length ys) seen (ck_all rec ys seen).
  Proof.
    intros H. induction ys as [|y r IH]; intros seen; cbn [ck_all_n ck_all length]; [split; [done|cbn; lia]|].
    destruct (H y seen) as [E Hf]. destruct (rec' y seen) as [n c] eqn:Er. cbn [fst snd] in E, Hf. subst c.
    destruct (rec y seen) as [|e|seen'] eqn:Ec; cbn [ck_fine fst snd] in *; [split; [done|lia]..|].
    destruct (IH seen') as [E2 Hf2]. destruct (ck_all_n rec' r seen') as [m c2] eqn:E3. cbn [fst snd] in *. subst c2. split; [done|].
    destruct (ck_all rec r seen'); cbn [ck_fine] in *; lia.
  Qed.
  Lemma conflicts_count fuel t seen : snd (check_conflicts_n prods first follow fuel t seen) = check_conflicts prods first follow fuel t seen ∧
    ck_fine (fst (check_conflicts_n prods first follow fuel t seen)) 1 seen (check_conflicts prods first follow fuel t seen).
  Proof.
    revert t seen. induction fuel as [|f IH]; intros t seen; cbn [check_conflicts_n check_conflicts]; [split; [done|cbn; lia]|].
    destruct (bs_mem seen t) eqn:Es; [split; [done|cbn; lia]|].
    destruct (bt_get prods t) as [e|] eqn:Ee; [|split; [done|cbn; specialize (left_over_insert seen t); lia]].
    destruct (ck_local first follow t e); [split; [done|cbn; lia]|].
    destruct (ck_all_count (check_conflicts_n prods first follow f) (check_conflicts prods first follow f) (comps e) IH (bs_insert seen t)) as [E Hf].
    destruct (ck_all_n _ (comps e) (bs_insert seen t)) as [n c]. cbn [fst snd] in *. subst c. split; [done|].
    assert (Hx := left_over_expand _ _ _ Es Ee). assert (Hw : length (comps e) = width e) by (by destruct e). rewrite Hw in Hf.
    destruct (ck_all _ (comps e) (bs_insert seen t)); cbn [ck_fine] in *; lia.
  Qed.

  (** ** Jump table *)
  Definition bj_fine (n b : nat) (seen : list K) (c : option (list K * jump K)) : Prop :=
    match c with Some (seen', _) => n + left_over seen' ≤ b + left_over seen | None => n ≤ b + left_over seen end.
  Lemma bj_all_count rec' rec t reg ys : (∀ y seen jm, snd (rec' y seen jm) = rec y seen jm ∧ bj_fine (fst (rec' y seen jm)) 1 seen (rec y seen jm)) →
    ∀ i seen jm, snd (bj_all_n first rec' t reg i ys seen jm) = bj_all first rec t reg i ys seen jm ∧
      bj_fine (fst (bj_all_n first rec' t reg i ys seen jm)) (length ys) seen (bj_all first rec t reg i ys seen jm).
  Proof.
    intros H. induction ys as [|y r IH]; intros i seen jm; cbn [bj_all_n bj_all length]; [split; [done|cbn; lia]|].
    set (jm' := if reg then _ else jm). destruct (H y seen jm') as [E Hf]. destruct (rec' y seen jm') as [n c] eqn:Er. cbn [fst snd] in E, Hf. subst c.
    destruct (rec y seen jm') as [[seen' jm2]|] eqn:Ec; cbn [bj_fine fst snd mbind option_bind] in *; [|split; [done|lia]].
    destruct (IH (S i) seen' jm2) as [E2 Hf2]. destruct (bj_all_n first rec' t reg (S i) r seen' jm2) as [m c2] eqn:E3. cbn [fst snd] in *. subst c2.
    split; [done|]. destruct (bj_all first rec t reg (S i) r seen' jm2) as [[]|]; cbn [bj_fine] in *; lia.
  Qed.
  Lemma jump_count fuel t seen jm : snd (build_jump_n prods first fuel t seen jm) = build_jump prods first fuel t seen jm ∧
    bj_fine (fst (build_jump_n prods first fuel t seen jm)) 1 seen (build_jump prods first fuel t seen jm).
  Proof.
    revert t seen jm. induction fuel as [|f IH]; intros t seen jm; cbn [build_jump_n build_jump]; [split; [done|cbn; lia]|].
    destruct (bs_mem seen t) eqn:Es; [split; [done|cbn; lia]|].
    assert (Hi := left_over_insert seen t).
    destruct (bt_get prods t) as [[| |ys|ys]|] eqn:Ee; [split; [done|cbn; lia]|split; [done|cbn; lia]| | |split; [done|cbn; lia]].
    all: assert (Hx := left_over_expand _ _ _ Es Ee); cbn [width] in Hx.
    - destruct (bj_all_count (build_jump_n prods first f) (build_jump prods first f) t false ys IH 0 (bs_insert seen t) jm) as [E Hf].
      destruct (bj_all_n _ _ _ _ _ ys _ _) as [n c]. cbn [fst snd] in *. subst c. split; [done|].
      destruct (bj_all _ _ _ _ _ ys _ _) as [[]|]; cbn [bj_fine] in *; lia.
    - destruct (bj_all_count (build_jump_n prods first f) (build_jump prods first f) t true ys IH 0 (bs_insert seen t) jm) as [E Hf].
      destruct (bj_all_n _ _ _ _ _ ys _ _) as [n c]. cbn [fst snd] in *. subst c. split; [done|].
      destruct (bj_all _ _ _ _ _ ys _ _) as [[]|]; cbn [bj_fine] in *; lia.
  Qed.

  (** ** Left recursion *)
  Definition lr_fine (n b : nat) (seen : list K) (c : lr_res K) : Prop :=
    match c with LOk seen' _ _ => n + left_over seen' ≤ b + left_over seen | _ => n ≤ b + left_over seen end.
  Definition lr_counted rec' rec : Prop := ∀ (y : K) (seen set stack : list K),
    snd (rec' y seen set stack) = rec y seen set stack ∧ lr_fine (fst (rec' y seen set stack)) 1 seen (rec y seen set stack).
  Lemma lr_union_count rec' rec ys : lr_counted rec' rec →
    ∀ seen set stack, snd (lr_union_n rec' ys seen set stack) = lr_union rec ys seen set stack ∧
      lr_fine (fst (lr_union_n rec' ys seen set stack)) (length ys) seen (lr_union rec ys seen set stack).
  Proof.
    intros H. induction ys as [|y r IH]; intros seen set stack; cbn [lr_union_n lr_union length]; [split; [done|cbn; lia]|].
    destruct (H y seen set stack) as [E Hf]. destruct (rec' y seen set stack) as [n c] eqn:Er. cbn [fst snd] in E, Hf. subst c.
    destruct (rec y seen set stack) as [|e|seen' set' stack'] eqn:Ec; cbn [lr_fine fst snd] in *; [split; [done|lia]..|].
    destruct (IH seen' set' stack') as [E2 Hf2]. destruct (lr_union_n rec' r seen' set' stack') as [m c2] eqn:E3. cbn [fst snd] in *. subst c2. split; [done|].
    destruct (lr_union rec r seen' set' stack'); cbn [lr_fine] in *; lia.
  Qed.
  Lemma lr_seq_count rec' rec t ys : lr_counted rec' rec →
    ∀ main seen set stack tset tstack, snd (lr_seq_n first rec' t main ys seen set stack tset tstack) = lr_seq first rec t main ys seen set stack tset tstack ∧
      lr_fine (fst (lr_seq_n first rec' t main ys seen set stack tset tstack)) (length ys) seen (lr_seq first rec t main ys seen set stack tset tstack).
  Proof.
    intros H. induction ys as [|y r IH]; intros main seen set stack tset tstack; cbn [lr_seq_n lr_seq length]; [destruct main; (split; [done|cbn; lia])|].
    assert (Hc : ∃ n c, (if main then rec' y seen set stack else rec' y seen tset tstack) = (n, c) ∧
      (if main then rec y seen set stack else rec y seen tset tstack) = c ∧ lr_fine n 1 seen c).
    { destruct main.
      - destruct (H y seen set stack) as [E Hf]. destruct (rec' y seen set stack) as [n c]. cbn [fst snd] in E, Hf. subst c. eauto.
      - destruct (H y seen tset tstack) as [E Hf]. destruct (rec' y seen tset tstack) as [n c]. cbn [fst snd] in E, Hf. subst c. eauto. }
    destruct Hc as (n & c & -> & -> & Hf).
    destruct c as [|e|seen' cset cstack]; cbn [lr_fine fst snd] in *; [split; [done|lia]..|].
    assert (G : ∀ p q, snd p = q → lr_fine (fst p) (length r) seen' q →
      snd (let '(m, c) := p in (n + m, c)) = q ∧ lr_fine (fst (let '(m, c) := p in (n + m, c))) (S (length r)) seen q).
    { intros [m c] q Hq Hm. cbn [fst snd] in *. subst c. split; [done|]. destruct q; cbn [lr_fine] in *; lia. }
    destruct (ts_contains_e (tb_get first y)); [apply G; apply IH|]. destruct main; apply G; apply IH.
  Qed.
  Lemma lr_count fuel : lr_counted (check_lr_n prods first fuel) (check_lr prods first fuel).
  Proof.
    induction fuel as [|f IH]; intros t seen set stack; cbn [check_lr_n check_lr]; [split; [done|cbn; lia]|].
    destruct (bs_mem seen t) eqn:Es; [split; [done|cbn; lia]|]. destruct (bs_mem set t); [split; [done|cbn; lia]|].
    assert (Hi := left_over_insert seen t).
    destruct (bt_get prods t) as [[| |[|y r]|ys]|] eqn:Ee; [split; [done|cbn; lia]|split; [done|cbn; lia]|split; [done|cbn; lia]| | |split; [done|cbn; lia]].
    all: assert (Hx := left_over_expand _ _ _ Es Ee); cbn [width length] in Hx.
    - destruct (IH y (bs_insert seen t) (bs_insert set t) (stack ++ [t])) as [E Hf].
      destruct (check_lr_n prods first f y _ _ _) as [n c]. cbn [fst snd] in E, Hf. subst c.
      destruct (check_lr prods first f y _ _ _) as [|e|seen' set' stack'] eqn:Ec; cbn [lr_fine fst snd] in *; [split; [done|lia]..|].
      assert (G : ∀ p q, snd p = q → lr_fine (fst p) (length r) seen' q →
        snd (let '(m, c) := p in (S (n + m), c)) = q ∧ lr_fine (fst (let '(m, c) := p in (S (n + m), c))) 1 seen q).
      { intros [m c] q Hq Hm. cbn [fst snd] in *. subst c. split; [done|]. destruct q; cbn [lr_fine] in *; lia. }
      destruct (ts_contains_e (tb_get first y)); apply G; by apply lr_seq_count.
    - destruct (lr_union_count _ _ ys IH (bs_insert seen t) (bs_insert set t) (stack ++ [t])) as [E Hf].
      destruct (lr_union_n _ ys _ _ _) as [n c]. cbn [fst snd] in E, Hf. subst c.
      destruct (lr_union _ ys _ _ _) as [|e|seen' set' stack']; cbn [lr_fine fst snd] in *; (split; [done|lia]).
  Qed.
End visits.

Lemma conflicts_calls {K} `{EqDecision K} (prods : list (K * entry K)) first follow fuel t seen :
  snd (check_conflicts_n prods first follow fuel t seen) = check_conflicts prods first follow fuel t seen ∧
  fst (check_conflicts_n prods first follow fuel t seen) + length prods ≤ 1 + extent prods.
Proof.
  destruct (conflicts_count prods first follow fuel t seen) as [E H]. split; [done|]. assert (G := left_over_all prods seen).
  destruct (check_conflicts prods first follow fuel t seen); cbn [ck_fine] in H; lia.
Qed.
Lemma jump_calls {K} `{EqDecision K} (prods : list (K * entry K)) first fuel t seen jm :
  snd (build_jump_n prods first fuel t seen jm) = build_jump prods first fuel t seen jm ∧
  fst (build_jump_n prods first fuel t seen jm) + length prods ≤ 1 + extent prods.
Proof.
  destruct (jump_count prods first fuel t seen jm) as [E H]. split; [done|]. assert (G := left_over_all prods seen).
  destruct (build_jump prods first fuel t seen jm) as [[]|]; cbn [bj_fine] in H; lia.
Qed.
Lemma lr_calls {K} `{EqDecision K} (prods : list (K * entry K)) first fuel t seen set stack :
  snd (check_lr_n prods first fuel t seen set stack) = check_lr prods first fuel t seen set stack ∧
  fst (check_lr_n prods first fuel t seen set stack) + length prods ≤ 1 + extent prods.
Proof.
  destruct (lr_count prods first fuel t seen set stack) as [E H]. split; [done|]. assert (G := left_over_all prods seen).
  destruct (check_lr prods first fuel t seen set stack); cbn [lr_fine] in H; lia.
Qed.

(** ** Registration *)
Section register.
  Variable env : denv.
  Definition rg_fine (n b : nat) (regs : list (prod * entry prod)) (c : option (list (prod * entry prod))) : Prop :=
    match c with Some regs' => n + length regs' + extent regs ≤ b + extent regs' + length regs ∧ length regs ≤ length regs' | None => True end.
  Lemma extent_snoc (regs : list (prod * entry prod)) t e : extent (regs ++ [(t, e)]) = extent regs + 1 + width e.
  Proof. unfold extent. rewrite sum_list_with_app. cbn. lia. Qed.
  Lemma kids_width p e ks : entry_of env p = Some e → kids env p = Some ks → length ks = width e.
  Proof.
    destruct p as [| n | | | | | |]; cbn; intros E1 E2; simplify_eq; cbn; rewrite ?map_length; try done.
    destruct (env !! n) as [d|]; [|done]. cbn in *. simplify_eq. destruct d; cbn; unfold field_prods; rewrite ?map_length; reflexivity.
  Qed.
  Lemma reg_all_count rec' rec ps : (∀ p regs, snd (rec' p regs) = rec p regs ∧ rg_fine (fst (rec' p regs)) 1 regs (rec p regs)) →
    ∀ regs, snd (reg_all_n rec' ps regs) = reg_all rec ps regs ∧ rg_fine (fst (reg_all_n rec' ps regs)) (length ps) regs (reg_all rec ps regs).
  Proof.
    intros H. induction ps as [|y r IH]; intros regs; cbn [reg_all_n reg_all length]; [split; [done|cbn; lia]|].
    destruct (H y regs) as [E Hf]. destruct (rec' y regs) as [n c] eqn:Er. cbn [fst snd] in E, Hf. subst c.
    destruct (rec y regs) as [regs'|] eqn:Ec; cbn [rg_fine fst snd mbind option_bind] in *; [|done].
    destruct (IH regs') as [E2 Hf2]. destruct (reg_all_n rec' r regs') as [m c2] eqn:E3. cbn [fst snd] in *. subst c2. split; [done|].
    destruct (reg_all rec r regs'); cbn [rg_fine] in *; [lia|done].
  Qed.
  Lemma register_count fuel p regs : snd (register_n env fuel p regs) = register env fuel p regs ∧
    rg_fine (fst (register_n env fuel p regs)) 1 regs (register env fuel p regs).
  Proof.
    revert p regs. induction fuel as [|f IH]; intros p regs; cbn [register_n register]; [done|].
    destruct (decide (pid p ∈ regs.*1)); [split; [done|cbn; lia]|].
    destruct (entry_of env (pid p)) as [e|] eqn:E1; [|done]. destruct (kids env (pid p)) as [ks|] eqn:E2; [|done]. cbn [mbind option_bind].
    destruct (reg_all_count (register_n env f) (register env f) ks IH (regs ++ [(pid p, e)])) as [E Hf].
    destruct (reg_all_n _ ks _) as [m c]. cbn [fst snd] in *. subst c. split; [done|].
    rewrite (kids_width _ _ _ E1 E2) in Hf. destruct (reg_all _ ks _) as [regs'|]; cbn [rg_fine] in *; [|done].
    rewrite extent_snoc, app_length in Hf. cbn [length] in Hf. lia.
  Qed.
  Lemma register_calls fuel p regs : snd (register_n env fuel p []) = register env fuel p [] ∧
    (register env fuel p [] = Some regs → fst (register_n env fuel p []) + length regs ≤ 1 + extent regs).
  Proof.
    destruct (register_count fuel p []) as [E H]. split; [done|]. intros E2. rewrite E2 in H. cbn [rg_fine length] in H. change (extent (@nil (prod * entry prod))) with 0 in H. lia.
  Qed.
End register.
