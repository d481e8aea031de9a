(** Error free results are parse trees; failures carry errors. *)
From Coq Require Import String NArith.
From stdpp Require Import prelude list strings relations.
From Verif Require Import LexModel LexSpec LexFacts SynSetModel TableModel StreamModel StreamSpec StreamFacts TypeModel ProduceModel CfgSpec ParseSpec ProgFacts TreeFacts.
Local Open Scope nat_scope.
#[local] Arguments ts_contains : simpl never.

Lemma wp_call {A} F C (p : M A) (Φ : A → ast → Prop) s (Q : A → ast → Prop) :
  wp F C p s Φ → aok s → (∀ a s' l, adv s l s' → aok s' → Φ a s' → Q a s') → wp F C p s Q.
Proof.
  unfold wp. destruct (arun p s) as [| |a s'] eqn:E; [done..|]. intros H Hok HQ.
  destruct (arun_adv _ _ _ _ E) as [l Hl]. eapply HQ; [done|by eapply adv_aok|done].
Qed.

Lemma merge_some p es : is_Some p ∨ es ≠ [] → is_Some (merge_panic p es).
Proof.
  unfold merge_panic. destruct (last es) eqn:E; [eauto|].
  intros [H|H]; [done|]. apply last_None in E. done.
Qed.
Lemma app_eq_self {A} (l e : list A) : l ++ e = [] → l = [] ∧ e = [].
Proof. by intros ?%app_nil. Qed.

Section sound.
  Variable env : denv.
  Variables (first follow : prod → tset) (jump : prod → option tok → option nat).
  (** May a Recover run out of input before a tail that cannot be empty? *)
  Variable B : Prop.
  Notation W := (wp True True).
  Notation produce := (produce env first follow jump).

  Definition bad (s : ast) : Prop := B ∧ a_rest s = [].
  Lemma bad_adv s l s' : bad s → adv s l s' → bad s'.
  Proof. intros [? H] [_ _ E]. split; [done|]. rewrite H in E. symmetry in E. by apply app_nil in E as [_ ?]. Qed.
  Lemma wp_bad {A} (m : M A) s (Q : A → ast → Prop) : bad s → (∀ a s', bad s' → Q a s') → W m s Q.
  Proof.
    intros Hb HQ. unfold wp. destruct (arun m s) as [| |a s'] eqn:E; [done..|].
    destruct (arun_adv _ _ _ _ E) as [l Hl]. eapply HQ, bad_adv; done.
  Qed.

  Definition tails_ok (t : ty) : Prop :=
    all_within env (λ t, match t with
      | TRecover _ r => ts_contains_e (first (key r)) = true ∨ B | _ => True end) t.

  Definition sound (t : ty) (s : ast) (r : res tree) (s' : ast) : Prop :=
    match r with
    | RSucc x => ∀ l, adv s l s' → parses env (a_src s) (pos s) t l x
    | RRec _ es | RPanic es => es ≠ []
    end ∨ bad s'.
  Definition soundp (t : ty) (p : M (res tree)) : Prop := ∀ s, aok s → W p s (sound t s).

  Lemma sound_unres t s r s' : sound t s r s' → bad s' ∨
    match unres r with
    | (Some x, []) => ∀ l, adv s l s' → parses env (a_src s) (pos s) t l x
    | (Some x, e) => True
    | (None, e) => e ≠ []
    end.
  Proof. intros [H|?]; [|by left]. right. destruct r as [x|x [|e es]|es]; done. Qed.

  (** Chaining *)
  Lemma chain s l1 s1 l2 s2 : adv s l1 s1 → adv s1 l2 s2 →
    ∀ l, adv s l s2 → l = l1 ++ l2.
  Proof. intros H1 H2 l H. eapply adv_inj; [done|]. by eapply adv_trans. Qed.

  Lemma produce_seq_sound rec ts s acc errs : aok s → (∀ t, t ∈ ts → soundp t (rec t)) →
    W (produce_seq rec ts acc errs) s (λ r s', bad s' ∨
      match r with
      | RSucc xs => errs = [] ∧ ∃ ys, xs = acc ++ ys ∧ ∀ l, adv s l s' → pseq env (a_src s) (pos s) ts l ys
      | RRec _ es | RPanic es => es ≠ []
      end).
  Proof.
    revert s acc errs. induction ts as [|t ts IH]; intros s acc errs Hok Hrec; cbn [produce_seq].
    - apply wp_ret. right. destruct errs as [|e es]; [|done]. cbn. split; [done|]. exists [].
      rewrite app_nil_r. split; [done|]. intros l Hl. 
      rewrite (adv_inj _ _ _ _ Hl (adv_refl s)). constructor.
    - apply wp_bind. eapply wp_call; [apply Hrec; [set_solver|done]|done|].
      intros r s1 l1 Hl1 Hok1 Hs. apply sound_unres in Hs as [Hb|Hs]; [apply wp_bad; auto|].
      destruct (unres r) as [[x|] e] eqn:Er.
      + eapply wp_call; [apply IH; [done|intros; apply Hrec; set_solver]|done|].
        intros r2 s2 l2 Hl2 Hok2 [Hb|Hp]; [by left|]. right.
        destruct r2 as [xs|xs es|es]; [|done..]. destruct Hp as (He & ys & -> & Hp).
        apply app_eq_self in He as [-> ->]. split; [done|]. exists (x :: ys).
        split; [by rewrite <- (assoc_L (++))|]. intros l Hl.
        rewrite (chain _ _ _ _ _ Hl1 Hl2 _ Hl). constructor; [by apply Hs|].
        rewrite <- (adv_pos _ _ _ Hl1), <- (adv_src _ _ _ Hl1). auto.
      + apply wp_ret. right. intros [_ ?]%app_eq_self. done.
  Qed.

  Lemma apply_fields_adv fs xs s : W (apply_fields fs xs) s (λ _ s', adv s [] s').
  Proof.
    revert xs s. induction fs as [|[t [sem|]] fs IH]; intros [|x xs] s; cbn [apply_fields]; try (apply wp_ret, adv_refl).
    - apply wp_bind, wp_apply. eapply wp_mono; [apply IH|]. cbn. intros _ s' H.
      apply (adv_trans _ [] _ [] _ (mark_adv _ _ _) H).
    - apply IH.
  Qed.

  (** Option *)
  Lemma produce_option_sound {X} (p : M (res X)) (sp : X → span) set (P : list token → X → Prop) s : aok s →
    W p s (λ r s', bad s' ∨ match r with
      | RSucc x => ∀ l, adv s l s' → P l x | RRec _ es | RPanic es => es ≠ [] end) →
    W (produce_option p sp set) s (λ r s', bad s' ∨
      match r with
      | RSucc (sp', o) => ∀ l, adv s l s' →
        match o with Some x => sp' = sp x ∧ P l x | None => sp' = Span (pos s) (pos s) ∧ l = [] end
      | RRec _ es | RPanic es => es ≠ []
      end).
  Proof.
    intros Hok Hp. unfold produce_option. apply wp_bind, wp_peek_src; [done|].
    assert (Hnone : W (e ← empty_span; mret (RSucc (e, @None X))) s (λ r s', bad s' ∨
      match r with
      | RSucc (sp', o) => ∀ l, adv s l s' →
        match o with Some x => sp' = sp x ∧ P l x | None => sp' = Span (pos s) (pos s) ∧ l = [] end
      | RRec _ es | RPanic es => es ≠ []
      end)).
    { apply wp_bind, wp_empty_span, wp_ret. right. intros l Hl. split; [done|].
      by apply (adv_inj _ _ _ _ Hl (adv_refl s)). }
    destruct (look s) as [tk|]; [|done]. destruct (ts_contains set (Some tk)); [|done].
    apply wp_bind. eapply wp_call; [done|done|]. intros r s1 l1 Hl1 Hok1 [Hb|H]; [apply wp_bad; auto|].
    destruct r as [x|x es|es].
    - apply wp_ret. right. auto.
    - apply wp_ret. by right.
    - apply wp_bind, wp_empty_span, wp_ret. by right.
  Qed.

  (** Repetition *)
  Lemma iter_loop_sound t p n set acc errs hi s : soundp t p → aok s →
    W (iter_loop n p set acc errs hi) s (λ '(xs, es, hi') s', bad s' ∨ ∃ ys e,
      xs = acc ++ ys ∧ es = errs ++ e ∧
      (e = [] → hi' = match last ys with Some y => tree_hi y | None => hi end ∧
        ∀ l, adv s l s' → pseq env (a_src s) (pos s) (replicate (length ys) t) l ys)).
  Proof.
    intros Hp. revert acc errs hi s. induction n as [|n IH]; intros acc errs hi s Hok; cbn [iter_loop]; [done|].
    apply wp_bind, wp_peek_src; [done|].
    assert (Hstop : W (mret (acc, errs, hi)) s (λ '(xs, es, hi') s', bad s' ∨ ∃ ys e,
      xs = acc ++ ys ∧ es = errs ++ e ∧
      (e = [] → hi' = match last ys with Some y => tree_hi y | None => hi end ∧
        ∀ l, adv s l s' → pseq env (a_src s) (pos s) (replicate (length ys) t) l ys))).
    { apply wp_ret. right. exists [], []. rewrite !app_nil_r. split_and!; [done..|]. intros _. split; [done|].
      intros l Hl. rewrite (adv_inj _ _ _ _ Hl (adv_refl s)). constructor. }
    destruct (look s) as [tk|]; [|done]. destruct (ts_contains set (Some tk)); [|done].
    apply wp_bind. eapply wp_call; [by apply Hp|done|]. intros r s1 l1 Hl1 Hok1 Hs.
    apply sound_unres in Hs as [Hb|Hs]; [apply wp_bad; [done|]; intros [[??]?]; auto|].
    destruct (unres r) as [[x|] e] eqn:Er.
    - eapply wp_call; [by apply IH|done|]. intros [[xs es] hi'] s2 l2 Hl2 Hok2 [Hb|(ys & e2 & -> & -> & H)]; [by left|].
      right. exists (x :: ys), (e ++ e2). rewrite <- !(assoc_L (++)). split_and!; [done..|].
      intros [-> ->]%app_eq_self. destruct (H eq_refl) as [Hhi H2]. split.
      { rewrite last_cons, Hhi. by destruct (last ys). }
      intros l Hl. rewrite (chain _ _ _ _ _ Hl1 Hl2 _ Hl). cbn. constructor; [by apply Hs|].
      rewrite <- (adv_pos _ _ _ Hl1), <- (adv_src _ _ _ Hl1). auto.
    - apply wp_ret. right. exists [], e. rewrite app_nil_r. split_and!; [done..|]. done.
  Qed.

  Lemma last_seq_hi x ys : tree_span (TrSeq (x :: ys)) =
    Span (tree_lo x) (match last ys with Some y => tree_hi y | None => tree_hi x end).
  Proof. unfold tree_span. f_equal. rewrite tree_hi_seq, last_cons. by destruct (last ys). Qed.

  Lemma produce_plus_sound t p n set s : soundp t p → aok s →
    W (produce_plus n p set) s (λ r s', bad s' ∨
      match r with
      | RSucc (sp, xs) => ∀ l, adv s l s' → sp = tree_span (TrSeq xs) ∧
          ∃ k, pseq env (a_src s) (pos s) (replicate (S k) t) l xs
      | RRec _ es | RPanic es => es ≠ []
      end).
  Proof.
    intros Hp Hok. unfold produce_plus. apply wp_bind. eapply wp_call; [by apply Hp|done|].
    intros r s1 l1 Hl1 Hok1 Hs. apply sound_unres in Hs as [Hb|Hs]; [apply wp_bad; auto|].
    destruct (unres r) as [[x|] e] eqn:Er; [|apply wp_ret; by right].
    apply wp_bind. eapply wp_call; [by apply (iter_loop_sound t)|done|].
    intros [[xs es] hi'] s2 l2 Hl2 Hok2 [Hb|(ys & e2 & -> & -> & H)]; [apply wp_ret; by left|].
    apply wp_ret. right. destruct (e ++ e2) as [|e0 es] eqn:Ee; [|done]. apply app_eq_self in Ee as [-> ->].
    cbn [res_into app]. intros l Hl. destruct (H eq_refl) as [-> H2]. split; [by rewrite last_seq_hi|].
    exists (length ys). rewrite (chain _ _ _ _ _ Hl1 Hl2 _ Hl). cbn. constructor; [by apply Hs|].
    rewrite <- (adv_pos _ _ _ Hl1), <- (adv_src _ _ _ Hl1). auto.
  Qed.

  (** Loop *)
  Lemma loop_loop_sound t p n set acc errs s : soundp t p → aok s →
    W (loop_loop n p set acc errs) s (λ '(xs, es) s', bad s' ∨ ∃ ys e,
      xs = acc ++ ys ∧ es = errs ++ e ∧
      (e = [] → ∀ l, adv s l s' → pseq env (a_src s) (pos s) (replicate (length ys) t) l ys)).
  Proof.
    intros Hp. revert acc errs s. induction n as [|n IH]; intros acc errs s Hok; cbn [loop_loop]; [done|].
    apply wp_bind, wp_peek_src; [done|].
    destruct (look s) as [tk|] eqn:El.
    2: { apply wp_ret. right. exists [], []. rewrite !app_nil_r. split_and!; [done..|]. intros _ l Hl.
      rewrite (adv_inj _ _ _ _ Hl (adv_refl s)). constructor. }
    apply wp_bind.
    apply (wp_call _ _ _ (λ '(tk1, es1) s1, ∃ e, es1 = errs ++ e ∧ (e = [] → tk1 = Some tk ∧ adv s [] s1)) s); [|done|].
    { destruct (ts_contains set (Some tk)).
      - apply wp_ret. exists []. rewrite app_nil_r. split; [done|]. intros _. split; [done|]. apply adv_refl.
      - apply wp_bind, wp_cur_span. apply wp_bind, wp_consume. apply wp_bind, wp_peek_src; [by eapply adv_aok, Hok; apply pop_adv|].
        apply wp_bind. eapply wp_mono; [instantiate (1 := λ _ _, True); unfold wp; by destruct (arun _ _)|].
        intros [tk1 hi1] s2 _. apply wp_ret. by eexists. }
    intros [tk1 es1] s1 l1 Hl1 Hok1 (e & -> & He).
    destruct tk1 as [tk1|].
    2: { apply wp_ret. right. exists [], e. rewrite app_nil_r. split_and!; [done..|]. intros ->.
      destruct (He eq_refl) as [? _]. done. }
    apply wp_bind, wp_cur_span. apply wp_bind. eapply wp_call; [by apply Hp|done|]. intros r s2 l2 Hl2 Hok2 Hs.
    apply sound_unres in Hs as [Hb|Hs].
    { apply wp_bad; [done|]. intros [??]; auto. }
    destruct (unres r) as [o e2] eqn:Er.
    apply wp_bind, wp_cur_span. 
    destruct (sp_lo (a_span s1) =? sp_lo (a_span s2)).
    - apply wp_ret. right. eexists (option_list o), (e ++ e2 ++ [_]). rewrite <- !(assoc_L (++)). split_and!; [done..|].
      intros [_ [_ ?]%app_eq_self]%app_eq_self. done.
    - eapply wp_call; [by apply IH|done|]. intros [xs es] s3 l3 Hl3 Hok3 [Hb|(ys & e3 & -> & -> & H)]; [by left|].
      right. exists (option_list o ++ ys), (e ++ e2 ++ e3). rewrite <- !(assoc_L (++)). split_and!; [done..|].
      intros [-> [-> ->]%app_eq_self]%app_eq_self l Hl. destruct (He eq_refl) as [_ Hn].
      destruct o as [x|]; [|done]. cbn.
      assert (Hsp := adv_nil _ _ Hn). rewrite (chain _ _ _ _ _ (adv_trans _ _ _ _ _ Hn Hl2) Hl3 _ Hl). cbn [app].
      rewrite <- (adv_src _ _ _ Hl1).
      assert (pos s = pos s1) as -> by (symmetry; apply (adv_pos _ _ _ Hn)).
      constructor; [by apply Hs|].
      rewrite <- (adv_pos _ _ _ Hl2), <- (adv_src _ _ _ Hl2). auto.
  Qed.

  Lemma produce_loop_sound t p n set s : soundp t p → aok s →
    W (produce_loop n p set) s (λ r s', bad s' ∨
      match r with
      | RSucc (sp, xs) => ∀ l, adv s l s' →
          (xs = [] ∧ sp = Span (pos s) (pos s) ∧ l = []) ∨
          (sp = tree_span (TrSeq xs) ∧ ∃ k, pseq env (a_src s) (pos s) (replicate (S k) t) l xs)
      | RRec _ es | RPanic es => es ≠ []
      end).
  Proof.
    intros Hp Hok. unfold produce_loop. apply wp_bind. eapply wp_call; [by apply (loop_loop_sound t)|done|].
    intros [xs es] s1 l1 Hl1 Hok1 [Hb|(ys & e & -> & -> & H)].
    { apply wp_bad; auto. }
    cbn [app]. destruct e as [|e0 e].
    2: { apply wp_bind. eapply wp_mono; [instantiate (1 := λ _ _, True); unfold wp; by destruct (arun _ _)|].
      intros sp s2 _. apply wp_ret. by right. }
    specialize (H eq_refl). specialize (H _ Hl1) as Hq. destruct ys as [|y ys].
    - inversion Hq; subst. cbn [head hd_error last]. apply wp_bind, wp_empty_span, wp_ret. right. cbn [res_into].
      intros l Hl. left. rewrite <- (adv_inj _ _ _ _ Hl Hl1). split_and!; [done| |done].
      rewrite (adv_pos _ _ _ Hl1). done.
    - assert (∃ z, last (y :: ys) = Some z ∧ tree_hi z = tree_hi (TrSeq (y :: ys))) as (z & Hz & Hhi).
      { rewrite tree_hi_seq. destruct (last (y :: ys)) eqn:E; [eauto|]. apply last_None in E. done. }
      cbn [head hd_error]. rewrite Hz. apply wp_bind, wp_ret, wp_ret. right. cbn [res_into].
      intros l Hl. right. split; [unfold tree_span; by rewrite Hhi|]. exists (length ys). auto.
  Qed.

  (** Split *)
  Lemma split_inner_sound t pT n ef pf fol panic errs s : soundp t pT → aok s →
    W (split_inner n pT ef pf fol panic errs) s (λ '(o, es, cont) s', bad s' ∨ ∃ e, es = errs ++ e ∧
      (is_Some panic → e ≠ []) ∧
      match o with
      | Some x => cont = true ∧ (e = [] → ∀ l, adv s l s' → parses env (a_src s) (pos s) t l x)
      | None => e ≠ []
      end).
  Proof.
    intros HT. revert panic errs s. induction n as [|n IH]; intros panic errs s Hok; cbn [split_inner]; [done|].
    apply wp_bind, wp_peek_src; [done|]. apply wp_bind.
    apply (wp_call _ _ _ (λ step s1, bad s1 ∨
      match step with
      | inl (x, es) => ∃ e, es = errs ++ e ∧ (is_Some panic → e ≠ []) ∧
          (e = [] → ∀ l, adv s l s1 → parses env (a_src s) (pos s) t l x)
      | inr (tk', panic') => is_Some panic'
      end) s); [|done|].
    { destruct (ts_contains ef (look s) || ts_contains_e ef).
      - apply wp_bind. eapply wp_call; [by apply HT|done|]. intros r s1 l1 Hl1 Hok1 Hs.
        apply sound_unres in Hs as [Hb|Hs]; [apply wp_bad; auto|].
        destruct (unres r) as [[x|] e] eqn:Er.
        + apply wp_ret. right. exists (e ++ option_list panic). split_and!; [done| |].
          * intros [q ->]. intros [_ ?]%app_eq_self. done.
          * intros [-> _]%app_eq_self. done.
        + apply wp_bind, wp_peek_src; [done|]. apply wp_ret. right. apply merge_some. auto.
      - destruct panic as [q|].
        + apply wp_bind, wp_cur_span, wp_ret. right. eauto.
        + apply wp_bind, wp_expecting, wp_ret. right. eauto. }
    intros step s1 l1 Hl1 Hok1 [Hb|H]; [apply wp_bad; [done|]; intros [[??]?]; auto|].
    destruct step as [[x es]|[tk' panic']].
    - destruct H as (e & -> & H1 & H2). apply wp_ret. right. eauto 10.
    - destruct H as [q ->]. cbn [option_list].
      destruct (ts_contains pf tk'); [apply wp_ret; right; by eexists|].
      destruct (bool_decide (tk' = None) || ts_contains fol tk'); [apply wp_ret; right; by eexists|].
      apply wp_bind, wp_consume.
      eapply wp_call; [apply IH; by eapply adv_aok, Hok1; apply pop_adv|by eapply adv_aok, Hok1; apply pop_adv|].
      intros [[o es] cont] s2 l2 Hl2 Hok2 [Hb|(e & -> & H1 & H2)]; [by left|]. right. exists e.
      assert (e ≠ []) by eauto. split_and!; [done..|]. destruct o; [|done]. by destruct H2.
  Qed.

  Lemma concat_replicate_S {A} n (x y : A) : concat (replicate (S n) [x; y]) = x :: y :: concat (replicate n [x; y]).
  Proof. done. Qed.

  Lemma split_outer_sound t d pT pP n ef pf fol elems puncts errs s : soundp t pT → soundp d pP → aok s →
    W (split_outer n pT pP ef pf fol elems puncts errs) s (λ '(xs, qs, es) s', bad s' ∨ ∃ zs e,
      es = errs ++ e ∧
      (e = [] → xs = elems ++ odds zs ∧ qs = puncts ++ evens zs ∧ ∃ k, length zs = 2 * k ∧
        ∀ l, adv s l s' → pseq env (a_src s) (pos s) (concat (replicate k [d; t])) l zs)).
  Proof.
    intros HT HP. revert elems puncts errs s. induction n as [|n IH]; intros elems puncts errs s Hok; cbn [split_outer]; [done|].
    apply wp_bind, wp_peek_src; [done|].
    assert (Hstop : W (mret (elems, puncts, errs)) s (λ '(xs, qs, es) s', bad s' ∨ ∃ zs e,
      es = errs ++ e ∧
      (e = [] → xs = elems ++ odds zs ∧ qs = puncts ++ evens zs ∧ ∃ k, length zs = 2 * k ∧
        ∀ l, adv s l s' → pseq env (a_src s) (pos s) (concat (replicate k [d; t])) l zs))).
    { apply wp_ret. right. exists [], []. cbn. rewrite !app_nil_r. split; [done|]. intros _. split_and!; [done..|].
      exists 0. split; [done|]. intros l Hl. rewrite (adv_inj _ _ _ _ Hl (adv_refl s)). constructor. }
    destruct (look s) as [tk|]; [|done]. destruct (ts_contains pf (Some tk)); [|done].
    apply wp_bind. eapply wp_call; [by apply HP|done|]. intros r s1 l1 Hl1 Hok1 Hs.
    apply sound_unres in Hs as [Hb|Hs]; [apply wp_bad; [done|]; intros [[??]?]; auto|].
    destruct (unres r) as [[q|] e] eqn:Er.
    2: { apply wp_ret. right. exists [], e. split; [done|]. intros ->. done. }
    apply wp_bind. eapply wp_call; [by apply (split_inner_sound t)|done|].
    intros [[o es] cont] s2 l2 Hl2 Hok2 [Hb|(e2 & -> & _ & H2)].
    { apply wp_bad; [done|]; intros [[??]?]; auto. }
    destruct cont.
    - eapply wp_call; [by apply IH|done|]. intros [[xs qs] es] s3 l3 Hl3 Hok3 [Hb|(zs & e3 & -> & H3)]; [by left|].
      right. destruct o as [x|].
      + exists (q :: x :: zs), (e ++ e2 ++ e3). rewrite <- !(assoc_L (++)). split; [done|].
        intros [-> [-> ->]%app_eq_self]%app_eq_self. destruct (H3 eq_refl) as (-> & -> & k & Hk & H4).
        destruct H2 as [_ H2]. split_and!.
        * rewrite odds_cons, evens_cons. cbn. by rewrite <- (assoc_L (++)).
        * rewrite evens_cons, odds_cons. by rewrite <- (assoc_L (++)).
        * exists (S k). split; [cbn; lia|]. intros l Hl. rewrite concat_replicate_S.
          rewrite (chain _ _ _ _ _ (adv_trans _ _ _ _ _ Hl1 Hl2) Hl3 _ Hl). rewrite <- (assoc_L (++)).
          constructor; [by apply Hs|]. rewrite <- (adv_pos _ _ _ Hl1), <- (adv_src _ _ _ Hl1).
          constructor; [by apply H2|]. rewrite <- (adv_pos _ _ _ Hl2), <- (adv_src _ _ _ Hl2). auto.
      + exists [], (e ++ e2 ++ e3). rewrite <- !(assoc_L (++)). split; [done|].
        intros [_ [? _]%app_eq_self]%app_eq_self. done.
    - apply wp_ret. right. destruct o as [x|]; [by destruct H2|].
      exists [], (e ++ e2). rewrite <- (assoc_L (++)). split; [done|]. intros [_ ?]%app_eq_self. done.
  Qed.

  Lemma last_alternate {A} (x : A) zs k : length zs = 2 * k → last (x :: odds zs) = last (x :: zs).
  Proof.
    revert x zs. induction k as [|k IH]; intros x zs Hk; [destruct zs; [done|cbn in Hk; lia]|].
    destruct zs as [|a [|b zs]]; [cbn in Hk; lia..|].
    rewrite odds_cons, evens_cons. change (last (b :: odds zs) = last (b :: zs)). apply IH. cbn in Hk. lia.
  Qed.

  Lemma produce_split_sound t d pT pP n ef pf fol s : soundp t pT → soundp d pP → aok s →
    W (produce_split n pT pP ef pf fol) s (sound (TSplit t d) s).
  Proof.
    intros HT HP Hok. unfold produce_split. apply wp_bind. eapply wp_call; [by apply HT|done|].
    intros r s1 l1 Hl1 Hok1 Hs. apply sound_unres in Hs as [Hb|Hs]; [apply wp_bad; [done|]; intros; by right|].
    destruct (unres r) as [[x|] e] eqn:Er; [|apply wp_ret; by left].
    apply wp_bind. eapply wp_call; [by apply (split_outer_sound t d)|done|].
    intros [[xs qs] es] s2 l2 Hl2 Hok2 [Hb|(zs & e2 & -> & H)]; [apply wp_ret; by right|].
    apply wp_ret. left. destruct (e ++ e2) as [|e0 es] eqn:Ee; [|done]. apply app_eq_self in Ee as [-> ->].
    destruct (H eq_refl) as (-> & -> & k & Hk & H2). cbn [res_into app]. intros l Hl.
    assert (Hlast := last_alternate x zs k Hk).
    replace (match last (x :: odds zs) with Some x0 => tree_hi x0 | None => tree_lo x end) with (tree_hi (TrSeq (x :: zs))).
    2: { rewrite tree_hi_seq, <- Hlast. destruct (last (x :: odds zs)) eqn:E; [done|]. apply last_None in E. done. }
    rewrite <- evens_cons, <- (odds_cons x zs).
    change (Span (tree_lo x) (tree_hi (TrSeq (x :: zs)))) with (tree_span (TrSeq (x :: zs))).
    apply (p_split _ _ _ _ _ k). rewrite (chain _ _ _ _ _ Hl1 Hl2 _ Hl). constructor; [by apply Hs|].
    rewrite <- (adv_pos _ _ _ Hl1), <- (adv_src _ _ _ Hl1). auto.
  Qed.

  (** Punct *)
  Lemma punct_inner_sound t pT n ef pf fol panic errs s : soundp t pT → aok s →
    W (punct_inner n pT ef pf fol panic errs) s (λ '(o, es, cont) s', bad s' ∨ ∃ e, es = errs ++ e ∧
      (is_Some panic → e ≠ []) ∧
      match o with
      | Some x => cont = true ∧ (e = [] → ∀ l, adv s l s' → parses env (a_src s) (pos s) t l x)
      | None => e = [] → cont = false ∧ adv s [] s'
      end).
  Proof.
    intros HT. revert panic errs s. induction n as [|n IH]; intros panic errs s Hok; cbn [punct_inner]; [done|].
    apply wp_bind, wp_peek_src; [done|].
    assert (Hstop : W (mret (@None tree, errs ++ option_list panic, false)) s (λ '(o, es, cont) s', bad s' ∨ ∃ e, es = errs ++ e ∧
      (is_Some panic → e ≠ []) ∧
      match o with
      | Some x => cont = true ∧ (e = [] → ∀ l, adv s l s' → parses env (a_src s) (pos s) t l x)
      | None => e = [] → cont = false ∧ adv s [] s'
      end)).
    { apply wp_ret. right. eexists. split; [done|]. split; [by intros [q ->]|]. intros _. split; [done|apply adv_refl]. }
    destruct (look s) as [tk|]; [|done].
    destruct (negb (ts_contains ef (Some tk)) && ts_contains fol (Some tk)); [done|].
    apply wp_bind.
    apply (wp_call _ _ _ (λ step s1, bad s1 ∨
      match step with
      | inl (x, es) => ∃ e, es = errs ++ e ∧ (is_Some panic → e ≠ []) ∧
          (e = [] → ∀ l, adv s l s1 → parses env (a_src s) (pos s) t l x)
      | inr panic' => is_Some panic'
      end) s); [|done|].
    { destruct (ts_contains ef (Some tk)).
      - apply wp_bind. eapply wp_call; [by apply HT|done|]. intros r s1 l1 Hl1 Hok1 Hs.
        apply sound_unres in Hs as [Hb|Hs]; [apply wp_bad; auto|].
        destruct (unres r) as [[x|] e] eqn:Er.
        + apply wp_ret. right. exists (option_list panic ++ e). split_and!; [done| |].
          * intros [q ->]. done.
          * intros [_ ->]%app_eq_self. done.
        + apply wp_ret. right. apply merge_some. auto.
      - apply wp_bind, wp_cur_span, wp_ret. right. eauto. }
    intros step s1 l1 Hl1 Hok1 [Hb|H]; [apply wp_bad; [done|]; intros [[??]?]; auto|].
    destruct step as [[x es]|panic'].
    - destruct H as (e & -> & H1 & H2). apply wp_ret. right. eauto 10.
    - destruct H as [q ->]. cbn [option_list]. apply wp_bind, wp_peek_src; [done|].
      destruct (ts_contains pf (look s1)); [apply wp_ret; right; by eexists|].
      destruct (bool_decide (look s1 = None) || ts_contains fol (look s1)); [apply wp_ret; right; by eexists|].
      apply wp_bind, wp_consume.
      eapply wp_call; [apply IH; by eapply adv_aok, Hok1; apply pop_adv|by eapply adv_aok, Hok1; apply pop_adv|].
      intros [[o es] cont] s2 l2 Hl2 Hok2 [Hb|(e & -> & H1 & H2)]; [by left|]. right. exists e.
      assert (e ≠ []) by eauto. split_and!; [done..|]. destruct o; [|done]. by destruct H2.
  Qed.

  Lemma punct_outer_sound t d pT pP n ef pf fol elems puncts errs s : soundp t pT → soundp d pP → aok s →
    W (punct_outer n pT pP ef pf fol elems puncts errs) s (λ '(xs, qs, es) s', bad s' ∨ ∃ zs e,
      es = errs ++ e ∧
      (e = [] → xs = elems ++ odds zs ∧ qs = puncts ++ evens zs ∧ ∃ k (b : bool), 
        ∀ l, adv s l s' → pseq env (a_src s) (pos s) (concat (replicate k [d; t]) ++ if b then [d] else []) l zs)).
  Proof.
    intros HT HP. revert elems puncts errs s. induction n as [|n IH]; intros elems puncts errs s Hok; cbn [punct_outer]; [done|].
    apply wp_bind, wp_peek_src; [done|].
    assert (Hstop : W (mret (elems, puncts, errs)) s (λ '(xs, qs, es) s', bad s' ∨ ∃ zs e,
      es = errs ++ e ∧
      (e = [] → xs = elems ++ odds zs ∧ qs = puncts ++ evens zs ∧ ∃ k (b : bool), 
        ∀ l, adv s l s' → pseq env (a_src s) (pos s) (concat (replicate k [d; t]) ++ if b then [d] else []) l zs))).
    { apply wp_ret. right. exists [], []. cbn. rewrite !app_nil_r. split; [done|]. intros _. split_and!; [done..|].
      exists 0, false. intros l Hl. rewrite (adv_inj _ _ _ _ Hl (adv_refl s)). constructor. }
    destruct (look s) as [tk|]; [|done]. destruct (ts_contains pf (Some tk)); [|done].
    apply wp_bind. eapply wp_call; [by apply HP|done|]. intros r s1 l1 Hl1 Hok1 Hs.
    apply sound_unres in Hs as [Hb|Hs]; [apply wp_bad; [done|]; intros [[??]?]; auto|].
    destruct (unres r) as [[q|] e] eqn:Er.
    2: { apply wp_ret. right. exists [], e. split; [done|]. intros ->. done. }
    apply wp_bind. eapply wp_call; [by apply (punct_inner_sound t)|done|].
    intros [[o es] cont] s2 l2 Hl2 Hok2 [Hb|(e2 & -> & _ & H2)].
    { apply wp_bad; [done|]; intros [[??]?]; auto. }
    destruct cont.
    - eapply wp_call; [by apply IH|done|]. intros [[xs qs] es] s3 l3 Hl3 Hok3 [Hb|(zs & e3 & -> & H3)]; [by left|].
      right. destruct o as [x|].
      + exists (q :: x :: zs), (e ++ e2 ++ e3). rewrite <- !(assoc_L (++)). split; [done|].
        intros [-> [-> ->]%app_eq_self]%app_eq_self. destruct (H3 eq_refl) as (-> & -> & k & b & H4).
        destruct H2 as [_ H2]. split_and!.
        * rewrite odds_cons, evens_cons. cbn. by rewrite <- (assoc_L (++)).
        * rewrite evens_cons, odds_cons. by rewrite <- (assoc_L (++)).
        * exists (S k), b. intros l Hl. rewrite concat_replicate_S. cbn [app].
          rewrite (chain _ _ _ _ _ (adv_trans _ _ _ _ _ Hl1 Hl2) Hl3 _ Hl). rewrite <- (assoc_L (++)).
          constructor; [by apply Hs|]. rewrite <- (adv_pos _ _ _ Hl1), <- (adv_src _ _ _ Hl1).
          constructor; [by apply H2|]. rewrite <- (adv_pos _ _ _ Hl2), <- (adv_src _ _ _ Hl2). auto.
      + exists [], (e ++ e2 ++ e3). rewrite <- !(assoc_L (++)). split; [done|].
        intros [_ [-> _]%app_eq_self]%app_eq_self. by destruct (H2 eq_refl).
    - apply wp_ret. right. destruct o as [x|]; [by destruct H2|].
      exists [q], (e ++ e2). rewrite <- (assoc_L (++)). split; [done|]. intros [-> ->]%app_eq_self.
      destruct (H2 eq_refl) as [_ Hn]. cbn. rewrite !app_nil_r. split_and!; [done..|].
      exists 0, true. intros l Hl. rewrite (chain _ _ _ _ _ Hl1 Hn _ Hl). cbn. constructor; [by apply Hs|constructor].
  Qed.

  (** The end of an alternating sequence *)
  Lemma pseq_hi_max src len p ts l x zs : Forall (filled env) ts → pseq env src p ts l (x :: zs) →
    spans_ok p len (map t_span l) →
    Nat.max (match last (x :: odds zs) with Some y => tree_hi y | None => tree_lo x end)
      (match last (evens zs) with Some y => tree_hi y | None => tree_lo x end) = tree_hi (TrSeq (x :: zs)).
  Proof.
    intros Hf H Hsp. inversion H as [|? t ts' l1 l2 ? ? Hx Hzs]; subst. apply Forall_cons in Hf as [Hf1 Hf2].
    apply spans_ok_pos in Hsp as [Hs1 Hs2].
    destruct (parses_hull _ _ _ _ _ _ Hx Hf1) as [Hlo Hhi].
    apply (lo_spec_bounds _ _ _ _ Hs1) in Hlo as [_ Hlo]. rewrite <- Hhi in Hlo, Hs2.
    clear H Hx Hf1 Hs1. rewrite <- Hhi in Hzs. clear Hhi t p l1.
    assert (Hgen : ∀ zs a b ts l, tree_lo x ≤ a → a ≤ b → Forall (filled env) ts →
      pseq env src b ts l zs → spans_ok b len (map t_span l) →
      Nat.max (match last (odds zs) with Some y => tree_hi y | None => b end)
        (match last (evens zs) with Some y => tree_hi y | None => a end) =
        match last zs with Some y => tree_hi y | None => b end ∧
      Nat.max (match last (evens zs) with Some y => tree_hi y | None => b end)
        (match last (odds zs) with Some y => tree_hi y | None => a end) =
        match last zs with Some y => tree_hi y | None => b end).
    { clear zs ts' l2 Hzs Hf2 Hs2. induction zs as [|z zs IH]; intros a b ts l Ha Hab Hf H Hsp.
      - cbn. lia.
      - inversion H as [|? t ts' l1 l2 ? ? Hz Hzs]; subst. apply Forall_cons in Hf as [Hf1 Hf2].
        apply spans_ok_pos in Hsp as [Hs1 Hs2].
        destruct (parses_hull _ _ _ _ _ _ Hz Hf1) as [_ Hhi].
        assert (Hge := end_pos_ge _ _ _ Hs1). rewrite <- Hhi in Hge, Hs2, Hzs.
        destruct (IH b (tree_hi z) ts' l2) as [I1 I2]; [lia|lia|done..|].
        rewrite evens_cons, odds_cons, !last_cons.
        split.
        + rewrite (Nat.max_comm).
          transitivity (match last zs with Some y => tree_hi y | None => tree_hi z end); [|by destruct (last zs)].
          rewrite <- I1. f_equal. destruct (last (odds zs)); done.
        + transitivity (match last zs with Some y => tree_hi y | None => tree_hi z end); [|by destruct (last zs)].
          destruct (IH a (tree_hi z) ts' l2) as [I3 _]; [lia|lia|done..|].
          rewrite <- I3. f_equal. destruct (last (odds zs)); done. }
    destruct (Hgen zs (tree_lo x) (tree_hi x) ts' l2) as [H1 _]; [lia|lia|done..|].
    rewrite tree_hi_seq, !last_cons.
    transitivity (match last zs with Some y => tree_hi y | None => tree_hi x end); [|by destruct (last zs)].
    rewrite <- H1. f_equal. by destruct (last (odds zs)).
  Qed.

  Lemma filled_alternate t d n (b : bool) : filled env (TPunct t d) →
    Forall (filled env) (alternate n t d ++ if b then [d] else []).
  Proof.
    intros Hf.
    assert (Ht : filled env t) by (apply (all_within_sub _ _ _ _ Hf); cbn; set_solver).
    assert (Hd : filled env d) by (apply (all_within_sub _ _ _ _ Hf); cbn; set_solver).
    apply Forall_app. split.
    - constructor; [done|]. clear -Ht Hd. induction n as [|n IHn]; cbn; [done|]. by repeat constructor.
    - destruct b; by repeat constructor.
  Qed.

  Lemma produce_punct_sound t d pT pP n ef pf fol s : filled env (TPunct t d) → soundp t pT → soundp d pP → aok s →
    W (produce_punct n pT pP ef pf fol) s (sound (TPunct t d) s).
  Proof.
    intros Hf HT HP Hok. unfold produce_punct. apply wp_bind. eapply wp_call; [by apply HT|done|].
    intros r s1 l1 Hl1 Hok1 Hs. apply sound_unres in Hs as [Hb|Hs]; [apply wp_bad; [done|]; intros; by right|].
    destruct (unres r) as [[x|] e] eqn:Er; [|apply wp_ret; by left].
    apply wp_bind. eapply wp_call; [by apply (punct_outer_sound t d)|done|].
    intros [[xs qs] es] s2 l2 Hl2 Hok2 [Hb|(zs & e2 & -> & H)]; [apply wp_ret; by right|].
    apply wp_ret. left. destruct (e ++ e2) as [|e0 es] eqn:Ee; [|done]. apply app_eq_self in Ee as [-> ->].
    destruct (H eq_refl) as (-> & -> & k & b & H2). cbn [res_into app]. intros l Hl.
    assert (Hq : pseq env (a_src s) (pos s) (alternate k t d ++ if b then [d] else []) l (x :: zs)).
    { rewrite (chain _ _ _ _ _ Hl1 Hl2 _ Hl). cbn. constructor; [by apply Hs|].
      rewrite <- (adv_pos _ _ _ Hl1), <- (adv_src _ _ _ Hl1). auto. }
    cbv zeta. rewrite (pseq_hi_max _ _ _ _ _ _ _ (filled_alternate t d k b Hf) Hq (adv_spans _ _ _ Hok Hl)).
    rewrite <- evens_cons, <- (odds_cons x zs).
    change (Span (tree_lo x) (tree_hi (TrSeq (x :: zs)))) with (tree_span (TrSeq (x :: zs))).
    by apply (p_punct _ _ _ _ _ k b).
  Qed.

  (** Recover *)
  Lemma recover_loop_sound t pR n tf panic errs s : soundp t pR → aok s →
    ts_contains_e tf = true ∨ B →
    W (recover_loop n pR tf panic errs) s (λ '(o, panic', es) s', bad s' ∨ ∃ e, es = errs ++ e ∧
      (is_Some panic → is_Some panic') ∧
      match o with
      | Some x => panic' = None → e = [] → ∀ l, adv s l s' → parses env (a_src s) (pos s) t l x
      | None => is_Some panic'
      end).
  Proof.
    intros HT. revert panic errs s. induction n as [|n IH]; intros panic errs s Hok HB; cbn [recover_loop]; [done|].
    apply wp_bind, wp_peek_src; [done|].
    destruct (look s) as [tk|] eqn:El.
    - apply wp_bind.
      apply (wp_call _ _ _ (λ step s1, bad s1 ∨
        match step with
        | inl (x, es) => ∃ e, es = errs ++ e ∧
            (e = [] → ∀ l, adv s l s1 → parses env (a_src s) (pos s) t l x)
        | inr panic' => is_Some panic → is_Some panic'
        end) s); [|done|].
      { destruct (ts_contains tf (Some tk) || ts_contains_e tf); [|apply wp_ret; by right].
        apply wp_bind. eapply wp_call; [by apply HT|done|]. intros r s1 l1 Hl1 Hok1 Hs.
        apply sound_unres in Hs as [Hb|Hs]; [apply wp_bad; auto|].
        destruct (unres r) as [[x|] e] eqn:Er.
        + apply wp_ret. right. exists e. split; [done|]. intros ->. done.
        + apply wp_ret. right. intros _. apply merge_some. auto. }
      intros step s1 l1 Hl1 Hok1 [Hb|H]; [apply wp_bad; [done|]; intros [[??]?]; auto|].
      destruct step as [[x es]|panic'].
      + destruct H as (e & -> & H2). apply wp_ret. right. eauto 10.
      + apply wp_bind. apply (wp_mono _ _ _ _ (λ q s2, s2 = s1)).
        { destruct panic' as [q|]; [apply wp_bind, wp_cur_span, wp_ret|apply wp_expecting]; done. }
        intros q s2 ->. apply wp_bind, wp_consume.
        eapply wp_call; [apply IH; [by eapply adv_aok, Hok1; apply pop_adv|done]|by eapply adv_aok, Hok1; apply pop_adv|].
        intros [[o panic2] es] s2 l2 Hl2 Hok2 [Hb|(e & -> & H1 & H2)]; [by left|]. right. exists e.
        assert (is_Some panic2) as [q2 ->] by eauto. split_and!; [done|eauto|].
        destruct o; [done|eauto].
    - destruct (ts_contains_e tf) eqn:Etf.
      + apply wp_bind. eapply wp_call; [by apply HT|done|]. intros r s1 l1 Hl1 Hok1 Hs.
        apply sound_unres in Hs as [Hb|Hs]; [apply wp_bad; [done|]; intros [[??]?]; auto|].
        destruct (unres r) as [[x|] e] eqn:Er.
        * apply wp_ret. right. exists e. split_and!; [done..|]. intros _ ->. done.
        * apply wp_ret. right. exists []. rewrite app_nil_r. split_and!; [done| |]; intros; apply merge_some; auto.
      + destruct HB as [?|HB]; [done|]. apply wp_ret. left. split; [done|]. by apply look_none.
  Qed.

  Lemma produce_recover_sound t r pT pR n hf tf s : soundp t pT → soundp r pR → aok s →
    ts_contains_e tf = true ∨ B →
    W (produce_recover n pT pR hf tf) s (sound (TRecover t r) s).
  Proof.
    intros HT HR Hok HB. unfold produce_recover. apply wp_bind, wp_peek_src; [done|]. apply wp_bind.
    apply (wp_call _ _ _ (λ '(panic, sp, hd, errs) s1, bad s1 ∨
      match hd with
      | Some x => panic = None ∧ sp = tree_span x ∧
          (errs = [] → ∀ l, adv s l s1 → parses env (a_src s) (pos s) t l x)
      | None => is_Some panic
      end) s); [|done|].
    { destruct (ts_contains hf (look s) || ts_contains_e hf).
      - apply wp_bind. eapply wp_call; [by apply HT|done|]. intros x s1 l1 Hl1 Hok1 Hs.
        apply sound_unres in Hs as [Hb|Hs]; [apply wp_bad; [done|]; intros [[[??]?]?]; auto|].
        destruct (unres x) as [[y|] e] eqn:Er.
        + apply wp_ret. right. split_and!; [done..|]. intros ->. done.
        + apply wp_bind, wp_empty_span, wp_ret. right. destruct (last e) eqn:E; [eauto|].
          apply last_None in E. done.
      - apply wp_bind, wp_expecting. apply wp_bind, wp_empty_span, wp_ret. right. eauto. }
    intros [[[panic sp] hd] errs] s1 l1 Hl1 Hok1 [Hb|H].
    { apply wp_bad; [done|]. intros; by right. }
    apply wp_bind. eapply wp_call; [by apply (recover_loop_sound r)|done|].
    intros [[o panic'] es] s2 l2 Hl2 Hok2 [Hb|(e & -> & H1 & H2)].
    { apply wp_bad; [done|]. intros; by right. }
    assert (Hne : is_Some panic' → (errs ++ e) ++ option_list panic' ≠ []).
    { intros [q ->] [_ ?]%app_eq_self. done. }
    destruct o as [x|].
    - apply wp_ret. left. destruct hd as [y|].
      + destruct H as (-> & -> & H).
        destruct ((errs ++ e) ++ option_list panic') as [|e0 es] eqn:Ee; [|done].
        apply app_eq_self in Ee as [Ee Hp]. apply app_eq_self in Ee as [-> ->].
        assert (panic' = None) as -> by (by destruct panic').
        cbn [res_into]. intros l Hl. constructor. 
        rewrite (chain _ _ _ _ _ Hl1 Hl2 _ Hl). constructor; [by apply H|].
        rewrite <- (adv_pos _ _ _ Hl1), <- (adv_src _ _ _ Hl1). apply pseq_one. auto.
      + apply H1 in H. apply Hne in H. destruct (_ ++ _); done.
    - apply wp_ret. left. auto.
  Qed.

  (** * All types *)
  Definition all_ok (t : ty) : Prop := filled env t ∧ tails_ok t.
  Lemma all_ok_sub t c : all_ok t → c ∈ subs env t → all_ok c.
  Proof. intros [? ?] ?. split; by eapply all_within_sub. Qed.

  Lemma adv_look_lit s t r y lit l : aok s → a_rest s = t :: r → adv s l (pop s) → look s = Some (y, lit) →
    l = [t] ∧ text_of (a_src s) t = Some lit ∧ t_ty t = y.
  Proof.
    intros Hok Er Hl Hlk. destruct (pop_adv1 s t r Er) as [H1 _]. split; [by eapply adv_inj|].
    destruct (look_src s t r Hok Er) as (x & Hx & Hl'). rewrite Hlk in Hl'. injection Hl' as -> ->. done.
  Qed.

  Lemma produce_sound f t : all_ok t → soundp t (produce f t).
  Proof.
    revert t. induction f as [|f IH]; intros t Ha s Hok; [done|].
    assert (Hsub : ∀ c, c ∈ subs env t → soundp c (produce f c)).
    { intros c Hc. apply IH. by eapply all_ok_sub. }
    destruct t as [n y lit|n|ts|t|t|t|t|t|t|t|t|t d|t d|t r]; cbn [ProduceModel.produce].
    - (* terminal *)
      apply wp_bind. destruct lit as [lit|].
      + apply wp_parse_token_lit; [done|]. destruct (a_rest s) as [|t r] eqn:Er.
        * destruct (ts_contains_e _); apply wp_ret; by left.
        * destruct (decide (look s = Some (y, lit))) as [Hlk|_].
          -- apply wp_ret. left. cbn. intros l Hl. destruct (adv_look_lit _ _ _ _ _ _ Hok Er Hl Hlk) as (-> & ? & ?).
             by constructor.
          -- destruct (ts_contains _ _); apply wp_ret; by left.
      + apply wp_parse_token. destruct (a_rest s) as [|t r] eqn:Er; [apply wp_ret; by left|].
        case_decide; [|apply wp_ret; by left]. apply wp_ret. left. cbn. intros l Hl.
        destruct (pop_adv1 s t r Er) as [H1 _]. rewrite (adv_inj _ _ _ _ Hl H1). by constructor.
    - destruct (env !! n) as [[fs|vs]|] eqn:En; [| |done].
      + (* struct *)
        apply wp_bind. eapply wp_call; [apply (produce_seq_sound _ (map fst fs)); [done|]|done|].
        { intros c Hc. apply Hsub. cbn. by rewrite En. }
        intros r s1 l1 Hl1 Hok1 [Hb|H]; [apply wp_bad; [done|]; intros; by right|].
        destruct r as [xs|xs [|e es]|es]; cbn [unres]; [|done| |].
        * destruct H as (_ & ys & -> & H). apply wp_bind. eapply wp_mono; [apply apply_fields_adv|].
          intros ? s2 Hl2. apply wp_ret. left. cbn [res_into app]. intros l Hl. eapply p_struct; [done|].
          rewrite (chain _ _ _ _ _ Hl1 Hl2 _ Hl), app_nil_r. auto.
        * apply wp_bind. eapply wp_mono; [apply apply_fields_adv|]. intros ? s2 Hl2. apply wp_ret. by left.
        * apply wp_ret. by left.
      + (* enum *)
        apply wp_bind, wp_peek_src; [done|]. 
        destruct (_ ≫= _) as [[i [t' sem]]|] eqn:Ei.
        2: { apply wp_bind, wp_expecting, wp_ret. by left. }
        assert (vs !! i = Some (t', sem)) as Hi.
        { destruct (jump (key (TNamed n)) (look s)) as [i'|]; [|done]. cbn in Ei.
          destruct (vs !! i') eqn:E; [|done]. cbn in Ei. injection Ei as -> ->. done. }
        apply wp_bind. eapply wp_call; [apply (Hsub t')|done|].
        { cbn. rewrite En. cbn. apply elem_of_list_lookup_2 in Hi. 
          apply elem_of_list_In, (in_map fst), elem_of_list_In in Hi. done. }
        { done. }
        intros r s1 l1 Hl1 Hok1 [H|Hb]; [|apply wp_bad; [done|]; intros; by right].
        destruct r as [x|x es|es].
        * assert (Hfin : ∀ s2, adv s1 [] s2 → sound (TNamed n) s (RSucc (TrVar i x)) s2).
          { intros s2 Hl2. left. intros l Hl. eapply p_enum; [done..|]. rewrite (chain _ _ _ _ _ Hl1 Hl2 _ Hl), app_nil_r. auto. }
          destruct sem; [apply wp_bind, wp_apply|]; apply wp_ret, Hfin; [apply mark_adv|apply adv_refl].
        * destruct sem; [apply wp_bind, wp_apply|]; apply wp_ret; by left.
        * apply wp_ret. by left.
    - (* tuple *)
      apply wp_bind. eapply wp_call; [apply (produce_seq_sound _ ts); [done|]|done|].
      { intros c Hc. apply Hsub. done. }
      intros r s1 l1 Hl1 Hok1 [Hb|H]; apply wp_ret; [by right|]. left.
      destruct r as [xs|xs es|es]; [|done..]. cbn. destruct H as (_ & ys & -> & H). intros l Hl. constructor. auto.
    - (* box *)
      eapply wp_mono; [apply Hsub; [cbn; set_solver|done]|]. intros r s1 [H|?]; [|by right]. left.
      destruct r; [|done..]. intros l Hl. constructor. auto.
    - (* option *)
      apply wp_bind. eapply wp_mono; [apply (produce_option_sound _ _ _ (parses env (a_src s) (pos s) t)); [done|]|].
      { eapply wp_mono; [apply Hsub; [cbn; set_solver|done]|]. intros r s1 [H|?]; auto. }
      intros r s1 [Hb|H]; apply wp_ret; [by right|]. left. destruct r as [[sp o]|[sp o] es|es]; [|done..]. cbn.
      intros l Hl. specialize (H l Hl). destruct o; destruct H as [-> H]; [by constructor|]. subst. constructor.
    - (* exists *)
      apply wp_bind. eapply wp_mono; [apply (produce_option_sound _ _ _ (parses env (a_src s) (pos s) t)); [done|]|].
      { eapply wp_mono; [apply Hsub; [cbn; set_solver|done]|]. intros r s1 [H|?]; auto. }
      intros r s1 [Hb|H]; apply wp_ret; [by right|]. left. destruct r as [[sp o]|[sp o] es|es]; [|done..]. cbn.
      intros l Hl. specialize (H l Hl). destruct o; destruct H as [-> H]; [by constructor|]. subst. constructor.
    - (* quote *)
      apply wp_bind. eapply wp_call; [apply Hsub; [cbn; set_solver|done]|done|]. intros r s1 l1 Hl1 Hok1 [H|Hb].
      2: { apply wp_bad; [done|]; intros; by right. }
      destruct r as [x|x es|es]; [| |apply wp_ret; by left].
      all: apply wp_bind; destruct (span_get (tree_span x) (a_src s1)) as [str|] eqn:Es;
        [|unfold wp, get_src; cbn [arun]; by rewrite Es].
      all: eapply wp_get_src; [done|]; apply wp_ret; left; try done.
      intros l Hl. constructor; [auto|]. by rewrite <- (adv_src _ _ _ Hl1).
    - (* parse *)
      apply wp_bind. eapply wp_call; [apply Hsub; [cbn; set_solver|done]|done|]. intros r s1 l1 Hl1 Hok1 [H|Hb].
      2: { apply wp_bad; [done|]; intros; by right. }
      destruct r as [x|x es|es]; [| |apply wp_ret; by left].
      all: apply wp_bind; destruct (span_get (tree_span x) (a_src s1)) as [str|] eqn:Es;
        [|unfold wp, get_src; cbn [arun]; by rewrite Es].
      all: eapply wp_get_src; [done|]; apply wp_ret; left; try done.
      intros l Hl. constructor; [auto|]. by rewrite <- (adv_src _ _ _ Hl1).
    - (* plus *)
      apply wp_bind. eapply wp_mono; [apply (produce_plus_sound t); [apply Hsub; cbn; set_solver|done]|].
      intros r s1 [Hb|H]; apply wp_ret; [by right|]. left. destruct r as [[sp o]|[sp o] es|es]; [|done..]. cbn.
      intros l Hl. destruct (H l Hl) as [-> [k Hk]]. by apply (p_plus _ _ _ _ k).
    - (* star *)
      apply wp_bind. eapply wp_mono; [apply (produce_option_sound _ _ _ (λ l x,
        x.1 = tree_span (TrSeq x.2) ∧ ∃ k, pseq env (a_src s) (pos s) (replicate (S k) t) l x.2)); [done|]|].
      { eapply wp_mono; [apply (produce_plus_sound t); [apply Hsub; cbn; set_solver|done]|].
        intros [[sp o]|[sp o] es|es] s1 [H|?]; auto. }
      intros r s1 [Hb|H]; apply wp_ret; [by right|]. left. destruct r as [[sp o]|[sp o] es|es]; [|done..]. cbn.
      intros l Hl. specialize (H l Hl). destruct o as [[sp' xs]|].
      + destruct H as (_ & H1 & k & Hk). cbn in H1, Hk. subst. by apply (p_star _ _ _ _ k).
      + destruct H as [-> ->]. constructor.
    - (* loop *)
      apply wp_bind. eapply wp_mono; [apply (produce_loop_sound t); [apply Hsub; cbn; set_solver|done]|].
      intros r s1 [Hb|H]; apply wp_ret; [by right|]. left. destruct r as [[sp o]|[sp o] es|es]; [|done..]. cbn.
      intros l Hl. destruct (H l Hl) as [(-> & -> & ->)|[-> [k Hk]]]; [constructor|]. by apply (p_loop _ _ _ _ k).
    - apply produce_split_sound; [apply Hsub; cbn; set_solver..|done].
    - apply produce_punct_sound; [apply Ha|apply Hsub; cbn; set_solver..|done].
    - apply produce_recover_sound; [apply Hsub; cbn; set_solver..|done|].
      destruct Ha as [_ Ha]. by apply all_within_here in Ha.
  Qed.
End sound.
