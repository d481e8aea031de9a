(** Reasoning about programs over the abstract token stream: weakest preconditions,
    advancing, more fuel. *)
From Coq Require Import String Ascii NArith.
From stdpp Require Import prelude list.
From Verif Require Import LexModel LexSpec LexFacts SynSetModel StreamModel StreamSpec StreamFacts ParseSpec.
Local Open Scope nat_scope.

(** The look-ahead with its text. *)
Definition look (s : ast) : option tok :=
  match a_rest s with
  | t :: _ => Some (t_ty t, default ""%string (token_src t (a_src s)))
  | [] => None
  end.
Definition pos (s : ast) : nat := end_of (a_done s).
Definition pop (s : ast) : ast :=
  match a_rest s with t :: r => Ast (a_src s) (vec_push (a_done s) t) r | [] => s end.
Definition mark (s : ast) (sp : span) (sem : N) : ast :=
  Ast (a_src s) (vec_apply_semantic (a_done s) sp sem) (a_rest s).
Definition toks (s : ast) : list token := map c_tok (a_done s).

(** [s'] comes from [s] by consuming [l]. *)
Record adv (s : ast) (l : list token) (s' : ast) : Prop := Adv {
  adv_src : a_src s' = a_src s;
  adv_toks : toks s' = toks s ++ l;
  adv_rest : a_rest s = l ++ a_rest s' }.

Lemma adv_refl s : adv s [] s.
Proof. split; [done|by rewrite app_nil_r|done]. Qed.
Lemma adv_trans s1 l1 s2 l2 s3 : adv s1 l1 s2 → adv s2 l2 s3 → adv s1 (l1 ++ l2) s3.
Proof.
  intros [A1 A2 A3] [B1 B2 B3]. split; [congruence| |].
  - by rewrite B2, A2, (assoc_L (++)).
  - by rewrite A3, B3, (assoc_L (++)).
Qed.
Lemma adv_inj s l l' s' : adv s l s' → adv s l' s' → l = l'.
Proof. intros [_ A _] [_ B _]. rewrite A in B. by apply app_inv_head in B. Qed.
Lemma adv_nil s s' : adv s [] s' → a_rest s' = a_rest s ∧ toks s' = toks s ∧ a_src s' = a_src s.
Proof. intros [A B C]. rewrite app_nil_r in B. auto. Qed.
Lemma adv_same s l s' : adv s l s' → a_rest s' = a_rest s → l = [].
Proof. intros [A B C] H. rewrite H in C. apply (f_equal length) in C. rewrite app_length in C. destruct l; [done|cbn in C; lia]. Qed.

Lemma pop_adv s : adv s (match a_rest s with t :: _ => [t] | [] => [] end) (pop s).
Proof.
  unfold pop. destruct (a_rest s) as [|t r] eqn:E.
  - apply adv_refl.
  - split; cbn; [done| |done]. unfold toks, vec_push. cbn. by rewrite map_app.
Qed.
Lemma pop_adv1 s t r : a_rest s = t :: r → adv s [t] (pop s) ∧ a_rest (pop s) = r.
Proof. intros E. assert (H := pop_adv s). rewrite E in H. split; [done|]. unfold pop. by rewrite E. Qed.
Lemma mark_adv s sp sem : adv s [] (mark s sp sem).
Proof. split; cbn; [done| |done]. unfold toks. cbn. by rewrite apply_toks, app_nil_r. Qed.

Lemma last_map {A B} (f : A → B) l : last (map f l) = f <$> last l.
Proof. induction l as [|x l IH]; [done|]. destruct l; [done|]. exact IH. Qed.
Lemma end_of_toks l l' : map c_tok l = map c_tok l' → end_of l = end_of l'.
Proof.
  intros H. unfold end_of. apply (f_equal last) in H. rewrite !last_map in H.
  destruct (last l), (last l'); cbn in H; try done. injection H as H. unfold c_hi. by rewrite H.
Qed.
Lemma pos_toks s : pos s = end_pos 0 (toks s).
Proof.
  unfold pos, end_pos, end_of, toks. rewrite last_map. by destruct (last (a_done s)).
Qed.
Lemma end_pos_app p l l' : end_pos p (l ++ l') = end_pos (end_pos p l) l'.
Proof.
  unfold end_pos. destruct l' as [|x l' _] using rev_ind; [by rewrite app_nil_r|].
  by rewrite (assoc_L (++)), !last_snoc.
Qed.
Lemma adv_pos s l s' : adv s l s' → pos s' = end_pos (pos s) l.
Proof. intros [_ A _]. by rewrite !pos_toks, A, end_pos_app. Qed.

Lemma aok_eq s : aok s ↔ spans_ok 0 (String.length (a_src s)) (map t_span (toks s ++ a_rest s)).
Proof. unfold aok, toks. rewrite map_app, map_map. done. Qed.
Lemma adv_aok s l s' : adv s l s' → aok s → aok s'.
Proof. intros [A B C] H. rewrite aok_eq in *. rewrite A, B. rewrite C in H. by rewrite <- (assoc_L (++)). Qed.

Lemma arun_adv {A} (m : M A) s a s' : arun m s = ODone a s' → ∃ l, adv s l s'.
Proof.
  revert s. induction m as [| |k IH|t k IH|k IH|k IH|k IH|sp k IH|sp sem k IH|es k IH];
    intros s; cbn [arun]; intros H.
  - injection H as _ <-. exists []. apply adv_refl.
  - done.
  - by eapply IH.
  - destruct (token_src t (a_src s)); [by eapply IH|done].
  - destruct (a_rest s) as [|t r] eqn:E; [by eapply IH|].
    apply IH in H as [l Hl]. exists ([t] ++ l).
    destruct (pop_adv1 s t r E) as [Hp _]. eapply adv_trans; [exact Hp|].
    unfold pop. by rewrite E.
  - by eapply IH.
  - by eapply IH.
  - destruct (span_get sp (a_src s)); [by eapply IH|done].
  - apply IH in H as [l Hl]. exists ([] ++ l). eapply adv_trans; [|exact Hl]. apply mark_adv.
  - by eapply IH.
Qed.

(** * Weakest preconditions; [F]: what running out of fuel would mean, [C]: a crash. *)
Section wp.
  Context (F C : Prop).
  Definition wp {A} (m : M A) (s : ast) (Q : A → ast → Prop) : Prop :=
    match arun m s with OFuel => F | OCrash => C | ODone a s' => Q a s' end.

  Lemma wp_ret {A} (a : A) s (Q : A → ast → Prop) : Q a s → wp (mret a) s Q.
  Proof. done. Qed.
  Lemma wp_bind {A B} (m : M A) (f : A → M B) s Q : wp m s (λ a s', wp (f a) s' Q) → wp (m ≫= f) s Q.
  Proof. unfold wp. rewrite arun_bind. by destruct (arun m s). Qed.
  Lemma wp_bind_inv {A B} (m : M A) (f : A → M B) s Q : wp (m ≫= f) s Q → wp m s (λ a s', wp (f a) s' Q).
  Proof. unfold wp. rewrite arun_bind. by destruct (arun m s). Qed.
  Lemma wp_fuel {A} s (Q : A → ast → Prop) : F → wp Fuel s Q.
  Proof. done. Qed.
  Lemma wp_mono {A} (m : M A) s (Q Q' : A → ast → Prop) :
    wp m s Q → (∀ a s', Q a s' → Q' a s') → wp m s Q'.
  Proof. unfold wp. destruct (arun m s); auto. Qed.
  (** Together with what every run does. *)
  Lemma wp_adv {A} (m : M A) s (Q : A → ast → Prop) :
    wp m s (λ a s', ∀ l, adv s l s' → Q a s') → wp m s Q.
  Proof.
    unfold wp. destruct (arun m s) as [| |a s'] eqn:E; [done..|].
    intros H. apply arun_adv in E as [l Hl]. eauto.
  Qed.
  Lemma wp_and {A} (m : M A) s (Q Q' : A → ast → Prop) :
    wp m s Q → wp m s Q' → wp m s (λ a s', Q a s' ∧ Q' a s').
  Proof. unfold wp. destruct (arun m s); auto. Qed.

  Lemma look_src s t r : aok s → a_rest s = t :: r → ∃ x, token_src t (a_src s) = Some x ∧ look s = Some (t_ty t, x).
  Proof.
    intros Hok E. destruct (head_src s t r Hok E) as [x Hx]. exists x. split; [done|].
    unfold look. by rewrite E, Hx.
  Qed.
  Lemma look_none s : look s = None ↔ a_rest s = [].
  Proof. unfold look. by destruct (a_rest s). Qed.
  Lemma look_some s x : look s = Some x → ∃ t r, a_rest s = t :: r ∧ x.1 = t_ty t.
  Proof. unfold look. destruct (a_rest s) as [|t r]; [done|]. intros [= <-]. eauto. Qed.
  Lemma look_eq s s' : a_src s' = a_src s → a_rest s' = a_rest s → look s' = look s.
  Proof. unfold look. by intros -> ->. Qed.

  Lemma wp_peek_src s (Q : option tok → ast → Prop) : aok s → Q (look s) s → wp peek_src s Q.
  Proof.
    intros Hok H. unfold wp, peek_src. cbn [arun].
    destruct (a_rest s) as [|t r] eqn:E; cbn [head hd_error].
    - cbn. unfold look in H. by rewrite E in H.
    - destruct (look_src s t r Hok E) as (x & Hx & Hl). cbn [arun]. rewrite Hx. cbn. by rewrite Hl in H.
  Qed.
  Lemma wp_peek s (Q : option token → ast → Prop) : Q (head (a_rest s)) s → wp peek s Q.
  Proof. done. Qed.
  Lemma wp_consume s (Q : option token → ast → Prop) : Q (head (a_rest s)) (pop s) → wp consume s Q.
  Proof. unfold wp, consume, pop. cbn [arun]. by destruct (a_rest s). Qed.
  Lemma wp_empty_span s (Q : span → ast → Prop) : Q (Span (pos s) (pos s)) s → wp empty_span s Q.
  Proof. done. Qed.
  Lemma wp_cur_span s (Q : span → ast → Prop) : Q (a_span s) s → wp cur_span s Q.
  Proof. done. Qed.
  Lemma wp_expecting set s (Q : perr → ast → Prop) : Q (PErr (a_span s) (Expecting set)) s → wp (expecting set) s Q.
  Proof. done. Qed.
  Lemma wp_unexpected_eof s (Q : perr → ast → Prop) : Q (PErr (a_span s) UnexpectedEof) s → wp unexpected_eof s Q.
  Proof. done. Qed.
  Lemma wp_get_src sp s x (Q : string → ast → Prop) : span_get sp (a_src s) = Some x → Q x s → wp (get_src sp) s Q.
  Proof. intros H HQ. unfold wp, get_src. cbn [arun]. by rewrite H. Qed.
  Lemma wp_apply sp sem s (Q : unit → ast → Prop) : Q tt (mark s sp sem) → wp (apply_semantic sp sem) s Q.
  Proof. done. Qed.
  Lemma wp_parse_token ty s (Q : res token → ast → Prop) :
    match a_rest s with
    | t :: _ => if decide (t_ty t = ty) then Q (RSucc t) (pop s)
                else Q (RPanic [PErr (t_span t) (Expecting (fs_one ty None))]) s
    | [] => Q (RPanic [PErr (eof_span (a_src s)) (Expecting (fs_one ty None))]) s
    end → wp (parse_token ty) s Q.
  Proof.
    unfold wp. rewrite arun_parse_token. unfold pop. destruct (a_rest s) as [|t r]; [done|].
    destruct (Nat.eqb_spec (t_ty t) ty); case_decide; done.
  Qed.
  Lemma wp_parse_token_lit ty lit fol s (Q : res token → ast → Prop) : aok s →
    match a_rest s with
    | t :: _ =>
      if decide (look s = Some (ty, lit)) then Q (RSucc t) (pop s)
      else if ts_contains fol (look s) then
        Q (RRec (Token (Span (pos s) (pos s)) ty) [PErr (t_span t) (Expecting (fs_one ty (Some lit)))]) s
      else Q (RPanic [PErr (t_span t) (Expecting (fs_one ty (Some lit)))]) s
    | [] =>
      if ts_contains_e fol then
        Q (RRec (Token (eof_span (a_src s)) ty) [PErr (eof_span (a_src s)) (Expecting (fs_one ty (Some lit)))]) s
      else Q (RPanic [PErr (eof_span (a_src s)) UnexpectedEof]) s
    end → wp (parse_token_lit ty lit fol) s Q.
  Proof.
    intros Hok. unfold wp. rewrite arun_parse_token_lit. unfold pop.
    destruct (a_rest s) as [|t r] eqn:E.
    - by destruct (ts_contains_e fol).
    - destruct (look_src s t r Hok E) as (x & Hx & Hl). rewrite Hx.
      destruct (decide (look s = Some (ty, lit))) as [Heq|Hne]; rewrite Hl in *.
      + injection Heq as -> ->. by rewrite Nat.eqb_refl, bool_decide_eq_true_2.
      + assert ((t_ty t =? ty) && bool_decide (x = lit) = false) as ->.
        { apply andb_false_iff. destruct (Nat.eqb_spec (t_ty t) ty); [|by left]. right.
          apply bool_decide_eq_false. congruence. }
        change (@Some tok (t_ty t, x)) with (@Some (nat * string) (t_ty t, x)).
        by destruct (ts_contains fol (Some (t_ty t, x))).
  Qed.
End wp.

Lemma wp_weaken {A} (F C F' C' : Prop) (m : M A) s Q : (F → F') → (C → C') → wp F C m s Q → wp F' C' m s Q.
Proof. unfold wp. destruct (arun m s); auto. Qed.

(** * More fuel *)
Fixpoint le {A} (m m' : M A) : Prop :=
  match m with
  | Fuel => True
  | Ret a => m' = Ret a
  | Peek k => ∃ k', m' = Peek k' ∧ ∀ x, le (k x) (k' x)
  | ToSrc t k => ∃ k', m' = ToSrc t k' ∧ ∀ x, le (k x) (k' x)
  | Consume k => ∃ k', m' = Consume k' ∧ ∀ x, le (k x) (k' x)
  | EmptySpan k => ∃ k', m' = EmptySpan k' ∧ ∀ x, le (k x) (k' x)
  | CurSpan k => ∃ k', m' = CurSpan k' ∧ ∀ x, le (k x) (k' x)
  | GetSrc sp k => ∃ k', m' = GetSrc sp k' ∧ ∀ x, le (k x) (k' x)
  | Apply sp sem k => ∃ k', m' = Apply sp sem k' ∧ le k k'
  | Extend es k => ∃ k', m' = Extend es k' ∧ le k k'
  end.

Lemma le_refl {A} (m : M A) : le m m.
Proof. induction m; cbn; eauto. Qed.
Lemma le_bind {A B} (m m' : M A) (f f' : A → M B) :
  le m m' → (∀ a, le (f a) (f' a)) → le (m ≫= f) (m' ≫= f').
Proof.
  rewrite !bindM_eq. revert m'. induction m as [| |k IH|t k IH|k IH|k IH|k IH|sp k IH|sp sem k IH|es k IH];
    intros m' H Hf; cbn in H |- *;
    try (destruct H as (k' & -> & H); eexists; split; [done|]; intros; by apply IH).
  - subst m'. apply Hf.
  - done.
Qed.
Lemma le_trans {A} (m1 m2 m3 : M A) : le m1 m2 → le m2 m3 → le m1 m3.
Proof.
  revert m2 m3. induction m1 as [| |k IH|t k IH|k IH|k IH|k IH|sp k IH|sp sem k IH|es k IH];
    intros m2 m3 H H'; cbn in H |- *; try done;
    try (destruct H as (k' & -> & H); destruct H' as (k'' & -> & H'); eexists; split; [done|]; intros; eauto).
  - subst. done.
Qed.
Lemma le_run {A} extract (m m' : M A) s : le m m' → run extract m s ≠ OFuel → run extract m' s = run extract m s.
Proof.
  revert m' s. induction m as [| |k IH|t k IH|k IH|k IH|k IH|sp k IH|sp sem k IH|es k IH];
    intros m' s H; cbn in H; try (destruct H as (k' & -> & H)); cbn [run]; auto.
  - by subst.
  - done.
  - destruct (token_src t (p_src s)); auto.
  - destruct (take_peeked (fill extract s)); auto.
  - destruct (span_get sp (p_src s)); auto.
Qed.
Lemma le_arun {A} (m m' : M A) s : le m m' → arun m s ≠ OFuel → arun m' s = arun m s.
Proof.
  revert m' s. induction m as [| |k IH|t k IH|k IH|k IH|k IH|sp k IH|sp sem k IH|es k IH];
    intros m' s H; cbn in H; try (destruct H as (k' & -> & H)); cbn [arun]; auto.
  - by subst.
  - done.
  - destruct (token_src t (a_src s)); auto.
  - destruct (a_rest s); auto.
  - destruct (span_get sp (a_src s)); auto.
Qed.
