(** Facts about parse trees. *)
From Coq Require Import String NArith.
From stdpp Require Import prelude list strings relations.
From Verif Require Import LexModel LexSpec LexFacts SynSetModel StreamModel StreamSpec StreamFacts TypeModel ProduceModel CfgSpec ParseSpec ProgFacts.
Local Open Scope nat_scope.

Lemma all_within_here env P t : all_within env P t → P t.
Proof. intros H. apply H, rtc_refl. Qed.
Lemma all_within_sub env P t c : all_within env P t → c ∈ subs env t → all_within env P c.
Proof. intros H Hc t' Ht'. apply H. by eapply rtc_l. Qed.

Lemma tree_hi_seq l : tree_hi (TrSeq l) = match last l with Some y => tree_hi y | None => 0 end.
Proof. cbn [tree_hi]. induction l as [|x l IH]; [done|]. destruct l; [done|]. exact IH. Qed.
Lemma tree_hi_snoc l x : tree_hi (TrSeq (l ++ [x])) = tree_hi x.
Proof. by rewrite tree_hi_seq, last_snoc. Qed.

Lemma evens_cons {A} (x : A) l : evens (x :: l) = x :: odds l.
Proof. by destruct l. Qed.
Lemma odds_cons {A} (x : A) l : odds (x :: l) = evens l.
Proof. done. Qed.

Lemma replicate_snoc {A} n (x : A) : replicate n x ++ [x] = replicate (S n) x.
Proof. induction n as [|n IH]; cbn; [done|]. by rewrite IH. Qed.

Section facts.
  Variable env : denv.
  Variable src : string.
  Notation parses := (parses env src).
  Notation pseq := (pseq env src).

  Lemma pseq_app p ts1 ts2 l1 l2 xs1 xs2 : pseq p ts1 l1 xs1 → pseq (end_pos p l1) ts2 l2 xs2 →
    pseq p (ts1 ++ ts2) (l1 ++ l2) (xs1 ++ xs2).
  Proof.
    revert p l1 xs1. induction ts1 as [|t ts1 IH]; intros p l1 xs1 H1 H2; inversion H1; subst; [done|].
    rewrite <- !(assoc_L (++)). cbn. constructor; [done|]. apply IH; [done|]. by rewrite end_pos_app in H2.
  Qed.
  Lemma pseq_one p t l x : parses p t l x → pseq p [t] l [x].
  Proof. intros H. rewrite <- (app_nil_r l). constructor; [done|constructor]. Qed.
  Lemma pseq_snoc p ts t l1 l2 xs x : pseq p ts l1 xs → parses (end_pos p l1) t l2 x →
    pseq p (ts ++ [t]) (l1 ++ l2) (xs ++ [x]).
  Proof. intros H1 H2. eapply pseq_app; [done|]. by apply pseq_one. Qed.
  Lemma pseq_length p ts l xs : pseq p ts l xs → length ts = length xs.
  Proof. revert p l xs. induction ts as [|t ts IH]; intros p l xs H; inversion H; subst; cbn; [done|]. f_equal. eauto. Qed.
  Lemma pseq_split p ts1 ts2 l xs : pseq p (ts1 ++ ts2) l xs →
    ∃ l1 l2 xs1 xs2, l = l1 ++ l2 ∧ xs = xs1 ++ xs2 ∧ pseq p ts1 l1 xs1 ∧ pseq (end_pos p l1) ts2 l2 xs2.
  Proof.
    revert p l xs. induction ts1 as [|t ts1 IH]; intros p l xs H.
    - exists [], l, [], xs. repeat split; [constructor|done].
    - cbn in H. inversion H as [|? ? ? la lb x ys Hx Hxs]; subst.
      apply IH in Hxs as (l1 & l2 & xs1 & xs2 & -> & -> & H1 & H2).
      exists (la ++ l1), l2, (x :: xs1), xs2. rewrite (assoc_L (++)). repeat split; [by constructor|].
      by rewrite end_pos_app.
  Qed.

  (** Where a tree ends and starts *)
  Definition lo_spec (p : nat) (l : list token) (lo : nat) : Prop :=
    lo = p ∨ ∃ t, head l = Some t ∧ lo = sp_lo (t_span t).

  Lemma lo_spec_app p l1 l2 lo : lo_spec p l1 lo → lo_spec p (l1 ++ l2) lo.
  Proof. intros [?|(t & H & ?)]; [by left|]. right. exists t. by destruct l1. Qed.
  Lemma lo_spec_nil p lo : lo_spec p [] lo → lo = p.
  Proof. intros [?|(t & H & ?)]; done. Qed.

  Definition hull_ok (p : nat) (l : list token) (x : tree) : Prop :=
    lo_spec p l (tree_lo x) ∧ tree_hi x = end_pos p l.

  Lemma parses_hull p t l x : parses p t l x → filled env t → hull_ok p l x.
  Proof.
    intros H. revert p t l x H.
    apply (parses_mut env src (λ p t l x _, filled env t → hull_ok p l x)
      (λ p ts l xs _, Forall (filled env) ts → ts ≠ [] → hull_ok p l (TrSeq xs))).
    - intros p n y lit t _ _. split; [right; exists t; done|done].
    - intros p n fs l xs He H IH Hf. apply IH.
      + apply Forall_forall. intros c Hc. apply (all_within_sub _ _ _ _ Hf). cbn. by rewrite He.
      + apply all_within_here in Hf. rewrite He in Hf. cbn in Hf. by destruct fs.
    - intros p n vs i t sem l x He Hi H IH Hf. apply IH. apply (all_within_sub _ _ _ _ Hf). cbn. rewrite He. cbn.
      apply elem_of_list_lookup_2 in Hi. apply elem_of_list_In, (in_map fst), elem_of_list_In in Hi. done.
    - intros p ts l xs H IH Hf. apply IH.
      + apply Forall_forall. intros c Hc. by apply (all_within_sub _ _ _ _ Hf).
      + by apply all_within_here in Hf.
    - intros p t l x H IH Hf. apply IH. apply (all_within_sub _ _ _ _ Hf). cbn. set_solver.
    - intros p t _. split; [by left|done].
    - intros p t l x H IH Hf. apply IH. apply (all_within_sub _ _ _ _ Hf). cbn. set_solver.
    - intros p t _. split; [by left|done].
    - intros p t l x H IH Hf. apply IH. apply (all_within_sub _ _ _ _ Hf). cbn. set_solver.
    - intros p t l x s H IH _ Hf. apply IH. apply (all_within_sub _ _ _ _ Hf). cbn. set_solver.
    - intros p t l x s H IH _ Hf. apply IH. apply (all_within_sub _ _ _ _ Hf). cbn. set_solver.
    - intros p t n l xs H IH Hf. apply IH; [|done]. apply Forall_forall.
      intros c [-> _]%elem_of_replicate. apply (all_within_sub _ _ _ _ Hf). cbn. set_solver.
    - intros p t _. split; [by left|done].
    - intros p t n l xs H IH Hf. apply IH; [|done]. apply Forall_forall.
      intros c [-> _]%elem_of_replicate. apply (all_within_sub _ _ _ _ Hf). cbn. set_solver.
    - intros p t _. split; [by left|done].
    - intros p t n l xs H IH Hf. apply IH; [|done]. apply Forall_forall.
      intros c [-> _]%elem_of_replicate. apply (all_within_sub _ _ _ _ Hf). cbn. set_solver.
    - intros p t d n l zs H IH Hf. apply IH; [|done]. 
      assert (Ht : filled env t) by (apply (all_within_sub _ _ _ _ Hf); cbn; set_solver).
      assert (Hd : filled env d) by (apply (all_within_sub _ _ _ _ Hf); cbn; set_solver).
      constructor; [done|]. clear -Ht Hd. induction n as [|n IHn]; cbn; [done|]. by repeat constructor.
    - intros p t d n b l zs H IH Hf.
      assert (Ht : filled env t) by (apply (all_within_sub _ _ _ _ Hf); cbn; set_solver).
      assert (Hd : filled env d) by (apply (all_within_sub _ _ _ _ Hf); cbn; set_solver).
      apply IH; [|done]. apply Forall_app. split.
      + constructor; [done|]. clear -Ht Hd. induction n as [|n IHn]; cbn; [done|]. by repeat constructor.
      + destruct b; by repeat constructor.
    - intros p t r l x y H IH Hf.
      destruct IH as [IH1 IH2]; [|done|].
      + apply Forall_forall. intros c Hc. by apply (all_within_sub _ _ _ _ Hf).
      + split; [exact IH1|exact IH2].
    - done.
    - intros p t ts l1 l2 x xs H IH Hs IHs [Hf Hfs]%Forall_cons _. destruct (IH Hf) as [H1 H2].
      split; [by apply lo_spec_app|]. rewrite end_pos_app.
      destruct ts as [|t' ts].
      + inversion Hs; subst. exact H2.
      + destruct (IHs Hfs) as [_ <-]; [done|]. inversion Hs; subst. done.
  Qed.

  Lemma parses_nil_lo p t x : parses p t [] x → filled env t → tree_lo x = p ∧ tree_hi x = p.
  Proof. intros H Hf. destruct (parses_hull _ _ _ _ H Hf) as [H1 H2]. split; [by apply lo_spec_nil in H1|done]. Qed.
End facts.

Lemma end_pos_ge len p l : spans_ok p len (map t_span l) → p ≤ end_pos p l ∧ end_pos p l ≤ len.
Proof.
  revert p. induction l as [|t l IH]; intros p H; [done|].
  cbn in H. destruct H as (H1 & H2 & H3). change (t :: l) with ([t] ++ l). rewrite end_pos_app. change (end_pos p [t]) with (sp_hi (t_span t)).
  apply IH in H3. lia.
Qed.
Lemma spans_ok_pos p len l1 l2 : spans_ok p len (map t_span (l1 ++ l2)) ↔
  spans_ok p len (map t_span l1) ∧ spans_ok (end_pos p l1) len (map t_span l2).
Proof.
  rewrite map_app, spans_ok_app, last_map. unfold end_pos. by destruct (last l1).
Qed.
Lemma aok_pos s : aok s → spans_ok (pos s) (String.length (a_src s)) (map t_span (a_rest s)) ∧ pos s ≤ String.length (a_src s).
Proof.
  rewrite aok_eq, spans_ok_pos, <- pos_toks. intros [H1 H2]. split; [done|]. by apply spans_ok_le in H2.
Qed.
Lemma adv_spans s l s' : aok s → adv s l s' → spans_ok (pos s) (String.length (a_src s)) (map t_span l).
Proof. intros H [A B C]. apply aok_pos in H as [H _]. rewrite C in H. by apply spans_ok_pos in H as [H _]. Qed.
Lemma lo_spec_bounds len p l lo : spans_ok p len (map t_span l) → lo_spec p l lo → p ≤ lo ∧ lo ≤ end_pos p l.
Proof.
  intros H [->|(t & Ht & ->)]; [apply end_pos_ge in H; lia|].
  destruct l as [|t' l]; [done|]. injection Ht as ->. cbn in H. destruct H as (H1 & H2 & H3).
  apply end_pos_ge in H3. change (t :: l) with ([t] ++ l). rewrite end_pos_app. change (end_pos p [t]) with (sp_hi (t_span t)). lia.
Qed.
