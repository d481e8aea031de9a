(** Facts about types that differ only in names, boxes and in the use of tuples for structs. *)
From Coq Require Import String NArith.
From stdpp Require Import prelude list strings relations.
From Verif Require Import LexModel LexSpec SynSetModel TableModel CfgSpec StreamModel StreamSpec TypeModel TypeSpec ProduceModel ParseSpec ProgFacts TreeFacts RunFacts ParseFacts CompleteSpec CompleteFacts ExtendSpec ExtendFacts RefactorSpec.
Local Open Scope nat_scope.

Lemma same_form_sym R a b : same_form R a b → same_form (flip R) b a.
Proof. induction 1; constructor; try done; by apply Forall2_flip. Qed.
Lemma alike_sym env env' t t' : alike env env' t t' → alike env' env t' t.
Proof. intros (R & H & HR). exists (flip R). split; [done|]. intros u u' Hu. apply same_form_sym, HR, Hu. Qed.

Section refactor.
  Variable env env' : denv.
  Variable R : ty → ty → Prop.
  Hypothesis HR : ∀ u u', R u u' → same_form R (form_of env u) (form_of env' u').
  Variable src : string.

  Lemma parses_unbox p t l x : parses env' src p (unbox t) l x → parses env' src p t l x.
  Proof. induction t; cbn; try done. intros H. constructor. auto. Qed.
  Lemma unbox_not_box t u : unbox t ≠ TBox u.
  Proof. induction t; cbn; done. Qed.
  Lemma Forall2_replicate_R n t t' : R t t' → Forall2 R (replicate n t) (replicate n t').
  Proof. intros H. induction n; cbn; by constructor. Qed.
  Lemma alternate_R n t d t' d' : R t t' → R d d' → Forall2 R (alternate n t d) (alternate n t' d').
  Proof. intros H1 H2. induction n as [|n IH]; [by repeat constructor|]. change (Forall2 R (t :: d :: alternate n t d) (t' :: d' :: alternate n t' d')).
    constructor; [done|]. constructor; [done|exact IH].
  Qed.

  Notation SF u u' := (same_form R (form_of env u) (form_of env' u')).
  (** The form of [t'], which is no struct, enum or tuple *)
  Ltac form_inv H :=
    apply parses_unbox; unfold form_of in H; cbn [unbox] in H;
    match type of H with context [unbox ?t'] => destruct (unbox t') end;
    try match type of H with context [env' !! ?n] => destruct (env' !! n) as [[]|] end;
    inversion H; subst.

  Lemma alike_parses p t l x : parses env src p t l x → ∀ t', SF t t' → parses env' src p t' l x.
  Proof using HR.
    revert p t l x.
    refine (parses_mut env src (λ p t l x _, ∀ t', SF t t' → parses env' src p t' l x)
      (λ p ts l xs _, ∀ ts', Forall2 R ts ts' → pseq env' src p ts' l xs)
      _ _ _ _ _ _ _ _ _ _ _ _ _ _ _ _ _ _ _ _ _).
    - intros p n y lit t Hm t' H. apply parses_unbox. unfold form_of in H. cbn in H.
      destruct (unbox t') as [| n' | | | | | | | | | | | |]; try (by inversion H).
      + inversion H; subst. by constructor.
      + destruct (env' !! n') as [[]|]; inversion H.
    - intros p n fs l xs E _ IH t' H. apply parses_unbox. unfold form_of in H. cbn [unbox] in H. rewrite E in H.
      destruct (unbox t') as [| n' | | | | | | | | | | | |]; try (by inversion H).
      + destruct (env' !! n') as [[fs'|]|] eqn:E'; inversion H; subst. eapply p_struct; [exact E'|by apply IH].
      + inversion H; subst. apply p_tuple. by apply IH.
    - intros p n vs i t sem l x E Ev _ IH t' H. apply parses_unbox. unfold form_of in H. cbn [unbox] in H. rewrite E in H.
      destruct (unbox t') as [| n' | | | | | | | | | | | |]; try (by inversion H).
      destruct (env' !! n') as [[fs'|vs']|] eqn:E'; inversion H as [| |? ? HF| | | | | | | | | | |]; subst.
      apply field_at in Ev. cbn in Ev. destruct (Forall2_lookup_l _ _ _ _ _ HF Ev) as (u & Hu & Hr). apply field_at_inv in Hu as [o Hu].
      eapply p_enum; [exact E'|exact Hu|]. by apply IH, HR.
    - intros p ts l xs _ IH t' H. apply parses_unbox. unfold form_of in H. cbn [unbox] in H.
      destruct (unbox t') as [| n' | | | | | | | | | | | |]; try (by inversion H).
      + destruct (env' !! n') as [[fs'|]|] eqn:E'; inversion H; subst. eapply p_struct; [exact E'|by apply IH].
      + inversion H; subst. apply p_tuple. by apply IH.
    - intros p t l x _ IH t' H. by apply IH.
    - intros p t t' H. form_inv H. constructor.
    - intros p t l x _ IH t' H. form_inv H. constructor. auto.
    - intros p t t' H. form_inv H. constructor.
    - intros p t l x _ IH t' H. form_inv H. econstructor. auto.
    - intros p t l x s _ IH E t' H. form_inv H. econstructor; [|done]. auto.
    - intros p t l x s _ IH E t' H. form_inv H. econstructor; [|done]. auto.
    - intros p t n l xs _ IH t' H. form_inv H. eapply p_plus. by apply IH, Forall2_replicate_R.
    - intros p t t' H. form_inv H. constructor.
    - intros p t n l xs _ IH t' H. form_inv H. eapply p_star. by apply IH, Forall2_replicate_R.
    - intros p t t' H. form_inv H. constructor.
    - intros p t n l xs _ IH t' H. form_inv H. eapply p_loop. by apply IH, Forall2_replicate_R.
    - intros p t d n l zs _ IH t' H. form_inv H. eapply p_split. by apply IH, alternate_R.
    - intros p t d n tr l zs _ IH t' H. form_inv H. apply (p_punct _ _ _ _ _ n tr). apply IH, Forall2_app; [by apply alternate_R|]. destruct tr; [|by constructor]. by apply Forall2_cons.
    - intros p t r l x y _ IH t' H. form_inv H. apply p_recover. apply IH. apply Forall2_cons. split; [done|]. by apply Forall2_cons.
    - intros p ts' H. inversion H. constructor.
    - intros p t ts l1 l2 x xs _ IH1 _ IH2 ts' H. inversion H; subst. constructor; [|by apply IH2]. by apply IH1, HR.
  Qed.
End refactor.

Lemma alike_parse extract env env' root root' md md' f s x s' :
  alike env env' root root' → accepted env' root' md' → regular env' root' → filled env root → no_recover env root → state_ok s →
  run extract (parse env f root (inr md)) s = ODone (inr (Some x)) s' → only_bad_text s s' → to_come extract s' = [] →
  ∃ f0 s'', (∀ f, f0 ≤ f → run extract (parse env' f root' (inr md')) s = ODone (inr (Some x)) s'') ∧
    only_bad_text s s'' ∧ consumed s'' = consumed s' ∧ to_come extract s'' = [].
Proof.
  intros (R & H0 & HR) Hacc Hreg Hf Hn Hok Hrun Hb He.
  destruct (parse_clean _ _ _ _ _ _ _ _ Hf Hn Hok Hrun Hb) as (l & Ht & Hp).
  assert (El := took_whole _ _ _ _ Ht He). subst l. apply (alike_parses env env' R HR) with (t' := root') in Hp; [|by apply HR].
  assert (Hacc' := Hacc). destruct Hacc' as (regs & iter & Hr & Hperm & Hmeta).
  destruct (root_complete_ll1 extract env' root' md' regs Hacc Hr (reg_filled _ _ Hreg) (reg_enums _ _ Hreg) (reg_delims _ _ Hreg) (reg_ll1 _ _ Hreg _ Hr)
      (reg_punct _ _ Hreg _ Hr) s _ (reg_loop _ _ Hreg) Hok Hp) as (f0 & s2 & H1 & H2 & H3).
  exists f0, s2. split; [intros; apply run_parse_succ; auto|]. split; [done|].
  destruct H1 as (_ & E1 & E2), Ht as (_ & E3 & E4). split; [congruence|].
  rewrite <- (app_nil_r (to_come extract s)) in E2 at 1. by apply app_inv_head in E2.
Qed.

