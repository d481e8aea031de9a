(** Facts about runs of [produce] and [parse] on parser states: soundness, errors,
    conservation, resumption, wrappers. *)
From Coq Require Import String NArith.
From stdpp Require Import prelude list strings relations.
From Verif Require Import LexModel LexSpec LexFacts SynSetModel TableModel StreamModel StreamSpec StreamFacts
  TypeModel TypeSpec ProduceModel CfgSpec ParseSpec TypeFacts ProgFacts FuelFacts TreeFacts SoundFacts LangFacts MetaFacts CfgFacts.
Local Open Scope nat_scope.
#[local] Arguments ts_contains : simpl never.
#[local] Arguments ts_contains_e : simpl never.

(** * [produce] writes no errors itself *)
Lemma ne_bind {A B} (m : M A) (f : A → M B) : no_extend m → (∀ a, no_extend (f a)) → no_extend (m ≫= f).
Proof.
  rewrite bindM_eq. intros H Hf. induction m as [| |k IH|t k IH|k IH|k IH|k IH|sp k IH|sp sem k IH|es k IH];
    cbn in H |- *; auto.
Qed.
Lemma ne_ret {A} (a : A) : no_extend (mret a).
Proof. done. Qed.
Lemma ne_peek_src : no_extend peek_src.
Proof. intros [t|]; done. Qed.
Lemma ne_parse_token y : no_extend (parse_token y).
Proof. unfold parse_token. apply ne_bind; [done|]. intros [t|]; [case_match|]; done. Qed.
Lemma ne_parse_token_lit y lit fol : no_extend (parse_token_lit y lit fol).
Proof.
  unfold parse_token_lit. apply ne_bind; [done|]. intros [t|]; [|case_match; done].
  intros [a x]. repeat case_match; done.
Qed.

Ltac ne_step :=
  first
  [ apply ne_ret
  | apply ne_peek_src
  | apply ne_bind; [|intros]
  | match goal with |- no_extend (match ?x with _ => _ end) => destruct x eqn:? end
  | solve [eauto 2]
  | done ].
Ltac ne_auto := repeat ne_step.

Lemma ne_seq rec ts acc errs : (∀ t, t ∈ ts → no_extend (rec t)) → no_extend (produce_seq rec ts acc errs).
Proof.
  revert acc errs. induction ts as [|t ts IH]; intros acc errs H; cbn [produce_seq]; [done|].
  apply ne_bind; [apply H; set_solver|]. intros r. destruct (unres r) as [[a|] e]; [|done].
  apply IH. intros; apply H; set_solver.
Qed.
Lemma ne_fields fs xs : no_extend (apply_fields fs xs).
Proof. revert xs. induction fs as [|[t [sem|]] fs IH]; intros [|x xs]; cbn [apply_fields]; ne_auto. Qed.
Lemma ne_option {X} (p : M (res X)) sp first : no_extend p → no_extend (produce_option p sp first).
Proof. intros H. unfold produce_option. ne_auto. Qed.
Lemma ne_iter n p first acc errs hi : no_extend p → no_extend (iter_loop n p first acc errs hi).
Proof.
  intros Hp. revert acc errs hi. induction n as [|n IH]; intros acc errs hi; cbn [iter_loop]; ne_auto.
Qed.
Lemma ne_plus n p first : no_extend p → no_extend (produce_plus n p first).
Proof. intros H. unfold produce_plus. assert (IH := λ a b c, ne_iter n p first a b c H). ne_auto. Qed.
Lemma ne_skip n first tk hi : no_extend (skip_loop n first tk hi).
Proof. revert tk hi. induction n as [|n IH]; intros tk hi; cbn [skip_loop]; ne_auto. Qed.
Lemma ne_loop_loop n p first acc errs : no_extend p → no_extend (loop_loop n p first acc errs).
Proof.
  intros Hp. revert acc errs. induction n as [|n IH]; intros acc errs; cbn [loop_loop]; [done|].
  assert (IH' := ne_skip n first). ne_auto.
Qed.
Lemma ne_loop n p first : no_extend p → no_extend (produce_loop n p first).
Proof. intros H. unfold produce_loop. assert (IH := λ a b, ne_loop_loop n p first a b H). ne_auto. Qed.
Lemma ne_split_inner n pT ef pf fol panic errs : no_extend pT → no_extend (split_inner n pT ef pf fol panic errs).
Proof. intros H. revert panic errs. induction n as [|n IH]; intros panic errs; cbn [split_inner]; ne_auto. Qed.
Lemma ne_split_outer n pT pP ef pf fol elems puncts errs : no_extend pT → no_extend pP →
  no_extend (split_outer n pT pP ef pf fol elems puncts errs).
Proof.
  intros HT HP. revert elems puncts errs. induction n as [|n IH]; intros elems puncts errs; cbn [split_outer]; [done|].
  assert (IH' := λ a b, ne_split_inner n pT ef pf fol a b HT). ne_auto.
Qed.
Lemma ne_split n pT pP ef pf fol : no_extend pT → no_extend pP → no_extend (produce_split n pT pP ef pf fol).
Proof. intros HT HP. unfold produce_split. assert (IH := λ a b c, ne_split_outer n pT pP ef pf fol a b c HT HP). ne_auto. Qed.
Lemma ne_punct_inner n pT ef pf fol panic errs : no_extend pT → no_extend (punct_inner n pT ef pf fol panic errs).
Proof. intros H. revert panic errs. induction n as [|n IH]; intros panic errs; cbn [punct_inner]; ne_auto. Qed.
Lemma ne_punct_outer n pT pP ef pf fol elems puncts errs : no_extend pT → no_extend pP →
  no_extend (punct_outer n pT pP ef pf fol elems puncts errs).
Proof.
  intros HT HP. revert elems puncts errs. induction n as [|n IH]; intros elems puncts errs; cbn [punct_outer]; [done|].
  assert (IH' := λ a b, ne_punct_inner n pT ef pf fol a b HT). ne_auto.
Qed.
Lemma ne_punct n pT pP ef pf fol : no_extend pT → no_extend pP → no_extend (produce_punct n pT pP ef pf fol).
Proof. intros HT HP. unfold produce_punct. assert (IH := λ a b c, ne_punct_outer n pT pP ef pf fol a b c HT HP). ne_auto. Qed.
Lemma ne_recover_loop n pR tf panic errs : no_extend pR → no_extend (recover_loop n pR tf panic errs).
Proof. intros H. revert panic errs. induction n as [|n IH]; intros panic errs; cbn [recover_loop]; ne_auto. Qed.
Lemma ne_recover n pT pR hf tf : no_extend pT → no_extend pR → no_extend (produce_recover n pT pR hf tf).
Proof. intros HT HR. unfold produce_recover. assert (IH := λ a b, ne_recover_loop n pR tf a b HR). ne_auto. Qed.

Lemma produce_no_extend env first follow jump f t : no_extend (produce env first follow jump f t).
Proof.
  revert t. induction f as [|f IH]; intros t; [done|].
  destruct t as [n y l|n|l|t|t|t|t|t|t|t|t|t p|t p|t p]; cbn [ProduceModel.produce].
  - apply ne_bind; [|done]. destruct l; [apply ne_parse_token_lit|apply ne_parse_token].
  - destruct (env !! n) as [[fs|vs]|]; [| |done].
    + apply ne_bind; [by apply ne_seq|]. intros. assert (H := ne_fields fs). ne_auto.
    + ne_auto.
  - apply ne_bind; [by apply ne_seq|done].
  - apply IH.
  - apply ne_bind; [by apply ne_option|done].
  - apply ne_bind; [by apply ne_option|done].
  - ne_auto.
  - ne_auto.
  - apply ne_bind; [by apply ne_plus|done].
  - apply ne_bind; [by apply ne_option, ne_plus|done].
  - apply ne_bind; [by apply ne_loop|done].
  - by apply ne_split.
  - by apply ne_punct.
  - by apply ne_recover.
Qed.

(** * Runs from parser states *)
Section runs.
  Variable extract : nat → bool.
  Notation abs := (abs extract).

  Lemma took_adv s l s' : took extract s l s' ↔ adv (abs s) l (abs s').
  Proof. split; [intros (A & B & C)|intros [A B C]]; split; done || (split; done). Qed.
  Lemma took_trans s1 l1 s2 l2 s3 : took extract s1 l1 s2 → took extract s2 l2 s3 → took extract s1 (l1 ++ l2) s3.
  Proof. rewrite !took_adv. apply adv_trans. Qed.
  Lemma run_took {A} (m : M A) s a s' : run extract m s = ODone a s' → ∃ l, took extract s l s'.
  Proof. intros H. apply run_done in H. apply arun_adv in H as [l Hl]. exists l. by apply took_adv. Qed.

  Lemma run_wp {A} F C (m : M A) s a s' (Q : A → ast → Prop) :
    wp F C m (abs s) Q → run extract m s = ODone a s' → Q a (abs s').
  Proof. unfold wp. intros H Hr. apply run_done in Hr. by rewrite Hr in H. Qed.

  (** The errors of a parse: unrecognised text met, then those of the tree. *)
  Lemma parse_with_run env first follow jump f t s o s' :
    run extract (parse_with env first follow jump f t) s = ODone o s' →
    ∃ r s1, run extract (produce env first follow jump f t) s = ODone r s1 ∧ o = (unres r).1 ∧
      s' = Pst (p_src s1) (p_evs s1) (p_peeked s1) (p_invalid s1) (p_tokens s1) (p_extracted s1)
             (p_errors s1 ++ (unres r).2) ∧
      p_errors s' = p_errors s1 ++ (unres r).2 ∧ abs s' = abs s1.
  Proof.
    unfold parse_with. rewrite run_bind. destruct (run extract _ s) as [| |r s1] eqn:E; [done..|].
    intros H. exists r, s1. split; [done|]. destruct r as [x|x es|es]; injection H as <- <-; cbn [unres fst snd]; try done.
    destruct s1 as [a1 a2 a3 a4 a5 a6 a7]; cbn; by rewrite app_nil_r.
  Qed.
  Lemma parse_run env f t md s o s' : run extract (parse env f t (inr md)) s = ODone o s' →
    ∃ x, o = inr x ∧ run extract (parse_with env (tb_get (md_first md)) (tb_get (md_follow md)) (jump_look_up (md_jump md)) f t) s = ODone x s'.
  Proof.
    unfold parse. rewrite run_bind. destruct (run extract _ s) as [| |x s1] eqn:E; [done..|].
    intros [= <- <-]. eauto.
  Qed.
End runs.

(** * Parse trees and languages *)
Lemma parses_lang env src p t l x : parses env src p t l x → no_loop env t → lang env t (word src l).
Proof.
  intros H. revert p t l x H.
  apply (parses_mut env src (λ p t l x _, no_loop env t → lang env t (word src l))
    (λ p ts l xs _, Forall (no_loop env) ts → langs env ts (word src l))).
  - intros p n y lit t [H1 H2] _. cbn. constructor. split; [done|]. destruct lit as [lit|]; [|by left].
    right. cbn. by rewrite H2.
  - intros p n fs l xs En _ IH Hn. eapply l_struct; [done|]. apply IH.
    apply Forall_forall. intros c Hc. apply (all_within_sub _ _ _ _ Hn). cbn. by rewrite En.
  - intros p n vs i t sem l x En Hi _ IH Hn. apply elem_of_list_lookup_2 in Hi. eapply l_enum; [done..|].
    apply IH. apply (all_within_sub _ _ _ _ Hn). cbn. rewrite En. cbn.
    apply elem_of_list_In, (in_map fst), elem_of_list_In in Hi. done.
  - intros p ts l xs _ IH Hn. constructor. apply IH. apply Forall_forall. intros c Hc. by apply (all_within_sub _ _ _ _ Hn).
  - intros p t l x _ IH Hn. constructor. apply IH, (all_within_sub _ _ _ _ Hn). cbn. set_solver.
  - intros. constructor.
  - intros p t l x _ IH Hn. apply l_some. apply IH, (all_within_sub _ _ _ _ Hn). cbn. set_solver.
  - intros. constructor.
  - intros p t l x _ IH Hn. apply l_present. apply IH, (all_within_sub _ _ _ _ Hn). cbn. set_solver.
  - intros p t l x s _ IH _ Hn. constructor. apply IH, (all_within_sub _ _ _ _ Hn). cbn. set_solver.
  - intros p t l x s _ IH _ Hn. constructor. apply IH, (all_within_sub _ _ _ _ Hn). cbn. set_solver.
  - intros p t n l xs _ IH Hn. apply (l_plus _ _ n). apply IH, Forall_replicate, (all_within_sub _ _ _ _ Hn). cbn. set_solver.
  - intros p t Hn. apply (l_star _ _ 0). constructor.
  - intros p t n l xs _ IH Hn. apply (l_star _ _ (S n)). apply IH, Forall_replicate, (all_within_sub _ _ _ _ Hn). cbn. set_solver.
  - intros p t Hn. by apply all_within_here in Hn.
  - intros p t n l xs _ IH Hn. by apply all_within_here in Hn.
  - intros p t d n l zs _ IH Hn. apply (l_split _ _ _ n). apply IH.
    assert (H1 : no_loop env t) by (apply (all_within_sub _ _ _ _ Hn); cbn; set_solver).
    assert (H2 : no_loop env d) by (apply (all_within_sub _ _ _ _ Hn); cbn; set_solver).
    constructor; [done|]. clear -H1 H2. induction n; cbn; [done|]. by repeat constructor.
  - intros p t d n b l zs _ IH Hn. apply (l_punct _ _ _ n b). apply IH.
    assert (H1 : no_loop env t) by (apply (all_within_sub _ _ _ _ Hn); cbn; set_solver).
    assert (H2 : no_loop env d) by (apply (all_within_sub _ _ _ _ Hn); cbn; set_solver).
    apply Forall_app. split; [|destruct b; by repeat constructor].
    constructor; [done|]. clear -H1 H2. induction n; cbn; [done|]. by repeat constructor.
  - intros p t r l x y _ IH Hn. constructor. apply IH. repeat constructor; apply (all_within_sub _ _ _ _ Hn); cbn; set_solver.
  - intros _. constructor.
  - intros p t ts l1 l2 x xs _ IH1 _ IH2 [H1 H2]%Forall_cons. unfold word. rewrite map_app. constructor; auto.
Qed.

(** * Soundness of runs *)
Section sound_runs.
  Variable extract : nat → bool.
  Variable env : denv.
  Variables (first follow : prod → tset) (jump : prod → option tok → option nat).
  Notation abs := (abs extract).
  Notation produce := (produce env first follow jump).

  Lemma no_recover_ok B t : no_recover env t → filled env t → all_ok env first B t.
  Proof. intros Hn Hf. split; [done|]. intros t' Ht'. apply Hn in Ht'. by destruct t'. Qed.

  (** What a finished run returns, up to Recover running out of input. *)
  Definition run_sound (B : Prop) t s r s' : Prop :=
    match r with
    | RSucc x => ∃ l, took extract s l s' ∧ parses env (p_src s) (end_of (p_tokens s)) t l x
    | RRec _ es | RPanic es => es ≠ []
    end ∨ (B ∧ to_come extract s' = []).
  Lemma produce_run_sound B f t s r s' : state_ok s → all_ok env first B t →
    run extract (produce f t) s = ODone r s' → run_sound B t s r s'.
  Proof.
    intros Hok Ha Hr. destruct (run_took _ _ _ _ _ Hr) as [l Hl].
    assert (H : sound env B t (abs s) r (abs s')).
    { eapply run_wp; [|exact Hr]. apply (produce_sound env first follow jump B f t Ha). by apply state_ok_abs. }
    destruct H as [H|[HB Hb]]; [|by right]. left. destruct r; [|done..].
    exists l. split; [done|]. apply (H l). by apply took_adv.
  Qed.
  Lemma produce_run_sound0 f t s r s' : state_ok s → filled env t → no_recover env t →
    run extract (produce f t) s = ODone r s' →
    match r with
    | RSucc x => ∃ l, took extract s l s' ∧ parses env (p_src s) (end_of (p_tokens s)) t l x
    | RRec _ es | RPanic es => es ≠ []
    end.
  Proof.
    intros Hok Hf Hn Hr. apply (produce_run_sound False) in Hr; [|done|by apply no_recover_ok].
    by destruct Hr as [?|[]].
  Qed.

  Lemma produce_run_errors f t s r s' : run extract (produce f t) s = ODone r s' → only_bad_text s s'.
  Proof. intros H. eapply run_errors; [|done]. apply produce_no_extend. Qed.

  Lemma parse_with_sound B f t s o s' : state_ok s → all_ok env first B t →
    run extract (parse_with env first follow jump f t) s = ODone o s' →
    (match o with
     | Some x => only_bad_text s s' →
         ∃ l, took extract s l s' ∧ parses env (p_src s) (end_of (p_tokens s)) t l x
     | None => ∃ bad es, p_invalid s' = p_invalid s ++ bad ∧
         p_errors s' = p_errors s ++ map (λ sp, PErr sp UnexpectedCharacters) bad ++ es ∧ es ≠ []
     end) ∨ (B ∧ to_come extract s' = []).
  Proof.
    intros Hok Ha Hr. destruct (parse_with_run _ _ _ _ _ _ _ _ _ _ Hr) as (r & s1 & H1 & -> & Hs & He & Habs).
    destruct (produce_run_errors _ _ _ _ _ H1) as (bad & Hb1 & Hb2).
    assert (Hinv : p_invalid s' = p_invalid s1) by (by rewrite Hs).
    destruct (produce_run_sound B _ _ _ _ _ Hok Ha H1) as [H|[HB H]].
    2: { right. split; [done|]. change (to_come extract s') with (a_rest (abs s')). by rewrite Habs. }
    left. destruct r as [x|x es|es]; cbn [unres fst snd] in *.
    - intros _. destruct H as (l & Hl & Hp). exists l. split; [|done]. apply took_adv. rewrite Habs. by apply took_adv.
    - intros (bad' & H2 & H3). exfalso. apply H.
      rewrite Hinv, Hb1 in H2. apply app_inv_head in H2 as <-. rewrite He, Hb2 in H3.
      rewrite <- (app_nil_r (_ ++ map _ bad)) in H3 at 2. by apply app_inv_head in H3.
    - exists bad, es. rewrite Hinv, He, Hb2, Hb1. by rewrite <- (assoc_L (++)).
  Qed.
End sound_runs.
