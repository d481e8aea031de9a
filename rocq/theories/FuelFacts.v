(** More fuel does not change a parse. *)
From Coq Require Import String NArith.
From stdpp Require Import prelude list strings.
From Verif Require Import LexModel SynSetModel TableModel StreamModel TypeModel ProduceModel StreamFacts ProgFacts.
Local Open Scope nat_scope.

Ltac le_step :=
  first
  [ apply le_refl
  | apply le_bind; [|intros]
  | match goal with |- le (match ?x with _ => _ end) _ => destruct x eqn:? end
  | eauto 2 ].
Ltac le_auto := repeat le_step.

Lemma le_fuel {A} (m : M A) : le Fuel m.
Proof. done. Qed.

Lemma produce_seq_le rec rec' ts acc errs : (∀ t, t ∈ ts → le (rec t) (rec' t)) →
  le (produce_seq rec ts acc errs) (produce_seq rec' ts acc errs).
Proof.
  revert acc errs. induction ts as [|t ts IH]; intros acc errs H; cbn [produce_seq]; [apply le_refl|].
  apply le_bind; [apply H; set_solver|]. intros r. destruct (unres r) as [[a|] e]; [|apply le_refl].
  apply IH. intros; apply H; set_solver.
Qed.
Lemma produce_option_le {X} (p p' : M (res X)) sp first : le p p' →
  le (produce_option p sp first) (produce_option p' sp first).
Proof. intros H. unfold produce_option. le_auto. Qed.
Lemma iter_loop_le n n' p p' first acc errs hi : n ≤ n' → le p p' →
  le (iter_loop n p first acc errs hi) (iter_loop n' p' first acc errs hi).
Proof.
  revert n' acc errs hi. induction n as [|n IH]; intros [|n'] acc errs hi Hn Hp; cbn [iter_loop]; try done; [lia|].
  assert (n ≤ n') by lia. le_auto.
Qed.
Lemma produce_plus_le n n' p p' first : n ≤ n' → le p p' →
  le (produce_plus n p first) (produce_plus n' p' first).
Proof. intros Hn H. unfold produce_plus. assert (IH := iter_loop_le n n' p p' first). le_auto. Qed.
Lemma skip_loop_le n n' first tk hi : n ≤ n' → le (skip_loop n first tk hi) (skip_loop n' first tk hi).
Proof.
  revert n' tk hi. induction n as [|n IH]; intros [|n'] tk hi Hn; cbn [skip_loop]; try done; [lia|].
  assert (n ≤ n') by lia. le_auto.
Qed.
Lemma loop_loop_le n n' p p' first acc errs : n ≤ n' → le p p' →
  le (loop_loop n p first acc errs) (loop_loop n' p' first acc errs).
Proof.
  revert n' acc errs. induction n as [|n IH]; intros [|n'] acc errs Hn Hp; cbn [loop_loop]; try done; [lia|].
  assert (n ≤ n') by lia. assert (IH' := skip_loop_le n n' first). le_auto.
Qed.
Lemma produce_loop_le n n' p p' first : n ≤ n' → le p p' →
  le (produce_loop n p first) (produce_loop n' p' first).
Proof. intros Hn H. unfold produce_loop. assert (IH := loop_loop_le n n' p p' first). le_auto. Qed.
Lemma split_inner_le n n' pT pT' ef pf fol panic errs : n ≤ n' → le pT pT' →
  le (split_inner n pT ef pf fol panic errs) (split_inner n' pT' ef pf fol panic errs).
Proof.
  revert n' panic errs. induction n as [|n IH]; intros [|n'] panic errs Hn Hp; cbn [split_inner]; try done; [lia|].
  assert (n ≤ n') by lia. le_auto.
Qed.
Lemma split_outer_le n n' pT pT' pP pP' ef pf fol elems puncts errs : n ≤ n' → le pT pT' → le pP pP' →
  le (split_outer n pT pP ef pf fol elems puncts errs) (split_outer n' pT' pP' ef pf fol elems puncts errs).
Proof.
  revert n' elems puncts errs. induction n as [|n IH]; intros [|n'] elems puncts errs Hn HT HP; cbn [split_outer]; try done; [lia|].
  assert (n ≤ n') by lia. assert (IH' := split_inner_le n n' pT pT' ef pf fol). le_auto.
Qed.
Lemma produce_split_le n n' pT pT' pP pP' ef pf fol : n ≤ n' → le pT pT' → le pP pP' →
  le (produce_split n pT pP ef pf fol) (produce_split n' pT' pP' ef pf fol).
Proof. intros Hn HT HP. unfold produce_split. assert (IH := split_outer_le n n' pT pT' pP pP' ef pf fol). le_auto. Qed.
Lemma punct_inner_le n n' pT pT' ef pf fol panic errs : n ≤ n' → le pT pT' →
  le (punct_inner n pT ef pf fol panic errs) (punct_inner n' pT' ef pf fol panic errs).
Proof.
  revert n' panic errs. induction n as [|n IH]; intros [|n'] panic errs Hn Hp; cbn [punct_inner]; try done; [lia|].
  assert (n ≤ n') by lia. le_auto.
Qed.
Lemma punct_outer_le n n' pT pT' pP pP' ef pf fol elems puncts errs : n ≤ n' → le pT pT' → le pP pP' →
  le (punct_outer n pT pP ef pf fol elems puncts errs) (punct_outer n' pT' pP' ef pf fol elems puncts errs).
Proof.
  revert n' elems puncts errs. induction n as [|n IH]; intros [|n'] elems puncts errs Hn HT HP; cbn [punct_outer]; try done; [lia|].
  assert (n ≤ n') by lia. assert (IH' := punct_inner_le n n' pT pT' ef pf fol). le_auto.
Qed.
Lemma produce_punct_le n n' pT pT' pP pP' ef pf fol : n ≤ n' → le pT pT' → le pP pP' →
  le (produce_punct n pT pP ef pf fol) (produce_punct n' pT' pP' ef pf fol).
Proof. intros Hn HT HP. unfold produce_punct. assert (IH := punct_outer_le n n' pT pT' pP pP' ef pf fol). le_auto. Qed.
Lemma recover_loop_le n n' pR pR' tf panic errs : n ≤ n' → le pR pR' →
  le (recover_loop n pR tf panic errs) (recover_loop n' pR' tf panic errs).
Proof.
  revert n' panic errs. induction n as [|n IH]; intros [|n'] panic errs Hn Hp; cbn [recover_loop]; try done; [lia|].
  assert (n ≤ n') by lia. le_auto.
Qed.
Lemma produce_recover_le n n' pT pT' pR pR' hf tf : n ≤ n' → le pT pT' → le pR pR' →
  le (produce_recover n pT pR hf tf) (produce_recover n' pT' pR' hf tf).
Proof. intros Hn HT HR. unfold produce_recover. assert (IH := recover_loop_le n n' pR pR' tf). le_auto. Qed.

Section produce.
  Variable env : denv.
  Variables (first follow : prod → tset) (jump : prod → option tok → option nat).
  Notation produce := (produce env first follow jump).

  Lemma produce_le f f' t : f ≤ f' → le (produce f t) (produce f' t).
  Proof.
    revert f' t. induction f as [|f IH]; intros [|f'] t Hf; [done|done|lia|].
    assert (H : ∀ t, le (produce f t) (produce f' t)) by (intros; apply IH; lia).
    assert (Hf' : f ≤ f') by lia. clear IH Hf.
    destruct t as [n y l|n|l|t|t|t|t|t|t|t|t|t p|t p|t p]; cbn [ProduceModel.produce].
    - apply le_refl.
    - destruct (env !! n) as [[fs|vs]|]; [| |done].
      + apply le_bind; [apply produce_seq_le; auto|]. intros. apply le_refl.
      + le_auto.
    - apply le_bind; [apply produce_seq_le; auto|]. intros. apply le_refl.
    - apply H.
    - apply le_bind; [by apply produce_option_le|]. intros. apply le_refl.
    - apply le_bind; [by apply produce_option_le|]. intros. apply le_refl.
    - apply le_bind; [done|]. intros. apply le_refl.
    - apply le_bind; [done|]. intros. apply le_refl.
    - apply le_bind; [by apply produce_plus_le|]. intros. apply le_refl.
    - apply le_bind; [by apply produce_option_le, produce_plus_le|]. intros. apply le_refl.
    - apply le_bind; [by apply produce_loop_le|]. intros. apply le_refl.
    - by apply produce_split_le.
    - by apply produce_punct_le.
    - by apply produce_recover_le.
  Qed.

  Lemma parse_with_le f f' t : f ≤ f' →
    le (parse_with env first follow jump f t) (parse_with env first follow jump f' t).
  Proof. intros H. unfold parse_with. apply le_bind; [by apply produce_le|]. intros. apply le_refl. Qed.
End produce.
Lemma parse_le env f f' t meta : f ≤ f' → le (parse env f t meta) (parse env f' t meta).
Proof.
  intros H. unfold parse. destruct meta; [apply le_refl|].
  apply le_bind; [by apply parse_with_le|]. intros. apply le_refl.
Qed.
