(** The counterexample of P_Loop. *)
From Coq Require Import String NArith.
From stdpp Require Import prelude list strings relations.
From Verif Require Import LexModel LexSpec SynSetModel TableModel StreamModel StreamSpec TypeModel TypeSpec ProduceModel ParseSpec ParseFacts LoopSpec ParseEx TermEx.
Local Open Scope nat_scope.

Definition stT := TLoop (TTuple [lpE; tL]).
Definition st_types := [stT; TTuple [lpE; tL]; lpE; TOpt tId; tId; tL].
Definition stuck_check (o : out (res tree) pst) : bool :=
  match o with
  | ODone r s' => existsb (λ e, match e_kind e with NoAdvance => true | _ => false end) (errors_of r) &&
      negb (length (to_come no_extract s') =? 0)
  | _ => false
  end.
Lemma stuck_ok o : stuck_check o = true →
  ∃ r s', o = ODone r s' ∧ ¬ advances (errors_of r) ∧ to_come no_extract s' ≠ [].
Proof.
  destruct o as [| |r s']; [done..|]. intros [H1 H2]%andb_true_iff. exists r, s'. split; [done|]. split.
  - intros Ha. apply existsb_exists in H1 as (e & Hin%elem_of_list_In & He). unfold advances in Ha. rewrite Forall_forall in Ha.
    apply (Ha _ Hin). by destruct (e_kind e).
  - intros E. by rewrite E in H2.
Qed.
Lemma st_accepted : accepted lp_env stT (md_get lp_env stT).
Proof. apply md_get_accepted. by vm_compute. Qed.
Lemma st_filled : filled lp_env stT.
Proof. within st_types. Qed.
Lemma st_check : stuck_check (run no_extract (produce_md lp_env (md_get lp_env stT) 10 stT) (start "(")) = true.
Proof. by vm_compute. Qed.
Lemma loop_stuck : ∃ env root md f s r s',
  accepted env root md ∧ filled env root ∧ state_ok s ∧ (∃ t, root = TLoop t) ∧
  run no_extract (produce_md env md f root) s = ODone r s' ∧
  ¬ advances (errors_of r) ∧ to_come no_extract s' ≠ [].
Proof.
  assert (H := stuck_ok _ st_check). destruct H as (r & s' & H).
  exists lp_env, stT, (md_get lp_env stT), 10, (start "("), r, s'.
  split; [exact st_accepted|]. split; [exact st_filled|]. split; [apply start_ok|]. split; [by eexists|exact H].
Qed.
