(** Types and runs used in P_Report. *)
From Coq Require Import String NArith.
From stdpp Require Import prelude list strings relations.
From Verif Require Import LexModel LexSpec LexFacts SynSetModel TableModel CfgSpec StreamModel StreamSpec StreamFacts TypeModel TypeSpec ProduceModel
  SynMacroModel SynMacroSpec SourceSpec ParseSpec PrefixSpec ReportSpec ReportFacts ParseEx PrefixEx ReadmeSpec ReadmeFacts OffendEx.
Local Open Scope nat_scope.

(** "a+*(a" *)
Definition order_raws : list raw :=
  [RTok 0 (Span 0 1); RTok 1 (Span 1 2); RTok 1 (Span 2 3); RTok 2 (Span 3 4); RTok 0 (Span 4 5)].
Definition order_start : pst := pst_new "a+*(a" order_raws.
Lemma order_start_ok : state_ok order_start.
Proof. vm_compute. repeat split; lia. Qed.
Definition order_run (env : denv) : out (res tree) pst := run no_extract (produce_md env (md_get env (TNamed 0)) 60 (TNamed 0)) order_start.
Lemma order_run_eq env : order_run env = run no_extract (produce_md env (md_get env (TNamed 0)) 60 (TNamed 0)) order_start.
Proof. done. Qed.
Lemma two_errors (r : res tree) a b : map (λ e, sp_lo (e_span e)) (errors_of r) = [a; b] → b < a → ¬ by_place (errors_of r).
Proof.
  intros H Hlt Ho. destruct (errors_of r) as [|x [|y [|]]]; [done|done| |done]. injection H as Hx Hy.
  specialize (Ho 0 1 x y (Nat.lt_0_succ _) eq_refl eq_refl). lia.
Qed.
Lemma rd_disorder : ∃ env md s f r s', written true rd_names rd_items env ∧ accepted env (TNamed 0) md ∧ state_ok s ∧
  run no_extract (produce_md env md f (TNamed 0)) s = ODone r s' ∧ ¬ by_place (errors_of r).
Proof.
  assert (H : match order_run rd_env with
    | ODone r _ => map (λ e, sp_lo (e_span e)) (errors_of r) = [5; 2] | _ => False end) by by vm_compute.
  destruct (order_run rd_env) as [| |r s'] eqn:E; [destruct H..|].
  exists rd_env, (md_get rd_env (TNamed 0)), order_start, 60, r, s'.
  split; [exact rd_written|]. split; [exact rd_accepted|]. split; [exact order_start_ok|].
  split; [rewrite <- order_run_eq; exact E|]. clear E. eapply two_errors; [exact H|lia].
Qed.

(** [Recover<a, ("(", a, ")")>] on ",(a" *)
Definition orderT := TRecover tId (TTuple [tL; tId; tR]).
Lemma orderT_accepted : accepted [] orderT (md_get [] orderT).
Proof. apply md_get_accepted. by vm_compute. Qed.
Lemma recover_disorder : ∃ md s f r s', accepted [] orderT md ∧ state_ok s ∧
  run no_extract (produce_md [] md f orderT) s = ODone r s' ∧ ¬ by_place (errors_of r).
Proof.
  assert (H : match ex_run [] orderT ",(a" with
    | ODone r _ => map (λ e, sp_lo (e_span e)) (errors_of r) = [3; 0] | _ => False end) by by vm_compute.
  destruct (ex_run [] orderT ",(a") as [| |r s'] eqn:E; [destruct H..|].
  exists (md_get [] orderT), (start ",(a"), 60, r, s'.
  split; [exact orderT_accepted|]. split; [apply start_ok|].
  split; [rewrite <- ex_run_eq; exact E|]. clear E. eapply two_errors; [exact H|lia].
Qed.

Lemma ex_tidy : tidy ex_env exE.
Proof. within ex_types. Qed.
Lemma rr_tidy : tidy rr_env (TNamed 0).
Proof. within rr_types. Qed.
Lemma rr_order extract env first follow jump f s r s' : written true rd_names rr_items env → state_ok s →
  run extract (produce env first follow jump f (TNamed 0)) s = ODone r s' → by_place (errors_of r).
Proof.
  intros Hw Hok. rewrite (written_unique _ _ _ _ _ Hw rr_written). by apply run_order; [|exact rr_tidy].
Qed.
