(** Examples for grammars with other literals. *)
From Coq Require Import String NArith.
From stdpp Require Import prelude list strings.
From Verif Require Import LexModel LexSpec SynSetModel TableModel StreamModel StreamSpec TypeModel TypeSpec ProduceModel ParseSpec ParseEx PartEx LayoutSpec.
Local Open Scope nat_scope.

(** Parentheses the other way round, ";" for ",". *)
Definition ex_pi (y : nat) (x : string) : string :=
  if bool_decide (x = "("%string) then ")"%string else
  if bool_decide (x = ")"%string) then "("%string else
  if bool_decide (x = ","%string) then ";"%string else x.
(** "," and ")" become the same. *)
Definition ex_mix (y : nat) (x : string) : string := if bool_decide (x = ","%string) then ")"%string else x.
Definition ex_lits : list tok := literals exE ++ env_literals ex_env.
#[global] Instance respelled_dec π (lits : list tok) a b : Decision (respelled π lits a b).
Proof.
  unfold respelled.
  destruct (decide (Forall (λ q, fst q = fst b → snd b ≠ π (fst b) (snd q)) lits)) as [H|H].
  - assert (Hx : ∀ x, (b.1, x) ∈ lits → b.2 ≠ π b.1 x) by (intros x Hx; rewrite Forall_forall in H; by apply (H _ Hx)).
    destruct (decide (a.1 = b.1 ∧ (a ∈ lits ∧ b.2 = π a.1 a.2 ∨ a ∉ lits))) as [H'|H']; [left|right]; naive_solver.
  - destruct (decide (a.1 = b.1 ∧ a ∈ lits ∧ b.2 = π a.1 a.2)) as [H'|H']; [left; naive_solver|right].
    intros [E [H1|[_ H1]]]; [by apply H'|]. apply H. apply Forall_forall. intros [y x] Hx Hy. cbn in *. subst. by apply H1.
Defined.
Lemma distinct_check π lits :
  Forall (λ a, Forall (λ b, fst a = fst b → π (fst a) (snd a) = π (fst b) (snd b) → snd a = snd b) lits) lits → distinct_on π lits.
Proof.
  intros H y x x' Hx Hx' E. rewrite Forall_forall in H. specialize (H _ Hx). rewrite Forall_forall in H. by apply (H _ Hx').
Qed.
Lemma respell_ex : env_declared ex_env ∧ ty_declared (length ex_env) exE ∧ distinct_on ex_pi ex_lits ∧
  ex_lits = [(1, "("); (1, ","); (1, ")")]%string ∧
  accepted ex_env exE (md_get ex_env exE) ∧ accepted (respell_env ex_pi ex_env) (respell ex_pi exE) (md_get (respell_env ex_pi ex_env) exE) ∧
  state_ok (start "(a,+b)") ∧ state_ok (start " ) z;?,y ( ") ∧
  respelled_words ex_pi ex_lits no_extract (start "(a,+b)") (start " ) z;?,y ( ") ∧
  match ex_parse ex_env exE "(a,+b)", ex_parse (respell_env ex_pi ex_env) exE " ) z;?,y ( " with
  | ODone (inr (Some x)) s1, ODone (inr (Some x')) s2 =>
      map e_span (p_errors s1) = [Span 3 4] ∧ map e_span (syntax_errors s2) = [Span 6 7] ∧ x ≠ x' ∧
      tree_span x = Span 0 6 ∧ tree_span x' = Span 1 10 ∧ map c_sem (p_tokens s1) = map c_sem (p_tokens s2)
  | _, _ => False
  end.
Proof.
  split; [exact ex_env_declared|]. split; [cbn; lia|].
  split; [apply distinct_check, (bool_decide_unpack _); by vm_compute|]. split; [done|].
  split; [apply ex_accepted|]. split; [apply (md_get_accepted _ (respell ex_pi exE)); by vm_compute|].
  split; [apply start_ok|]. split; [apply start_ok|]. split.
  - split; [|by vm_compute]. apply (bool_decide_unpack _). by vm_compute.
  - vm_compute. split_and!; done.
Qed.
(** Literals that become the same make a difference. *)
Lemma respell_mix : accepted ex_env exE (md_get ex_env exE) ∧ ¬ distinct_on ex_mix ex_lits ∧
  match ex_parse ex_env exE "(a,b)" with ODone (inr (Some _)) s => p_errors s = [] | _ => False end ∧
  md_of (respell_env ex_mix ex_env) (respell ex_mix exE) = None.
Proof.
  split; [apply ex_accepted|]. split.
  - intros H. specialize (H 1 ","%string ")"%string). cut (","%string = ")"%string); [done|]. apply H; [| |by vm_compute]; apply (bool_decide_unpack _); by vm_compute.
  - split; by vm_compute.
Qed.
