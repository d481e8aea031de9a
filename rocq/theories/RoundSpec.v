(** Specification of the effort of the grammar analysis. *)
From Coq Require Import String.
From stdpp Require Import prelude list gmap strings.
From Verif Require Import SynSetModel TableModel.
Local Open Scope nat_scope.

Section rounds.
  Context {K : Type} `{EqDecision K}.
  (** [f_rounds rels m n w m']: the rounds over the FIRST relations end after [n] of them, with [w] relations looked at in all. *)
  Inductive f_rounds : list (frel K) → table K → nat → nat → table K → Prop :=
  | fr_last rels m rels' m' : f_pass rels m = (false, rels', m') → f_rounds rels m 1 (length rels) m'
  | fr_more rels m rels' m1 n w m' : f_pass rels m = (true, rels', m1) → f_rounds rels' m1 n w m' →
      f_rounds rels m (S n) (length rels + w) m'.
  (** The same for FOLLOW. *)
  Inductive w_rounds (first : table K) : list (wrel K) → table K → nat → nat → table K → Prop :=
  | wr_last rels m rels' m' : w_pass first rels m = (false, rels', m') → w_rounds first rels m 1 (length rels) m'
  | wr_more rels m rels' m1 n w m' : w_pass first rels m = (true, rels', m1) → w_rounds first rels' m1 n w m' →
      w_rounds first rels m (S n) (length rels + w) m'.

  (** All terminals have one of [nv] token types and, if any, one of the literals [U]. *)
  Definition toks_in (nv : nat) (U : gset string) (regs : list (K * entry K)) : Prop :=
    ∀ k ty lit, (k, ETok ty lit) ∈ regs → ty < nv ∧ ∀ x : string, lit = Some x → x ∈ U.
  (** The number of parts a production has. *)
  Definition width (e : entry K) : nat := match e with ESeq l | EUnion l => length l | _ => 0 end.
  (** Length of a grammar: its productions with their parts. *)
  Definition extent (regs : list (K * entry K)) : nat := sum_list_with (λ kx, 1 + width (snd kx)) regs.
End rounds.
