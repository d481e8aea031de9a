(** Sentences one after the other. *)
From Coq Require Import String NArith.
From stdpp Require Import prelude list strings relations.
From Verif Require Import LexModel SynSetModel TableModel StreamModel StreamSpec TypeModel ProduceModel CfgSpec ParseSpec.
Local Open Scope nat_scope.

(** After a sentence of [t], no sentence goes on with [y]. *)
Definition ends_before (env : denv) (t : ty) (y : tok) : Prop :=
  ∀ w w', lang env t w → ¬ lang env t (w ++ y :: w').
(** After a sentence of [t], no sentence goes on with a token that begins a sentence. *)
Definition self_delimiting (env : denv) (t : ty) : Prop :=
  ∀ y w, lang env t (y :: w) → ends_before env t y.
(** No [tp::Punct] can be the last thing in a part [b] of [root]. *)
Definition no_punct_end (env : denv) (root b : ty) : Prop :=
  ∀ regs t d, register_root env (prod_of root) = Some regs → within env root (TPunct t d) →
    ¬ follows regs (key b) (key (TPunct t d)) None.
Definition no_punct_last (env : denv) (root : ty) : Prop := no_punct_end env root root.

(** One call of [Parser::parse] after the other, on the same parser. *)
Inductive reads (extract : nat → bool) (env : denv) (md : metadata prod) (root : ty) : pst → list tree → pst → Prop :=
| reads_nil s : reads extract env md root s [] s
| reads_cons s x s1 xs s2 f0 : (∀ f, f0 ≤ f → run extract (parse env f root (inr md)) s = ODone (inr (Some x)) s1) →
    reads extract env md root s1 xs s2 → reads extract env md root s (x :: xs) s2.
