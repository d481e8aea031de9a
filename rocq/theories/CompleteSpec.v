(** Conditions for completeness of parsing. *)
From Coq Require Import String NArith.
From stdpp Require Import prelude list strings relations.
From Verif Require Import LexModel SynSetModel TableModel StreamModel StreamSpec TypeModel ProduceModel CfgSpec ParseSpec.
Local Open Scope nat_scope.

(** [tp::Loop] is used at most as the type itself. *)
Definition no_loop_below (env : denv) (t : ty) : Prop :=
  match t with TLoop t' => no_loop env t' | _ => no_loop env t end.
(** The delimiter of every [tp::Split] used takes at least one token. *)
Definition solid_delims (env : denv) : ty → Prop :=
  all_within env (λ t, match t with TSplit _ d => ¬ lang env d [] | _ => True end).
(** The conditions on declarations, besides acceptance, under which all sentences are parsed:
    non-empty structs and tuples, no empty variants, no empty delimiters, [tp::Loop] only as
    the root, an LL(1) grammar, and for every [tp::Punct] used a FOLLOW set ([near_follow] is
    what is computed, see C21) that misses no token.  The last two hold if no sequence has a
    nullable element strictly inside. *)
Record regular (env : denv) (root : ty) : Prop := Regular {
  reg_filled : filled env root;
  reg_enums : plain_enums env root;
  reg_delims : solid_delims env root;
  reg_loop : no_loop_below env root;
  reg_ll1 : ∀ regs, register_root env (prod_of root) = Some regs → LL1 regs (key root);
  reg_punct : ∀ regs, register_root env (prod_of root) = Some regs → ∀ t d x, within env root (TPunct t d) →
    follows regs (key root) (key (TPunct t d)) (Some x) → near_follow regs (key root) (key (TPunct t d)) (Some x) }.
(** The tokens [u] after a [t] start with one that can follow [t] in the grammar, if any. *)
Definition fits (regs : grammar prod) (root t : ty) (src : string) (u : list token) : Prop :=
  ∀ y, head (word src u) = Some y → follows regs (key root) (key t) (Some y).
(** [Parser::parse] returns a tree for all the tokens to come and records no error but for
    unrecognised text. *)
Definition parsed_whole (extract : nat → bool) (env : denv) (md : metadata prod) (root : ty) (s : pst) : Prop :=
  ∃ f x s', run extract (parse env f root (inr md)) s = ODone (inr (Some x)) s' ∧
    took extract s (to_come extract s) s' ∧ only_bad_text s s'.
