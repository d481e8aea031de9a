(** Specification of lists with broken elements ([tp::Split], [tp::Punct]). *)
From Coq Require Import String NArith.
From stdpp Require Import prelude list strings.
From Verif Require Import LexModel SynSetModel TableModel StreamModel StreamSpec TypeModel ProduceModel CfgSpec ParseSpec LeafSpec LoopSpec.
Local Open Scope nat_scope.

(** What is reported if there is no element between a delimiter and the tokens [l ++ u] ([u] comes after the list), only
    the tokens [g].  [Split]: from the start of the first of these tokens to the end of the one after [g], that is, the next
    delimiter, say, is reported as well. *)
Definition miss_split (src : string) (u g l : list token) : option span :=
  Some (Span (sp_lo (at_next src (g ++ l ++ u))) (sp_hi (at_next src (l ++ u)))).
(** [Punct]: the same if the list goes on; at its end just the tokens [g], so nothing for a delimiter at the end. *)
Definition miss_punct (src : string) (u g l : list token) : option span :=
  match l with [] => cover g | _ => miss_split src u g l end.

Section broken.
  (** [stops]: the list ends before such a token; [keep]: delimiters without an element are kept. *)
  Context (env : denv) (t d : ty) (stops : tok → Prop) (src : string) (keep : bool)
    (miss : list token → list token → option span) (u : list token).
  (** A token that is neither an element, a delimiter, nor the end of the list. *)
  Definition stray (y : tok) : Prop := (∀ w, ¬ lang env t (y :: w)) ∧ (∀ w, ¬ lang env d (y :: w)) ∧ ¬ stops y.
  (** [broken l its ks sps]: the tokens [l], which come after the first element of a list, are delimiters, each with an
      element behind it, or stray tokens and an element, or just stray tokens, if any.  [its] are the elements, [ks] the
      delimiters to keep, [sps] the places to report. *)
  Inductive broken : list token → list (list token) → list token → list span → Prop :=
  | br_end : broken [] [] [] []
  | br_item k g i l its ks sps : lang env d (word src [k]) → Forall stray (word src g) → lang env t (word src i) →
      broken l its ks sps → broken (k :: g ++ i ++ l) (i :: its) (k :: ks) (option_list (cover g) ++ sps)
  | br_miss k g l its ks sps : lang env d (word src [k]) → Forall stray (word src g) →
      (∀ y, head (word src (l ++ u)) = Some y → ∀ w, ¬ lang env t (y :: w)) →
      broken l its ks sps → broken (k :: g ++ l) its (if keep then k :: ks else ks) (option_list (miss g l) ++ sps).
End broken.

(** The two kinds of lists: [tp::Punct] ([pu]) and [tp::Split]. *)
Definition list_ty (pu : bool) (t d : ty) : ty := if pu then TPunct t d else TSplit t d.
Definition list_tree (pu : bool) : span → list tree → list tree → tree := if pu then TrPunct else TrSplit.
Definition list_miss (pu : bool) : string → list token → list token → list token → option span := if pu then miss_punct else miss_split.
(** The list ends before a token that follows it: next in some production, or after a production that ends with it. *)
Definition after_list (regs : grammar prod) (root : ty) (c : ty) (y : tok) : Prop := near_follow regs (key root) (key c) (Some y).
(** An error says that an element is expected; [Punct]: or the end of the list. *)
Definition wants_element (env : denv) (pu : bool) (t : ty) (stops : tok → Prop) (e : perr) : Prop :=
  ∃ set, e_kind e = Expecting set ∧ ∀ y, ts_contains set (Some y) = true ↔ (∃ w, lang env t (y :: w)) ∨ pu = true ∧ stops y.
(** The tokens [l], after the first element of a list in a source, before the tokens [u]. *)
Definition broken_list (env : denv) (regs : grammar prod) (root : ty) (pu : bool) (t d : ty) (src : string) (u : list token) :
    list token → list (list token) → list token → list span → Prop :=
  broken env t d (after_list regs root (list_ty pu t d)) src pu (list_miss pu src u) u.
