(** Specification of semantic attributes: the annotated parts of a tree, and what marking
    them does to the recorded tokens. *)
From Coq Require Import String NArith.
From stdpp Require Import prelude list strings relations.
From Verif Require Import LexModel LexSpec SynSetModel StreamModel StreamSpec TypeModel ProduceModel ParseSpec.
Local Open Scope nat_scope.

(** * Semantic types on tokens *)
(** Bit [b] is set on the recorded token [c]. *)
Definition tagged (c : cell) (b : N) : Prop := N.testbit (c_sem c) b = true.
(** [c] carries all of [sem]. *)
Definition carries (c : cell) (sem : N) : Prop := ∀ b, N.testbit sem b = true → tagged c b.

(** [part t x sp sem]: in the tree [x] of type [t] there is a field or a variant annotated
    [sem] whose value has span [sp]. *)
Inductive part (env : denv) : ty → tree → span → N → Prop :=
| a_field n fs i t sem xs x : env !! n = Some (DStruct fs) → fs !! i = Some (t, Some sem) → xs !! i = Some x →
    part env (TNamed n) (TrSeq xs) (tree_span x) sem
| a_in_field n fs i t o xs x sp sem : env !! n = Some (DStruct fs) → fs !! i = Some (t, o) → xs !! i = Some x →
    part env t x sp sem → part env (TNamed n) (TrSeq xs) sp sem
| a_variant n vs i t sem x : env !! n = Some (DEnum vs) → vs !! i = Some (t, Some sem) →
    part env (TNamed n) (TrVar i x) (tree_span x) sem
| a_in_variant n vs i t o x sp sem : env !! n = Some (DEnum vs) → vs !! i = Some (t, o) →
    part env t x sp sem → part env (TNamed n) (TrVar i x) sp sem
| a_tuple ts i t xs x sp sem : ts !! i = Some t → xs !! i = Some x → part env t x sp sem →
    part env (TTuple ts) (TrSeq xs) sp sem
| a_box t x sp sem : part env t x sp sem → part env (TBox t) x sp sem
| a_some t sp0 x sp sem : part env t x sp sem → part env (TOpt t) (TrOpt sp0 (Some x)) sp sem
| a_list t k sp0 xs x sp sem : t = TPlus k ∨ t = TStar k ∨ t = TLoop k → x ∈ xs → part env k x sp sem →
    part env t (TrList sp0 xs) sp sem
| a_split_elem t d sp0 xs ys x sp sem : x ∈ xs → part env t x sp sem → part env (TSplit t d) (TrSplit sp0 xs ys) sp sem
| a_split_sep t d sp0 xs ys y sp sem : y ∈ ys → part env d y sp sem → part env (TSplit t d) (TrSplit sp0 xs ys) sp sem
| a_punct_elem t d sp0 xs ys x sp sem : x ∈ xs → part env t x sp sem → part env (TPunct t d) (TrPunct sp0 xs ys) sp sem
| a_punct_sep t d sp0 xs ys y sp sem : y ∈ ys → part env d y sp sem → part env (TPunct t d) (TrPunct sp0 xs ys) sp sem
| a_rec_head t r sp0 x y sp sem : part env t x sp sem → part env (TRecover t r) (TrRecover sp0 (Some x) y) sp sem
| a_rec_tail t r sp0 o y sp sem : part env r y sp sem → part env (TRecover t r) (TrRecover sp0 o y) sp sem.

(** No part of [t] is annotated. *)
Definition unmarked (env : denv) : ty → Prop :=
  all_within env (λ t, match t with
    | TNamed n => match env !! n with Some d => Forall (λ f, snd f = None) (decl_fields d) | None => True end
    | _ => True
    end).
(** Nothing annotated inside [tp::Exists], [tp::Quote], [tp::Parse], which do not keep the tree. *)
Definition open_marks (env : denv) : ty → Prop :=
  all_within env (λ t, match t with TExists u | TQuote u | TParse u => unmarked env u | _ => True end).

(** [sem] is put on parts of type [t'] in a declaration used in [t]. *)
Definition annotates (env : denv) (t t' : ty) (sem : N) : Prop :=
  ∃ n d, within env t (TNamed n) ∧ env !! n = Some d ∧ (t', Some sem) ∈ decl_fields d.
(** Between [s] and [s'], the value [x] of a part of [t] annotated [sem] is produced. *)
Definition part_made extract env first follow jump (t : ty) (s : pst) (x : tree) (sem : N) (s' : pst) : Prop :=
  ∃ t' f s1 r s2 l1 l2, annotates env t t' sem ∧ took extract s l1 s1 ∧
    run extract (produce env first follow jump f t') s1 = ODone r s2 ∧ value r = Some x ∧ took extract s2 l2 s'.
