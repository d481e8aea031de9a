(** Specification from the source text to the parse: what a program made of items with
    [derive_syntax] means, read off the items as written. *)
From Coq Require Import String NArith.
From stdpp Require Import prelude list strings.
From Verif Require Import LexModel StreamModel TypeModel ProduceModel MacroSpec SynMacroModel SynMacroSpec ParseSpec MarkSpec.
Local Open Scope nat_scope.

(** The items [items] are all accepted and compiled, for a lexicon with the variants [names];
    [env] is what the generated code implements. *)
Definition written (dbg : bool) (names : list string) (items : list sitem) (env : denv) : Prop :=
  NoDup names ∧ length names ≤ 32 ∧
  Forall2 (λ it d, distinct_names (si_data it) ∧
    ∃ o, snd (expand_syntax it) = inr o ∧ gen_decl dbg names (o_gen o) = Some d) items env.

(** The item as a grammar rule: one after the other for structs, one of them for enums. *)
Definition rule (it : sitem) : decl :=
  let fs := map (λ m, (fst m, None)) (members (si_data it)) in
  match si_data it with SdStruct _ => DStruct fs | _ => DEnum fs end.

(** [named_part items t x sp y]: in the tree [x] of type [t] there is a field or a variant with
    the token type [y] in its [semantic(..)], whose value has span [sp]. *)
Inductive named_part (items : list sitem) : ty → tree → span → string → Prop :=
| n_field n it i t l ys y xs x : items !! n = Some it → is_struct_data (si_data it) →
    members (si_data it) !! i = Some (t, l) → listed l ys → y ∈ ys → xs !! i = Some x →
    named_part items (TNamed n) (TrSeq xs) (tree_span x) y
| n_in_field n it i t l xs x sp y : items !! n = Some it → is_struct_data (si_data it) →
    members (si_data it) !! i = Some (t, l) → xs !! i = Some x →
    named_part items t x sp y → named_part items (TNamed n) (TrSeq xs) sp y
| n_variant n it i t l ys y x : items !! n = Some it → ¬ is_struct_data (si_data it) →
    members (si_data it) !! i = Some (t, l) → listed l ys → y ∈ ys →
    named_part items (TNamed n) (TrVar i x) (tree_span x) y
| n_in_variant n it i t l x sp y : items !! n = Some it → ¬ is_struct_data (si_data it) →
    members (si_data it) !! i = Some (t, l) →
    named_part items t x sp y → named_part items (TNamed n) (TrVar i x) sp y
| n_tuple ts i t xs x sp y : ts !! i = Some t → xs !! i = Some x → named_part items t x sp y →
    named_part items (TTuple ts) (TrSeq xs) sp y
| n_box t x sp y : named_part items t x sp y → named_part items (TBox t) x sp y
| n_some t sp0 x sp y : named_part items t x sp y → named_part items (TOpt t) (TrOpt sp0 (Some x)) sp y
| n_list t k sp0 xs x sp y : t = TPlus k ∨ t = TStar k ∨ t = TLoop k → x ∈ xs → named_part items k x sp y →
    named_part items t (TrList sp0 xs) sp y
| n_split_elem t d sp0 xs zs x sp y : x ∈ xs → named_part items t x sp y →
    named_part items (TSplit t d) (TrSplit sp0 xs zs) sp y
| n_split_sep t d sp0 xs zs z sp y : z ∈ zs → named_part items d z sp y →
    named_part items (TSplit t d) (TrSplit sp0 xs zs) sp y
| n_punct_elem t d sp0 xs zs x sp y : x ∈ xs → named_part items t x sp y →
    named_part items (TPunct t d) (TrPunct sp0 xs zs) sp y
| n_punct_sep t d sp0 xs zs z sp y : z ∈ zs → named_part items d z sp y →
    named_part items (TPunct t d) (TrPunct sp0 xs zs) sp y
| n_rec_head t r sp0 x z sp y : named_part items t x sp y →
    named_part items (TRecover t r) (TrRecover sp0 (Some x) z) sp y
| n_rec_tail t r sp0 o z sp y : named_part items r z sp y →
    named_part items (TRecover t r) (TrRecover sp0 o z) sp y.

(** The token [c] is recorded with the semantic type [y]: [Token::semantic] contains it. *)
Definition has_type (dbg : bool) (names : list string) (c : cell) (y : string) : Prop :=
  ∃ id, names !! id = Some y ∧ set_contains dbg (length names) (c_sem c) id = Some true.

(** Tuples have components (Rust's have 2 to 5 here, tp_impl/tuple.rs 55-58). *)
Definition full_tuples (env : denv) : ty → Prop := all_within env (λ t, match t with TTuple l => l ≠ [] | _ => True end).
