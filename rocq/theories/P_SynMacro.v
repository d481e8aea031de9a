(** Property theorems about [derive_syntax] (C72-C75).  [expand_syntax it]: the item that is
    emitted, with an error ([inl]) or with generated code ([inr o]); [gen_decl dbg names g]:
    the declaration that the code [g] implements when the lexicon has the variants [names]. *)
From Coq Require Import String NArith.
From stdpp Require Import prelude list strings.
From Verif Require Import LexModel TypeModel ParseSpec MacroSpec SynMacroModel SynMacroSpec SynMacroFacts.
Local Open Scope nat_scope.

(** ** C72: exactly the well-formed items are accepted *)
Theorem C72_accepts : ∀ it,
  (∃ o, snd (expand_syntax it) = inr o) ↔ good_root (si_attrs it) ∧ good_data (si_data it).
Proof. exact syntax_accepts. Qed.
Print Assumptions C72_accepts.

Theorem C72_root : ∀ it o, snd (expand_syntax it) = inr o →
  (o_root o = true ↔ has_entry (si_attrs it) RmRoot) ∧
  (o_test o = true ↔ has_entry (si_attrs it) RmRoot ∧ ¬ has_entry (si_attrs it) RmNoTest).
Proof. exact syntax_root. Qed.
Print Assumptions C72_root.

Example C72_ex : snd (expand_syntax ex_struct) = inr (Output ex_struct_gen true true) ∧
  snd (expand_syntax ex_enum) = inr (Output ex_enum_gen true false) ∧
  snd (expand_syntax ex_bad_root) = inl XUnknown.
Proof. done. Qed.

(** ** C73: the generated code implements the declaration as written *)
Theorem C73_decl : ∀ dbg names it o d, snd (expand_syntax it) = inr o → distinct_names (si_data it) →
  NoDup names → length names ≤ 32 → gen_decl dbg names (o_gen o) = Some d →
  Forall2 (implements dbg names) (decl_fields d) (members (si_data it)) ∧
  decl_fields d ≠ [] ∧ (is_struct_decl d ↔ is_struct_data (si_data it)).
Proof. exact syntax_decl. Qed.
Print Assumptions C73_decl.

Theorem C73_fitting : ∀ it o, snd (expand_syntax it) = inr o → fitting (si_data it) (o_gen o).
Proof. exact syntax_fitting. Qed.
Print Assumptions C73_fitting.

(** The code compiles exactly if every [semantic(..)] lists token types that exist, at least
    one of them. *)
Theorem C73_compiles : ∀ dbg names it o, snd (expand_syntax it) = inr o → distinct_names (si_data it) →
  length names ≤ 32 →
  is_Some (gen_decl dbg names (o_gen o)) ↔
  ∀ m xs, m ∈ members (si_data it) → listed (snd m) xs → xs ≠ [] ∧ ∀ x, x ∈ xs → x ∈ names.
Proof. exact syntax_compiles. Qed.
Print Assumptions C73_compiles.

(** So the hypothesis [filled] of the theorems about parsing holds for every program that
    is accepted (Rust's tuples here have 2 to 5 elements). *)
Theorem C73_filled : ∀ dbg names env t, derived dbg names env →
  all_within env (λ t, match t with TTuple l => l ≠ [] | _ => True end) t → filled env t.
Proof. exact derived_filled. Qed.
Print Assumptions C73_filled.

Example C73_ex : gen_decl true ex_names ex_struct_gen =
    Some (DStruct [(ex_word, None); (ex_op, Some 5%N); (ex_word, None)]) ∧
  gen_decl true ex_names ex_enum_gen = Some (DEnum [(ex_word, Some 2%N); (ex_op, None)]) ∧
  distinct_names (si_data ex_struct) ∧ distinct_names (si_data ex_enum) ∧ NoDup ex_names.
Proof.
  split_and!; [by vm_compute|by vm_compute| | |]; cbn; apply (bool_decide_unpack _); by vm_compute.
Qed.
Example C73_ex_derived : derived true ex_names [DEnum [(ex_word, Some 2%N); (ex_op, None)]] ∧
  all_within [DEnum [(ex_word, Some 2%N); (ex_op, None)]]
    (λ t, match t with TTuple l => l ≠ [] | _ => True end) (TTuple [TNamed 0; ex_op]).
Proof. exact ex_derived. Qed.
(** Accepted, but the code does not compile. *)
Example C73_ex_empty : ∃ o, snd (expand_syntax ex_empty_mark) = inr o ∧ gen_decl true ex_names (o_gen o) = None.
Proof. eexists. split; [reflexivity|done]. Qed.

(** ** C74: unknown attributes are refused *)
(** Finding: a list with an unknown name on a field is accepted. *)
Theorem C74_refuted : ∃ fs f ms it o, f ∈ fs ∧ Some ms ∈ tele (sf_attrs f) ∧ FmList ∈ ms ∧
  si_data it = SdStruct (FsNamed fs) ∧ snd (expand_syntax it) = inr o.
Proof. exact unknown_refuted. Qed.
Print Assumptions C74_refuted.

(** Such entries, and [hook(..)], change nothing in the output. *)
Theorem C74_no_effect : ∀ it o, snd (expand_syntax it) = inr o → snd (expand_syntax (known_item it)) = inr o.
Proof. exact syntax_known. Qed.
Print Assumptions C74_no_effect.

(** Missing: lists with an unknown name on fields and variants. *)
Theorem C74_refused_partial : ∀ it o, snd (expand_syntax it) = inr o →
  ¬ has_entry (si_attrs it) RmOther ∧ ∀ m, m ∈ members (si_data it) → ¬ has_entry (snd m) FmOther.
Proof. exact unknown_refused. Qed.
Print Assumptions C74_refused_partial.

Example C74_ex : known_item ex_struct ≠ ex_struct ∧
  snd (expand_syntax (known_item ex_struct)) = snd (expand_syntax ex_struct).
Proof. split; [done|reflexivity]. Qed.

(** ** C75: the emitted item *)
(** It is the item without its teleparse attributes, whether or not the item is refused,
    except when the attributes of the item itself are wrong: then those of the members stay. *)
Theorem C75_item : ∀ it, fst (expand_syntax it) = clean it ∨
  ¬ good_root (si_attrs it) ∧ fst (expand_syntax it) = SItem (foreign (si_attrs it)) (si_data it).
Proof. exact syntax_item. Qed.
Print Assumptions C75_item.

Example C75_ex : fst (expand_syntax ex_struct) =
    SItem [AOther "doc"] (SdStruct (FsNamed [SField [] "name" ex_word; SField [AOther "doc"] "op" ex_op;
                                             SField [] "value" ex_word])) ∧
  fst (expand_syntax ex_bad_root) ≠ clean ex_bad_root.
Proof. done. Qed.
