(** Specification vocabulary for [derive_syntax]. *)
From Coq Require Import String NArith.
From stdpp Require Import prelude list strings pretty.
From Verif Require Import LexModel TypeModel MacroSpec SynMacroModel.
Local Open Scope nat_scope.

(** The teleparse attributes in a list of attributes, and the list without them. *)
Definition tele {A} (l : list (attr A)) : list (option (list A)) :=
  a ← l; match a with ATele m => [m] | AOther _ => [] end.
Definition foreign {A} (l : list (attr A)) : list (attr A) :=
  a ← l; match a with ATele _ => [] | AOther x => [AOther x] end.
(** [ms] are the entries of the only teleparse attribute, if any. *)
Definition entries {A} (l : list (attr A)) (ms : list A) : Prop :=
  (tele l = [] ∧ ms = []) ∨ tele l = [Some ms].

Definition is_semantic (m : fmeta) : Prop := ∃ x, m = FmSemantic x.
Definition is_hook (m : fmeta) : Prop := ∃ x, m = FmHook x.
(** The attributes of a field or variant are as documented: at most one attribute, whose
    entries are lists, with at most one [semantic] and one [hook], both with identifiers. *)
Definition good_marks (l : list (attr fmeta)) : Prop := ∃ ms, entries l ms ∧
  FmOther ∉ ms ∧ FmSemantic None ∉ ms ∧ FmHook None ∉ ms ∧
  at_most_one is_semantic ms ∧ at_most_one is_hook ms.
(** The attributes of the item: [root], or [root] and [no_test]. *)
Definition good_root (l : list (attr rmeta)) : Prop := ∃ ms, entries l ms ∧
  RmOther ∉ ms ∧ (RmNoTest ∈ ms → RmRoot ∈ ms).

Definition struct_fields (fs : sfields) : list sfield :=
  match fs with FsUnit => [] | FsUnnamed l | FsNamed l => l end.
Definition good_data (d : sdata) : Prop :=
  match d with
  | SdStruct fs => struct_fields fs ≠ [] ∧ ∀ f, f ∈ struct_fields fs → good_marks (sf_attrs f)
  | SdEnum vs => vs ≠ [] ∧ ∀ v, v ∈ vs →
      sv_disc v = false ∧ (∃ f, sv_fields v = FsUnnamed [f]) ∧ good_marks (sv_attrs v)
  | SdUnion _ => False
  end.

(** The members of a struct or enum: type, attributes. *)
Definition members (d : sdata) : list (ty * list (attr fmeta)) :=
  match d with
  | SdStruct fs => map (λ f, (sf_ty f, sf_attrs f)) (struct_fields fs)
  | SdEnum vs => v ← vs; match sv_fields v with FsUnnamed [f] => [(sf_ty f, sv_attrs v)] | _ => [] end
  | SdUnion _ => []
  end.
(** Rust refuses structs with equal field names and enums with equal variant names. *)
Definition distinct_names (d : sdata) : Prop :=
  match d with SdStruct (FsNamed l) => NoDup (map sf_name l) | SdEnum vs => NoDup (map sv_name vs) | _ => True end.

(** [xs] are the token types listed in [semantic(..)]. *)
Definition listed (l : list (attr fmeta)) (xs : list string) : Prop :=
  ∃ ms, Some ms ∈ tele l ∧ FmSemantic (Some xs) ∈ ms.
(** The set [s] contains exactly the token types with the names [xs]. *)
Definition holds_names (dbg : bool) (names : list string) (s : N) (xs : list string) : Prop :=
  ∀ id x, names !! id = Some x →
    set_contains dbg (length names) s id = Some true ∧ x ∈ xs ∨
    set_contains dbg (length names) s id = Some false ∧ x ∉ xs.
(** A field of the declaration is the member: same type; marked with the listed token types,
    if any are listed. *)
Definition implements (dbg : bool) (names : list string) (f : field) (m : ty * list (attr fmeta)) : Prop :=
  fst f = fst m ∧
  match snd f with
  | Some s => ∃ xs, listed (snd m) xs ∧ holds_names dbg names s xs
  | None => ∀ xs, ¬ listed (snd m) xs
  end.
Definition is_struct_decl (d : decl) : Prop := match d with DStruct _ => True | DEnum _ => False end.
Definition is_struct_data (d : sdata) : Prop := match d with SdStruct _ => True | _ => False end.

(** The item without teleparse attributes on the places where they are allowed. *)
Definition clean_field (f : sfield) : sfield := SField (foreign (sf_attrs f)) (sf_name f) (sf_ty f).
Definition clean_fields (fs : sfields) : sfields :=
  match fs with
  | FsUnit => FsUnit
  | FsUnnamed l => FsUnnamed (map clean_field l)
  | FsNamed l => FsNamed (map clean_field l)
  end.
Definition clean_variant (v : svariant) : svariant :=
  SVariant (foreign (sv_attrs v)) (sv_name v) (sv_disc v) (sv_fields v).
Definition clean_data (d : sdata) : sdata :=
  match d with
  | SdStruct fs => SdStruct (clean_fields fs)
  | SdEnum vs => SdEnum (map clean_variant vs)
  | SdUnion l => SdUnion l
  end.
Definition clean (it : sitem) : sitem := SItem (foreign (si_attrs it)) (clean_data (si_data it)).

(** The item without the entries of its members that are lists other than [semantic]. *)
Definition known_entries (ms : list fmeta) : list fmeta :=
  m ← ms; match m with FmSemantic _ | FmOther => [m] | FmHook _ | FmList => [] end.
Definition known_attrs (l : list (attr fmeta)) : list (attr fmeta) :=
  map (λ a, match a with ATele (Some ms) => ATele (Some (known_entries ms)) | _ => a end) l.
Definition known_field (f : sfield) : sfield := SField (known_attrs (sf_attrs f)) (sf_name f) (sf_ty f).
Definition known_data (d : sdata) : sdata :=
  match d with
  | SdStruct FsUnit => SdStruct FsUnit
  | SdStruct (FsUnnamed l) => SdStruct (FsUnnamed (map known_field l))
  | SdStruct (FsNamed l) => SdStruct (FsNamed (map known_field l))
  | SdEnum vs => SdEnum (map (λ v, SVariant (known_attrs (sv_attrs v)) (sv_name v) (sv_disc v) (sv_fields v)) vs)
  | SdUnion l => SdUnion l
  end.
Definition known_item (it : sitem) : sitem := SItem (si_attrs it) (known_data (si_data it)).
(** The item has the attribute entry [m]. *)
Definition has_entry {A} (l : list (attr A)) (m : A) : Prop := ∃ ms, Some ms ∈ tele l ∧ m ∈ ms.
(** How the fields of a struct are called in code: by name or by index. *)
Definition idents (fs : sfields) : list string :=
  match fs with
  | FsUnit => []
  | FsUnnamed l => map pretty (seq 0 (length l))
  | FsNamed l => map sf_name l
  end.
(** The generated code fits the item: all fields are registered and produced in the order of
    the declaration, the span goes from the first to the last; variant [i] is alternative [i]
    of the registered union, and the arm for [i] builds that variant from its type. *)
Definition fitting (d : sdata) (g : gen) : Prop :=
  match d, g with
  | SdStruct fs, GStruct registered produced _ lo hi =>
      registered = map sf_ty (struct_fields fs) ∧ produced.*1 = idents fs ∧ produced.*2 = registered ∧
      head (idents fs) = Some lo ∧ last (idents fs) = Some hi
  | SdEnum vs, GEnum registered arms =>
      length registered = length vs ∧ length arms = length vs ∧
      ∀ i v, vs !! i = Some v → ∃ f m, sv_fields v = FsUnnamed [f] ∧
        registered !! i = Some (sf_ty f) ∧ arms !! i = Some (i, sf_ty f, m, sv_name v)
  | _, _ => False
  end.
(** All declarations come from accepted items, for the lexicon [names]. *)
Definition derived (dbg : bool) (names : list string) (env : list decl) : Prop :=
  NoDup names ∧ length names ≤ 32 ∧
  ∀ n d, env !! n = Some d → ∃ it o, snd (expand_syntax it) = inr o ∧ distinct_names (si_data it) ∧
    gen_decl dbg names (o_gen o) = Some d.
