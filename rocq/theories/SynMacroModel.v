(** Model of [derive_syntax], packages/macros/src/syntax.rs (with prelude.rs and root.rs): what
    it accepts, what it emits for the annotated item, and what code it generates.  No proofs in
    this file.

    Simplified: [syn]'s parsing of the item is taken as done; where an attribute's arguments
    are parsed by the macro itself, the item carries the result ([None]: that parse fails).
    Token streams are the data they carry; names of items, visibility and generics are left
    out (the macro copies them).  A field is named by its identifier or its index. *)
From Coq Require Import String NArith.
From stdpp Require Import prelude list strings pretty.
From Verif Require Import LexModel SynSetModel TableModel TypeModel MacroModel.
Local Open Scope nat_scope.

(** An attribute: [#[teleparse(...)]] with its entries ([None]: [parse_crate_attr_meta],
    prelude.rs 57-61, fails), or one with another path. *)
Inductive attr (A : Type) := ATele (metas : option (list A)) | AOther (text : string).
Arguments ATele {_} _. Arguments AOther {_} _.
(** Entries on the item, syntax.rs 373-386: [root], [no_test], anything else. *)
Inductive rmeta := RmRoot | RmNoTest | RmOther.
(** Entries on a field or variant, syntax.rs 416-443: [semantic(..)], [hook(..)] (argument
    [None]: not a list of identifiers, not an identifier), a list with another name, anything
    else. *)
Inductive fmeta := FmSemantic (ids : option (list string)) | FmHook (id : option string) | FmList | FmOther.

(** [syn::Field], [syn::Fields], [syn::Variant], [syn::Data], [syn::DeriveInput]. *)
Record sfield := SField { sf_attrs : list (attr fmeta); sf_name : string; sf_ty : ty }.
Inductive sfields := FsUnit | FsUnnamed (l : list sfield) | FsNamed (l : list sfield).
Record svariant := SVariant { sv_attrs : list (attr fmeta); sv_name : string; sv_disc : bool; sv_fields : sfields }.
Inductive sdata := SdStruct (fs : sfields) | SdEnum (vs : list svariant) | SdUnion (l : list sfield).
Record sitem := SItem { si_attrs : list (attr rmeta); si_data : sdata }.

(** Reasons for refusing; [XSyn]: an error of [syn]. *)
Inductive serr :=
| XSyn | XMultiRoot | XUnknown | XNoTest | XUnion | XUnit | XNoField | XDisc | XOneField | XNoVariant
| XMulti | XDupSemantic | XDupHook | XFormat.

(** The generated code.  Structs: the arguments of [register_sequence!] (syntax.rs 111, 200),
    the fields in the order in which they are produced (128-132, 218-222), the
    [apply_semantic] statements (81-88, 167-174), the fields asked for [lo] and [hi]
    (116-117, 206-207).  Enums: the arguments of [register_union!] (319) and the arms
    (332-340): index, type, semantic, variant. *)
Inductive gen :=
| GStruct (seq : list ty) (prods : list (string * ty)) (marks : list (string * list string)) (lo hi : string)
| GEnum (union : list ty) (arms : list (nat * ty * option (list string) * string)).
(** [o_root]: an implementation of [Root] is added; [o_test]: so is a test (syntax.rs 25-29). *)
Record output := Output { o_gen : gen; o_root : bool; o_test : bool }.

(** [strip_take_attrs], prelude.rs 64-80: what stays and what is taken. *)
Fixpoint strip_take {A} (l : list (attr A)) : list (attr A) * list (option (list A)) :=
  match l with
  | [] => ([], [])
  | AOther x :: l => let '(stay, take) := strip_take l in (AOther x :: stay, take)
  | ATele m :: l => let '(stay, take) := strip_take l in (stay, m :: take)
  end.

(** [parse_strip_root_meta_optional], prelude.rs 111-125, on the taken attributes. *)
Definition root_metas {A} (take : list (option (list A))) : serr + option (list A) :=
  match take with
  | [] => inr None
  | [Some ms] => inr (Some ms)
  | [None] => inl XSyn
  | _ => inl XMultiRoot
  end.
(** syntax.rs 372-387 *)
Fixpoint read_root (ms : list rmeta) (root no_test : bool) : serr + (bool * bool) :=
  match ms with
  | [] => inr (root, no_test)
  | RmRoot :: ms => read_root ms true no_test
  | RmNoTest :: ms => read_root ms root true
  | RmOther :: _ => inl XUnknown
  end.
(** [parse_root_attributes], syntax.rs 367-393, on the taken attributes. *)
Definition parse_root (take : list (option (list rmeta))) : serr + (bool * bool) :=
  ms ←! root_metas take;
  rn ←! read_root (default [] ms) false false;
  if snd rn && negb (fst rn) then inl XNoTest else inr rn.

(** syntax.rs 415-444: the loop over the entries; lists with another name fall through. *)
Fixpoint read_field (ms : list fmeta) (semantic : option (list string)) (hook : option string)
  : serr + option (list string) :=
  match ms with
  | [] => inr semantic
  | FmSemantic ids :: ms =>
      match semantic, ids with
      | Some _, _ => inl XDupSemantic
      | None, None => inl XSyn
      | None, Some ids => read_field ms (Some ids) hook
      end
  | FmHook id :: ms =>
      match hook, id with
      | Some _, _ => inl XDupHook
      | None, None => inl XSyn
      | None, Some id => read_field ms semantic (Some id)
      end
  | FmList :: ms => read_field ms semantic hook
  | FmOther :: _ => inl XFormat
  end.
(** [parse_field_attributes], syntax.rs 400-447 *)
Definition parse_field (take : list (option (list fmeta))) : serr + option (list string) :=
  match take with
  | [] => inr None
  | [None] => inl XSyn
  | [Some ms] => read_field ms None None
  | _ => inl XMulti
  end.

(** The field with its teleparse attributes removed, and these. *)
Definition strip_field (f : sfield) : sfield * list (option (list fmeta)) :=
  let '(stay, take) := strip_take (sf_attrs f) in (SField stay (sf_name f) (sf_ty f), take).
Definition strip_variant (v : svariant) : svariant * list (option (list fmeta)) :=
  let '(stay, take) := strip_take (sv_attrs v) in (SVariant stay (sv_name v) (sv_disc v) (sv_fields v), take).

(** The [apply_semantic] statements, syntax.rs 74-90, 162-176 *)
Fixpoint field_marks (l : list (string * list (option (list fmeta)))) : serr + list (string * list string) :=
  match l with
  | [] => inr []
  | (x, take) :: l =>
      sem ←! parse_field take;
      ms ←! field_marks l;
      inr (match sem with Some ids => (x, ids) :: ms | None => ms end)
  end.
(** [expand_struct_unnamed], syntax.rs 56-141, and [expand_struct_named], 143-230, which
    differ in what the fields are called ([idents]).  The first component is the list of
    fields left in the item. *)
Definition expand_fields (idents : list string) (fs : list sfield) : list sfield * (serr + gen) :=
  let l := map strip_field fs in
  let fs' := map fst l in
  (fs',
   match head idents, last idents with
   | Some x, Some z =>
       ms ←! field_marks (zip idents (map snd l));
       inr (GStruct (map sf_ty fs') (zip idents (map sf_ty fs')) ms x z)
   | _, _ => inl XNoField
   end).
(** [expand_struct], syntax.rs 41-54.  Unnamed fields are called by their index (79, 92). *)
Definition expand_struct (fs : sfields) : sfields * (serr + gen) :=
  match fs with
  | FsUnnamed l => let '(l', r) := expand_fields (map pretty (seq 0 (length l))) l in (FsUnnamed l', r)
  | FsNamed l => let '(l', r) := expand_fields (map sf_name l) l in (FsNamed l', r)
  | FsUnit => (FsUnit, inl XUnit)
  end.

(** syntax.rs 245-275: names and types of the variants. *)
Fixpoint variant_tys (vs : list svariant) : serr + list (string * ty) :=
  match vs with
  | [] => inr []
  | v :: vs =>
      if sv_disc v then inl XDisc else
      match sv_fields v with
      | FsUnnamed [f] => l ←! variant_tys vs; inr ((sv_name v, sf_ty f) :: l)
      | _ => inl XOneField
      end
  end.
(** syntax.rs 281-296 *)
Fixpoint variant_marks (l : list (list (option (list fmeta)))) : serr + list (option (list string)) :=
  match l with
  | [] => inr []
  | take :: l => sem ←! parse_field take; ms ←! variant_marks l; inr (sem :: ms)
  end.
(** The arms, syntax.rs 332-340: [quote!] repeats the four lists in step. *)
Fixpoint arms (i : nat) (l : list (string * ty)) (ms : list (option (list string)))
  : list (nat * ty * option (list string) * string) :=
  match l, ms with
  | (x, t) :: l, m :: ms => (i, t, m, x) :: arms (S i) l ms
  | _, _ => []
  end.
(** [expand_enum], syntax.rs 232-354 *)
Definition expand_enum (vs : list svariant) : list svariant * (serr + gen) :=
  let l := map strip_variant vs in
  let vs' := map fst l in
  (vs',
   nts ←! variant_tys vs';
   match nts with
   | [] => inl XNoVariant
   | _ :: _ => ms ←! variant_marks (map snd l); inr (GEnum (map snd nts) (arms 0 nts ms))
   end).

(** [expand], syntax.rs 5-39, called by [expand_with_args_mut], prelude.rs 45-55, which emits
    the item as [expand] left it, with the output or with the error. *)
Definition expand_syntax (it : sitem) : sitem * (serr + output) :=
  let '(attrs, take) := strip_take (si_attrs it) in
  match parse_root take with
  | inl e => (SItem attrs (si_data it), inl e)
  | inr (root, no_test) =>
      let '(data, r) :=
        match si_data it with
        | SdStruct fs => let '(fs', r) := expand_struct fs in (SdStruct fs', r)
        | SdEnum vs => let '(vs', r) := expand_enum vs in (SdEnum vs', r)
        | SdUnion l => (SdUnion l, inl XUnion)
        end in
      (SItem attrs data, g ←! r; inr (Output g root (root && negb no_test)))
  end.

(** * What the compiler makes of the generated code *)
(** [<L>::$ty]: the variant with that name. *)
Fixpoint find_name (names : list string) (x : string) : option nat :=
  match names with
  | [] => None
  | y :: l => if String.eqb x y then Some 0 else S <$> find_name l x
  end.
Fixpoint find_names (names : list string) (xs : list string) : option (list nat) :=
  match xs with
  | [] => Some []
  | x :: xs => i ← find_name names x; l ← find_names names xs; Some (i :: l)
  end.
(** [token_set!(L{ A | B })], lex/set.rs 143-147, for a lexicon with the variants [names].  An
    empty list leaves [let b = ;], which is not Rust. *)
Definition mark_set (dbg : bool) (names xs : list string) : option N :=
  match xs with
  | [] => None
  | _ => ids ← find_names names xs; token_set dbg (length names) ids
  end.
Fixpoint assoc {A} (x : string) (l : list (string * A)) : option A :=
  match l with [] => None | (y, a) :: l => if String.eqb x y then Some a else assoc x l end.
(** The declaration the generated code implements ([None]: it does not compile, or
    [to_bit] panics). *)
Definition gen_field (dbg : bool) (names : list string) (t : ty) (m : option (list string)) : option field :=
  match m with
  | None => Some (t, None)
  | Some xs => s ← mark_set dbg names xs; Some (t, Some s)
  end.
Definition gen_decl (dbg : bool) (names : list string) (g : gen) : option decl :=
  match g with
  | GStruct _ prods marks _ _ => DStruct <$> mapM (λ p, gen_field dbg names (snd p) (assoc (fst p) marks)) prods
  | GEnum _ arms => DEnum <$> mapM (λ a, gen_field dbg names (snd (fst (fst a))) (snd (fst a))) arms
  end.
