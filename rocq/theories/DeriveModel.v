(** Model of the derive macros [ToSpan] and [Node], packages/macros/src/{to_span,node}.rs, and
    of how a macro's result is emitted, prelude.rs 22-55, 82-97.  No proofs in this file.

    Simplified: [syn]'s parsing of the item is taken as done; names of items, visibility,
    generics and attributes are left out; token streams are the data they carry; unnamed
    fields and the fields of a value are in order of declaration. *)
From Coq Require Import String.
From stdpp Require Import prelude list strings.
From Verif Require Import MacroModel.
Local Open Scope nat_scope.

(** [syn::Type]: a path (the names of its segments with their arguments) or another type. *)
Inductive pargs := NoArgs | Angle (l : list string) | Paren.
Inductive dty := DtPath (segs : list (string * pargs)) | DtOther.
(** [syn::Field] (the name of an unnamed field does not matter), [syn::Fields], [syn::Data]. *)
Record dfield := DField { df_name : string; df_ty : dty }.
Inductive dfields := DfUnit | DfUnnamed (l : list dfield) | DfNamed (l : list dfield).
Inductive ddata := DdStruct (fs : dfields) | DdEnum (vs : list (string * dfields)) | DdUnion (l : list dfield).

(** Reasons for refusing. *)
Inductive derr := YUnion | YEmptyField | YNotStruct | YNotPath | YNoGeneric.

(** * [derive(ToSpan)] *)
(** The method called in the generated code. *)
Inductive meth := MLo | MHi.
(** The pattern of an arm: [Self::V { f, .. }] or [Self::V(x, ..)]. *)
Inductive pat := PatNamed (f : string) | PatTuple.
(** A generated body: [self.f.m()], or a match whose arms call [m] on the bound field. *)
Inductive code := CField (f : string) (m : meth) | CMatch (arms : list (string * pat)) (m : meth).

(** [expand_struct], to_span.rs 37-60 *)
Definition span_struct (fs : dfields) (m : meth) : derr + code :=
  match fs with
  | DfNamed (f :: _) => inr (CField (df_name f) m)
  | DfNamed [] => inl YEmptyField
  | DfUnnamed _ => inr (CField "0" m)
  | DfUnit => inl YEmptyField
  end.
(** [expand_enum], to_span.rs 62-98: the loop over the variants. *)
Fixpoint span_arms (vs : list (string * dfields)) : derr + list (string * pat) :=
  match vs with
  | [] => inr []
  | (x, DfNamed (f :: _)) :: vs => l ←! span_arms vs; inr ((x, PatNamed (df_name f)) :: l)
  | (x, DfNamed []) :: _ => inl YEmptyField
  | (x, DfUnnamed _) :: vs => l ←! span_arms vs; inr ((x, PatTuple) :: l)
  | (x, DfUnit) :: _ => inl YEmptyField
  end.
Definition span_enum (vs : list (string * dfields)) (m : meth) : derr + code :=
  arms ←! span_arms vs; inr (CMatch arms m).
(** [expand], to_span.rs 3-35: the bodies of [lo] and [hi]. *)
Definition derive_to_span (d : ddata) : derr + (code * code) :=
  match d with
  | DdUnion _ => inl YUnion
  | DdEnum vs => lo ←! span_enum vs MLo; hi ←! span_enum vs MHi; inr (lo, hi)
  | DdStruct fs => lo ←! span_struct fs MLo; hi ←! span_struct fs MHi; inr (lo, hi)
  end.

(** * [derive(Node)] *)
(** The generated conversion from a node: [Self { x, Default::default() }] or
    [Self(node, Default::default(), ..)] with [n] defaults. *)
Inductive from_body := FbNamed (x : string) | FbTuple (n : nat).
(** The conversion, the field whose [value] is used, the arguments in the target type. *)
Record node_code := NodeCode { nc_from : from_body; nc_field : string; nc_target : list string }.

(** [parse_node_type], node.rs 92-112 *)
Definition parse_node_type (t : dty) : derr + list string :=
  match t with
  | DtPath segs =>
      match last segs with
      | Some (_, Angle args) => inr args
      | _ => inl YNoGeneric
      end
  | DtOther => inl YNotPath
  end.
(** [expand], node.rs 3-90 *)
Definition derive_node (d : ddata) : derr + node_code :=
  match d with
  | DdStruct fs =>
      match fs with
      | DfNamed (f :: _) => args ←! parse_node_type (df_ty f); inr (NodeCode (FbNamed (df_name f)) (df_name f) args)
      | DfUnnamed ((f :: _) as l) => args ←! parse_node_type (df_ty f); inr (NodeCode (FbTuple (length l - 1)) "0" args)
      | DfNamed [] | DfUnnamed [] | DfUnit => inl YEmptyField
      end
  | _ => inl YNotStruct
  end.

(** * Emitting *)
(** Emitted items: the input, generated code, [compile_error!]. *)
Inductive emitted (I A E : Type) := EmItem (i : I) | EmCode (a : A) | EmError (e : E).
Arguments EmItem {_ _ _} _. Arguments EmCode {_ _ _} _. Arguments EmError {_ _ _} _.
(** [from_result_keep_input], prelude.rs 82-97, as called by [expand_with], 22-36, and
    [expand_with_mut], 38-55 (where the item is as the macro left it). *)
Definition from_result_keep_input {I A E} (i : I) (r : E + A) : list (emitted I A E) :=
  match r with
  | inr a => [EmCode a]
  | inl e => [EmItem i; EmError e]
  end.

(** * What the compiler makes of it *)
(** What a derive macro emits comes after the item it is put on. *)
Definition with_derive {I A E} (i : I) (out : list (emitted I A E)) : list (emitted I A E) := EmItem i :: out.

(** Position of the field [f] in a struct or variant. *)
Fixpoint field_pos (l : list dfield) (f : string) : option nat :=
  match l with
  | [] => None
  | x :: l => if String.eqb f (df_name x) then Some 0 else S <$> field_pos l f
  end.
(** [self.f]; of the numeric names only [0] is generated. *)
Definition self_field (fs : dfields) (f : string) : option nat :=
  match fs with
  | DfUnit => None
  | DfNamed l => field_pos l f
  | DfUnnamed l => match l with _ :: _ => if String.eqb f "0" then Some 0 else None | [] => None end
  end.
(** The field bound by a pattern: [V(x, ..)] wants a first field. *)
Definition pat_field (fs : dfields) (p : pat) : option nat :=
  match fs, p with
  | DfNamed l, PatNamed f => field_pos l f
  | DfUnnamed (_ :: _), PatTuple => Some 0
  | _, _ => None
  end.
(** A value of the type: which variant (0 for a struct) and the values of its fields. *)
Record dval (A : Type) := DVal { dv_variant : nat; dv_fields : list A }.
Arguments DVal {_} _ _. Arguments dv_variant {_} _. Arguments dv_fields {_} _.

(** The arm for the variant [x]. *)
Fixpoint find_arm (arms : list (string * pat)) (x : string) : option pat :=
  match arms with
  | [] => None
  | (y, p) :: l => if String.eqb x y then Some p else find_arm l x
  end.
(** For a match on [self] to compile, every pattern must fit its variant, every variant must
    have an arm, and there must be one: a reference to an enum without variants is not an
    empty type. *)
Definition compiles (d : ddata) (c : code) : bool :=
  match d, c with
  | DdStruct fs, CField f _ => match self_field fs f with Some _ => true | None => false end
  | DdEnum vs, CMatch arms _ =>
      negb (length arms =? 0) &&
      forallb (λ v, match find_arm arms (fst v) with
                    | Some p => match pat_field (snd v) p with Some _ => true | None => false end
                    | None => false
                    end) vs
  | _, _ => false
  end.
(** Running it; [call m a]: the method [m] of the field value [a]. *)
Definition exec {A} (call : meth → A → nat) (d : ddata) (c : code) (v : dval A) : option nat :=
  match d, c with
  | DdStruct fs, CField f m => i ← self_field fs f; a ← dv_fields v !! i; Some (call m a)
  | DdEnum vs, CMatch arms m =>
      x ← vs !! dv_variant v;
      p ← find_arm arms (fst x);
      i ← pat_field (snd x) p;
      a ← dv_fields v !! i;
      Some (call m a)
  | _, _ => None
  end.

(** [From<Node<T>>], node.rs 66-72; [dflt] are the default values of the other fields.  A named
    field without [..] before the default value is not Rust. *)
Definition node_from {A} (dflt : nat → A) (c : node_code) (node : A) : option (list A) :=
  match nc_from c with
  | FbNamed _ => None
  | FbTuple n => Some (node :: map dflt (seq 1 n))
  end.
(** [into_inner], [deref] and [deref_mut], node.rs 61-86: the value in the field; [value] takes
    the [value] of a [tp::Node]. *)
Definition node_get {A V} (value : A → V) (fs : dfields) (c : node_code) (l : list A) : option V :=
  i ← self_field fs (nc_field c); a ← l !! i; Some (value a).
