(** Model of the part of [derive_lexicon], packages/macros/src/lexicon.rs, that reads the item
    and pastes the output together, around [expand] of MacroModel.v.  No proofs in this file.

    Simplified as there: [syn]'s parsing is taken as done; where the arguments of an attribute
    are parsed by the macro itself the item carries the result ([None]: that parse fails). *)
From Coq Require Import String NArith.
From stdpp Require Import prelude list strings.
From Verif Require Import LexModel MacroModel SynMacroModel TypeModel.
Local Open Scope nat_scope.

(** Entries on the item, lexicon.rs 348-371: [terminal_parse], [ignore(..)], anything else. *)
Inductive lroot := LrTermParse | LrIgnore (rs : option (list string)) | LrOther.
(** [syn::Variant]; [lv_disc]: it has an explicit discriminant, [lv_unit]: it has no fields. *)
Record lvariant := LVariant { lv_attrs : list (attr meta); lv_name : string; lv_disc : bool; lv_unit : bool }.
(** [syn::Data]: an enum, or a struct or union. *)
Inductive ldata := LdEnum (vs : list lvariant) | LdOther.
(** [syn::DeriveInput]; [li_generics]: it has generic parameters. *)
Record litem := LItem { li_generics : bool; li_attrs : list (attr lroot); li_data : ldata }.

(** Reasons for refusing: those of [parse_strip_root_meta_optional] and of MacroModel.v among
    them. *)
Inductive lerr := LGenerics | LRoot (e : serr) | LSyn | LUnknown | LMultiIgnore | LNotEnum | LVariants (e : merr).

(** The output, lexicon.rs 275-333: the variants of the emitted enum with their values (278-280;
    it has no attributes but its own), the width of [Bit] (301), [#[logos(skip ..)]] (285-287),
    the lists built by the loop, and the terminals that get an implementation of [Root]
    (422-426, 473). *)
Record loutput := LOutput {
  lo_enum : list (string * nat);
  lo_width : N;
  lo_skip : list string;
  lo_acc : acc;
  lo_roots : list terminal;
}.

(** lexicon.rs 348-371: the loop over the entries. *)
Fixpoint read_lroot (ms : list lroot) (ignore : option (list string)) (tp : bool) : lerr + (option (list string) * bool) :=
  match ms with
  | [] => inr (ignore, tp)
  | LrTermParse :: ms => read_lroot ms ignore true
  | LrIgnore rs :: ms =>
      match ignore, rs with
      | Some _, _ => inl LMultiIgnore
      | None, None => inl LSyn
      | None, Some rs => read_lroot ms (Some rs) tp
      end
  | LrOther :: _ => inl LUnknown
  end.
(** [parse_root_attributes], lexicon.rs 343-382, on the taken attributes. *)
Definition parse_lroot (take : list (option (list lroot))) : lerr + (list string * bool) :=
  match root_metas take with
  | inl e => inl (LRoot e)
  | inr ms =>
      r ←! read_lroot (default [] ms) None false;
      inr (default [] (fst r), snd r)
  end.

(** lexicon.rs 27-29: what stays of a variant, and the attributes taken. *)
Definition strip_lvariant (v : lvariant) : lvariant * list (option (list meta)) :=
  let '(stay, take) := strip_take (lv_attrs v) in (LVariant stay (lv_name v) (lv_disc v) (lv_unit v), take).
(** The variant as the loop over the taken attributes sees it, lexicon.rs 76-86. *)
Definition taken_variant (p : lvariant * list (option (list meta))) : variant :=
  Variant (concat (map (λ t, match t with Some ms => ms | None => [MOther] end) (snd p))) (lv_unit (fst p)).

Section Lexicon.
  Variable rx_valid : string → bool.
  Variable rx_find : string → string → option (nat * nat).

  (** lexicon.rs 42-333 *)
  Definition lex_output (ignore : list string) (tp : bool) (names : list string) (vs : list variant) : lerr + loutput :=
    match expand rx_valid rx_find (LexDecl ignore vs), repr_width (length vs) with
    | inr a, Some w => inr (LOutput (zip names (seq 0 (length names))) w ignore a (if tp then ac_terms a else []))
    | inl e, _ => inl (LVariants e)
    | _, None => inl (LVariants ENumber)
    end.
  (** [expand], lexicon.rs 5-336: the item as it leaves it, and the output or error, of which
      [expand_with_mut], prelude.rs 38-55, emits either the output alone or the item and the
      error. *)
  Definition expand_lexicon (it : litem) : litem * (lerr + loutput) :=
    if li_generics it then (it, inl LGenerics) else
    let '(attrs, take) := strip_take (li_attrs it) in
    match parse_lroot take with
    | inl e => (LItem false attrs (li_data it), inl e)
    | inr (ignore, tp) =>
        match li_data it with
        | LdOther => (LItem false attrs LdOther, inl LNotEnum)
        | LdEnum vs =>
            let l := map strip_lvariant vs in
            (LItem false attrs (LdEnum (map fst l)),
             lex_output ignore tp (map (lv_name ∘ fst) l) (map taken_variant l))
        end
    end.
End Lexicon.

(** The syntax tree type of a derived terminal; [k]: which struct it is. *)
Definition terminal_ty (k : nat) (t : terminal) : ty := TTok k (tm_ty t) (tm_lit t).
