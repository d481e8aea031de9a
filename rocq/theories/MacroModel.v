(** Model of [derive_lexicon], packages/macros/src/lexicon.rs: what it accepts and the rules,
    terminals and extraction it generates.  No proofs in this file.

    Simplified: a variant is its ordinal (Rust rejects enums with equal variant names); token
    streams are the data they carry; the visibility, doc comments, [Debug] and [from_span]
    parts of the output are left out; [syn]'s parsing of attributes is taken as done (a
    declaration is the parsed attribute data).  What [expand] does before and after that is in
    LexItemModel.v. *)
From Coq Require Import String NArith.
From stdpp Require Import prelude list strings.
From Verif Require Import LexModel.
Local Open Scope nat_scope.

(** One entry of [terminal(...)], lexicon.rs 126-202: [Name], [Name = "lit"], or any other
    form (a path that is not an identifier, a value that is not a string, a list). *)
Inductive term := TmAny (name : string) | TmLit (name lit : string) | TmBad.
(** One entry of [#[teleparse(...)]] on a variant, lexicon.rs 84-110; all the attributes of
    one variant are read in order as one list.  [MList]: a list with another name,
    [MOther]: not a list, or an entry or attribute that [syn] cannot
    parse (only the message differs). *)
Inductive meta := MRegex (rs : list string) | MTerminal (ts : list term) | MList | MOther.
(** A variant; [v_unit]: it has no fields. *)
Record variant := Variant { v_metas : list meta; v_unit : bool }.
(** The enum with the regexes of its [ignore(...)]. *)
Record lexdecl := LexDecl { d_ignore : list string; d_variants : list variant }.

(** Reasons for refusing, in the order of the source. *)
Inductive merr :=
| EBadRegex | EEmptyRegex | ENotUnit | ENumber | EUnknownAttr | EMultiRegex | EMultiTerminal
| ETermForm | EMultiBare | EEmptyLit | EDupLit | ERedundant | ENotAtStart | EPrefix | ENoMatch.

(** What is attached to a variant of the logos enum: [#[regex(..)]] or [#[token(..)]]. *)
Inductive rule := RRegex (r : string) | RToken (lit : string).
(** A derived terminal struct (lexicon.rs 395-476): name, token type, literal. *)
Record terminal := Terminal { tm_name : string; tm_ty : nat; tm_lit : option string }.

(** The lists built by the loop, lexicon.rs 65-75. *)
Record acc := Acc {
  ac_lex : list nat;             (* lex_variant_idents *)
  ac_attrs : list (list rule);   (* lex_variant_derived_attrs *)
  ac_extract : list nat;         (* extract_idents *)
  ac_terms : list terminal;      (* extra_derives *)
}.

Notation "x ←! e ; f" := (match e with inl er => inl er | inr x => f end)
  (at level 20, e at level 100, f at level 200, only parsing).

Section Macro.
  (** The regex crate: does the text compile, and leftmost match (start, end). *)
  Variable rx_valid : string → bool.
  Variable rx_find : string → string → option (nat * nat).

  (** [checked_regex_rule], prelude.rs 145-160. *)
  Definition checked_regex_rule (r : string) : merr + unit :=
    if rx_valid r then
      match rx_find r "" with Some _ => inl EEmptyRegex | None => inr tt end
    else inl EBadRegex.

  (** lexicon.rs 42-44 *)
  Fixpoint check_ignore (rs : list string) : merr + unit :=
    match rs with
    | [] => inr tt
    | r :: rs => _ ←! checked_regex_rule r; check_ignore rs
    end.

  (** [check_enum_precondition], lexicon.rs 384-392. *)
  Fixpoint check_enum_precondition (vs : list variant) : merr + unit :=
    match vs with
    | [] => inr tt
    | v :: vs => if v_unit v then check_enum_precondition vs else inl ENotUnit
    end.

  (** lexicon.rs 82-110: the [regex] and [terminal] attributes of a variant.  Lists with
      another name fall through the two tests and are dropped. *)
  Fixpoint read_attrs (ms : list meta) (regex : option (list string)) (terminal : option (list term))
    : merr + (option (list string) * option (list term)) :=
    match ms with
    | [] => inr (regex, terminal)
    | MOther :: _ => inl EUnknownAttr
    | MRegex rs :: ms => match regex with Some _ => inl EMultiRegex | None => read_attrs ms (Some rs) terminal end
    | MTerminal ts :: ms => match terminal with Some _ => inl EMultiTerminal | None => read_attrs ms regex (Some ts) end
    | MList :: ms => read_attrs ms regex terminal
    end.

  (** lexicon.rs 125-203: the loop over the terminals of variant [i].  [set] is
      [infer_literal_set], here a list (its order only decides which error is shown). *)
  Fixpoint read_terms (i : nat) (ts : list term) (infer : option (list string)) (set : list string)
      (out : list terminal) : merr + (option (list string) * list string * list terminal) :=
    match ts with
    | [] => inr (infer, set, out)
    | TmBad :: _ => inl ETermForm
    | TmAny n :: ts =>
        match infer with
        | None => inl EMultiBare
        | Some _ => read_terms i ts None set (out ++ [Terminal n i None])
        end
    | TmLit n lit :: ts =>
        if String.eqb lit "" then inl EEmptyLit else
        infer' ←! match infer with
                 | Some l => if existsb (String.eqb lit) set then inl EDupLit else inr (Some (l ++ [lit]))
                 | None => inr None
                 end;
        read_terms i ts infer' (lit :: set) (out ++ [Terminal n i (Some lit)])
    end.

  (** lexicon.rs 229-255: one regex against the literals. *)
  Fixpoint check_lits (r : string) (lits : list string) : merr + unit :=
    match lits with
    | [] => inr tt
    | lit :: lits =>
        match rx_find r lit with
        | None => inl ENoMatch
        | Some (st, en) =>
            if negb (st =? 0) then inl ENotAtStart
            else if negb (en =? String.length lit) then inl EPrefix
            else check_lits r lits
        end
    end.
  (** lexicon.rs 227-259 *)
  Fixpoint regex_attr (rs : list string) (set : list string) (attr : list rule) : merr + list rule :=
    match rs with
    | [] => inr attr
    | r :: rs =>
        _ ←! checked_regex_rule r;
        _ ←! check_lits r set;
        regex_attr rs set (attr ++ [RRegex r])
    end.

  (** Is [x] absent or empty ([map(is_empty).unwrap_or(true)]). *)
  Definition none_or_empty {A} (x : option (list A)) : bool :=
    match x with Some (_ :: _) => false | _ => true end.

  (** lexicon.rs 76-270: one turn of the loop over the variants. *)
  Definition variant_step (i : nat) (v : variant) (a : acc) : merr + acc :=
    rt ←! read_attrs (v_metas v) None None;
    let regex := fst rt in
    let terminal := snd rt in
    let extract := if none_or_empty terminal then ac_extract a ++ [i] else ac_extract a in
    ist ←! read_terms i (default [] terminal) (Some []) [] (ac_terms a);
    let infer := fst (fst ist) in
    let set := snd (fst ist) in
    let terms := snd ist in
    let lex := if none_or_empty infer && (match regex with None => true | Some _ => false end)
               then ac_lex a else ac_lex a ++ [i] in
    match regex with
    | Some rs =>
        if negb (none_or_empty infer) then inl ERedundant else
        attr ←! regex_attr rs set [];
        inr (Acc lex (ac_attrs a ++ [attr]) extract terms)
    | None =>
        match infer with
        | Some lits => inr (Acc lex (ac_attrs a ++ [map RToken lits]) extract terms)
        | None => inr (Acc lex (ac_attrs a) extract terms)
        end
    end.

  Fixpoint variant_loop (i : nat) (vs : list variant) (a : acc) : merr + acc :=
    match vs with
    | [] => inr a
    | v :: vs => a' ←! variant_step i v a; variant_loop (S i) vs a'
    end.

  (** [expand], lexicon.rs 42-336, up to the pasting of the output. *)
  Definition expand (d : lexdecl) : merr + acc :=
    _ ←! check_ignore (d_ignore d);
    _ ←! check_enum_precondition (d_variants d);
    match repr_width (length (d_variants d)) with
    | None => inl ENumber
    | Some _ => variant_loop 0 (d_variants d) (Acc [] [] [] [])
    end.
End Macro.

(** The generated logos enum, lexicon.rs 288-290: [quote!] repeats both lists in step and
    stops at the end of the shorter one. *)
Definition derived_logos (a : acc) : list (list rule * nat) := zip (ac_attrs a) (ac_lex a).
(** The generated [should_extract], lexicon.rs 320-325. *)
Definition should_extract (a : acc) (ty : nat) : bool := existsb (Nat.eqb ty) (ac_extract a).
