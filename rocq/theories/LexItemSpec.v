(** Specification vocabulary for the item given to [derive_lexicon]. *)
From Coq Require Import String NArith.
From stdpp Require Import prelude list strings.
From Verif Require Import LexModel MacroModel MacroSpec SynMacroModel SynMacroSpec LexItemModel.
Local Open Scope nat_scope.

(** The regexes of all [ignore(..)] entries. *)
Definition ignored (ms : list lroot) : list string := m ← ms; match m with LrIgnore (Some rs) => rs | _ => [] end.
Definition is_ignore (m : lroot) : Prop := ∃ rs, m = LrIgnore rs.
(** The attributes of the item are as documented, with the entries [ms]: at most one attribute,
    only [terminal_parse] and [ignore(..)] in it, the latter once and with string literals. *)
Definition good_lroot (l : list (attr lroot)) (ms : list lroot) : Prop :=
  entries l ms ∧ LrOther ∉ ms ∧ LrIgnore None ∉ ms ∧ at_most_one is_ignore ms.
(** The variant with what is written in its teleparse attributes. *)
Definition written (v : lvariant) : variant :=
  Variant (t ← tele (lv_attrs v); match t with Some ms => ms | None => [MOther] end) (lv_unit v).

(** The item without attributes of other macros, documentation, and discriminants. *)
Definition bare_attrs {A} (l : list (attr A)) : list (attr A) := map ATele (tele l).
Definition bare_variant (v : lvariant) : lvariant := LVariant (bare_attrs (lv_attrs v)) (lv_name v) false (lv_unit v).
Definition bare_item (it : litem) : litem :=
  LItem (li_generics it) (bare_attrs (li_attrs it))
    (match li_data it with LdEnum vs => LdEnum (map bare_variant vs) | LdOther => LdOther end).
(** The item without its teleparse attributes. *)
Definition clean_lvariant (v : lvariant) : lvariant := LVariant (foreign (lv_attrs v)) (lv_name v) (lv_disc v) (lv_unit v).
Definition clean_litem (it : litem) : litem :=
  LItem (li_generics it) (foreign (li_attrs it))
    (match li_data it with LdEnum vs => LdEnum (map clean_lvariant vs) | LdOther => LdOther end).
