(** Specification vocabulary for the derive macros. *)
From Coq Require Import String.
From stdpp Require Import prelude list strings.
From Verif Require Import DeriveModel.
Local Open Scope nat_scope.

Definition fields_of (fs : dfields) : list dfield :=
  match fs with DfUnit => [] | DfUnnamed l | DfNamed l => l end.
(** The ways to build a value. *)
Definition ctors (d : ddata) : list dfields :=
  match d with DdStruct fs => [fs] | DdEnum vs => map snd vs | DdUnion _ => [] end.
(** There are values, and all of them have a first field. *)
Definition has_first (d : ddata) : Prop := ctors d ≠ [] ∧ ∀ fs, fs ∈ ctors d → fields_of fs ≠ [].
(** The item is Rust: the names of the variants differ. *)
Definition names_ok (d : ddata) : Prop := match d with DdEnum vs => NoDup (map fst vs) | _ => True end.
(** [v] is a value of the type. *)
Definition value_of {A} (d : ddata) (v : dval A) : Prop :=
  ∃ fs, ctors d !! dv_variant v = Some fs ∧ length (dv_fields v) = length (fields_of fs).

(** The type is written [path::to::Name<args>]. *)
Definition generic (t : dty) (args : list string) : Prop := ∃ segs x, t = DtPath (segs ++ [(x, Angle args)]).

(** How often the item itself is defined in the emitted code. *)
Fixpoint definitions {I A E} (l : list (emitted I A E)) : nat :=
  match l with [] => 0 | EmItem _ :: l => S (definitions l) | _ :: l => definitions l end.
