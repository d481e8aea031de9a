(** Specification of [Punct] written as a recursive struct. *)
From stdpp Require Import prelude list.
From Verif Require Import TypeModel StreamModel ProduceModel.

(** [struct P { a: T, b: Option<(D, Option<Box<P>>)> }], declared with number [n] *)
Definition rest_of (d : ty) (n : nat) : ty := TOpt (TTuple [d; TOpt (TBox (TNamed n))]).
Definition nested_decl (t d : ty) (n : nat) : decl := DStruct [(t, None); (rest_of d n, None)].
(** The trees of such a struct, with their elements and delimiters. *)
Inductive nested : tree → list tree → list tree → Prop :=
| nested_one x sp : nested (TrSeq [x; TrOpt sp None]) [x] []
| nested_end x sp d sp' : nested (TrSeq [x; TrOpt sp (Some (TrSeq [d; TrOpt sp' None]))]) [x] [d]
| nested_more x sp d sp' y xs ds : nested y xs ds →
    nested (TrSeq [x; TrOpt sp (Some (TrSeq [d; TrOpt sp' (Some y)]))]) (x :: xs) (d :: ds).
