(** Specification of types as abbreviations. *)
From stdpp Require Import prelude list.
From Verif Require Import TypeModel StreamModel ProduceModel.

(** [(T, Vec<(D, T)>)] *)
Definition spelled_out (t d : ty) : ty := TTuple [t; TStar (TTuple [d; t])].
(** The trees of the elements of the [Vec] for delimiters and elements. *)
Definition pairs (ds xs : list tree) : list tree := zip_with (λ d x, TrSeq [d; x]) ds xs.

(** Types written with tuples, boxes, options, [Vec]s, [Nev]s and [Punct] only. *)
Fixpoint plainly (t : ty) : ty :=
  match t with
  | TTok _ _ _ | TNamed _ => t
  | TTuple l => TTuple (map plainly l)
  | TBox t => TBox (plainly t)
  | TOpt t | TExists t => TOpt (plainly t)
  | TQuote t | TParse t => plainly t
  | TPlus t | TLoop t => TPlus (plainly t)
  | TStar t => TStar (plainly t)
  | TSplit t d => spelled_out (plainly t) (plainly d)
  | TPunct t d => TPunct (plainly t) (plainly d)
  | TRecover t r => TTuple [plainly t; plainly r]
  end.
(** Declarations written so, without annotations. *)
Definition plainly_decl (d : decl) : decl :=
  match d with
  | DStruct l => DStruct (map (λ f, (plainly f.1, None)) l)
  | DEnum l => DEnum (map (λ f, (plainly f.1, None)) l)
  end.
