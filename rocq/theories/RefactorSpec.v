(** Specification of types that differ only in names, boxes and in the use of tuples for structs. *)
From Coq Require Import String NArith.
From stdpp Require Import prelude list strings relations.
From Verif Require Import LexModel SynSetModel TypeModel ProduceModel ParseSpec ExtendSpec.
Local Open Scope nat_scope.

(** How a type is built, without names, boxes and annotations. *)
Inductive form :=
| FTok (y : nat) (lit : option string)
| FSeq (ts : list ty)
| FAlt (ts : list ty)
| FOpt (t : ty) | FExists (t : ty) | FQuote (t : ty) | FParse (t : ty)
| FPlus (t : ty) | FStar (t : ty) | FLoop (t : ty)
| FSplit (t d : ty) | FPunct (t d : ty) | FRecover (t r : ty)
| FNone.
Definition form_of (env : denv) (t : ty) : form :=
  match unbox t with
  | TTok _ y lit => FTok y lit
  | TNamed n => match env !! n with Some (DStruct fs) => FSeq (map fst fs) | Some (DEnum vs) => FAlt (map fst vs) | None => FNone end
  | TTuple ts => FSeq ts
  | TBox _ => FNone
  | TOpt t => FOpt t | TExists t => FExists t | TQuote t => FQuote t | TParse t => FParse t
  | TPlus t => FPlus t | TStar t => FStar t | TLoop t => FLoop t
  | TSplit t d => FSplit t d | TPunct t d => FPunct t d | TRecover t r => FRecover t r
  end.
(** Forms that are the same but for their components, which are related. *)
Inductive same_form (R : ty → ty → Prop) : form → form → Prop :=
| sf_tok y lit : same_form R (FTok y lit) (FTok y lit)
| sf_seq ts ts' : Forall2 R ts ts' → same_form R (FSeq ts) (FSeq ts')
| sf_alt ts ts' : Forall2 R ts ts' → same_form R (FAlt ts) (FAlt ts')
| sf_opt t t' : R t t' → same_form R (FOpt t) (FOpt t')
| sf_exists t t' : R t t' → same_form R (FExists t) (FExists t')
| sf_quote t t' : R t t' → same_form R (FQuote t) (FQuote t')
| sf_parse t t' : R t t' → same_form R (FParse t) (FParse t')
| sf_plus t t' : R t t' → same_form R (FPlus t) (FPlus t')
| sf_star t t' : R t t' → same_form R (FStar t) (FStar t')
| sf_loop t t' : R t t' → same_form R (FLoop t) (FLoop t')
| sf_split t d t' d' : R t t' → R d d' → same_form R (FSplit t d) (FSplit t' d')
| sf_punct t d t' d' : R t t' → R d d' → same_form R (FPunct t d) (FPunct t' d')
| sf_recover t r t' r' : R t t' → R r r' → same_form R (FRecover t r) (FRecover t' r')
| sf_none : same_form R FNone FNone.
(** [t] of [env] and [t'] of [env'] unfold to the same: some relation connects them and is kept by unfolding. *)
Definition alike (env env' : denv) (t t' : ty) : Prop :=
  ∃ R : ty → ty → Prop, R t t' ∧ ∀ u u', R u u' → same_form R (form_of env u) (form_of env' u').
