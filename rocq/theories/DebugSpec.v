(** Specification vocabulary for messages. *)
From Coq Require Import String Ascii Sorting.Sorted.
From stdpp Require Import prelude list strings.
From Verif Require Import LexModel SynSetModel TableModel TypeModel CfgSpec.
Local Open Scope nat_scope.

(** [x] is the text of [src] between the two ends of [sp]. *)
Definition spanned (sp : span) (src x : string) : Prop :=
  String.length x = sp_hi sp - sp_lo sp ∧
  ∀ i, i < sp_hi sp - sp_lo sp → String.get i x = String.get (sp_lo sp + i) src.

(** [items] are the members of [set] as printed: sorted, without repetition. *)
Definition quoted (s : string) : string := String.append """" (String.append s """").
Definition prints (ty_name : nat → string) (set : tset) (items : list string) : Prop :=
  StronglySorted (λ x y, String.compare x y = Lt) items ∧
  ∀ x, x ∈ items ↔
    (x = "<empty>"%string ∧ ts_contains set None = true) ∨
    (∃ ty lit, x = quoted lit ∧ ts_contains set (Some (ty, lit)) = true ∧
               ¬ ∀ y, ts_contains set (Some (ty, y)) = true) ∨
    (∃ ty, x = ty_name ty ∧ ∀ y, ts_contains set (Some (ty, y)) = true).

(** How an item of a list of conflicting terminals is printed, and the printed list of the items
    with [P]: sorted, without repetition. *)
Definition printed (ty_name : nat → string) (r : repr) : string :=
  match r with REmpty => "<empty>"%string | RLit s => quoted s | RTy ty => ty_name ty end.
Definition listing (ty_name : nat → string) (P : repr → Prop) (items : list string) : Prop :=
  StronglySorted (λ x y, String.compare x y = Lt) items ∧ ∀ x, x ∈ items ↔ ∃ r, P r ∧ x = printed ty_name r.
(** What two sets of tokens have in common: a token type if both have all of its texts, else
    a literal text. *)
Definition common (P Q : tok → Prop) (r : repr) : Prop :=
  match r with
  | REmpty => False
  | RLit x => ∃ ty, P (ty, x) ∧ Q (ty, x) ∧ ¬ ((∀ s, P (ty, s)) ∧ ∀ s, Q (ty, s))
  | RTy ty => (∀ s, P (ty, s)) ∧ ∀ s, Q (ty, s)
  end.
(** What the code takes to be possible after [l] because parts of [l] are empty ([seq_clash_seen]). *)
Definition carried {K} (G : grammar K) (l : list K) (t : tok) : Prop :=
  ∃ l1 y l2, l = l1 ++ y :: l2 ∧ nullable G y ∧ (Forall (nullable G) l2 ∨ opens G y (fst t)) ∧ starts G y t.

(** The production without [Box]. *)
Fixpoint unbox (p : prod) : prod :=
  match p with
  | PTok _ _ _ | PNamed _ | PEps => p
  | PTuple l => PTuple (map unbox l)
  | POpt q => POpt (unbox q)
  | POneMore q => POneMore (unbox q)
  | PPunct q r => PPunct (unbox q) (unbox r)
  | PBox q => unbox q
  end.
