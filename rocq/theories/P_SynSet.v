(** Property theorems about the terminal sets (C15).  [ts_contains s (Some t)]:
    the set contains the concrete token [t] = (type, text); [ts_contains s None]: it
    contains the empty symbol (end of input in FOLLOW sets). *)
From Coq Require Import String.
From stdpp Require Import prelude list gmap strings.
From Verif Require Import SynSetModel SynSetFacts.
Local Open Scope nat_scope.

(** ** C15: what the operations denote *)
Theorem C15_new : ∀ t, ts_contains ts_new t = false.
Proof. exact ts_contains_new. Qed.
Print Assumptions C15_new.

Theorem C15_insert : ∀ s ty lit t,
  ts_contains (fst (ts_insert s ty lit)) t =
    match t with
    | Some (ty', src) => bool_decide (ty' = ty ∧ (lit = None ∨ lit = Some src)) || ts_contains s t
    | None => ts_contains s t
    end.
Proof. exact ts_contains_insert. Qed.
Print Assumptions C15_insert.

(** The set of one terminal, as carried by the errors of [parse_token] and [parse_token_lit]. *)
Theorem C15_one : ∀ ty lit t, ts_contains (fs_one ty lit) t = true ↔
  ∃ src, t = Some (ty, src) ∧ (lit = None ∨ lit = Some src).
Proof. exact fs_one_exact. Qed.
Print Assumptions C15_one.

Theorem C15_insert_changed : ∀ s ty lit,
  snd (ts_insert s ty lit) = true ↔
  ∃ src, (lit = None ∨ lit = Some src) ∧ ts_contains s (Some (ty, src)) = false.
Proof. exact ts_insert_changed. Qed.
Print Assumptions C15_insert_changed.

Theorem C15_insert_e : ∀ s t,
  ts_contains (fst (ts_insert_e s)) t = bool_decide (t = None) || ts_contains s t.
Proof. exact ts_contains_insert_e. Qed.
Print Assumptions C15_insert_e.

Theorem C15_insert_e_changed : ∀ s,
  snd (ts_insert_e s) = true ↔ ts_contains s None = false.
Proof. exact ts_insert_e_changed. Qed.
Print Assumptions C15_insert_e_changed.

Theorem C15_remove_e : ∀ s t,
  ts_contains (fst (ts_remove_e s)) t = ts_contains s t && negb (bool_decide (t = None)).
Proof. exact ts_remove_e_contains. Qed.
Print Assumptions C15_remove_e.

Theorem C15_union : ∀ s o inc t,
  ts_contains (fst (ts_union s o inc)) t =
    ts_contains s t || (match t with None => inc | _ => true end && ts_contains o t).
Proof. exact ts_contains_union. Qed.
Print Assumptions C15_union.

Theorem C15_union_changed : ∀ s o inc,
  snd (ts_union s o inc) = true ↔
  ∃ t, (t = None → inc = true) ∧ ts_contains o t = true ∧ ts_contains s t = false.
Proof. exact ts_union_changed. Qed.
Print Assumptions C15_union_changed.

Theorem C15_intersects : ∀ s o inc,
  ts_intersects s o inc = true ↔
  ∃ t, (t = None → inc = true) ∧ ts_contains s t = true ∧ ts_contains o t = true.
Proof. exact ts_intersects_spec. Qed.
Print Assumptions C15_intersects.

(** The items listed: the empty symbol when common (and asked for), a type when every text
    of it is common, and otherwise exactly the common texts. *)
Theorem C15_intersection_repr : ∀ s o inc r,
  r ∈ ts_intersection_repr s o inc ↔
  match r with
  | REmpty => inc = true ∧ ts_contains s None = true ∧ ts_contains o None = true
  | RLit x => ∃ ty, ts_contains s (Some (ty, x)) = true ∧ ts_contains o (Some (ty, x)) = true ∧
                    ¬ ((∀ y, ts_contains s (Some (ty, y)) = true) ∧
                       (∀ y, ts_contains o (Some (ty, y)) = true))
  | RTy ty => (∀ y, ts_contains s (Some (ty, y)) = true) ∧
              (∀ y, ts_contains o (Some (ty, y)) = true)
  end.
Proof. exact ts_intersection_repr_spec. Qed.
Print Assumptions C15_intersection_repr.

(** The items listed for one set: a type stands for all its texts. *)
Theorem C15_to_repr : ∀ s r, r ∈ ts_to_repr s ↔
  match r with
  | REmpty => ts_contains s None = true
  | RLit x => ∃ ty, ts_contains s (Some (ty, x)) = true ∧ ¬ (∀ y, ts_contains s (Some (ty, y)) = true)
  | RTy ty => ∀ y, ts_contains s (Some (ty, y)) = true
  end.
Proof. exact ts_to_repr_spec. Qed.
Print Assumptions C15_to_repr.

(** What [clear] leaves: every type of which all texts were present. *)
Theorem C15_clear_exact : ∀ s t,
  ts_contains (ts_clear s) t = true ↔
  ∃ ty src, t = Some (ty, src) ∧ ∀ src', ts_contains s (Some (ty, src')) = true.
Proof. exact ts_contains_clear. Qed.
Print Assumptions C15_clear_exact.

(** Finding: [clear] does not empty the set. *)
Theorem C15_clear_refuted : ∃ s t,
  s = fst (ts_insert ts_new 0 None) ∧ ts_contains (ts_clear s) (Some t) = true.
Proof. exact (ex_intro _ _ (ex_intro _ (0, "x"%string) (conj eq_refl eq_refl))). Qed.
Print Assumptions C15_clear_refuted.

Example C15_example :
  let s := fst (ts_insert (fst (ts_insert ts_new 1 (Some "a"%string))) 0 None) in
  let o := fst (ts_insert (fst (ts_insert_e ts_new)) 1 (Some "b"%string)) in
  ts_intersects s o true = false ∧
  ts_contains (fst (ts_union s o false)) (Some (1, "b"%string)) = true ∧
  ts_contains (fst (ts_union s o false)) None = false ∧
  snd (ts_union s o false) = true ∧ snd (ts_union s s true) = false ∧
  ts_intersection_repr s s true = [RTy 0; RLit "a"%string] ∧
  ts_to_repr o = [REmpty; RLit "b"%string].
Proof. vm_compute. auto 10. Qed.
