(** Theorems about the derive macros [ToSpan] and [Node] (C77-C80). *)
From Coq Require Import String.
From stdpp Require Import prelude list strings.
From Verif Require Import LexModel DeriveModel DeriveSpec DeriveFacts.
Local Open Scope nat_scope.

(** ** C77: [derive(ToSpan)] delegates to the first field *)
Theorem C77_works : ∀ d, names_ok d → has_first d → ∃ lo hi, derive_to_span d = inr (lo, hi) ∧
  compiles d lo = true ∧ compiles d hi = true ∧
  ∀ A (call : meth → A → nat) v, value_of d v → ∃ a, head (dv_fields v) = Some a ∧
    exec call d lo v = Some (call MLo a) ∧ exec call d hi v = Some (call MHi a).
Proof. exact to_span_works. Qed.
Print Assumptions C77_works.
Theorem C77_only : ∀ d lo hi, names_ok d → derive_to_span d = inr (lo, hi) → compiles d lo = true → has_first d.
Proof. exact to_span_only. Qed.
Print Assumptions C77_only.

(** [enum E { A(Span, Span), B { x: Span, y: Span } }] *)
Definition ex_enum : ddata :=
  let t := DtPath [("Span"%string, NoArgs)] in
  DdEnum [("A"%string, DfUnnamed [DField "" t; DField "" t]); ("B"%string, DfNamed [DField "x" t; DField "y" t])].
Example C77_ex : names_ok ex_enum ∧ has_first ex_enum ∧
  let v := DVal 1 [Span 3 5; Span 7 9] in
  value_of ex_enum v ∧
  match derive_to_span ex_enum with
  | inr (lo, hi) =>
      let call m sp := match m with MLo => sp_lo sp | MHi => sp_hi sp end in
      exec call ex_enum lo v = Some 3 ∧ exec call ex_enum hi v = Some 5
  | inl _ => False
  end.
Proof.
  split; [vm_compute; repeat constructor; set_solver|]. split; [split; [done|]|].
  - intros fs Hfs. cbn in Hfs. repeat (apply elem_of_cons in Hfs as [->|Hfs]; [done|]). by apply elem_of_nil in Hfs.
  - split; [by eexists|done].
Qed.

(** ** C78: what [derive(ToSpan)] accepts compiles *)
(** Not so for an empty tuple struct, an empty tuple variant and an enum without variants. *)
Theorem C78_refuted : ∃ d1 d2 d3,
  d1 = DdStruct (DfUnnamed []) ∧ d2 = DdEnum [("A"%string, DfUnnamed [])] ∧ d3 = DdEnum [] ∧
  ∀ d, d ∈ [d1; d2; d3] → ∃ lo hi, derive_to_span d = inr (lo, hi) ∧ compiles d lo = false ∧ compiles d hi = false.
Proof.
  eexists _, _, _. split_and!; [done..|]. intros d Hd.
  repeat (apply elem_of_cons in Hd as [->|Hd]; [by eexists _, _|]). by apply elem_of_nil in Hd.
Qed.
Print Assumptions C78_refuted.
(** All other items that have no first field are refused with a message. *)
Theorem C78_partial : ∀ d, ¬ has_first d →
  (∃ e, derive_to_span d = inl e) ∨ d = DdStruct (DfUnnamed []) ∨ d = DdEnum [] ∨
  (∃ vs, d = DdEnum vs ∧ ∃ x, (x, DfUnnamed []) ∈ vs).
Proof. exact to_span_refuses. Qed.
Print Assumptions C78_partial.
Example C78_ex : ¬ has_first (DdStruct DfUnit) ∧ derive_to_span (DdStruct DfUnit) = inl YEmptyField.
Proof. split; [|done]. intros [_ H]. by apply (H DfUnit); [left|]. Qed.

(** ** C79: [derive(Node)] converts from and to its node *)
(** Tuple structs: the first field is the node, the others get their default values, and the
    inner value is that of the node. *)
Theorem C79_partial : ∀ f l args, generic (df_ty f) args → ∃ c, derive_node (DdStruct (DfUnnamed (f :: l))) = inr c ∧
  nc_target c = args ∧
  (∀ A (dflt : nat → A) node, ∃ xs, node_from dflt c node = Some (node :: xs) ∧ length xs = length l ∧
     ∀ i x, xs !! i = Some x → x = dflt (S i)) ∧
  (∀ A V (value : A → V) a xs, length xs = length l → node_get value (DfUnnamed (f :: l)) c (a :: xs) = Some (value a)).
Proof. exact node_works. Qed.
Print Assumptions C79_partial.
(** What else is accepted: structs with named fields, for which no conversion is ever compiled. *)
Theorem C79_refuted : ∀ f l args, generic (df_ty f) args → ∃ c, derive_node (DdStruct (DfNamed (f :: l))) = inr c ∧
  ∀ A (dflt : nat → A) node, node_from dflt c node = None.
Proof. exact node_named. Qed.
Print Assumptions C79_refuted.
Theorem C79_only : ∀ d c, derive_node d = inr c → ∃ f l args, generic (df_ty f) args ∧
  (d = DdStruct (DfUnnamed (f :: l)) ∨ d = DdStruct (DfNamed (f :: l))).
Proof. exact node_only. Qed.
Print Assumptions C79_only.
(** [struct Plus<V, T>(Node<V>, PhantomData<T>)], iter.rs 25-26 *)
Example C79_ex :
  let f := DField "" (DtPath [("Node"%string, Angle ["V"%string])]) in
  let g := DField "" (DtPath [("PhantomData"%string, Angle ["T"%string])]) in
  generic (df_ty f) ["V"%string] ∧
  derive_node (DdStruct (DfUnnamed [f; g])) = inr (NodeCode (FbTuple 1) "0" ["V"%string]) ∧
  node_from (λ i, i * 100) (NodeCode (FbTuple 1) "0" ["V"%string]) 7 = Some [7; 100].
Proof. split_and!; [|done|done]. by exists [], "Node"%string. Qed.

(** ** C80: after macro expansion the item is defined once *)
(** So when the derive macro accepts the item. *)
Theorem C80_partial : ∀ d,
  (∀ c, derive_to_span d = inr c → definitions (with_derive d (from_result_keep_input d (derive_to_span d))) = 1) ∧
  (∀ c, derive_node d = inr c → definitions (with_derive d (from_result_keep_input d (derive_node d))) = 1).
Proof. exact derive_once. Qed.
Print Assumptions C80_partial.
(** A derive macro that refuses its item emits it again, so it is defined twice. *)
Theorem C80_refuted : ∀ d,
  (∀ e, derive_to_span d = inl e → definitions (with_derive d (from_result_keep_input d (derive_to_span d))) = 2) ∧
  (∀ e, derive_node d = inl e → definitions (with_derive d (from_result_keep_input d (derive_node d))) = 2).
Proof. exact derive_twice. Qed.
Print Assumptions C80_refuted.
Example C80_ex : derive_to_span (DdStruct DfUnit) = inl YEmptyField ∧ derive_node ex_enum = inl YNotStruct ∧
  ∃ c, derive_to_span ex_enum = inr c.
Proof. split_and!; [done|done|by eexists]. Qed.
