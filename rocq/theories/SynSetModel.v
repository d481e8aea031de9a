(** Model of packages/teleparse/src/syntax/{lit_set,term_set,first/set,follow/set}.rs.
    No proofs in this file. *)
From Coq Require Import String Ascii.
From stdpp Require Import prelude list gmap strings.
Local Open Scope nat_scope.

(** A concrete token as seen by the syntax: type id and source text
    ([TokenSrc], lex/token.rs 54-58). *)
Definition tok : Type := nat * string.

(** * LitSet (lit_set.rs 10-16).  BTreeSet<&str> is a finite set of strings. *)
Inductive litset := LMatch (s : gset string) | LAny.

(** [LitSet::default], lit_set.rs 12 *)
Definition lit_new : litset := LMatch ∅.
(** lit_set.rs 49-54: [Any] is left as it is. *)
Definition lit_clear (l : litset) : litset :=
  match l with LMatch _ => LMatch ∅ | LAny => LAny end.
(** lit_set.rs 58-63 *)
Definition lit_is_empty (l : litset) : bool :=
  match l with LMatch s => bool_decide (s = ∅) | LAny => false end.
(** lit_set.rs 69-74; the flag is [BTreeSet::insert]'s "was not present". *)
Definition lit_insert (l : litset) (x : string) : litset * bool :=
  match l with
  | LMatch s => (LMatch ({[x]} ∪ s), negb (bool_decide (x ∈ s)))
  | LAny => (LAny, false)
  end.
(** lit_set.rs 78-83 *)
Definition lit_contains (l : litset) (x : string) : bool :=
  match l with LMatch s => bool_decide (x ∈ s) | LAny => true end.
(** lit_set.rs 89-97 *)
Definition lit_union_universe (l : litset) : litset * bool :=
  match l with LMatch _ => (LAny, true) | LAny => (LAny, false) end.
(** lit_set.rs 100-113 *)
Definition lit_union (l o : litset) : litset * bool :=
  match l, o with
  | LMatch s, LMatch t => (LMatch (s ∪ t), negb (size s =? size (s ∪ t)))
  | LAny, _ => (LAny, false)
  | _, _ => (LAny, true)
  end.
(** lit_set.rs 116-123 *)
Definition lit_intersects (l o : litset) : bool :=
  match l, o with
  | LMatch s, LMatch t => negb (bool_decide (s ∩ t = ∅))
  | LAny, s | s, LAny => negb (lit_is_empty s)
  end.
(** lit_set.rs 126-134 *)
Definition lit_intersection (l o : litset) : litset :=
  match l, o with
  | LMatch s, LMatch t => LMatch (s ∩ t)
  | LAny, LAny => LAny
  | LAny, s | s, LAny => s
  end.
(** lit_set.rs 139-144 *)
Definition lit_iter (l : litset) : option (list string) :=
  match l with LMatch s => Some (elements s) | LAny => None end.

(** * TerminalSet (term_set.rs 19-24).  The array [Map<L, LitSet>] indexed by
    token type is a list; entries beyond its end are the default [LMatch ∅]
    (so that no length bookkeeping is needed: the Rust array has one entry per variant). *)
Record tset := TSet { ts_map : list litset; ts_e : bool }.

(** Entry for a token type, map.rs 46-48. *)
Definition lm_get (m : list litset) (ty : nat) : litset := default lit_new (m !! ty).
(** Update of one entry, map.rs 52-54. *)
Fixpoint lm_set (m : list litset) (ty : nat) (v : litset) : list litset :=
  match ty, m with
  | O, [] => [v]
  | O, _ :: r => v :: r
  | S k, [] => lit_new :: lm_set [] k v
  | S k, x :: r => x :: lm_set r k v
  end.

(** [TerminalSet::new] *)
Definition ts_new : tset := TSet [] false.
(** term_set.rs 78-83 *)
Definition ts_clear (s : tset) : tset := TSet (map lit_clear (ts_map s)) false.
(** term_set.rs 88-92 *)
Definition ts_insert_e (s : tset) : tset * bool := (TSet (ts_map s) true, negb (ts_e s)).
(** term_set.rs 98-102 *)
Definition ts_remove_e (s : tset) : tset * bool := (TSet (ts_map s) false, ts_e s).
(** term_set.rs 106-108 *)
Definition ts_contains_e (s : tset) : bool := ts_e s.
(** term_set.rs 111-116 *)
Definition ts_insert (s : tset) (ty : nat) (lit : option string) : tset * bool :=
  let '(v, ch) := match lit with
                  | Some x => lit_insert (lm_get (ts_map s) ty) x
                  | None => lit_union_universe (lm_get (ts_map s) ty)
                  end in
  (TSet (lm_set (ts_map s) ty v) (ts_e s), ch).
(** term_set.rs 119-124 *)
Definition ts_contains (s : tset) (t : option tok) : bool :=
  match t with
  | None => ts_e s
  | Some (ty, src) => lit_contains (lm_get (ts_map s) ty) src
  end.
(** The zip loop of [union], term_set.rs 155-158. *)
Fixpoint lm_union (m o : list litset) : list litset * bool :=
  match m, o with
  | m, [] => (m, false)
  | [], y :: o' =>
    let '(v, c) := lit_union lit_new y in
    let '(r, c') := lm_union [] o' in (v :: r, c || c')
  | x :: m', y :: o' =>
    let '(v, c) := lit_union x y in
    let '(r, c') := lm_union m' o' in (v :: r, c || c')
  end.
(** term_set.rs 144-160 *)
Definition ts_union (s o : tset) (include_e : bool) : tset * bool :=
  let ch := include_e && (negb (ts_e s) && ts_e o) in
  let e := if ch then true else ts_e s in
  let '(m, c) := lm_union (ts_map s) (ts_map o) in
  (TSet m e, ch || c).
(** The zip loop of [intersects], term_set.rs 177-182. *)
Fixpoint lm_intersects (m o : list litset) : bool :=
  match m, o with
  | x :: m', y :: o' => lit_intersects x y || lm_intersects m' o'
  | _, _ => false
  end.
(** term_set.rs 173-183 *)
Definition ts_intersects (s o : tset) (include_e : bool) : bool :=
  (include_e && (ts_e s && ts_e o)) || lm_intersects (ts_map s) (ts_map o).

(** Items of the printable representation, term_set.rs 202-245: ["<empty>"],
    a quoted literal, or the name of a token type.  Simplification: kept as
    constructors instead of formatted strings; a list instead of a BTreeSet. *)
Inductive repr := REmpty | RLit (s : string) | RTy (ty : nat).

(** term_set.rs 207-222, from token type [ty] on. *)
Fixpoint lm_intersection_repr (ty : nat) (m o : list litset) : list repr :=
  match m, o with
  | x :: m', y :: o' =>
    let i := lit_intersection x y in
    (if lit_is_empty i then []
     else match lit_iter i with Some ls => map RLit ls | None => [RTy ty] end)
      ++ lm_intersection_repr (S ty) m' o'
  | _, _ => []
  end.
(** term_set.rs 202-224 *)
Definition ts_intersection_repr (s o : tset) (include_e : bool) : list repr :=
  (if include_e && (ts_e s && ts_e o) then [REmpty] else [])
    ++ lm_intersection_repr 0 (ts_map s) (ts_map o).
(** term_set.rs 231-242 *)
Fixpoint lm_to_repr (ty : nat) (m : list litset) : list repr :=
  match m with
  | [] => []
  | x :: m' =>
    match lit_iter x with Some ls => map RLit ls | None => [RTy ty] end ++ lm_to_repr (S ty) m'
  end.
(** term_set.rs 226-244 *)
Definition ts_to_repr (s : tset) : list repr :=
  (if ts_e s then [REmpty] else []) ++ lm_to_repr 0 (ts_map s).

(** * FirstSet (first/set.rs): wrappers *)
(** first/set.rs 32-36 *)
Definition fs_one (ty : nat) (lit : option string) : tset := fst (ts_insert ts_new ty lit).
(** first/set.rs 73-75, 86-88 *)
Definition fs_union (s o : tset) : tset * bool := ts_union s o true.
Definition fs_union_minus_eps (s o : tset) : tset * bool := ts_union s o false.
(** first/set.rs 92-94, 98-100 *)
Definition fs_intersects (s o : tset) : bool := ts_intersects s o true.
Definition fs_intersects_minus_eps (s o : tset) : bool := ts_intersects s o false.
(** * FollowSet (follow/set.rs 61-80): wrappers; EOF is stored as [e]. *)
Definition fo_union_first (s f : tset) : tset * bool := ts_union s f false.
Definition fo_union_follow (s o : tset) : tset * bool := ts_union s o true.
Definition fo_intersects_first (s f : tset) : bool := ts_intersects s f false.
Definition fo_insert_eof (s : tset) : tset := fst (ts_insert_e s).
