(** Model of equality and debug output of sets and tables: syntax/term_set.rs, lit_set.rs, lex/map.rs, syntax/jump.rs.
    No proofs in this file. *)
From Coq Require Import String.
From stdpp Require Import prelude list gmap strings.
From Verif Require Import SynSetModel TableModel.
Local Open Scope nat_scope.

(** [LitSet: PartialEq] (derived), lit_set.rs 7-16 *)
Definition lit_eqb (a b : litset) : bool :=
  match a, b with
  | LMatch s, LMatch t => bool_decide (s = t)
  | LAny, LAny => true
  | _, _ => false
  end.
(** [Map: PartialEq], lex/map.rs 38-42.  The Rust arrays have the same length; here missing entries are the default. *)
Fixpoint lm_eqb (m o : list litset) : bool :=
  match m with
  | [] => forallb (lit_eqb lit_new) o
  | x :: m' =>
    match o with
    | [] => lit_eqb x lit_new && lm_eqb m' []
    | y :: o' => lit_eqb x y && lm_eqb m' o'
    end
  end.
(** [TerminalSet: PartialEq] (derived), term_set.rs 16-24; [FirstSet], [FollowSet] derive theirs from it. *)
Definition ts_eqb (s o : tset) : bool := lm_eqb (ts_map s) (ts_map o) && eqb (ts_e s) (ts_e o).

(** What [Debug] prints for one member, term_set.rs 54-75: "<empty>", [Type:*], or [Type:"literal"].
    Simplification: constructors instead of text. *)
Inductive pentry := EnEmpty | EnAll (ty : nat) | EnLit (ty : nat) (lit : string).
(** The loop of [Debug for TerminalSet], term_set.rs 32-43, from token type [ty] on. *)
Fixpoint lm_entries (ty : nat) (m : list litset) : list pentry :=
  match m with
  | [] => []
  | l :: m' => match lit_iter l with None => [EnAll ty] | Some ls => map (EnLit ty) ls end ++ lm_entries (S ty) m'
  end.
(** [Debug for TerminalSet], term_set.rs 26-46 *)
Definition ts_entries (s : tset) : list pentry := (if ts_e s then [EnEmpty] else []) ++ lm_entries 0 (ts_map s).

(** [map.entry(id).or_default()] and a change, jump.rs 95, 99, 102 *)
Definition jr_entry (r : list (nat * tset)) (i : nat) (f : tset → tset) : list (nat * tset) :=
  bt_insert r i (f (default ts_new (bt_get r i))).
(** One token type, jump.rs 98-103 *)
Definition jr_type (ty : nat) (e : option nat * gmap string nat) (r : list (nat * tset)) : list (nat * tset) :=
  let r1 := match fst e with Some i => jr_entry r i (λ s, fst (ts_insert s ty None)) | None => r end in
  foldl (λ r xi, jr_entry r (snd xi) (λ s, fst (ts_insert s ty (Some (fst xi))))) r1 (map_to_list (snd e)).
(** jump.rs 97-104, from token type [ty] on *)
Fixpoint jr_types (ty : nat) (m : list (option nat * gmap string nat)) (r : list (nat * tset)) : list (nat * tset) :=
  match m with
  | [] => r
  | e :: m' => jr_types (S ty) m' (jr_type ty e r)
  end.
(** [Debug for JumpTable], jump.rs 90-107: the map from jump target to terminals that is printed.
    Simplification: the entries in the order of insertion, not of their keys. *)
Definition jt_reverse (j : jtable) : list (nat * tset) :=
  jr_types 0 (jt_map j) (match jt_eps j with Some i => jr_entry [] i (λ s, fst (ts_insert_e s)) | None => [] end).
