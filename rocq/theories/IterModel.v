(** [tp::Plus<V, T>] and [tp::Star<V, T>] with any container [V]: tp_impl/iter.rs.  ProduceModel takes [V]
    to be a list.  No proofs in this file. *)
From stdpp Require Import prelude list.
From Verif Require Import LexModel SynSetModel StreamModel TypeModel ProduceModel.
Local Open Scope nat_scope.

(** [FromIterator::from_iter] of a container: a program that may ask the iterator for the next
    element any number of times.  [ct_step s]: finished with a value, or ask and go on with the answer.
    The container can do nothing else with the iterator. *)
Record container (V : Type) := Container {
  ct_state : Type;
  ct_init : ct_state;
  ct_step : ct_state → V + (option tree → ct_state) }.
Arguments ct_state {V} c.
Arguments ct_init {V} c.
Arguments ct_step {V} c s.

(** [ProduceIter::next], iter.rs 186-206, with the [errors] and [hi] behind its references *)
Definition iter_next (p : M (res tree)) (first : tset) (errs : list perr) (hi : nat)
  : M (option tree * list perr * nat) :=
  tk ← peek_src;
  match tk with
  | None => mret (None, errs, hi)
  | Some x =>
    if ts_contains first (Some x) then
      r ← p;
      match unres r with
      | (Some t, e) => mret (Some t, errs ++ e, tree_hi t)
      | (None, e) => mret (None, errs ++ e, hi)
      end
    else mret (None, errs, hi)
  end.
(** [std::iter::once(first_elem).chain(produce_iter).collect()], iter.rs 57: [pending] is what [once]
    still holds; then every call goes to [ProduceIter::next], also after it has answered [None]. *)
Fixpoint collect {V} (c : container V) (n : nat) (p : M (res tree)) (first : tset) (st : ct_state c)
    (pending : option tree) (errs : list perr) (hi : nat) : M (V * list perr * nat) :=
  match n with
  | O => Fuel
  | S n =>
    match ct_step c st with
    | inl v => mret (v, errs, hi)
    | inr k =>
      match pending with
      | Some t => collect c n p first (k (Some t)) None errs hi
      | None =>
        '(o, errs, hi) ← iter_next p first errs hi;
        collect c n p first (k o) None errs hi
      end
    end
  end.
(** [Plus::produce], iter.rs 36-59 *)
Definition plus_into {V} (c : container V) (n : nat) (p : M (res tree)) (first : tset) : M (res (span * V)) :=
  r ← p;
  match unres r with
  | (Some t, e) =>
    '(v, errs, hi) ← collect c n p first (ct_init c) (Some t) e (tree_hi t);
    mret (res_into (Span (tree_lo t) hi, v) errs)
  | (None, e) => mret (RPanic e)
  end.
(** [Star::produce], iter.rs 71-79; [dflt] is [V::default()] *)
Definition star_into {V} (c : container V) (dflt : V) (n : nat) (p : M (res tree)) (first : tset) : M (res (span * V)) :=
  r ← produce_option (plus_into c n p first) fst first;
  mret (res_map (λ '(sp, o), match o with Some (sp', v) => (sp', v) | None => (sp, dflt) end) r).

(** [Vec<T>] (and the other collections of the standard library, up to what they keep of the
    elements): ask until there are no more. *)
Definition vec_step (s : list tree * bool) : list tree + (option tree → list tree * bool) :=
  if snd s then inl (fst s)
  else inr (λ o, match o with Some t => (fst s ++ [t], false) | None => (fst s, true) end).
Definition vec_container : container (list tree) := Container (list tree) (list tree * bool) ([], false) vec_step.
(** A container that takes one element (such as a newtype of [Option<T>] filled with [iter.next()]). *)
Definition first_step (s : option (option tree)) : option tree + (option tree → option (option tree)) :=
  match s with Some o => inl o | None => inr Some end.
Definition first_container : container (option tree) := Container (option tree) (option (option tree)) None first_step.
(** A container that asks twice more after the end, as the iterator's contract allows. *)
Definition eager_step (s : list tree * nat) : list tree + (option tree → list tree * nat) :=
  if snd s =? 2 then inl (fst s)
  else inr (λ o, match o with Some t => (fst s ++ [t], snd s) | None => (fst s, S (snd s)) end).
Definition eager_container : container (list tree) := Container (list tree) (list tree * nat) ([], 0) eager_step.
(** Counts. *)
Definition count_step (s : nat * bool) : nat + (option tree → nat * bool) :=
  if snd s then inl (fst s) else inr (λ o, match o with Some _ => (S (fst s), false) | None => (fst s, true) end).
Definition count_container : container nat := Container nat (nat * bool) (0, false) count_step.
