(** Model of packages/teleparse/src/lex and of the code generated for it by
    packages/macros/src/lexicon.rs.  No proofs in this file. *)
From Coq Require Import String Ascii.
From stdpp Require Import prelude list.
From Coq Require Import NArith ZArith.
Local Open Scope nat_scope.

(** * Lexicon ids and bits *)

(** macros/src/lexicon.rs 48-59: width of the storage chosen for [n] variants;
    [None] = the macro refuses the enum. *)
Definition repr_width (n : nat) : option N :=
  if n =? 0 then None
  else if n <=? 8 then Some 8%N
  else if n <=? 16 then Some 16%N
  else if n <=? 32 then Some 32%N
  else if n <=? 64 then Some 64%N
  else if n <=? 128 then Some 128%N
  else None.

(** Two's complement wrap of an [i32] value. *)
Definition i32_wrap (z : Z) : Z := ((z + 2 ^ 31) mod 2 ^ 32 - 2 ^ 31)%Z.

(** [1 << id] with the literal typed [i32] (the default integer type: the literal's
    type is not constrained by the surrounding [as] cast).  [dbg] = built with
    overflow checks: shifting by >= 32 panics ([None]); otherwise the shift
    amount is masked to 5 bits. macros/src/lexicon.rs 307. *)
Definition shl1_i32 (dbg : bool) (id : nat) : option Z :=
  if dbg && (32 <=? id) then None
  else Some (i32_wrap (Z.shiftl 1 (Z.of_nat (id mod 32)))).

(** [(z : i32) as uW]: reduction modulo 2^W (sign extension for W > 32). *)
Definition cast_bits (w : N) (z : Z) : N := Z.to_N (z mod 2 ^ Z.of_N w).

(** [Lexicon::to_bit], macros/src/lexicon.rs 307. *)
Definition to_bit (dbg : bool) (n id : nat) : option N :=
  w ← repr_width n; z ← shl1_i32 dbg id; Some (cast_bits w z).

(** [Lexicon::next], macros/src/lexicon.rs 310-318. *)
Definition lex_next (n id : nat) : option nat :=
  if id =? n - 1 then None else Some (S id).

(** [Lexicon::first], macros/src/lexicon.rs 308: the first variant, ordinal 0. *)
Definition lex_first : nat := 0.

(** * lex::Set (lex/set.rs 28-69); the stored bits are an [N].
    [None] = the operation panics. *)

(** set.rs 30-32 *)
Definition set_new : N := 0%N.
(** set.rs 43-45 *)
Definition set_insert (dbg : bool) (n : nat) (s : N) (id : nat) : option N :=
  b ← to_bit dbg n id; Some (N.lor s b).
(** set.rs 48-50; [!b] is the complement at the storage width. *)
Definition set_remove (dbg : bool) (n : nat) (s : N) (id : nat) : option N :=
  w ← repr_width n; b ← to_bit dbg n id; Some (N.land s (N.lnot b w)).
(** set.rs 53-55 *)
Definition set_contains (dbg : bool) (n : nat) (s : N) (id : nat) : option bool :=
  b ← to_bit dbg n id; Some (negb (N.eqb (N.land s b) 0)).
(** set.rs 57-59 *)
Definition set_contains_all (s o : N) : bool := N.eqb (N.land s o) o.
(** set.rs 62-64 *)
Definition set_is_empty (s : N) : bool := N.eqb s 0.
(** set.rs 66-68 *)
Definition set_union (s o : N) : N := N.lor s o.

(** [token_set!], set.rs 135-148: bitwise or of the [to_bit]s (empty: [new]). *)
Fixpoint token_set (dbg : bool) (n : nat) (ids : list nat) : option N :=
  match ids with
  | [] => Some set_new
  | id :: r => b ← to_bit dbg n id; s ← token_set dbg n r; Some (N.lor b s)
  end.

(** Programs over sets: every way the public API can build a set from scratch. *)
Inductive set_expr :=
| SNew
| SInsert (e : set_expr) (id : nat)
| SRemove (e : set_expr) (id : nat)
| SUnion (a b : set_expr)
| STokenSet (ids : list nat).

(** Evaluation of such a program with the modelled operations. *)
Fixpoint set_eval (dbg : bool) (n : nat) (e : set_expr) : option N :=
  match e with
  | SNew => Some set_new
  | SInsert e id => s ← set_eval dbg n e; set_insert dbg n s id
  | SRemove e id => s ← set_eval dbg n e; set_remove dbg n s id
  | SUnion a b => s ← set_eval dbg n a; t ← set_eval dbg n b; Some (set_union s t)
  | STokenSet ids => token_set dbg n ids
  end.

(** set.rs 82 *)
Definition iter_START : nat := 129.

(** The skip loop of [Iter::next], set.rs 106-109.  The state is the id last
    stored in [self.cur]; result [(yielded, cur')].  Outer [None]: panic in
    [contains], or out of fuel. *)
Fixpoint iter_skip (dbg : bool) (n : nat) (s : N) (fuel next : nat)
  : option (option nat * nat) :=
  match fuel with
  | O => None
  | S f =>
    c ← set_contains dbg n s next;
    if (c : bool) then Some (Some next, next)
    else match lex_next n next with
         | None => Some (None, next)
         | Some nx => iter_skip dbg n s f nx
         end
  end.

(** [Iter::next], set.rs 98-111.  Fuel [n] covers every variant. *)
Definition iter_next (dbg : bool) (n : nat) (s : N) (cur : nat)
  : option (option nat * nat) :=
  if cur =? iter_START then iter_skip dbg n s n lex_first
  else match lex_next n cur with
       | None => Some (None, cur)
       | Some nx => iter_skip dbg n s n nx
       end.

(** [k] successive calls of [next] on one iterator. *)
Fixpoint iter_calls (dbg : bool) (n : nat) (s : N) (k cur : nat)
  : option (list (option nat)) :=
  match k with
  | O => Some []
  | S k' =>
    '(r, cur') ← iter_next dbg n s cur;
    l ← iter_calls dbg n s k' cur';
    Some (r :: l)
  end.

(** * Span and Token *)

(** lex/span.rs 12-19 *)
Record span := Span { sp_lo : nat; sp_hi : nat }.
(** lex/token.rs 11-16; the type is its id. *)
Record token := Token { t_span : span; t_ty : nat }.

(** [Span::get], lex/span.rs 46-52.  [None] = the slice expression panics.
    Simplification: bytes, no UTF-8 boundary check. *)
Definition span_get (sp : span) (input : string) : option string :=
  if sp_hi sp <=? sp_lo sp then Some EmptyString
  else
    let hi := Nat.min (sp_hi sp) (String.length input) in
    if hi <? sp_lo sp then None
    else Some (substring (sp_lo sp) (hi - sp_lo sp) input).

(** [Token::src], lex/token.rs 35-37 *)
Definition token_src (t : token) (input : string) : option string :=
  span_get (t_span t) input.

(** * Lexer *)

(** What the external tokenizer (logos) reports on each [next]: a recognised token or
    an error, with its span. Not modelled further. *)
Inductive raw := RTok (ty : nat) (sp : span) | RErr (sp : span).
Definition raw_span (r : raw) : span :=
  match r with RTok _ sp => sp | RErr sp => sp end.

(** [LogosLexerWrapper::next], lex/lexer.rs 34-67 with [next_internal] 77-87.
    The initial values of invalid_start/invalid_end (lines 36-37) are never
    observed, because [has_invalid] is false; they are passed as 0. *)
Fixpoint lexer_loop (has_invalid : bool) (inv_start inv_end : nat) (evs : list raw)
  : option span * option token * list raw :=
  let inv := if has_invalid then Some (Span inv_start inv_end) else None in
  match evs with
  | [] => (inv, None, [])
  | RTok ty sp :: r => (inv, Some (Token sp ty), r)
  | RErr sp :: r =>
    lexer_loop true (if has_invalid then inv_start else sp_lo sp) (sp_hi sp) r
  end.
Definition lexer_next (evs : list raw) : option span * option token * list raw :=
  lexer_loop false 0 0 evs.

(** [k] successive calls. *)
Fixpoint lexer_calls (k : nat) (evs : list raw) : list (option span * option token) :=
  match k with
  | O => []
  | S k' => let '(i, t, r) := lexer_next evs in (i, t) :: lexer_calls k' r
  end.

(** * TokenVec *)

(** lex/vec.rs 363-369: a stored token with its semantic types (bits). *)
Record cell := Cell { c_tok : token; c_sem : N }.
Definition c_lo (c : cell) : nat := sp_lo (t_span (c_tok c)).
Definition c_hi (c : cell) : nat := sp_hi (t_span (c_tok c)).
(** [From<Token> for Cell], vec.rs 371-379: no semantics. *)
Definition cell_of (t : token) : cell := Cell t 0%N.

(** [TokenVec::push_unchecked], vec.rs 45-47. *)
Definition vec_push (l : list cell) (t : token) : list cell := l ++ [cell_of t].

(** The loop of [slice::binary_search_by] of the Rust standard library:
    while size > 1 { half = size/2; mid = base+half;
                     base = if cmp(mid) == Greater {base} else {mid}; size -= half }.
    [fuel] = initial size; when it is used up size <= 1 already holds. *)
Fixpoint bs_loop (cmp : nat → comparison) (fuel size base : nat) : nat :=
  match fuel with
  | O => base
  | S f =>
    if size <=? 1 then base
    else
      let half := size / 2 in
      let mid := base + half in
      bs_loop cmp f (size - half)
        (match cmp mid with Gt => base | _ => mid end)
  end.
(** [slice::binary_search_by]: [inl] = Ok, [inr] = Err. *)
Definition binary_search (cmp : nat → comparison) (len : nat) : nat + nat :=
  if len =? 0 then inr 0
  else
    let base := bs_loop cmp len len 0 in
    match cmp base with
    | Eq => inl base
    | Lt => inr (S base)
    | Gt => inr base
    end.

(** [search_lo], vec.rs 343-345; out of range indices cannot be asked for. *)
Definition search_lo (l : list cell) (lo : nat) : nat + nat :=
  binary_search (λ i, match l !! i with Some c => Nat.compare (c_lo c) lo | None => Gt end)
    (length l).
(** [search_hi], vec.rs 349-351 *)
Definition search_hi (l : list cell) (hi : nat) : nat + nat :=
  binary_search (λ i, match l !! i with Some c => Nat.compare (c_hi c) hi | None => Gt end)
    (length l).

(** [overlap_bounds], vec.rs 169-198 *)
Definition overlap_bounds (l : list cell) (sp : span) : option (nat * nat) :=
  let lo := match search_lo l (sp_lo sp) with
            | inl i => i
            | inr i =>
              if (0 <? i) &&
                 match l !! (i - 1) with Some c => sp_lo sp <? c_hi c | None => false end
              then i - 1 else i
            end in
  let hi := match search_hi l (sp_hi sp) with
            | inl i => i + 1
            | inr i =>
              if match l !! i with Some c => c_lo c <? sp_hi sp | None => false end
              then i + 1 else i
            end in
  if lo <? hi then Some (lo, hi) else None.

(** [inside_bounds], vec.rs 208-223 *)
Definition inside_bounds (l : list cell) (sp : span) : option (nat * nat) :=
  let lo := match search_lo l (sp_lo sp) with inl i => i | inr i => i end in
  let hi := match search_hi l (sp_hi sp) with inl i => i + 1 | inr i => i end in
  if lo <? hi then Some (lo, hi) else None.

(** [&self.0[lo..hi]] *)
Definition slice {A} (l : list A) (lo hi : nat) : list A := take (hi - lo) (drop lo l).
Definition slice_opt {A} (l : list A) (b : option (nat * nat)) : list A :=
  match b with Some (lo, hi) => slice l lo hi | None => [] end.

(** [overlap], vec.rs 129-134; [inside], vec.rs 148-153 *)
Definition overlap (l : list cell) (sp : span) : list cell := slice_opt l (overlap_bounds l sp).
Definition inside (l : list cell) (sp : span) : list cell := slice_opt l (inside_bounds l sp).

(** [at_span], vec.rs 112-119 *)
Definition at_span (l : list cell) (sp : span) : option cell :=
  '(lo, hi) ← inside_bounds l sp;
  if lo =? hi - 1 then l !! lo else None.

(** [apply_semantic] on a slice, vec.rs 226-230 *)
Definition cell_apply (sem : N) (c : cell) : cell := Cell (c_tok c) (N.lor (c_sem c) sem).
(** [tokens.inside_mut(span).apply_semantic(sem)], parser_impl.rs 248-252 *)
Definition vec_apply_semantic (l : list cell) (sp : span) (sem : N) : list cell :=
  match inside_bounds l sp with
  | None => l
  | Some (lo, hi) =>
    take lo l ++ map (cell_apply sem) (slice l lo hi) ++ drop hi l
  end.

(** The loop of [ends_at_matches_bounds], vec.rs 275-278 *)
Fixpoint walk_down (p : cell → bool) (l : list cell) (lo : nat) : nat :=
  match lo with
  | O => O
  | S k => if match l !! k with Some c => p c | None => false end
           then walk_down p l k else lo
  end.
(** vec.rs 266-284 *)
Definition ends_at_matches_bounds (p : cell → bool) (l : list cell) (pos : nat)
  : option (nat * nat) :=
  match search_hi l pos with
  | inr _ => None
  | inl i =>
    let hi := i + 1 in
    let lo := walk_down p l hi in
    if lo <? hi then Some (lo, hi) else None
  end.

(** The loop of [begins_at_matches_bounds], vec.rs 331-333; [rest] = tokens from [hi] on. *)
Fixpoint walk_up (p : cell → bool) (rest : list cell) (hi : nat) : nat :=
  match rest with
  | [] => hi
  | c :: r => if p c then walk_up p r (S hi) else hi
  end.
(** vec.rs 320-339 *)
Definition begins_at_matches_bounds (p : cell → bool) (l : list cell) (pos : nat)
  : option (nat * nat) :=
  match search_lo l pos with
  | inr _ => None
  | inl lo =>
    let hi := walk_up p (drop lo l) lo in
    if lo <? hi then Some (lo, hi) else None
  end.

(** * lex::Map (lex/map.rs): the array [T; count] (macros/src/lexicon.rs 303) indexed by id.
    [None] = panic (index out of bounds). *)
(** [Map::new] (map.rs 11-13): [d] is [T::default()]. *)
Definition map_new {A} (n : nat) (d : A) : list A := replicate n d.
(** [get], map.rs 45-47 *)
Definition map_get {A} (m : list A) (id : nat) : option A := m !! id.
(** assignment through [get_mut], map.rs 51-53 *)
Definition map_set {A} (m : list A) (id : nat) (a : A) : option (list A) :=
  if id <? length m then Some (<[id := a]> m) else None.
(** [iter_zip], map.rs 66-70 *)
Definition map_iter_zip {A} (m : list A) : list (nat * A) := zip (seq 0 (length m)) m.
(** assigning [f id x] to every item given out by [iter_zip_mut], map.rs 73-77 *)
Definition map_update {A} (f : nat → A → A) (m : list A) : list A := imap f m.
(** [PartialEq::eq], map.rs 37-41: [zip] stops at the shorter of the two. *)
Definition map_eqb {A} (eqb : A → A → bool) (m1 m2 : list A) : bool :=
  forallb (λ p, eqb p.1 p.2) (zip m1 m2).
