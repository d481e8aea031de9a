(** Model of packages/teleparse/src/parser/{parser_impl,info}.rs: the token stream of a
    [Parser] and the programs that use it.  No proofs in this file. *)
From Coq Require Import String Ascii NArith.
From stdpp Require Import prelude list.
From Verif Require Import LexModel SynSetModel.
Local Open Scope nat_scope.

(** [ErrorKind], syntax/error.rs 45-52.  [Custom] is never built by the library. *)
Inductive ekind :=
| UnexpectedCharacters
| UnexpectedTokens
| Expecting (s : tset)
| UnexpectedEof
| NoAdvance.

(** [Error], syntax/error.rs 11-14 *)
Record perr := PErr { e_span : span; e_kind : ekind }.

(** [syntax::Result], syntax/error.rs 55-64 *)
Inductive res (A : Type) :=
| RSucc (a : A)
| RRec (a : A) (es : list perr)
| RPanic (es : list perr).
Arguments RSucc {A} a.
Arguments RRec {A} a es.
Arguments RPanic {A} es.

(** [From<(T, Vec<Error>)> for Result], syntax/error.rs 66-75 *)
Definition res_into {A} (a : A) (es : list perr) : res A :=
  match es with [] => RSucc a | _ => RRec a es end.
(** [Result::map], syntax/error.rs 77-86 *)
Definition res_map {A B} (f : A → B) (r : res A) : res B :=
  match r with
  | RSucc a => RSucc (f a)
  | RRec a es => RRec (f a) es
  | RPanic es => RPanic es
  end.

(** [Parser] (parser_impl.rs 7-14) with the fields of [Info] (info.rs 5-18) inlined.
    [invalid_tokens] is left out: no code writes to it. The lexer is what the external
    tokenizer will still report. *)
Record pst := Pst {
  p_src : string;
  p_evs : list raw;
  p_peeked : option token;
  p_invalid : list span;
  p_tokens : list cell;
  p_extracted : list token;
  p_errors : list perr }.

(** [Parser::new] 18-24, [Info::new] info.rs 21-30.  [L::lexer] cannot fail for a
    derived lexicon (macros/src/lexicon.rs 327-330). *)
Definition pst_new (src : string) (evs : list raw) : pst := Pst src evs None [] [] [] [].

(** [Info::eof], info.rs 39-41 *)
Definition eof_span (src : string) : span := Span (String.length src) (String.length src).

(** [empty_span] of the consumed tokens, parser_impl.rs 238-246 *)
Definition end_of (toks : list cell) : nat :=
  match last toks with Some c => c_hi c | None => 0 end.

(** Programs over a parser: what a [produce] function (or any user of the stream API)
    can do with [&mut Parser].
    [Fuel]: the bound on recursion or on a loop is used up (not a Rust behaviour).
    [Extend]: [info.errors.extend(..)], parser_impl.rs 78, 82. *)
Inductive M (A : Type) :=
| Ret (a : A)
| Fuel
| Peek (k : option token → M A)
| ToSrc (t : token) (k : tok → M A)
| Consume (k : option token → M A)
| EmptySpan (k : span → M A)
| CurSpan (k : span → M A)
| GetSrc (sp : span) (k : string → M A)
| Apply (sp : span) (sem : N) (k : M A)
| Extend (es : list perr) (k : M A).
Arguments Ret {A} a.
Arguments Fuel {A}.
Arguments Peek {A} k.
Arguments ToSrc {A} t k.
Arguments Consume {A} k.
Arguments EmptySpan {A} k.
Arguments CurSpan {A} k.
Arguments GetSrc {A} sp k.
Arguments Apply {A} sp sem k.
Arguments Extend {A} es k.

Fixpoint bindM {A B} (m : M A) (f : A → M B) : M B :=
  match m with
  | Ret a => f a
  | Fuel => Fuel
  | Peek k => Peek (λ x, bindM (k x) f)
  | ToSrc t k => ToSrc t (λ x, bindM (k x) f)
  | Consume k => Consume (λ x, bindM (k x) f)
  | EmptySpan k => EmptySpan (λ x, bindM (k x) f)
  | CurSpan k => CurSpan (λ x, bindM (k x) f)
  | GetSrc sp k => GetSrc sp (λ x, bindM (k x) f)
  | Apply sp sem k => Apply sp sem (bindM k f)
  | Extend es k => Extend es (bindM k f)
  end.
#[global] Instance M_bind : MBind M := λ A B f m, bindM m f.
#[global] Instance M_ret : MRet M := @Ret.

(** Outcome of a run: bound used up, Rust panic (slice out of range), or finished. *)
Inductive out (A S : Type) := OFuel | OCrash | ODone (a : A) (s : S).
Arguments OFuel {A S}.
Arguments OCrash {A S}.
Arguments ODone {A S} a s.

Section stream.
  (** [Lexicon::should_extract] *)
  Variable extract : nat → bool.

  (** The loop of [try_read_next_token], parser_impl.rs 204-221. *)
  Fixpoint read_loop (fuel : nat) (s : pst) : pst :=
    match fuel with
    | O => s
    | S f =>
      let '(inv, tk, evs) := lexer_next (p_evs s) in
      let s1 :=
        match inv with
        | Some sp =>
          Pst (p_src s) evs (p_peeked s) (p_invalid s ++ [sp]) (p_tokens s) (p_extracted s)
              (p_errors s ++ [PErr sp UnexpectedCharacters])
        | None =>
          Pst (p_src s) evs (p_peeked s) (p_invalid s) (p_tokens s) (p_extracted s) (p_errors s)
        end in
      match tk with
      | Some t =>
        if extract (t_ty t) then
          read_loop f (Pst (p_src s1) (p_evs s1) (p_peeked s1) (p_invalid s1) (p_tokens s1)
                           (p_extracted s1 ++ [t]) (p_errors s1))
        else Pst (p_src s1) (p_evs s1) (Some t) (p_invalid s1) (p_tokens s1)
                 (p_extracted s1) (p_errors s1)
      | None => s1
      end
    end.
  (** [try_read_next_token], parser_impl.rs 201-222.  Every round takes an event, so one
      more round than events is enough. *)
  Definition try_read (s : pst) : pst := read_loop (S (length (p_evs s))) s.

  (** The refill at the start of [peek_token] 194-196 and [consume_token] 180-182. *)
  Definition fill (s : pst) : pst :=
    match p_peeked s with Some _ => s | None => try_read s end.

  (** [consume_token] after the refill, parser_impl.rs 183-189 *)
  Definition take_peeked (s : pst) : option token * pst :=
    match p_peeked s with
    | Some t =>
      (Some t, Pst (p_src s) (p_evs s) None (p_invalid s) (vec_push (p_tokens s) t)
                   (p_extracted s) (p_errors s))
    | None => (None, s)
    end.

  (** Running a program.
      [Peek] = [peek_token] 193-198; [ToSrc] = [Info::to_src] info.rs 31-33;
      [Consume] = [consume_token] 179-190; [EmptySpan] 238-246; [CurSpan] 230-234;
      [GetSrc] = [Info::get_src] info.rs 35-37; [Apply] = [apply_semantic] 248-253. *)
  Fixpoint run {A} (m : M A) (s : pst) : out A pst :=
    match m with
    | Ret a => ODone a s
    | Fuel => OFuel
    | Peek k => let s' := fill s in run (k (p_peeked s')) s'
    | ToSrc t k =>
      match token_src t (p_src s) with
      | Some x => run (k (t_ty t, x)) s
      | None => OCrash
      end
    | Consume k => let '(t, s') := take_peeked (fill s) in run (k t) s'
    | EmptySpan k => run (k (Span (end_of (p_tokens s)) (end_of (p_tokens s)))) s
    | CurSpan k =>
      let s' := fill s in
      run (k (match p_peeked s' with Some t => t_span t | None => eof_span (p_src s') end)) s'
    | GetSrc sp k =>
      match span_get sp (p_src s) with
      | Some x => run (k x) s
      | None => OCrash
      end
    | Apply sp sem k =>
      run k (Pst (p_src s) (p_evs s) (p_peeked s) (p_invalid s)
                 (vec_apply_semantic (p_tokens s) sp sem) (p_extracted s) (p_errors s))
    | Extend es k =>
      run k (Pst (p_src s) (p_evs s) (p_peeked s) (p_invalid s) (p_tokens s)
                 (p_extracted s) (p_errors s ++ es))
    end.

  (** [remaining], parser_impl.rs 224-227: (the refilled state, text from the look-ahead
      on); [None] = slice out of range. *)
  Definition remaining (s : pst) : option string * pst :=
    let s' := fill s in
    let lo := sp_lo (match p_peeked s' with Some t => t_span t | None => eof_span (p_src s') end) in
    (if lo <=? String.length (p_src s')
     then Some (substring lo (String.length (p_src s') - lo) (p_src s')) else None, s').
End stream.

(** [peek_token], parser_impl.rs 193-198 *)
Definition peek : M (option token) := Peek Ret.
(** [peek_token_src], parser_impl.rs 165-167 *)
Definition peek_src : M (option tok) :=
  Peek (λ t, match t with Some t => ToSrc t (λ x, Ret (Some x)) | None => Ret None end).
(** [consume_token], parser_impl.rs 179-190 *)
Definition consume : M (option token) := Consume Ret.
(** [empty_span], parser_impl.rs 238-246 *)
Definition empty_span : M span := EmptySpan Ret.
(** [current_span], parser_impl.rs 230-234 *)
Definition cur_span : M span := CurSpan Ret.
(** [info().get_src(span)] *)
Definition get_src (sp : span) : M string := GetSrc sp Ret.
(** [apply_semantic], parser_impl.rs 248-253 *)
Definition apply_semantic (sp : span) (sem : N) : M unit := Apply sp sem (Ret tt).
(** [expecting], parser_impl.rs 174-176 *)
Definition expecting (s : tset) : M perr := CurSpan (λ sp, Ret (PErr sp (Expecting s))).
(** [unexpected_eof], parser_impl.rs 170-172 *)
Definition unexpected_eof : M perr := CurSpan (λ sp, Ret (PErr sp UnexpectedEof)).

(** [parse_token], parser_impl.rs 103-114 *)
Definition parse_token (ty : nat) : M (res token) :=
  pk ← peek;
  let fail := sp ← cur_span; mret (RPanic [PErr sp (Expecting (fs_one ty None))]) in
  match pk with
  | Some t => if t_ty t =? ty then _ ← consume; mret (RSucc t) else fail
  | None => fail
  end.

(** [parse_token_lit], parser_impl.rs 130-163 *)
Definition parse_token_lit (ty : nat) (lit : string) (follow : tset) : M (res token) :=
  pk ← peek;
  match pk with
  | None =>
    if ts_contains_e follow then
      sp ← cur_span; e ← expecting (fs_one ty (Some lit)); mret (RRec (Token sp ty) [e])
    else e ← unexpected_eof; mret (RPanic [e])
  | Some t =>
    ToSrc t (λ x,
      if (t_ty t =? ty) && bool_decide (snd x = lit) then _ ← consume; mret (RSucc t)
      else if ts_contains follow (Some x) then
        sp ← empty_span; e ← expecting (fs_one ty (Some lit)); mret (RRec (Token sp ty) [e])
      else e ← expecting (fs_one ty (Some lit)); mret (RPanic [e]))
  end.
