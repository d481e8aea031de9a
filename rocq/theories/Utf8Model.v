(** Model of the character boundary test in Rust's [str] slicing, which the other model files
    leave out (a source text is a string of bytes there).  No proofs in this file. *)
From Coq Require Import String Ascii NArith.
From stdpp Require Import prelude list.
From Verif Require Import LexModel SynSetModel StreamModel DebugModel.
Local Open Scope nat_scope.

(** A UTF-8 continuation byte, 0x80 to 0xBF. *)
Definition continues (c : ascii) : bool := (128 <=? N_of_ascii c)%N && (N_of_ascii c <? 192)%N.
(** [str::is_char_boundary] of the standard library. *)
Definition char_boundary (src : string) (i : nat) : bool :=
  (i =? 0) || match String.get i src with Some c => negb (continues c) | None => i =? String.length src end.

(** [Span::get], lex/span.rs 46-52, with the test made by [&input[lo..hi]]. *)
Definition span_get_c (sp : span) (input : string) : option string :=
  if sp_hi sp <=? sp_lo sp then Some EmptyString
  else
    let hi := Nat.min (sp_hi sp) (String.length input) in
    if hi <? sp_lo sp then None
    else if char_boundary input (sp_lo sp) && char_boundary input hi
    then Some (substring (sp_lo sp) (hi - sp_lo sp) input)
    else None.

Section run.
  Variable extract : nat → bool.
  (** [run] of StreamModel.v with every slice tested ([ToSrc]: info.rs 31-33, lex/token.rs
      35-37; [GetSrc]: info.rs 35-37). *)
  Fixpoint run_c {A} (m : M A) (s : pst) : out A pst :=
    match m with
    | Ret a => ODone a s
    | Fuel => OFuel
    | Peek k => let s' := fill extract s in run_c (k (p_peeked s')) s'
    | ToSrc t k =>
      match span_get_c (t_span t) (p_src s) with
      | Some x => run_c (k (t_ty t, x)) s
      | None => OCrash
      end
    | Consume k => let '(t, s') := take_peeked (fill extract s) in run_c (k t) s'
    | EmptySpan k => run_c (k (Span (end_of (p_tokens s)) (end_of (p_tokens s)))) s
    | CurSpan k =>
      let s' := fill extract s in
      run_c (k (match p_peeked s' with Some t => t_span t | None => eof_span (p_src s') end)) s'
    | GetSrc sp k =>
      match span_get_c sp (p_src s) with
      | Some x => run_c (k x) s
      | None => OCrash
      end
    | Apply sp sem k =>
      run_c k (Pst (p_src s) (p_evs s) (p_peeked s) (p_invalid s)
                   (vec_apply_semantic (p_tokens s) sp sem) (p_extracted s) (p_errors s))
    | Extend es k =>
      run_c k (Pst (p_src s) (p_evs s) (p_peeked s) (p_invalid s) (p_tokens s)
                   (p_extracted s) (p_errors s ++ es))
    end.

  (** [remaining], parser_impl.rs 224-227, with the test. *)
  Definition remaining_c (s : pst) : option string * pst :=
    let s' := fill extract s in
    let lo := sp_lo (match p_peeked s' with Some t => t_span t | None => eof_span (p_src s') end) in
    (if (lo <=? String.length (p_src s')) && char_boundary (p_src s') lo
     then Some (substring lo (String.length (p_src s') - lo) (p_src s')) else None, s').
End run.

(** [Error::message], syntax/error.rs 24-41, with the test. *)
Definition message_c (ty_name : nat → string) (e : perr) (input : string) : option string :=
  match e_kind e with
  | UnexpectedCharacters => option_map (String.append "Unexpected: ") (span_get_c (e_span e) input)
  | UnexpectedTokens => option_map (String.append "Unexpected token(s): ") (span_get_c (e_span e) input)
  | _ => message ty_name e input
  end.
