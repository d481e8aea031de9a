(** Harness for replaying the repository's own unit tests on the model (files RepoTests*.v):
    a small longest-match lexer standing in for logos, the terminals of
    packages/teleparse/src/test.rs 20-33, and a checker for a sequence of parser calls. *)
From Coq Require Import String Ascii NArith.
From stdpp Require Import prelude list strings.
From Verif Require Import LexModel SynSetModel TableModel StreamModel TypeModel ProduceModel ParseEx DebugModel.
Local Open Scope nat_scope.

(** Character classes: skipped, unrecognised, a one-character token, part of a maximal run. *)
Inductive cclass := CSkip | CBad | CSingle (ty : nat) | CRun (ty : nat).
Definition runs_on (c : cclass) (ty : nat) : bool := match c with CRun ty' => ty =? ty' | _ => false end.
(** [cur]: type and start of the run being read; [i]: position. *)
Fixpoint lex_from (cls : ascii → cclass) (cur : option (nat * nat)) (i : nat) (s : string) : list raw :=
  let flush := match cur with Some (ty, lo) => [RTok ty (Span lo i)] | None => [] end in
  match s with
  | EmptyString => flush
  | String c r =>
      match cls c with
      | CSkip => flush ++ lex_from cls None (S i) r
      | CBad => flush ++ RErr (Span i (S i)) :: lex_from cls None (S i) r
      | CSingle ty => flush ++ RTok ty (Span i (S i)) :: lex_from cls None (S i) r
      | CRun ty =>
          match cur with
          | Some (ty', lo) =>
              if ty =? ty' then lex_from cls cur (S i) r else flush ++ lex_from cls (Some (ty, i)) (S i) r
          | None => lex_from cls (Some (ty, i)) (S i) r
          end
      end
  end.

Definition char_in (c : ascii) (s : string) : bool :=
  existsb (Ascii.eqb c) (list_ascii_of_string s).
Definition is_letter (c : ascii) : bool :=
  let n := nat_of_ascii c in (65 <=? n) && (n <=? 90) || (97 <=? n) && (n <=? 122).
Definition is_digit (c : ascii) : bool := let n := nat_of_ascii c in (48 <=? n) && (n <=? 57).

(** src/test.rs 20-33 *)
Definition math_cls (c : ascii) : cclass :=
  if char_in c " " then CSkip
  else if is_letter c then CRun 0
  else if char_in c "+*" then CSingle 1
  else if char_in c "()" then CSingle 2
  else if is_digit c then CRun 3
  else CBad.
Definition Ident := TTok 0 0 None.
Definition OpAdd := TTok 1 1 (Some "+"%string).
Definition OpMul := TTok 2 1 (Some "*"%string).
Definition POpen := TTok 3 2 (Some "("%string).
Definition PClose := TTok 4 2 (Some ")"%string).
Definition Integer := TTok 5 3 None.
Definition ident (lo hi : nat) : tree := TrTok (Token (Span lo hi) 0).
Definition op (lo hi : nat) : tree := TrTok (Token (Span lo hi) 1).
Definition paren (lo hi : nat) : tree := TrTok (Token (Span lo hi) 2).
Definition tok_name (n : nat) : string :=
  nth n ["Ident"; "OpAdd"; "OpMul"; "ParenOpen"; "ParenClose"; "Integer"]%string ""%string.
Definition ty_name (n : nat) : string := nth n ["Ident"; "Op"; "Paren"; "Integer"]%string ""%string.

(** A struct with the given field types and no attributes. *)
Definition struct (ts : list ty) : decl := DStruct (map (λ t, (t, None)) ts).
Definition enum (ts : list ty) : decl := DEnum (map (λ t, (t, None)) ts).

(** Errors as the tests write them; sets by their items, in order of token type. *)
Inductive terr := TExpecting (l : list repr) | TUnexpectedTokens | TUnexpectedCharacters | TOther.
Definition show_err (e : perr) : nat * nat * terr :=
  (sp_lo (e_span e), sp_hi (e_span e),
   match e_kind e with
   | Expecting s => TExpecting (ts_to_repr s)
   | UnexpectedTokens => TUnexpectedTokens
   | UnexpectedCharacters => TUnexpectedCharacters
   | _ => TOther
   end).

(** Calls on one parser, with the expected outcome. *)
Inductive call :=
| Parse (t : ty) (want : option tree)
| Remaining (want : string)
| ConsumeTok
| Errors (want : list (nat * nat * terr)).
Fixpoint calls (env : denv) (cs : list call) (s : pst) : Prop :=
  match cs with
  | [] => True
  | Parse t want :: cs =>
      match md_of env t with
      | Some md =>
          match run no_extract (parse env 60 t (inr md)) s with
          | ODone (inr got) s' => got = want ∧ calls env cs s'
          | _ => False
          end
      | None => False
      end
  | Remaining want :: cs =>
      let '(got, s') := remaining no_extract s in got = Some want ∧ calls env cs s'
  | ConsumeTok :: cs =>
      match run no_extract consume s with ODone _ s' => calls env cs s' | _ => False end
  | Errors want :: cs => map show_err (p_errors s) = want ∧ calls env cs s
  end.
Definition on (cls : ascii → cclass) (env : denv) (src : string) (cs : list call) : Prop :=
  calls env cs (pst_new src (lex_from cls None 0 src)).
Notation math := (on math_cls).

Definition gerr_kind (e : gerr prod) : string :=
  match e with
  | GLeftRecursion _ _ => "LeftRecursion"
  | GFirstFirst _ _ _ _ => "FirstFirstConflict"
  | GFirstFollow _ _ => "FirstFollowConflict"
  | GSeq _ _ _ _ => "FirstFollowSeqConflict"
  end.
(** [assert_not_ll1!], src/test.rs 36-47: metadata fails with these texts. *)
Definition not_ll1 (env : denv) (names : list string) (t : ty) : option (list string) :=
  match register_root env (prod_of t) with
  | Some regs =>
      match meta_build regs regs (key t) with
      | Some (inl e) => Some (gerr_kind e :: gerr_strings tok_name (λ n, nth n names ""%string) ty_name e)
      | _ => None
      end
  | None => None
  end.

Ltac replay := vm_compute; repeat split; reflexivity.
