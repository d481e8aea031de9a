(** Specification of parsing: parse trees of a type for a token sequence, and the
    language of a type.  Independent of tables and of the parser. *)
From Coq Require Import String NArith.
From stdpp Require Import prelude list strings relations.
From Verif Require Import LexModel SynSetModel TableModel StreamModel StreamSpec TypeModel ProduceModel CfgSpec.
Local Open Scope nat_scope.

(** * Types used by a type *)
(** The types a type is built from, names unfolded once. *)
Definition subs (env : denv) (t : ty) : list ty :=
  match t with
  | TTok _ _ _ => []
  | TNamed n => match env !! n with Some d => map fst (decl_fields d) | None => [] end
  | TTuple l => l
  | TBox t | TOpt t | TExists t | TQuote t | TParse t | TPlus t | TStar t | TLoop t => [t]
  | TSplit t p | TPunct t p | TRecover t p => [t; p]
  end.
(** [t'] is [t] or used in it, directly or through declarations. *)
Definition within (env : denv) (t t' : ty) : Prop := rtc (λ a b, b ∈ subs env a) t t'.
Definition not_recover (t : ty) : Prop := match t with TRecover _ _ => False | _ => True end.
Definition not_loop (t : ty) : Prop := match t with TLoop _ => False | _ => True end.
(** [P] holds for [t] and everything used in it. *)
Definition all_within (env : denv) (P : ty → Prop) (t : ty) : Prop := ∀ t', within env t t' → P t'.
(** Without [tp::Recover], [tp::Loop]. *)
Definition no_recover (env : denv) : ty → Prop := all_within env not_recover.
Definition no_loop (env : denv) : ty → Prop := all_within env not_loop.
(** Tuples and declarations have at least one component (Rust tuples have 2 to 5 here; the
    macro rejects empty declarations, macros/src/syntax.rs 67-70, 154-157, 275-278). *)
Definition filled (env : denv) : ty → Prop :=
  all_within env (λ t,
    match t with
    | TTuple l => l ≠ []
    | TNamed n => match env !! n with Some d => decl_fields d ≠ [] | None => True end
    | _ => True
    end).

(** * Parse trees *)
(** Where a token sequence starting after position [p] ends. *)
Definition end_pos (p : nat) (l : list token) : nat :=
  match last l with Some t => sp_hi (t_span t) | None => p end.

(** [t, d, t, d, ..., t] with [n] times [d] *)
Definition alternate (n : nat) (t d : ty) : list ty := t :: concat (replicate n [d; t]).
Fixpoint evens {A} (l : list A) : list A := match l with x :: _ :: r => x :: evens r | _ => l end.
Definition odds {A} (l : list A) : list A := evens (tail l).

Section spec.
  Variable env : denv.
  Variable src : string.

  (** A token of type [ty], with text [lit] if given. *)
  Definition matches (ty : nat) (lit : option string) (t : token) : Prop :=
    t_ty t = ty ∧ match lit with Some x => text_of src t = Some x | None => True end.

  (** [parses p t l x]: [x] is a parse tree of type [t] for exactly the tokens [l], when the
      token before them ends at [p]. *)
  Inductive parses : nat → ty → list token → tree → Prop :=
  | p_tok p n y lit t : matches y lit t → parses p (TTok n y lit) [t] (TrTok t)
  | p_struct p n fs l xs : env !! n = Some (DStruct fs) → pseq p (map fst fs) l xs →
      parses p (TNamed n) l (TrSeq xs)
  | p_enum p n vs i t sem l x : env !! n = Some (DEnum vs) → vs !! i = Some (t, sem) →
      parses p t l x → parses p (TNamed n) l (TrVar i x)
  | p_tuple p ts l xs : pseq p ts l xs → parses p (TTuple ts) l (TrSeq xs)
  | p_box p t l x : parses p t l x → parses p (TBox t) l x
  | p_none p t : parses p (TOpt t) [] (TrOpt (Span p p) None)
  | p_some p t l x : parses p t l x → parses p (TOpt t) l (TrOpt (tree_span x) (Some x))
  | p_absent p t : parses p (TExists t) [] (TrExists (Span p p) false)
  | p_present p t l x : parses p t l x → parses p (TExists t) l (TrExists (tree_span x) true)
  | p_quote p t l x s : parses p t l x → span_get (tree_span x) src = Some s →
      parses p (TQuote t) l (TrQuote (tree_span x) s)
  | p_parse p t l x s : parses p t l x → span_get (tree_span x) src = Some s →
      parses p (TParse t) l (TrParse (tree_span x) s)
  | p_plus p t n l xs : pseq p (replicate (S n) t) l xs →
      parses p (TPlus t) l (TrList (tree_span (TrSeq xs)) xs)
  | p_star_none p t : parses p (TStar t) [] (TrList (Span p p) [])
  | p_star p t n l xs : pseq p (replicate (S n) t) l xs →
      parses p (TStar t) l (TrList (tree_span (TrSeq xs)) xs)
  | p_loop_none p t : parses p (TLoop t) [] (TrList (Span p p) [])
  | p_loop p t n l xs : pseq p (replicate (S n) t) l xs →
      parses p (TLoop t) l (TrList (tree_span (TrSeq xs)) xs)
  | p_split p t d n l zs : pseq p (alternate n t d) l zs →
      parses p (TSplit t d) l (TrSplit (tree_span (TrSeq zs)) (evens zs) (odds zs))
  | p_punct p t d n (trailing : bool) l zs :
      pseq p (alternate n t d ++ if trailing then [d] else []) l zs →
      parses p (TPunct t d) l (TrPunct (tree_span (TrSeq zs)) (evens zs) (odds zs))
  | p_recover p t r l x y : pseq p [t; r] l [x; y] →
      parses p (TRecover t r) l (TrRecover (tree_span x) (Some x) y)
  with pseq : nat → list ty → list token → list tree → Prop :=
  | s_nil p : pseq p [] [] []
  | s_cons p t ts l1 l2 x xs : parses p t l1 x → pseq (end_pos p l1) ts l2 xs →
      pseq p (t :: ts) (l1 ++ l2) (x :: xs).

  (** The language of a type: token sequences (type, text). *)
  Inductive lang : ty → list tok → Prop :=
  | l_tok n y lit t : covers y lit t → lang (TTok n y lit) [t]
  | l_struct n fs w : env !! n = Some (DStruct fs) → langs (map fst fs) w → lang (TNamed n) w
  | l_enum n vs t sem w : env !! n = Some (DEnum vs) → (t, sem) ∈ vs → lang t w → lang (TNamed n) w
  | l_tuple ts w : langs ts w → lang (TTuple ts) w
  | l_box t w : lang t w → lang (TBox t) w
  | l_none t : lang (TOpt t) []
  | l_some t w : lang t w → lang (TOpt t) w
  | l_absent t : lang (TExists t) []
  | l_present t w : lang t w → lang (TExists t) w
  | l_quote t w : lang t w → lang (TQuote t) w
  | l_parse t w : lang t w → lang (TParse t) w
  | l_plus t n w : langs (replicate (S n) t) w → lang (TPlus t) w
  | l_star t n w : langs (replicate n t) w → lang (TStar t) w
  | l_loop t n w : langs (replicate (S n) t) w → lang (TLoop t) w
  | l_split t d n w : langs (alternate n t d) w → lang (TSplit t d) w
  | l_punct t d n (trailing : bool) w :
      langs (alternate n t d ++ if trailing then [d] else []) w → lang (TPunct t d) w
  | l_recover t r w : langs [t; r] w → lang (TRecover t r) w
  with langs : list ty → list tok → Prop :=
  | ls_nil : langs [] []
  | ls_cons t ts w1 w2 : lang t w1 → langs ts w2 → langs (t :: ts) (w1 ++ w2).
End spec.

(** The tokens with their texts. *)
Definition word (src : string) (l : list token) : list tok :=
  map (λ t, (t_ty t, default ""%string (text_of src t))) l.

Scheme parses_mut := Induction for parses Sort Prop with pseq_mut := Induction for pseq Sort Prop.
Scheme lang_mut := Induction for lang Sort Prop with langs_mut := Induction for langs Sort Prop.

(** * Runs *)
(** [s'] comes from [s] by moving exactly [l] from the tokens to come to the consumed ones. *)
Definition took (extract : nat → bool) (s : pst) (l : list token) (s' : pst) : Prop :=
  p_src s' = p_src s ∧ consumed s' = consumed s ++ l ∧ to_come extract s = l ++ to_come extract s'.

(** From [s] to [s'] nothing was recorded but the unrecognised text met on the way. *)
Definition only_bad_text (s s' : pst) : Prop :=
  ∃ bad, p_invalid s' = p_invalid s ++ bad ∧
    p_errors s' = p_errors s ++ map (λ sp, PErr sp UnexpectedCharacters) bad.

(** All nodes of a tree. *)
Fixpoint nodes (x : tree) : list tree :=
  x :: match x with
       | TrSeq l | TrList _ l => flat_map nodes l
       | TrVar _ y => nodes y
       | TrOpt _ (Some y) => nodes y
       | TrSplit _ a b | TrPunct _ a b => flat_map nodes a ++ flat_map nodes b
       | TrRecover _ h y => match h with Some z => nodes z | None => [] end ++ nodes y
       | _ => []
       end.

(** The tables of [md] are those of the root type [t], which has been accepted. *)
Definition accepted (env : denv) (t : ty) (md : metadata prod) : Prop :=
  ∃ regs iter, register_root env (prod_of t) = Some regs ∧ iter ≡ₚ regs ∧
    meta_build regs iter (key t) = Some (inr md).

(** The sources agree on their first [n] characters. *)
Definition same_upto (n : nat) (a b : string) : Prop := ∀ i, i < n → String.get i a = String.get i b.
(** All tokens of the input the syntax gets to see. *)
Definition all_tokens (extract : nat → bool) (s : pst) : list token := consumed s ++ to_come extract s.
(** A position where the input or a token starts or ends. *)
Definition boundary (extract : nat → bool) (s : pst) (n : nat) : Prop :=
  n = 0 ∨ n = String.length (p_src s) ∨
  ∃ t, t ∈ all_tokens extract s ∧ (n = sp_lo (t_span t) ∨ n = sp_hi (t_span t)).
(** The value of a result that has one. *)
Definition value {A} (r : res A) : option A := (unres r).1.
(** The errors in a result. *)
Definition errors_of {A} (r : res A) : list perr := (unres r).2.
(** The next token with its text; [None] at the end of the input. *)
Definition next_tok (extract : nat → bool) (s : pst) : option tok := head (word (p_src s) (to_come extract s)).
(** [f] on the value of a finished run. *)
Definition out_map {A B} (f : A → B) (o : out A pst) : out B pst :=
  match o with OFuel => OFuel | OCrash => OCrash | ODone a s => ODone (f a) s end.
(** Any number of calls of [Parser::parse], with any roots. *)
Definition parse_calls (extract : nat → bool) : pst → pst → Prop :=
  rtc (λ s s', ∃ env f t meta o, run extract (parse env f t meta) s = ODone o s').

(** * Shape of trees *)
Fixpoint interleave {A} (a b : list A) : list A :=
  match a, b with
  | x :: a, y :: b => x :: y :: interleave a b
  | _, [] => a
  | [], _ => b
  end.
(** The parts of a node in source order. *)
Definition parts_of (x : tree) : list tree :=
  match x with
  | TrSeq l | TrList _ l => l
  | TrVar _ y | TrOpt _ (Some y) => [y]
  | TrSplit _ a b | TrPunct _ a b => interleave a b
  | TrRecover _ (Some h) y => [h; y]
  | TrRecover _ None y => [y]
  | _ => []
  end.
(** Each part ends before the next one starts. *)
Definition in_order (l : list tree) : Prop :=
  ∀ i a b, l !! i = Some a → l !! S i = Some b → tree_hi a ≤ tree_lo b.
(** Types whose leading component is a token, not an optional part. *)
Inductive solid (env : denv) : ty → Prop :=
| solid_tok n y lit : solid env (TTok n y lit)
| solid_struct n f fs : env !! n = Some (DStruct (f :: fs)) → solid env (fst f) → solid env (TNamed n)
| solid_enum n vs : env !! n = Some (DEnum vs) → (∀ v, v ∈ vs → solid env (fst v)) → solid env (TNamed n)
| solid_tuple t ts : solid env t → solid env (TTuple (t :: ts))
| solid_box t : solid env t → solid env (TBox t)
| solid_quote t : solid env t → solid env (TQuote t)
| solid_parse t : solid env t → solid env (TParse t)
| solid_plus t : solid env t → solid env (TPlus t)
| solid_split t d : solid env t → solid env (TSplit t d)
| solid_punct t d : solid env t → solid env (TPunct t d)
| solid_recover t r : solid env t → solid env (TRecover t r).

(** * Results *)
(** [P] holds for the recovery part of every [tp::Recover] in [t]. *)
Definition recover_tails (env : denv) (P : ty → Prop) (t : ty) : Prop :=
  all_within env (λ t, match t with TRecover _ r => P r | _ => True end) t.
(** What [Parser::parse] promises: a tree that comes without a syntax error is the parse tree
    of the tokens consumed, and no tree comes with at least one syntax error. *)
Definition parse_result extract env t s (o : option tree) s' : Prop :=
  match o with
  | Some x => only_bad_text s s' →
      ∃ l, took extract s l s' ∧ parses env (p_src s) (end_of (p_tokens s)) t l x
  | None => ∃ bad es, p_invalid s' = p_invalid s ++ bad ∧
      p_errors s' = p_errors s ++ map (λ sp, PErr sp UnexpectedCharacters) bad ++ es ∧ es ≠ []
  end.
(** The types that may be absent by themselves, with their item. *)
Definition optional (t t' : ty) : Prop := t = TOpt t' ∨ t = TExists t' ∨ t = TStar t'.
(** Their empty value at position [p]. *)
Definition empty_of (t : ty) (p : nat) : tree :=
  match t with
  | TOpt _ => TrOpt (Span p p) None
  | TExists _ => TrExists (Span p p) false
  | _ => TrList (Span p p) []
  end.
(** The node holding the source text of [x], by [f] = [TrQuote] or [TrParse]. *)
Definition quoted (f : span → string → tree) (src : string) (x : tree) : tree :=
  f (tree_span x) (default ""%string (span_get (tree_span x) src)).
(** [tp::Option<T>] as [tp::Exists<T>] and [tp::Option<tp::Nev<T>>] as [tp::Vec<T>]. *)
Definition exists_of (x : tree) : tree :=
  match x with TrOpt sp o => TrExists sp (bool_decide (is_Some o)) | _ => x end.
Definition star_of (x : tree) : tree :=
  match x with TrOpt sp None => TrList sp [] | TrOpt _ (Some y) => y | _ => x end.

(** * Conditions on declarations *)
(** No variant of an enum used in [t] can be empty. *)
Definition plain_enums (env : denv) : ty → Prop :=
  all_within env (λ t,
    match t with
    | TNamed n => match env !! n with Some (DEnum vs) => ∀ v, v ∈ vs → ¬ lang env (fst v) [] | _ => True end
    | _ => True
    end).
(** Every type used has a finite sentence. *)
Definition productive (env : denv) : ty → Prop := all_within env (λ t, ∃ w, lang env t w).
(** No type contains itself by way of structs, tuples and non-empty lists alone; implied by
    [productive]. *)
Inductive grounded (env : denv) : ty → Prop :=
| g_tok n y lit : grounded env (TTok n y lit)
| g_struct n fs : env !! n = Some (DStruct fs) → (∀ t, t ∈ map fst fs → grounded env t) → grounded env (TNamed n)
| g_enum n vs : env !! n = Some (DEnum vs) → grounded env (TNamed n)
| g_tuple ts : (∀ t, t ∈ ts → grounded env t) → grounded env (TTuple ts)
| g_box t : grounded env t → grounded env (TBox t)
| g_quote t : grounded env t → grounded env (TQuote t)
| g_parse t : grounded env t → grounded env (TParse t)
| g_plus t : grounded env t → grounded env (TPlus t)
| g_split t d : grounded env t → grounded env (TSplit t d)
| g_punct t d : grounded env t → grounded env (TPunct t d)
| g_opt t : grounded env (TOpt t)
| g_exists t : grounded env (TExists t)
| g_star t : grounded env (TStar t)
| g_loop t : grounded env (TLoop t)
| g_recover t r : grounded env (TRecover t r).
