(** Specification of layout independence: when do two results agree up to positions. *)
From Coq Require Import String NArith.
From stdpp Require Import prelude list.
From Verif Require Import LexModel SynSetModel StreamModel StreamSpec TypeModel ProduceModel ParseSpec.
Local Open Scope nat_scope.

(** Places of an input, counted in tokens rather than characters. *)
Inductive place := AtStart | Before (i : nat) | Behind (i : nat) | AtEnd.
(** The position of a place in source [src] with tokens [l]. *)
Definition position (src : string) (l : list token) (p : place) : option nat :=
  match p with
  | AtStart => Some 0
  | Before i => (λ t, sp_lo (t_span t)) <$> l !! i
  | Behind i => (λ t, sp_hi (t_span t)) <$> l !! i
  | AtEnd => Some (String.length src)
  end.

Section same.
  (** Two sources with their tokens *)
  Variables (src1 : string) (l1 : list token) (src2 : string) (l2 : list token).
  Definition same_place (a b : nat) : Prop :=
    ∃ p, position src1 l1 p = Some a ∧ position src2 l2 p = Some b.
  Definition same_span (a b : span) : Prop :=
    same_place (sp_lo a) (sp_lo b) ∧ same_place (sp_hi a) (sp_hi b).
  (** Same tree, except that positions are those of the other source and quoted texts may differ
      (they are the texts of the spans, C50). *)
  Inductive same_tree : tree → tree → Prop :=
  | same_tok a b : t_ty a = t_ty b → same_span (t_span a) (t_span b) → same_tree (TrTok a) (TrTok b)
  | same_seq l l' : Forall2 same_tree l l' → same_tree (TrSeq l) (TrSeq l')
  | same_var i x y : same_tree x y → same_tree (TrVar i x) (TrVar i y)
  | same_none sp sp' : same_span sp sp' → same_tree (TrOpt sp None) (TrOpt sp' None)
  | same_some sp sp' x y : same_span sp sp' → same_tree x y → same_tree (TrOpt sp (Some x)) (TrOpt sp' (Some y))
  | same_exists sp sp' b : same_span sp sp' → same_tree (TrExists sp b) (TrExists sp' b)
  | same_quote sp sp' x y : same_span sp sp' → same_tree (TrQuote sp x) (TrQuote sp' y)
  | same_parse sp sp' x y : same_span sp sp' → same_tree (TrParse sp x) (TrParse sp' y)
  | same_list sp sp' l l' : same_span sp sp' → Forall2 same_tree l l' → same_tree (TrList sp l) (TrList sp' l')
  | same_split sp sp' l l' d d' : same_span sp sp' → Forall2 same_tree l l' → Forall2 same_tree d d' →
      same_tree (TrSplit sp l d) (TrSplit sp' l' d')
  | same_punct sp sp' l l' d d' : same_span sp sp' → Forall2 same_tree l l' → Forall2 same_tree d d' →
      same_tree (TrPunct sp l d) (TrPunct sp' l' d')
  | same_headless sp sp' x y : same_span sp sp' → same_tree x y →
      same_tree (TrRecover sp None x) (TrRecover sp' None y)
  | same_recover sp sp' h h' x y : same_span sp sp' → same_tree h h' → same_tree x y →
      same_tree (TrRecover sp (Some h) x) (TrRecover sp' (Some h') y).
  Definition same_error (a b : perr) : Prop := e_kind a = e_kind b ∧ same_span (e_span a) (e_span b).
  (** The same up to sets of expected tokens that correspond. *)
  Definition like_kind (sees : tset → tset → Prop) (k k' : ekind) : Prop :=
    match k, k' with Expecting s, Expecting s' => sees s s' | _, _ => k = k' end.
  Definition like_error (sees : tset → tset → Prop) (a b : perr) : Prop :=
    like_kind sees (e_kind a) (e_kind b) ∧ same_span (e_span a) (e_span b).
  (** Same kind of result. *)
  Definition same_result (a b : res tree) : Prop :=
    match a, b with
    | RSucc x, RSucc y => same_tree x y
    | RRec x es, RRec y es' => same_tree x y ∧ Forall2 same_error es es'
    | RPanic es, RPanic es' => Forall2 same_error es es'
    | _, _ => False
    end.
End same.

(** The inputs have the same tokens (type and text), as many consumed, with the same marks. *)
Definition same_words (extract : nat → bool) (s1 s2 : pst) : Prop :=
  word (p_src s1) (all_tokens extract s1) = word (p_src s2) (all_tokens extract s2) ∧
  map c_sem (p_tokens s1) = map c_sem (p_tokens s2).
(** [R] of the two inputs. *)
Definition across {A} (extract : nat → bool) (R : string → list token → string → list token → A) (s1 s2 : pst) : A :=
  R (p_src s1) (all_tokens extract s1) (p_src s2) (all_tokens extract s2).
(** The recorded errors other than unrecognised text. *)
Definition syntax_error (e : perr) : Prop := e_kind e ≠ UnexpectedCharacters.
#[global] Instance syntax_error_dec e : Decision (syntax_error e).
Proof. unfold syntax_error. destruct (e_kind e); (left; discriminate) || (right; intros H; by apply H). Defined.
Definition syntax_errors (s : pst) : list perr := filter syntax_error (p_errors s).

(** * Texts that are no literal *)
(** The literals of a type, with their token types. *)
Fixpoint literals (t : ty) : list tok :=
  match t with
  | TTok _ y (Some x) => [(y, x)]
  | TTok _ _ None | TNamed _ => []
  | TTuple l => flat_map literals l
  | TBox t | TOpt t | TExists t | TQuote t | TParse t | TPlus t | TStar t | TLoop t => literals t
  | TSplit t p | TPunct t p | TRecover t p => literals t ++ literals p
  end.
(** Those of the declarations. *)
Definition env_literals (env : denv) : list tok := flat_map (λ d, flat_map (λ f, literals (fst f)) (decl_fields d)) env.
(** Tokens of the same type, whose texts are equal or both not literals of that type. *)
Definition alike (lit : tok → Prop) (a b : tok) : Prop := fst a = fst b ∧ (snd a = snd b ∨ ¬ lit a ∧ ¬ lit b).
(** A set that does not tell them apart. *)
Definition blind (lit : tok → Prop) (s : tset) : Prop := ∀ a b, alike lit a b → ts_contains s (Some a) = ts_contains s (Some b).
(** The inputs have the tokens related (alike), as many consumed, with the same marks. *)
Definition words_rel (R : tok → tok → Prop) (extract : nat → bool) (s1 s2 : pst) : Prop :=
  Forall2 R (word (p_src s1) (all_tokens extract s1)) (word (p_src s2) (all_tokens extract s2)) ∧
  map c_sem (p_tokens s1) = map c_sem (p_tokens s2).
Definition alike_words (lit : tok → Prop) : (nat → bool) → pst → pst → Prop := words_rel (alike lit).

(** * Other literals *)
(** [π y x] is how the literal [x] of token type [y] is spelled elsewhere.  The types and declarations with it. *)
Section respell.
  Variable π : nat → string → string.
  Fixpoint respell (t : ty) : ty :=
    match t with
    | TTok n y lit => TTok n y (π y <$> lit)
    | TNamed n => TNamed n
    | TTuple l => TTuple (map respell l)
    | TBox t => TBox (respell t)
    | TOpt t => TOpt (respell t)
    | TExists t => TExists (respell t)
    | TQuote t => TQuote (respell t)
    | TParse t => TParse (respell t)
    | TPlus t => TPlus (respell t)
    | TStar t => TStar (respell t)
    | TLoop t => TLoop (respell t)
    | TSplit t p => TSplit (respell t) (respell p)
    | TPunct t p => TPunct (respell t) (respell p)
    | TRecover t p => TRecover (respell t) (respell p)
    end.
  Definition respell_decl (d : decl) : decl :=
    let fields := map (λ f, (respell (fst f), snd f)) in
    match d with DStruct l => DStruct (fields l) | DEnum l => DEnum (fields l) end.
  Definition respell_env (env : denv) : denv := map respell_decl env.

  (** Different literals [lits] stay different. *)
  Definition distinct_on (lits : list tok) : Prop :=
    ∀ y x x', (y, x) ∈ lits → (y, x') ∈ lits → π y x = π y x' → x = x'.
  (** Corresponding tokens: a literal and its new spelling, or texts that are no literals of their type. *)
  Definition respelled (lits : list tok) (a b : tok) : Prop :=
    fst a = fst b ∧
    (a ∈ lits ∧ snd b = π (fst a) (snd a) ∨ a ∉ lits ∧ ∀ x, (fst b, x) ∈ lits → snd b ≠ π (fst b) x).
  (** Sets with corresponding tokens. *)
  Definition respelled_set (lits : list tok) (s s' : tset) : Prop :=
    (∀ a b, respelled lits a b → ts_contains s (Some a) = ts_contains s' (Some b)) ∧ ts_contains s None = ts_contains s' None.
  (** The inputs have corresponding tokens, as many consumed, with the same marks. *)
  Definition respelled_words (lits : list tok) : (nat → bool) → pst → pst → Prop := words_rel (respelled lits).
End respell.
