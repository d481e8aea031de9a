(** Model of the syntax tree types, their productions and their registration:
    packages/teleparse/src/syntax/{ast,metadata}.rs, tp_impl/*.rs ([Production] impls and
    [type Prod]), macros/src/{syntax,lexicon}.rs (derived impls).  No proofs in this file except
    that equality of productions is decidable. *)
From Coq Require Import String NArith.
From stdpp Require Import prelude list strings.
From Verif Require Import SynSetModel TableModel.
Local Open Scope nat_scope.

(** Productions: the types implementing [Production].
    [PTok name ty lit]: terminal struct [name] (macros/src/lexicon.rs 448-461);
    [PNamed n]: the derived production of the [n]th declared struct or enum
    (macros/src/syntax.rs 99-112, 189-202, 311-322); [PTuple]: tuples (tuple.rs 6-24; Rust
    has 2 to 5 elements, any number here); [POpt]: [OptionProd] (option.rs 12-33);
    [POneMore]: [OneOrMore] (iter.rs 12-23); [PPunct]: [PunctProd] (punct.rs 10-23);
    [PEps]: [Epsilon] (ast.rs 7-20); [PBox]: [Box] (boxed.rs 5-7). *)
Inductive prod :=
| PTok (name : nat) (ty : nat) (lit : option string)
| PNamed (n : nat)
| PTuple (l : list prod)
| POpt (p : prod)
| POneMore (p : prod)
| PPunct (p q : prod)
| PEps
| PBox (p : prod).

(** [Production::id]: the type itself, except that [Box] passes through
    (ast.rs 29-33, 50-55). Only the outermost boxes are passed through. *)
Fixpoint pid (p : prod) : prod := match p with PBox q => pid q | _ => p end.

(** Syntax tree types: the types implementing [Produce]. *)
Inductive ty :=
| TTok (name : nat) (tty : nat) (lit : option string)
| TNamed (n : nat)
| TTuple (l : list ty)
| TBox (t : ty)
| TOpt (t : ty)
| TExists (t : ty)
| TQuote (t : ty)
| TParse (t : ty)
| TPlus (t : ty)
| TStar (t : ty)
| TLoop (t : ty)
| TSplit (t p : ty)
| TPunct (t p : ty)
| TRecover (t r : ty).

(** [Produce::Prod]: lexicon.rs 465, syntax.rs 121/211/324, tuple.rs 34, boxed.rs 22,
    option.rs 50/70, string.rs 24/50, iter.rs 35/70/92, split.rs 79, punct.rs 94,
    recover.rs 33 *)
Fixpoint prod_of (t : ty) : prod :=
  match t with
  | TTok n y lit => PTok n y lit
  | TNamed n => PNamed n
  | TTuple l => PTuple (map prod_of l)
  | TBox t => PBox (prod_of t)
  | TOpt t | TExists t => POpt (prod_of t)
  | TQuote t | TParse t => prod_of t
  | TPlus t | TLoop t => POneMore (prod_of t)
  | TStar t => POpt (POneMore (prod_of t))
  | TSplit t p => PTuple [prod_of t; POpt (POneMore (PTuple [prod_of p; prod_of t]))]
  | TPunct t p => PPunct (prod_of t) (prod_of p)
  | TRecover t r => PTuple [prod_of t; prod_of r]
  end.
(** [Produce::prod_id], parser/tree.rs 17-20 *)
Definition key (t : ty) : prod := pid (prod_of t).

(** A field or variant: its type and the semantic token set put on it. *)
Definition field : Type := ty * option N.
(** Declarations with [#[derive_syntax]]: structs (named or not) and enums. *)
Inductive decl := DStruct (fs : list field) | DEnum (vs : list field).
(** All declarations; [TNamed n] is the [n]th. *)
Notation denv := (list decl).

Definition decl_fields (d : decl) : list field := match d with DStruct l | DEnum l => l end.
Definition field_prods (fs : list field) : list prod := map (λ f, prod_of (fst f)) fs.

(** Decidable equality of productions (Rust: equality of [TypeId]s). *)
Fixpoint prod_eqb (p q : prod) : bool :=
  match p, q with
  | PTok n y l, PTok n' y' l' => (n =? n') && (y =? y') && bool_decide (l = l')
  | PNamed n, PNamed n' => n =? n'
  | PTuple l, PTuple l' =>
      (fix go l l' := match l, l' with
        | [], [] => true
        | x :: l, x' :: l' => prod_eqb x x' && go l l'
        | _, _ => false
        end) l l'
  | POpt p, POpt q => prod_eqb p q
  | POneMore p, POneMore q => prod_eqb p q
  | PPunct p p', PPunct q q' => prod_eqb p q && prod_eqb p' q'
  | PEps, PEps => true
  | PBox p, PBox q => prod_eqb p q
  | _, _ => false
  end.

Lemma prod_rect' (P : prod → Prop) :
  (∀ n y l, P (PTok n y l)) → (∀ n, P (PNamed n)) → (∀ l, Forall P l → P (PTuple l)) →
  (∀ p, P p → P (POpt p)) → (∀ p, P p → P (POneMore p)) → (∀ p q, P p → P q → P (PPunct p q)) →
  P PEps → (∀ p, P p → P (PBox p)) → ∀ p, P p.
Proof.
  intros H1 H2 H3 H4 H5 H6 H7 H8. fix IH 1. intros [n y l|n|l|p|p|p q| |p].
  - apply H1.
  - apply H2.
  - apply H3. induction l as [|x l IHl]; constructor; [apply IH|exact IHl].
  - apply H4, IH.
  - apply H5, IH.
  - apply H6; apply IH.
  - apply H7.
  - apply H8, IH.
Qed.

Lemma prod_eqb_eq p q : prod_eqb p q = true ↔ p = q.
Proof.
  revert q. induction p as [n y l|n|l IH|p IH|p IH|p q' IH1 IH2| |p IH] using prod_rect';
    intros [n' y' l'|n'|l'|p'|p'|p' p''| |p']; cbn [prod_eqb];
    rewrite ?andb_true_iff, ?Nat.eqb_eq, ?bool_decide_eq_true; try naive_solver.
  - revert l'. induction IH as [|x l Hx Hl IHl]; intros [|x' l']; try naive_solver.
    rewrite andb_true_iff, Hx, IHl. naive_solver.
Qed.
#[global] Instance prod_eq_dec : EqDecision prod.
Proof.
  intros p q. destruct (prod_eqb p q) eqn:E.
  - left. by apply prod_eqb_eq.
  - right. intros ->. assert (prod_eqb q q = true) by (by apply prod_eqb_eq). congruence.
Defined.

Section register.
  Variable env : denv.

  (** The productions a production registers after itself, in order
      ([register_sequence!] ast.rs 68-76, [register_union!] 80-88, with the arguments of
      tuple.rs 22, option.rs 31, iter.rs 21, punct.rs 21, syntax.rs 110/200/320). *)
  Definition kids (p : prod) : option (list prod) :=
    match p with
    | PTok _ _ _ | PEps => Some []
    | PNamed n => d ← env !! n; Some (field_prods (decl_fields d))
    | PTuple l => Some l
    | POpt p => Some [p; PEps]
    | POneMore p => Some [p; POpt (POneMore p)]
    | PPunct p q => Some [p; POpt (PTuple [q; POpt (PPunct p q)])]
    | PBox _ => None
    end.

  (** What it records for itself ([add_terminal], [add_epsilon], [add_sequence],
      [add_union], metadata.rs 33-53). [None]: not a declared type. *)
  Definition entry_of (p : prod) : option (entry prod) :=
    match p with
    | PTok _ y lit => Some (ETok y lit)
    | PEps => Some EEps
    | PNamed n =>
      d ← env !! n;
      Some (match d with
            | DStruct l => ESeq (map pid (field_prods l))
            | DEnum l => EUnion (map pid (field_prods l))
            end)
    | PTuple l => Some (ESeq (map pid l))
    | POpt p => Some (EUnion [pid p; PEps])
    | POneMore p => Some (ESeq [pid p; POpt (POneMore p)])
    | PPunct p q => Some (ESeq [pid p; POpt (PTuple [q; POpt (PPunct p q)])])
    | PBox _ => None
    end.

  (** [Production::register].  The builder holds the registered entries in order; [visit]
      (metadata.rs 25-31) tests for the id.  [None]: out of fuel or not declared. *)
  Fixpoint reg_all (rec : prod → list (prod * entry prod) → option (list (prod * entry prod)))
      (ps : list prod) (regs : list (prod * entry prod)) : option (list (prod * entry prod)) :=
    match ps with
    | [] => Some regs
    | p :: r => regs' ← rec p regs; reg_all rec r regs'
    end.
  Fixpoint register (fuel : nat) (p : prod) (regs : list (prod * entry prod))
    : option (list (prod * entry prod)) :=
    match fuel with
    | O => None
    | S f =>
      let t := pid p in
      if decide (t ∈ regs.*1) then Some regs
      else
        e ← entry_of t; ks ← kids t;
        reg_all (register f) ks (regs ++ [(t, e)])
    end.

  (** Fuel: all productions that can occur.  A production's parts, without unfolding names. *)
  Fixpoint parts (p : prod) : list prod :=
    match p with
    | PTok _ _ _ | PEps | PNamed _ => [p]
    | PTuple l => p :: flat_map parts l
    | POpt q => p :: PEps :: parts q
    | POneMore q => p :: POpt p :: PEps :: parts q
    | PPunct a b =>
      p :: POpt (PTuple [b; POpt p]) :: PTuple [b; POpt p] :: POpt p :: PEps :: parts a ++ parts b
    | PBox q => parts q
    end.
  Definition all_parts (p : prod) : list prod :=
    parts p ++ flat_map (λ d, flat_map parts (field_prods (decl_fields d))) env.

  (** [Metadata::build_for] (metadata.rs 357-362, called from macros/src/root.rs 27): a fresh builder,
      registration of the root, [build].  [iter] is any arrangement of the entries
      (BTreeMap order of TypeIds). *)
  Definition register_root (p : prod) : option (list (prod * entry prod)) :=
    register (S (length (all_parts p))) p [].
End register.
