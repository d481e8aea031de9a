(** Specification of repaired inputs: what a tree, recovered or not, is a tree of. *)
From Coq Require Import String NArith.
From stdpp Require Import prelude list strings relations.
From Verif Require Import LexModel SynSetModel TableModel StreamModel StreamSpec TypeModel ProduceModel ParseSpec LeafSpec.
Local Open Scope nat_scope.

(** A token of a tree and the text it stands for. *)
Definition kept : Type := token * string.
Definition kept_word (ks : list kept) : list tok := map (λ k, (t_ty k.1, k.2)) ks.

Section mends.
  Variable env : denv.
  (** [mends t x ks]: [x] is a tree of type [t] for the tokens [ks], but in a list with trailing delimiter ([tp::Punct])
      elements may be missing after a delimiter, the head of a [tp::Recover] may be missing, and a [tp::Loop] may be empty. *)
  Inductive mends : ty → tree → list kept → Prop :=
  | m_tok n y lit k s : t_ty k = y → lit = None ∨ lit = Some s → mends (TTok n y lit) (TrTok k) [(k, s)]
  | m_struct n fs xs ks : env !! n = Some (DStruct fs) → mendss (map fst fs) xs ks → mends (TNamed n) (TrSeq xs) ks
  | m_enum n vs i t sem x ks : env !! n = Some (DEnum vs) → vs !! i = Some (t, sem) → mends t x ks → mends (TNamed n) (TrVar i x) ks
  | m_tuple ts xs ks : mendss ts xs ks → mends (TTuple ts) (TrSeq xs) ks
  | m_box t x ks : mends t x ks → mends (TBox t) x ks
  | m_none t sp : mends (TOpt t) (TrOpt sp None) []
  | m_some t x ks : mends t x ks → mends (TOpt t) (TrOpt (tree_span x) (Some x)) ks
  | m_absent t sp : mends (TExists t) (TrExists sp false) []
  | m_present t x ks : mends t x ks → mends (TExists t) (TrExists (tree_span x) true) ks
  | m_quote t x s ks : mends t x ks → mends (TQuote t) (TrQuote (tree_span x) s) ks
  | m_parse t x s ks : mends t x ks → mends (TParse t) (TrParse (tree_span x) s) ks
  | m_plus t sp x xs ks : mendss (t :: replicate (length xs) t) (x :: xs) ks → mends (TPlus t) (TrList sp (x :: xs)) ks
  | m_star t sp xs ks : mendss (replicate (length xs) t) xs ks → mends (TStar t) (TrList sp xs) ks
  | m_loop t sp xs ks : mendss (replicate (length xs) t) xs ks → mends (TLoop t) (TrList sp xs) ks
  | m_split t d sp a b ks : length a = S (length b) → mendss (alternate (length b) t d) (interleave a b) ks →
      mends (TSplit t d) (TrSplit sp a b) ks
  (** [gs]: the delimiters, each with the element after it, if any *)
  | m_punct t d sp x gs ks :
      mendss (t :: flat_map (λ g : tree * option tree, d :: match g.2 with Some _ => [t] | None => [] end) gs)
        (x :: flat_map (λ g, g.1 :: option_list g.2) gs) ks →
      mends (TPunct t d) (TrPunct sp (x :: omap snd gs) (map fst gs)) ks
  | m_recover t r sp x y ks : mendss [t; r] [x; y] ks → mends (TRecover t r) (TrRecover sp (Some x) y) ks
  | m_headless t r sp y ks : mends r y ks → mends (TRecover t r) (TrRecover sp None y) ks
  with mendss : list ty → list tree → list kept → Prop :=
  | ms_nil : mendss [] [] []
  | ms_cons t ts x xs k1 k2 : mends t x k1 → mendss ts xs k2 → mendss (t :: ts) (x :: xs) (k1 ++ k2).
End mends.
Scheme mends_mut := Induction for mends Sort Prop with mendss_mut := Induction for mendss Sort Prop.

(** [repairs src ins pre l ks es]: [ks] comes from the tokens [l] by leaving out some of them and inserting others: [ins p k e] for
    each inserted [k], where [p] are the tokens before it ([pre] come before [l]) and [e] is its error; [es] are these errors,
    one for each insertion.  The texts are those of the tokens in [src]. *)
Inductive repairs (src : string) (ins : list token → kept → perr → Prop) : list token → list token → list kept → list perr → Prop :=
| rp_nil pre : repairs src ins pre [] [] []
| rp_skip pre t l ks es : repairs src ins (pre ++ [t]) l ks es → repairs src ins pre (t :: l) ks es
| rp_take pre t l ks es : repairs src ins (pre ++ [t]) l ks es →
    repairs src ins pre (t :: l) ((t, default ""%string (text_of src t)) :: ks) es
| rp_ins pre k e l ks es : ins pre k e → repairs src ins pre l ks es → repairs src ins pre l (k :: ks) (e :: es).

(** The token and text inserted are those of a literal terminal used in [t] that is missing there, as announced by [e]
    (see [inserted] in LeafSpec). *)
Definition missing (env : denv) (follow : prod → tset) (t : ty) (src : string) (all : list token)
    (pre : list token) (k : kept) (e : perr) : Prop :=
  ∃ n ty, within env t (TTok n ty (Some k.2)) ∧ inserted follow src all [e] n ty k.2 pre k.1.

(** No [tp::Punct], [tp::Recover] and [tp::Loop]. *)
Definition strict (env : denv) : ty → Prop :=
  all_within env (λ t, match t with TPunct _ _ | TRecover _ _ | TLoop _ => False | _ => True end).

(** A tree without positions and quoted texts. *)
Fixpoint bare (x : tree) : tree :=
  let sp := Span 0 0 in
  match x with
  | TrTok t => TrTok (Token sp (t_ty t))
  | TrSeq l => TrSeq (map bare l)
  | TrVar i x => TrVar i (bare x)
  | TrOpt _ o => TrOpt sp (match o with Some x => Some (bare x) | None => None end)
  | TrExists _ b => TrExists sp b
  | TrQuote _ _ => TrQuote sp ""
  | TrParse _ _ => TrParse sp ""
  | TrList _ l => TrList sp (map bare l)
  | TrSplit _ a b => TrSplit sp (map bare a) (map bare b)
  | TrPunct _ a b => TrPunct sp (map bare a) (map bare b)
  | TrRecover _ o y => TrRecover sp (match o with Some x => Some (bare x) | None => None end) (bare y)
  end.
