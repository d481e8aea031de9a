(** Specification of the tokens found in a tree, recovered trees included. *)
From Coq Require Import String NArith.
From stdpp Require Import prelude list strings relations.
From Verif Require Import LexModel SynSetModel TableModel StreamModel StreamSpec TypeModel ProduceModel ParseSpec.
Local Open Scope nat_scope.

(** [c] merges [a] and [b], each in its own order. *)
Inductive shuffle {A} : list A → list A → list A → Prop :=
| sh_nil : shuffle [] [] []
| sh_l x a b c : shuffle a b c → shuffle (x :: a) b (x :: c)
| sh_r x a b c : shuffle a b c → shuffle a (x :: b) (x :: c).

(** [yields x ks]: [ks] are the tokens kept in [x] in source order.  The separators of a
    [Punct] node are in order and its elements are, but which separator belongs to which
    element is not recorded in the node when elements are missing. *)
Inductive yields : tree → list token → Prop :=
| y_tok t : yields (TrTok t) [t]
| y_seq xs kss : Forall2 yields xs kss → yields (TrSeq xs) (concat kss)
| y_var i x ks : yields x ks → yields (TrVar i x) ks
| y_none sp : yields (TrOpt sp None) []
| y_some sp x ks : yields x ks → yields (TrOpt sp (Some x)) ks
| y_exists sp b : yields (TrExists sp b) []
| y_quote sp x : yields (TrQuote sp x) []
| y_parse sp x : yields (TrParse sp x) []
| y_list sp xs kss : Forall2 yields xs kss → yields (TrList sp xs) (concat kss)
| y_split sp a b kss : Forall2 yields (interleave a b) kss → yields (TrSplit sp a b) (concat kss)
| y_punct sp a b k1 k2 ks : Forall2 yields a k1 → Forall2 yields b k2 → shuffle (concat k1) (concat k2) ks →
    yields (TrPunct sp a b) ks
| y_recover sp x y k1 k2 : yields x k1 → yields y k2 → yields (TrRecover sp (Some x) y) (k1 ++ k2)
| y_recover_none sp y ks : yields y ks → yields (TrRecover sp None y) ks.

(** [embeds ins pre l ks]: [ks] are some of the tokens [l], each at most once and in order, and
    inserted tokens: [ins p k] for each inserted [k], where [p] are the tokens before it
    ([pre] come before [l]). *)
Inductive embeds (ins : list token → token → Prop) : list token → list token → list token → Prop :=
| em_nil pre : embeds ins pre [] []
| em_skip pre t l ks : embeds ins (pre ++ [t]) l ks → embeds ins pre (t :: l) ks
| em_take pre t l ks : embeds ins (pre ++ [t]) l ks → embeds ins pre (t :: l) (t :: ks)
| em_ins pre k l ks : ins pre k → embeds ins pre l ks → embeds ins pre l (k :: ks).

(** Where the first of [l], or else the end of the source, is. *)
Definition at_next (src : string) (l : list token) : span :=
  match l with t :: _ => t_span t | [] => at_end src end.

(** [k], inserted behind the tokens [pre] of the input [all], stands for a missing terminal [n]
    with literal [lit]: the token that is there is not that literal but may follow it (table
    [follow]), [k] is empty, placed at the end of [pre] (at the end of the source if there is no
    token), and the missing literal is among the errors [es], at the token that is there. *)
Definition inserted (follow : prod → tset) (src : string) (all : list token) (es : list perr)
    (n ty : nat) (lit : string) (pre : list token) (k : token) : Prop :=
  let next := drop (length pre) all in
  let x := head (word src next) in
  ts_contains (follow (key (TTok n ty (Some lit)))) x = true ∧ x ≠ Some (ty, lit) ∧
  k = Token (match next with [] => at_end src | _ => Span (end_pos 0 pre) (end_pos 0 pre) end) ty ∧
  PErr (at_next src next) (Expecting (fs_one ty (Some lit))) ∈ es.

(** ... for some literal terminal used in [t]. *)
Definition insertion (env : denv) (follow : prod → tset) (t : ty) (src : string) (all : list token)
    (es : list perr) (pre : list token) (k : token) : Prop :=
  ∃ n ty lit, within env t (TTok n ty (Some lit)) ∧ inserted follow src all es n ty lit pre k.
