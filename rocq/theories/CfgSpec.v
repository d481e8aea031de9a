(** Specification vocabulary for the grammar analysis: context free derivations,
    FIRST, FOLLOW and LL(1) in the textbook sense.  Independent of the tables. *)
From Coq Require Import String.
From stdpp Require Import prelude list gmap strings relations.
From Verif Require Import SynSetModel TableModel.
Local Open Scope nat_scope.

Section spec.
  Context {K : Type}.

  (** A grammar: what each symbol is declared to be. *)
  Definition grammar : Type := list (K * entry K).

  (** Sentential forms: symbols and concrete tokens (type, text). *)
  Inductive sym := N (k : K) | T (t : tok).

  (** A terminal declaration [(ty, lit)] covers token [t]; no literal: any text. *)
  Definition covers (ty : nat) (lit : option string) (t : tok) : Prop :=
    fst t = ty ∧ (lit = None ∨ lit = Some (snd t)).

  Variable G : grammar.

  Inductive rhs : K → list sym → Prop :=
  | rhs_eps k : (k, EEps) ∈ G → rhs k []
  | rhs_tok k ty lit t : (k, ETok ty lit) ∈ G → covers ty lit t → rhs k [T t]
  | rhs_seq k l : (k, ESeq l) ∈ G → rhs k (map N l)
  | rhs_union k l y : (k, EUnion l) ∈ G → y ∈ l → rhs k [N y].

  Inductive step : list sym → list sym → Prop :=
  | step_rhs α k γ β : rhs k γ → step (α ++ N k :: β) (α ++ γ ++ β).

  Definition derives : list sym → list sym → Prop := rtc step.

  (** FIRST *)
  Definition nullable (k : K) : Prop := derives [N k] [].
  Definition starts (k : K) (t : tok) : Prop := ∃ β, derives [N k] (T t :: β).

  (** FOLLOW; end of input is [None]. *)
  Definition follows (root k : K) (t : option tok) : Prop :=
    match t with
    | Some t => ∃ α β, derives [N root] (α ++ N k :: T t :: β)
    | None => ∃ α, derives [N root] (α ++ [N k])
    end.

  (** The followers the code looks for: only the next element of a sequence, and the
      followers of the parent when all later elements are nullable. *)
  Inductive near_follow (root : K) : K → option tok → Prop :=
  | nf_root : near_follow root root None
  | nf_next x l1 a b l2 t :
      (x, ESeq (l1 ++ a :: b :: l2)) ∈ G → starts b t → near_follow root a (Some t)
  | nf_last x l1 a l2 t :
      (x, ESeq (l1 ++ a :: l2)) ∈ G → Forall nullable l2 → near_follow root x t →
      near_follow root a t
  | nf_union x l y t :
      (x, EUnion l) ∈ G → y ∈ l → near_follow root x t → near_follow root y t.

  (** The textbook rules: the same, with nullable elements allowed in between. *)
  Inductive far_follow (root : K) : K → option tok → Prop :=
  | ff_root : far_follow root root None
  | ff_next x l1 a m b l2 t :
      (x, ESeq (l1 ++ a :: m ++ b :: l2)) ∈ G → Forall nullable m → starts b t → far_follow root a (Some t)
  | ff_last x l1 a l2 t :
      (x, ESeq (l1 ++ a :: l2)) ∈ G → Forall nullable l2 → far_follow root x t →
      far_follow root a t
  | ff_union x l y t :
      (x, EUnion l) ∈ G → y ∈ l → far_follow root x t → far_follow root y t.

  (** [k] occurs in some sentential form of [root]. *)
  Definition reachable (root k : K) : Prop := ∃ α β, derives [N root] (α ++ N k :: β).

  (** Two symbols are told apart neither by the next token nor by being empty. *)
  Definition clash (a b : K) : Prop :=
    (∃ t, starts a t ∧ starts b t) ∨ (nullable a ∧ nullable b).

  (** A nullable element of a sequence and a later one, only nullable ones between, that
      can start with the same token. *)
  Definition seq_clash (l : list K) : Prop :=
    ∃ l1 y l2 z l3 t, l = l1 ++ y :: l2 ++ z :: l3 ∧ nullable y ∧ Forall nullable l2 ∧
      starts y t ∧ starts z t.

  (** Every text of token type [ty] can start [y]. *)
  Definition opens (y : K) (ty : nat) : Prop := ∀ s, starts y (ty, s).

  (** What the code takes for such a clash: the elements in between may also be non
      nullable when [y] can start with every text of the token's type. *)
  Definition seq_clash_seen (l : list K) : Prop :=
    ∃ l1 y l2 z l3 t, l = l1 ++ y :: l2 ++ z :: l3 ∧ nullable y ∧
      (Forall nullable l2 ∨ opens y (fst t)) ∧ starts y t ∧ starts z t.

  (** The declared child through which the lexicon type of a declaration is inferred
      (its first component) leads to a terminal. *)
  Inductive anchored : K → Prop :=
  | anchored_tok k ty lit : (k, ETok ty lit) ∈ G → anchored k
  | anchored_seq k y l : (k, ESeq (y :: l)) ∈ G → anchored y → anchored k
  | anchored_union k y l : (k, EUnion (y :: l)) ∈ G → anchored y → anchored k.
  Definition all_anchored : Prop :=
    ∀ k e, (k, e) ∈ G → e ≠ EEps → anchored k.

  (** Textbook LL(1) condition for the choice k → l1 | ... | ln. *)
  Definition choice_ll1 (root k : K) (l : list K) : Prop :=
    ∀ i j yi yj, i ≠ j → l !! i = Some yi → l !! j = Some yj →
      (∀ t, starts yi t → starts yj t → False) ∧
      (nullable yi → nullable yj → False) ∧
      (nullable yi → ∀ t, starts yj t → follows root k (Some t) → False).

  Definition LL1 (root : K) : Prop :=
    ∀ k l, reachable root k → (k, EUnion l) ∈ G → choice_ll1 root k l.

  (** [k] can derive a form starting with itself. *)
  Definition left_recursive (k : K) : Prop := ∃ β, tc step [N k] (N k :: β).

  (** Well formed table of declarations: one per symbol. *)
  Definition functional : Prop := NoDup G.*1.

  (** Every declared symbol is reachable from [root]: what registration produces. *)
  Definition all_reachable (root : K) : Prop := ∀ k e, (k, e) ∈ G → reachable root k.

  (** No sequence has a nullable element strictly between its first and last one. *)
  Definition no_nullable_interior : Prop :=
    ∀ k l i y, (k, ESeq l) ∈ G → l !! i = Some y → 0 < i → S i < length l → ¬ nullable y.

  (** No nullable element of a sequence can start with every text of some token type. *)
  Definition no_open_nullable : Prop :=
    ∀ k l y ty, (k, ESeq l) ∈ G → y ∈ l → nullable y → ¬ ∀ s, starts y (ty, s).
End spec.
Arguments sym : clear implicits.
Arguments grammar : clear implicits.

(** Results that mean the same: the same error, or tables with the same members and the
    same predictive table. *)
Definition meta_equiv {K} `{EqDecision K} (r r' : option (gerr K + metadata K)) : Prop :=
  match r, r' with
  | Some (inl e), Some (inl e') => e = e'
  | Some (inr m), Some (inr m') =>
      (∀ k t, ts_contains (tb_get (md_first m) k) t = ts_contains (tb_get (md_first m') k) t) ∧
      (∀ k t, ts_contains (tb_get (md_follow m) k) t = ts_contains (tb_get (md_follow m') k) t) ∧
      md_jump m = md_jump m'
  | _, _ => False
  end.

(** What an error message lists as common to [a] and [b]: ["<empty>"] if both are
    nullable, a token type if both can start with all of its texts, else a literal text. *)
Definition common_item {K} (G : grammar K) (eps : bool) (a b : K) (r : repr) : Prop :=
  match r with
  | REmpty => eps = true ∧ nullable G a ∧ nullable G b
  | RLit x => ∃ ty, starts G a (ty, x) ∧ starts G b (ty, x) ∧ ¬ (opens G a ty ∧ opens G b ty)
  | RTy ty => opens G a ty ∧ opens G b ty
  end.
