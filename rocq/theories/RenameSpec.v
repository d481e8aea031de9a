(** Specification of renaming: token types, declarations and terminals under other numbers. *)
From Coq Require Import String NArith.
From stdpp Require Import prelude list strings.
From Verif Require Import LexModel SynSetModel TableModel StreamModel TypeModel ProduceModel.
Local Open Scope nat_scope.

(** The new numbers of token types (variants of the lexicon), declarations and terminal structs.  Different ones stay different;
    numbers that are not used may be taken by something new. *)
Record renaming := Renaming { rn_type : nat → nat; rn_decl : nat → nat; rn_term : nat → nat }.
Definition distinct (r : renaming) : Prop := Inj (=) (=) (rn_type r) ∧ Inj (=) (=) (rn_decl r) ∧ Inj (=) (=) (rn_term r).

Section rename.
  Variable r : renaming.

  (** The same types, productions and declarations. *)
  Fixpoint re_ty (t : ty) : ty :=
    match t with
    | TTok n y lit => TTok (rn_term r n) (rn_type r y) lit
    | TNamed n => TNamed (rn_decl r n)
    | TTuple l => TTuple (map re_ty l)
    | TBox t => TBox (re_ty t)
    | TOpt t => TOpt (re_ty t)
    | TExists t => TExists (re_ty t)
    | TQuote t => TQuote (re_ty t)
    | TParse t => TParse (re_ty t)
    | TPlus t => TPlus (re_ty t)
    | TStar t => TStar (re_ty t)
    | TLoop t => TLoop (re_ty t)
    | TSplit t p => TSplit (re_ty t) (re_ty p)
    | TPunct t p => TPunct (re_ty t) (re_ty p)
    | TRecover t p => TRecover (re_ty t) (re_ty p)
    end.
  Fixpoint re_prod (p : prod) : prod :=
    match p with
    | PTok n y lit => PTok (rn_term r n) (rn_type r y) lit
    | PNamed n => PNamed (rn_decl r n)
    | PTuple l => PTuple (map re_prod l)
    | POpt p => POpt (re_prod p)
    | POneMore p => POneMore (re_prod p)
    | PPunct p q => PPunct (re_prod p) (re_prod q)
    | PEps => PEps
    | PBox p => PBox (re_prod p)
    end.
  (** A set of token types, as bits. *)
  Definition re_sem (s : N) : N :=
    foldr (λ i a, if N.testbit s (N.of_nat i) then N.setbit a (N.of_nat (rn_type r i)) else a) 0%N (seq 0 (N.to_nat (N.size s))).
  Definition re_field (f : field) : field := (re_ty (fst f), re_sem <$> snd f).
  Definition re_decl (d : decl) : decl := match d with DStruct l => DStruct (map re_field l) | DEnum l => DEnum (map re_field l) end.
  (** [env'] declares what [env] declares, under the new numbers.  It may declare more. *)
  Definition redeclared (env env' : denv) : Prop := ∀ n, env' !! rn_decl r n = re_decl <$> env !! n.
  (** What the builder has registered for it *)
  Definition re_entry (e : entry prod) : entry prod :=
    match e with
    | EEps => EEps
    | ETok y lit => ETok (rn_type r y) lit
    | ESeq l => ESeq (map re_prod l)
    | EUnion l => EUnion (map re_prod l)
    end.
  Definition re_reg (x : prod * entry prod) : prod * entry prod := (re_prod (fst x), re_entry (snd x)).

  (** The same tokens and trees. *)
  Definition re_token (t : token) : token := Token (t_span t) (rn_type r (t_ty t)).
  Definition re_tok (x : tok) : tok := (rn_type r (fst x), snd x).
  Definition re_cell (c : cell) : cell := Cell (re_token (c_tok c)) (re_sem (c_sem c)).
  Definition re_raw (e : raw) : raw := match e with RTok y sp => RTok (rn_type r y) sp | RErr sp => RErr sp end.
  Fixpoint re_tree (x : tree) : tree :=
    match x with
    | TrTok t => TrTok (re_token t)
    | TrSeq l => TrSeq (map re_tree l)
    | TrVar i x => TrVar i (re_tree x)
    | TrOpt sp o => TrOpt sp (match o with Some x => Some (re_tree x) | None => None end)
    | TrExists sp b => TrExists sp b
    | TrQuote sp s => TrQuote sp s
    | TrParse sp s => TrParse sp s
    | TrList sp l => TrList sp (map re_tree l)
    | TrSplit sp a b => TrSplit sp (map re_tree a) (map re_tree b)
    | TrPunct sp a b => TrPunct sp (map re_tree a) (map re_tree b)
    | TrRecover sp o x => TrRecover sp (match o with Some x => Some (re_tree x) | None => None end) (re_tree x)
    end.

  (** [s'] has the members of [s] and no others. *)
  Definition same_set (s s' : tset) : Prop :=
    ∀ o', ts_contains s' o' = true ↔ ∃ o, o' = re_tok <$> o ∧ ts_contains s o = true.
  Definition same_kind (k k' : ekind) : Prop :=
    match k, k' with
    | Expecting s, Expecting s' => same_set s s'
    | Expecting _, _ | _, Expecting _ => False
    | _, _ => k' = k
    end.
  Definition same_err (e e' : perr) : Prop := e_span e' = e_span e ∧ same_kind (e_kind e) (e_kind e').
  (** The same parser on the same source. *)
  Record same_state (s s' : pst) : Prop := SameState {
    ss_src : p_src s' = p_src s;
    ss_evs : p_evs s' = map re_raw (p_evs s);
    ss_peeked : p_peeked s' = re_token <$> p_peeked s;
    ss_invalid : p_invalid s' = p_invalid s;
    ss_tokens : p_tokens s' = map re_cell (p_tokens s);
    ss_extracted : p_extracted s' = map re_token (p_extracted s);
    ss_errors : Forall2 same_err (p_errors s) (p_errors s') }.

  (** The same list of terminals in a grammar error (the order is that of the token types). *)
  Definition re_repr (x : repr) : repr := match x with RTy y => RTy (rn_type r y) | _ => x end.
  Definition same_reprs (l l' : list repr) : Prop := ∀ y, y ∈ l' ↔ ∃ x, y = re_repr x ∧ x ∈ l.
  Definition same_gerr (e e' : gerr prod) : Prop :=
    match e, e' with
    | GLeftRecursion l t, GLeftRecursion l' t' => l' = map re_prod l ∧ t' = re_prod t
    | GFirstFirst a b c l, GFirstFirst a' b' c' l' => a' = re_prod a ∧ b' = re_prod b ∧ c' = re_prod c ∧ same_reprs l l'
    | GFirstFollow a l, GFirstFollow a' l' => a' = re_prod a ∧ same_reprs l l'
    | GSeq a b c l, GSeq a' b' c' l' => a' = re_prod a ∧ b' = re_prod b ∧ c' = re_prod c ∧ same_reprs l l'
    | _, _ => False
    end.
  (** The same verdict; if the grammar is accepted, the same answers from the tables. *)
  Definition same_meta (m m' : gerr prod + metadata prod) : Prop :=
    match m, m' with
    | inl e, inl e' => same_gerr e e'
    | inr md, inr md' => ∀ p,
        same_set (tb_get (md_first md) p) (tb_get (md_first md') (re_prod p)) ∧
        same_set (tb_get (md_follow md) p) (tb_get (md_follow md') (re_prod p)) ∧
        ∀ o, jump_look_up (md_jump md') (re_prod p) (re_tok <$> o) = jump_look_up (md_jump md) p o
    | _, _ => False
    end.
  (** The same answer of [Parser::parse]. *)
  Definition same_answer (a a' : gerr prod + option tree) : Prop :=
    match a, a' with
    | inl e, inl e' => same_gerr e e'
    | inr o, inr o' => o' = re_tree <$> o
    | _, _ => False
    end.
  Definition same_out {A B} (Q : A → B → Prop) (o : out A pst) (o' : out B pst) : Prop :=
    match o, o' with
    | OFuel, OFuel | OCrash, OCrash => True
    | ODone a s, ODone b s' => Q a b ∧ same_state s s'
    | _, _ => False
    end.
End rename.
