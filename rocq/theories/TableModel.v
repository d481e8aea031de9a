(** Model of packages/teleparse/src/syntax/{first/builder,first/mod,follow/builder,
    follow/mod,jump,metadata}.rs over an arbitrary type [K] of symbol ids
    (Rust: TypeId).  No proofs in this file. *)
From Coq Require Import String Ascii.
From stdpp Require Import prelude list gmap strings.
From Verif Require Import SynSetModel.
Local Open Scope nat_scope.

Section tables.
  Context {K : Type} `{EqDecision K}.

  (** BTreeMap<TypeId, V> as an association list without duplicate keys. *)
  Fixpoint bt_get {V} (m : list (K * V)) (k : K) : option V :=
    match m with
    | [] => None
    | (k', v) :: r => if decide (k = k') then Some v else bt_get r k
    end.
  Fixpoint bt_remove {V} (m : list (K * V)) (k : K) : list (K * V) :=
    match m with
    | [] => []
    | (k', v) :: r => if decide (k = k') then bt_remove r k else (k', v) :: bt_remove r k
    end.
  Definition bt_insert {V} (m : list (K * V)) (k : K) (v : V) : list (K * V) :=
    (k, v) :: bt_remove m k.

  (** BTreeSet<TypeId> as a duplicate free list; [insert] returns "was not present". *)
  Definition bs_mem (s : list K) (k : K) : bool := bool_decide (k ∈ s).
  Definition bs_insert (s : list K) (k : K) : list K := if bs_mem s k then s else s ++ [k].
  Definition bs_remove (s : list K) (k : K) : list K := filter (λ x, x ≠ k) s.

  (** What a production registers, metadata.rs 33-53: the [ProductionEntry] (333-337)
      together with the terminal given to the FIRST builder. *)
  Inductive entry :=
  | EEps
  | ETok (ty : nat) (lit : option string)
  | ESeq (l : list K)
  | EUnion (l : list K).

  (** * FIRST builder *)

  (** first/builder.rs 102-111, 200-205 *)
  Inductive frel :=
  | FInsE (t : K)
  | FInsT (t : K) (ty : nat) (lit : option string)
  | FUnion (a b : K)
  | FIf (set : list K) (inner : frel).

  (** first/builder.rs 130-144 *)
  Definition f_if (set : list K) (r : frel) : frel :=
    match set with [] => r | _ => FIf set r end.

  (** [build_union], first/builder.rs 43-51 *)
  Definition f_build_union (x : K) (ys : list K) : list frel :=
    flat_map (λ y, [FUnion x y; f_if [y] (FInsE x)]) ys.

  (** [build_sequence], first/builder.rs 55-70; [set] = elements seen so far. *)
  Fixpoint f_build_seq_loop (x : K) (set : list K) (ys : list K) : list frel :=
    match ys with
    | [] => [f_if set (FInsE x)]
    | y :: r => f_if set (FUnion x y) :: f_build_seq_loop x (bs_insert set y) r
    end.
  Definition f_build_seq (x : K) (ys : list K) : list frel := f_build_seq_loop x [] ys.

  (** The FIRST relations added by one registration, metadata.rs 33-53. *)
  Definition f_rels (kx : K * entry) : list frel :=
    match kx with
    | (k, EEps) => [FInsE k]
    | (k, ETok ty lit) => [FInsT k ty lit]
    | (k, ESeq l) => f_build_seq k l
    | (k, EUnion l) => f_build_union k l
    end.

  Definition table := list (K * tset).
  (** [entry(..).or_default()], [remove(..).unwrap_or_default()], [First::get] 36-38 *)
  Definition tb_get (m : table) (k : K) : tset := default ts_new (bt_get m k).

  (** The test of [retain], first/builder.rs 174-177, negated. *)
  Definition tb_null (m : table) (k : K) : bool :=
    match bt_get m k with Some s => ts_contains_e s | None => false end.

  (** [process_rel], first/builder.rs 150-195: (changed, what to retain, table). *)
  Fixpoint f_process (r : frel) (m : table) : bool * option frel * table :=
    match r with
    | FInsE t =>
      let '(s, ch) := ts_insert_e (tb_get m t) in (ch, None, bt_insert m t s)
    | FInsT t ty lit =>
      let '(s, ch) := ts_insert (tb_get m t) ty lit in (ch, None, bt_insert m t s)
    | FUnion a b =>
      let first_a := tb_get m a in
      let m' := bt_remove m a in
      let '(s, ch) := match bt_get m' b with
                      | Some first_b => fs_union_minus_eps first_a first_b
                      | None => (first_a, false)
                      end in
      (ch, Some r, bt_insert m' a s)
    | FIf set inner =>
      let set' := filter (λ t, tb_null m t = false) set in
      match set' with
      | [] => f_process inner m
      | _ => (false, Some (FIf set' inner), m)
      end
    end.

  (** [process_rels], first/builder.rs 87-98 *)
  Fixpoint f_pass (rels : list frel) (m : table) : bool * list frel * table :=
    match rels with
    | [] => (false, [], m)
    | r :: rest =>
      let '(c, k, m') := f_process r m in
      let '(c', rest', m'') := f_pass rest m' in
      (c || c', match k with Some r' => r' :: rest' | None => rest' end, m'')
    end.

  (** The loop of [build], first/builder.rs 78-80. [None] = out of fuel. *)
  Fixpoint f_loop (fuel : nat) (rels : list frel) (m : table) : option table :=
    match fuel with
    | O => None
    | S f =>
      let '(c, rels', m') := f_pass rels m in
      if (c : bool) then f_loop f rels' m' else Some m'
    end.

  (** * FOLLOW builder *)

  (** follow/builder.rs 104-113 *)
  Inductive wrel :=
  | WFirst (a b : K)
  | WFollow (a b : K)
  | WIf (set : list K) (inner : wrel).

  (** follow/builder.rs 127-141 *)
  Definition w_if (set : list K) (r : wrel) : wrel :=
    match set with [] => r | _ => WIf set r end.

  (** [build_union], follow/builder.rs 49-55 *)
  Definition w_build_union (x : K) (ys : list K) : list wrel := map (λ y, WFollow y x) ys.

  (** First loop of [build_sequence], follow/builder.rs 60-67, over the reversed sequence. *)
  Fixpoint w_build_seq_loop (x : K) (set : list K) (rev_ys : list K) : list wrel :=
    match rev_ys with
    | [] => []
    | y :: r => w_if set (WFollow y x) :: w_build_seq_loop x (bs_insert set y) r
    end.
  (** [windows(2)] *)
  Fixpoint windows2 (ys : list K) : list (K * K) :=
    match ys with
    | a :: (b :: _) as r => (a, b) :: windows2 r
    | _ => []
    end.
  (** [build_sequence], follow/builder.rs 58-73 *)
  Definition w_build_seq (x : K) (ys : list K) : list wrel :=
    w_build_seq_loop x [] (rev ys) ++ map (λ '(a, b), WFirst a b) (rev (windows2 ys)).

  (** metadata.rs 66-76 *)
  Definition w_rels (kx : K * entry) : list wrel :=
    match kx with
    | (k, ESeq l) => w_build_seq k l
    | (k, EUnion l) => w_build_union k l
    | _ => []
    end.

  (** [process_rel], follow/builder.rs 147-185 *)
  Fixpoint w_process (first : table) (r : wrel) (m : table) : bool * wrel * table :=
    match r with
    | WFirst a b =>
      let '(s, ch) := fo_union_first (tb_get m a) (tb_get first b) in
      (ch, r, bt_insert m a s)
    | WFollow a b =>
      let follow_a := tb_get m a in
      let m' := bt_remove m a in
      let '(s, ch) := match bt_get m' b with
                      | Some follow_b => fo_union_follow follow_a follow_b
                      | None => (follow_a, false)
                      end in
      (ch, r, bt_insert m' a s)
    | WIf set inner =>
      let set' := filter (λ t, ts_contains_e (tb_get first t) = false) set in
      match set' with
      | [] => w_process first inner m
      | _ => (false, WIf set' inner, m)
      end
    end.

  (** One round of follow/builder.rs 91-93 *)
  Fixpoint w_pass (first : table) (rels : list wrel) (m : table) : bool * list wrel * table :=
    match rels with
    | [] => (false, [], m)
    | r :: rest =>
      let '(c, r', m') := w_process first r m in
      let '(c', rest', m'') := w_pass first rest m' in
      (c || c', r' :: rest', m'')
    end.

  (** follow/builder.rs 87-94 *)
  Fixpoint w_loop (fuel : nat) (first : table) (rels : list wrel) (m : table) : option table :=
    match fuel with
    | O => None
    | S f =>
      let '(c, rels', m') := w_pass first rels m in
      if (c : bool) then w_loop f first rels' m' else Some m'
    end.

  (** * Errors (syntax/error.rs GrammarError); symbols instead of their names. *)
  Inductive gerr :=
  | GLeftRecursion (stack : list K) (t : K)
  | GFirstFirst (self before inner : K) (r : list repr)
  | GFirstFollow (self : K) (r : list repr)
  | GSeq (self cur next : K) (r : list repr).

  (** * Left recursion check, metadata.rs 91-190 *)
  Inductive lr_res :=
  | LFuel
  | LErr (e : gerr)
  | LOk (seen set stack : list K).

  Section lr.
    Variable (prods : list (K * entry)) (first : table).

    (** Loop over variants, metadata.rs 120-127. *)
    Fixpoint lr_union (rec : K → list K → list K → list K → lr_res)
        (ys : list K) (seen set stack : list K) : lr_res :=
      match ys with
      | [] => LOk seen set stack
      | y :: r =>
        match rec y seen set stack with
        | LOk seen' set' stack' => lr_union rec r seen' set' stack'
        | e => e
        end
      end.

    (** Loop over the remaining elements of a sequence, metadata.rs 160-185.
        [main]: cur_set/cur_stack are the caller's ([need_pop]); otherwise they are
        the temporaries. *)
    Fixpoint lr_seq (rec : K → list K → list K → list K → lr_res) (t : K)
        (main : bool) (ys : list K) (seen set stack tset tstack : list K) : lr_res :=
      match ys with
      | [] =>
        if main then LOk seen (bs_remove set t) (removelast stack) else LOk seen set stack
      | y :: r =>
        let c := if main then rec y seen set stack else rec y seen tset tstack in
        match c with
        | LOk seen' cset cstack =>
          let set1 := if main then cset else set in
          let stack1 := if main then cstack else stack in
          let tset1 := if main then tset else cset in
          let tstack1 := if main then tstack else cstack in
          if ts_contains_e (tb_get first y) then
            lr_seq rec t main r seen' set1 stack1 tset1 tstack1
          else if main then
            lr_seq rec t false r seen' (bs_remove set1 t) (removelast stack1) [] []
          else
            lr_seq rec t false r seen' set1 stack1 [] []
        | e => e
        end
      end.

    Fixpoint check_lr (fuel : nat) (t : K) (seen set stack : list K) : lr_res :=
      match fuel with
      | O => LFuel
      | S f =>
        if bs_mem seen t then LOk seen set stack
        else
          let seen := bs_insert seen t in
          if bs_mem set t then LErr (GLeftRecursion stack t)
          else
            let set := bs_insert set t in
            match bt_get prods t with
            | None | Some EEps | Some (ETok _ _) => LOk seen (bs_remove set t) stack
            | Some (EUnion ys) =>
              match lr_union (check_lr f) ys seen set (stack ++ [t]) with
              | LOk seen' set' stack' => LOk seen' (bs_remove set' t) (removelast stack')
              | e => e
              end
            | Some (ESeq []) => LOk seen (bs_remove set t) stack
            | Some (ESeq (y :: r)) =>
              match check_lr f y seen set (stack ++ [t]) with
              | LOk seen' set' stack' =>
                if ts_contains_e (tb_get first y) then
                  lr_seq (check_lr f) t true r seen' set' stack' [] []
                else
                  lr_seq (check_lr f) t false r seen' (bs_remove set' t) (removelast stack') [] []
              | e => e
              end
            end
      end.
  End lr.

  (** * Conflict checks, metadata.rs 192-303 *)
  Inductive ck_res :=
  | CFuel
  | CErr (e : gerr)
  | COk (seen : list K).

  Section ck.
    Variable (prods : list (K * entry)) (first follow : table).

    (** The search for the conflicting variant, metadata.rs 212-230. *)
    Fixpoint find_before (t inner : K) (ys : list K) : option gerr :=
      match ys with
      | [] => None
      | b :: r =>
        if fs_intersects (tb_get first inner) (tb_get first b)
        then Some (GFirstFirst t b inner
                     (ts_intersection_repr (tb_get first inner) (tb_get first b) true))
        else find_before t inner r
      end.

    (** metadata.rs 207-233 *)
    Fixpoint ck_union_loop (t : K) (all : list K) (check_set : tset) (ys : list K) : option gerr :=
      match ys with
      | [] => None
      | y :: r =>
        let continue := ck_union_loop t all (fst (fs_union check_set (tb_get first y))) r in
        if fs_intersects check_set (tb_get first y)
        then match find_before t y all with Some e => Some e | None => continue end
        else continue
      end.

    (** metadata.rs 251-271 *)
    Fixpoint ck_seq_loop (t cur : K) (cur_check : tset) (ys : list K) : option gerr :=
      match ys with
      | [] => None
      | y :: r =>
        let next_first := tb_get first y in
        if fs_intersects_minus_eps cur_check next_first
        then Some (GSeq t cur y (ts_intersection_repr cur_check next_first false))
        else if ts_contains_e next_first
        then ck_seq_loop t cur (fst (fs_union_minus_eps cur_check next_first)) r
        else ck_seq_loop t y (ts_clear cur_check) r
      end.

    (** [check_self_first_follow_conflict], metadata.rs 282-303 *)
    Definition ck_self (t : K) : option gerr :=
      let first_set := tb_get first t in
      if negb (ts_contains_e first_set) then None
      else
        let follow_set := tb_get follow t in
        if fo_intersects_first follow_set first_set
        then Some (GFirstFollow t (ts_intersection_repr follow_set first_set false))
        else None.

    (** The recursion over components, metadata.rs 235-237, 273-275. *)
    Fixpoint ck_all (rec : K → list K → ck_res) (ys : list K) (seen : list K) : ck_res :=
      match ys with
      | [] => COk seen
      | y :: r => match rec y seen with COk seen' => ck_all rec r seen' | e => e end
      end.

    (** The checks made at one symbol, metadata.rs 206-234, 239-272. *)
    Definition ck_local (t : K) (e : entry) : option gerr :=
      match e with
      | EEps | ETok _ _ => None
      | EUnion ys =>
        match ck_union_loop t ys ts_new ys with Some e => Some e | None => ck_self t end
      | ESeq [] => None
      | ESeq (y :: r) =>
        let cf := tb_get first y in
        match ck_seq_loop t y (if ts_contains_e cf then cf else ts_new) r with
        | Some e => Some e
        | None => ck_self t
        end
      end.

    Definition comps (e : entry) : list K :=
      match e with ESeq l | EUnion l => l | _ => [] end.

    Fixpoint check_conflicts (fuel : nat) (t : K) (seen : list K) : ck_res :=
      match fuel with
      | O => CFuel
      | S f =>
        if bs_mem seen t then COk seen
        else
          let seen := bs_insert seen t in
          match bt_get prods t with
          | None => COk seen
          | Some e =>
            match ck_local t e with
            | Some err => CErr err
            | None => ck_all (check_conflicts f) (comps e) seen
            end
          end
      end.
  End ck.

  (** * Jump table, jump.rs *)

  (** jump.rs 78-87; array padded with the default entry. *)
  Record jtable := JTable {
    jt_eps : option nat;
    jt_map : list (option nat * gmap string nat) }.
  Definition jt_new : jtable := JTable None [].
  Definition je_new : option nat * gmap string nat := (None, ∅).
  Definition jm_get (m : list (option nat * gmap string nat)) (ty : nat) :=
    default je_new (m !! ty).
  Fixpoint jm_set (m : list (option nat * gmap string nat)) (ty : nat)
      (v : option nat * gmap string nat) : list (option nat * gmap string nat) :=
    match ty, m with
    | O, [] => [v]
    | O, _ :: r => v :: r
    | S k, [] => je_new :: jm_set [] k v
    | S k, x :: r => x :: jm_set r k v
    end.

  (** jump.rs 130-145 *)
  Definition jt_register_eps (j : jtable) (v : nat) : jtable := JTable (Some v) (jt_map j).
  Definition jt_register (j : jtable) (v ty : nat) : jtable :=
    JTable (jt_eps j) (jm_set (jt_map j) ty (Some v, snd (jm_get (jt_map j) ty))).
  Definition jt_register_lit (j : jtable) (v ty : nat) (lit : string) : jtable :=
    JTable (jt_eps j)
      (jm_set (jt_map j) ty (fst (jm_get (jt_map j) ty), <[lit := v]> (snd (jm_get (jt_map j) ty)))).

  (** jump.rs 119-126 *)
  Definition jt_look_up_token (j : jtable) (t : tok) : option nat :=
    let e := jm_get (jt_map j) (fst t) in
    match snd e !! snd t with Some v => Some v | None => fst e end.
  (** jump.rs 111-115 *)
  Definition jt_look_up (j : jtable) (t : option tok) : option nat :=
    match t with Some t => jt_look_up_token j t | None => jt_eps j end.

  (** The loop of [add_to_jump_table], first/set.rs 119-128, from type [ty] on. *)
  Fixpoint jt_add_types (j : jtable) (v ty : nat) (m : list litset) : jtable :=
    match m with
    | [] => j
    | l :: r =>
      let j' := match lit_iter l with
                | None => jt_register j v ty
                | Some ls => foldl (λ j x, jt_register_lit j v ty x) j ls
                end in
      jt_add_types j' v (S ty) r
    end.
  (** [add_to_jump_table], first/set.rs 115-129 *)
  Definition jt_add (j : jtable) (first : tset) (v : nat) : jtable :=
    let j' := if ts_contains_e first then jt_register_eps j v else j in
    jt_add_types j' v 0 (ts_map first).

  Definition jump := list (K * jtable).
  (** [Jump::register], jump.rs 47-50 *)
  Definition jump_register (jm : jump) (t : K) (first : tset) (v : nat) : jump :=
    bt_insert jm t (jt_add (default jt_new (bt_get jm t)) first v).
  (** [Jump::look_up], jump.rs 53-55 *)
  Definition jump_look_up (jm : jump) (t : K) (tk : option tok) : option nat :=
    match bt_get jm t with Some j => jt_look_up j tk | None => None end.

  Section bj.
    Variable (prods : list (K * entry)) (first : table).

    (** Loops of [build_jump], metadata.rs 318-329. [reg]: register each component
        (union) or not (sequence). *)
    Fixpoint bj_all (rec : K → list K → jump → option (list K * jump)) (t : K) (reg : bool)
        (i : nat) (ys : list K) (seen : list K) (jm : jump) : option (list K * jump) :=
      match ys with
      | [] => Some (seen, jm)
      | y :: r =>
        let jm' := if reg then jump_register jm t (tb_get first y) i else jm in
        '(seen', jm'') ← rec y seen jm';
        bj_all rec t reg (S i) r seen' jm''
      end.

    (** metadata.rs 305-331; [None] = out of fuel. *)
    Fixpoint build_jump (fuel : nat) (t : K) (seen : list K) (jm : jump) : option (list K * jump) :=
      match fuel with
      | O => None
      | S f =>
        if bs_mem seen t then Some (seen, jm)
        else
          let seen := bs_insert seen t in
          match bt_get prods t with
          | None | Some EEps | Some (ETok _ _) => Some (seen, jm)
          | Some (ESeq ys) => bj_all (build_jump f) t false 0 ys seen jm
          | Some (EUnion ys) => bj_all (build_jump f) t true 0 ys seen jm
          end
      end.
  End bj.

  (** * MetadataBuilder::build, metadata.rs 55-89 *)
  Record metadata := Meta { md_first : table; md_follow : table; md_jump : jump }.

  (** Fuel for the fixpoint loops: number of token types, literals and symbols mentioned. *)
  Definition ent_toks (e : entry) : list (nat * option string) :=
    match e with ETok ty lit => [(ty, lit)] | _ => [] end.
  Definition reg_toks (regs : list (K * entry)) : list (nat * option string) :=
    flat_map (λ kx, ent_toks (snd kx)) regs.
  Definition reg_nv (regs : list (K * entry)) : nat :=
    foldr (λ '(ty, _) n, Nat.max (S ty) n) 0 (reg_toks regs).
  Definition reg_lits (regs : list (K * entry)) : gset string :=
    list_to_set (omap snd (reg_toks regs)).
  Definition reg_syms (regs : list (K * entry)) : list K :=
    flat_map (λ kx, fst kx :: comps (snd kx)) regs.
  Definition table_fuel (regs : list (K * entry)) : nat :=
    2 + S (length (reg_syms regs)) * (1 + reg_nv regs * S (size (reg_lits regs))).

  (** [regs]: the registrations in registration order (FIRST relations, names);
      [iter]: the same entries in the iteration order of the BTreeMap (TypeId order).
      [None] = out of fuel. *)
  Definition first_build (regs : list (K * entry)) : option table :=
    f_loop (table_fuel regs) (flat_map f_rels regs) [].
  Definition follow_build (iter : list (K * entry)) (first : table) (root : K) : option table :=
    w_loop (table_fuel iter) first (flat_map w_rels iter)
      (bt_insert [] root (fo_insert_eof ts_new)).

  Definition meta_build (regs iter : list (K * entry)) (root : K) : option (gerr + metadata) :=
    first ← first_build regs;
    match check_lr iter first (S (S (length iter))) root [] [] [] with
    | LFuel => None
    | LErr e => Some (inl e)
    | LOk _ _ _ =>
      follow ← follow_build iter first root;
      match check_conflicts iter first follow (S (S (length iter))) root [] with
      | CFuel => None
      | CErr e => Some (inl e)
      | COk _ =>
        '(_, jm) ← build_jump iter first (S (S (length iter))) root [] [];
        Some (inr (Meta first follow jm))
      end
    end.
End tables.

Arguments entry : clear implicits.
Arguments metadata : clear implicits.
Arguments gerr : clear implicits.
Arguments table : clear implicits.
Arguments jump : clear implicits.
Arguments frel : clear implicits.
Arguments wrel : clear implicits.
Arguments lr_res : clear implicits.
Arguments ck_res : clear implicits.
