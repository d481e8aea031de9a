(** Model of the [Produce] implementations: packages/teleparse/src/tp_impl/*.rs,
    macros/src/{syntax,lexicon}.rs (derived impls), and of [Parser::parse]
    (parser_impl.rs 45-85).  No proofs in this file. *)
From Coq Require Import String NArith.
From stdpp Require Import prelude list strings.
From Verif Require Import LexModel SynSetModel TableModel StreamModel TypeModel.
Local Open Scope nat_scope.

(** Produced values.  [Box] is transparent (boxed.rs).  [Parse] keeps the text given to
    [FromStr] in place of its result (string.rs 49-62). Collections are lists. *)
Inductive tree :=
| TrTok (t : token)
| TrSeq (l : list tree)
| TrVar (i : nat) (x : tree)
| TrOpt (sp : span) (o : option tree)
| TrExists (sp : span) (b : bool)
| TrQuote (sp : span) (s : string)
| TrParse (sp : span) (s : string)
| TrList (sp : span) (l : list tree)
| TrSplit (sp : span) (elems puncts : list tree)
| TrPunct (sp : span) (elems puncts : list tree)
| TrRecover (sp : span) (head : option tree) (tail : tree).

(** [ToSpan::lo]: lexicon.rs 426 and lex/token.rs (terminals), lex/span.rs 105-123 (tuples),
    syntax.rs 114-116, 204-206 (structs), to_span.rs (enums, nodes), recover.rs 16-27 *)
Fixpoint tree_lo (x : tree) : nat :=
  match x with
  | TrTok t => sp_lo (t_span t)
  | TrSeq l => match l with y :: _ => tree_lo y | [] => 0 end
  | TrVar _ y => tree_lo y
  | TrOpt sp _ | TrExists sp _ | TrQuote sp _ | TrParse sp _ | TrList sp _
  | TrSplit sp _ _ | TrPunct sp _ _ | TrRecover sp _ _ => sp_lo sp
  end.
(** [ToSpan::hi] *)
Fixpoint tree_hi (x : tree) : nat :=
  match x with
  | TrTok t => sp_hi (t_span t)
  | TrSeq l =>
      (fix go l := match l with [] => 0 | [y] => tree_hi y | _ :: r => go r end) l
  | TrVar _ y => tree_hi y
  | TrOpt sp _ | TrExists sp _ | TrQuote sp _ | TrParse sp _ | TrList sp _
  | TrSplit sp _ _ | TrPunct sp _ _ => sp_hi sp
  | TrRecover _ _ y => tree_hi y
  end.
(** [ToSpan::span], lex/span.rs 75-77 *)
Definition tree_span (x : tree) : span := Span (tree_lo x) (tree_hi x).

(** A [Result] taken apart: [Success(a)] is treated as [Recovered(a, [])] wherever the code
    does the same for both. *)
Definition unres {A} (r : res A) : option A * list perr :=
  match r with RSucc a => (Some a, []) | RRec a es => (Some a, es) | RPanic es => (None, es) end.

(** [p.span.hi = hi] *)
Definition set_hi (e : perr) (hi : nat) : perr := PErr (Span (sp_lo (e_span e)) hi) (e_kind e).
(** What is kept of the errors of a panicking attempt: split.rs 136-143, punct.rs 180-187,
    recover.rs 65-71, 85-91 *)
Definition merge_panic (panic : option perr) (es : list perr) : option perr :=
  match last es with
  | Some e => Some (match panic with Some p => set_hi p (sp_hi (e_span e)) | None => e end)
  | None => panic
  end.

(** Fields in order with [handle_result!] (error.rs 90-105): tuple.rs 36-48,
    syntax.rs 127-133, 217-223 *)
Fixpoint produce_seq (rec : ty → M (res tree)) (ts : list ty) (acc : list tree) (errs : list perr)
  : M (res (list tree)) :=
  match ts with
  | [] => mret (res_into acc errs)
  | t :: r =>
    x ← rec t;
    match unres x with
    | (Some a, e) => produce_seq rec r (acc ++ [a]) (errs ++ e)
    | (None, e) => mret (RPanic (errs ++ e))
    end
  end.

(** [parser.apply_semantic(&result.field, ..)] for the annotated fields in order,
    syntax.rs 75-92, 161-176 *)
Fixpoint apply_fields (fs : list field) (xs : list tree) : M unit :=
  match fs, xs with
  | (_, Some sem) :: fs, x :: xs => _ ← apply_semantic (tree_span x) sem; apply_fields fs xs
  | (_, None) :: fs, _ :: xs => apply_fields fs xs
  | _, _ => mret tt
  end.

(** [produce_option], option.rs 78-107; [sp] gives the span of the inner value. *)
Definition produce_option {X} (p : M (res X)) (sp : X → span) (first : tset)
  : M (res (span * option X)) :=
  tk ← peek_src;
  match tk with
  | None => e ← empty_span; mret (RSucc (e, None))
  | Some x =>
    if ts_contains first (Some x) then
      r ← p;
      match r with
      | RSucc t => mret (RSucc (sp t, Some t))
      | RRec t es => mret (RRec (sp t, Some t) es)
      | RPanic es => e ← empty_span; mret (RRec (e, None) es)
      end
    else e ← empty_span; mret (RSucc (e, None))
  end.

(** [ProduceIter::next] driven by [collect], iter.rs 186-206 and 57: elements, errors, [hi] *)
Fixpoint iter_loop (n : nat) (p : M (res tree)) (first : tset) (acc : list tree)
    (errs : list perr) (hi : nat) : M (list tree * list perr * nat) :=
  match n with
  | O => Fuel
  | S n =>
    tk ← peek_src;
    match tk with
    | None => mret (acc, errs, hi)
    | Some x =>
      if ts_contains first (Some x) then
        r ← p;
        match unres r with
        | (Some t, e) => iter_loop n p first (acc ++ [t]) (errs ++ e) (tree_hi t)
        | (None, e) => mret (acc, errs ++ e, hi)
        end
      else mret (acc, errs, hi)
    end
  end.
(** [Plus::produce], iter.rs 36-59 *)
Definition produce_plus (n : nat) (p : M (res tree)) (first : tset) : M (res (span * list tree)) :=
  r ← p;
  match unres r with
  | (Some t, e) =>
    '(l, errs, hi) ← iter_loop n p first [t] e (tree_hi t);
    mret (res_into (Span (tree_lo t) hi, l) errs)
  | (None, e) => mret (RPanic e)
  end.

(** The inner [while] of [Loop], iter.rs 114-118: the token found and [skip_hi] *)
Fixpoint skip_loop (n : nat) (first : tset) (tk : option tok) (hi : nat) : M (option tok * nat) :=
  match n with
  | O => Fuel
  | S n =>
    match tk with
    | Some x =>
      if ts_contains first (Some x) then mret (tk, hi)
      else sp ← cur_span; _ ← consume; tk' ← peek_src; skip_loop n first tk' (sp_hi sp)
    | None => mret (None, hi)
    end
  end.
(** The loop of [Loop::produce], iter.rs 101-148 *)
Fixpoint loop_loop (n : nat) (p : M (res tree)) (first : tset) (acc : list tree)
    (errs : list perr) : M (list tree * list perr) :=
  match n with
  | O => Fuel
  | S n =>
    tk ← peek_src;
    match tk with
    | None => mret (acc, errs)
    | Some x =>
      '(tk1, errs1) ←
        (if ts_contains first (Some x) then mret (tk, errs)
         else
           sp ← cur_span; _ ← consume; tk' ← peek_src;
           '(tk1, hi) ← skip_loop n first tk' (sp_hi sp);
           mret (tk1, errs ++ [PErr (Span (sp_lo sp) hi) UnexpectedTokens]));
      match tk1 with
      | None => mret (acc, errs1)
      | Some _ =>
        sp0 ← cur_span;
        r ← p;
        let '(o, e) := unres r in
        let acc1 := acc ++ option_list o in
        let errs2 := errs1 ++ e in
        sp1 ← cur_span;
        if sp_lo sp0 =? sp_lo sp1 then mret (acc1, errs2 ++ [PErr sp1 NoAdvance])
        else loop_loop n p first acc1 errs2
      end
    end
  end.
(** [Loop::produce], iter.rs 93-156 *)
Definition produce_loop (n : nat) (p : M (res tree)) (first : tset) : M (res (span * list tree)) :=
  '(l, errs) ← loop_loop n p first [] [];
  sp ← match head l, last l with
       | Some a, Some b => mret (Span (tree_lo a) (tree_hi b))
       | _, _ => empty_span
       end;
  mret (res_into (sp, l) errs).

(** The inner loop of [Split::produce], split.rs 117-162: the element found, the errors,
    whether the outer loop continues *)
Fixpoint split_inner (n : nat) (pT : M (res tree)) (ef pf fol : tset) (panic : option perr)
    (errs : list perr) : M (option tree * list perr * bool) :=
  match n with
  | O => Fuel
  | S n =>
    tk ← peek_src;
    step ←
      (if ts_contains ef tk || ts_contains_e ef then
         r ← pT;
         match unres r with
         | (Some t, e) => mret (inl (t, errs ++ e ++ option_list panic))
         | (None, e) => tk' ← peek_src; mret (inr (tk', merge_panic panic e))
         end
       else
         match panic with
         | Some p => sp ← cur_span; mret (inr (tk, Some (set_hi p (sp_hi sp))))
         | None => e ← expecting ef; mret (inr (tk, Some e))
         end);
    match step with
    | inl (t, errs') => mret (Some t, errs', true)
    | inr (tk', panic') =>
      if ts_contains pf tk' then mret (None, errs ++ option_list panic', true)
      else
        if bool_decide (tk' = None) || ts_contains fol tk'
        then mret (None, errs ++ option_list panic', false)
        else _ ← consume; split_inner n pT ef pf fol panic' errs
    end
  end.
(** The outer loop of [Split::produce], split.rs 95-163 *)
Fixpoint split_outer (n : nat) (pT pP : M (res tree)) (ef pf fol : tset)
    (elems puncts : list tree) (errs : list perr) : M (list tree * list tree * list perr) :=
  match n with
  | O => Fuel
  | S n =>
    tk ← peek_src;
    match tk with
    | None => mret (elems, puncts, errs)
    | Some x =>
      if ts_contains pf (Some x) then
        r ← pP;
        match unres r with
        | (None, e) => mret (elems, puncts, errs ++ e)
        | (Some p, e) =>
          '(o, errs', cont) ← split_inner n pT ef pf fol None (errs ++ e);
          let elems' := elems ++ option_list o in
          let puncts' := match o with Some _ => puncts ++ [p] | None => puncts end in
          if cont : bool then split_outer n pT pP ef pf fol elems' puncts' errs'
          else mret (elems', puncts', errs')
        end
      else mret (elems, puncts, errs)
    end
  end.
(** [Split::produce], split.rs 80-170 *)
Definition produce_split (n : nat) (pT pP : M (res tree)) (ef pf fol : tset) : M (res tree) :=
  r ← pT;
  match unres r with
  | (Some t, e) =>
    '(elems, puncts, errs) ← split_outer n pT pP ef pf fol [t] [] e;
    let hi := match last elems with Some x => tree_hi x | None => tree_lo t end in
    mret (res_into (TrSplit (Span (tree_lo t) hi) elems puncts) errs)
  | (None, e) => mret (RPanic e)
  end.

(** The inner loop of [Punct::produce], punct.rs 136-205 *)
Fixpoint punct_inner (n : nat) (pT : M (res tree)) (ef pf fol : tset) (panic : option perr)
    (errs : list perr) : M (option tree * list perr * bool) :=
  match n with
  | O => Fuel
  | S n =>
    tk ← peek_src;
    match tk with
    | None => mret (None, errs ++ option_list panic, false)
    | Some x =>
      if negb (ts_contains ef (Some x)) && ts_contains fol (Some x) then
        mret (None, errs ++ option_list panic, false)
      else
        step ←
          (if ts_contains ef (Some x) then
             r ← pT;
             match unres r with
             | (Some t, e) => mret (inl (t, errs ++ option_list panic ++ e))
             | (None, e) => mret (inr (merge_panic panic e))
             end
           else
             sp ← cur_span;
             mret (inr (Some
               (match panic with
                | Some p => set_hi p (sp_hi sp)
                | None =>
                  PErr sp (Expecting (fst (fs_union_minus_eps (fst (ts_remove_e fol)) ef)))
                end))));
        match step with
        | inl (t, errs') => mret (Some t, errs', true)
        | inr panic' =>
          tk' ← peek_src;
          if ts_contains pf tk' then mret (None, errs ++ option_list panic', true)
          else
            if bool_decide (tk' = None) || ts_contains fol tk'
            then mret (None, errs ++ option_list panic', false)
            else _ ← consume; punct_inner n pT ef pf fol panic' errs
        end
    end
  end.
(** The outer loop of [Punct::produce], punct.rs 114-206 *)
Fixpoint punct_outer (n : nat) (pT pP : M (res tree)) (ef pf fol : tset)
    (elems puncts : list tree) (errs : list perr) : M (list tree * list tree * list perr) :=
  match n with
  | O => Fuel
  | S n =>
    tk ← peek_src;
    match tk with
    | None => mret (elems, puncts, errs)
    | Some x =>
      if ts_contains pf (Some x) then
        r ← pP;
        match unres r with
        | (None, e) => mret (elems, puncts, errs ++ e)
        | (Some p, e) =>
          '(o, errs', cont) ← punct_inner n pT ef pf fol None (errs ++ e);
          let elems' := elems ++ option_list o in
          if cont : bool then punct_outer n pT pP ef pf fol elems' (puncts ++ [p]) errs'
          else mret (elems', puncts ++ [p], errs')
        end
      else mret (elems, puncts, errs)
    end
  end.
(** [Punct::produce], punct.rs 99-217 *)
Definition produce_punct (n : nat) (pT pP : M (res tree)) (ef pf fol : tset) : M (res tree) :=
  r ← pT;
  match unres r with
  | (Some t, e) =>
    '(elems, puncts, errs) ← punct_outer n pT pP ef pf fol [t] [] e;
    let lo := tree_lo t in
    let hi1 := match last elems with Some x => tree_hi x | None => lo end in
    let hi2 := match last puncts with Some x => tree_hi x | None => lo end in
    mret (res_into (TrPunct (Span lo (Nat.max hi1 hi2)) elems puncts) errs)
  | (None, e) => mret (RPanic e)
  end.

(** The tail loop of [Recover::produce], recover.rs 56-103: tail, panic error, errors *)
Fixpoint recover_loop (n : nat) (pR : M (res tree)) (tf : tset) (panic : option perr)
    (errs : list perr) : M (option tree * option perr * list perr) :=
  match n with
  | O => Fuel
  | S n =>
    tk ← peek_src;
    match tk with
    | None =>
      if ts_contains_e tf then
        r ← pR;
        match unres r with
        | (Some x, e) => mret (Some x, panic, errs ++ e)
        | (None, e) => mret (None, merge_panic panic e, errs)
        end
      else mret (None, panic, errs)
    | Some x =>
      step ←
        (if ts_contains tf (Some x) || ts_contains_e tf then
           r ← pR;
           match unres r with
           | (Some x, e) => mret (inl (x, errs ++ e))
           | (None, e) => mret (inr (merge_panic panic e))
           end
         else mret (inr panic));
      match step with
      | inl (x, errs') => mret (Some x, panic, errs')
      | inr panic' =>
        p ← match panic' with
            | Some p => sp ← cur_span; mret (set_hi p (sp_hi sp))
            | None => expecting tf
            end;
        _ ← consume;
        recover_loop n pR tf (Some p) errs
      end
    end
  end.
(** [Recover::produce], recover.rs 34-120 *)
Definition produce_recover (n : nat) (pT pR : M (res tree)) (hf tf : tset) : M (res tree) :=
  tk ← peek_src;
  '(panic, hsp, hd, errs) ←
    (if ts_contains hf tk || ts_contains_e hf then
       r ← pT;
       match unres r with
       | (Some x, e) => mret (None, tree_span x, Some x, e)
       | (None, e) => sp ← empty_span; mret (last e, sp, None, [])
       end
     else e ← expecting hf; sp ← empty_span; mret (Some e, sp, None, []));
  '(tl, panic', errs') ← recover_loop n pR tf panic errs;
  let errs'' := errs' ++ option_list panic' in
  match tl with
  | Some x => mret (res_into (TrRecover hsp hd x) errs'')
  | None => mret (RPanic errs'')
  end.

Section produce.
  Variable env : denv.
  (** [meta.first.get], [meta.follow.get], [meta.jump.look_up] *)
  Variables (first follow : prod → tset) (jump : prod → option tok → option nat).

  (** [T::produce].  The fuel bounds the recursion depth and the rounds of each loop.
      An undeclared name (not a Rust program) counts as out of fuel. *)
  Fixpoint produce (f : nat) (t : ty) : M (res tree) :=
    match f with
    | O => Fuel
    | S f =>
      match t with
      (* lexicon.rs 407-413, 466-471 *)
      | TTok _ y lit =>
        r ← match lit with
            | None => parse_token y
            | Some l => parse_token_lit y l (follow (key t))
            end;
        mret (res_map TrTok r)
      | TNamed n =>
        match env !! n with
        | None => Fuel
        | Some (DStruct fs) =>
          (* syntax.rs 122-136, 212-226 *)
          r ← produce_seq (produce f) (map fst fs) [] [];
          match unres r with
          | (Some xs, e) => _ ← apply_fields fs xs; mret (res_into (TrSeq xs) e)
          | (None, e) => mret (RPanic e)
          end
        | Some (DEnum vs) =>
          (* syntax.rs 325-349 *)
          tk ← peek_src;
          match i ← jump (key t) tk; v ← vs !! i; Some (i, v) with
          | Some (i, (t', sem)) =>
            r ← produce f t';
            match r, sem with
            | RSucc x, Some s | RRec x _, Some s =>
                _ ← apply_semantic (tree_span x) s; mret (res_map (TrVar i) r)
            | _, _ => mret (res_map (TrVar i) r)
            end
          | None => e ← expecting (first (key t)); mret (RPanic [e])
          end
        end
      (* tuple.rs 36-48 *)
      | TTuple l => r ← produce_seq (produce f) l [] []; mret (res_map TrSeq r)
      (* boxed.rs 24-29 *)
      | TBox t' => produce f t'
      (* option.rs 51-56 *)
      | TOpt t' =>
        r ← produce_option (produce f t') tree_span (first (key t'));
        mret (res_map (λ '(sp, o), TrOpt sp o) r)
      (* option.rs 71-76 *)
      | TExists t' =>
        r ← produce_option (produce f t') tree_span (first (key t'));
        mret (res_map (λ '(sp, o), TrExists sp (bool_decide (is_Some o))) r)
      (* string.rs 26-36 *)
      | TQuote t' =>
        r ← produce f t';
        match r with
        | RSucc x => s ← get_src (tree_span x); mret (RSucc (TrQuote (tree_span x) s))
        | RRec x e => s ← get_src (tree_span x); mret (RRec (TrQuote (tree_span x) s) e)
        | RPanic e => mret (RPanic e)
        end
      (* string.rs 52-61 *)
      | TParse t' =>
        r ← produce f t';
        match r with
        | RSucc x => s ← get_src (tree_span x); mret (RSucc (TrParse (tree_span x) s))
        | RRec x e => s ← get_src (tree_span x); mret (RRec (TrParse (tree_span x) s) e)
        | RPanic e => mret (RPanic e)
        end
      (* iter.rs 36-59 *)
      | TPlus t' =>
        r ← produce_plus f (produce f t') (first (key t));
        mret (res_map (λ '(sp, l), TrList sp l) r)
      (* iter.rs 71-79: Optional<Plus<V, T>> *)
      | TStar t' =>
        r ← produce_option (produce_plus f (produce f t') (first (key (TPlus t')))) fst
              (first (key (TPlus t')));
        mret (res_map (λ '(sp, o),
          match o with Some (sp', l) => TrList sp' l | None => TrList sp [] end) r)
      (* iter.rs 93-156 *)
      | TLoop t' =>
        r ← produce_loop f (produce f t') (first (key t));
        mret (res_map (λ '(sp, l), TrList sp l) r)
      (* split.rs 80-170 *)
      | TSplit t' p =>
        produce_split f (produce f t') (produce f p) (first (key t')) (first (key p)) (follow (key t))
      (* punct.rs 99-217 *)
      | TPunct t' p =>
        produce_punct f (produce f t') (produce f p) (first (key t')) (first (key p)) (follow (key t))
      (* recover.rs 34-120 *)
      | TRecover t' r =>
        produce_recover f (produce f t') (produce f r) (first (key t')) (first (key r))
      end
    end.

  (** [parse_with_meta], parser_impl.rs 71-85 *)
  Definition parse_with (f : nat) (t : ty) : M (option tree) :=
    r ← produce f t;
    match r with
    | RSucc x => mret (Some x)
    | RRec x es => Extend es (mret (Some x))
    | RPanic es => Extend es (mret None)
    end.
End produce.

(** The tables of a [Metadata] as functions. *)
Definition produce_md (env : denv) (md : metadata prod) (f : nat) (t : ty) : M (res tree) :=
  produce env (tb_get (md_first md)) (tb_get (md_follow md)) (jump_look_up (md_jump md)) f t.

(** [Root::metadata] (macros/src/root.rs 9-28, [Metadata::build_for] metadata.rs 357-362) for
    the iteration order [iter] of the productions. *)
Definition root_metadata (env : denv) (t : ty) (iter : list (prod * entry prod))
  : option (gerr prod + metadata prod) :=
  regs ← register_root env (prod_of t); meta_build regs iter (key t).

(** [Parser::parse], parser_impl.rs 45-54 *)
Definition parse (env : denv) (f : nat) (t : ty) (meta : gerr prod + metadata prod)
  : M (gerr prod + option tree) :=
  match meta with
  | inl e => mret (inl e)
  | inr md =>
    x ← parse_with env (tb_get (md_first md)) (tb_get (md_follow md)) (jump_look_up (md_jump md)) f t;
    mret (inr x)
  end.
