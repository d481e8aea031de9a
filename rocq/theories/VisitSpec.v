(** Specification of the number of calls the recursive parts of the grammar analysis make: the functions of TableModel and
    TypeModel with a counter.  C106 shows that they are these functions. *)
From Coq Require Import String.
From stdpp Require Import prelude list gmap strings.
From Verif Require Import SynSetModel TableModel TypeModel.
Local Open Scope nat_scope.

Section visits.
  Context {K : Type} `{EqDecision K}.
  Variable (prods : list (K * entry K)) (first follow : table K).

  (** [check_left_recursive], metadata.rs 91-190, with the number of its calls *)
  Fixpoint lr_union_n (rec : K → list K → list K → list K → nat * lr_res K) (ys : list K) (seen set stack : list K) : nat * lr_res K :=
    match ys with
    | [] => (0, LOk seen set stack)
    | y :: r =>
      match rec y seen set stack with
      | (n, LOk seen' set' stack') => let '(m, c) := lr_union_n rec r seen' set' stack' in (n + m, c)
      | e => e
      end
    end.
  Fixpoint lr_seq_n (rec : K → list K → list K → list K → nat * lr_res K) (t : K)
      (main : bool) (ys : list K) (seen set stack tset tstack : list K) : nat * lr_res K :=
    match ys with
    | [] => (0, if main then LOk seen (bs_remove set t) (removelast stack) else LOk seen set stack)
    | y :: r =>
      match (if main then rec y seen set stack else rec y seen tset tstack) with
      | (n, LOk seen' cset cstack) =>
        let set1 := if main then cset else set in
        let stack1 := if main then cstack else stack in
        let tset1 := if main then tset else cset in
        let tstack1 := if main then tstack else cstack in
        let '(m, c) :=
          if ts_contains_e (tb_get first y) then lr_seq_n rec t main r seen' set1 stack1 tset1 tstack1
          else if main then lr_seq_n rec t false r seen' (bs_remove set1 t) (removelast stack1) [] []
          else lr_seq_n rec t false r seen' set1 stack1 [] [] in
        (n + m, c)
      | e => e
      end
    end.
  Fixpoint check_lr_n (fuel : nat) (t : K) (seen set stack : list K) : nat * lr_res K :=
    match fuel with
    | O => (1, LFuel)
    | S f =>
      if bs_mem seen t then (1, LOk seen set stack)
      else
        let seen := bs_insert seen t in
        if bs_mem set t then (1, LErr (GLeftRecursion stack t))
        else
          let set := bs_insert set t in
          match bt_get prods t with
          | None | Some EEps | Some (ETok _ _) => (1, LOk seen (bs_remove set t) stack)
          | Some (EUnion ys) =>
            match lr_union_n (check_lr_n f) ys seen set (stack ++ [t]) with
            | (n, LOk seen' set' stack') => (S n, LOk seen' (bs_remove set' t) (removelast stack'))
            | (n, e) => (S n, e)
            end
          | Some (ESeq []) => (1, LOk seen (bs_remove set t) stack)
          | Some (ESeq (y :: r)) =>
            match check_lr_n f y seen set (stack ++ [t]) with
            | (n, LOk seen' set' stack') =>
              let '(m, c) :=
                if ts_contains_e (tb_get first y) then lr_seq_n (check_lr_n f) t true r seen' set' stack' [] []
                else lr_seq_n (check_lr_n f) t false r seen' (bs_remove set' t) (removelast stack') [] [] in
              (S (n + m), c)
            | (n, e) => (S n, e)
            end
          end
    end.

  (** [check_conflicts], metadata.rs 192-280, with the number of its calls *)
  Fixpoint ck_all_n (rec : K → list K → nat * ck_res K) (ys seen : list K) : nat * ck_res K :=
    match ys with
    | [] => (0, COk seen)
    | y :: r =>
      match rec y seen with
      | (n, COk seen') => let '(m, c) := ck_all_n rec r seen' in (n + m, c)
      | e => e
      end
    end.
  Fixpoint check_conflicts_n (fuel : nat) (t : K) (seen : list K) : nat * ck_res K :=
    match fuel with
    | O => (1, CFuel)
    | S f =>
      if bs_mem seen t then (1, COk seen)
      else
        let seen := bs_insert seen t in
        match bt_get prods t with
        | None => (1, COk seen)
        | Some e =>
          match ck_local first follow t e with
          | Some err => (1, CErr err)
          | None => let '(n, c) := ck_all_n (check_conflicts_n f) (comps e) seen in (S n, c)
          end
        end
    end.

  (** [build_jump], metadata.rs 305-331, with the number of its calls *)
  Fixpoint bj_all_n (rec : K → list K → jump K → nat * option (list K * jump K)) (t : K) (reg : bool)
      (i : nat) (ys : list K) (seen : list K) (jm : jump K) : nat * option (list K * jump K) :=
    match ys with
    | [] => (0, Some (seen, jm))
    | y :: r =>
      let jm' := if reg then jump_register jm t (tb_get first y) i else jm in
      match rec y seen jm' with
      | (n, Some (seen', jm'')) => let '(m, c) := bj_all_n rec t reg (S i) r seen' jm'' in (n + m, c)
      | e => e
      end
    end.
  Fixpoint build_jump_n (fuel : nat) (t : K) (seen : list K) (jm : jump K) : nat * option (list K * jump K) :=
    match fuel with
    | O => (1, None)
    | S f =>
      if bs_mem seen t then (1, Some (seen, jm))
      else
        let seen := bs_insert seen t in
        match bt_get prods t with
        | None | Some EEps | Some (ETok _ _) => (1, Some (seen, jm))
        | Some (ESeq ys) => let '(n, c) := bj_all_n (build_jump_n f) t false 0 ys seen jm in (S n, c)
        | Some (EUnion ys) => let '(n, c) := bj_all_n (build_jump_n f) t true 0 ys seen jm in (S n, c)
        end
    end.
End visits.

(** [Production::register], ast.rs 22-63, 68-88 and metadata.rs 25-53, with the number of its calls *)
Section register.
  Variable env : denv.
  Fixpoint reg_all_n (rec : prod → list (prod * entry prod) → nat * option (list (prod * entry prod)))
      (ps : list prod) (regs : list (prod * entry prod)) : nat * option (list (prod * entry prod)) :=
    match ps with
    | [] => (0, Some regs)
    | p :: r =>
      match rec p regs with
      | (n, Some regs') => let '(m, c) := reg_all_n rec r regs' in (n + m, c)
      | e => e
      end
    end.
  Fixpoint register_n (fuel : nat) (p : prod) (regs : list (prod * entry prod)) : nat * option (list (prod * entry prod)) :=
    match fuel with
    | O => (1, None)
    | S f =>
      let t := pid p in
      if decide (t ∈ regs.*1) then (1, Some regs)
      else
        match entry_of env t, kids env t with
        | Some e, Some ks => let '(n, c) := reg_all_n (register_n f) ks (regs ++ [(t, e)]) in (S n, c)
        | _, _ => (1, None)
        end
    end.
End register.
