(** C106: the grammar analysis takes polynomial effort. *)
From Coq Require Import String.
From stdpp Require Import prelude list gmap strings.
From Verif Require Import SynSetModel TableModel TypeModel CfgSpec SyntaxEx ParseEx RoundSpec RoundFacts VisitSpec VisitFacts.
Local Open Scope nat_scope.

(** FIRST: at most one round more than productions times (one more than) terminals, each round over at most two relations
    per production and part. *)
Theorem C106_first : ∀ (K : Type) (HK : EqDecision K) nv U (regs : grammar K), toks_in nv U regs →
  ∃ n w m, first_build regs = Some m ∧ f_rounds (flat_map f_rels regs) [] n w m ∧
    n ≤ 1 + length regs * (1 + nv * (1 + size U)) ∧ w ≤ n * (2 * extent regs).
Proof. exact @first_rounds. Qed.
Print Assumptions C106_first.
(** FOLLOW, for every order [iter] of the productions. *)
Theorem C106_follow : ∀ (K : Type) (HK : EqDecision K) nv U (regs iter : grammar K) first root, toks_in nv U regs → iter ≡ₚ regs →
  first_build regs = Some first →
  ∃ n w m, follow_build iter first root = Some m ∧
    w_rounds first (flat_map w_rels iter) (bt_insert [] root (fo_insert_eof ts_new)) n w m ∧
    n ≤ 1 + (1 + extent regs) * (1 + nv * (1 + size U)) ∧ w ≤ n * (2 * extent regs).
Proof. exact @follow_rounds. Qed.
Print Assumptions C106_follow.
(** [gInterior]: 7 productions, two token types, no literals; FIRST takes 4 rounds, FOLLOW 2. *)
Example C106_ex : toks_in 2 ∅ gInterior ∧ length gInterior = 7 ∧ extent gInterior = 16 ∧
  (f_loop 3 (flat_map f_rels gInterior) [] = None ∧ is_Some (f_loop 4 (flat_map f_rels gInterior) [])) ∧
  ∃ first, first_build gInterior = Some first ∧
    w_loop 1 first (flat_map w_rels gInterior) (bt_insert [] 0 (fo_insert_eof ts_new)) = None ∧
    is_Some (w_loop 2 first (flat_map w_rels gInterior) (bt_insert [] 0 (fo_insert_eof ts_new))).
Proof.
  split.
  { intros k ty lit H. unfold gInterior in H. repeat (apply elem_of_cons in H as [H|H]; [simplify_eq; try (split; [lia|done])|]). by apply elem_of_nil in H. }
  split; [done|]. split; [done|]. split; [split; [by vm_compute|eexists; by vm_compute]|].
  eexists. split; [by vm_compute|]. split; [by vm_compute|eexists; by vm_compute].
Qed.

(** Registration and the checks are recursive functions over the productions; [register_n], [check_lr_n], [check_conflicts_n]
    and [build_jump_n] (VisitSpec) count their calls.  The second components are the functions themselves, the counts are at
    most one more than the parts of productions ([extent] counts the productions too). *)
Theorem C106_register : ∀ env fuel p regs, snd (register_n env fuel p []) = register env fuel p [] ∧
  (register env fuel p [] = Some regs → fst (register_n env fuel p []) + length regs ≤ 1 + extent regs).
Proof. exact register_calls. Qed.
Print Assumptions C106_register.
Theorem C106_left : ∀ (K : Type) (HK : EqDecision K) (prods : grammar K) first fuel t seen set stack,
  snd (check_lr_n prods first fuel t seen set stack) = check_lr prods first fuel t seen set stack ∧
  fst (check_lr_n prods first fuel t seen set stack) + length prods ≤ 1 + extent prods.
Proof. exact @lr_calls. Qed.
Print Assumptions C106_left.
Theorem C106_conflicts : ∀ (K : Type) (HK : EqDecision K) (prods : grammar K) first follow fuel t seen,
  snd (check_conflicts_n prods first follow fuel t seen) = check_conflicts prods first follow fuel t seen ∧
  fst (check_conflicts_n prods first follow fuel t seen) + length prods ≤ 1 + extent prods.
Proof. exact @conflicts_calls. Qed.
Print Assumptions C106_conflicts.
Theorem C106_jump : ∀ (K : Type) (HK : EqDecision K) (prods : grammar K) first fuel t seen jm,
  snd (build_jump_n prods first fuel t seen jm) = build_jump prods first fuel t seen jm ∧
  fst (build_jump_n prods first fuel t seen jm) + length prods ≤ 1 + extent prods.
Proof. exact @jump_calls. Qed.
Print Assumptions C106_jump.
(** The expressions of [ex_env]: 11 productions with 13 parts; 14 calls of each. *)
Example C106_calls_ex :
  match register ex_env 20 (prod_of exE) [] with
  | Some regs =>
    match first_build regs with
    | Some first =>
      match follow_build regs first (key exE) with
      | Some follow =>
        length regs = 11 ∧ extent regs = 24 ∧ fst (register_n ex_env 20 (prod_of exE) []) = 14 ∧
        fst (check_lr_n regs first 20 (key exE) [] [] []) = 14 ∧
        fst (check_conflicts_n regs first follow 20 (key exE) []) = 14 ∧
        match check_conflicts regs first follow 20 (key exE) [] with COk seen => length seen = 11 | _ => False end ∧
        fst (build_jump_n regs first 20 (key exE) [] []) = 14
      | None => False
      end
    | None => False
    end
  | None => False
  end.
Proof. vm_compute. repeat split. Qed.
