(** Model of the metadata of roots shared by threads: macros/src/root.rs 9-28 (one [static OnceLock] per root, filled by
    [get_or_init]) and the functions of [Root] that use it, parser/tree.rs 22-32.  No proofs in this file. *)
From Coq Require Import String.
From stdpp Require Import prelude list strings.
From Verif Require Import LexModel SynSetModel TableModel StreamModel TypeModel ProduceModel DebugModel RootModel.
Local Open Scope nat_scope.

(** A call of [Root::parse] (tree.rs 23-25) or [Root::assert_ll1] (28-32) of the root with number [r]. *)
Inductive call := CParse (r : nat) (src : string) | CAssert (r : nat).
Definition call_root (c : call) : nat := match c with CParse r _ | CAssert r => r end.
(** What a call gives: the answer of [parse] ([None]: does not end), the text of the panic of [assert_ll1] if any. *)
Inductive answer :=
| AParse (x : option (gerr prod + option tree))
| AAssert (x : option string)
| AStuck.

(** [METADATA], root.rs 15-22: [std::sync::OnceLock].  [Busy]: a thread runs the closure of [get_or_init]; others wait.
    The contract of std ("only one function will be executed") is modelled, not its code. *)
Inductive cell := Empty | Busy | Full (m : option (gerr prod + metadata prod)).
(** Where a thread is: between calls; inside the closure of [get_or_init] (root.rs 23-25); behind [Self::metadata()]. *)
Inductive phase := Idle | Init (c : call) | Use (c : call) (m : option (gerr prod + metadata prod)).
(** The calls a thread will still make, where it is, what its calls gave. *)
Record thread := Thread { th_todo : list call; th_phase : phase; th_done : list answer }.
(** All threads, the cells of all roots, and which roots have been built, in this order. *)
Record sys := Sys { sy_cells : nat → cell; sy_ths : list thread; sy_built : list nat }.

Section threads.
  Context (extract : nat → bool) (env : denv) (tn dn ln : nat → string) (f : nat) (lexer : string → list raw)
    (roots : nat → ty) (order : nat → list (prod * entry prod)).

  (** [Root::parse] and [Root::assert_ll1] with the metadata they get, tree.rs 23-25, 28-32 *)
  Definition do_call (c : call) (m : option (gerr prod + metadata prod)) : answer :=
    match c, m with
    | CParse r src, Some m => AParse (root_parse extract env f (roots r) m src (lexer src))
    | CAssert r, Some m => AAssert (assert_ll1 tn dn ln (roots r) m)
    | _, None => AStuck
    end.

  Definition set_cell (cs : nat → cell) (r : nat) (x : cell) : nat → cell := λ r', if decide (r' = r) then x else cs r'.

  (** One step of thread [i]; [None]: it has finished, or waits for a [Busy] cell (root.rs 23-25). *)
  Definition step (i : nat) (s : sys) : option sys :=
    match sy_ths s !! i with
    | None => None
    | Some (Thread todo ph dn) =>
      match ph with
      | Idle =>
        match todo with
        | [] => None
        | c :: todo' =>
          match sy_cells s (call_root c) with
          | Empty => Some (Sys (set_cell (sy_cells s) (call_root c) Busy) (<[i := Thread todo' (Init c) dn]> (sy_ths s)) (sy_built s))
          | Busy => None
          | Full m => Some (Sys (sy_cells s) (<[i := Thread todo' (Use c m) dn]> (sy_ths s)) (sy_built s))
          end
        end
      | Init c =>
        let m := root_metadata env (roots (call_root c)) (order (call_root c)) in
        Some (Sys (set_cell (sy_cells s) (call_root c) (Full m)) (<[i := Thread todo (Use c m) dn]> (sy_ths s)) (sy_built s ++ [call_root c]))
      | Use c m => Some (Sys (sy_cells s) (<[i := Thread todo Idle (dn ++ [do_call c m])]> (sy_ths s)) (sy_built s))
      end
    end.
  Definition sys_start (css : list (list call)) : sys := Sys (λ _, Empty) (map (λ cs, Thread cs Idle []) css) [].
End threads.
