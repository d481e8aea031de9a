(** A set and an enum, for the examples of P_Print. *)
From Coq Require Import String.
From stdpp Require Import prelude list gmap strings relations.
From Verif Require Import SynSetModel TableModel StreamModel TypeModel ProduceModel ParseSpec ParseEx PrintModel.
Local Open Scope nat_scope.

(** "+" and "-" of type 1, everything of type 3, nothing. *)
Definition pr_set : tset := fst (ts_insert_e (fst (ts_insert (fst (ts_insert (fst (ts_insert ts_new 1 (Some "+"%string))) 3 None)) 1 (Some "-"%string)))).
(** The same, in another order, "+" twice. *)
Definition pr_set2 : tset := fst (ts_insert (fst (ts_insert (fst (ts_insert (fst (ts_insert (fst (ts_insert_e ts_new)) 3 None)) 1 (Some "-"%string))) 1 (Some "+"%string))) 1 (Some "+"%string)).
(** The jump table of [exE]. *)
Definition pr_jump : jtable := default jt_new (bt_get (md_jump (md_get ex_env exE)) (PNamed 0)).
Lemma pr_jump_get : bt_get (md_jump (md_get ex_env exE)) (PNamed 0) = Some pr_jump.
Proof. by vm_compute. Qed.
