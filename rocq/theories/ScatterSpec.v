(** Specification of items scattered over a source ([tp::Loop]). *)
From Coq Require Import String NArith.
From stdpp Require Import prelude list strings.
From Verif Require Import LexModel SynSetModel TableModel StreamModel StreamSpec TypeModel ProduceModel CfgSpec ParseSpec NextSpec.
Local Open Scope nat_scope.

(** [scattered env t src l its gs]: the tokens [l] are the items [its], sentences of [t], with the gaps [gs] between
    them, whose tokens begin no sentence of [t].  Each item ends: no sentence goes on with the token after it. *)
Inductive scattered (env : denv) (t : ty) (src : string) : list token → list (list token) → list (list token) → Prop :=
| sc_end : scattered env t src [] [] []
| sc_last g : g ≠ [] → Forall (λ y, ∀ w, ¬ lang env t (y :: w)) (word src g) → scattered env t src g [] [g]
| sc_gap g i l its gs : g ≠ [] → Forall (λ y, ∀ w, ¬ lang env t (y :: w)) (word src g) →
    scattered_item env t src (i ++ l) (i :: its) gs → scattered env t src (g ++ i ++ l) (i :: its) (g :: gs)
| sc_item l its gs : scattered_item env t src l its gs → scattered env t src l its gs
(** … an item first *)
with scattered_item (env : denv) (t : ty) (src : string) : list token → list (list token) → list (list token) → Prop :=
| si_item i l its gs : i ≠ [] → lang env t (word src i) →
    (∀ y, head (word src l) = Some y → ends_before env t y) →
    scattered env t src l its gs → scattered_item env t src (i ++ l) (i :: its) gs.
