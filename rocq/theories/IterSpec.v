(** Containers that ask for all elements and then stop. *)
From stdpp Require Import prelude list.
From Verif Require Import LexModel SynSetModel StreamModel TypeModel ProduceModel IterModel.
Local Open Scope nat_scope.

(** [holds l s]: in state [s] the container has been given [l].  It is [orderly] with result [build l] if it
    always asks for the next element, and, once told that there are no more, has the value [build l]. *)
Definition orderly {V} (c : container V) (build : list tree → V) : Prop :=
  ∃ holds : list tree → ct_state c → Prop, holds [] (ct_init c) ∧
    ∀ l s, holds l s → ∃ k, ct_step c s = inr k ∧ (∀ t, holds (l ++ [t]) (k (Some t))) ∧ ct_step c (k None) = inl (build l).
(** The result with the list of elements turned into a [V]. *)
Definition built {V} (build : list tree → V) (r : res (span * list tree)) : res (span * V) :=
  res_map (λ x, (x.1, build x.2)) r.
(** The elements of a list node. *)
Definition elements (x : tree) : list tree := match x with TrList _ l => l | _ => [] end.
(** The result with a container in place of the list of elements: the same span and errors. *)
Definition in_container {V} (build : list tree → V) (r : res tree) : res (span * V) :=
  res_map (λ x, (tree_span x, build (elements x))) r.
