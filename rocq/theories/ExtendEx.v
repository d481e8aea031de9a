(** Declarations with one more variant, for the examples of P_Extend. *)
From Coq Require Import String NArith.
From stdpp Require Import prelude list strings relations.
From Verif Require Import LexModel SynSetModel TableModel CfgSpec StreamModel TypeModel ProduceModel ParseSpec MarkSpec CompleteSpec CompleteFacts ParseEx TermEx CompleteEx ExtendSpec.
Local Open Scope nat_scope.

(** enum E { Neg(N), Par(P), Id(Ident) }   struct P("(", Punct<E, ",">, ")")   struct N("-", E): the expressions of [ex_env]
    with the variants in another order and one more. *)
Definition tM := TTok 4 1 (Some "-"%string).
Definition ev_env : denv :=
  [ DEnum [(TNamed 2, None); (exP, None); (tId, Some 1%N)];
    DStruct [(tL, None); (TPunct (TBox exE) tC, Some 2%N); (tR, None)];
    DStruct [(tM, None); (TBox exE, None)] ].
(** The new numbers of the variants of [ex_env]. *)
Definition ev_num (n i : nat) : nat := match n, i with 0, 0 => 2 | _, _ => i end.
Lemma ev_extends : extends ev_num ex_env ev_env.
Proof.
  intros [|[|[|n]]] d [= <-]; [|done]. eexists. split; [done|]. intros [|[|i]] v [= <-]; done.
Qed.
Definition ev_types := [exE; exP; TNamed 2; tM; tId; tL; tR; tC; TBox exE; TPunct (TBox exE) tC].
Lemma ev_accepted : accepted ev_env exE (md_get ev_env exE).
Proof. apply md_get_accepted. by vm_compute. Qed.
Lemma ev_filled : filled ev_env exE.
Proof. within ev_types. Qed.
Lemma ev_no_recover : no_recover ev_env exE.
Proof. within ev_types. Qed.
Lemma ev_open : open_marks ev_env exE.
Proof. within ev_types. Qed.
Lemma ev_enums : plain_enums ev_env exE.
Proof.
  apply (all_within_list _ _ ev_types); [set_solver|].
  repeat (apply Forall_cons; split; [split; [|cbn; repeat (apply Forall_cons; split; [set_solver|]); apply Forall_nil; done]|]); try done.
  assert (G : ∀ n t fs, ev_env !! n = Some (DStruct ((t, None) :: fs)) → ¬ lang ev_env t [] → ¬ lang ev_env (TNamed n) []).
  { intros n t fs E Ht H. inversion H as [|n' fs' w En Hl E1 E2|n' vs t' sem w En Ht' Hl E1 E2| | | | | | | | | | | | | |]; subst; rewrite E in En; [|done].
    injection En as <-. by apply langs_head in Hl. }
  intros v Hv. cbn in Hv. repeat (apply elem_of_cons in Hv as [->|Hv]); [..|by apply elem_of_nil in Hv]; cbn [fst].
  - by eapply G; [done|apply no_empty_tok].
  - by eapply G; [done|apply no_empty_tok].
  - apply no_empty_tok.
Qed.
Lemma ev_regular : regular ev_env exE.
Proof.
  apply (regular_interior _ _ _ ev_accepted); [exact ev_filled|exact ev_enums|within ev_types|within ev_types|].
  apply interior_ok. by vm_compute.
Qed.
