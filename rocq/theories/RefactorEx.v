(** A type written differently, for the examples of P_Refactor. *)
From Coq Require Import String NArith.
From stdpp Require Import prelude list strings relations.
From Verif Require Import LexModel SynSetModel TableModel CfgSpec StreamModel TypeModel ProduceModel ParseSpec CompleteSpec CompleteFacts ParseEx TermEx CompleteEx ExtendSpec RefactorSpec.
Local Open Scope nat_scope.

(** The expressions of [ex_env] with a tuple instead of the struct P, other boxes, another number and without annotations:
    struct X(Ident)   enum E { Id(Ident), Par(Box<("(", Punct<E, ",">, ")")>) } *)
Definition rfE := TNamed 1.
Definition rfP := TTuple [tL; TPunct rfE tC; tR].
Definition rf_env : denv := [ DStruct [(tId, None)]; DEnum [(tId, None); (TBox rfP, None)] ].
Definition rf_pairs : list (ty * ty) :=
  [(exE, TBox rfE); (TBox exE, rfE); (exP, TBox rfP); (tId, tId); (tL, tL); (tR, tR); (tC, tC); (TPunct (TBox exE) tC, TPunct rfE tC)].
Lemma rf_alike : alike ex_env rf_env exE (TBox rfE).
Proof.
  exists (λ t t', (t, t') ∈ rf_pairs). split; [by left|]. intros u u' H. unfold rf_pairs in H.
  repeat (apply elem_of_cons in H as [[= -> ->]|H]); [..|by apply elem_of_nil in H]; cbn;
    repeat constructor.
Qed.
Definition rf_types := [TBox rfE; rfE; TBox rfP; rfP; tId; tL; tR; tC; TPunct rfE tC].
Lemma rf_accepted : accepted rf_env (TBox rfE) (md_get rf_env (TBox rfE)).
Proof. apply md_get_accepted. by vm_compute. Qed.
Lemma rf_enums : plain_enums rf_env (TBox rfE).
Proof.
  apply (all_within_list _ _ rf_types); [set_solver|].
  repeat (apply Forall_cons; split; [split; [|cbn; repeat (apply Forall_cons; split; [set_solver|]); apply Forall_nil; done]|]); try done.
  intros v Hv. cbn in Hv. apply elem_of_cons in Hv as [->|Hv]; [apply no_empty_tok|]. apply elem_of_list_singleton in Hv as ->. cbn [fst].
  intros H. inversion H as [| | | |t w H1| | | | | | | | | | | |]; subst. inversion H1 as [| | |ts w Hl| | | | | | | | | | | | |]; subst.
  apply langs_head in Hl. by apply no_empty_tok in Hl.
Qed.
Lemma rf_regular : regular rf_env (TBox rfE).
Proof.
  apply (regular_interior _ _ _ rf_accepted); [within rf_types|exact rf_enums|within rf_types|within rf_types|].
  apply interior_ok. by vm_compute.
Qed.
