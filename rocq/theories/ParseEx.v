(** Declarations and inputs used in the examples. *)
From Coq Require Import String NArith.
From stdpp Require Import prelude list strings relations.
From Verif Require Import LexModel LexSpec LexFacts SynSetModel TableModel StreamModel StreamSpec StreamFacts TypeModel ProduceModel CfgSpec ParseSpec.
Local Open Scope nat_scope.

(** Token types: 0 identifiers, 1 the fixed symbols. *)
Definition tId := TTok 0 0 None.
Definition tL := TTok 1 1 (Some "("%string).
Definition tR := TTok 2 1 (Some ")"%string).
Definition tC := TTok 3 1 (Some ","%string).

(** enum E { Id(Ident), Par(P) }   struct P("(", Punct<E, ",">, ")")
    with semantic tag 1 on the variant Id and 2 on the list. *)
Definition exE := TNamed 0.
Definition exP := TNamed 1.
Definition ex_env : denv :=
  [ DEnum [(tId, Some 1%N); (exP, None)];
    DStruct [(tL, None); (TPunct (TBox exE) tC, Some 2%N); (tR, None)] ].

(** Metadata as [Root::metadata] computes it, registration order. *)
Definition md_of (env : denv) (t : ty) : option (metadata prod) :=
  match register_root env (prod_of t) with
  | Some regs => match meta_build regs regs (key t) with Some (inr md) => Some md | _ => None end
  | None => None
  end.
Definition md_get (env : denv) (t : ty) : metadata prod := default (Meta [] [] []) (md_of env t).

(** One token per character: letters are identifiers, other characters symbols, blanks and
    [?] are not tokens (blanks are skipped, [?] is unrecognised). *)
Fixpoint lex_chars (i : nat) (s : string) : list raw :=
  match s with
  | EmptyString => []
  | String c r =>
    let n := Ascii.nat_of_ascii c in
    (if n =? 32 then []
     else if n =? 63 then [RErr (Span i (S i))]
     else [RTok (if 97 <=? n then 0 else 1) (Span i (S i))]) ++ lex_chars (S i) r
  end.
Definition no_extract (_ : nat) : bool := false.
Definition start (s : string) : pst := pst_new s (lex_chars 0 s).
Definition ex_run (env : denv) (t : ty) (s : string) : out (res tree) pst :=
  run no_extract (produce_md env (md_get env t) 60 t) (start s).
Definition ex_parse (env : denv) (t : ty) (s : string) : out (gerr prod + option tree) pst :=
  run no_extract (parse env 60 t (inr (md_get env t))) (start s).

(** * Facts used in the examples *)
Lemma md_of_accepted env t md : md_of env t = Some md → accepted env t md.
Proof.
  unfold md_of. destruct (register_root env (prod_of t)) as [regs|] eqn:E; [|done].
  destruct (meta_build regs regs (key t)) as [[]|] eqn:Em; intros [= <-]. by exists regs, regs.
Qed.
Lemma md_get_accepted env t : bool_decide (is_Some (md_of env t)) = true → accepted env t (md_get env t).
Proof.
  intros [md H]%bool_decide_eq_true. unfold md_get. rewrite H. by apply md_of_accepted.
Qed.
Lemma start_ok x : state_ok (start x).
Proof.
  unfold state_ok. cbn. cut (∀ i n, i + String.length x ≤ n → spans_ok i n (map raw_span (lex_chars i x))); [by intros H; apply H|].
  induction x as [|c x IH]; intros i n Hn; cbn [lex_chars String.length] in *; [cbn; lia|].
  assert (H : spans_ok (S i) n (map raw_span (lex_chars (S i) x))) by (apply IH; lia).
  destruct (Ascii.nat_of_ascii c =? 32); [|destruct (Ascii.nat_of_ascii c =? 63)]; cbn [app map raw_span].
  - apply (spans_ok_weaken (S i)); [lia|exact H].
  - cbn. split_and!; [lia..|done].
  - cbn. split_and!; [lia..|done].
Qed.
Lemma all_within_list env (P : ty → Prop) L t : t ∈ L →
  Forall (λ c, P c ∧ Forall (λ d, d ∈ L) (subs env c)) L → all_within env P t.
Proof.
  intros Ht HL t' Hw. rewrite Forall_forall in HL. cut (t' ∈ L); [intros H; by apply HL|].
  induction Hw as [|t1 t2 t3 H _ IH]; [done|]. apply IH. destruct (HL _ Ht) as [_ H1].
  rewrite Forall_forall in H1. by apply H1.
Qed.
(** Solves [all_within env P t] for concrete types, [L] listing all types used. *)
Ltac within L :=
  apply (all_within_list _ _ L); [set_solver|];
  repeat (apply Forall_cons; split; [split; [cbn; done|cbn; repeat (apply Forall_cons; split; [set_solver|]); apply Forall_nil; done]|]);
  apply Forall_nil; done.
Definition ex_types : list ty := [exE; exP; tId; tL; tR; tC; TBox exE; TPunct (TBox exE) tC].
Lemma ex_accepted : accepted ex_env exE (md_get ex_env exE).
Proof. apply md_get_accepted. by vm_compute. Qed.
Lemma ex_filled : filled ex_env exE.
Proof. within ex_types. Qed.
Lemma ex_no_recover : no_recover ex_env exE.
Proof. within ex_types. Qed.
Lemma ex_no_loop : no_loop ex_env exE.
Proof. within ex_types. Qed.
