(** Property theorems about the inferred lexicon type and left recursion (C96).

    [lexicon env tl lim p] (InferModel): what the compiler finds for [<p as Production>::L] with recursion limit [lim];
    [compiles env tl lim]: all declarations compile as far as lexicons go.  [begins_itself], [asks] (InferSpec). *)
From Coq Require Import String.
From stdpp Require Import prelude list strings relations.
From Verif Require Import LexModel SynSetModel TableModel TypeModel TypeSpec ProduceModel CfgSpec ParseSpec ParseEx CompleteEx
  InferModel InferSpec InferFacts.
Local Open Scope string_scope.
Local Open Scope list_scope.
Local Open Scope nat_scope.

(** ** C96: one lexicon, no left recursion *)
(** If the declarations compile and the lexicon of the root is found, every terminal used anywhere in the root is of
    this lexicon: no terminals of two enums are mixed, although only first fields decide the lexicon. *)
Theorem C96_one_lexicon : ∀ env tl lim root l nm y lit,
  compiles env tl lim → lexicon env tl lim (prod_of root) = LOk l → within env root (TTok nm y lit) → tl nm = l.
Proof. exact one_lexicon. Qed.
Print Assumptions C96_one_lexicon.
(** The recursion limit does not matter once it suffices. *)
Theorem C96_limit : ∀ env tl f g p l, lexicon env tl f p = LOk l → f ≤ g → lexicon env tl g p = LOk l.
Proof. exact lexicon_more. Qed.
Print Assumptions C96_limit.
(** A type in a circle of questions never compiles, however large the limit. *)
Theorem C96_circle : ∀ env tl t, tc (asks env) t t → ∀ f l, lexicon env tl f (prod_of t) ≠ LOk l.
Proof. exact circle. Qed.
Print Assumptions C96_circle.
(** What compiles and is accepted has no left recursion, whether or not its types have sentences (C28 asks
    for anchored grammars; the compiler's check gives that).  So no call of [produce] can come back to
    itself without a token read in between. *)
Theorem C96_not_left_recursive : ∀ env tl lim root l md t,
  compiles env tl lim → lexicon env tl lim (prod_of root) = LOk l → accepted env root md → within env root t →
  ¬ begins_itself env t.
Proof. exact not_left_recursive. Qed.
Print Assumptions C96_not_left_recursive.
(** The example grammar of ParseEx, [E => id | ( E, .. )], is such a case. *)
Example C96_ex : compiles ex_env (λ _, 0) 20 ∧ lexicon ex_env (λ _, 0) 20 (prod_of exE) = LOk 0 ∧
  accepted ex_env exE (md_get ex_env exE) ∧ within ex_env exE exE.
Proof.
  split_and!; [|by vm_compute|exact ex_accepted|apply rtc_refl].
  intros n Hn. unfold checks. do 2 (destruct n as [|n]; [exists 0; eexists; split_and!; [by vm_compute|reflexivity|unfold field_prods; cbn [map decl_fields fst]; repeat (apply Forall_cons; split; [by vm_compute|]); apply Forall_nil; done]|]).
  cbn in Hn; lia.
Qed.
(** The examples of syntax_analysis/recursion.md.  [Eprime(Option<(OpAdd, T, Box<Eprime>)>)] overflows, a separate
    [Eplus] helps; [F] with the tuple as first variant overflows, as second variant not. *)
Example C96_book_ex :
  let tok n := TTok n n None in
  let E1 := [DStruct [(TOpt (TTuple [tok 0; TNamed 1; TBox (TNamed 0)]), None)]; DStruct [(tok 1, None)]] in
  let E2 := [DStruct [(TOpt (TNamed 2), None)]; DStruct [(tok 1, None)];
             DStruct [(tok 0, None); (TNamed 1, None); (TBox (TNamed 0), None)]] in
  let paren n := TTuple [tok 2; TBox (TNamed n); tok 3] in
  let F1 := [DStruct [(TNamed 1, None)]; DEnum [(paren 0, None); (tok 1, None)]] in
  let F2 := [DStruct [(TNamed 1, None)]; DEnum [(tok 1, None); (paren 0, None)]] in
  (∀ f l, lexicon E1 (λ _, 0) f (PNamed 0) ≠ LOk l) ∧ compiles E2 (λ _, 0) 9 ∧
  (∀ f l, lexicon F1 (λ _, 0) f (PNamed 0) ≠ LOk l) ∧ compiles F2 (λ _, 0) 9 ∧
  lexicon E1 (λ _, 0) 100 (PNamed 0) = LOverflow.
Proof.
  split_and!; [| | | |by vm_compute].
  - apply (C96_circle _ _ (TNamed 0)). eapply tc_l; [reflexivity|]. eapply tc_l; [reflexivity|].
    eapply tc_l; [right; right; by left|]. by apply tc_once.
  - intros n Hn. unfold checks. do 3 (destruct n as [|n]; [exists 0; eexists; split_and!; [by vm_compute|reflexivity|unfold field_prods; cbn [map decl_fields fst]; repeat (apply Forall_cons; split; [by vm_compute|]); apply Forall_nil; done]|]).
    cbn in Hn; lia.
  - apply (C96_circle _ _ (TNamed 0)). eapply tc_l; [reflexivity|]. eapply tc_l; [reflexivity|].
    eapply tc_l; [right; by left|]. by apply tc_once.
  - intros n Hn. unfold checks. do 2 (destruct n as [|n]; [exists 0; eexists; split_and!; [by vm_compute|reflexivity|unfold field_prods; cbn [map decl_fields fst]; repeat (apply Forall_cons; split; [by vm_compute|]); apply Forall_nil; done]|]).
    cbn in Hn; lia.
Qed.
(** Terminals of two enums: the declaration of a mixed struct is refused. *)
Example C96_mixed_ex : let tok n := TTok n n None in
  ¬ compiles [DStruct [(tok 0, None); (tok 1, None)]] (λ n, n) 9.
Proof. intros tok H. destruct (H 0) as (l & d & H1 & [= <-] & H2); [cbn; lia|]. cbn in H1. injection H1 as <-. apply Forall_cons in H2 as [_ H2%List.Forall_inv]. done. Qed.
(** The declarations compile, as far as lexicons go and with a large enough limit, if and only if each of them is made of
    declared things, uses the terminals of one enum, and is in no circle of questions. *)
Theorem C96_compiles : ∀ env tl, (∃ lim, compiles env tl lim) ↔
  ∀ n, n < length env → shaped env (TNamed n) ∧ one_enum env tl (TNamed n) ∧ ¬ tc (asks env) (TNamed n) (TNamed n).
Proof. exact compiles_iff. Qed.
Print Assumptions C96_compiles.
(** Both sides hold of the example grammar; with two enums, or with the circle of the book, neither. *)
Example C96_compiles_ex : let tok n := TTok n n None in
  (∃ lim, compiles ex_env (λ _, 0) lim) ∧
  (¬ ∃ lim, compiles [DStruct [(tok 0, None); (tok 1, None)]] (λ n, n) lim) ∧
  (¬ ∃ lim, compiles [DStruct [(TOpt (TTuple [tok 0; TNamed 1; TBox (TNamed 0)]), None)]; DStruct [(tok 1, None)]] (λ _, 0) lim).
Proof.
  intros tok. split_and!; [exists 20; exact (proj1 C96_ex)| |]; rewrite C96_compiles; intros H; destruct (H 0) as (_ & [l Hl] & Hc); try (cbn; lia).
  - assert (H0 : 0 = l) by (apply (Hl 0 0 None), rtc_once; by left). assert (H1 : 1 = l) by (apply (Hl 1 1 None), rtc_once; right; by left). congruence.
  - apply Hc. eapply tc_l; [reflexivity|]. eapply tc_l; [reflexivity|]. eapply tc_l; [right; right; by left|]. by apply tc_once.
Qed.
