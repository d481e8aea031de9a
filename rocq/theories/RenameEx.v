(** Declarations used in the examples of P_Rename. *)
From Coq Require Import String NArith.
From stdpp Require Import prelude list strings.
From Verif Require Import LexModel SynSetModel TableModel StreamModel TypeModel TypeSpec ProduceModel ParseEx RenameSpec.
Local Open Scope nat_scope.

(** What was first is third, what was second is first; the second is new. *)
Definition rx_num (n : nat) : nat := match n with 0 => 2 | 1 => 0 | S (S k) => 3 + k end.
Definition rx : renaming := Renaming rx_num rx_num (λ n, n + 5).
Lemma rx_distinct : distinct rx.
Proof.
  assert (Inj (=) (=) rx_num) by (intros [|[|n]] [|[|m]]; cbn; try done; intros E; injection E as ->; done).
  split; [done|]. split; [done|]. intros x y. cbn. lia.
Qed.
(** struct P first, a new declaration, enum E last *)
Definition rx_env : denv :=
  [ DStruct [(TTok 6 0 (Some "("%string), None); (TPunct (TBox (TNamed 2)) (TTok 8 0 (Some ","%string)), Some 1%N); (TTok 7 0 (Some ")"%string), None)];
    DStruct [(TTok 0 1 None, None)];
    DEnum [(TTok 5 2 None, Some 4%N); (TNamed 0, None)] ].
Lemma rx_redeclared : redeclared rx ex_env rx_env.
Proof. by intros [|[|n]]. Qed.
Lemma rx_declared : env_declared ex_env ∧ env_declared rx_env ∧ ty_declared (length ex_env) exE.
Proof.
  split; [|split].
  - intros d f Hd Hf. unfold ex_env in Hd. repeat (apply elem_of_cons in Hd as [->|Hd]; [cbn in Hf; repeat (apply elem_of_cons in Hf as [->|Hf]; [cbn; lia|]); by apply elem_of_nil in Hf|]). by apply elem_of_nil in Hd.
  - intros d f Hd Hf. unfold rx_env in Hd. repeat (apply elem_of_cons in Hd as [->|Hd]; [cbn in Hf; repeat (apply elem_of_cons in Hf as [->|Hf]; [cbn; lia|]); by apply elem_of_nil in Hf|]). by apply elem_of_nil in Hd.
  - cbn. lia.
Qed.
(** What came out: the tree, the spans of the errors and the tokens with their sets *)
Definition rx_out (o : out (gerr prod + option tree) pst) : option (option tree * list (nat * nat) * list (nat * N)) :=
  match o with
  | ODone (inr x) s => Some (x, map (λ e, (sp_lo (e_span e), sp_hi (e_span e))) (p_errors s), map (λ c, (t_ty (c_tok c), c_sem c)) (p_tokens s))
  | _ => None
  end.
Definition rx_parse (x : string) := run no_extract (parse rx_env 60 (re_ty rx exE) (inr (md_get rx_env (re_ty rx exE)))) (pst_new x (map (re_raw rx) (lex_chars 0 x))).
Definition rx_map (o : option (option tree * list (nat * nat) * list (nat * N))) : option (option tree * list (nat * nat) * list (nat * N)) :=
  match o with
  | Some (x, e, l) => Some (match x with Some x => Some (re_tree rx x) | None => None end, e, map (λ p, (rx_num (fst p), re_sem rx (snd p))) l)
  | None => None
  end.
Definition rx_errors (o : option (option tree * list (nat * nat) * list (nat * N))) : list (nat * nat) :=
  match o with Some (_, e, _) => e | None => [] end.
Definition rx_tokens (o : option (option tree * list (nat * nat) * list (nat * N))) : list (nat * N) :=
  match o with Some (_, _, l) => l | None => [] end.
