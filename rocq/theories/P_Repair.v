(** Recovered trees are trees of a repaired input: C99.

    [mends], [repairs], [missing], [strict] are in RepairSpec; [inserted] in LeafSpec;
    [took], [value], [errors_of], [all_tokens], [lang] in ParseSpec; [consumed] in StreamSpec. *)
From Coq Require Import String NArith.
From stdpp Require Import prelude list strings relations.
From Verif Require Import LexModel LexSpec SynSetModel TableModel StreamModel StreamSpec TypeModel ProduceModel ParseSpec LeafSpec RepairSpec RepairFacts ParseEx.
Local Open Scope nat_scope.

(** ** C99: a tree is the tree of the input after leaving out tokens and inserting announced literals *)
(** Whatever the tables say: the tree has the shape its type demands, for a sequence of tokens
    that comes from the tokens consumed by leaving out some and inserting missing literals, each
    with an error of its own.  Also the tokens under [Exists], [Quote] and [Parse], which are not
    kept in the tree, are such tokens. *)
Theorem C99_repair : ∀ extract env first follow jump f t s r s' x l,
  state_ok s → run extract (produce env first follow jump f t) s = ODone r s' →
  value r = Some x → took extract s l s' →
  ∃ ks es, mends env t x ks ∧
    repairs (p_src s) (missing env follow t (p_src s) (all_tokens extract s)) (consumed s) l ks es ∧
    es `sublist_of` errors_of r.
Proof. exact repair_run. Qed.
Print Assumptions C99_repair.
(** For a whole parse the insertions are announced in the errors of the parser. *)
Theorem C99_parse : ∀ extract env f root md s o s' x l,
  state_ok s → run extract (parse env f root (inr md)) s = ODone o s' → o = inr (Some x) → took extract s l s' →
  ∃ ks es, mends env root x ks ∧
    repairs (p_src s) (missing env (tb_get (md_follow md)) root (p_src s) (all_tokens extract s)) (consumed s) l ks es ∧
    es `sublist_of` p_errors s'.
Proof. exact repair_parse. Qed.
Print Assumptions C99_parse.
(** Types without [Punct], [Recover] and [Loop]: the repaired input is a sentence. *)
Theorem C99_sentence : ∀ extract env f root md s o s' x l,
  state_ok s → strict env root →
  run extract (parse env f root (inr md)) s = ODone o s' → o = inr (Some x) → took extract s l s' →
  ∃ ks es, lang env root (kept_word ks) ∧ mends env root x ks ∧
    repairs (p_src s) (missing env (tb_get (md_follow md)) root (p_src s) (all_tokens extract s)) (consumed s) l ks es ∧
    es `sublist_of` p_errors s'.
Proof. exact repair_sentence. Qed.
Print Assumptions C99_sentence.
(** So there is a sentence with at most as many tokens as were consumed and errors were reported. *)
Theorem C99_count : ∀ extract env f root md s o s' x l,
  state_ok s → strict env root →
  run extract (parse env f root (inr md)) s = ODone o s' → o = inr (Some x) → took extract s l s' →
  ∃ w, lang env root w ∧ length w ≤ length l + length (p_errors s').
Proof. exact repair_count. Qed.
Print Assumptions C99_count.
(** [("(", ")", a)] on ["( a"]: the tree is that of ["( ) a"]. *)
Example C99_ex : state_ok (start "( a") ∧ strict [] (TTuple [tL; tR; tId]) ∧
  match ex_parse [] (TTuple [tL; tR; tId]) "( a" with
  | ODone (inr (Some (TrSeq [TrTok k1; TrTok k2; TrTok k3]))) s' =>
      k1 = Token (Span 0 1) 1 ∧ k2 = Token (Span 1 1) 1 ∧ k3 = Token (Span 2 3) 0 ∧
      map e_span (p_errors s') = [Span 2 3]
  | _ => False
  end ∧
  lang [] (TTuple [tL; tR; tId]) (kept_word [(Token (Span 0 1) 1, "("%string); (Token (Span 1 1) 1, ")"%string); (Token (Span 2 3) 0, "a"%string)]).
Proof.
  split_and!; [apply start_ok|within [TTuple [tL; tR; tId]; tL; tR; tId]|by vm_compute|].
  cbn. apply l_tuple.
  apply (ls_cons _ tL _ [_] [_; _]); [by apply l_tok; split; [|right]|].
  apply (ls_cons _ tR _ [_] [_]); [by apply l_tok; split; [|right]|].
  apply (ls_cons _ tId _ [_] []); [by apply l_tok; split; [|left]|constructor].
Qed.
