(** C116: mending once is enough.

    [mends], [repairs], [missing], [strict], [bare] are in RepairSpec (see C99); [regular] in CompleteSpec (see C36). *)
From Coq Require Import String NArith.
From stdpp Require Import prelude list strings relations.
From Verif Require Import LexModel LexSpec SynSetModel TableModel StreamModel StreamSpec TypeModel ProduceModel ParseSpec CompleteSpec ParseEx
  RepairSpec MendFacts MendEx.
Local Open Scope nat_scope.

(** A tree that came with errors: leave out and insert the tokens as announced by the errors (C99), in any layout. The
    source parses without syntax errors, to the end, with the same tree. *)
Theorem C116_again : ∀ extract env root md f s x s' l, accepted env root md → regular env root → strict env root → state_ok s →
  run extract (parse env f root (inr md)) s = ODone (inr (Some x)) s' → took extract s l s' →
  ∃ ks es, mends env root x ks ∧
    repairs (p_src s) (missing env (tb_get (md_follow md)) root (p_src s) (all_tokens extract s)) (consumed s) l ks es ∧
    es `sublist_of` p_errors s' ∧
    ∀ s2, state_ok s2 → word (p_src s2) (to_come extract s2) = kept_word ks →
      ∃ f0 y s2', (∀ f, f0 ≤ f → run extract (parse env f root (inr md)) s2 = ODone (inr (Some y)) s2') ∧
        took extract s2 (to_come extract s2) s2' ∧ only_bad_text s2 s2' ∧ bare y = bare x.
Proof. exact mend_again. Qed.
Print Assumptions C116_again.
(** ("(", ")", Ident, Vec<(",", Ident)>): "(a,b" has an error, and the tree of "( ) a , b". *)
Example C116_ex : accepted [] mdT (md_get [] mdT) ∧ regular [] mdT ∧ strict [] mdT ∧ state_ok (start "(a,b") ∧ state_ok (start "( ) a , b") ∧
  match ex_parse [] mdT "(a,b", ex_parse [] mdT "( ) a , b" with
  | ODone (inr (Some x)) s1, ODone (inr (Some y)) s2 =>
      length (p_errors s1) = 1 ∧ p_errors s2 = [] ∧ x ≠ y ∧ bare x = bare y ∧
      kept_word [(Token (Span 0 1) 1, "("); (Token (Span 1 1) 1, ")"); (Token (Span 1 2) 0, "a"); (Token (Span 2 3) 1, ","); (Token (Span 3 4) 0, "b")]%string =
        word (p_src s2) (consumed s2)
  | _, _ => False
  end.
Proof.
  split; [exact md_accepted|]. split; [exact md_regular|]. split; [exact md_strict|]. split; [apply start_ok|]. split; [apply start_ok|exact md_ex].
Qed.
(** Without [strict] it is false: a [Punct] keeps a separator without an element. "a,,b" has an error and its tree has all its
    tokens, so nothing is to be mended. *)
Example C116_punct_ex : accepted [] mdP (md_get [] mdP) ∧ regular [] mdP ∧ ¬ strict [] mdP ∧ state_ok (start "a,,b") ∧
  match ex_parse [] mdP "a,,b" with
  | ODone (inr (Some (TrPunct _ [TrTok a; TrTok b] [TrTok c; TrTok d]))) s =>
      length (p_errors s) = 1 ∧ consumed s = [a; c; d; b]
  | _ => False
  end.
Proof.
  split; [exact mdP_accepted|]. split; [exact mdP_regular|]. split; [|split; [apply start_ok|by vm_compute]].
  intros H. apply (H mdP). apply rtc_refl.
Qed.
