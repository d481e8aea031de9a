(** Lists, options and [Recover] step by step, and where and what failures report: C66-C69.

    [found], [missing], [tries], [lists], [tails], [iters], [maybe], [here], [reported] and
    [expected] are in ListSpec; [took], [value], [errors_of], [next_tok], [filled],
    [no_recover] in ParseSpec; [to_come] in StreamSpec. *)
From Coq Require Import String NArith.
From stdpp Require Import prelude list strings relations.
From Verif Require Import LexModel LexSpec SynSetModel TableModel StreamModel StreamSpec TypeModel ProduceModel ParseSpec LeafSpec ListSpec ListFacts ExpectFacts ParseEx.
Local Open Scope nat_scope.

Notation has set o := (ts_contains set o = true).
Notation makes extract env first follow jump f t :=
  (λ s r s', run extract (produce env first follow jump f t) s = ODone r s').

(** ** C66: lists with separators and [Recover] resynchronize, and report what they skip *)
(** [Split]: a first element is required.  Behind it, as long as a separator is next, an
    element is looked for up to the next separator or follow token.  Everything stepped over is
    reported; the separator of a missing element is dropped. *)
Theorem C66_split : ∀ extract env first follow jump f t p s r s' x,
  state_ok s → filled env t →
  run extract (produce env first follow jump (S f) (TSplit t p)) s = ODone r s' → value r = Some x →
  ∃ sp y es s1 xs ps, x = TrSplit sp (y :: xs) ps ∧
    found extract (λ _, True) (makes extract env first follow jump f t) s y es s1 ∧ es ⊆ errors_of r ∧
    lists extract
      (λ o, has (first (key t)) o ∨ ts_contains_e (first (key t)) = true)
      (λ o, has (first (key p)) o)
      (λ o, has (follow (key (TSplit t p))) o)
      (makes extract env first follow jump f t) (makes extract env first follow jump f p)
      false (λ _, False) (no_recover env t) (errors_of r) s1 xs ps s'.
Proof. exact split_run. Qed.
Print Assumptions C66_split.
(** [Punct]: the same, but every separator is kept, and the list may end with a separator if a
    follow token or the end of the input is next. *)
Theorem C66_punct : ∀ extract env first follow jump f t p s r s' x,
  state_ok s → filled env t →
  run extract (produce env first follow jump (S f) (TPunct t p)) s = ODone r s' → value r = Some x →
  ∃ sp y es s1 xs ps, x = TrPunct sp (y :: xs) ps ∧
    found extract (λ _, True) (makes extract env first follow jump f t) s y es s1 ∧ es ⊆ errors_of r ∧
    lists extract
      (λ o, is_Some o ∧ has (first (key t)) o)
      (λ o, has (first (key p)) o)
      (λ o, has (follow (key (TPunct t p))) o)
      (makes extract env first follow jump f t) (makes extract env first follow jump f p)
      true (λ o, o = None ∨ has (follow (key (TPunct t p))) o) (no_recover env t) (errors_of r) s1 xs ps s'.
Proof. exact punct_run. Qed.
Print Assumptions C66_punct.
(** [Recover]: the head may be missing, which is reported where it should have been.  Then the
    tail is looked for to the end of the input, and what is stepped over is reported.  The
    result has a value exactly if the tail was found. *)
Theorem C66_recover : ∀ extract env first follow jump f t u s r s',
  state_ok s → filled env u →
  run extract (produce env first follow jump (S f) (TRecover t u)) s = ODone r s' →
  ∃ hd o s1,
    (match hd with
     | Some y => ∃ es, found extract (λ o, has (first (key t)) o ∨ ts_contains_e (first (key t)) = true)
         (makes extract env first follow jump f t) s y es s1 ∧ es ⊆ errors_of r
     | None => missing extract (λ o, has (first (key t)) o ∨ ts_contains_e (first (key t)) = true)
         (makes extract env first follow jump f t) s s1 ∧
         (no_recover env t ∨ to_come extract s1 ≠ [] →
          ∃ e, e ∈ errors_of r ∧ sp_lo (e_span e) = sp_lo (here extract s1))
     end) ∧
    tails extract (λ o, has (first (key u)) o ∨ ts_contains_e (first (key u)) = true)
      (makes extract env first follow jump f u) (errors_of r) s1 o s' ∧
    match o with Some x => ∃ sp, value r = Some (TrRecover sp hd x) | None => value r = None end.
Proof. exact recover_run. Qed.
Print Assumptions C66_recover.
(** The lists fail only if their first element fails, and with its errors. *)
Theorem C66_fail : ∀ extract env first follow jump f c t s r s',
  (∃ p, c = TSplit t p ∨ c = TPunct t p) ∨ c = TPlus t →
  run extract (produce env first follow jump (S f) c) s = ODone r s' → value r = None →
  ∃ r1, run extract (produce env first follow jump f t) s = ODone r1 s' ∧ value r1 = None ∧ errors_of r = errors_of r1.
Proof. exact first_fail. Qed.
Print Assumptions C66_fail.
Example C66_ex_fail : (∃ p, TPunct tId tC = TSplit tId p ∨ TPunct tId tC = TPunct tId p) ∧
  match ex_run [] (TPunct tId tC) ",a" with ODone r s' => value r = None ∧ map e_span (errors_of r) = [Span 0 1] | _ => False end.
Proof. split; [eauto|]. by vm_compute. Qed.
(** ["a,(,b"]: the ["("] and the following separator are reported in one error. *)
Example C66_ex_split : state_ok (start "a,(,b") ∧ filled [] tId ∧
  match ex_run [] (TSplit tId tC) "a,(,b" with
  | ODone r s' => (∃ sp, value r = Some (TrSplit sp [TrTok (Token (Span 0 1) 0); TrTok (Token (Span 4 5) 0)] [TrTok (Token (Span 3 4) 1)])) ∧
      map e_span (errors_of r) = [Span 2 4]
  | _ => False
  end.
Proof. split; [apply start_ok|]. split; [within [tId]|]. vm_compute. eauto. Qed.
(** ["a,(,b,"]: all separators are kept, also the last. *)
Example C66_ex_punct : state_ok (start "a,(,b,") ∧ filled [] tId ∧
  match ex_run [] (TPunct tId tC) "a,(,b," with
  | ODone r s' => (∃ sp, value r = Some (TrPunct sp [TrTok (Token (Span 0 1) 0); TrTok (Token (Span 4 5) 0)]
        [TrTok (Token (Span 1 2) 1); TrTok (Token (Span 3 4) 1); TrTok (Token (Span 5 6) 1)])) ∧
      map e_span (errors_of r) = [Span 2 4]
  | _ => False
  end.
Proof. split; [apply start_ok|]. split; [within [tId]|]. vm_compute. eauto. Qed.
(** ["((a)"]: the head, an identifier, is missing; the tail is at the end. *)
Example C66_ex_recover : state_ok (start "((a)") ∧ filled [] tR ∧
  match ex_run [] (TRecover tId tR) "((a)" with
  | ODone r s' => (∃ sp, value r = Some (TrRecover sp None (TrTok (Token (Span 3 4) 1)))) ∧ map e_span (errors_of r) = [Span 0 3]
  | _ => False
  end.
Proof. split; [apply start_ok|]. split; [within [tR]|]. vm_compute. eauto. Qed.

(** ** C67: a failure is reported at the token where parsing stopped *)
(** The last error of a failed [produce] has exactly the place of the look-ahead (the empty
    place at the end of the source at the end of the input).  The exception is a [Recover] that
    ran to the end of the input. *)
Theorem C67_last : ∀ extract env first follow jump f t s es s', state_ok s →
  run extract (produce env first follow jump f t) s = ODone (RPanic es) s' →
  (to_come extract s' = [] ∧ ¬ no_recover env t) ∨ ∃ e, last es = Some e ∧ e_span e = here extract s'.
Proof. exact last_run. Qed.
Print Assumptions C67_last.
(** The same for a whole parse that returns no tree. *)
Theorem C67_parse : ∀ extract env f root md s o s', state_ok s → no_recover env root →
  run extract (parse env f root (inr md)) s = ODone o s' → o = inr None →
  ∃ e, last (p_errors s') = Some e ∧ e_span e = here extract s'.
Proof. exact last_parse. Qed.
Print Assumptions C67_parse.
Example C67_ex : state_ok (start "(a b") ∧ no_recover [] (TTuple [tL; tId; tR; tC]) ∧
  match ex_run [] (TTuple [tL; tId; tR; tC]) "(a b" with
  | ODone (RPanic es) s' => map e_span es = [Span 3 4] ∧ here no_extract s' = Span 3 4 ∧ length (consumed s') = 2
  | _ => False
  end.
Proof. split; [apply start_ok|]. split; [within [TTuple [tL; tId; tR; tC]; tL; tId; tR; tC]|]. by vm_compute. Qed.
Example C67_ex_parse : state_ok (start "(a b") ∧ no_recover [] (TTuple [tL; tId; tR; tC]) ∧
  match ex_parse [] (TTuple [tL; tId; tR; tC]) "(a b" with
  | ODone (inr None) s' => map e_span (p_errors s') = [Span 3 4]
  | _ => False
  end.
Proof. split; [apply start_ok|]. split; [within [TTuple [tL; tId; tR; tC]; tL; tId; tR; tC]|]. by vm_compute. Qed.

(** ** C68: what an error says is expected is what could have come there *)
(** Every set in an expecting-error is the set of a terminal, the FIRST set of an enum, of an
    element of [Split], or of a part of a [Recover], or FIRST and FOLLOW of a [Punct], of types
    that occur in the parsed type. *)
Theorem C68_expected : ∀ extract env first follow jump f t s r s' e set, state_ok s →
  run extract (produce env first follow jump f t) s = ODone r s' → e ∈ errors_of r → e_kind e = Expecting set →
  expected env first follow t set.
Proof. exact expect_run. Qed.
Print Assumptions C68_expected.
(** ["(a,,b"]: behind the [","] another element or the [")"] is expected, at the end the [")"]. *)
Example C68_ex : state_ok (start "(a,,b") ∧
  match ex_run ex_env exE "(a,,b" with
  | ODone r s' =>
      match errors_of r with
      | [PErr _ (Expecting a); PErr _ (Expecting b)] =>
          map (ts_contains a) [Some (0, "a"%string); Some (1, "("%string); Some (1, ")"%string); Some (1, ","%string)] = [true; true; true; false] ∧
          map (ts_contains b) [Some (0, "a"%string); Some (1, "("%string); Some (1, ")"%string); Some (1, ","%string)] = [false; false; true; false]
      | _ => False
      end
  | _ => False
  end.
Proof. split; [apply start_ok|]. by vm_compute. Qed.

(** ** C69: repetition is greedy, options are taken exactly if they can start *)
Theorem C69_plus : ∀ extract env first follow jump f t s r s' x, state_ok s →
  run extract (produce env first follow jump (S f) (TPlus t)) s = ODone r s' → value r = Some x →
  ∃ sp y es s1 xs, x = TrList sp (y :: xs) ∧
    found extract (λ _, True) (makes extract env first follow jump f t) s y es s1 ∧ es ⊆ errors_of r ∧
    iters extract (λ o, is_Some o ∧ has (first (key (TPlus t))) o) (makes extract env first follow jump f t) (errors_of r) s1 xs s'.
Proof. exact plus_type_run. Qed.
Print Assumptions C69_plus.
(** [Star] is an optional [Plus]; a [Plus] that fails leaves the list empty. *)
Theorem C69_star : ∀ extract env first follow jump f t s r s', state_ok s →
  run extract (produce env first follow jump (S f) (TStar t)) s = ODone r s' →
  ∃ sp xs, value r = Some (TrList sp xs) ∧
    (took extract s [] s' ∧ ¬ (is_Some (next_tok extract s') ∧ has (first (key (TPlus t))) (next_tok extract s')) ∧
       errors_of r = [] ∧ xs = [] ∨
     ∃ s1 r1 s2, took extract s [] s1 ∧ (is_Some (next_tok extract s1) ∧ has (first (key (TPlus t))) (next_tok extract s1)) ∧
       run extract (produce env first follow jump (S f) (TPlus t)) s1 = ODone r1 s2 ∧ took extract s2 [] s' ∧
       errors_of r = errors_of r1 ∧
       match value r1 with Some x => ∃ sp', x = TrList sp' xs | None => xs = [] end).
Proof. exact star_type_run. Qed.
Print Assumptions C69_star.
Theorem C69_option : ∀ extract env first follow jump f t s r s', state_ok s →
  run extract (produce env first follow jump (S f) (TOpt t)) s = ODone r s' →
  ∃ sp o, value r = Some (TrOpt sp o) ∧
    maybe extract (λ o, is_Some o ∧ has (first (key t)) o) (makes extract env first follow jump f t) s o (errors_of r) s'.
Proof. exact opt_type_run. Qed.
Print Assumptions C69_option.
Theorem C69_exists : ∀ extract env first follow jump f t s r s', state_ok s →
  run extract (produce env first follow jump (S f) (TExists t)) s = ODone r s' →
  ∃ sp o, value r = Some (TrExists sp (bool_decide (is_Some o))) ∧
    maybe extract (λ o, is_Some o ∧ has (first (key t)) o) (makes extract env first follow jump f t) s o (errors_of r) s'.
Proof. exact exists_type_run. Qed.
Print Assumptions C69_exists.
(** Two items, then one that fails; the failure is reported. *)
Example C69_ex_plus : state_ok (start "(a(b(,") ∧
  match ex_run [] (TPlus (TTuple [tL; tId])) "(a(b(," with
  | ODone r s' => (∃ sp x y, value r = Some (TrList sp [x; y])) ∧ map e_span (errors_of r) = [Span 5 6] ∧ length (consumed s') = 5
  | _ => False
  end.
Proof. split; [apply start_ok|]. vm_compute. eauto 10. Qed.
Example C69_ex_star :
  match ex_run [] (TStar (TTuple [tL; tId])) "(,", ex_run [] (TStar (TTuple [tL; tId])) "a" with
  | ODone r s', ODone q u => (∃ sp, value r = Some (TrList sp [])) ∧ map e_span (errors_of r) = [Span 1 2] ∧
      (∃ sp, value q = Some (TrList sp [])) ∧ errors_of q = [] ∧ consumed u = []
  | _, _ => False
  end.
Proof. vm_compute. eauto 10. Qed.
Example C69_ex_option :
  match ex_run [] (TOpt (TTuple [tL; tId])) "(a", ex_run [] (TOpt (TTuple [tL; tId])) "((" , ex_run [] (TExists tId) "(" with
  | ODone r s', ODone q u, ODone p v => (∃ sp x, value r = Some (TrOpt sp (Some x))) ∧ errors_of r = [] ∧
      (∃ sp, value q = Some (TrOpt sp None)) ∧ map e_span (errors_of q) = [Span 1 2] ∧
      (∃ sp, value p = Some (TrExists sp false)) ∧ errors_of p = []
  | _, _, _ => False
  end.
Proof. vm_compute. eauto 10. Qed.
