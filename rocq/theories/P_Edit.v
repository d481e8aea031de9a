(** What is left out of a tree has its error: C101.

    [edits], [reports] are in EditSpec; [mends], [missing] in RepairSpec; [inserted], [at_next] in LeafSpec;
    [took], [value], [errors_of], [all_tokens], [no_recover] in ParseSpec; [consumed] in StreamSpec. *)
From Coq Require Import String NArith.
From stdpp Require Import prelude list strings relations.
From Verif Require Import LexModel LexSpec SynSetModel TableModel StreamModel StreamSpec TypeModel ProduceModel ParseSpec LeafSpec RepairSpec EditSpec EditFacts ParseEx.
Local Open Scope nat_scope.

(** ** C101: every token is kept in the tree or is part of a run left out with an error of its own *)
(** Whatever the tables say: the tree is a tree for tokens that come from those consumed by
    leaving out runs and inserting literals.  Each run left out and each literal inserted has an error of its
    own, that of a run starts in it or directly behind it.  Only if [tp::Recover] is used, a run at the
    end of the input may be left out without an error. *)
Theorem C101_edits : ∀ extract env first follow jump f t s r s' x l,
  state_ok s → run extract (produce env first follow jump f t) s = ODone r s' →
  value r = Some x → took extract s l s' →
  ∃ ks es, mends env t x ks ∧
    edits (p_src s) (all_tokens extract s) (missing env follow t (p_src s) (all_tokens extract s))
      (¬ no_recover env t) (consumed s) l ks es ∧
    es ⊆+ errors_of r.
Proof. exact edit_run. Qed.
Print Assumptions C101_edits.
(** The same for a whole parse and the errors of the parser. *)
Theorem C101_parse : ∀ extract env f root md s o s' x l,
  state_ok s → run extract (parse env f root (inr md)) s = ODone o s' → o = inr (Some x) → took extract s l s' →
  ∃ ks es, mends env root x ks ∧
    edits (p_src s) (all_tokens extract s) (missing env (tb_get (md_follow md)) root (p_src s) (all_tokens extract s))
      (¬ no_recover env root) (consumed s) l ks es ∧
    es ⊆+ p_errors s'.
Proof. exact edit_parse. Qed.
Print Assumptions C101_parse.
(** Without [tp::Recover]: if no error is reported, then every token consumed is in its place in
    the tree, also in [Punct] and [Loop]. *)
Theorem C101_clean : ∀ extract env f root md s o s' x l,
  state_ok s → no_recover env root →
  run extract (parse env f root (inr md)) s = ODone o s' → o = inr (Some x) → p_errors s' = [] → took extract s l s' →
  mends env root x (map (λ t, (t, default ""%string (text_of (p_src s) t))) l).
Proof. exact edit_clean. Qed.
Print Assumptions C101_clean.
(** A list of identifiers on ["a,(,b"]: the first [","] and the ["("] are left out, their error starts at the ["("]. *)
Example C101_ex : state_ok (start "a,(,b") ∧ no_recover [] (TSplit tId tC) ∧
  match ex_parse [] (TSplit tId tC) "a,(,b" with
  | ODone (inr (Some (TrSplit _ [TrTok a; TrTok b] [TrTok c]))) s' =>
      map e_span (p_errors s') = [Span 2 4] ∧
      ∀ ins lost e, e_span e = Span 2 4 →
        edits "a,(,b" (all_tokens no_extract (start "a,(,b")) ins lost [] (all_tokens no_extract (start "a,(,b"))
          [(a, "a"); (c, ","); (b, "b")]%string [e]
  | _ => False
  end.
Proof.
  split_and!; [apply start_ok|within [TSplit tId tC; tId; tC]|]. vm_compute. split; [done|]. intros ins lost e He.
  apply (ed_take "a,(,b"%string _ _ _ [] (Token (Span 0 1) 0)).
  apply (ed_drop _ _ _ _ [_] [_; _]); [done|unfold reports; change (e_span e = Span 2 4) in He; rewrite He; cbn; lia|].
  apply (ed_take "a,(,b"%string _ _ _ _ (Token (Span 3 4) 1)), (ed_take "a,(,b"%string _ _ _ _ (Token (Span 4 5) 0)), ed_nil.
Qed.
(** The exception: an optional [Recover] of an identifier with tail [")"] on ["a"].  The token
    is consumed, it is not in the tree, and there is no error. *)
Example C101_ex_lost :
  match ex_parse [] (TOpt (TRecover tId tR)) "a" with
  | ODone (inr (Some (TrOpt _ None))) s' => p_errors s' = [] ∧ length (consumed s') = 1
  | _ => False
  end.
Proof. by vm_compute. Qed.
Example C101_ex_clean : state_ok (start "a,b,") ∧ no_recover [] (TPunct tId tC) ∧
  match ex_parse [] (TPunct tId tC) "a,b," with
  | ODone (inr (Some x)) s' => p_errors s' = [] ∧ length (consumed s') = 4
  | _ => False
  end.
Proof. split_and!; [apply start_ok|within [TPunct tId tC; tId; tC]|by vm_compute]. Qed.
