(** Property theorems about sentences one after the other (C97).

    [parses], [lang], [pseq], [langs] (ParseSpec): the parse trees and sentences of a type, and of a list of types one
    after the other.  [took], [only_bad_text] (ParseSpec) describe runs.  [ends_before env t y]: after a sentence of [t]
    no sentence goes on with [y]; [self_delimiting], [no_punct_last], [reads] (NextSpec). *)
From Coq Require Import String NArith.
From stdpp Require Import prelude list strings relations.
From Verif Require Import LexModel LexSpec SynSetModel TableModel CfgSpec StreamModel StreamSpec TypeModel TypeSpec ProduceModel ParseSpec CompleteSpec
  SyntaxEx ParseEx NextSpec NextFacts NextEx.
Local Open Scope nat_scope.

(** ** C97: a parse ends with its sentence *)
(** If the tokens to come are a sentence and then a token that cannot go on with it, [Parser::parse] takes the sentence
    and leaves what comes after it, without errors but for unrecognised text. *)
Theorem C97_next : ∀ extract env root md,
  accepted env root md → regular env root → productive env root → no_loop env root → no_punct_last env root →
  ∀ s l u, state_ok s → to_come extract s = l ++ u →
  (∀ y, head (word (p_src s) u) = Some y → ends_before env root y) → lang env root (word (p_src s) l) →
  ∃ f0 x s', parses env (p_src s) (end_of (p_tokens s)) root l x ∧ took extract s l s' ∧ only_bad_text s s' ∧
    ∀ f, f0 ≤ f → run extract (parse env f root (inr md)) s = ODone (inr (Some x)) s'.
Proof. exact parse_next_lang. Qed.
Print Assumptions C97_next.
(** Repeated calls read a sequence of sentences one by one, and leave what comes after them. *)
Theorem C97_reads : ∀ extract env root md,
  accepted env root md → regular env root → productive env root → no_loop env root → no_punct_last env root →
  ∀ n s l u, self_delimiting env root → state_ok s → to_come extract s = l ++ u →
  (∀ y, head (word (p_src s) u) = Some y → ends_before env root y) →
  langs env (replicate n root) (word (p_src s) l) →
  ∃ xs s', pseq env (p_src s) (end_of (p_tokens s)) (replicate n root) l xs ∧
    reads extract env md root s xs s' ∧ took extract s l s' ∧ only_bad_text s s'.
Proof. exact reads_lang. Qed.
Print Assumptions C97_reads.
(** Conversely, what calls without errors read is a sequence of sentences. *)
Theorem C97_sound : ∀ extract env md root s xs s',
  filled env root → no_recover env root → state_ok s →
  reads extract env md root s xs s' → p_errors s' = p_errors s → p_invalid s' = p_invalid s →
  ∃ l, took extract s l s' ∧ pseq env (p_src s) (end_of (p_tokens s)) (replicate (length xs) root) l xs.
Proof. exact reads_sound. Qed.
Print Assumptions C97_sound.
(** Sentences that end with a literal that is used nowhere else in them are such. *)
Theorem C97_terminator : ∀ env t n y lit,
  all_within env (λ c, match c with TTok _ y' lit' => ¬ covers y' lit' (y, lit) | _ => True end) t →
  (∀ z, ends_before env (TTuple [t; TTok n y (Some lit)]) z) ∧ self_delimiting env (TTuple [t; TTok n y (Some lit)]).
Proof. exact terminated_both. Qed.
Print Assumptions C97_terminator.
(** Names and a comma, twice, and a name after them. *)
Example C97_ex : accepted [] stT (md_get [] stT) ∧ regular [] stT ∧ productive [] stT ∧ no_loop [] stT ∧ no_punct_last [] stT ∧
  self_delimiting [] stT ∧ state_ok (start st_src) ∧
  langs [] (replicate 2 stT) (word st_src (take 5 (to_come no_extract (start st_src)))) ∧
  length (to_come no_extract (start st_src)) = 6.
Proof.
  split; [exact st_accepted|]. split; [exact st_regular|]. split; [exact st_productive|]. split; [exact st_no_loop|].
  split; [exact st_no_punct|]. split; [exact st_delimits|]. split; [apply start_ok|]. split; [exact st_langs|]. by vm_compute.
Qed.
Example C97_terminator_ex :
  all_within [] (λ c, match c with TTok _ y' lit' => ¬ covers y' lit' (1, ","%string) | _ => True end) (TPlus tId).
Proof. exact tId_within. Qed.
Example C97_reads_ex : match ex_parse [] stT st_src with
  | ODone (inr (Some x)) s1 => tree_span x = Span 0 4 ∧ p_errors s1 = [] ∧
     match run no_extract (parse [] 60 stT (inr (md_get [] stT))) s1 with
     | ODone (inr (Some y)) s2 => tree_span y = Span 5 7 ∧ p_errors s2 = [] ∧ length (to_come no_extract s2) = 1
     | _ => False
     end
  | _ => False
  end.
Proof. exact st_reads. Qed.
(** Not so without [no_punct_last]: after the trailing delimiter of a [tp::Punct] only the end of the source or a token in
    its FOLLOW set ends the list.  At the end of the root that set has no token: whatever comes is reported and skipped. *)
Theorem C97_punct_refuted : ∃ env root md s l u,
  accepted env root md ∧ regular env root ∧ productive env root ∧ no_loop env root ∧ state_ok s ∧ to_come no_extract s = l ++ u ∧
  (∀ y, head (word (p_src s) u) = Some y → ends_before env root y) ∧ lang env root (word (p_src s) l) ∧
  ¬ ∃ f x s', run no_extract (parse env f root (inr md)) s = ODone (inr (Some x)) s' ∧ only_bad_text s s'.
Proof.
  exists [], puT, (md_get [] puT), (start "a,("), (take 2 (to_come no_extract (start "a,("))), (drop 2 (to_come no_extract (start "a,("))).
  split; [exact pu_accepted|]. split; [exact pu_regular|]. split; [exact pu_productive|]. split; [exact pu_no_loop|].
  split; [apply start_ok|]. split; [by rewrite take_drop|]. split; [|split; [exact pu_lang|exact pu_skips]].
  intros y [= <-]. exact pu_ends.
Qed.
Print Assumptions C97_punct_refuted.
(** "a,(": the parenthesis is skipped; "a(": it is left. *)
Example C97_punct_ex : match ex_parse [] puT "a,(", ex_parse [] puT "a(" with
  | ODone (inr (Some x)) s1, ODone (inr (Some y)) s2 =>
      map e_span (p_errors s1) = [Span 2 3] ∧ to_come no_extract s1 = [] ∧ p_errors s2 = [] ∧ length (to_come no_extract s2) = 1
  | _, _ => False
  end.
Proof. exact pu_other. Qed.
