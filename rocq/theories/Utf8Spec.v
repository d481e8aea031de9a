(** Specification vocabulary for character boundaries. *)
From Coq Require Import String Ascii NArith.
From stdpp Require Import prelude list.
From Verif Require Import LexModel StreamModel Utf8Model.

(** No piece of text known to the parser or still reported by the tokenizer starts or ends
    inside a character. *)
Definition chars_ok (s : pst) : Prop :=
  ∀ sp, sp ∈ map (λ c, t_span (c_tok c)) (p_tokens s) ++
             match p_peeked s with Some t => [t_span t] | None => [] end ++
             map raw_span (p_evs s) →
    char_boundary (p_src s) (sp_lo sp) = true ∧ char_boundary (p_src s) (sp_hi sp) = true.

(** The bytes of a code point in UTF-8. *)
Definition encode (c : N) : list N :=
  (if c <? 128 then [c]
   else if c <? 2048 then [192 + c / 64; 128 + c mod 64]
   else if c <? 65536 then [224 + c / 4096; 128 + (c / 64) mod 64; 128 + c mod 64]
   else [240 + c / 262144; 128 + (c / 4096) mod 64; 128 + (c / 64) mod 64; 128 + c mod 64])%N.
(** The text with these code points, and where the [n]-th of them begins (the end of the text, if there are [n]). *)
Definition utf8 (cs : list N) : string := string_of_list_ascii (map ascii_of_N (concat (map encode cs))).
Definition begins (cs : list N) (n : nat) : nat := String.length (utf8 (take n cs)).
Definition code_points : list N → Prop := Forall (λ c, c < 1114112)%N.
