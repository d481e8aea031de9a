(** Inputs used in the examples about where errors start. *)
From Coq Require Import String NArith.
From stdpp Require Import prelude list strings relations.
From Verif Require Import LexModel LexSpec LexFacts SynSetModel TableModel StreamModel StreamSpec StreamFacts TypeModel TypeSpec
  ProduceModel CfgSpec ParseSpec LangFacts CompleteSpec CompleteFacts ParseEx CompleteEx PrefixSpec.
Local Open Scope nat_scope.
Local Open Scope list_scope.

Definition tok_a : tok := (0, "a"%string).
Definition tok_l : tok := (1, "("%string).
Definition tok_r : tok := (1, ")"%string).
Definition tok_c : tok := (1, ","%string).

(** Punct<("(", ")", a, a), ","> *)
Definition lostE := TTuple [tL; tR; tId; tId].
Definition lostT := TPunct lostE tC.
Lemma lost_accepted : accepted [] lostT (md_get [] lostT).
Proof. apply md_get_accepted. by vm_compute. Qed.
Definition lost_types := [lostT; lostE; tL; tR; tId; tC].
Lemma lost_regular : regular [] lostT.
Proof.
  apply (regular_interior _ _ _ lost_accepted); [within lost_types..|].
  apply interior_ok. by vm_compute.
Qed.

Lemma lang_tok env n y lit w : lang env (TTok n y lit) w → ∃ t, w = [t] ∧ covers y lit t.
Proof. inversion 1; subst. eauto. Qed.
Lemma lang_tuple env ts w : lang env (TTuple ts) w → langs env ts w.
Proof. by inversion 1. Qed.
Lemma lost_elem w : lang [] lostE w → ∃ x1 x2 x3 x4, w = [x1; x2; x3; x4] ∧ snd x2 = ")"%string.
Proof.
  intros (w1 & v1 & -> & (x1 & -> & _)%lang_tok & (w2 & v2 & -> & (x2 & -> & H2)%lang_tok &
    (w3 & v3 & -> & (x3 & -> & _)%lang_tok & (w4 & v4 & -> & (x4 & -> & _)%lang_tok & ->%langs_nil)%langs_cons)%langs_cons)%langs_cons)%lang_tuple%langs_cons.
  exists x1, x2, x3, x4. split; [done|]. destruct H2 as [_ [?|H2]]; [done|]. by injection H2.
Qed.
Lemma lost_elem_ok : lang [] lostE [tok_l; tok_r; tok_a; tok_a].
Proof.
  constructor. apply (ls_cons _ _ _ [_]); [constructor; split; [done|by right]|].
  apply (ls_cons _ _ _ [_]); [constructor; split; [done|by right]|].
  apply (ls_cons _ _ _ [_]); [constructor; split; [done|by left]|].
  apply (ls_cons _ _ _ [_]); [constructor; split; [done|by left]|]. constructor.
Qed.
(** "()aa,(" can be continued, "()aa,(a" cannot. *)
Definition lost_word := [tok_l; tok_r; tok_a; tok_a; tok_c; tok_l].
Lemma lost_viable : viable [] lostT lost_word.
Proof.
  exists [tok_r; tok_a; tok_a]. split; [by repeat constructor|].
  apply (l_punct _ _ _ 1 false). rewrite app_nil_r.
  apply (ls_cons _ _ _ [tok_l; tok_r; tok_a; tok_a] [tok_c; tok_l; tok_r; tok_a; tok_a]); [exact lost_elem_ok|].
  apply (ls_cons _ _ _ [_]); [constructor; split; [done|by right]|].
  apply langs_one. exact lost_elem_ok.
Qed.
Lemma lost_not_viable : ¬ viable [] lostT (lost_word ++ [tok_a]).
Proof.
  intros (w' & _ & H). inversion H as [| | | | | | | | | | | | | | |t d n tr w Hw|]; subst.
  unfold alternate in Hw. cbn [app] in Hw.
  apply langs_cons in Hw as (w1 & w2 & E & (x1 & x2 & x3 & x4 & -> & _)%lost_elem & Hw).
  cbn in E. injection E as <- <- <- <- <-.
  destruct n as [|n]; cbn [replicate concat app] in Hw.
  { destruct tr; [|by apply langs_nil in Hw]. apply langs_one, lang_tok in Hw as (t & Ht & _). done. }
  apply langs_cons in Hw as (w3 & w4 & E & (t & -> & _)%lang_tok & Hw). injection E as <- <-.
  apply langs_cons in Hw as (w5 & w6 & E & (y1 & y2 & y3 & y4 & -> & H2)%lost_elem & Hw).
  injection E as _ <- _. done.
Qed.

(** "(a," can be continued to a sentence of the example grammar. *)
Lemma ex_viable : viable ex_env exE [tok_l; tok_a; tok_c].
Proof.
  assert (Ha : lang ex_env exE [tok_a]).
  { eapply (l_enum _ 0 _ tId (Some 1%N)); [done|set_solver|]. constructor. split; [done|by left]. }
  exists [tok_a; tok_r]. split; [by repeat constructor|].
  eapply (l_enum _ 0 _ exP None); [done|set_solver|]. eapply (l_struct _ 1); [done|].
  apply (ls_cons _ _ _ [_]); [constructor; split; [done|by right]|].
  apply (ls_cons _ _ _ [tok_a; tok_c; tok_a]).
  - apply (l_punct _ _ _ 1 false). rewrite app_nil_r.
    apply (ls_cons _ _ _ [_]); [by constructor|]. apply (ls_cons _ _ _ [_]); [constructor; split; [done|by right]|].
    apply langs_one. by constructor.
  - apply langs_one. constructor. split; [done|by right].
Qed.

Lemma ex_run_eq env t x : ex_run env t x = run no_extract (produce_md env (md_get env t) 60 t) (start x).
Proof. done. Qed.
(** The error at 6 is lost. *)
Lemma lost_error : ∃ env root md s u tk f r s',
  accepted env root md ∧ regular env root ∧ state_ok s ∧ to_come no_extract s = u ++ [tk] ∧
  viable env root (word (p_src s) u) ∧ ¬ viable env root (word (p_src s) (u ++ [tk])) ∧
  run no_extract (produce_md env md f root) s = ODone r s' ∧ errors_of r ≠ [] ∧
  ∀ e, e ∈ errors_of r → sp_hi (t_span tk) ≤ sp_lo (e_span e).
Proof.
  assert (H : match ex_run [] lostT "()aa,(a" with
    | ODone r _ => map (λ e, sp_lo (e_span e)) (errors_of r) = [7] | _ => False end) by by vm_compute.
  destruct (ex_run [] lostT "()aa,(a") as [| |r s'] eqn:E; [destruct H..|].
  exists [], lostT, (md_get [] lostT), (start "()aa,(a"), (take 6 (to_come no_extract (start "()aa,(a"))),
    (Token (Span 6 7) 0), 60, r, s'.
  split; [exact lost_accepted|]. split; [exact lost_regular|]. split; [apply start_ok|]. split; [by vm_compute|].
  assert (word (p_src (start "()aa,(a")) (take 6 (to_come no_extract (start "()aa,(a"))) = lost_word) as -> by by vm_compute.
  assert (word (p_src (start "()aa,(a")) (take 6 (to_come no_extract (start "()aa,(a")) ++ [Token (Span 6 7) 0]) = lost_word ++ [tok_a]) as -> by by vm_compute.
  split; [exact lost_viable|]. split; [exact lost_not_viable|]. split; [rewrite <- ex_run_eq; exact E|].
  clear E. destruct (errors_of r) as [|e [|]]; [done| |done]. injection H as He. split; [done|].
  intros e' ->%elem_of_list_singleton. rewrite He. done.
Qed.
