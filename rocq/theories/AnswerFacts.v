(** What [Root::parse] tells about a source. *)
From Coq Require Import String NArith.
From stdpp Require Import prelude list strings relations.
From Verif Require Import LexModel LexSpec SynSetModel TableModel StreamModel StreamSpec StreamFacts TypeModel ProduceModel CfgSpec ParseSpec
  ProgFacts FuelFacts RunFacts ParseFacts CompleteSpec CompleteFacts PrefixSpec OffendFacts RootModel LeafSpec LeafFacts RepairSpec RepairFacts.
Local Open Scope nat_scope.

Section answer.
  Variable extract : nat → bool.
  Variables (env : denv) (root : ty) (md : metadata prod).
  Variables (src : string) (evs : list raw).
  Hypothesis Hraw : raw_ok (String.length src) evs.
  Notation toks := (filter (λ t, extract (t_ty t) = false) (raw_tokens evs)).
  Notation answer f := (root_parse extract env f root (inr md) src evs).

  Lemma answer_new : state_ok (pst_new src evs) ∧ to_come extract (pst_new src evs) = toks.
  Proof using Hraw. split; [by apply state_ok_new|done]. Qed.
  Lemma answer_sentence : accepted env root md → regular env root → lang env root (word src toks) →
    ∃ f0 x, parses env src 0 root toks x ∧ ∀ f, f0 ≤ f → answer f = Some (inr (Some x)).
  Proof using Hraw.
    intros Hacc Hreg Hl. destruct answer_new as [Hok Ht].
    destruct (parse_complete extract env root md Hacc Hreg (pst_new src evs) Hok) as (f0 & x & s' & Hx & _ & _ & Hr).
    { rewrite Ht. exact Hl. }
    rewrite Ht in Hx. exists f0, x. split; [exact Hx|]. intros f Hf. unfold root_parse. by rewrite Hr.
  Qed.
  Lemma answer_fuel f f' a : f ≤ f' → answer f = Some a → answer f' = Some a.
  Proof using.
    unfold root_parse. intros Hle H. assert (L := parse_le env f f' root (inr md) Hle).
    destruct (run extract (parse env f root (inr md)) (pst_new src evs)) as [| |r s'] eqn:E; try done.
    assert (E' : run extract (parse env f' root (inr md)) (pst_new src evs) = ODone r s').
    { rewrite <- E. apply le_run; [done|]. by rewrite E. }
    by rewrite E'.
  Qed.
  Lemma answer_none f : accepted env root md → regular env root → answer f = Some (inr None) → ¬ lang env root (word src toks).
  Proof using Hraw.
    intros Hacc Hreg H Hl. destruct (answer_sentence Hacc Hreg Hl) as (f0 & x & _ & Hx).
    assert (H1 := answer_fuel f (max f f0) _ ltac:(lia) H). rewrite (Hx (max f f0)) in H1; [done|lia].
  Qed.
  Lemma answer_clean f x : filled env root → clean env root → answer f = Some (inr (Some x)) →
    ∃ l u, toks = l ++ u ∧ parses env src 0 root l x.
  Proof using Hraw.
    intros Hf Hc. unfold root_parse. destruct (run extract (parse env f root (inr md)) (pst_new src evs)) as [| |r s'] eqn:E; [done..|].
    intros [=->]. unfold parse, parse_with in E. rewrite !run_bind in E.
    destruct answer_new as [Hok Ht]. 
    destruct (run extract (produce env _ _ _ f root) (pst_new src evs)) as [| |r s1] eqn:E1; [done..|].
    assert (Hp := run_wp extract _ _ _ _ _ _ _ (produce_plain _ _ _ _ f root _ Hc (state_ok_abs extract _ Hok)) E1). cbn beta in Hp.
    assert (Hn : no_recover env root).
    { intros t Hw. specialize (Hc t Hw). by destruct t as [? ? []| | | | | | | | | | | | |]. }
    destruct r as [y|y es|es]; [|done|].
    - cbn in E. injection E as -> _. destruct (produce_clean _ _ _ _ _ _ _ _ _ _ Hf Hn Hok E1) as (l & (_ & _ & Hto) & Hx).
      rewrite Ht in Hto. exists l, (to_come extract s1). split; [done|]. exact Hx.
    - by cbn in E.
  Qed.
  Lemma answer_tree f x : answer f = Some (inr (Some x)) →
    ∃ l u ks es, toks = l ++ u ∧ mends env root x ks ∧ repairs src (missing env (tb_get (md_follow md)) root src toks) [] l ks es ∧
      (strict env root → lang env root (kept_word ks)).
  Proof using Hraw.
    unfold root_parse. destruct (run extract (parse env f root (inr md)) (pst_new src evs)) as [| |r s'] eqn:E; [done..|].
    intros [=->]. destruct answer_new as [Hok Ht].
    assert (Hp : wp True True (parse env f root (inr md)) (abs extract (pst_new src evs)) (λ _ s', ∃ l, adv (abs extract (pst_new src evs)) l s')).
    { apply wp_adv. unfold wp. destruct (arun _ _); eauto. }
    destruct (run_wp extract _ _ _ _ _ _ _ Hp E) as [l Hl]. apply took_adv in Hl.
    destruct (repair_parse extract env f root md _ _ _ x l Hok E eq_refl Hl) as (ks & es & Hm & Hk & _).
    destruct Hl as (_ & _ & Hto). rewrite Ht in Hto. exists l, (to_come extract s'), ks, es. split_and!; [done|done|exact Hk|].
    intros Hs. by eapply mends_lang.
  Qed.
End answer.
