(** Lists with broken elements, for the examples of P_Broken. *)
From Coq Require Import String NArith.
From stdpp Require Import prelude list strings relations.
From Verif Require Import LexModel LexSpec SynSetModel TableModel CfgSpec CfgFacts StreamModel StreamSpec TypeModel TypeSpec ProduceModel ParseSpec ProgFacts CompleteSpec CompleteFacts
  SyntaxEx ParseEx TermEx CompleteEx LeafSpec LoopSpec NextFacts NextEx BrokenSpec BrokenFacts ScatterEx.
Local Open Scope nat_scope.

(** A list with a [")"] behind it. *)
Definition brL (pu : bool) := list_ty pu tId tC.
Definition brT (pu : bool) := TTuple [brL pu; tR].
Definition br_types (pu : bool) := [brT pu; brL pu; tR; tId; tC].
Lemma br_accepted pu : accepted [] (brT pu) (md_get [] (brT pu)).
Proof. apply md_get_accepted. destruct pu; by vm_compute. Qed.
Ltac solid ts :=
  apply (all_within_list _ _ ts); [set_solver|]; cbv delta [br_types] beta iota;
  repeat (apply Forall_cons; split; [split; [cbn; try done; intros H; inversion H|cbn; repeat (apply Forall_cons; split; [set_solver|]); apply Forall_nil; done]|]);
  apply Forall_nil; done.
Lemma br_delims pu : solid_delims [] (brT pu).
Proof. destruct pu; [solid (br_types true)|solid (br_types false)]. Qed.
Lemma br_regular pu : regular [] (brT pu).
Proof.
  apply (regular_interior _ _ _ (br_accepted pu)); [destruct pu; within (br_types true) || within (br_types false)|destruct pu; within (br_types true) || within (br_types false)|apply br_delims| |].
  { destruct pu; within (br_types true) || within (br_types false). }
  apply interior_ok. destruct pu; by vm_compute.
Qed.
Lemma br_no_loop pu : no_loop [] (brL pu).
Proof. destruct pu; [within [brL true; tId; tC]|within [brL false; tId; tC]]. Qed.
Lemma br_within pu : within [] (brT pu) (brL pu).
Proof. apply rtc_once. cbn. by left. Qed.
Lemma id_one x : covers 0 None x → lang [] tId [x].
Proof. apply l_tok. Qed.
Lemma br_list_lang pu : lang [] (brL pu) [(0, "a"%string)].
Proof.
  destruct pu; cbn.
  - apply (l_punct _ _ _ 0 false). apply (ls_cons _ _ _ [(0, "a"%string)] []); [by apply id_one; split; [|left]|constructor].
  - apply (l_split _ _ _ 0). apply (ls_cons _ _ _ [(0, "a"%string)] []); [by apply id_one; split; [|left]|constructor].
Qed.
Lemma br_productive pu : productive [] (brT pu).
Proof.
  apply (all_within_list _ _ (br_types pu)); [set_solver|]. unfold br_types.
  repeat (apply Forall_cons; split; [split; [|destruct pu; cbn; repeat (apply Forall_cons; split; [set_solver|]); apply Forall_nil; done]|]); [..|apply Forall_nil; done].
  - exists ([(0, "a"%string)] ++ [(1, ")"%string)]). constructor. apply ls_cons; [apply br_list_lang|]. apply (ls_cons _ _ _ [(1, ")"%string)] []); [apply l_lit|constructor].
  - eexists. apply br_list_lang.
  - eexists. apply l_lit.
  - exists [(0, "a"%string)]. by apply id_one; split; [|left].
  - eexists. apply l_lit.
Qed.
Lemma id_not_nil : ¬ lang [] tId [].
Proof. intros H. inversion H. Qed.
Definition br_regs (pu : bool) : grammar prod := default [] (register_root [] (prod_of (brT pu))).
Lemma br_registered pu : register_root [] (prod_of (brT pu)) = Some (br_regs pu).
Proof. destruct pu; by vm_compute. Qed.

(** "a,(,b,(c,()": two identifiers are missing, one is behind a "(". *)
Definition br_src : string := "a,(,b,(c,()".
Lemma br_stops pu : after_list (br_regs pu) (brT pu) (brL pu) (1, ")"%string).
Proof. apply (after_list_spec _ _ _ _ _ _ (br_accepted pu) (br_registered pu)). destruct pu; by vm_compute. Qed.
Lemma br_stray pu : stray [] tId tC (after_list (br_regs pu) (brT pu) (brL pu)) (1, "("%string).
Proof.
  split_and!.
  - intros w H. inversion H; subst. match goal with H : covers _ _ _ |- _ => by destruct H as [? _] end.
  - intros w H. inversion H; subst. match goal with H : covers _ _ _ |- _ => by destruct H as [_ [?|?]] end.
  - rewrite (after_list_spec _ _ _ _ _ _ (br_accepted pu) (br_registered pu)). destruct pu; by vm_compute.
Qed.
Definition br_items : list (list token) := [[sc_tok 4 0]; [sc_tok 7 0]].
Definition br_kept (pu : bool) : list token := if pu then [sc_tok 1 1; sc_tok 3 1; sc_tok 5 1; sc_tok 8 1] else [sc_tok 3 1; sc_tok 5 1].
Definition br_places (pu : bool) : list span := if pu then [Span 2 4; Span 6 7; Span 9 10] else [Span 2 4; Span 6 7; Span 9 11].
Lemma br_tokens : to_come no_extract (start br_src) = [sc_tok 0 0] ++
  (sc_tok 1 1 :: [sc_tok 2 1] ++ sc_tok 3 1 :: [] ++ [sc_tok 4 0] ++ sc_tok 5 1 :: [sc_tok 6 1] ++ [sc_tok 7 0] ++ sc_tok 8 1 :: [sc_tok 9 1] ++ []) ++ [sc_tok 10 1].
Proof. by vm_compute. Qed.
Lemma id_not_lit y x w : y ≠ 0 → ¬ lang [] tId ((y, x) :: w).
Proof. intros Hy H. inversion H; subst. match goal with H : covers _ _ _ |- _ => by destruct H as [? _] end. Qed.
Lemma br_broken pu : broken_list [] (br_regs pu) (brT pu) pu tId tC br_src [sc_tok 10 1]
  (sc_tok 1 1 :: [sc_tok 2 1] ++ sc_tok 3 1 :: [] ++ [sc_tok 4 0] ++ sc_tok 5 1 :: [sc_tok 6 1] ++ [sc_tok 7 0] ++ sc_tok 8 1 :: [sc_tok 9 1] ++ [])
  br_items (br_kept pu) (br_places pu).
Proof.
  assert (Hs : Forall (stray [] tId tC (after_list (br_regs pu) (brT pu) (brL pu))) [(1, "("%string)]) by (apply Forall_cons; split; [apply br_stray|apply Forall_nil; done]).
  assert (Hc : lang [] tC [(1, ","%string)]) by apply l_lit.
  assert (Hi : ∀ c, lang [] tId [(0, c)]) by (intros c; by apply id_one; split; [|left]).
  assert (H0 := br_end [] tId tC (after_list (br_regs pu) (brT pu) (brL pu)) br_src pu (list_miss pu br_src [sc_tok 10 1]) [sc_tok 10 1]).
  assert (H1 := λ A B C, br_miss _ _ _ _ _ _ _ _ (sc_tok 8 1) [sc_tok 9 1] _ _ _ _ A B C H0).
  specialize (H1 Hc Hs ltac:(intros y [= <-] w; by apply id_not_lit)).
  assert (H2 := (λ A B C, br_item _ _ _ _ _ _ _ _ (sc_tok 5 1) [sc_tok 6 1] [sc_tok 7 0] _ _ _ _ A B C H1)). specialize (H2 Hc Hs (Hi _)).
  assert (H3 := (λ A B C, br_item _ _ _ _ _ _ _ _ (sc_tok 3 1) [] [sc_tok 4 0] _ _ _ _ A B C H2)). specialize (H3 Hc (Forall_nil_2 _) (Hi _)).
  assert (H4 := λ A B C, br_miss _ _ _ _ _ _ _ _ (sc_tok 1 1) [sc_tok 2 1] _ _ _ _ A B C H3).
  specialize (H4 Hc Hs ltac:(intros y [= <-] w; by apply id_not_lit)).
  destruct pu; exact H4.
Qed.

(** The list is all. *)
Lemma brL_accepted pu : accepted [] (brL pu) (md_get [] (brL pu)).
Proof. apply md_get_accepted. destruct pu; by vm_compute. Qed.
Lemma brL_delims pu : solid_delims [] (brL pu).
Proof. destruct pu; [solid [brL true; tId; tC]|solid [brL false; tId; tC]]. Qed.
Lemma brL_regular pu : regular [] (brL pu).
Proof.
  apply (regular_interior _ _ _ (brL_accepted pu)); [destruct pu; within [brL true; tId; tC] || within [brL false; tId; tC]|destruct pu; within [brL true; tId; tC] || within [brL false; tId; tC]|apply brL_delims| |].
  { destruct pu; within [brL true; tId; tC] || within [brL false; tId; tC]. }
  apply interior_ok. destruct pu; by vm_compute.
Qed.
Lemma brL_productive pu : productive [] (brL pu).
Proof. eapply productive_sub; [apply br_productive|]. cbn. by left. Qed.
Definition brL_regs (pu : bool) : grammar prod := default [] (register_root [] (prod_of (brL pu))).
Lemma brL_registered pu : register_root [] (prod_of (brL pu)) = Some (brL_regs pu).
Proof. destruct pu; by vm_compute. Qed.
Definition brL_src : string := "a,),(b,".
Lemma brL_tokens : to_come no_extract (start brL_src) = [sc_tok 0 0] ++
  (sc_tok 1 1 :: [sc_tok 2 1] ++ sc_tok 3 1 :: [sc_tok 4 1] ++ [sc_tok 5 0] ++ sc_tok 6 1 :: [] ++ []).
Proof. by vm_compute. Qed.
Lemma brL_stray pu x : x = "("%string ∨ x = ")"%string → stray [] tId tC (after_list (brL_regs pu) (brL pu) (brL pu)) (1, x).
Proof.
  intros Hx. split_and!.
  - intros w. by apply id_not_lit.
  - intros w H. inversion H; subst. match goal with H : covers _ _ _ |- _ => destruct H as [_ [?|E]]; [done|cbn in E; injection E as <-] end. by destruct Hx.
  - rewrite (after_list_spec _ _ _ _ _ _ (brL_accepted pu) (brL_registered pu)). destruct Hx as [-> | ->]; destruct pu; by vm_compute.
Qed.
Definition brL_kept (pu : bool) : list token := if pu then [sc_tok 1 1; sc_tok 3 1; sc_tok 6 1] else [sc_tok 3 1].
Definition brL_places (pu : bool) : list span := if pu then [Span 2 4; Span 4 5] else [Span 2 4; Span 4 5; Span 7 7].
Lemma brL_broken pu : broken_list [] (brL_regs pu) (brL pu) pu tId tC brL_src []
  (sc_tok 1 1 :: [sc_tok 2 1] ++ sc_tok 3 1 :: [sc_tok 4 1] ++ [sc_tok 5 0] ++ sc_tok 6 1 :: [] ++ [])
  [[sc_tok 5 0]] (brL_kept pu) (brL_places pu).
Proof.
  assert (Hs : ∀ x, x = "("%string ∨ x = ")"%string → Forall (stray [] tId tC (after_list (brL_regs pu) (brL pu) (brL pu))) [(1, x)])
    by (intros x Hx; apply Forall_cons; split; [by apply brL_stray|apply Forall_nil; done]).
  assert (Hc : lang [] tC [(1, ","%string)]) by apply l_lit.
  assert (Hi : ∀ c, lang [] tId [(0, c)]) by (intros c; by apply id_one; split; [|left]).
  assert (H0 := br_end [] tId tC (after_list (brL_regs pu) (brL pu) (brL pu)) brL_src pu (list_miss pu brL_src []) []).
  assert (H1 := λ A B C, br_miss _ _ _ _ _ _ _ _ (sc_tok 6 1) [] _ _ _ _ A B C H0).
  specialize (H1 Hc (Forall_nil_2 _) ltac:(done)).
  assert (H2 := (λ A B C, br_item _ _ _ _ _ _ _ _ (sc_tok 3 1) [sc_tok 4 1] [sc_tok 5 0] _ _ _ _ A B C H1)). specialize (H2 Hc (Hs _ (or_introl eq_refl)) (Hi _)).
  assert (H3 := λ A B C, br_miss _ _ _ _ _ _ _ _ (sc_tok 1 1) [sc_tok 2 1] _ _ _ _ A B C H2).
  specialize (H3 Hc (Hs _ (or_intror eq_refl)) ltac:(intros y [= <-] w; by apply id_not_lit)).
  destruct pu; exact H3.
Qed.
