(** Property theorems about the grammar analysis (C16 - C29).

    [regs] is the list of declarations in registration order, [iter] the same declarations
    in the iteration order of a BTreeMap (any permutation).  Derivability notions
    ([derives], [starts], [nullable], [follows], [LL1], ...) are those of CfgSpec. *)
From Coq Require Import String.
From stdpp Require Import prelude list gmap strings relations.
From Verif Require Import SynSetModel TableModel CfgSpec FollowFacts MetaFacts OrderFacts SyntaxFacts SyntaxEx.
Local Open Scope nat_scope.

(** ** C16: the FIRST loop stops, for every list of declarations *)
Theorem C16_first_terminates : ∀ (K : Type) (HK : EqDecision K) (regs : grammar K),
  ∃ n m, ∀ fuel, n ≤ fuel → f_loop fuel (flat_map f_rels regs) [] = Some m.
Proof. exact @first_terminates. Qed.
Print Assumptions C16_first_terminates.
Example C16_example : f_loop 20 (flat_map f_rels gInterior) [] ≠ None ∧ f_loop 2 (flat_map f_rels gInterior) [] = None.
Proof. split; vm_compute; done. Qed.

(** ** C17: FIRST is derivability *)
Theorem C17_first_exact : ∀ (K : Type) (HK : EqDecision K) (regs : grammar K) m,
  first_build regs = Some m → ∀ k,
  (∀ t, ts_contains (tb_get m k) (Some t) = true ↔ starts regs k t) ∧
  (ts_contains (tb_get m k) None = true ↔ nullable regs k).
Proof. exact @first_correct. Qed.
Print Assumptions C17_first_exact.
Example C17_example : ∃ m, first_build gList = Some m ∧
  ts_contains (tb_get m 2) (Some (0, ","%string)) = true ∧ ts_contains (tb_get m 2) (Some (0, ";"%string)) = false ∧
  ts_contains (tb_get m 2) None = true ∧ ts_contains (tb_get m 0) (Some (1, "x"%string)) = true.
Proof. eexists. split; [vm_compute; reflexivity|]. vm_compute. done. Qed.

(** ** C18: neither registration order nor TypeId order matters *)
Theorem C18_order_independent : ∀ (K : Type) (HK : EqDecision K) (regs regs' iter iter' : grammar K) root,
  functional regs → regs' ≡ₚ regs → iter ≡ₚ regs → iter' ≡ₚ regs →
  meta_equiv (meta_build regs iter root) (meta_build regs' iter' root).
Proof. exact @meta_build_order. Qed.
Print Assumptions C18_order_independent.
Example C18_example : functional gList ∧ reverse gList ≡ₚ gList ∧
  meta_build gList (reverse gList) 0 ≠ meta_build (reverse gList) gList 0 ∧
  (∃ md, meta_build gList (reverse gList) 0 = Some (inr md)).
Proof.
  split; [exact gList_functional|]. split; [apply reverse_Permutation|]. split; [vm_compute; done|exact gList_accepted].
Qed.

(** ** C19: the FOLLOW loop stops *)
Theorem C19_follow_terminates : ∀ (K : Type) (HK : EqDecision K) (regs iter : grammar K) root first,
  iter ≡ₚ regs → first_build regs = Some first →
  ∃ n m, ∀ fuel, n ≤ fuel →
    w_loop fuel first (flat_map w_rels iter) (bt_insert [] root (fo_insert_eof ts_new)) = Some m.
Proof. exact @follow_terminates. Qed.
Print Assumptions C19_follow_terminates.
Example C19_example : ∃ first, first_build gInterior = Some first ∧
  w_loop 1 first (flat_map w_rels gInterior) (bt_insert [] 0 (fo_insert_eof ts_new)) = None.
Proof. eexists. split; vm_compute; reflexivity. Qed.

(** ** C20: FOLLOW contains only real followers *)
Theorem C20_follow_sound : ∀ (K : Type) (HK : EqDecision K) (regs iter : grammar K) root first follow,
  iter ≡ₚ regs → all_reachable regs root →
  first_build regs = Some first → follow_build iter first root = Some follow →
  ∀ k t, ts_contains (tb_get follow k) t = true → follows regs root k t.
Proof. exact @follow_sound. Qed.
Print Assumptions C20_follow_sound.
Example C20_example : all_reachable gList 0 ∧ ∃ first follow, first_build gList = Some first ∧
  follow_build gList first 0 = Some follow ∧
  ts_contains (tb_get follow 1) (Some (0, ","%string)) = true ∧ ts_contains (tb_get follow 1) None = true.
Proof.
  split; [exact gList_reachable|]. eexists _, _. split; [vm_compute; reflexivity|].
  split; [vm_compute; reflexivity|]. vm_compute. done.
Qed.

(** ** C21: FOLLOW contains all real followers
    Full statement: as C20 with the last implication reversed.  It fails (refuted below)
    because only adjacent elements of a sequence are related; it holds for end of input
    without condition, and for tokens when no sequence has a nullable element strictly
    inside it. *)
Theorem C21_follow_exact_as_coded : ∀ (K : Type) (HK : EqDecision K) (regs iter : grammar K) root first follow,
  iter ≡ₚ regs → first_build regs = Some first → follow_build iter first root = Some follow →
  ∀ k t, ts_contains (tb_get follow k) t = true ↔ near_follow regs root k t.
Proof. exact @follow_near. Qed.
Print Assumptions C21_follow_exact_as_coded.
Theorem C21_follow_complete_eof : ∀ (K : Type) (HK : EqDecision K) (regs iter : grammar K) root first follow,
  iter ≡ₚ regs → first_build regs = Some first → follow_build iter first root = Some follow →
  ∀ k, follows regs root k None → ts_contains (tb_get follow k) None = true.
Proof. exact @follow_complete_eof. Qed.
Print Assumptions C21_follow_complete_eof.
Theorem C21_follow_complete_partial : ∀ (K : Type) (HK : EqDecision K) (regs iter : grammar K) root first follow,
  iter ≡ₚ regs → no_nullable_interior regs →
  first_build regs = Some first → follow_build iter first root = Some follow →
  ∀ k t, follows regs root k t → ts_contains (tb_get follow k) t = true.
Proof. exact @follow_complete. Qed.
Print Assumptions C21_follow_complete_partial.
Example C21_example : no_nullable_interior gList ∧ nullable gList 2.
Proof. split; [exact gList_interior|]. by apply firstb_nullable; vm_compute. Qed.
(** The real followers are those of the textbook rules [far_follow]: what is missed are the
    tokens that start an element behind nullable ones, and what this passes on. *)
Theorem C21_textbook : ∀ (K : Type) (regs : grammar K) root k t,
  all_reachable regs root → follows regs root k t ↔ far_follow regs root k t.
Proof. exact @follows_far. Qed.
Print Assumptions C21_textbook.
Example C21_textbook_example : far_follow gInterior 0 4 (Some (0, "a"%string)) ∧
  ¬ near_follow gInterior 0 4 (Some (0, "a"%string)).
Proof.
  split; [apply follows_far; [by apply (all_reachable_ok 6); vm_compute|exact gInterior_follows]|].
  intros H%followb_near. by vm_compute in H.
Qed.
Theorem C21_follow_complete_refuted : ∃ (G : grammar nat) root k t,
  functional G ∧ all_reachable G root ∧ follows G root k t ∧
  ∀ first follow, first_build G = Some first → follow_build G first root = Some follow →
    ts_contains (tb_get follow k) t = false.
Proof.
  exact (ex_intro _ gInterior (ex_intro _ 0 (ex_intro _ 4 (ex_intro _ (Some (0, "a"%string))
    (conj (functional_ok gInterior eq_refl) (conj (all_reachable_ok 6 gInterior 0 eq_refl)
      (conj gInterior_follows gInterior_missing))))))).
Qed.
Print Assumptions C21_follow_complete_refuted.

(** ** C22: FIRST/FIRST conflicts *)
Theorem C22_first_first_reported : ∀ (K : Type) (HK : EqDecision K) (regs iter : grammar K) root self before inner r,
  functional regs → iter ≡ₚ regs →
  meta_build regs iter root = Some (inl (GFirstFirst self before inner r)) →
  ∃ l i j, reachable regs root self ∧ (self, EUnion l) ∈ regs ∧ i < j ∧
    l !! i = Some before ∧ l !! j = Some inner ∧ clash regs before inner ∧
    (∀ i' b', i' < i → l !! i' = Some b' → ¬ clash regs b' inner) ∧
    (∀ c, c ∈ r ↔ common_item regs true before inner c).
Proof. exact @first_first_reported. Qed.
Print Assumptions C22_first_first_reported.
Theorem C22_first_first_rejected : ∀ (K : Type) (HK : EqDecision K) (regs iter : grammar K) root k l i j a b,
  functional regs → iter ≡ₚ regs →
  reachable regs root k → (k, EUnion l) ∈ regs → i < j → l !! i = Some a → l !! j = Some b →
  clash regs a b → ∃ e, meta_build regs iter root = Some (inl e).
Proof. exact @first_first_rejected. Qed.
Print Assumptions C22_first_first_rejected.
Example C22_example : functional gFF ∧ reachable gFF 0 0 ∧ clash gFF 1 2 ∧
  meta_build gFF gFF 0 = Some (inl (GFirstFirst 0 1 2 [RLit "x"%string])).
Proof.
  split; [by apply functional_ok; vm_compute|]. split; [by apply (reachable_ok 1); vm_compute|].
  split; [exact gFF_clash|exact gFF_rejected].
Qed.

(** ** C23: sequence conflicts
    Full statement: a sequence conflict is reported only for sequences with [seq_clash].
    It fails (refuted below): what is reported is [seq_clash_seen]. *)
Theorem C23_seq_reported : ∀ (K : Type) (HK : EqDecision K) (regs iter : grammar K) root self cur next r,
  functional regs → iter ≡ₚ regs →
  meta_build regs iter root = Some (inl (GSeq self cur next r)) →
  ∃ m1 m2 m3, reachable regs root self ∧ (self, ESeq (m1 ++ cur :: m2 ++ next :: m3)) ∈ regs ∧
    seq_clash_seen regs (m1 ++ cur :: m2 ++ [next]) ∧ ¬ seq_clash_seen regs (m1 ++ cur :: m2) ∧
    Forall (nullable regs) m2 ∧ (m1 = [] ∨ ¬ nullable regs cur).
Proof. exact @seq_reported. Qed.
Print Assumptions C23_seq_reported.
Theorem C23_seq_rejected : ∀ (K : Type) (HK : EqDecision K) (regs iter : grammar K) root k l,
  functional regs → iter ≡ₚ regs → reachable regs root k → (k, ESeq l) ∈ regs → seq_clash regs l →
  ∃ e, meta_build regs iter root = Some (inl e).
Proof. exact @seq_rejected. Qed.
Print Assumptions C23_seq_rejected.
Theorem C23_seq_reported_partial : ∀ (K : Type) (HK : EqDecision K) (regs iter : grammar K) root self cur next r,
  functional regs → iter ≡ₚ regs → no_open_nullable regs →
  meta_build regs iter root = Some (inl (GSeq self cur next r)) →
  ∃ l, reachable regs root self ∧ (self, ESeq l) ∈ regs ∧ seq_clash regs l.
Proof. exact @seq_reported_partial. Qed.
Print Assumptions C23_seq_reported_partial.
Example C23_example : functional gWrongName ∧ no_open_nullable gWrongName ∧ seq_clash gWrongName [1; 2; 3] ∧
  meta_build gWrongName gWrongName 0 = Some (inl (GSeq 0 1 3 [RLit "b"%string])).
Proof.
  split; [by apply functional_ok; vm_compute|]. split; [exact gWrongName_no_open|].
  split; [exact gWrongName_clash|exact gWrongName_rejected].
Qed.
Theorem C23_seq_refuted : ∃ (G : grammar nat) root self cur next r,
  functional G ∧ meta_build G G root = Some (inl (GSeq self cur next r)) ∧
  (self, ESeq [1; cur; next]) ∈ G ∧ ¬ seq_clash G [1; cur; next].
Proof.
  exact (ex_intro _ gOptComma (ex_intro _ 0 (ex_intro _ 0 (ex_intro _ 2 (ex_intro _ 3 (ex_intro _ [RTy 1]
    (conj (functional_ok gOptComma eq_refl) (conj gOptComma_rejected (conj (elem_of_list_here _ _) gOptComma_not_clash))))))))).
Qed.
Print Assumptions C23_seq_refuted.

(** ** C24: the element named first takes part in the conflict: refuted.
    (What is named is characterised by [C23_seq_reported]: the last non nullable element
    before [next], or the first element of the sequence; it takes part only when it is
    nullable itself, hence the first element.) *)
Theorem C24_seq_names_refuted : ∃ (G : grammar nat) root self cur next r,
  functional G ∧ meta_build G G root = Some (inl (GSeq self cur next r)) ∧ ¬ nullable G cur.
Proof.
  exact (ex_intro _ gWrongName (ex_intro _ 0 (ex_intro _ 0 (ex_intro _ 1 (ex_intro _ 3 (ex_intro _ [RLit "b"%string]
    (conj (functional_ok gWrongName eq_refl) (conj gWrongName_rejected gWrongName_not_nullable)))))))).
Qed.
Print Assumptions C24_seq_names_refuted.

(** ** C25: rejections are justified
    Full statement: without the condition [no_open_nullable]; refuted below. *)
Theorem C25_rejection_justified_partial : ∀ (K : Type) (HK : EqDecision K) (regs iter : grammar K) root e,
  functional regs → iter ≡ₚ regs → all_reachable regs root →
  (∀ self cur next r, e = GSeq self cur next r → no_open_nullable regs) →
  meta_build regs iter root = Some (inl e) → ¬ LL1 regs root.
Proof. exact @rejection_justified. Qed.
Print Assumptions C25_rejection_justified_partial.
Example C25_example : functional gWrongName ∧ all_reachable gWrongName 0 ∧ no_open_nullable gWrongName ∧
  meta_build gWrongName gWrongName 0 = Some (inl (GSeq 0 1 3 [RLit "b"%string])).
Proof.
  split; [by apply functional_ok; vm_compute|]. split; [by apply (all_reachable_ok 6); vm_compute|].
  split; [exact gWrongName_no_open|exact gWrongName_rejected].
Qed.
Theorem C25_rejection_refuted : ∃ (G : grammar nat) root e,
  functional G ∧ all_reachable G root ∧ meta_build G G root = Some (inl e) ∧ LL1 G root.
Proof.
  exact (ex_intro _ gOptComma (ex_intro _ 0 (ex_intro _ _
    (conj (functional_ok gOptComma eq_refl) (conj (all_reachable_ok 6 gOptComma 0 eq_refl)
       (conj gOptComma_rejected gOptComma_ll1)))))).
Qed.
Print Assumptions C25_rejection_refuted.

(** ** C26: accepted grammars are LL(1)
    Full statement: without [no_nullable_interior]; refuted below. *)
Theorem C26_accepted_ll1_partial : ∀ (K : Type) (HK : EqDecision K) (regs iter : grammar K) root md,
  functional regs → iter ≡ₚ regs → no_nullable_interior regs →
  meta_build regs iter root = Some (inr md) → LL1 regs root.
Proof. exact @accepted_ll1. Qed.
Print Assumptions C26_accepted_ll1_partial.
Example C26_example : functional gList ∧ reverse gList ≡ₚ gList ∧ no_nullable_interior gList ∧
  ∃ md, meta_build gList (reverse gList) 0 = Some (inr md).
Proof.
  split; [exact gList_functional|]. split; [apply reverse_Permutation|].
  split; [exact gList_interior|exact gList_accepted].
Qed.
(** It is enough that no token that both starts and follows a nullable choice is missed by the
    FOLLOW table built. *)
Theorem C26_accepted_table_partial : ∀ (K : Type) (HK : EqDecision K) (regs iter : grammar K) root md,
  functional regs → iter ≡ₚ regs → meta_build regs iter root = Some (inr md) →
  (∀ k l t, (k, EUnion l) ∈ regs → nullable regs k → starts regs k t → follows regs root k (Some t) →
    ts_contains (tb_get (md_follow md) k) (Some t) = true) → LL1 regs root.
Proof. exact @accepted_ll1_table. Qed.
Print Assumptions C26_accepted_table_partial.
Example C26_table_example : (∃ md, meta_build gInside gInside 0 = Some (inr md)) ∧ functional gInside ∧ ¬ no_nullable_interior gInside ∧
  ∀ k l t, (k, EUnion l) ∈ gInside → nullable gInside k → starts gInside k t → ¬ follows gInside 0 k (Some t).
Proof.
  split; [eexists; vm_compute; reflexivity|]. split; [by apply functional_ok; vm_compute|]. split; [exact gInside_interior|exact gInside_apart].
Qed.
Theorem C26_accepted_refuted : ∃ (G : grammar nat) root,
  functional G ∧ all_reachable G root ∧ (∃ md, meta_build G G root = Some (inr md)) ∧ ¬ LL1 G root.
Proof.
  exact (ex_intro _ gInterior (ex_intro _ 0 (conj (functional_ok gInterior eq_refl)
    (conj (all_reachable_ok 6 gInterior 0 eq_refl) (conj gInterior_accepted gInterior_not_ll1))))).
Qed.
Print Assumptions C26_accepted_refuted.

(** ** C27: the predictive table *)
Theorem C27_jump_exact : ∀ (K : Type) (HK : EqDecision K) (regs iter : grammar K) root md k l,
  functional regs → iter ≡ₚ regs →
  meta_build regs iter root = Some (inr md) → reachable regs root k → (k, EUnion l) ∈ regs →
  ∀ tk i, jump_look_up (md_jump md) k tk = Some i ↔ ∃ y, l !! i = Some y ∧
    match tk with Some t => starts regs y t | None => nullable regs y end.
Proof. exact @jump_exact. Qed.
Print Assumptions C27_jump_exact.
Example C27_example : reachable gList 0 2 ∧ ∃ md, meta_build gList gList 0 = Some (inr md) ∧
  jump_look_up (md_jump md) 2 (Some (0, ","%string)) = Some 0 ∧ jump_look_up (md_jump md) 2 None = Some 1 ∧
  jump_look_up (md_jump md) 2 (Some (1, "x"%string)) = None.
Proof.
  split; [by apply (reachable_ok 6); vm_compute|]. eexists. split; [vm_compute; reflexivity|]. vm_compute. done.
Qed.

(** ** C28: accepted grammars are not left recursive *)
Theorem C28_not_left_recursive : ∀ (K : Type) (HK : EqDecision K) (regs iter : grammar K) root md k,
  functional regs → iter ≡ₚ regs → all_reachable regs root → all_anchored regs →
  meta_build regs iter root = Some (inr md) → ¬ left_recursive regs k.
Proof. exact @accepted_not_left_recursive. Qed.
Print Assumptions C28_not_left_recursive.
Example C28_example : functional gList ∧ all_reachable gList 0 ∧ all_anchored gList ∧
  ∃ md, meta_build gList (reverse gList) 0 = Some (inr md).
Proof.
  split; [exact gList_functional|]. split; [exact gList_reachable|]. split; [exact gList_anchored|exact gList_accepted].
Qed.

(** ** C29: left recursion is reported as such: refuted; the error is never produced *)
Theorem C29_left_recursion_refuted : ∃ (G : grammar nat) root k e,
  functional G ∧ all_reachable G root ∧ left_recursive G k ∧ meta_build G G root = Some (inl e) ∧
  ∀ stack t, e ≠ GLeftRecursion stack t.
Proof.
  exact (ex_intro _ gLeft (ex_intro _ 0 (ex_intro _ 0 (ex_intro _ _
    (conj (functional_ok gLeft eq_refl) (conj (all_reachable_ok 6 gLeft 0 eq_refl) (conj gLeft_left_recursive
      (conj gLeft_rejected (never_left_recursion gLeft gLeft 0 _ (functional_ok gLeft eq_refl) (reflexivity _) gLeft_rejected))))))))).
Qed.
Print Assumptions C29_left_recursion_refuted.
Theorem C29_error_never_produced : ∀ (K : Type) (HK : EqDecision K) (regs iter : grammar K) root e,
  functional regs → iter ≡ₚ regs → meta_build regs iter root = Some (inl e) →
  ∀ stack t, e ≠ GLeftRecursion stack t.
Proof. exact @never_left_recursion. Qed.
Print Assumptions C29_error_never_produced.
