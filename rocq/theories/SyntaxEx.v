(** Decision procedures for concrete grammars, used by the examples only. *)
From Coq Require Import String.
From stdpp Require Import prelude list gmap strings relations.
From Verif Require Import SynSetModel SynSetFacts TableModel CfgSpec CfgFacts FirstFacts FollowFacts CheckFacts LocalFacts JumpFacts MetaFacts OrderFacts SyntaxFacts.
Local Open Scope nat_scope.

Section ex.
  Context {K : Type} `{EqDecision K}.
  Implicit Types (k root : K) (G : grammar K).

  Definition firstb G k (t : option tok) : bool :=
    match first_build G with Some m => ts_contains (tb_get m k) t | None => false end.
  Lemma firstb_starts G k t : firstb G k (Some t) = true ↔ starts G k t.
  Proof.
    unfold firstb. destruct (first_build_some G) as (m&Hm&_). rewrite Hm. by apply first_correct.
  Qed.
  Lemma firstb_nullable G k : firstb G k None = true ↔ nullable G k.
  Proof.
    unfold firstb. destruct (first_build_some G) as (m&Hm&_). rewrite Hm. by apply first_correct.
  Qed.
  Lemma not_nullable G k : firstb G k None = false → ¬ nullable G k.
  Proof. rewrite <-firstb_nullable. congruence. Qed.

  Definition followb G root k (t : option tok) : bool :=
    match first_build G with
    | Some m => match follow_build G m root with Some w => ts_contains (tb_get w k) t | None => false end
    | None => false end.
  Lemma followb_near G root k t : followb G root k t = true ↔ near_follow G root k t.
  Proof.
    unfold followb. destruct (first_build_some G) as (m&Hm&_). rewrite Hm.
    destruct (follow_terminates G G root m (reflexivity _) Hm) as (n&w&Hw).
    destruct (follow_build G m root) as [w'|] eqn:E.
    - by apply (follow_near G G root m w').
    - exfalso. destruct (follow_build_some G m root) as (w'&Hw'); [|congruence].
      destruct (first_build_some G) as (m'&?&?). by simplify_eq.
  Qed.

  (** Reachability by iterating [comps]. *)
  Fixpoint reachl (n : nat) G (l : list K) : list K :=
    match n with
    | O => l
    | S n => reachl n G (l ++ flat_map (λ k, match bt_get G k with
                                            | Some e => filter (λ y, y ∉ l) (comps e) | None => [] end) l)
    end.
  Lemma reachl_ok n G root l k : (∀ y, y ∈ l → greach G root y) → k ∈ reachl n G l → reachable G root k.
  Proof.
    intros Hl Hk. apply greach_reachable. revert l Hl Hk. induction n as [|n IH]; intros l Hl; cbn [reachl]; [by apply Hl|].
    apply IH. intros y [Hy|Hy]%elem_of_app; [by apply Hl|].
    apply elem_of_list_In, in_flat_map in Hy as (z&Hz%elem_of_list_In&Hy%elem_of_list_In).
    destruct (bt_get G z) as [e|] eqn:E; [|by apply elem_of_nil in Hy].
    apply elem_of_list_filter in Hy as [_ Hy]. eapply rtc_r; [by apply Hl|]. exists e. done.
  Qed.
  Lemma all_reachable_ok n G root :
    forallb (λ kx, bool_decide (fst kx ∈ reachl n G [root])) G = true → all_reachable G root.
  Proof.
    rewrite forallb_forall. intros H k e Hin. apply elem_of_list_In in Hin. specialize (H _ Hin).
    apply bool_decide_eq_true in H. eapply reachl_ok; [|exact H]. intros y ->%elem_of_list_singleton. apply rtc_refl.
  Qed.
  Lemma reachable_ok n G root k : bool_decide (k ∈ reachl n G [root]) = true → reachable G root k.
  Proof.
    intros H%bool_decide_eq_true. eapply reachl_ok; [|exact H]. intros y ->%elem_of_list_singleton. apply rtc_refl.
  Qed.

  Lemma functional_ok G : bool_decide (NoDup G.*1) = true → functional G.
  Proof. apply bool_decide_eq_true. Qed.

  Lemma no_interior_ok G :
    forallb (λ kx, match snd kx with
                   | ESeq l => forallb (λ y, negb (firstb G y None)) (removelast (tail l))
                   | _ => true end) G = true → no_nullable_interior G.
  Proof.
    rewrite forallb_forall. intros H k l i y Hin Hi H1 H2. apply elem_of_list_In in Hin. specialize (H _ Hin).
    cbn [snd] in H. rewrite forallb_forall in H. apply not_nullable. apply negb_true_iff, H.
    apply elem_of_list_In. destruct l as [|x l]; [done|]. destruct i as [|i]; [lia|]. change (l !! i = Some y) in Hi. cbn [length tail] in H2 |- *.
    clear -Hi H2. destruct l as [|z l _] using rev_ind; [done|]. rewrite removelast_last. rewrite app_length in H2. cbn in H2.
    rewrite lookup_app_l in Hi by lia. by eapply elem_of_list_lookup_2.
  Qed.

  Lemma no_open_ok G :
    match first_build G with
    | Some m => forallb (λ kx, match snd kx with
        | ESeq l => forallb (λ y, negb (ts_e (tb_get m y)) ||
                       forallb (λ x, match x with LAny => false | _ => true end) (ts_map (tb_get m y))) l
        | _ => true end) G
    | None => false
    end = true → no_open_nullable G.
  Proof.
    destruct (first_build G) as [m|] eqn:Hm; [|done]. rewrite forallb_forall. intros H k l y ty Hin Hy Hn Ho.
    apply elem_of_list_In in Hin. specialize (H _ Hin). cbn [snd] in H. rewrite forallb_forall in H.
    apply elem_of_list_In in Hy. specialize (H _ Hy). apply (first_correct G m Hm) in Hn. unfold ts_contains in Hn.
    rewrite Hn in H. cbn in H. rewrite forallb_forall in H.
    assert (lm_get (ts_map (tb_get m y)) ty = LAny) as E.
    { apply lm_get_any_iff. intros x.
      change (ts_contains (tb_get m y) (Some (ty, x)) = true). by apply (first_correct G m Hm). }
    unfold lm_get in E. destruct (ts_map (tb_get m y) !! ty) as [v|] eqn:Ev; [|done]. cbn in E. subst v.
    apply elem_of_list_lookup_2, elem_of_list_In in Ev. by apply H in Ev.
  Qed.

  (** FOLLOW by the textbook rules: [follow_build] on the grammar with a pair [a b] added, as
      right hand side of the unused symbol [z], for every [a] that can stand before [b]. *)
  Fixpoint heads_far G (l : list K) : list K :=
    match l with [] => [] | b :: r => b :: if firstb G b None then heads_far G r else [] end.
  Fixpoint pairs_far G (l : list K) : list (K * K) :=
    match l with [] => [] | a :: r => map (pair a) (heads_far G r) ++ pairs_far G r end.
  Definition add_far G (z : K) : grammar K :=
    G ++ flat_map (λ kx, match snd kx with
      | ESeq l => map (λ ab, (z, ESeq [fst ab; snd ab])) (pairs_far G l) | _ => [] end) G.
  Lemma heads_far_ok G l1 b l2 : Forall (nullable G) l1 → b ∈ heads_far G (l1 ++ b :: l2).
  Proof.
    induction 1 as [|a l1 Ha _ IH]; cbn [app heads_far]; [by left|]. right. apply firstb_nullable in Ha. by rewrite Ha.
  Qed.
  Lemma pairs_far_ok G l1 a m b l2 : Forall (nullable G) m → (a, b) ∈ pairs_far G (l1 ++ a :: m ++ b :: l2).
  Proof.
    intros Hm. induction l1 as [|c l1 IH]; cbn [app pairs_far].
    - apply elem_of_app. left. apply elem_of_list_fmap. exists b. split; [done|]. by apply heads_far_ok.
    - apply elem_of_app. by right.
  Qed.
  Lemma add_far_closed G root z : fol_closed G root (near_follow (add_far G z) root).
  Proof.
    assert (∀ k e, (k, e) ∈ G → (k, e) ∈ add_far G z) as Hext.
    { intros k e H. apply elem_of_app. by left. }
    split.
    - constructor.
    - intros x l1 a m b l2 t Hin Hm Hb. apply (nf_next _ _ z [] a b []); [|by apply (fder_ext G _ Hext b (Some t))].
      apply elem_of_app. right. apply elem_of_list_In, in_flat_map. exists (x, ESeq (l1 ++ a :: m ++ b :: l2)).
      split; [by apply elem_of_list_In|]. apply elem_of_list_In. cbn [snd app]. apply elem_of_list_fmap.
      exists (a, b). split; [done|]. by apply pairs_far_ok.
    - intros x l1 a l2 t Hin Hn Hx. eapply nf_last; [by apply Hext| |done]. eapply Forall_impl; [done|].
      intros y. by apply (fder_ext G _ Hext y None).
    - intros. by eapply nf_union; [apply Hext|..].
  Qed.
  Definition follow_set G root k : tset :=
    match first_build G with
    | Some m => match follow_build G m root with Some w => tb_get w k | None => ts_new end
    | None => ts_new end.
  Definition first_set G k : tset := match first_build G with Some m => tb_get m k | None => ts_new end.
  Lemma follow_set_b G root k t : ts_contains (follow_set G root k) t = true ↔ near_follow G root k t.
  Proof.
    rewrite <- followb_near. unfold follow_set, followb. destruct (first_build G); [|by destruct t as [[[|n] ?]|]].
    destruct (follow_build _ _ _); [done|by destruct t as [[[|n] ?]|]].
  Qed.
  Lemma first_set_b G k t : ts_contains (first_set G k) (Some t) = true ↔ starts G k t.
  Proof. rewrite <- firstb_starts. unfold first_set, firstb. destruct (first_build G); [done|]. by destruct t as [[|n] ?]. Qed.
  Lemma follows_same G root z k t : follow_set (add_far G z) root k = follow_set G root k →
    follows G root k t → near_follow G root k t.
  Proof. intros E H. apply follow_set_b. rewrite <- E. apply follow_set_b. eapply follows_closed; [apply add_far_closed|done]. Qed.
  Lemma follows_apart G root z k t : ts_intersects (follow_set (add_far G z) root k) (first_set G k) false = false →
    starts G k t → ¬ follows G root k (Some t).
  Proof.
    intros E Hs Hf. apply not_true_iff_false in E. apply E. apply ts_intersects_spec. exists (Some t). split; [done|].
    split; [|by apply first_set_b]. apply follow_set_b. eapply follows_closed; [apply add_far_closed|done].
  Qed.
End ex.

(** A comma separated list: [S -> id R], [R -> "," S | empty]. *)
Definition gList : grammar nat :=
  [(0, ESeq [1; 2]); (1, ETok 1 None); (2, EUnion [3; 4]); (3, ESeq [5; 0]);
   (5, ETok 0 (Some ","%string)); (4, EEps)].
(** [S -> A? "," A] with [A] any identifier: LL(1), yet rejected. *)
Definition gOptComma : grammar nat :=
  [(0, ESeq [1; 2; 3]); (1, EUnion [3; 4]); (3, ETok 1 None); (4, EEps); (2, ETok 0 (Some ","%string))].
(** [S -> P B? a], [P -> a R], [R -> P | empty]: accepted, yet not LL(1). *)
Definition gInterior : grammar nat :=
  [(0, ESeq [1; 2; 3]); (1, ESeq [3; 4]); (3, ETok 0 None); (4, EUnion [1; 6]); (6, EEps);
   (2, EUnion [5; 6]); (5, ETok 1 None)].
(** [S -> "(" a? ","? ")"]: nullable elements inside, and still LL(1). *)
Definition gInside : grammar nat :=
  [(0, ESeq [1; 2; 3; 4]); (1, ETok 0 (Some "("%string)); (2, EUnion [5; 7]); (5, ETok 1 None);
   (3, EUnion [6; 7]); (6, ETok 0 (Some ","%string)); (4, ETok 0 (Some ")"%string)); (7, EEps)].
(** [S -> "x" | "x"]: two variants starting alike. *)
Definition gFF : grammar nat :=
  [(0, EUnion [1; 2]); (1, ESeq [3; 4]); (3, ETok 0 (Some "x"%string)); (4, ETok 1 None); (2, ESeq [3; 3])].
(** [S -> a b? b] *)
Definition gWrongName : grammar nat :=
  [(0, ESeq [1; 2; 3]); (1, ETok 0 (Some "a"%string)); (2, EUnion [3; 4]); (3, ETok 0 (Some "b"%string)); (4, EEps)].
(** [S -> S "x" | "y"] *)
Definition gLeft : grammar nat :=
  [(0, EUnion [1; 2]); (1, ESeq [0; 3]); (3, ETok 0 (Some "x"%string)); (2, ETok 0 (Some "y"%string))].

Ltac mem := cbv [gList gOptComma gInterior gFF gWrongName gLeft];
  repeat first [apply elem_of_list_here | apply elem_of_list_further].
Lemma gList_functional : functional gList. Proof. by apply functional_ok; vm_compute. Qed.
Lemma gList_reachable : all_reachable gList 0. Proof. by apply (all_reachable_ok 6); vm_compute. Qed.
Lemma gList_interior : no_nullable_interior gList. Proof. by apply no_interior_ok; vm_compute. Qed.
Lemma gList_accepted : ∃ md, meta_build gList (reverse gList) 0 = Some (inr md).
Proof. eexists. vm_compute. reflexivity. Qed.
Lemma gList_anchored : all_anchored gList.
Proof.
  assert (anchored gList 1) as A1 by (eapply anchored_tok; mem).
  assert (anchored gList 5) as A5 by (eapply anchored_tok; mem).
  assert (anchored gList 0) as A0 by (eapply (anchored_seq gList 0 1); [mem|done]).
  assert (anchored gList 3) as A3 by (eapply (anchored_seq gList 3 5); [mem|done]).
  assert (anchored gList 2) as A2 by (eapply (anchored_union gList 2 3); [mem|done]).
  intros k e Hin He. unfold gList in Hin. rewrite !elem_of_cons, elem_of_nil in Hin.
  destruct Hin as [[= -> ->]|[[= -> ->]|[[= -> ->]|[[= -> ->]|[[= -> ->]|[[= -> ->]|[]]]]]]]; done.
Qed.

(** Terms of the form "no token starts both". *)
Lemma gOptComma_not_clash : ¬ seq_clash gOptComma [1; 2; 3].
Proof.
  intros (l1&y&l2&z&l3&t&E&Hy&Hl2&H1&H2).
  assert (¬ nullable gOptComma 2) as N2 by (by apply not_nullable; vm_compute).
  assert (¬ nullable gOptComma 3) as N3 by (by apply not_nullable; vm_compute).
  destruct l1 as [|a [|b [|c l1]]]; [|by injection E as <- <- _|by injection E as <- <- <- _|].
  2:{ destruct l1; discriminate. }
  injection E as <- E. destruct l2 as [|d l2].
  - injection E as <- _. apply firstb_starts in H1, H2.
    destruct t as [[|[|ty]] s]; vm_compute in H1, H2; discriminate.
  - apply Forall_cons in Hl2 as [Hd _]. injection E as <- _. done.
Qed.
Lemma gOptComma_ll1 : LL1 gOptComma 0.
Proof.
  assert (no_nullable_interior gOptComma) as Hni by (by apply no_interior_ok; vm_compute).
  intros k l Hr Hin. unfold gOptComma in Hin at 1. rewrite !elem_of_cons, elem_of_nil in Hin.
  destruct Hin as [[=]|[[= -> ->]|[[=]|[[=]|[[=]|[]]]]]].
  intros i j yi yj Hij Hi Hj.
  assert (∀ t, ¬ starts gOptComma 4 t) as N4.
  { intros t H%firstb_starts. by destruct t as [[|[|ty]] s]; vm_compute in H. }
  assert (¬ nullable gOptComma 3) as N3 by (by apply not_nullable; vm_compute).
  destruct i as [|[|i]], j as [|[|j]]; try done; injection Hi as <-; injection Hj as <-.
  - split; [naive_solver|]. split; [naive_solver|]. naive_solver.
  - split; [naive_solver|]. split; [naive_solver|]. intros _ t H1%firstb_starts H2.
    apply follows_near in H2; [|done]. apply followb_near in H2.
    by destruct t as [[|[|ty]] s]; vm_compute in H1, H2.
Qed.
Lemma gOptComma_rejected :
  meta_build gOptComma gOptComma 0 = Some (inl (GSeq 0 2 3 [RTy 1])).
Proof. vm_compute. reflexivity. Qed.

Lemma gInside_interior : ¬ no_nullable_interior gInside.
Proof.
  intros H. apply (H 0 [1; 2; 3; 4] 1 2); [by left|done|lia|cbn; lia|]. apply firstb_nullable. by vm_compute.
Qed.
Lemma gInside_apart k l t : (k, EUnion l) ∈ gInside → nullable gInside k → starts gInside k t → ¬ follows gInside 0 k (Some t).
Proof.
  intros Hin _ Hs. apply (follows_apart _ _ 99); [|done]. unfold gInside in Hin at 1. rewrite !elem_of_cons, elem_of_nil in Hin.
  destruct_or! Hin; simplify_eq; by vm_compute.
Qed.
Lemma gInterior_accepted : ∃ md, meta_build gInterior gInterior 0 = Some (inr md).
Proof. eexists. vm_compute. reflexivity. Qed.
Lemma gInterior_follows : follows gInterior 0 4 (Some (0, "a"%string)).
Proof.
  exists [N 3], [].
  eapply rtc_l; [apply (step_rhs gInterior [] 0 (map N [1; 2; 3]) []), rhs_seq; mem|]. cbn.
  eapply rtc_l; [apply (step_rhs gInterior [] 1 (map N [3; 4]) [N 2; N 3]), rhs_seq; mem|]. cbn.
  eapply rtc_l; [apply (step_rhs gInterior [N 3; N 4] 2 [N 6] [N 3]), (rhs_union _ _ [5; 6]); mem|]. cbn.
  eapply rtc_l; [apply (step_rhs gInterior [N 3; N 4] 6 [] [N 3]), rhs_eps; mem|]. cbn.
  eapply rtc_l; [apply (step_rhs gInterior [N 3; N 4] 3 [T (0, "a"%string)] []), (rhs_tok _ _ 0 None)|].
  - mem.
  - split; auto.
  - cbn. apply rtc_refl.
Qed.
Lemma gInterior_missing first follow : first_build gInterior = Some first →
  follow_build gInterior first 0 = Some follow → ts_contains (tb_get follow 4) (Some (0, "a"%string)) = false.
Proof.
  intros H1 H2. assert (followb gInterior 0 4 (Some (0, "a"%string)) = false) as H by (by vm_compute).
  unfold followb in H. by rewrite H1, H2 in H.
Qed.
Lemma gInterior_not_ll1 : ¬ LL1 gInterior 0.
Proof.
  intros H. destruct (H 4 [1; 6]) with (i := 1) (j := 0) (yi := 6) (yj := 1) as (_&_&H3); [|mem|done|done|done|].
  - by apply (reachable_ok 6); vm_compute.
  - eapply H3; [| |apply gInterior_follows].
    + by apply firstb_nullable; vm_compute.
    + by apply firstb_starts; vm_compute.
Qed.
Lemma gFF_rejected : meta_build gFF gFF 0 = Some (inl (GFirstFirst 0 1 2 [RLit "x"%string])).
Proof. vm_compute. reflexivity. Qed.
Lemma gFF_clash : clash gFF 1 2.
Proof. left. exists (0, "x"%string). split; by apply firstb_starts; vm_compute. Qed.
Lemma gWrongName_rejected : meta_build gWrongName gWrongName 0 = Some (inl (GSeq 0 1 3 [RLit "b"%string])).
Proof. vm_compute. reflexivity. Qed.
Lemma gWrongName_clash : seq_clash gWrongName [1; 2; 3].
Proof.
  exists [1], 2, [], 3, [], (0, "b"%string). split; [done|]. split; [by apply firstb_nullable; vm_compute|].
  split; [constructor|]. split; by apply firstb_starts; vm_compute.
Qed.
Lemma gWrongName_not_nullable : ¬ nullable gWrongName 1.
Proof. by apply not_nullable; vm_compute. Qed.
Lemma gWrongName_no_open : no_open_nullable gWrongName.
Proof. by apply no_open_ok; vm_compute. Qed.
Lemma gLeft_left_recursive : left_recursive gLeft 0.
Proof.
  exists [N 3]. eapply tc_l; [apply (step_rhs gLeft [] 0 [N 1] []), (rhs_union _ _ [1; 2]); mem|].
  apply tc_once. apply (step_rhs gLeft [] 1 (map N [0; 3]) []), rhs_seq; mem.
Qed.
Lemma gLeft_rejected : meta_build gLeft gLeft 0 = Some (inl (GFirstFirst 0 1 2 [RLit "y"%string])).
Proof. vm_compute. reflexivity. Qed.
