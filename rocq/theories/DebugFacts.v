(** Proofs about printed names and messages. *)
From Coq Require Import String Ascii Sorting.Sorted.
From stdpp Require Import prelude list strings.
From Verif Require Import LexModel LexSpec LexFacts SynSetModel SynSetFacts TableModel StreamModel StreamSpec StreamFacts TypeModel TypeSpec ProduceModel CfgSpec ParseSpec NodeFacts DebugModel DebugSpec CfgFacts SyntaxFacts MetaFacts.
Local Open Scope nat_scope.

Notation slt x y := (String.compare x y = Lt).
Lemma cmp_eq x y : String.compare x y = Eq → x = y.
Proof. apply String.compare_eq_iff. Qed.
Lemma ascii_cmp_eq a b : Ascii.compare a b = Eq → a = b.
Proof. apply Ascii.compare_eq_iff. Qed.
Lemma ascii_lt_trans a b c : Ascii.compare a b = Lt → Ascii.compare b c = Lt → Ascii.compare a c = Lt.
Proof. unfold Ascii.compare. rewrite !N.compare_lt_iff. lia. Qed.
Lemma slt_trans x : ∀ y z, slt x y → slt y z → slt x z.
Proof.
  induction x as [|a x IH]; intros [|b y] [|c z]; cbn; try done.
  destruct (Ascii.compare a b) eqn:E1; [apply ascii_cmp_eq in E1 as ->| |done].
  - destruct (Ascii.compare b c) eqn:E2; [|done|done]. intros H1 H2. by eapply IH.
  - intros _. destruct (Ascii.compare b c) eqn:E2; [apply ascii_cmp_eq in E2 as ->| |done].
    + intros _. by rewrite E1.
    + intros _. by rewrite (ascii_lt_trans _ _ _ E1 E2).
Qed.
Lemma slt_irrefl x : ¬ slt x x.
Proof. induction x as [|a x IH]; cbn; [done|]. unfold Ascii.compare. by rewrite N.compare_refl. Qed.

Lemma bt_insert_in x y l : y ∈ bt_insert x l ↔ y = x ∨ y ∈ l.
Proof.
  induction l as [|z l IH]; cbn; [set_solver|]. destruct (String.eqb x z) eqn:E.
  - apply String.eqb_eq in E as ->. set_solver.
  - destruct (String.leb x z); set_solver.
Qed.
Lemma bt_insert_sorted x l : StronglySorted (λ x y, slt x y) l → StronglySorted (λ x y, slt x y) (bt_insert x l).
Proof.
  induction 1 as [|z l Hl IH Hz]; cbn; [repeat constructor|]. destruct (String.eqb x z) eqn:E.
  - by constructor.
  - apply String.eqb_neq in E. unfold String.leb. destruct (String.compare x z) eqn:C.
    + by apply cmp_eq in C.
    + constructor; [by constructor|]. constructor; [done|]. eapply Forall_impl; [exact Hz|].
      intros y Hy. by eapply slt_trans.
    + constructor; [exact IH|]. apply Forall_forall. intros y Hy. apply bt_insert_in in Hy as [->|Hy].
      * rewrite String.compare_antisym, C. done.
      * rewrite Forall_forall in Hz. by apply Hz.
Qed.
Lemma bt_list l : StronglySorted (λ x y, slt x y) (foldr bt_insert [] l) ∧ ∀ x, x ∈ foldr bt_insert [] l ↔ x ∈ l.
Proof.
  induction l as [|y l [IH1 IH2]]; cbn; [split; [constructor|done]|]. split; [by apply bt_insert_sorted|].
  intros x. rewrite bt_insert_in, IH2. set_solver.
Qed.
Lemma reprs_string_prints ty_name s : ∃ items,
  reprs_string ty_name (ts_to_repr s) = String.concat ", " items ∧ prints ty_name s items.
Proof.
  exists (foldr bt_insert [] (map (repr_string ty_name) (ts_to_repr s))). split; [done|].
  destruct (bt_list (map (repr_string ty_name) (ts_to_repr s))) as [H1 H2]. split; [exact H1|].
  intros x. rewrite H2, elem_of_list_fmap. split.
  - intros (r & -> & Hr). apply ts_to_repr_spec in Hr. destruct r as [|l|ty]; cbn.
    + by left.
    + destruct Hr as (ty & Ha & Hb). right; left. by exists ty, l.
    + right; right. by exists ty.
  - intros [[-> H]|[(ty & l & -> & H)|(ty & -> & H)]].
    + exists REmpty. split; [done|]. by apply ts_to_repr_spec.
    + exists (RLit l). split; [done|]. apply ts_to_repr_spec. by exists ty.
    + exists (RTy ty). split; [done|]. by apply ts_to_repr_spec.
Qed.

Lemma span_get_spanned sp src : sp_lo sp ≤ sp_hi sp → sp_hi sp ≤ String.length src →
  ∃ x, span_get sp src = Some x ∧ spanned sp src x.
Proof.
  intros H1 H2. destruct (span_get_spec sp src) as (A & B & _).
  destruct (decide (sp_lo sp < sp_hi sp)) as [L|L].
  - destruct A as (r & E & HL & HG); [done|lia|]. exists r. split; [done|].
    rewrite Nat.min_l in HL, HG by lia. by split.
  - exists EmptyString. split; [by apply B; lia|]. split; cbn; [lia|]. intros i Hi. lia.
Qed.

(** Messages of all errors recorded by a parse. *)
Lemma parse_messages : ∀ ty_name extract env t md f s o s', filled env t → state_ok s →
  run extract (parse env f t (inr md)) s = ODone o s' →
  ∃ es, p_errors s' = p_errors s ++ es ∧ ∀ e, e ∈ es → ∃ m, message ty_name e (p_src s) = Some m ∧
    match e_kind e with
    | UnexpectedCharacters => ∃ x, m = String.append "Unexpected: " x ∧ spanned (e_span e) (p_src s) x
    | UnexpectedTokens => ∃ x, m = String.append "Unexpected token(s): " x ∧ spanned (e_span e) (p_src s) x
    | Expecting set => ∃ items, m = String.append "Expecting one of " (String.concat ", " items) ∧ prints ty_name set items
    | UnexpectedEof => m = "Unexpected end of file"%string
    | NoAdvance => True
    end.
Proof.
  intros ty_name extract env t md f s o s' Hf Hok Hr.
  destruct (parse_error_spans _ _ _ _ _ _ _ _ Hf Hok Hr) as (es & E & Hes).
  exists es. split; [exact E|]. intros e He. destruct (Hes e He) as [H1 H2].
  destruct (span_get_spanned _ _ H1 H2) as (x & Ex & Sx). unfold message.
  destruct (e_kind e) as [| |set| |]; rewrite ?Ex; cbn [option_map].
  - eexists. split; [done|]. by exists x.
  - eexists. split; [done|]. by exists x.
  - eexists. split; [done|]. destruct (reprs_string_prints ty_name set) as (items & Ei & Hi).
    exists items. split; [by rewrite Ei|done].
  - by eexists.
  - by eexists.
Qed.

(** * Names *)
Lemma app_cons c a b : String.append (String c a) b = String c (String.append a b).
Proof. done. Qed.
Lemma app_nil a : String.append EmptyString a = a.
Proof. done. Qed.
Lemma length_append a b : String.length (String.append a b) = String.length a + String.length b.
Proof. induction a as [|c a IH]; [done|]. rewrite app_cons. cbn [String.length Nat.add]. by rewrite IH. Qed.
Lemma append_assoc a b c : String.append (String.append a b) c = String.append a (String.append b c).
Proof. induction a as [|x a IH]; [done|]. rewrite ?app_cons, ?app_nil. by rewrite IH. Qed.
Lemma strip_suffix2_step suf s : strip_suffix2 suf s =
  if String.eqb s suf then Some EmptyString else
  match s with
  | EmptyString => None
  | String c r => match strip_suffix2 suf r with Some x => Some (String c x) | None => None end
  end.
Proof. by destruct s. Qed.
Lemma strip_suffix2_app suf x : strip_suffix2 suf (String.append x suf) = Some x.
Proof.
  induction x as [|c x IH]; rewrite strip_suffix2_step.
  - rewrite ?app_cons, ?app_nil. by rewrite String.eqb_refl.
  - rewrite ?app_cons, ?app_nil. rewrite IH.
    destruct (String.eqb (String c (String.append x suf)) suf) eqn:E; [|done].
    apply String.eqb_eq in E. apply (f_equal String.length) in E. cbn [String.length] in E. rewrite length_append in E. lia.
Qed.
Lemma strip_suffix2_inv suf s x : strip_suffix2 suf s = Some x → s = String.append x suf.
Proof.
  revert x. induction s as [|c s IH]; intros x; rewrite strip_suffix2_step;
    (destruct (String.eqb _ suf) eqn:E; [apply String.eqb_eq in E as <-; intros [= <-]; done|]); [done|].
  destruct (strip_suffix2 suf s) as [y|]; [|done]. intros [= <-]. rewrite app_cons. by rewrite (IH y).
Qed.
Lemma opt_debug_plus x : opt_debug (String.append "(" (String.append x ")+")) = String.append "(" (String.append x ")*").
Proof. unfold opt_debug. rewrite ?app_cons, ?app_nil. by rewrite strip_suffix2_app. Qed.
Lemma append_last2 a b u v : String.length u = String.length v → String.append a u = String.append b v → u = v.
Proof.
  intros L. revert b. induction a as [|c a IH]; intros b; rewrite ?app_cons, ?app_nil.
  - destruct b as [|d b]; rewrite ?app_cons, ?app_nil; [done|]. intros ->. cbn [String.length] in L. rewrite length_append in L. lia.
  - destruct b as [|d b]; rewrite ?app_cons, ?app_nil.
    + intros <-. cbn [String.length] in L. rewrite length_append in L. lia.
    + intros [= _ H]. by apply IH in H.
Qed.
Lemma opt_debug_punct x : opt_debug (String.append "(" (String.append x "]+")) = String.append "(" (String.append x "]*").
Proof.
  unfold opt_debug. rewrite ?app_cons, ?app_nil. rewrite strip_suffix2_app.
  destruct (strip_suffix2 ")+" (String.append x "]+")) as [y|] eqn:E; [|done].
  apply strip_suffix2_inv, append_last2 in E; done.
Qed.

Lemma debug_star tn dn p : debug tn dn (POpt (POneMore p)) = String.append "( " (String.append (debug tn dn p) " )*").
Proof.
  cbn [debug]. pose proof (opt_debug_plus (String.append " " (String.append (debug tn dn p) " "))) as H.
  rewrite !append_assoc in H. exact H.
Qed.
Lemma debug_puncts tn dn p q : debug tn dn (POpt (PPunct p q)) =
  String.append "( " (String.append (debug tn dn p) (String.append " )[" (String.append (debug tn dn q) "]*"))).
Proof.
  cbn [debug]. pose proof (opt_debug_punct (String.append " " (String.append (debug tn dn p) (String.append " )[" (debug tn dn q))))) as H.
  rewrite !append_assoc in H. exact H.
Qed.
(** The text of an optional production is one of the three forms, read off its last characters. *)
Lemma debug_opt tn dn p : let x := debug tn dn p in let o := debug tn dn (POpt p) in
  o = String.append "(" (String.append x ")?") ∨
  ∃ y, (x = String.append "(" (String.append y ")+") ∧ o = String.append "(" (String.append y ")*")) ∨
       (x = String.append "(" (String.append y "]+") ∧ o = String.append "(" (String.append y "]*")).
Proof.
  cbn [debug]. generalize (debug tn dn p) as x. intros x. cbn zeta. unfold opt_debug.
  destruct x as [|c x]; [by left|].
  destruct (decide (c = "("%char)) as [->|N].
  - destruct (strip_suffix2 ")+" x) as [y|] eqn:E1.
    + right. exists y. left. apply strip_suffix2_inv in E1 as ->. done.
    + destruct (strip_suffix2 "]+" x) as [y|] eqn:E2; [|by left].
      right. exists y. right. apply strip_suffix2_inv in E2 as ->. done.
  - left. destruct c as [[] [] [] [] [] [] [] []]; try done.
Qed.
(** Two different productions with the same text. *)
Lemma debug_ambiguous : ∃ p q, p ≠ q ∧
  ∀ tn dn, tn 0 = "Ident"%string → debug tn dn p = debug tn dn q ∧ debug tn dn p = "(Ident)? ( + )*"%string.
Proof.
  exists (POpt (PTuple [POpt (PTok 0 0 None); POneMore (PTok 1 1 (Some "+"%string))])),
    (PTuple [POpt (PTok 0 0 None); POpt (POneMore (PTok 1 1 (Some "+"%string)))]).
  split; [done|]. intros tn dn E. cbn [debug map]. rewrite E. split; reflexivity.
Qed.

(** * Texts of grammar errors *)
Lemma listing_reprs ty_name P r : (∀ c, c ∈ r ↔ P c) →
  ∃ items, reprs_string ty_name r = String.concat ", " items ∧ listing ty_name P items.
Proof.
  intros HP. exists (foldr bt_insert [] (map (repr_string ty_name) r)). split; [done|].
  destruct (bt_list (map (repr_string ty_name) r)) as [H1 H2]. split; [exact H1|].
  intros x. rewrite H2, elem_of_list_fmap. setoid_rewrite HP. split.
  - intros (c & -> & Hc). exists c. by destruct c.
  - intros (c & Hc & ->). exists c. by destruct c.
Qed.

Lemma gerr_texts tok_name decl_name ty_name regs iter root e : functional regs → iter ≡ₚ regs →
  meta_build regs iter root = Some (inl e) →
  let name := debug tok_name decl_name in
  let text := gerr_display tok_name decl_name ty_name e in
  match e with
  | GLeftRecursion _ _ => False
  | GFirstFirst self a b _ => ∃ items, listing ty_name (common_item regs true a b) items ∧
      text = String.concat "" ["The non-terminal `"; name self; "` has a FIRST/FIRST conflict producing either `";
        name a; "` or `"; name b; "`. The conflicting terminals are: "; String.concat ", " items]%string
  | GFirstFollow self _ => nullable regs self ∧
      ∃ items, listing ty_name (common (starts regs self) (λ t, near_follow regs root self (Some t))) items ∧
      text = String.concat "" ["The non-terminal `"; name self;
        "` has conflict in its FIRST and FOLLOW sets. The conflicting terminals are: "; String.concat ", " items]%string
  | GSeq self cur next _ => ∃ m1 m2 m3 items, (self, ESeq (m1 ++ cur :: m2 ++ next :: m3)) ∈ regs ∧
      listing ty_name (common (carried regs (m1 ++ cur :: m2)) (starts regs next)) items ∧
      text = String.concat "" ["The non-terminal `"; name self; "` has a FIRST/FOLLOW conflict producing `";
        name cur; "` followed by `"; name next; "`. `"; name cur; "` can be empty and both can start with: ";
        String.concat ", " items]%string
  end.
Proof.
  intros Hf Hp Hm name text. destruct e as [st t|self a b r|self r|self cur next r].
  - by eapply never_left_recursion in Hm.
  - destruct (first_first_reported _ _ _ _ _ _ _ Hf Hp Hm) as (l & i & j & _ & _ & _ & _ & _ & _ & _ & Hr).
    destruct (listing_reprs ty_name _ _ Hr) as (items & E & Hi). exists items. split; [exact Hi|]. by rewrite <-E.
  - destruct (first_follow_items _ _ _ _ _ Hf Hp Hm) as (_ & Hn & Hr). split; [exact Hn|].
    destruct (listing_reprs ty_name _ _ Hr) as (items & E & Hi). exists items. split; [exact Hi|]. by rewrite <-E.
  - destruct (seq_items _ _ _ _ _ _ _ Hf Hp Hm) as (m1 & m2 & m3 & _ & Hin & Hr).
    destruct (listing_reprs ty_name _ _ Hr) as (items & E & Hi). exists m1, m2, m3, items.
    split; [exact Hin|]. split; [exact Hi|]. by rewrite <-E.
Qed.

(** Names do not show boxes nor the nesting of sequences. *)
Lemma debug_unbox tn dn : ∀ p, debug tn dn (unbox p) = debug tn dn p.
Proof.
  fix IH 1. intros [n y l|n|l|q|q|q r| |q]; cbn [unbox debug]; rewrite ?IH; try done.
  f_equal. induction l as [|p l IHl]; [done|]. cbn [map]. by rewrite IH, IHl.
Qed.
Lemma concat_app sep l1 l2 : l1 ≠ [] → l2 ≠ [] →
  String.concat sep (l1 ++ l2) = String.append (String.concat sep l1) (String.append sep (String.concat sep l2)).
Proof.
  intros H1 H2. induction l1 as [|x l1 IH]; [done|]. destruct l1 as [|y l1].
  - cbn [app String.concat]. by destruct l2.
  - change ((x :: y :: l1) ++ l2) with (x :: (y :: l1) ++ l2).
    change (String.concat sep (x :: (y :: l1) ++ l2)) with (String.append x (String.append sep (String.concat sep ((y :: l1) ++ l2)))).
    rewrite IH by done.
    change (String.concat sep (x :: y :: l1)) with (String.append x (String.append sep (String.concat sep (y :: l1)))).
    by rewrite !append_assoc.
Qed.
Lemma debug_flat tn dn l1 l2 l3 : l2 ≠ [] →
  debug tn dn (PTuple (l1 ++ PTuple l2 :: l3)) = debug tn dn (PTuple (l1 ++ l2 ++ l3)).
Proof.
  intros H. cbn [debug]. rewrite !map_app. cbn [map debug].
  assert (∀ l, map (debug tn dn) l = [] → l = []) as Hm by (by intros []).
  assert (String.concat " " (String.concat " " (map (debug tn dn) l2) :: map (debug tn dn) l3) =
          String.concat " " (map (debug tn dn) l2 ++ map (debug tn dn) l3)) as E.
  { destruct (map (debug tn dn) l3) as [|x l] eqn:E3; [by rewrite app_nil_r|].
    rewrite concat_app; [done| |done]. by intros ?%Hm. }
  destruct l1 as [|x l1]; [exact E|].
  rewrite (concat_app " " (map _ (x :: l1)) (_ :: _)) by done. rewrite E.
  rewrite (concat_app " " (map _ (x :: l1)) (_ ++ _)); [done|done|].
  intros [?%Hm _]%app_eq_nil. done.
Qed.
