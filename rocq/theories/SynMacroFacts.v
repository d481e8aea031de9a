(** Proofs about [derive_syntax]. *)
From Coq Require Import String NArith.
From stdpp Require Import prelude list strings pretty.
From Verif Require Import LexModel LexSpec LexFacts TableModel TypeModel ProduceModel ParseSpec MacroModel MacroSpec MacroFacts
  ParseEx SynMacroModel SynMacroSpec.
Local Open Scope nat_scope.

Lemma strip_take_eq {A} (l : list (attr A)) : strip_take l = (foreign l, tele l).
Proof.
  induction l as [|[m|x] l IH]; [done| |]; cbn [strip_take]; rewrite IH; done.
Qed.

Lemma amo_cons' {A} (P : A → Prop) x l :
  at_most_one P (x :: l) ↔ (P x → ∀ y, y ∈ l → ¬ P y) ∧ at_most_one P l.
Proof.
  split.
  - intros H. split.
    + intros Hx y [i Hi]%elem_of_list_lookup Hy. by specialize (H 0 (S i) x y eq_refl Hi Hx Hy).
    + intros i j a b Hi Hj Ha Hb. specialize (H (S i) (S j) a b Hi Hj Ha Hb). lia.
  - intros [H1 H2] [|i] [|j] a b Hi Hj Ha Hb; cbn in Hi, Hj.
    + done.
    + injection Hi as ->. by destruct (H1 Ha b (elem_of_list_lookup_2 _ _ _ Hj)).
    + injection Hj as ->. by destruct (H1 Hb a (elem_of_list_lookup_2 _ _ _ Hi)).
    + f_equal. by eapply H2.
Qed.

Definition field_ok (ms : list fmeta) : Prop :=
  FmOther ∉ ms ∧ FmSemantic None ∉ ms ∧ FmHook None ∉ ms ∧ at_most_one is_semantic ms ∧ at_most_one is_hook ms.
Definition no_more {A} (s : option A) (P : fmeta → Prop) (ms : list fmeta) : Prop :=
  is_Some s → ∀ m, m ∈ ms → ¬ P m.

Lemma no_more_cons {A} (s : option A) P m ms : no_more s P (m :: ms) ↔ (is_Some s → ¬ P m) ∧ no_more s P ms.
Proof.
  unfold no_more. split.
  - intros H. split; [intros Hs; apply H; [done|left]|intros Hs x Hx; apply H; [done|by right]].
  - intros [H1 H2] Hs x [->|Hx]%elem_of_cons; [by apply H1|by apply H2].
Qed.

Lemma read_field_ok ms s h :
  (∃ r, read_field ms s h = inr r) ↔ field_ok ms ∧ no_more s is_semantic ms ∧ no_more h is_hook ms.
Proof.
  revert s h. induction ms as [|m ms IH]; intros s h.
  - cbn [read_field]. split; [intros _|eauto].
    split; [split_and!; try (by apply not_elem_of_nil); apply at_most_one_nil|].
    split; intros _ m Hm; by apply elem_of_nil in Hm.
  - unfold field_ok. rewrite !amo_cons', !not_elem_of_cons, !no_more_cons.
    assert (Hs : ∀ x, is_semantic (FmSemantic x)) by (by eexists).
    assert (Hh : ∀ x, is_hook (FmHook x)) by (by eexists).
    assert (Hs' : ∀ x, ¬ is_semantic (FmHook x)) by (by intros ? [??]).
    assert (Hh' : ∀ x, ¬ is_hook (FmSemantic x)) by (by intros ? [??]).
    assert (HsL : ¬ is_semantic FmList) by (by intros [??]).
    assert (HhL : ¬ is_hook FmList) by (by intros [??]).
    destruct m as [ids|id| |]; cbn [read_field].
    + destruct s as [s|].
      { split; [by intros [r Hr]|]. intros (_ & [H _] & _). by destruct (H (mk_is_Some _ _ eq_refl)). }
      destruct ids as [ids|]; [|split; [by intros [r Hr]|intuition done]].
      rewrite IH. unfold field_ok, no_more. specialize (Hs (Some ids)). specialize (Hh' (Some ids)).
      split; intros H; decompose [and] H; clear H; split_and!; auto; try done; try (by intros [??]).
    + destruct h as [h|].
      { split; [by intros [r Hr]|]. intros (_ & _ & [H _]). by destruct (H (mk_is_Some _ _ eq_refl)). }
      destruct id as [id|]; [|split; [by intros [r Hr]|intuition done]].
      rewrite IH. unfold field_ok, no_more. specialize (Hh (Some id)). specialize (Hs' (Some id)).
      split; intros H; decompose [and] H; clear H; split_and!; auto; try done; try (by intros [??]).
    + rewrite IH. unfold field_ok.
      split; intros H; decompose [and] H; clear H; split_and!; auto; try done.
    + split; [by intros [r Hr]|intuition done].
Qed.

Lemma entries_some {A} (l : list (attr A)) ms : tele l = [Some ms] → ∀ ms', entries l ms' ↔ ms' = ms.
Proof. intros H ms'. unfold entries. rewrite H. split; [intros [[? _]|[= ->]]; done|intros ->; by right]. Qed.
Lemma entries_nil {A} (l : list (attr A)) : tele l = [] → ∀ ms', entries l ms' ↔ ms' = [].
Proof. intros H ms'. unfold entries. rewrite H. split; [intros [[_ ?]|?]; done|intros ->; by left]. Qed.
Lemma entries_no {A} (l : list (attr A)) : tele l ≠ [] → (∀ ms, tele l ≠ [Some ms]) → ∀ ms', ¬ entries l ms'.
Proof. intros H1 H2 ms' [[? _]|?]; [done|by eapply H2]. Qed.

Lemma parse_field_ok l : (∃ r, parse_field (tele l) = inr r) ↔ good_marks l.
Proof.
  unfold good_marks. destruct (tele l) as [|[ms|] [|y t]] eqn:E.
  - cbn [parse_field]. split; [|eauto]. intros _. exists []. split; [by apply entries_nil|].
    split_and!; try (by apply not_elem_of_nil); apply at_most_one_nil.
  - cbn [parse_field]. rewrite read_field_ok. split.
    + intros (H & _ & _). exists ms. split; [by apply (entries_some _ _ E)|exact H].
    + intros (ms' & H1 & H2). apply (entries_some _ _ E) in H1 as ->.
      split; [exact H2|]. split; by intros [??].
  - split; [by intros [r Hr]|]. intros (ms' & H & _). exfalso.
    eapply entries_no; [..|exact H]; rewrite E; [done|by intros ? [=]].
  - split; [by intros [r Hr]|]. intros (ms' & H & _). exfalso.
    eapply entries_no; [..|exact H]; rewrite E; [done|by intros ? [=]].
  - split; [by intros [r Hr]|]. intros (ms' & H & _). exfalso.
    eapply entries_no; [..|exact H]; rewrite E; [done|by intros ? [=]].
Qed.

Lemma read_field_val ms s h r : read_field ms s h = inr r →
  ∀ xs, r = Some xs ↔ s = Some xs ∨ FmSemantic (Some xs) ∈ ms.
Proof.
  revert s h. induction ms as [|m ms IH]; intros s h; cbn [read_field].
  - intros [= ->] xs. rewrite elem_of_nil. naive_solver.
  - destruct m as [ids|id| |]; [| | |done].
    + destruct s as [s|]; [done|]. destruct ids as [ids|]; [|done].
      intros Hr xs. rewrite (IH _ _ Hr), elem_of_cons. naive_solver.
    + destruct h as [h|]; [done|]. destruct id as [id|]; [|done].
      intros Hr xs. rewrite (IH _ _ Hr), elem_of_cons. naive_solver.
    + intros Hr xs. rewrite (IH _ _ Hr), elem_of_cons. naive_solver.
Qed.
Lemma parse_field_val l r : parse_field (tele l) = inr r → ∀ xs, r = Some xs ↔ listed l xs.
Proof.
  unfold listed. destruct (tele l) as [|[ms|] [|y t]] eqn:E; cbn [parse_field]; try done.
  - intros [= <-] xs. split; [done|]. intros (ms & H & _). by apply elem_of_nil in H.
  - intros Hr xs. rewrite (read_field_val _ _ _ _ Hr). split.
    + intros [?|H]; [done|]. exists ms. split; [by left|done].
    + intros (ms' & H & H2). apply elem_of_list_singleton in H. injection H as ->. by right.
Qed.

(** * The item's attributes *)
#[local] Instance rmeta_eq_dec : EqDecision rmeta.
Proof. solve_decision. Defined.
Lemma read_root_val ms r n : read_root ms r n =
  if bool_decide (RmOther ∈ ms) then inl XUnknown
  else inr (r || bool_decide (RmRoot ∈ ms), n || bool_decide (RmNoTest ∈ ms)).
Proof.
  assert (∀ x : rmeta, bool_decide (x ∈ []) = false) as Hnil.
  { intros x. apply bool_decide_eq_false, not_elem_of_nil. }
  assert (Hc : ∀ x y : rmeta, ∀ l, bool_decide (x ∈ y :: l) = bool_decide (x = y) || bool_decide (x ∈ l)).
  { intros x y l. rewrite (bool_decide_ext _ _ (elem_of_cons l x y)). apply bool_decide_or. }
  revert r n. induction ms as [|m ms IH]; intros r n; cbn [read_root].
  - by rewrite !Hnil, !orb_false_r.
  - rewrite !Hc. destruct m; rewrite ?IH; cbn; try done; destruct (bool_decide (RmOther ∈ ms)), r, n; done.
Qed.

Lemma parse_root_ok l :
  (∃ r, parse_root (tele l) = inr r) ↔ good_root l.
Proof.
  unfold good_root, parse_root. destruct (tele l) as [|[ms|] [|y t]] eqn:E.
  - cbn [root_metas]. rewrite read_root_val. cbn. split; [|eauto]. intros _. exists [].
    split; [by apply entries_nil|]. split; [apply not_elem_of_nil|]. intros H. by apply elem_of_nil in H.
  - cbn [root_metas]. change (default [] (Some ms)) with ms. rewrite read_root_val. split.
    + intros [r Hr]. exists ms. split; [by apply (entries_some _ _ E)|].
      destruct (bool_decide_reflect (RmOther ∈ ms)); [done|]. split; [done|]. intros Hn. cbn in Hr.
      rewrite (bool_decide_eq_true_2 _ Hn) in Hr. by destruct (bool_decide_reflect (RmRoot ∈ ms)).
    + intros (ms' & H1 & H2 & H3). apply (entries_some _ _ E) in H1 as ->.
      rewrite (bool_decide_eq_false_2 _ H2). cbn.
      destruct (bool_decide_reflect (RmNoTest ∈ ms)) as [Hn|Hn].
      * rewrite (bool_decide_eq_true_2 _ (H3 Hn)). cbn. eauto.
      * cbn. eauto.
  - split; [by intros [r Hr]|]. intros (ms' & H & _). exfalso.
    eapply entries_no; [..|exact H]; rewrite E; [done|by intros ? [=]].
  - split; [by intros [r Hr]|]. intros (ms' & H & _). exfalso.
    eapply entries_no; [..|exact H]; rewrite E; [done|by intros ? [=]].
  - split; [by intros [r Hr]|]. intros (ms' & H & _). exfalso.
    eapply entries_no; [..|exact H]; rewrite E; [done|by intros ? [=]].
Qed.
Lemma parse_root_val l r n : parse_root (tele l) = inr (r, n) →
  (r = true ↔ has_entry l RmRoot) ∧ (n = true ↔ has_entry l RmNoTest).
Proof.
  unfold has_entry, parse_root. destruct (tele l) as [|[ms|] [|y t]] eqn:E; cbn [root_metas]; try done.
  - rewrite read_root_val. cbn. intros [= <- <-].
    split; (split; [done|]); intros (ms & H & _); by apply elem_of_nil in H.
  - change (default [] (Some ms)) with ms. rewrite read_root_val.
    destruct (bool_decide (RmOther ∈ ms)); [done|]. cbn.
    destruct (_ && _); [done|]. intros [= <- <-]. rewrite !bool_decide_eq_true.
    split; (split; [intros H; exists ms; split; [by left|done]|]);
      intros (ms' & H & H2); apply elem_of_list_singleton in H; by injection H as ->.
Qed.

(** * Structs *)
Lemma strip_field_eq f : strip_field f = (clean_field f, tele (sf_attrs f)).
Proof. unfold strip_field. by rewrite strip_take_eq. Qed.
Lemma strip_variant_eq v : strip_variant v = (clean_variant v, tele (sv_attrs v)).
Proof. unfold strip_variant. by rewrite strip_take_eq. Qed.

Lemma field_marks_ok idents fs : length idents = length fs →
  (∃ ms, field_marks (zip idents (map (tele ∘ sf_attrs) fs)) = inr ms) ↔ ∀ f, f ∈ fs → good_marks (sf_attrs f).
Proof.
  revert idents. induction fs as [|f fs IH]; intros [|x idents] Hl; try done; cbn [map zip zip_with field_marks].
  - split; [|eauto]. intros _ f Hf. by apply elem_of_nil in Hf.
  - injection Hl as Hl. specialize (IH _ Hl). split.
    + intros [ms Hms]. change ((tele ∘ sf_attrs) f) with (tele (sf_attrs f)) in Hms.
      destruct (parse_field (tele (sf_attrs f))) as [|sem] eqn:E; [done|].
      destruct (field_marks _) as [|ms'] eqn:E2; [done|].
      intros f' [->|Hf]%elem_of_cons; [apply parse_field_ok; eauto|apply IH; eauto].
    + intros H. change ((tele ∘ sf_attrs) f) with (tele (sf_attrs f)).
      destruct (proj2 (parse_field_ok (sf_attrs f)) (H f ltac:(left))) as [sem ->].
      destruct (proj2 IH) as [ms' ->]; [intros f' Hf; apply H; by right|]. eauto.
Qed.

Lemma assoc_none {A} x (l : list (string * A)) : x ∉ l.*1 → assoc x l = None.
Proof.
  induction l as [|[y a] l IH]; [done|]. cbn. rewrite not_elem_of_cons. intros [Hn H].
  destruct (String.eqb_spec x y); [done|]. by apply IH.
Qed.
Lemma field_marks_names idents ts ms x : field_marks (zip idents ts) = inr ms → x ∈ ms.*1 → x ∈ idents.
Proof.
  revert ts ms. induction idents as [|y idents IH]; intros [|t ts] ms; cbn [zip zip_with field_marks].
  1-3: intros [= <-] H; by apply elem_of_nil in H.
  destruct (parse_field t) as [|sem]; [done|]. destruct (field_marks _) as [|ms'] eqn:E; [done|].
  destruct sem as [ids|]; intros [= <-].
  - intros [->|H]%elem_of_cons; [left|right; by eapply IH].
  - intros H. right. by eapply IH.
Qed.
Lemma field_marks_val idents fs ms : length idents = length fs → NoDup idents →
  field_marks (zip idents (map (tele ∘ sf_attrs) fs)) = inr ms →
  ∀ i x f, idents !! i = Some x → fs !! i = Some f → ∀ xs, assoc x ms = Some xs ↔ listed (sf_attrs f) xs.
Proof.
  revert idents ms. induction fs as [|f fs IH]; intros [|y idents] ms Hl Hnd; try done.
  cbn [map zip zip_with field_marks]. injection Hl as Hl. apply NoDup_cons in Hnd as [Hy Hnd].
  change ((tele ∘ sf_attrs) f) with (tele (sf_attrs f)).
  destruct (parse_field (tele (sf_attrs f))) as [|sem] eqn:E; [done|].
  destruct (field_marks _) as [|ms'] eqn:E2; [done|].
  assert (Hno : assoc y ms' = None).
  { apply assoc_none. intros H. apply Hy. by eapply field_marks_names. }
  intros Hms [|i] x f' Hx Hf xs; cbn in Hx, Hf.
  - injection Hx as ->. injection Hf as ->. rewrite <- (parse_field_val _ _ E).
    destruct sem as [ids|]; injection Hms as <-; cbn [assoc]; [by rewrite String.eqb_refl|by rewrite Hno].
  - assert (x ≠ y). { intros ->. apply Hy. by eapply elem_of_list_lookup_2. }
    rewrite <- (IH idents ms' Hl Hnd E2 i x f' Hx Hf).
    destruct sem as [ids|]; injection Hms as <-; [|done]. cbn [assoc].
    by destruct (String.eqb_spec x y).
Qed.

Lemma expand_fields_eq idents fs : length idents = length fs →
  expand_fields idents fs = (map clean_field fs,
    match head idents, last idents with
    | Some x, Some z =>
       ms ←! field_marks (zip idents (map (tele ∘ sf_attrs) fs));
       inr (GStruct (map sf_ty fs) (zip idents (map sf_ty fs)) ms x z)
    | _, _ => inl XNoField
    end).
Proof.
  intros Hl. unfold expand_fields.
  assert (E1 : map fst (map strip_field fs) = map clean_field fs).
  { rewrite map_map. apply map_ext. intros f. by rewrite strip_field_eq. }
  assert (E2 : map snd (map strip_field fs) = map (tele ∘ sf_attrs) fs).
  { rewrite map_map. apply map_ext. intros f. by rewrite strip_field_eq. }
  assert (E3 : map sf_ty (map clean_field fs) = map sf_ty fs) by (by rewrite map_map).
  cbn zeta. by rewrite E1, E2, E3.
Qed.
Lemma head_last_some {A} (l : list A) : l ≠ [] → ∃ x z, head l = Some x ∧ last l = Some z.
Proof.
  destruct l as [|x l]; [done|]. intros _. exists x.
  destruct (last (x :: l)) as [z|] eqn:E; [by exists z|]. by apply last_None in E.
Qed.
Lemma expand_fields_ok idents fs : length idents = length fs →
  (∃ g, snd (expand_fields idents fs) = inr g) ↔ fs ≠ [] ∧ ∀ f, f ∈ fs → good_marks (sf_attrs f).
Proof.
  intros Hl. rewrite (expand_fields_eq _ _ Hl). cbn [snd]. rewrite <- (field_marks_ok _ _ Hl).
  destruct (decide (idents = [])) as [->|Hne].
  - destruct fs; [|done]. cbn. split; [by intros [??]|by intros [??]].
  - destruct (head_last_some idents Hne) as (x & z & -> & ->).
    destruct (field_marks _) as [|ms]; split.
    + by intros [??].
    + by intros [_ [??]].
    + intros _. split; [|eauto]. intros ->. by destruct idents.
    + eauto.
Qed.

(** * Enums *)
Definition one_field (v : svariant) : Prop := sv_disc v = false ∧ ∃ f, sv_fields v = FsUnnamed [f].
Lemma variant_tys_ok vs : (∃ l, variant_tys vs = inr l) ↔ ∀ v, v ∈ vs → one_field v.
Proof.
  unfold one_field. induction vs as [|v vs IH]; cbn [variant_tys].
  - split; [|eauto]. intros _ v Hv. by apply elem_of_nil in Hv.
  - split.
    + intros [l Hl]. destruct (sv_disc v) eqn:Ed; [done|].
      destruct (sv_fields v) as [|[|f [|f' fl]]|] eqn:Ef; try done.
      destruct (variant_tys vs) as [|l']; [done|].
      intros w [->|Hw]%elem_of_cons; [eauto|]. apply IH; eauto.
    + intros H. destruct (H v) as (-> & f & ->); [left|].
      destruct (proj2 IH) as [l ->]; [|eauto]. intros w Hw. apply H. by right.
Qed.
Lemma variant_marks_ok vs : (∃ l, variant_marks (map (tele ∘ sv_attrs) vs) = inr l) ↔
  ∀ v, v ∈ vs → good_marks (sv_attrs v).
Proof.
  induction vs as [|v vs IH]; cbn [map variant_marks].
  - split; [|eauto]. intros _ v Hv. by apply elem_of_nil in Hv.
  - change ((tele ∘ sv_attrs) v) with (tele (sv_attrs v)). split.
    + intros [l Hl]. destruct (parse_field (tele (sv_attrs v))) as [|sem] eqn:E; [done|].
      destruct (variant_marks _) as [|l'] eqn:E2; [done|].
      intros w [->|Hw]%elem_of_cons; [apply parse_field_ok; eauto|apply IH; eauto].
    + intros H. destruct (proj2 (parse_field_ok (sv_attrs v)) (H v ltac:(left))) as [sem ->].
      destruct (proj2 IH) as [l ->]; [|eauto]. intros w Hw. apply H. by right.
Qed.
Lemma variant_tys_clean vs : variant_tys (map clean_variant vs) = variant_tys vs.
Proof. induction vs as [|v vs IH]; [done|]. cbn [map variant_tys]. rewrite IH. done. Qed.
Lemma expand_enum_eq vs : expand_enum vs = (map clean_variant vs,
   nts ←! variant_tys vs;
   match nts with
   | [] => inl XNoVariant
   | _ :: _ => ms ←! variant_marks (map (tele ∘ sv_attrs) vs); inr (GEnum (map snd nts) (arms 0 nts ms))
   end).
Proof.
  unfold expand_enum.
  assert (E1 : map fst (map strip_variant vs) = map clean_variant vs).
  { rewrite map_map. apply map_ext. intros f. by rewrite strip_variant_eq. }
  assert (E2 : map snd (map strip_variant vs) = map (tele ∘ sv_attrs) vs).
  { rewrite map_map. apply map_ext. intros f. by rewrite strip_variant_eq. }
  cbn zeta. by rewrite E1, E2, variant_tys_clean.
Qed.
Lemma variant_tys_length vs l : variant_tys vs = inr l → length l = length vs.
Proof.
  revert l. induction vs as [|v vs IH]; intros l; cbn [variant_tys]; [by intros [= <-]|].
  destruct (sv_disc v); [done|]. destruct (sv_fields v) as [|[|f [|f' fl]]|]; try done.
  destruct (variant_tys vs) as [|l']; [done|]. intros [= <-]. cbn. f_equal. by apply IH.
Qed.
Lemma expand_enum_ok vs : (∃ g, snd (expand_enum vs) = inr g) ↔
  vs ≠ [] ∧ ∀ v, v ∈ vs → sv_disc v = false ∧ (∃ f, sv_fields v = FsUnnamed [f]) ∧ good_marks (sv_attrs v).
Proof.
  rewrite expand_enum_eq. cbn [snd]. split.
  - intros [g Hg]. destruct (variant_tys vs) as [|nts] eqn:E; [done|].
    assert (Hl := variant_tys_length _ _ E).
    destruct nts as [|nt nts]; [done|]. split; [by intros ->|].
    destruct (variant_marks _) as [|ms] eqn:E2; [done|]. intros v Hv.
    destruct (proj1 (variant_tys_ok vs) (ex_intro _ _ E) v Hv) as (? & ?).
    split_and!; [done|done|]. by apply (proj1 (variant_marks_ok vs) (ex_intro _ _ E2)).
  - intros [Hne H].
    destruct (proj2 (variant_tys_ok vs)) as [nts E]; [intros v Hv; split; apply H; done|].
    destruct (proj2 (variant_marks_ok vs)) as [ms E2]; [intros v Hv; apply H; done|].
    assert (Hl := variant_tys_length _ _ E). rewrite E. destruct nts; [by destruct vs|]. rewrite E2. eauto.
Qed.

(** * Acceptance *)
Lemma length_indices {A} (l : list A) : length (map (pretty : nat → string) (seq 0 (length l))) = length l.
Proof. by rewrite map_length, seq_length. Qed.
Lemma expand_struct_ok fs : (∃ g, snd (expand_struct fs) = inr g) ↔
  struct_fields fs ≠ [] ∧ ∀ f, f ∈ struct_fields fs → good_marks (sf_attrs f).
Proof.
  destruct fs as [|l|l]; cbn [expand_struct struct_fields].
  - split; [by intros [??]|by intros [??]].
  - rewrite <- (expand_fields_ok (map pretty (seq 0 (length l))) l (length_indices l)). by destruct (expand_fields _ _).
  - rewrite <- (expand_fields_ok (map sf_name l) l (map_length _ _)). by destruct (expand_fields _ _).
Qed.
Definition expand_data (d : sdata) : sdata * (serr + gen) :=
  match d with
  | SdStruct fs => let '(fs', r) := expand_struct fs in (SdStruct fs', r)
  | SdEnum vs => let '(vs', r) := expand_enum vs in (SdEnum vs', r)
  | SdUnion l => (SdUnion l, inl XUnion)
  end.
Lemma expand_syntax_eq it : expand_syntax it =
  match parse_root (tele (si_attrs it)) with
  | inl e => (SItem (foreign (si_attrs it)) (si_data it), inl e)
  | inr (root, no_test) =>
      (SItem (foreign (si_attrs it)) (fst (expand_data (si_data it))),
       g ←! snd (expand_data (si_data it)); inr (Output g root (root && negb no_test)))
  end.
Proof.
  unfold expand_syntax. rewrite strip_take_eq. destruct (parse_root _) as [|[root no_test]]; [done|].
  fold (expand_data (si_data it)). by destruct (expand_data _).
Qed.
Lemma expand_data_ok d : (∃ g, snd (expand_data d) = inr g) ↔ good_data d.
Proof.
  destruct d as [fs|vs|l]; cbn [expand_data good_data].
  - rewrite <- expand_struct_ok. by destruct (expand_struct fs).
  - rewrite <- expand_enum_ok. by destruct (expand_enum vs).
  - split; [by intros [??]|done].
Qed.
Lemma syntax_accepts it : (∃ o, snd (expand_syntax it) = inr o) ↔ good_root (si_attrs it) ∧ good_data (si_data it).
Proof.
  rewrite expand_syntax_eq, <- parse_root_ok, <- expand_data_ok.
  destruct (parse_root _) as [|[root no_test]]; cbn [snd].
  - split; [by intros [??]|by intros [[??] _]].
  - destruct (snd (expand_data _)) as [|g]; split.
    + by intros [??].
    + by intros [_ [??]].
    + intros _. eauto.
    + eauto.
Qed.
Lemma syntax_root it o : snd (expand_syntax it) = inr o →
  (o_root o = true ↔ has_entry (si_attrs it) RmRoot) ∧
  (o_test o = true ↔ has_entry (si_attrs it) RmRoot ∧ ¬ has_entry (si_attrs it) RmNoTest).
Proof.
  rewrite expand_syntax_eq. destruct (parse_root _) as [|[root no_test]] eqn:E; [done|]. cbn [snd].
  destruct (snd (expand_data _)) as [|g]; [done|]. intros [= <-]. cbn [o_root o_test].
  destruct (parse_root_val _ _ _ E) as [H1 H2]. split; [done|].
  rewrite andb_true_iff, negb_true_iff, H1, <- H2. by rewrite not_true_iff_false.
Qed.

(** * The item that is emitted *)
Lemma expand_data_clean d : fst (expand_data d) = clean_data d.
Proof.
  destruct d as [[|l|l]|vs|l]; cbn [expand_data expand_struct clean_data clean_fields]; try done.
  - by rewrite (expand_fields_eq _ _ (length_indices l)).
  - by rewrite (expand_fields_eq (map sf_name l) l (map_length _ _)).
  - by rewrite expand_enum_eq.
Qed.
Lemma syntax_item it : fst (expand_syntax it) = clean it ∨
  ¬ good_root (si_attrs it) ∧ fst (expand_syntax it) = SItem (foreign (si_attrs it)) (si_data it).
Proof.
  rewrite expand_syntax_eq, <- parse_root_ok. destruct (parse_root _) as [|[root no_test]].
  - right. split; [by intros [??]|done].
  - left. cbn [fst]. by rewrite expand_data_clean.
Qed.

(** * The declaration that is implemented *)
Lemma find_name_some names x i : find_name names x = Some i → names !! i = Some x.
Proof.
  revert i. induction names as [|y names IH]; intros i; cbn [find_name]; [done|].
  destruct (String.eqb_spec x y) as [->|]; [by intros [= <-]|].
  intros (j & Hj & ->)%fmap_Some. cbn. by apply IH.
Qed.
Lemma find_name_in names x : is_Some (find_name names x) ↔ x ∈ names.
Proof.
  split.
  - intros [i Hi%find_name_some]. by eapply elem_of_list_lookup_2.
  - induction names as [|y names IH]; intros H; [by apply elem_of_nil in H|]. cbn [find_name].
    destruct (String.eqb_spec x y); [done|]. apply elem_of_cons in H as [?|H]; [done|].
    apply fmap_is_Some. auto.
Qed.
Lemma find_names_some names xs ids : find_names names xs = Some ids →
  (∀ i, i ∈ ids → i < length names) ∧
  (NoDup names → ∀ i x, names !! i = Some x → i ∈ ids ↔ x ∈ xs).
Proof.
  revert ids. induction xs as [|x xs IH]; intros ids; cbn [find_names].
  - intros [= <-]. split; [intros i Hi; by apply elem_of_nil in Hi|]. intros _ i x _. by rewrite !elem_of_nil.
  - intros (i & Hi & H)%bind_Some. apply bind_Some in H as (l & Hl & [= <-]).
    destruct (IH l Hl) as [H1 H2]. apply find_name_some in Hi. split.
    + intros j [->|Hj]%elem_of_cons; [by eapply lookup_lt_Some|auto].
    + intros Hnd j y Hj. rewrite !elem_of_cons, (H2 Hnd j y Hj). split; (intros [->|?]; [left|by right]).
      * rewrite Hi in Hj. by injection Hj.
      * by eapply NoDup_lookup.
Qed.
Lemma find_names_in names xs : is_Some (find_names names xs) ↔ ∀ x, x ∈ xs → x ∈ names.
Proof.
  induction xs as [|x xs IH]; cbn [find_names].
  - split; [|eauto]. intros _ x Hx. by apply elem_of_nil in Hx.
  - split.
    + intros [ids H]. apply bind_Some in H as (i & Hi & H). apply bind_Some in H as (l & Hl & _).
      intros y [->|Hy]%elem_of_cons; [apply find_name_in; eauto|]. by apply IH; [eauto|].
    + intros H. destruct (proj2 (find_name_in names x)) as [i ->]; [apply H; left|].
      destruct (proj2 IH) as [l ->]; [|eauto]. intros y Hy. apply H. by right.
Qed.
Lemma mark_set_in dbg names xs : length names ≤ 32 →
  is_Some (mark_set dbg names xs) ↔ xs ≠ [] ∧ ∀ x, x ∈ xs → x ∈ names.
Proof.
  intros Hn. rewrite <- find_names_in. unfold mark_set. destruct xs as [|x xs]; [split; [by intros [??]|by intros [??]]|].
  split.
  - intros [s Hs]. split; [done|]. by apply bind_Some in Hs as (ids & -> & _).
  - intros [_ [ids E]]. rewrite E. cbn.
    destruct (token_set_small dbg (length names) ids Hn) as (s & -> & _); [|eauto].
    by apply (find_names_some _ _ _ E).
Qed.
Lemma mark_set_holds dbg names xs s : NoDup names → length names ≤ 32 →
  mark_set dbg names xs = Some s → holds_names dbg names s xs.
Proof.
  intros Hnd Hn Hs id x Hx. unfold mark_set in Hs. destruct xs as [|x0 xs0]; [done|].
  set (xs := x0 :: xs0) in *. apply bind_Some in Hs as (ids & E & Hs).
  destruct (find_names_some _ _ _ E) as [H1 H2]. assert (Hlt := lookup_lt_Some _ _ _ Hx).
  destruct (set_algebra dbg (length names) (STokenSet ids)) as (s' & Hs' & H & _); [lia|done|done|].
  cbn [set_eval] in Hs'. simplify_eq. rewrite <- (H2 Hnd id x Hx). by apply H.
Qed.

Definition gen_members (g : gen) : list (ty * option (list string)) :=
  match g with
  | GStruct _ prods marks _ _ => map (λ p, (snd p, assoc (fst p) marks)) prods
  | GEnum _ arms => map (λ a, (snd (fst (fst a)), snd (fst a))) arms
  end.
Definition mk_decl (g : gen) (l : list field) : decl :=
  match g with GStruct _ _ _ _ _ => DStruct l | GEnum _ _ => DEnum l end.
Lemma mapM_map' {A B C} (f : A → B) (g : B → option C) l : mapM g (map f l) = mapM (λ x, g (f x)) l.
Proof. induction l as [|x l IH]; [done|]. cbn [map mapM]. by rewrite IH. Qed.
Lemma gen_decl_eq dbg names g : gen_decl dbg names g =
  mk_decl g <$> mapM (λ p, gen_field dbg names (fst p) (snd p)) (gen_members g).
Proof. destruct g; cbn [gen_decl gen_members]; by rewrite mapM_map'. Qed.

Definition fits (gm : ty * option (list string)) (m : ty * list (attr fmeta)) : Prop :=
  fst gm = fst m ∧ ∀ xs, snd gm = Some xs ↔ listed (snd m) xs.

Lemma fields_fit idents fs g : length idents = length fs → NoDup idents →
  snd (expand_fields idents fs) = inr g →
  Forall2 fits (gen_members g) (map (λ f, (sf_ty f, sf_attrs f)) fs).
Proof.
  intros Hl Hnd. rewrite (expand_fields_eq _ _ Hl). cbn [snd].
  destruct (head idents) as [x|]; [|done]. destruct (last idents) as [z|]; [|done].
  destruct (field_marks _) as [|ms] eqn:E; [done|]. intros [= <-]. cbn [gen_members].
  apply Forall2_same_length_lookup. rewrite !map_length, zip_with_length, map_length. split; [lia|].
  intros i a b Ha Hb. rewrite !list_lookup_fmap in Ha. rewrite list_lookup_fmap in Hb.
  apply fmap_Some in Ha as ([y t] & Ha & ->). apply fmap_Some in Hb as (f & Hf & ->).
  apply lookup_zip_with_Some in Ha as (y' & t' & [= <- <-] & Hy & Ht).
  rewrite list_lookup_fmap, Hf in Ht. injection Ht as <-. split; [done|]. cbn [fst snd].
  by eapply field_marks_val.
Qed.
Lemma arms_lookup i l ms j nt m : l !! j = Some nt → ms !! j = Some m →
  arms i l ms !! j = Some (i + j, snd nt, m, fst nt).
Proof.
  revert i l ms. induction j as [|j IH]; intros i [|[y t] l] [|m' ms]; cbn; try done.
  - intros [= <-] [= <-]. by rewrite Nat.add_0_r.
  - intros H1 H2. rewrite (IH _ _ _ H1 H2). do 4 f_equal. lia.
Qed.
Lemma arms_length i l ms : length l = length ms → length (arms i l ms) = length l.
Proof.
  revert i ms. induction l as [|[y t] l IH]; intros i [|m ms]; cbn; try done. intros [= H]. f_equal. by apply IH.
Qed.
Lemma variant_marks_val vs l : variant_marks (map (tele ∘ sv_attrs) vs) = inr l →
  Forall2 (λ v r, ∀ xs, r = Some xs ↔ listed (sv_attrs v) xs) vs l.
Proof.
  revert l. induction vs as [|v vs IH]; intros l; cbn [map variant_marks]; [by intros [= <-]|].
  change ((tele ∘ sv_attrs) v) with (tele (sv_attrs v)).
  destruct (parse_field (tele (sv_attrs v))) as [|sem] eqn:E; [done|].
  destruct (variant_marks _) as [|l'] eqn:E2; [done|]. intros [= <-].
  constructor; [by apply parse_field_val|by apply IH].
Qed.
Lemma variant_tys_val vs l : variant_tys vs = inr l →
  Forall2 (λ v nt, fst nt = sv_name v ∧ ∃ f, sv_fields v = FsUnnamed [f] ∧ snd nt = sf_ty f) vs l.
Proof.
  revert l. induction vs as [|v vs IH]; intros l; cbn [variant_tys]; [by intros [= <-]|].
  destruct (sv_disc v); [done|]. destruct (sv_fields v) as [|[|f [|f' fl]]|] eqn:Ef; try done.
  destruct (variant_tys vs) as [|l']; [done|]. intros [= <-]. constructor; [|by apply IH]. eauto.
Qed.
Lemma enum_members vs l : variant_tys vs = inr l →
  (members (SdEnum vs)).*1 = l.*2 ∧ (members (SdEnum vs)).*2 = map sv_attrs vs.
Proof.
  intros H%variant_tys_val. cbn [members].
  induction H as [|v [n t] vs l (Hn & f & Hf & Ht) H [IH1 IH2]]; [done|].
  cbn [mbind list_bind]. rewrite Hf. cbn in Ht |- *. subst t. split; f_equal; [exact IH1|exact IH2].
Qed.
Lemma enum_fit vs g : snd (expand_enum vs) = inr g → Forall2 fits (gen_members g) (members (SdEnum vs)).
Proof.
  rewrite expand_enum_eq. cbn [snd]. destruct (variant_tys vs) as [|nts] eqn:E; [done|].
  destruct nts as [|nt0 nts0] eqn:En; [done|]. rewrite <- En in *. clear En nt0 nts0.
  destruct (variant_marks _) as [|ms] eqn:E2; [done|]. intros [= <-]. cbn [gen_members].
  destruct (enum_members _ _ E) as [M1 M2]. apply variant_marks_val in E2.
  assert (Hl1 := variant_tys_length _ _ E). assert (Hl2 := Forall2_length _ _ _ E2).
  assert (Hlm : length (members (SdEnum vs)) = length vs).
  { rewrite <- (fmap_length fst), M1, fmap_length. done. }
  apply Forall2_same_length_lookup. rewrite map_length, arms_length by lia. split; [lia|].
  intros i a [t at'] Ha Hb. rewrite list_lookup_fmap in Ha. apply fmap_Some in Ha as (r & Hr & ->).
  assert (Hlt := lookup_lt_Some _ _ _ Hr). rewrite arms_length in Hlt by lia.
  destruct (lookup_lt_is_Some_2 nts i) as [nt Hnt]; [lia|].
  destruct (lookup_lt_is_Some_2 ms i) as [m Hm]; [lia|].
  destruct (lookup_lt_is_Some_2 vs i) as [v Hv]; [lia|].
  rewrite (arms_lookup _ _ _ _ _ _ Hnt Hm) in Hr. injection Hr as <-.
  assert (T1 : (members (SdEnum vs)).*1 !! i = Some t) by (by rewrite list_lookup_fmap, Hb).
  assert (T2 : (members (SdEnum vs)).*2 !! i = Some at') by (by rewrite list_lookup_fmap, Hb).
  rewrite M1, list_lookup_fmap, Hnt in T1. rewrite M2, list_lookup_fmap, Hv in T2.
  injection T1 as <-. injection T2 as <-. split; [done|]. cbn [snd fst].
  rewrite Forall2_lookup in E2. specialize (E2 i). rewrite Hv, Hm in E2. by inversion E2.
Qed.

Lemma indices_nodup {A} (l : list A) : NoDup (map (pretty : nat → string) (seq 0 (length l))).
Proof. apply (NoDup_fmap_2 (pretty : nat → string)). apply NoDup_seq. Qed.
Lemma data_fit d g : distinct_names d → snd (expand_data d) = inr g → Forall2 fits (gen_members g) (members d).
Proof.
  destruct d as [[|l|l]|vs|l]; cbn [expand_data expand_struct distinct_names]; try done; intros Hd H.
  - apply (fields_fit (map pretty (seq 0 (length l)))); [apply length_indices|apply indices_nodup|].
    by destruct (expand_fields _ _).
  - apply (fields_fit (map sf_name l)); [apply map_length|done|]. by destruct (expand_fields _ _).
  - apply enum_fit. by destruct (expand_enum vs).
Qed.
Lemma data_kind d g l : snd (expand_data d) = inr g → (is_struct_decl (mk_decl g l) ↔ is_struct_data d).
Proof.
  destruct d as [[|fs|fs]|vs|fs]; cbn [expand_data expand_struct]; try done.
  - rewrite (expand_fields_eq _ _ (length_indices fs)). cbn [snd].
    destruct (head _); [|done]. destruct (last _); [|done]. destruct (field_marks _); [done|]. by intros [= <-].
  - rewrite (expand_fields_eq (map sf_name fs) fs (map_length _ _)). cbn [snd].
    destruct (head _); [|done]. destruct (last _); [|done]. destruct (field_marks _); [done|]. by intros [= <-].
  - rewrite expand_enum_eq. cbn [snd]. destruct (variant_tys vs) as [|[|nt nts]]; [done|done|].
    destruct (variant_marks _); [done|]. by intros [= <-].
Qed.

Lemma expand_syntax_data it o : snd (expand_syntax it) = inr o → snd (expand_data (si_data it)) = inr (o_gen o).
Proof.
  rewrite expand_syntax_eq. destruct (parse_root _) as [|[root no_test]]; [done|]. cbn [snd].
  destruct (snd (expand_data _)) as [|g]; [done|]. by intros [= <-].
Qed.
Lemma syntax_decl dbg names it o d : snd (expand_syntax it) = inr o → distinct_names (si_data it) →
  NoDup names → length names ≤ 32 → gen_decl dbg names (o_gen o) = Some d →
  Forall2 (implements dbg names) (decl_fields d) (members (si_data it)) ∧
  decl_fields d ≠ [] ∧ (is_struct_decl d ↔ is_struct_data (si_data it)).
Proof.
  intros Ho Hd Hnd Hn. apply expand_syntax_data in Ho. rewrite gen_decl_eq.
  intros (l & Hl & ->)%fmap_Some. assert (E : decl_fields (mk_decl (o_gen o) l) = l) by (by destruct (o_gen o)).
  rewrite E. apply mapM_Some in Hl. assert (F := data_fit _ _ Hd Ho).
  assert (G : Forall2 (implements dbg names) l (members (si_data it))).
  { clear Ho E. revert l Hl. induction F as [|[t r] [t' at'] gs ms [Ht Hr] F IH]; intros l Hl.
    - inversion Hl. constructor.
    - apply Forall2_cons_inv_l in Hl as ([t'' r''] & l' & Hf & Hl & ->). constructor; [|by apply IH].
      cbn [fst snd] in *. unfold gen_field in Hf. destruct r as [xs|].
      + apply bind_Some in Hf as (s & Hs & [= <- <-]). split; [done|]. cbn. exists xs.
        split; [by apply Hr|by eapply mark_set_holds].
      + injection Hf as <- <-. split; [done|]. cbn. intros xs Hx. by apply Hr in Hx. }
  split; [done|]. split; [|by apply data_kind].
  intros ->. apply Forall2_length in G. cbn in G.
  assert (Hok := proj1 (expand_data_ok _) (ex_intro _ _ Ho)). clear -G Hok.
  destruct (si_data it) as [fs|vs|fs]; cbn in Hok; [| |done].
  - destruct Hok as [Hne _]. cbn in G. rewrite map_length in G. by destruct (struct_fields fs).
  - destruct Hok as [Hne H]. destruct vs as [|v vs]; [done|]. destruct (H v) as (_ & (f & Hf) & _); [left|].
    cbn in G. by rewrite Hf in G.
Qed.
Lemma syntax_compiles dbg names it o : snd (expand_syntax it) = inr o → distinct_names (si_data it) →
  length names ≤ 32 →
  is_Some (gen_decl dbg names (o_gen o)) ↔
  ∀ m xs, m ∈ members (si_data it) → listed (snd m) xs → xs ≠ [] ∧ ∀ x, x ∈ xs → x ∈ names.
Proof.
  intros Ho Hd Hn. apply expand_syntax_data in Ho. rewrite gen_decl_eq, fmap_is_Some, mapM_is_Some.
  assert (F := data_fit _ _ Hd Ho). clear Ho.
  induction F as [|[t r] [t' at'] gs ms [Ht Hr] F IH].
  - split; [intros _ m xs Hm; by apply elem_of_nil in Hm|constructor].
  - rewrite Forall_cons, IH. cbn [fst snd] in *. split.
    + intros [H1 H2] m xs [->|Hm]%elem_of_cons Hl; [|by eapply H2]. cbn in Hl. apply Hr in Hl as ->.
      apply (mark_set_in dbg names xs Hn). destruct H1 as [y H1]. apply bind_Some in H1 as (s & -> & _). eauto.
    + intros H. split; [|intros m xs Hm; apply H; by right]. unfold gen_field.
      destruct r as [xs|]; [|eauto]. destruct (proj2 (mark_set_in dbg names xs Hn)) as [s Es].
      { apply (H (t', at')); [left|]. by apply Hr. }
      exists (t, Some s). cbn. by rewrite Es.
Qed.

Lemma syntax_fitting it o : snd (expand_syntax it) = inr o → fitting (si_data it) (o_gen o).
Proof.
  intros H%expand_syntax_data. destruct o as [g root test]. cbn [o_gen] in *.
  assert (S : ∀ fs ids l, length ids = length l → struct_fields fs = l → idents fs = ids →
    snd (expand_fields ids l) = inr g → fitting (SdStruct fs) g).
  { intros fs ids l Hl <- Hi. rewrite (expand_fields_eq _ _ Hl). cbn [snd].
    destruct (head ids) as [x|] eqn:E1; [|done]. destruct (last ids) as [z|] eqn:E2; [|done].
    destruct (field_marks _) as [|ms] eqn:E; [done|]. intros [= <-]. cbn [fitting]. rewrite Hi.
    split_and!; [done|apply fst_zip; rewrite map_length; lia|apply snd_zip; rewrite map_length; lia|done|done]. }
  destruct (si_data it) as [[|l|l]|vs|l]; cbn [expand_data expand_struct] in H; try done.
  - apply (S _ (map pretty (seq 0 (length l))) l (length_indices l)); [done|done|]. by destruct (expand_fields _ _).
  - apply (S _ (map sf_name l) l (map_length _ _)); [done|done|]. by destruct (expand_fields _ _).
  - rewrite expand_enum_eq in H. cbn [snd] in H. destruct (variant_tys vs) as [|nts] eqn:E; [done|].
    destruct nts as [|nt0 nts0] eqn:En; [done|]. rewrite <- En in *. clear En nt0 nts0.
    destruct (variant_marks _) as [|ms] eqn:E2; [done|]. injection H as <-. cbn [fitting].
    apply variant_marks_val in E2. assert (Hl1 := variant_tys_length _ _ E). assert (Hl2 := Forall2_length _ _ _ E2).
    rewrite map_length, arms_length by lia. split_and!; [done|done|]. intros i v Hv.
    assert (Hlt := lookup_lt_Some _ _ _ Hv).
    destruct (lookup_lt_is_Some_2 nts i) as [nt Hnt]; [lia|].
    destruct (lookup_lt_is_Some_2 ms i) as [m Hm]; [lia|].
    apply variant_tys_val in E.
    destruct (Forall2_lookup_lr _ _ _ _ _ _ E Hv Hnt) as (E3 & f & Hf & Ht). exists f, m. split; [done|].
    rewrite list_lookup_fmap, Hnt, (arms_lookup _ _ _ _ _ _ Hnt Hm). cbn. by rewrite Ht, E3.
Qed.

(** * Entries that are not known *)
Lemma read_field_known ms s h h' r : read_field ms s h = inr r → read_field (known_entries ms) s h' = inr r.
Proof.
  revert s h h'. induction ms as [|m ms IH]; intros s h h'; [done|].
  destruct m as [ids|id| |]; cbn [read_field].
  - destruct s as [s|]; [done|]. destruct ids as [ids|]; [|done].
    change (known_entries (FmSemantic (Some ids) :: ms)) with (FmSemantic (Some ids) :: known_entries ms).
    cbn [read_field]. apply IH.
  - destruct h as [h|]; [done|]. destruct id as [id|]; [|done]. apply IH.
  - apply IH.
  - done.
Qed.
Lemma tele_known l : tele (known_attrs l) = map (fmap known_entries) (tele l).
Proof.
  induction l as [|[[ms|]|x] l IH]; [done| | |exact IH].
  - change (tele (known_attrs (ATele (Some ms) :: l))) with (Some (known_entries ms) :: tele (known_attrs l)).
    by rewrite IH.
  - change (tele (known_attrs (ATele None :: l))) with (None :: tele (known_attrs l)). by rewrite IH.
Qed.
Lemma parse_field_known l r : parse_field (tele l) = inr r → parse_field (tele (known_attrs l)) = inr r.
Proof.
  rewrite tele_known. destruct (tele l) as [|[ms|] [|y t]]; try done. apply read_field_known.
Qed.
Lemma field_marks_known ids fs ms : field_marks (zip ids (map (tele ∘ sf_attrs) fs)) = inr ms →
  field_marks (zip ids (map (tele ∘ sf_attrs) (map known_field fs))) = inr ms.
Proof.
  revert ids ms. induction fs as [|f fs IH]; intros [|x ids] ms; try done. cbn [map zip zip_with field_marks].
  change ((tele ∘ sf_attrs) f) with (tele (sf_attrs f)).
  change ((tele ∘ sf_attrs) (known_field f)) with (tele (known_attrs (sf_attrs f))).
  destruct (parse_field (tele (sf_attrs f))) as [|sem] eqn:E; [done|]. rewrite (parse_field_known _ _ E).
  destruct (field_marks _) as [|ms'] eqn:E2; [done|]. by rewrite (IH _ _ E2).
Qed.
Lemma expand_fields_known ids fs g : length ids = length fs → snd (expand_fields ids fs) = inr g →
  snd (expand_fields ids (map known_field fs)) = inr g.
Proof.
  intros Hl. rewrite (expand_fields_eq _ _ Hl), expand_fields_eq by (by rewrite map_length). cbn [snd].
  destruct (head ids); [|done]. destruct (last ids); [|done].
  destruct (field_marks _) as [|ms] eqn:E; [done|]. rewrite (field_marks_known _ _ _ E), !map_map. done.
Qed.
Lemma unknown_refuted : ∃ fs f ms it o, f ∈ fs ∧ Some ms ∈ tele (sf_attrs f) ∧ FmList ∈ ms ∧
  si_data it = SdStruct (FsNamed fs) ∧ snd (expand_syntax it) = inr o.
Proof.
  set (f := SField [ATele (Some [FmList])] "value" (TTok 0 1 None)).
  exists [f], f, [FmList], (SItem [] (SdStruct (FsNamed [f]))). eexists.
  split_and!; [left|left|left|done|reflexivity].
Qed.
Lemma syntax_known it o : snd (expand_syntax it) = inr o → snd (expand_syntax (known_item it)) = inr o.
Proof.
  rewrite !expand_syntax_eq. cbn [known_item si_attrs si_data].
  destruct (parse_root _) as [|[root no_test]]; [done|]. cbn [snd].
  assert (K : ∀ g, snd (expand_data (si_data it)) = inr g → snd (expand_data (known_data (si_data it))) = inr g).
  { intros g. destruct (si_data it) as [[|l|l]|vs|l]; cbn [expand_data expand_struct known_data]; try done.
    - intros H. assert (E := expand_fields_known (map pretty (seq 0 (length l))) l g (length_indices l)).
      rewrite map_length. destruct (expand_fields _ l), (expand_fields _ (map known_field l)). by apply E.
    - intros H. assert (E := expand_fields_known (map sf_name l) l g (map_length _ _)).
      rewrite map_map. change (λ x, sf_name (known_field x)) with sf_name.
      destruct (expand_fields _ l), (expand_fields _ (map known_field l)). by apply E.
    - rewrite !expand_enum_eq. cbn [snd].
      set (k := λ v, SVariant (known_attrs (sv_attrs v)) (sv_name v) (sv_disc v) (sv_fields v)).
      assert (E1 : ∀ vs, variant_tys (map k vs) = variant_tys vs).
      { clear. induction vs as [|v vs IH]; [done|]. cbn [map variant_tys]. by rewrite IH. }
      assert (E2 : ∀ vs ms, variant_marks (map (tele ∘ sv_attrs) vs) = inr ms →
        variant_marks (map (tele ∘ sv_attrs) (map k vs)) = inr ms).
      { clear. induction vs as [|v vs IH]; intros ms; [done|]. cbn [map variant_marks].
        change ((tele ∘ sv_attrs) v) with (tele (sv_attrs v)).
        change ((tele ∘ sv_attrs) (k v)) with (tele (known_attrs (sv_attrs v))).
        destruct (parse_field (tele (sv_attrs v))) as [|sem] eqn:E; [done|]. rewrite (parse_field_known _ _ E).
        destruct (variant_marks _) as [|ms'] eqn:E2; [done|]. by rewrite (IH _ eq_refl). }
      rewrite E1. destruct (variant_tys vs) as [|[|nt nts]]; [done|done|].
      destruct (variant_marks _) as [|ms] eqn:Em; [done|]. by rewrite (E2 _ _ Em). }
  destruct (snd (expand_data (si_data it))) as [|g]; [done|]. by rewrite (K g eq_refl).
Qed.

Lemma good_marks_known l : good_marks l → ¬ has_entry l FmOther.
Proof.
  intros (ms & He & Ho & _) (ms' & H1 & H2). destruct He as [[E _]|E]; rewrite E in H1.
  - by apply elem_of_nil in H1.
  - apply elem_of_list_singleton in H1. by injection H1 as ->.
Qed.
Lemma unknown_refused it o : snd (expand_syntax it) = inr o →
  ¬ has_entry (si_attrs it) RmOther ∧ ∀ m, m ∈ members (si_data it) → ¬ has_entry (snd m) FmOther.
Proof.
  intros H. destruct (proj1 (syntax_accepts it) (ex_intro _ _ H)) as [(ms & He & Ho & _) Hd]. split.
  - intros (ms' & H1 & H2). destruct He as [[E _]|E]; rewrite E in H1; [by apply elem_of_nil in H1|].
    apply elem_of_list_singleton in H1. by injection H1 as ->.
  - intros m Hm. apply good_marks_known. destruct (si_data it) as [fs|vs|l]; cbn in Hd, Hm; [| |done].
    + apply elem_of_list_fmap in Hm as (f & -> & Hf). by apply Hd.
    + apply elem_of_list_bind in Hm as (v & Hm & Hv). destruct (proj2 Hd v Hv) as (_ & (f & Ef) & Hg).
      rewrite Ef in Hm. apply elem_of_list_singleton in Hm as ->. done.
Qed.

(** * An example *)
Definition ex_names : list string := ["Op"; "Word"; "Comment"].
Definition ex_word : ty := TTok 0 1 None.
Definition ex_op : ty := TTok 1 0 (Some "="%string).
(** [#[doc] #[teleparse(root)] struct S { name: Word, #[teleparse(semantic(Comment, Op), hook(f))] op: Eq,
    value: Word }] *)
Definition ex_struct : sitem :=
  SItem [AOther "doc"; ATele (Some [RmRoot])]
    (SdStruct (FsNamed [SField [] "name" ex_word;
       SField [ATele (Some [FmSemantic (Some ["Comment"; "Op"]); FmHook (Some "f")]); AOther "doc"] "op" ex_op;
       SField [ATele (Some [FmList])] "value" ex_word])).
(** [#[teleparse(root, no_test)] enum E { #[teleparse(semantic(Word))] A(Word), B(Eq) }] *)
Definition ex_enum : sitem :=
  SItem [ATele (Some [RmRoot; RmNoTest])]
    (SdEnum [SVariant [ATele (Some [FmSemantic (Some ["Word"])])] "A" false (FsUnnamed [SField [] "" ex_word]);
             SVariant [] "B" false (FsUnnamed [SField [] "" ex_op])]).
(** [struct S(#[teleparse(semantic())] Word)] *)
Definition ex_empty_mark : sitem :=
  SItem [] (SdStruct (FsUnnamed [SField [ATele (Some [FmSemantic (Some [])])] "" ex_word])).
(** [#[teleparse(roots)] struct S(#[teleparse(semantic(Op))] Word)] *)
Definition ex_bad_root : sitem :=
  SItem [ATele (Some [RmOther])] (SdStruct (FsUnnamed [SField [ATele (Some [FmSemantic (Some ["Op"])])] "" ex_word])).
Definition ex_struct_gen : gen :=
  GStruct [ex_word; ex_op; ex_word] [("name", ex_word); ("op", ex_op); ("value", ex_word)]
    [("op", ["Comment"; "Op"])] "name" "value".
Definition ex_enum_gen : gen :=
  GEnum [ex_word; ex_op] [(0, ex_word, Some ["Word"], "A"); (1, ex_op, None, "B")].

Lemma derived_filled dbg names env t : derived dbg names env →
  all_within env (λ t, match t with TTuple l => l ≠ [] | _ => True end) t → filled env t.
Proof.
  intros (Hnd & Hn & H) Ht t' Hw. specialize (Ht t' Hw). destruct t'; try done.
  destruct (env !! n) as [d|] eqn:E; [|done]. destruct (H _ _ E) as (it & o & H1 & H2 & H3).
  by eapply syntax_decl.
Qed.
Lemma ex_derived : derived true ex_names [DEnum [(ex_word, Some 2%N); (ex_op, None)]] ∧
  all_within [DEnum [(ex_word, Some 2%N); (ex_op, None)]]
    (λ t, match t with TTuple l => l ≠ [] | _ => True end) (TTuple [TNamed 0; ex_op]).
Proof.
  split; [|within [TTuple [TNamed 0; ex_op]; TNamed 0; ex_op; ex_word]].
  split_and!; [apply (bool_decide_unpack _); by vm_compute|cbn; lia|].
  intros [|n] d; [|done]. intros [= <-]. exists ex_enum. eexists. split; [reflexivity|].
  split; [apply (bool_decide_unpack _); by vm_compute|by vm_compute].
Qed.
