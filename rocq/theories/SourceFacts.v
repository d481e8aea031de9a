(** Proofs about [SourceSpec]. *)
From Coq Require Import String NArith.
From stdpp Require Import prelude list strings relations.
From Verif Require Import LexModel LexSpec LexFacts StreamModel StreamSpec TypeModel ProduceModel MacroSpec SynMacroModel SynMacroSpec SynMacroFacts ParseSpec MarkSpec SemFacts CfgSpec TableModel ParseFacts CompleteSpec CompleteFacts ParseEx SourceSpec.
Local Open Scope nat_scope.

Lemma listed_unique it o m xs ys : snd (expand_syntax it) = inr o → distinct_names (si_data it) →
  m ∈ members (si_data it) → listed (snd m) xs → listed (snd m) ys → xs = ys.
Proof.
  intros Ho%expand_syntax_data Hd Hm. assert (F := data_fit _ _ Hd Ho). clear Ho.
  apply elem_of_list_lookup in Hm as [i Hm]. destruct (Forall2_lookup_r _ _ _ _ _ F Hm) as (gm & _ & _ & H).
  intros H1%H H2%H. congruence.
Qed.

(** What is known of one item. *)
Definition same_member (dbg : bool) (names : list string) (f : field) (m : ty * list (attr fmeta)) : Prop :=
  fst f = fst m ∧
  (∀ id y, names !! id = Some y →
    (∃ sem, snd f = Some sem ∧ N.testbit sem (N.of_nat id) = true) ↔ ∃ ys, listed (snd m) ys ∧ y ∈ ys) ∧
  ∀ y ys, listed (snd m) ys → y ∈ ys → y ∈ names.
Lemma item_decl dbg names it o d : NoDup names → length names ≤ 32 → distinct_names (si_data it) →
  snd (expand_syntax it) = inr o → gen_decl dbg names (o_gen o) = Some d →
  (is_struct_decl d ↔ is_struct_data (si_data it)) ∧
  Forall2 (same_member dbg names) (decl_fields d) (members (si_data it)).
Proof.
  intros Hnd Hn Hd Ho Hg. destruct (syntax_decl dbg names it o d Ho Hd Hnd Hn Hg) as (F & _ & K). split; [done|].
  assert (C := proj1 (syntax_compiles dbg names it o Ho Hd Hn) (ex_intro _ _ Hg)).
  apply Forall2_same_length_lookup. split; [by eapply Forall2_length|]. intros i f m Hf Hm.
  rewrite Forall2_lookup in F. specialize (F i). rewrite Hf, Hm in F. inversion F as [?? [E H]|]; subst.
  assert (Hin := elem_of_list_lookup_2 _ _ _ Hm). split; [done|]. split.
  - intros id y Hy. assert (Hlt := lookup_lt_Some _ _ _ Hy). destruct (snd f) as [s|].
    + destruct H as (xs & Hl & Hh). specialize (Hh id y Hy).
      rewrite (contains_small dbg _ s id Hn Hlt) in Hh. split.
      * intros (sem & [= <-] & Ht). exists xs. split; [done|]. rewrite Ht in Hh. by destruct Hh as [[_ ?]|[? _]].
      * intros (ys & Hl' & Hys). rewrite <- (listed_unique it o m xs ys Ho Hd Hin Hl Hl') in Hys.
        exists s. split; [done|]. destruct Hh as [[[=] _]|[_ ?]]; done.
    + split; [by intros (? & ? & _)|]. intros (ys & Hl & _). by destruct (H ys).
  - intros y ys Hl. by apply (C m ys Hin Hl).
Qed.

Section source.
  Variable (dbg : bool) (names : list string) (items : list sitem) (env : denv).
  Hypothesis W : written dbg names items env.

  Lemma written_env n d : env !! n = Some d → ∃ it, items !! n = Some it ∧
    (is_struct_decl d ↔ is_struct_data (si_data it)) ∧
    Forall2 (same_member dbg names) (decl_fields d) (members (si_data it)).
  Proof.
    destruct W as (Hnd & Hn & F). intros Hd. destruct (Forall2_lookup_r _ _ _ _ _ F Hd) as (it & Hi & Hdn & o & Ho & Hg).
    exists it. split; [done|]. by eapply item_decl.
  Qed.
  Lemma written_items n it : items !! n = Some it → ∃ d, env !! n = Some d ∧
    (is_struct_decl d ↔ is_struct_data (si_data it)) ∧
    Forall2 (same_member dbg names) (decl_fields d) (members (si_data it)).
  Proof.
    destruct W as (Hnd & Hn & F). intros Hi. destruct (Forall2_lookup_l _ _ _ _ _ F Hi) as (d & Hd & Hdn & o & Ho & Hg).
    exists d. split; [done|]. by eapply item_decl.
  Qed.
  Lemma written_derived : derived dbg names env.
  Proof.
    destruct W as (Hnd & Hn & F). split; [done|]. split; [done|]. intros n d Hd.
    destruct (Forall2_lookup_r _ _ _ _ _ F Hd) as (it & Hi & Hdn & o & Ho & Hg). by exists it, o.
  Qed.

  (** * Grammar *)
  Definition rules : denv := map rule items.
  Lemma same_tys l ms : Forall2 (same_member dbg names) l ms → map fst l = map fst (map (λ m, (fst m, None : option BinNums.N)) ms).
  Proof. induction 1 as [|f m l ms [H _] F IH]; [done|]. cbn. by rewrite H, IH. Qed.
  Lemma written_rules n d : env !! n = Some d → ∃ d', rules !! n = Some d' ∧
    (is_struct_decl d ↔ is_struct_decl d') ∧ map fst (decl_fields d) = map fst (decl_fields d').
  Proof.
    intros (it & Hi & K & F)%written_env. exists (rule it). unfold rules. rewrite list_lookup_fmap, Hi. split; [done|].
    apply same_tys in F. unfold rule. destruct (si_data it); cbn in *; done.
  Qed.
  Lemma rules_written n d : rules !! n = Some d → ∃ d', env !! n = Some d' ∧
    (is_struct_decl d' ↔ is_struct_decl d) ∧ map fst (decl_fields d') = map fst (decl_fields d).
  Proof.
    unfold rules. rewrite list_lookup_fmap. intros (it & Hi & ->)%fmap_Some.
    apply written_items in Hi as (d' & Hd' & K & F). exists d'. split; [done|].
    apply same_tys in F. unfold rule. destruct (si_data it); cbn in *; done.
  Qed.
End source.

(** Parse trees and language depend on the types of the components only. *)
Definition alike (e1 e2 : denv) : Prop := ∀ n d, e1 !! n = Some d → ∃ d', e2 !! n = Some d' ∧
  (is_struct_decl d ↔ is_struct_decl d') ∧ map fst (decl_fields d) = map fst (decl_fields d').
Lemma alike_struct e1 e2 n fs : alike e1 e2 → e1 !! n = Some (DStruct fs) →
  ∃ fs', e2 !! n = Some (DStruct fs') ∧ map fst fs = map fst fs'.
Proof. intros A H. destruct (A _ _ H) as ([fs'|fs'] & H1 & H2 & H3); [eauto|]. cbn in H2. tauto. Qed.
Lemma alike_enum e1 e2 n fs : alike e1 e2 → e1 !! n = Some (DEnum fs) →
  ∃ fs', e2 !! n = Some (DEnum fs') ∧ map fst fs = map fst fs'.
Proof. intros A H. destruct (A _ _ H) as ([fs'|fs'] & H1 & H2 & H3); [|eauto]. cbn in H2. tauto. Qed.
Lemma same_fst_lookup (l l' : list (ty * option BinNums.N)) i t o : map fst l = map fst l' → l !! i = Some (t, o) → ∃ o', l' !! i = Some (t, o').
Proof.
  intros E H. assert (H' : map fst l !! i = Some t) by (by rewrite list_lookup_fmap, H).
  rewrite E, list_lookup_fmap in H'. apply fmap_Some in H' as ([t' o'] & H' & ->). eauto.
Qed.

Lemma alike_parses e1 e2 src : alike e1 e2 → ∀ p t l x, parses e1 src p t l x → parses e2 src p t l x.
Proof.
  intros A. apply (parses_mut e1 src (λ p t l x _, parses e2 src p t l x) (λ p ts l xs _, pseq e2 src p ts l xs));
    intros; try (by econstructor; eauto).
  - destruct (alike_struct _ _ _ _ A e) as (fs' & H1 & H2). eapply p_struct; [exact H1|by rewrite <- H2].
  - destruct (alike_enum _ _ _ _ A e) as (fs' & H1 & H2). destruct (same_fst_lookup _ _ _ _ _ H2 e0) as [o' H3].
    by eapply p_enum.
Qed.
Lemma alike_lang e1 e2 : alike e1 e2 → ∀ t w, lang e1 t w → lang e2 t w.
Proof.
  intros A. apply (lang_mut e1 (λ t w _, lang e2 t w) (λ ts w _, langs e2 ts w));
    intros; try (by econstructor; eauto).
  - destruct (alike_struct _ _ _ _ A e) as (fs' & H1 & H2). eapply l_struct; [exact H1|by rewrite <- H2].
  - destruct (alike_enum _ _ _ _ A e) as (fs' & H1 & H2).
    apply elem_of_list_lookup in e0 as [i Hi]. destruct (same_fst_lookup _ _ _ _ _ H2 Hi) as [o' H3].
    eapply l_enum; [done|by eapply elem_of_list_lookup_2|done].
Qed.

Lemma source_lang dbg names items env t w : written dbg names items env →
  lang env t w ↔ lang (map rule items) t w.
Proof.
  intros W. split; apply alike_lang; intros n d Hd.
  - by eapply written_rules.
  - destruct (rules_written _ _ _ _ W n d Hd) as (d' & H1 & H2 & H3). exists d'. split; [done|]. by split.
Qed.
Lemma source_parses dbg names items env src p t l x : written dbg names items env →
  parses env src p t l x ↔ parses (map rule items) src p t l x.
Proof.
  intros W. split; apply alike_parses; intros n d Hd.
  - by eapply written_rules.
  - destruct (rules_written _ _ _ _ W n d Hd) as (d' & H1 & H2 & H3). exists d'. split; [done|]. by split.
Qed.

(** * Marks *)
Lemma part_named dbg names items env t x sp sem id y : written dbg names items env →
  part env t x sp sem → names !! id = Some y → N.testbit sem (N.of_nat id) = true → named_part items t x sp y.
Proof.
  intros W P Hy Hb.
  assert (L : ∀ n d i f, env !! n = Some d → decl_fields d !! i = Some f → ∃ it l, items !! n = Some it ∧
    (is_struct_decl d ↔ is_struct_data (si_data it)) ∧ members (si_data it) !! i = Some (fst f, l) ∧
    same_member dbg names f (fst f, l)).
  { intros n d i f Hd Hf. destruct (written_env _ _ _ _ W n d Hd) as (it & Hi & K & F).
    destruct (Forall2_lookup_l _ _ _ _ _ F Hf) as ([t' l] & Hm & S). assert (E := proj1 S). cbn in E. subst t'.
    by exists it, l. }
  induction P; try (by econstructor; eauto).
  - destruct (L n _ i _ H H0) as (it & l & Hi & K & Hm & S). destruct S as (_ & S & _).
    destruct (proj1 (S id y Hy)) as (ys & Hl & Hys); [by exists sem|].
    eapply n_field; [done|by apply K|done|exact Hl|done|done].
  - destruct (L n _ i _ H H0) as (it & l & Hi & K & Hm & S). eapply n_in_field; [done|by apply K|done|done|auto].
  - destruct (L n _ i _ H H0) as (it & l & Hi & K & Hm & S). destruct S as (_ & S & _).
    destruct (proj1 (S id y Hy)) as (ys & Hl & Hys); [by exists sem|].
    eapply n_variant; [done|by intros ?%K|done|exact Hl|done].
  - destruct (L n _ i _ H H0) as (it & l & Hi & K & Hm & S). eapply n_in_variant; [done|by intros ?%K|done|auto].
Qed.
Lemma named_part_part dbg names items env t x sp y : written dbg names items env →
  named_part items t x sp y → ∃ id sem, names !! id = Some y ∧ part env t x sp sem ∧ N.testbit sem (N.of_nat id) = true.
Proof.
  intros W P.
  assert (L : ∀ n it i m, items !! n = Some it → members (si_data it) !! i = Some m → ∃ d o, env !! n = Some d ∧
    (is_struct_decl d ↔ is_struct_data (si_data it)) ∧ decl_fields d !! i = Some (fst m, o) ∧
    same_member dbg names (fst m, o) m).
  { intros n it i m Hi Hm. destruct (written_items _ _ _ _ W n it Hi) as (d & Hd & K & F).
    destruct (Forall2_lookup_r _ _ _ _ _ F Hm) as ([t' o] & Hf & S). assert (E := proj1 S). cbn in E. subst t'.
    by exists d, o. }
  assert (NM : ∀ f m ys y, same_member dbg names f m → listed (snd m) ys → y ∈ ys →
    ∃ id sem, names !! id = Some y ∧ snd f = Some sem ∧ N.testbit sem (N.of_nat id) = true).
  { intros f m ys z (_ & S1 & S2) Hl Hz. destruct (proj1 (elem_of_list_lookup _ _) (S2 z ys Hl Hz)) as [id Hid].
    destruct (proj2 (S1 id z Hid)) as (sem & ? & ?); [by exists ys|]. by exists id, sem. }
  induction P; try (destruct IHP as (id & sem & ? & ? & ?); exists id, sem; split; [done|]; split; [by econstructor; eauto|done]).
  - destruct (L n it i _ H H1) as (d & o & Hd & K & Hf & S).
    destruct (NM _ _ _ _ S H2 H3) as (id & sem & Hid & Ho & Hb). cbn in Ho. subst o.
    destruct d as [fs|]; [|exfalso; by apply K]. exists id, sem. split; [done|]. split; [by eapply a_field|done].
  - destruct IHP as (id & sem & Hid & HP & Hb).
    destruct (L n it i _ H H1) as (d & o & Hd & K & Hf & S).
    destruct d as [fs|]; [|exfalso; by apply K]. exists id, sem. split; [done|]. split; [by eapply a_in_field|done].
  - destruct (L n it i _ H H1) as (d & o & Hd & K & Hf & S).
    destruct (NM _ _ _ _ S H2 H3) as (id & sem & Hid & Ho & Hb). cbn in Ho. subst o.
    destruct d as [fs|vs]; [exfalso; by apply H0, K|]. exists id, sem. split; [done|]. split; [by eapply a_variant|done].
  - destruct IHP as (id & sem & Hid & HP & Hb).
    destruct (L n it i _ H H1) as (d & o & Hd & K & Hf & S).
    destruct d as [fs|vs]; [exfalso; by apply H0, K|]. exists id, sem. split; [done|]. split; [by eapply a_in_variant|done].
Qed.

Lemma has_type_tagged dbg names c y : length names ≤ 32 →
  has_type dbg names c y ↔ ∃ id, names !! id = Some y ∧ tagged c (N.of_nat id).
Proof.
  intros Hn. unfold has_type, tagged. split; intros (id & Hid & H); exists id; (split; [done|]);
    assert (Hlt := lookup_lt_Some _ _ _ Hid).
  - rewrite contains_small in H by done. by injection H.
  - rewrite contains_small by done. by rewrite H.
Qed.
Lemma source_marks extract dbg names items env md f t s x s' i c y :
  written dbg names items env → state_ok s → filled env t → no_recover env t → open_marks env t →
  run extract (parse env f t (inr md)) s = ODone (inr (Some x)) s' → only_bad_text s s' → p_tokens s' !! i = Some c →
  has_type dbg names c y ↔ (∃ c0, p_tokens s !! i = Some c0 ∧ has_type dbg names c0 y) ∨
    ∃ sp, named_part items t x sp y ∧ is_inside sp c.
Proof.
  intros W Hs Hf Hr Ho Hrun Hb Hc. assert (Hn : length names ≤ 32) by apply W.
  assert (E := λ b, parse_exact extract env md f t s x s' i c b Hs Hf Hr Ho Hrun Hb Hc).
  rewrite has_type_tagged by done. split.
  - intros (id & Hid & [(c0 & H0 & H1)|(sp & sem & HP & Ht & Hin)]%E).
    + left. exists c0. split; [done|]. apply has_type_tagged; [done|]. eauto.
    + right. exists sp. split; [|done]. by eapply part_named.
  - intros [(c0 & H0 & (id & Hid & H1)%has_type_tagged)|(sp & HP & Hin)]; [|done|].
    + exists id. split; [done|]. apply E. left. eauto.
    + destruct (named_part_part _ _ _ _ _ _ _ _ W HP) as (id & sem & Hid & HP' & Ht).
      exists id. split; [done|]. apply E. right. eauto.
Qed.
(** With errors: the tokens inside the parts of the tree. *)
Lemma source_kept extract dbg names items env md f t s x s' c sp y :
  written dbg names items env → state_ok s →
  run extract (parse env f t (inr md)) s = ODone (inr (Some x)) s' → c ∈ p_tokens s' →
  named_part items t x sp y → is_inside sp c → has_type dbg names c y.
Proof.
  intros W Hs Hrun Hc HP Hin. assert (Hn : length names ≤ 32) by apply W.
  destruct (named_part_part _ _ _ _ _ _ _ _ W HP) as (id & sem & Hid & HP' & Ht).
  apply has_type_tagged; [done|]. exists id. split; [done|].
  exact (parse_kept extract env md f t s x s' sp sem c Hs Hrun HP' Hc Hin _ Ht).
Qed.

(** * The whole way *)
(** Tuples have components (Rust's have 2 to 5 here). *)
Lemma source_sound extract dbg names items env t md f s x s' :
  written dbg names items env → full_tuples env t → no_recover env t → state_ok s →
  run extract (parse env f t (inr md)) s = ODone (inr (Some x)) s' → only_bad_text s s' →
  ∃ l, took extract s l s' ∧ parses (map rule items) (p_src s) (end_of (p_tokens s)) t l x.
Proof.
  intros W Ht Hr Hs Hrun Hb. assert (Hf := derived_filled _ _ _ _ (written_derived _ _ _ _ W) Ht).
  destruct (parse_clean extract env t md f s x s' Hf Hr Hs Hrun Hb) as (l & H1 & H2). exists l. split; [done|].
  by apply (source_parses _ _ _ _ _ _ _ _ _ W).
Qed.
Lemma source_complete extract dbg names items env root md s :
  written dbg names items env → accepted env root md → regular env root → state_ok s →
  lang (map rule items) root (word (p_src s) (to_come extract s)) →
  ∃ f0 x s', parses (map rule items) (p_src s) (end_of (p_tokens s)) root (to_come extract s) x ∧
    took extract s (to_come extract s) s' ∧ only_bad_text s s' ∧
    ∀ f, f0 ≤ f → run extract (parse env f root (inr md)) s = ODone (inr (Some x)) s'.
Proof.
  intros W Ha Hr Hs Hl. apply (source_lang _ _ _ _ _ _ W) in Hl.
  destruct (parse_complete extract env root md Ha Hr s Hs Hl) as (f0 & x & s' & H1 & H2). exists f0, x, s'.
  split; [|done]. by apply (source_parses _ _ _ _ _ _ _ _ _ W).
Qed.
Lemma source_marks' extract dbg names items env md f t s x s' i c y :
  written dbg names items env → state_ok s → full_tuples env t → no_recover env t → open_marks env t →
  run extract (parse env f t (inr md)) s = ODone (inr (Some x)) s' → only_bad_text s s' → p_tokens s' !! i = Some c →
  has_type dbg names c y ↔ (∃ c0, p_tokens s !! i = Some c0 ∧ has_type dbg names c0 y) ∨
    ∃ sp, named_part items t x sp y ∧ is_inside sp c.
Proof.
  intros W Hs Hf. assert (Hf' := derived_filled _ _ _ _ (written_derived _ _ _ _ W) Hf). by eapply source_marks.
Qed.

(** The items of [ParseEx.ex_env]: [enum E { #[teleparse(semantic(Name))] Id(Ident), Par(P) }],
    [struct P("(", #[teleparse(semantic(List))] Punct<Box<E>, ",">, ")")]; the second with field names. *)
Definition ex_sem (xs : list string) : list (attr fmeta) := [ATele (Some [FmSemantic (Some xs)])].
Definition ex_items : list sitem :=
  [ SItem [ATele (Some [RmRoot])]
      (SdEnum [SVariant (ex_sem ["Name"%string]) "Id" false (FsUnnamed [SField [] "" tId]);
               SVariant [] "Par" false (FsUnnamed [SField [] "" exP])]);
    SItem [] (SdStruct (FsNamed [SField [] "open" tL; SField (ex_sem ["List"%string]) "list" (TPunct (TBox exE) tC);
                                 SField [] "close" tR])) ].
Definition ex_tys : list string := ["Name"; "List"]%string.
Lemma ex_written : written true ex_tys ex_items ex_env.
Proof.
  split; [apply (bool_decide_unpack _); by vm_compute|]. split; [cbn; lia|].
  repeat constructor; cbn [distinct_names ex_items si_data];
    try (apply (bool_decide_unpack _); by vm_compute); eexists; (split; [reflexivity|by vm_compute]).
Qed.
