(** Facts about equality and debug output of sets and tables. *)
From Coq Require Import String.
From stdpp Require Import prelude list gmap strings relations.
From Verif Require Import SynSetModel TableModel CfgSpec CfgFacts SynSetFacts FirstFacts JumpFacts StreamModel TypeModel TypeSpec TypeFacts ProduceModel ParseSpec MdFacts PartFacts PrintModel.
Local Open Scope nat_scope.

(** * Equality *)
Lemma lit_eqb_spec a b : lit_eqb a b = true ↔ a = b.
Proof. destruct a, b; cbn; rewrite ?bool_decide_eq_true; split; congruence. Qed.
Lemma lm_eqb_nil m : lm_eqb m [] = true ↔ ∀ ty, lm_get m ty = lit_new.
Proof.
  induction m as [|x m IH]; cbn; [split; [intros _ ty; done|done]|]. rewrite andb_true_iff, lit_eqb_spec, IH. split.
  - intros [-> H] [|ty]; [done|apply H].
  - intros H. split; [apply (H 0)|intros ty; apply (H (S ty))].
Qed.
Lemma lm_eqb_spec m o : lm_eqb m o = true ↔ ∀ ty, lm_get m ty = lm_get o ty.
Proof.
  revert o. induction m as [|x m IH]; intros o.
  - cbn [lm_eqb]. induction o as [|y o IHo]; [done|]. cbn [forallb]. rewrite andb_true_iff, lit_eqb_spec, IHo. split.
    + intros [<- H] [|ty]; [done|apply (H ty)].
    + intros H. split; [apply (H 0)|intros ty; apply (H (S ty))].
  - destruct o as [|y o]; [rewrite lm_eqb_nil; split; intros H ty; rewrite (H ty); done|].
    cbn [lm_eqb]. rewrite andb_true_iff, lit_eqb_spec, IH. split.
    + intros [-> H] [|ty]; [done|apply (H ty)].
    + intros H. split; [apply (H 0)|intros ty; apply (H (S ty))].
Qed.
Lemma ts_members s o : (∀ t, ts_contains s t = ts_contains o t) ↔ ts_e s = ts_e o ∧ ∀ ty, lm_get (ts_map s) ty = lm_get (ts_map o) ty.
Proof.
  split.
  - intros H. split; [apply (H None)|]. intros ty. apply lit_ext. intros x. apply (H (Some (ty, x))).
  - intros [H1 H2] [[ty x]|]; [|done]. unfold ts_contains. by rewrite H2.
Qed.
Lemma ts_eqb_spec s o : ts_eqb s o = true ↔ ∀ t, ts_contains s t = ts_contains o t.
Proof. unfold ts_eqb. rewrite ts_members, andb_true_iff, lm_eqb_spec, eqb_true_iff. tauto. Qed.

(** * Entries *)
Lemma lm_entries_in ty m e : e ∈ lm_entries ty m ↔
  ∃ k, match lm_get m k with LAny => e = EnAll (ty + k) | LMatch s => ∃ x, x ∈ s ∧ e = EnLit (ty + k) x end.
Proof.
  revert ty. induction m as [|l m IH]; intros ty; cbn [lm_entries].
  - split; [intros H; by apply elem_of_nil in H|]. intros (k & H). cbn in H. destruct H as (x & Hx & _). set_solver.
  - rewrite elem_of_app, IH. split.
    + intros [H|(k & H)].
      * exists 0. cbn. rewrite Nat.add_0_r. destruct l as [s|]; cbn in H; [|by apply elem_of_list_singleton in H].
        apply elem_of_list_In, in_map_iff in H as (x & <- & Hx). exists x. split; [by apply elem_of_elements, elem_of_list_In|done].
      * exists (S k). cbn. by rewrite Nat.add_succ_r.
    + intros ([|k] & H); cbn in H.
      * left. rewrite Nat.add_0_r in H. destruct l as [s|]; cbn; [|subst; set_solver].
        destruct H as (x & Hx & ->). apply elem_of_list_In, in_map, elem_of_list_In, elem_of_elements. done.
      * right. exists k. by rewrite Nat.add_succ_r in H.
Qed.
Lemma lm_entries_nodup ty m : NoDup (lm_entries ty m).
Proof.
  revert ty. induction m as [|l m IH]; intros ty; cbn [lm_entries]; [constructor|]. apply NoDup_app. split_and!; [| |apply IH].
  - destruct l as [s|]; cbn; [|apply NoDup_singleton]. apply NoDup_fmap; [intros x y; by intros [= ->]|apply NoDup_elements].
  - intros e He Hin. apply lm_entries_in in Hin as (k & Hk).
    assert (Hty : ∃ x, e = EnAll ty ∨ e = EnLit ty x).
    { destruct l as [s|]; cbn in He; [|exists EmptyString; left; by apply elem_of_list_singleton].
      apply elem_of_list_In, in_map_iff in He as (x & <- & _). eauto. }
    destruct Hty as (x & [->| ->]); destruct (lm_get m k); [destruct Hk as (? & _ & [=])|injection Hk as Hk; lia|destruct Hk as (? & _ & [= Hk _]); lia|done].
Qed.
Lemma any_or_finite l : (∀ x, lit_contains l x = true) ↔ l = LAny.
Proof.
  split; [|by intros ->]. intros H. apply lit_ext. intros x. rewrite H. done.
Qed.
Lemma entries_empty s : EnEmpty ∈ ts_entries s ↔ ts_contains s None = true.
Proof.
  unfold ts_entries. rewrite elem_of_app. cbn. split.
  - intros [H|H]; [by destruct (ts_e s); [|apply elem_of_nil in H]|]. apply lm_entries_in in H as (k & H). destruct (lm_get (ts_map s) k); [by destruct H as (? & _ & ?)|done].
  - intros ->. left. set_solver.
Qed.
Lemma not_eps_entry s e : e ≠ EnEmpty → e ∈ ts_entries s ↔ e ∈ lm_entries 0 (ts_map s).
Proof. intros He. unfold ts_entries. rewrite elem_of_app. destruct (ts_e s); set_solver. Qed.
Lemma entries_all s ty : EnAll ty ∈ ts_entries s ↔ ∀ x, ts_contains s (Some (ty, x)) = true.
Proof.
  rewrite not_eps_entry by done. rewrite lm_entries_in. unfold ts_contains. rewrite any_or_finite. split.
  - intros (k & H). destruct (lm_get (ts_map s) k) eqn:E; [by destruct H as (? & _ & ?)|]. injection H as ->. done.
  - intros E. exists ty. by rewrite E.
Qed.
Lemma entries_lit s ty x : EnLit ty x ∈ ts_entries s ↔ ts_contains s (Some (ty, x)) = true ∧ ∃ y, ts_contains s (Some (ty, y)) = false.
Proof.
  rewrite not_eps_entry by done. rewrite lm_entries_in. unfold ts_contains. split.
  - intros (k & H). destruct (lm_get (ts_map s) k) as [u|] eqn:E; [|done]. destruct H as (z & Hz & H). injection H as -> ->. cbn in *. rewrite E.
    cbn. split; [by apply bool_decide_eq_true|]. destruct (not_all u) as [y Hy]. exists y. by apply bool_decide_eq_false.
  - intros [H1 (y & H2)]. exists ty. destruct (lm_get (ts_map s) ty) as [u|] eqn:E; [|done]. cbn in H1. exists x. split; [by apply bool_decide_eq_true in H1|done].
Qed.
Lemma entries_nodup s : NoDup (ts_entries s).
Proof.
  unfold ts_entries. apply NoDup_app. split_and!; [destruct (ts_e s); [apply NoDup_singleton|constructor]| |apply lm_entries_nodup].
  intros e He H. assert (e = EnEmpty) as -> by (destruct (ts_e s); set_solver). apply lm_entries_in in H as (k & H).
  destruct (lm_get (ts_map s) k); [by destruct H as (? & _ & ?)|done].
Qed.
Lemma lm_entries_same ty m o : (∀ k, lm_get m k = lm_get o k) → lm_entries ty m = lm_entries ty o.
Proof.
  assert (Hnil : ∀ ty m, (∀ k, lm_get m k = lit_new) → lm_entries ty m = []).
  { intros ty' m'. revert ty'. induction m' as [|l m' IH]; intros ty' H; [done|]. cbn [lm_entries]. rewrite IH by (intros k; apply (H (S k))).
    assert (l = lit_new) as -> by apply (H 0). cbn. by rewrite elements_empty. }
  revert ty o. induction m as [|l m IH]; intros ty o H.
  - symmetry. apply Hnil. intros k. by rewrite <- H.
  - destruct o as [|l' o]; [apply Hnil; intros k; by rewrite H|]. cbn [lm_entries]. assert (l = l') as -> by apply (H 0). f_equal. apply IH. intros k. apply (H (S k)).
Qed.
Lemma entries_same s o : ts_entries s = ts_entries o ↔ ∀ t, ts_contains s t = ts_contains o t.
Proof.
  split.
  - intros H. assert (He : ∀ e, e ∈ ts_entries s ↔ e ∈ ts_entries o) by (intros; by rewrite H).
    assert (Hcases : ∀ u ty x, ts_contains u (Some (ty, x)) = true ↔ EnAll ty ∈ ts_entries u ∨ EnLit ty x ∈ ts_entries u).
    { intros u ty x. rewrite entries_all, entries_lit. split; [|intros [?|[? _]]; done]. intros Hx.
      unfold ts_contains in *. destruct (lm_get (ts_map u) ty) as [w|]; [|by left]. right. split; [done|]. destruct (not_all w) as [y Hy]. exists y. by apply bool_decide_eq_false. }
    intros [[ty x]|].
    + eapply bool_same; [apply Hcases|apply Hcases|]. by rewrite !He.
    + eapply bool_same; [symmetry; apply entries_empty|symmetry; apply entries_empty|]. apply He.
  - intros [H1 H2]%ts_members. unfold ts_entries. rewrite H1. f_equal. by apply lm_entries_same.
Qed.

Lemma entries_spec s : NoDup (ts_entries s) ∧ (EnEmpty ∈ ts_entries s ↔ ts_contains s None = true) ∧
  (∀ ty, EnAll ty ∈ ts_entries s ↔ ∀ x, ts_contains s (Some (ty, x)) = true) ∧
  ∀ ty x, EnLit ty x ∈ ts_entries s ↔ ts_contains s (Some (ty, x)) = true ∧ ∃ y, ts_contains s (Some (ty, y)) = false.
Proof. split; [apply entries_nodup|]. split; [apply entries_empty|]. split; [apply entries_all|apply entries_lit]. Qed.

(** * The printed jump table *)
Definition rhas (r : list (nat * tset)) (i : nat) (t : option tok) : Prop := ts_contains (tb_get r i) t = true.
(** Only targets with members are listed, and sets have no empty types at their end. *)
Definition rok (r : list (nat * tset)) : Prop := all_trim r ∧ ∀ i, is_Some (bt_get r i) → ∃ t, rhas r i t.
Lemma jr_entry_get r i f i' : tb_get (jr_entry r i f) i' = if decide (i' = i) then f (tb_get r i) else tb_get r i'.
Proof. unfold jr_entry. rewrite tb_get_insert. done. Qed.
Lemma jr_entry_has r i ty lit i' t : rhas (jr_entry r i (λ s, (ts_insert s ty lit).1)) i' t ↔
  rhas r i' t ∨ i' = i ∧ ∃ x, t = Some (ty, x) ∧ (lit = None ∨ lit = Some x).
Proof.
  unfold rhas. rewrite jr_entry_get. case_decide as H; [|naive_solver]. subst i'. rewrite ts_contains_insert. destruct t as [[ty' x]|]; [|naive_solver].
  rewrite orb_true_iff, bool_decide_eq_true. naive_solver.
Qed.
Lemma jr_entry_ok r i ty lit : rok r → rok (jr_entry r i (λ s, (ts_insert s ty lit).1)).
Proof.
  intros [H1 H2]. split.
  - unfold jr_entry. apply tb_insert_trim; [done|]. apply ts_insert_trims. apply (H1 i).
  - intros i'. unfold jr_entry. rewrite bt_get_insert. case_decide as E.
    + intros _. subst i'. exists (Some (ty, default EmptyString lit)). apply jr_entry_has. right. split; [done|]. eexists. split; [done|]. destruct lit; [by right|by left].
    + intros [t Ht]%H2. exists t. apply jr_entry_has. by left.
Qed.
Lemma jr_lits_has ty (l : list (string * nat)) r i t :
  rhas (foldl (λ r xi, jr_entry r (snd xi) (λ s, fst (ts_insert s ty (Some (fst xi))))) r l) i t ↔ rhas r i t ∨ ∃ x, t = Some (ty, x) ∧ (x, i) ∈ l.
Proof.
  revert r. induction l as [|[x j] l IH]; intros r; cbn [foldl]; [set_solver|]. rewrite IH, jr_entry_has. cbn [fst snd]. setoid_rewrite elem_of_cons. naive_solver.
Qed.
Lemma jr_lits_ok ty (l : list (string * nat)) r : rok r → rok (foldl (λ r xi, jr_entry r (snd xi) (λ s, fst (ts_insert s ty (Some (fst xi))))) r l).
Proof. revert r. induction l as [|[x j] l IH]; intros r H; [done|]. cbn [foldl]. by apply IH, jr_entry_ok. Qed.
Definition ehas (e : option nat * gmap string nat) (i : nat) (x : string) : Prop := e.1 = Some i ∨ e.2 !! x = Some i.
Lemma jr_type_has ty e r i t : rhas (jr_type ty e r) i t ↔ rhas r i t ∨ ∃ x, t = Some (ty, x) ∧ ehas e i x.
Proof.
  unfold jr_type, ehas. rewrite jr_lits_has. setoid_rewrite elem_of_map_to_list. destruct e as [[j|] l]; cbn [fst snd]; [rewrite jr_entry_has|]; naive_solver.
Qed.
Lemma jr_type_ok ty e r : rok r → rok (jr_type ty e r).
Proof. intros H. unfold jr_type. apply jr_lits_ok. destruct e.1; [by apply jr_entry_ok|done]. Qed.
Lemma jr_types_has ty m r i t : rhas (jr_types ty m r) i t ↔ rhas r i t ∨ ∃ k x, t = Some (ty + k, x) ∧ ehas (jm_get m k) i x.
Proof.
  revert ty r. induction m as [|e m IH]; intros ty r; cbn [jr_types].
  - split; [by left|]. intros [H|(k & x & _ & H)]; [done|]. unfold ehas in H. change (jm_get [] k) with je_new in H. unfold je_new in H. cbn [fst snd] in H. rewrite lookup_empty in H. by destruct H.
  - rewrite IH, jr_type_has. split.
    + intros [[H|(x & -> & H)]|(k & x & -> & H)]; [by left|right..].
      * exists 0, x. rewrite Nat.add_0_r. done.
      * exists (S k), x. rewrite Nat.add_succ_r. done.
    + intros [H|([|k] & x & -> & H)]; [by left; left|left; right|right].
      * exists x. rewrite Nat.add_0_r. done.
      * exists k, x. rewrite Nat.add_succ_r. done.
Qed.
Lemma jr_types_ok ty m r : rok r → rok (jr_types ty m r).
Proof. revert ty r. induction m as [|e m IH]; intros ty r H; cbn [jr_types]; [done|]. by apply IH, jr_type_ok. Qed.
Lemma reverse_ok j : rok (jt_reverse j).
Proof.
  unfold jt_reverse. apply jr_types_ok. destruct (jt_eps j) as [i|]; [|split; [done|intros i [? [=]]]]. split.
  - unfold jr_entry. by apply tb_insert_trim.
  - intros i'. unfold jr_entry. rewrite bt_get_insert. case_decide as E; [|by intros [? [=]]]. intros _. subst i'. exists None. unfold rhas. rewrite tb_get_insert. by rewrite decide_True.
Qed.
Lemma reverse_has j i t : rhas (jt_reverse j) i t ↔
  match t with None => jt_eps j = Some i | Some t => ehas (jm_get (jt_map j) t.1) i t.2 end.
Proof.
  unfold jt_reverse. rewrite jr_types_has.
  assert (H0 : rhas (match jt_eps j with Some i => jr_entry [] i (λ s, fst (ts_insert_e s)) | None => [] end) i t ↔ t = None ∧ jt_eps j = Some i).
  { unfold rhas. assert (Hn : ∀ k, ts_contains (tb_get (K:=nat) [] k) t = false).
    { intros k. destruct t as [[ty x]|]; [|done]. unfold ts_contains. cbn. by apply bool_decide_eq_false. }
    destruct (jt_eps j) as [k|]; [|rewrite Hn; naive_solver]. rewrite jr_entry_get. case_decide as E.
    - subst k. rewrite ts_contains_insert_e, Hn, orb_false_r, bool_decide_eq_true. naive_solver.
    - rewrite Hn. naive_solver. }
  rewrite H0. destruct t as [[ty x]|]; cbn [fst snd]; [|naive_solver]. split.
  - intros [[[=] _]|(k & y & [= -> ->] & H)]. done.
  - intros H. right. by exists ty, x.
Qed.
(** A table that gives to every token of a type without own entry the target of the type. *)
Lemma reverse_look_up j i t : (∀ ty v x w, (jm_get (jt_map j) ty).1 = Some v → (jm_get (jt_map j) ty).2 !! x = Some w → w = v) →
  rhas (jt_reverse j) i t ↔ jt_look_up j t = Some i.
Proof.
  intros Hj. rewrite reverse_has. destruct t as [[ty x]|]; [|done]. unfold jt_look_up, jt_look_up_token, ehas. cbn [fst snd].
  specialize (Hj ty). destruct (jm_get (jt_map j) ty) as [[v|] l]; cbn [fst snd] in *.
  - destruct (l !! x) as [w|] eqn:E; [|naive_solver]. rewrite (Hj v x w eq_refl E). naive_solver.
  - destruct (l !! x); naive_solver.
Qed.

Lemma jump_print env root md n vs j : accepted env root md → within env root (TNamed n) → env !! n = Some (DEnum vs) →
  bt_get (md_jump md) (PNamed n) = Some j →
  (∀ i, tb_get (jt_reverse j) i = match vs !! i with Some (t, _) => tb_get (md_first md) (key t) | None => ts_new end) ∧
  ∀ i, is_Some (bt_get (jt_reverse j) i) → ∃ t sem x, vs !! i = Some (t, sem) ∧ ts_contains (tb_get (md_first md) (key t)) x = true.
Proof.
  intros (regs & iter & Hr & Hp & Hm) Hw En Ej.
  assert (Hv : visible env (key root) (key (TNamed n))) by (by apply (V_within env root regs iter md Hr Hp Hm)).
  assert (HJ : ∀ x i, jt_look_up j x = Some i ↔ ∃ t sem, vs !! i = Some (t, sem) ∧ ts_contains (tb_get (md_first md) (key t)) x = true).
  { intros x i. assert (H := jump_spec env root regs iter md Hr Hp Hm n vs x i Hv En). unfold jump_look_up in H. rewrite Ej in H. rewrite H.
    split; intros (t & sem & E & Ht); exists t, sem; (split; [done|]); destruct x as [x|].
    - by apply (first_spec env root regs iter md Hr Hp Hm). - by apply (first_eps env root regs iter md Hr Hp Hm).
    - by apply (first_spec env root regs iter md Hr Hp Hm). - by apply (first_eps env root regs iter md Hr Hp Hm). }
  assert (Hone : ∀ ty v x w, (jm_get (jt_map j) ty).1 = Some v → (jm_get (jt_map j) ty).2 !! x = Some w → w = v).
  { intros ty v x w H1 H2.
    assert (Hx : jt_look_up j (Some (ty, x)) = Some w) by (unfold jt_look_up, jt_look_up_token; cbn [fst snd]; by rewrite H2).
    assert (Hfr : ∀ y, (jm_get (jt_map j) ty).2 !! y = None → jt_look_up j (Some (ty, y)) = Some v).
    { intros y Hy. unfold jt_look_up, jt_look_up_token. cbn [fst snd]. by rewrite Hy. }
    assert (Hvs : ∃ t sem, vs !! v = Some (t, sem)).
    { destruct (not_all (dom (jm_get (jt_map j) ty).2)) as [y Hy]. apply not_elem_of_dom in Hy. apply Hfr, HJ in Hy as (t & sem & ? & _). eauto. }
    destruct Hvs as (t & sem & Ev).
    assert (lm_get (ts_map (tb_get (md_first md) (key t))) ty = LAny) as Hany.
    { destruct (lm_get (ts_map (tb_get (md_first md) (key t))) ty) as [u|] eqn:E; [|done]. exfalso.
      destruct (not_all (dom (jm_get (jt_map j) ty).2 ∪ u)) as [y Hy]. apply not_elem_of_union in Hy as [Hy1 Hy2]. apply not_elem_of_dom in Hy1.
      apply Hfr, HJ in Hy1 as (t' & sem' & E' & Hc). rewrite E' in Ev. injection Ev as -> ->. unfold ts_contains in Hc. rewrite E in Hc. cbn in Hc.
      by apply bool_decide_eq_true in Hc. }
    assert (jt_look_up j (Some (ty, x)) = Some v) as Hx2.
    { apply HJ. exists t, sem. split; [done|]. unfold ts_contains. by rewrite Hany. }
    congruence. }
  assert (Hhas := λ i t, reverse_look_up j i t Hone). destruct (reverse_ok j) as [Htr Hli].
  split.
  - intros i. destruct (vs !! i) as [[t sem]|] eqn:Ei.
    + apply ts_ext; [apply Htr|apply (md_trim _ _ _ _ Hm)|]. intros x. eapply bool_same; [apply (Hhas i x)|reflexivity|]. rewrite HJ. naive_solver.
    + apply ts_ext; [apply Htr|done|]. intros x. eapply bool_same; [apply (Hhas i x)|reflexivity|]. rewrite HJ. split; [naive_solver|].
      destruct x as [[ty x]|]; [|done]. unfold ts_contains. cbn. by intros [=]%bool_decide_eq_true.
  - intros i Hi. destruct (Hli i Hi) as [x Hx]. apply Hhas, HJ in Hx as (t & sem & H1 & H2). by exists t, sem, x.
Qed.
