(** A part is parsed the same in every grammar. *)
From Coq Require Import String NArith.
From stdpp Require Import prelude list gmap strings relations.
From Verif Require Import LexModel SynSetModel TableModel CfgSpec CfgFacts SynSetFacts FirstFacts FollowFacts MetaFacts StreamModel StreamFacts TypeModel TypeSpec TypeFacts
  ProduceModel ParseSpec ProgFacts FuelFacts MdFacts PartSpec.
Local Open Scope nat_scope.
#[local] Arguments ts_contains : simpl never.
#[local] Arguments ts_contains_e : simpl never.

(** * Sets with the same members are equal *)
Definition trim (m : list litset) : Prop := last m ≠ Some lit_new.
Lemma trim_nil : trim [].
Proof. done. Qed.
Lemma last_cons_some {A} (x : A) l y : last l = Some y → last (x :: l) = Some y.
Proof. by destruct l. Qed.
Lemma last_some {A} (l : list A) : l ≠ [] → ∃ y, last l = Some y.
Proof. intros H. destruct (last l) eqn:E; [eauto|]. by apply last_None in E. Qed.
Lemma trim_cons x m : trim (x :: m) → m ≠ [] → trim m.
Proof. intros H Hm. destruct (last_some m Hm) as [y E]. unfold trim in *. rewrite (last_cons_some x m y E) in H. by rewrite E. Qed.
Lemma trim_cons_2 x m : (m = [] → x ≠ lit_new) → trim m → trim (x :: m).
Proof.
  intros H Hm. destruct m as [|z m]; [unfold trim; cbn; intros [= ->]; by apply H|].
  unfold trim in *. destruct (last_some (z :: m)) as [y E]; [done|]. rewrite (last_cons_some x _ y E), <- E. done.
Qed.
Lemma lm_set_trim m ty v : v ≠ lit_new → trim m → trim (lm_set m ty v).
Proof.
  intros Hv. revert m. induction ty as [|ty IH]; intros [|x m] Hm; cbn [lm_set].
  - by apply trim_cons_2.
  - apply trim_cons_2; [done|]. destruct m; [done|]. by eapply trim_cons.
  - apply trim_cons_2; [|by apply IH]. by destruct ty.
  - apply trim_cons_2; [by destruct ty, m|]. apply IH. destruct m; [done|]. by eapply trim_cons.
Qed.
Lemma lit_union_new x y : (lit_union x y).1 = lit_new → x = lit_new ∧ y = lit_new.
Proof.
  destruct x as [s|], y as [t|]; cbn; intros H; try done. injection H as H. apply empty_union_L in H as [-> ->]. done.
Qed.
Lemma lm_union_cons x y m o : (lm_union (x :: m) (y :: o)).1 = (lit_union x y).1 :: (lm_union m o).1.
Proof. cbn. destruct (lit_union x y), (lm_union m o). done. Qed.
Lemma lm_union_nil y o : (lm_union [] (y :: o)).1 = (lit_union lit_new y).1 :: (lm_union [] o).1.
Proof. cbn. destruct y; destruct (lm_union [] o); done. Qed.
Lemma lm_union_trim m o : trim m → trim o → trim (lm_union m o).1.
Proof.
  revert m. induction o as [|y o IH]; intros m Hm Ho; [by destruct m|]. destruct m as [|x m].
  - rewrite lm_union_nil. apply trim_cons_2.
    + intros E [_ ->]%lit_union_new. destruct o as [|z o]; [by apply Ho|]. by rewrite lm_union_nil in E.
    + destruct o; [done|]. apply IH; [done|]. by eapply trim_cons.
  - rewrite lm_union_cons. apply trim_cons_2.
    + intros E [-> ->]%lit_union_new. destruct o as [|z o]; [|by destruct m; [rewrite lm_union_nil in E|rewrite lm_union_cons in E]].
      by apply Ho.
    + destruct m as [|z m]; destruct o as [|w o]; [done|apply IH; [done|by eapply trim_cons]|cbn; by eapply trim_cons|].
      apply IH; by eapply trim_cons.
Qed.
Definition trims (s : tset) : Prop := trim (ts_map s).
Lemma ts_insert_trims s ty lit : trims s → trims (ts_insert s ty lit).1.
Proof.
  intros H. unfold ts_insert. destruct lit as [x|].
  - destruct (lm_get (ts_map s) ty) as [l|]; cbn; apply lm_set_trim; try done. intros [= E]. set_solver.
  - destruct (lm_get (ts_map s) ty) as [l|]; cbn; by apply lm_set_trim.
Qed.
Lemma ts_union_trims s o b : trims s → trims o → trims (ts_union s o b).1.
Proof.
  intros H1 H2. assert (H := lm_union_trim _ _ H1 H2). unfold ts_union, trims. by destruct (lm_union (ts_map s) (ts_map o)).
Qed.

(** A text that is not in a finite set. *)
Fixpoint long_text (n : nat) : string := match n with O => EmptyString | S n => String Ascii.zero (long_text n) end.
Lemma long_text_length n : String.length (long_text n) = n.
Proof. induction n; cbn; congruence. Qed.
Lemma not_all (s : gset string) : ∃ x, x ∉ s.
Proof.
  exists (long_text (S (foldr (λ x n, String.length x + n) 0 (elements s)))). rewrite <- elem_of_elements. intros H.
  assert (Hle : ∀ (l : list string) x, x ∈ l → String.length x ≤ foldr (λ x n, String.length x + n) 0 l).
  { induction l as [|a l IH]; intros x Hx; [by apply elem_of_nil in Hx|]. apply elem_of_cons in Hx as [->|Hx]; cbn; [lia|]. apply IH in Hx. lia. }
  apply Hle in H. rewrite long_text_length in H. lia.
Qed.
Lemma lit_ext a b : (∀ x, lit_contains a x = lit_contains b x) → a = b.
Proof.
  intros H. destruct a as [s|], b as [t|]; [| | |done].
  - f_equal. apply set_eq. intros x. specialize (H x). cbn in H. by apply bool_decide_eq_decide in H || rewrite !bool_decide_spec in H || (rewrite <- (bool_decide_spec (x ∈ s)), <- (bool_decide_spec (x ∈ t)), H).
  - destruct (not_all s) as [x Hx]. specialize (H x). cbn in H. by apply bool_decide_eq_true in H.
  - destruct (not_all t) as [x Hx]. specialize (H x). cbn in H. symmetry in H. by apply bool_decide_eq_true in H.
Qed.
Lemma lm_ext m m' : trim m → trim m' → (∀ ty x, lit_contains (lm_get m ty) x = lit_contains (lm_get m' ty) x) → m = m'.
Proof.
  assert (Hnil : ∀ m, trim m → (∀ ty x, lit_contains (lm_get m ty) x = false) → m = []).
  { induction m0 as [|a m0 IH]; intros Hm H; [done|]. exfalso. assert (a = lit_new) as ->.
    { apply lit_ext. intros x. transitivity false; [apply (H 0 x)|]. symmetry. by apply bool_decide_eq_false. }
    destruct m0 as [|b m0]; [by apply Hm|]. assert (b :: m0 = []); [|done]. apply IH; [by eapply trim_cons|]. intros ty x. apply (H (S ty) x). }
  assert (Hf : ∀ ty x, lit_contains (lm_get [] ty) x = false) by (intros; by apply bool_decide_eq_false).
  revert m'. induction m as [|a m IH]; intros m' Hm Hm' H.
  - symmetry. apply Hnil; [done|]. intros ty x. rewrite <- H. apply Hf.
  - destruct m' as [|b m']; [apply Hnil; [done|]; intros ty x; rewrite H; apply Hf|].
    f_equal; [apply lit_ext; intros x; apply (H 0 x)|]. apply IH.
    + destruct m; [done|]. by eapply trim_cons.
    + destruct m'; [done|]. by eapply trim_cons.
    + intros ty x. apply (H (S ty) x).
Qed.
Lemma ts_ext s s' : trims s → trims s' → (∀ t, ts_contains s t = ts_contains s' t) → s = s'.
Proof.
  intros H1 H2 H. destruct s as [m e], s' as [m' e']. f_equal; [|apply (H None)]. apply lm_ext; [done|done|]. intros ty x. apply (H (Some (ty, x))).
Qed.

(** * The FIRST table *)
Section table.
  Context {K : Type} `{EqDecision K}.
  Definition all_trim (m : table K) : Prop := ∀ k, trims (tb_get m k).
  Lemma tb_insert_trim m k s : all_trim m → trims s → all_trim (bt_insert m k s).
  Proof. intros H Hs k'. rewrite tb_get_insert. by case_decide. Qed.
  Lemma bt_trim m k s : all_trim m → bt_get m k = Some s → trims s.
  Proof. intros H E. specialize (H k). unfold tb_get in H. by rewrite E in H. Qed.
  Lemma f_process_trim r m : all_trim m → all_trim (f_process r m).2.
  Proof.
    intros H. induction r as [t|t ty lit|a b|set r IH]; cbn [f_process].
    - cbn. apply tb_insert_trim; [done|]. apply (H t).
    - assert (Hi := ts_insert_trims (tb_get m t) ty lit (H t)). destruct (ts_insert _ _ _) as [s ch]. by apply tb_insert_trim.
    - assert (Hm : all_trim (bt_remove m a)).
      { intros k. unfold tb_get. rewrite bt_get_remove. case_decide; [done|]. apply (H k). }
      destruct (bt_get (bt_remove m a) b) as [s|] eqn:Es; [|cbn; by apply tb_insert_trim; [|apply H]].
      assert (Hi := ts_union_trims (tb_get m a) s false (H a) (bt_trim _ _ _ Hm Es)). unfold fs_union_minus_eps.
      destruct (ts_union _ _ _) as [s' ch]. by apply tb_insert_trim.
    - by destruct (filter _ _).
  Qed.
  Lemma f_pass_trim rels m : all_trim m → all_trim (f_pass rels m).2.
  Proof.
    revert m. induction rels as [|r rels IH]; intros m H; [done|]. cbn [f_pass]. assert (H1 := f_process_trim r m H).
    destruct (f_process r m) as [[c k] m']. assert (H2 := IH m' H1). destruct (f_pass rels m') as [[c' k'] m'']. done.
  Qed.
  Lemma f_loop_trim n rels m m' : all_trim m → f_loop n rels m = Some m' → all_trim m'.
  Proof.
    revert rels m. induction n as [|n IH]; intros rels m H; [done|]. cbn [f_loop]. assert (H1 := f_pass_trim rels m H).
    destruct (f_pass rels m) as [[c r'] m1]. destruct c; [by apply IH|]. by intros [= <-].
  Qed.
  Lemma w_process_trim fi r m : all_trim fi → all_trim m → all_trim (w_process fi r m).2.
  Proof.
    intros Hfi H. induction r as [a b|a b|set r IH]; cbn [w_process].
    - assert (Hi := ts_union_trims (tb_get m a) (tb_get fi b) false (H a) (Hfi b)). unfold fo_union_first.
      destruct (ts_union _ _ _) as [s ch]. by apply tb_insert_trim.
    - assert (Hm : all_trim (bt_remove m a)).
      { intros k. unfold tb_get. rewrite bt_get_remove. case_decide; [done|]. apply (H k). }
      destruct (bt_get (bt_remove m a) b) as [s|] eqn:Es; [|cbn; by apply tb_insert_trim; [|apply H]].
      assert (Hi := ts_union_trims (tb_get m a) s true (H a) (bt_trim _ _ _ Hm Es)). unfold fo_union_follow.
      destruct (ts_union _ _ _) as [s' ch]. by apply tb_insert_trim.
    - by destruct (filter _ _).
  Qed.
  Lemma w_pass_trim fi rels m : all_trim fi → all_trim m → all_trim (w_pass fi rels m).2.
  Proof.
    intros Hfi. revert m. induction rels as [|r rels IH]; intros m H; [done|]. cbn [w_pass]. assert (H1 := w_process_trim fi r m Hfi H).
    destruct (w_process fi r m) as [[c k] m']. assert (H2 := IH m' H1). destruct (w_pass fi rels m') as [[c' k'] m'']. done.
  Qed.
  Lemma w_loop_trim n fi rels m m' : all_trim fi → all_trim m → w_loop n fi rels m = Some m' → all_trim m'.
  Proof.
    intros Hfi. revert rels m. induction n as [|n IH]; intros rels m H; [done|]. cbn [w_loop]. assert (H1 := w_pass_trim fi rels m Hfi H).
    destruct (w_pass fi rels m) as [[c r'] m1]. destruct c; [by apply IH|]. by intros [= <-].
  Qed.
  Lemma md_trim regs iter root md : meta_build regs iter root = Some (inr md) → all_trim (md_first md) ∧ all_trim (md_follow md).
  Proof.
    unfold meta_build. destruct (first_build regs) as [fi|] eqn:Ef; [|done]. cbn [mbind option_bind].
    assert (H : all_trim fi) by (eapply f_loop_trim; [|exact Ef]; done).
    destruct (check_lr iter fi _ root _ _ _); [done|done|]. destruct (follow_build iter fi root) as [fo|] eqn:Efo; [|done]. cbn [mbind option_bind].
    assert (H' : all_trim fo).
    { eapply w_loop_trim; [exact H| |exact Efo]. by apply tb_insert_trim. }
    destruct (check_conflicts iter fi fo _ root _); [done|done|]. destruct (build_jump iter fi _ root _ _) as [[? ?]|]; [|done].
    cbn. by intros [= <-].
  Qed.
End table.

(** * What a part is made of *)
Lemma parts_within env c n : PNamed n ∈ parts (prod_of c) → within env c (TNamed n).
Proof.
  assert (Hs : ∀ c c', c' ∈ subs env c → within env c' (TNamed n) → within env c (TNamed n)) by (intros; by eapply rtc_l).
  induction c as [nm y lit|m|l IH|t IH|t IH|t IH|t IH|t IH|t IH|t IH|t IH|t p IH1 IH2|t p IH1 IH2|t p IH1 IH2] using ty_ind'; cbn [prod_of parts].
  - set_solver.
  - intros [= ->]%elem_of_list_singleton. apply rtc_refl.
  - intros [H|H]%elem_of_cons; [done|]. apply elem_of_list_In, in_flat_map in H as (q & Hq & H).
    apply in_map_iff in Hq as (c & <- & Hc). apply elem_of_list_In in H, Hc. rewrite Forall_forall in IH. apply (Hs (TTuple l) c Hc). by apply IH.
  - intros H. apply (Hs _ t); [|by apply IH]. set_solver.
  - intros H. apply (Hs _ t); [set_solver|]. apply IH. set_solver.
  - intros H. apply (Hs _ t); [set_solver|]. apply IH. set_solver.
  - intros H. apply (Hs _ t); [set_solver|]. apply IH. set_solver.
  - intros H. apply (Hs _ t); [set_solver|]. apply IH. set_solver.
  - intros H. apply (Hs _ t); [set_solver|]. apply IH. set_solver.
  - intros H. apply (Hs _ t); [set_solver|]. apply IH. set_solver.
  - intros H. apply (Hs _ t); [set_solver|]. apply IH. set_solver.
  - cbn [flat_map app parts]. intros H. assert (PNamed n ∈ parts (prod_of t) ∨ PNamed n ∈ parts (prod_of p)) as [?|?] by set_solver.
    + apply (Hs _ t); [set_solver|]. by apply IH1.
    + apply (Hs _ p); [set_solver|]. by apply IH2.
  - intros H. assert (PNamed n ∈ parts (prod_of t) ∨ PNamed n ∈ parts (prod_of p)) as [?|?] by set_solver.
    + apply (Hs _ t); [set_solver|]. by apply IH1.
    + apply (Hs _ p); [set_solver|]. by apply IH2.
  - cbn [flat_map app]. intros H. assert (PNamed n ∈ parts (prod_of t) ∨ PNamed n ∈ parts (prod_of p)) as [?|?] by set_solver.
    + apply (Hs _ t); [set_solver|]. by apply IH1.
    + apply (Hs _ p); [set_solver|]. by apply IH2.
Qed.

Section decls.
  Variables (env1 env2 : denv) (t : ty).
  Hypothesis Hd : same_decls env1 env2 t.
  (** All names in [k] are used by [t]. *)
  Definition names_of (k : prod) : Prop := ∀ n, PNamed n ∈ parts k → within env1 t (TNamed n).
  Lemma names_pid k : names_of k → names_of (pid k).
  Proof. unfold names_of. by rewrite parts_of_pid. Qed.
  Lemma names_within c : within env1 t c → names_of (key c).
  Proof.
    intros H. apply names_pid. intros n Hn. unfold within. etrans; [exact H|]. by apply parts_within.
  Qed.
  Lemma kids_same k : names_of k → kids env2 k = kids env1 k.
  Proof. intros H. destruct k as [ | n| | | | | | ]; try done. cbn. rewrite Hd; [done|]. apply H. set_solver. Qed.
  Lemma entry_same k : names_of k → entry_of env2 k = entry_of env1 k.
  Proof. intros H. destruct k as [ | n| | | | | | ]; try done. cbn. rewrite Hd; [done|]. apply H. set_solver. Qed.
  Lemma kids_names k ks x : names_of k → kids env1 k = Some ks → x ∈ ks → names_of x.
  Proof.
    intros Hk Hks Hx n Hn.
    destruct k as [nm y lit|m|l|p|p|p q| |p]; cbn in Hks; simplify_eq.
    - by apply elem_of_nil in Hx.
    - destruct (env1 !! m) as [d|] eqn:Em; [|done]. cbn in Hks. injection Hks as <-.
      unfold field_prods in Hx. apply elem_of_list_In, in_map_iff in Hx as (f & <- & Hf).
      unfold within. etrans; [apply (Hk m); set_solver|]. eapply rtc_l; [|by apply parts_within].
      cbn. rewrite Em. apply elem_of_list_In, in_map. done.
    - apply Hk. cbn. apply elem_of_cons. right. apply elem_of_list_In, in_flat_map. exists x. split; by apply elem_of_list_In.
    - apply Hk. cbn. apply elem_of_cons in Hx as [->|[->|[]%elem_of_nil]%elem_of_cons]; cbn in Hn; set_solver.
    - apply Hk. cbn. apply elem_of_cons in Hx as [->|[->|[]%elem_of_nil]%elem_of_cons]; cbn in Hn; set_solver.
    - apply Hk. cbn. apply elem_of_cons in Hx as [->|[->|[]%elem_of_nil]%elem_of_cons]; cbn in Hn; set_solver.
    - by apply elem_of_nil in Hx.
  Qed.
  Lemma component_names k q : names_of k → component env1 k q → names_of q ∧ component env2 k q.
  Proof.
    intros Hk (ks & x & H1 & H2 & ->). split; [by eapply names_pid, kids_names|]. exists ks, x. by rewrite kids_same.
  Qed.
  Lemma subs_same c : within env1 t c → subs env2 c = subs env1 c.
  Proof. intros H. destruct c; try done. cbn. by rewrite Hd. Qed.
  Lemma within_same c : within env1 t c → within env2 t c.
  Proof.
    unfold within. revert c. refine (rtc_ind_r _ t _ _); [apply rtc_refl|]. intros a b Ha Hab IH.
    eapply rtc_r; [exact IH|]. by rewrite (subs_same a Ha).
  Qed.
  Lemma within_back c : within env2 t c → within env1 t c.
  Proof.
    unfold within. revert c. refine (rtc_ind_r _ t _ _); [apply rtc_refl|]. intros a b Ha Hab IH.
    eapply rtc_r; [exact IH|]. by rewrite <- (subs_same a IH).
  Qed.
  Lemma register_same f p regs : names_of p → register env2 f p regs = register env1 f p regs.
  Proof.
    revert p regs. induction f as [|f IH]; intros p regs Hp; [done|]. cbn [register]. case_decide; [done|].
    assert (Hq := names_pid p Hp). rewrite (entry_same _ Hq), (kids_same _ Hq). destruct (entry_of env1 (pid p)) as [e|]; [|done]. cbn [mbind option_bind].
    destruct (kids env1 (pid p)) as [ks|] eqn:Ek; [|done]. cbn [mbind option_bind].
    assert (Hks : ∀ x, x ∈ ks → names_of x) by (intros; by eapply kids_names).
    clear Ek H. generalize (regs ++ [(pid p, e)]). induction ks as [|x ks IHks]; intros r; [done|]. cbn [reg_all].
    rewrite IH by (apply Hks; set_solver). destruct (register env1 f x r) as [r'|]; [|done]. cbn [mbind option_bind]. apply IHks. intros; apply Hks; set_solver.
  Qed.
End decls.
Lemma same_decls_sym env1 env2 t : same_decls env1 env2 t → same_decls env2 env1 t.
Proof. intros H n Hn. symmetry. apply H. by apply (within_back env1 env2 t H). Qed.
Lemma register_root_same env1 env2 t regs1 regs2 : same_decls env1 env2 t →
  register_root env1 (prod_of t) = Some regs1 → register_root env2 (prod_of t) = Some regs2 → regs2 = regs1.
Proof.
  intros Hd H1 H2. unfold register_root in *. set (f1 := S _) in H1. set (f2 := S _) in H2.
  assert (Hn : names_of env1 t (prod_of t)) by (intros n Hn; by apply parts_within).
  rewrite (register_same env1 env2 t Hd f2 _ _ Hn) in H2.
  apply (register_fuel env1 f1 (f1 + f2)) in H1; [|lia]. apply (register_fuel env1 f2 (f1 + f2)) in H2; [|lia]. congruence.
Qed.

(** * The tables of two grammars *)
Section grammars.
  Variables (env1 env2 : denv) (root1 root2 t : ty) (regs1 regs2 iter1 iter2 : grammar prod) (md1 md2 : metadata prod).
  Hypothesis Hr1 : register_root env1 (prod_of root1) = Some regs1.
  Hypothesis Hp1 : iter1 ≡ₚ regs1.
  Hypothesis Hm1 : meta_build regs1 iter1 (key root1) = Some (inr md1).
  Hypothesis Hr2 : register_root env2 (prod_of root2) = Some regs2.
  Hypothesis Hp2 : iter2 ≡ₚ regs2.
  Hypothesis Hm2 : meta_build regs2 iter2 (key root2) = Some (inr md2).
  Hypothesis Hw1 : within env1 root1 t.
  Hypothesis Hw2 : within env2 root2 t.
  Hypothesis Hd : same_decls env1 env2 t.

  Definition shared (k : prod) : Prop := names_of env1 t k ∧ visible env1 (key root1) k ∧ visible env2 (key root2) k.
  Lemma shared_within c : within env1 t c → shared (key c).
  Proof using All.
    intros H. split; [by apply names_within|]. split.
    - apply (V_within env1 root1 regs1 iter1 md1 Hr1 Hp1 Hm1). unfold within. by etrans.
    - apply (V_within env2 root2 regs2 iter2 md2 Hr2 Hp2 Hm2). unfold within. etrans; [exact Hw2|]. by apply (within_same env1 env2 t Hd).
  Qed.
  Lemma shared_component k q : shared k → component env1 k q → shared q.
  Proof using All.
    intros (H1 & H2 & H3) Hc. destruct (component_names env1 env2 t Hd k q H1 Hc) as [H4 H5]. split; [done|]. split; by eapply rtc_r.
  Qed.
  Lemma shared_star c : shared (key (TStar c)) → shared (key (TPlus c)).
  Proof using All. intros H. apply (shared_component _ _ H). exists [POneMore (prod_of c); PEps], (POneMore (prod_of c)). split_and!; [done|set_solver|done]. Qed.
  Lemma regs_same k e : shared k → (k, e) ∈ regs1 ↔ (k, e) ∈ regs2.
  Proof using All.
    intros (H1 & H2 & H3). rewrite (md_regs env1 root1 regs1 iter1 md1 Hr1 Hp1 Hm1), (md_regs env2 root2 regs2 iter2 md2 Hr2 Hp2 Hm2).
    rewrite (entry_same env1 env2 t Hd k H1). tauto.
  Qed.
  Lemma shared_comps k e y : shared k → (k, e) ∈ regs1 → y ∈ comps e → shared y.
  Proof using All.
    intros Hk He Hy. apply (md_regs env1 root1 regs1 iter1 md1 Hr1 Hp1 Hm1) in He as [_ He]. apply (shared_component _ _ Hk).
    assert (Hmap : ∀ l, y ∈ map pid l → ∃ x, x ∈ l ∧ y = pid x).
    { intros l H. apply elem_of_list_In, in_map_iff in H as (x & <- & Hx). exists x. split; [by apply elem_of_list_In|done]. }
    destruct k as [nm z lit|m|l|p|p|p q| |p]; cbn in He; simplify_eq; cbn [comps] in Hy; try (by apply elem_of_nil in Hy).
    - destruct (env1 !! m) as [d|] eqn:Em; [|done]. cbn in He. injection He as <-. exists (field_prods (decl_fields d)).
      assert (y ∈ map pid (field_prods (decl_fields d))) as (x & Hx & ->)%Hmap by (by destruct d). exists x. cbn. by rewrite Em.
    - apply Hmap in Hy as (x & Hx & ->). by exists l, x.
    - apply elem_of_cons in Hy as [->|[->|[]%elem_of_nil]%elem_of_cons]; [exists [p; PEps], p|exists [p; PEps], PEps]; split_and!; try done; set_solver.
    - apply elem_of_cons in Hy as [->|[->|[]%elem_of_nil]%elem_of_cons];
        [exists [p; POpt (POneMore p)], p|exists [p; POpt (POneMore p)], (POpt (POneMore p))]; split_and!; try done; set_solver.
    - apply elem_of_cons in Hy as [->|[->|[]%elem_of_nil]%elem_of_cons];
        [exists [p; POpt (PTuple [q; POpt (PPunct p q)])], p|exists [p; POpt (PTuple [q; POpt (PPunct p q)])], (POpt (PTuple [q; POpt (PPunct p q)]))]; split_and!; try done; set_solver.
  Qed.
  Lemma nullable_same k : shared k → nullable regs1 k ↔ nullable regs2 k.
  Proof using All.
    intros Hk. split; intros H; revert H Hk.
    - revert k. apply (nullable_ind_decl regs1 (λ k, shared k → nullable regs2 k)).
      + intros k H Hk. apply nullable_unfold. left. by apply regs_same.
      + intros k l H Hl Hk. apply nullable_unfold. right; left. exists l. split; [by apply regs_same|].
        rewrite Forall_forall in Hl |- *. intros y Hy. apply Hl; [done|]. by eapply (shared_comps _ _ _ Hk H).
      + intros k l y H Hy _ Hn Hk. apply nullable_unfold. right; right. exists l, y. split; [by apply regs_same|]. split; [done|].
        apply Hn. by eapply (shared_comps _ _ _ Hk H).
    - revert k. apply (nullable_ind_decl regs2 (λ k, shared k → nullable regs1 k)).
      + intros k H Hk. apply nullable_unfold. left. by apply regs_same.
      + intros k l H Hl Hk. apply regs_same in H; [|done]. apply nullable_unfold. right; left. exists l. split; [done|].
        rewrite Forall_forall in Hl |- *. intros y Hy. apply Hl; [done|]. by eapply (shared_comps _ _ _ Hk H).
      + intros k l y H Hy _ Hn Hk. apply regs_same in H; [|done]. apply nullable_unfold. right; right. exists l, y. split; [done|]. split; [done|].
        apply Hn. by eapply (shared_comps _ _ _ Hk H).
  Qed.
  Lemma starts_same k x : shared k → starts regs1 k x ↔ starts regs2 k x.
  Proof using All.
    intros Hk. split; intros H; revert H Hk.
    - revert k x. apply (starts_ind_decl regs1 (λ k x, shared k → starts regs2 k x)).
      + intros k ty lit x H Hc Hk. apply starts_unfold. left. exists ty, lit. split; [by apply regs_same|done].
      + intros k l1 y l2 x H Hl _ IH Hk. apply starts_unfold. right; left. exists (l1 ++ y :: l2), l1, y, l2. split; [by apply regs_same|].
        split; [done|]. split; [|apply IH; eapply (shared_comps _ _ _ Hk H); cbn; set_solver].
        rewrite Forall_forall in Hl |- *. intros z Hz. apply nullable_same; [|by apply Hl]. eapply (shared_comps _ _ _ Hk H). cbn. set_solver.
      + intros k l y x H Hy _ IH Hk. apply starts_unfold. right; right. exists l, y. split; [by apply regs_same|]. split; [done|].
        apply IH. by eapply (shared_comps _ _ _ Hk H).
    - revert k x. apply (starts_ind_decl regs2 (λ k x, shared k → starts regs1 k x)).
      + intros k ty lit x H Hc Hk. apply starts_unfold. left. exists ty, lit. split; [by apply regs_same|done].
      + intros k l1 y l2 x H Hl _ IH Hk. apply regs_same in H; [|done]. apply starts_unfold. right; left. exists (l1 ++ y :: l2), l1, y, l2. split; [done|].
        split; [done|]. split; [|apply IH; eapply (shared_comps _ _ _ Hk H); cbn; set_solver].
        rewrite Forall_forall in Hl |- *. intros z Hz. apply nullable_same; [|by apply Hl]. eapply (shared_comps _ _ _ Hk H). cbn. set_solver.
      + intros k l y x H Hy _ IH Hk. apply regs_same in H; [|done]. apply starts_unfold. right; right. exists l, y. split; [done|]. split; [done|].
        apply IH. by eapply (shared_comps _ _ _ Hk H).
  Qed.
  Lemma bool_same (a b : bool) (P Q : Prop) : (a = true ↔ P) → (b = true ↔ Q) → (P ↔ Q) → a = b.
  Proof using. destruct a, b; intros; intuition. Qed.
  Lemma first_same c : shared (key c) → tb_get (md_first md1) (key c) = tb_get (md_first md2) (key c).
  Proof using All.
    intros Hk. apply ts_ext; [apply (md_trim _ _ _ _ Hm1)|apply (md_trim _ _ _ _ Hm2)|]. intros [x|].
    - eapply bool_same; [apply (first_spec env1 root1 regs1 iter1 md1 Hr1 Hp1 Hm1)|apply (first_spec env2 root2 regs2 iter2 md2 Hr2 Hp2 Hm2)|].
      by apply starts_same.
    - eapply bool_same; [apply (first_eps env1 root1 regs1 iter1 md1 Hr1 Hp1 Hm1)|apply (first_eps env2 root2 regs2 iter2 md2 Hr2 Hp2 Hm2)|].
      by apply nullable_same.
  Qed.
  Lemma opt_same (a b : option nat) : (∀ i, a = Some i ↔ b = Some i) → a = b.
  Proof using. intros H. destruct a as [i|]; [symmetry; by apply H|]. destruct b as [j|]; [by apply H|done]. Qed.
  Lemma jump_same n vs x : within env1 t (TNamed n) → env1 !! n = Some (DEnum vs) →
    jump_look_up (md_jump md1) (PNamed n) x = jump_look_up (md_jump md2) (PNamed n) x.
  Proof using All.
    intros Hn En. destruct (shared_within _ Hn) as (H1 & H2 & H3). apply opt_same. intros i.
    rewrite (jump_spec env1 root1 regs1 iter1 md1 Hr1 Hp1 Hm1 n vs x i H2 En).
    rewrite (jump_spec env2 root2 regs2 iter2 md2 Hr2 Hp2 Hm2 n vs x i H3); [|by rewrite (Hd n Hn)].
    assert (Hc : ∀ c sem, vs !! i = Some (c, sem) → shared (key c)).
    { intros c sem E. apply shared_within. unfold within. eapply rtc_r; [exact Hn|]. cbn. rewrite En. cbn.
      apply elem_of_list_In, in_map_iff. exists (c, sem). split; [done|]. apply elem_of_list_In. by eapply elem_of_list_lookup_2. }
    split; intros (c & sem & E & H); exists c, sem; (split; [done|]); specialize (Hc _ _ E); destruct x as [x|];
      first [by apply starts_same|by apply nullable_same].
  Qed.
  Lemma follow_same c x : (near_follow regs1 (key root1) (key c) x ↔ near_follow regs2 (key root2) (key c) x) →
    ts_contains (tb_get (md_follow md1) (key c)) x = ts_contains (tb_get (md_follow md2) (key c)) x.
  Proof using All.
    intros H. eapply bool_same; [apply (follow_spec env1 root1 regs1 iter1 md1 Hr1 Hp1 Hm1)|apply (follow_spec env2 root2 regs2 iter2 md2 Hr2 Hp2 Hm2)|exact H].
  Qed.
End grammars.

(** * The programs *)
(** FOLLOW sets with the same tokens. *)
Definition same_toks (a b : tset) : Prop := (∀ y : tok, ts_contains a (Some y) = ts_contains b (Some y)) ∧ (ts_remove_e a).1 = (ts_remove_e b).1.
Lemma same_toks_ext a b : trims a → trims b → (∀ y : tok, ts_contains a (Some y) = ts_contains b (Some y)) → same_toks a b.
Proof. intros Ha Hb H. split; [done|]. apply ts_ext; [done|done|]. intros [y|]; [apply H|done]. Qed.
Lemma stop_same a b (tk : option tok) : same_toks a b → bool_decide (tk = None) || ts_contains a tk = bool_decide (tk = None) || ts_contains b tk.
Proof. intros [H _]. destruct tk as [y|]; [by rewrite (H y)|]. by rewrite bool_decide_eq_true_2. Qed.

Lemma split_inner_same n pT pT' ef pf fol fol' panic errs : same_toks fol fol' → le pT pT' →
  le (split_inner n pT ef pf fol panic errs) (split_inner n pT' ef pf fol' panic errs).
Proof.
  intros Hf Hp. revert panic errs. induction n as [|n IH]; intros panic errs; cbn [split_inner]; [done|].
  apply le_bind; [apply le_refl|]. intros tk. apply le_bind; [le_auto|]. intros [[x e]|[tk' p]]; [apply le_refl|].
  destruct (ts_contains pf tk'); [apply le_refl|]. rewrite (stop_same _ _ tk' Hf). destruct (_ || _); [apply le_refl|].
  apply le_bind; [apply le_refl|]. intros. apply IH.
Qed.
Lemma split_outer_same n pT pT' pP pP' ef pf fol fol' elems puncts errs : same_toks fol fol' → le pT pT' → le pP pP' →
  le (split_outer n pT pP ef pf fol elems puncts errs) (split_outer n pT' pP' ef pf fol' elems puncts errs).
Proof.
  intros Hf HT HP. revert elems puncts errs. induction n as [|n IH]; intros elems puncts errs; cbn [split_outer]; [done|].
  assert (IH' := λ panic errs, split_inner_same n pT pT' ef pf fol fol' panic errs Hf HT). le_auto.
Qed.
Lemma produce_split_same n pT pT' pP pP' ef pf fol fol' : same_toks fol fol' → le pT pT' → le pP pP' →
  le (produce_split n pT pP ef pf fol) (produce_split n pT' pP' ef pf fol').
Proof.
  intros Hf HT HP. unfold produce_split. assert (IH := λ a b c, split_outer_same n pT pT' pP pP' ef pf fol fol' a b c Hf HT HP). le_auto.
Qed.
Lemma punct_inner_same n pT pT' ef pf fol fol' panic errs : same_toks fol fol' → le pT pT' →
  le (punct_inner n pT ef pf fol panic errs) (punct_inner n pT' ef pf fol' panic errs).
Proof.
  intros Hf Hp. revert panic errs. induction n as [|n IH]; intros panic errs; cbn [punct_inner]; [done|].
  apply le_bind; [apply le_refl|]. intros [x|]; [|apply le_refl]. rewrite (proj1 Hf x), (proj2 Hf). destruct (_ && _); [apply le_refl|].
  apply le_bind; [le_auto|]. intros [[y e]|p]; [apply le_refl|].
  apply le_bind; [apply le_refl|]. intros tk'. destruct (ts_contains pf tk'); [apply le_refl|].
  rewrite (stop_same _ _ tk' Hf). destruct (_ || _); [apply le_refl|]. apply le_bind; [apply le_refl|]. intros. apply IH.
Qed.
Lemma punct_outer_same n pT pT' pP pP' ef pf fol fol' elems puncts errs : same_toks fol fol' → le pT pT' → le pP pP' →
  le (punct_outer n pT pP ef pf fol elems puncts errs) (punct_outer n pT' pP' ef pf fol' elems puncts errs).
Proof.
  intros Hf HT HP. revert elems puncts errs. induction n as [|n IH]; intros elems puncts errs; cbn [punct_outer]; [done|].
  assert (IH' := λ panic errs, punct_inner_same n pT pT' ef pf fol fol' panic errs Hf HT). le_auto.
Qed.
Lemma produce_punct_same n pT pT' pP pP' ef pf fol fol' : same_toks fol fol' → le pT pT' → le pP pP' →
  le (produce_punct n pT pP ef pf fol) (produce_punct n pT' pP' ef pf fol').
Proof.
  intros Hf HT HP. unfold produce_punct. assert (IH := λ a b c, punct_outer_same n pT pT' pP pP' ef pf fol fol' a b c Hf HT HP). le_auto.
Qed.

(** What the code asks the tables about [c]. *)
Definition ask_same (env1 env2 : denv) (F1 F2 L1 L2 : prod → tset) (J1 J2 : prod → option tok → option nat) (c : ty) : Prop :=
  F2 (key c) = F1 (key c) ∧
  match c with
  | TTok _ _ (Some _) => ∀ x, ts_contains (L1 (key c)) x = ts_contains (L2 (key c)) x
  | TSplit _ _ | TPunct _ _ => same_toks (L1 (key c)) (L2 (key c))
  | TNamed n => env2 !! n = env1 !! n ∧ ∀ vs x, env1 !! n = Some (DEnum vs) → J2 (PNamed n) x = J1 (PNamed n) x
  | TStar c => F2 (key (TPlus c)) = F1 (key (TPlus c))
  | _ => True
  end.
Lemma produce_same env1 env2 F1 F2 L1 L2 J1 J2 f t : all_within env1 (ask_same env1 env2 F1 F2 L1 L2 J1 J2) t →
  le (produce env1 F1 L1 J1 f t) (produce env2 F2 L2 J2 f t).
Proof.
  revert t. induction f as [|f IH]; intros t Ht; [done|].
  assert (Hsub : ∀ c, c ∈ subs env1 t → le (produce env1 F1 L1 J1 f c) (produce env2 F2 L2 J2 f c)).
  { intros c Hc. apply IH. intros c' Hc'. apply Ht. by eapply rtc_l. }
  assert (HF : ∀ c, c ∈ subs env1 t → F2 (key c) = F1 (key c)).
  { intros c Hc. apply (Ht c). by apply rtc_once. }
  assert (Hown := Ht t (rtc_refl _ _)). destruct Hown as [HFt Hown]. clear Ht.
  destruct t as [n y lit|n|l|t|t|t|t|t|t|t|t|t p|t p|t p]; cbn [ProduceModel.produce].
  - destruct lit as [lit|]; [|apply le_refl]. apply le_bind; [|intros; apply le_refl].
    unfold parse_token_lit. assert (He : ts_contains_e (L1 (key (TTok n y (Some lit)))) = ts_contains_e (L2 (key (TTok n y (Some lit))))) by apply (Hown None).
    apply le_bind; [apply le_refl|]. intros [tk|]; [|rewrite He; apply le_refl]. cbn [le]. eexists. split; [done|]. intros x.
    rewrite (Hown (Some x)). apply le_refl.
  - destruct Hown as [En HJ]. rewrite En. cbn [subs] in *. destruct (env1 !! n) as [[fs|vs]|]; [| |done].
    + apply le_bind; [apply produce_seq_le; auto|]. intros. apply le_refl.
    + apply le_bind; [apply le_refl|]. intros tk. rewrite HFt. cbn [key prod_of pid]. rewrite (HJ vs tk eq_refl).
      destruct (J1 (PNamed n) tk) as [i|]; [|apply le_refl]. cbn [mbind option_bind].
      destruct (vs !! i) as [[t' sem]|] eqn:Ei; [|apply le_refl]. cbn [mbind option_bind].
      apply le_bind; [|intros; apply le_refl]. apply Hsub. cbn. apply elem_of_list_In, in_map_iff. exists (t', sem). split; [done|].
      apply elem_of_list_In. by eapply elem_of_list_lookup_2.
  - apply le_bind; [apply produce_seq_le; auto|]. intros. apply le_refl.
  - apply Hsub. cbn. set_solver.
  - rewrite (HF t) by (cbn; set_solver). apply le_bind; [apply produce_option_le, Hsub; cbn; set_solver|]. intros. apply le_refl.
  - rewrite (HF t) by (cbn; set_solver). apply le_bind; [apply produce_option_le, Hsub; cbn; set_solver|]. intros. apply le_refl.
  - apply le_bind; [apply Hsub; cbn; set_solver|]. intros. apply le_refl.
  - apply le_bind; [apply Hsub; cbn; set_solver|]. intros. apply le_refl.
  - rewrite HFt. apply le_bind; [apply produce_plus_le; [done|]; apply Hsub; cbn; set_solver|]. intros. apply le_refl.
  - rewrite Hown. apply le_bind; [apply produce_option_le, produce_plus_le; [done|]; apply Hsub; cbn; set_solver|]. intros. apply le_refl.
  - rewrite HFt. apply le_bind; [apply produce_loop_le; [done|]; apply Hsub; cbn; set_solver|]. intros. apply le_refl.
  - rewrite (HF t), (HF p) by (cbn; set_solver). apply produce_split_same; [done|apply Hsub; cbn; set_solver..].
  - rewrite (HF t), (HF p) by (cbn; set_solver). apply produce_punct_same; [done|apply Hsub; cbn; set_solver..].
  - rewrite (HF t), (HF p) by (cbn; set_solver). apply produce_recover_le; [done|apply Hsub; cbn; set_solver..].
Qed.
Lemma le_run_eq {A} extract (m m' : M A) s : le m m' → le m' m → run extract m s = run extract m' s.
Proof.
  intros H H'. assert (D : run extract m s = OFuel ∨ run extract m s ≠ OFuel) by (destruct (run extract m s); first [by left|by right]).
  destruct D as [E|E]; [|symmetry; by apply le_run].
  assert (D' : run extract m' s = OFuel ∨ run extract m' s ≠ OFuel) by (destruct (run extract m' s); first [by left|by right]).
  destruct D' as [E'|E']; [congruence|]. by apply le_run.
Qed.
Lemma same_toks_sym a b : same_toks a b → same_toks b a.
Proof. intros [H1 H2]. split; [intros y; by rewrite H1|done]. Qed.
Lemma ask_sym env1 env2 F1 F2 L1 L2 J1 J2 c : ask_same env1 env2 F1 F2 L1 L2 J1 J2 c → ask_same env2 env1 F2 F1 L2 L1 J2 J1 c.
Proof.
  intros [H1 H2]. split; [done|]. destruct c as [n y [lit|]|n|l|t|t|t|t|t|t|t|t|t p|t p|t p]; try done.
  - destruct H2 as [E HJ]. split; [done|]. intros vs x Hv. symmetry. apply (HJ vs). by rewrite <- E.
  - by apply same_toks_sym.
  - by apply same_toks_sym.
Qed.
Lemma produce_both env1 env2 F1 F2 L1 L2 J1 J2 f t extract s : same_decls env1 env2 t →
  all_within env1 (ask_same env1 env2 F1 F2 L1 L2 J1 J2) t →
  run extract (produce env1 F1 L1 J1 f t) s = run extract (produce env2 F2 L2 J2 f t) s.
Proof.
  intros Hd H. apply le_run_eq; apply produce_same; [done|]. intros c Hc. apply ask_sym, H. by apply (within_back env1 env2 t Hd).
Qed.

(** A part is parsed the same in two grammars. *)
Lemma part_same extract env1 env2 root1 root2 t regs1 regs2 md1 md2 f s :
  accepted env1 root1 md1 → accepted env2 root2 md2 →
  register_root env1 (prod_of root1) = Some regs1 → register_root env2 (prod_of root2) = Some regs2 →
  within env1 root1 t → within env2 root2 t → same_decls env1 env2 t → same_ends env1 regs1 root1 regs2 root2 t →
  run extract (produce_md env1 md1 f t) s = run extract (produce_md env2 md2 f t) s.
Proof.
  intros (r1 & iter1 & Hr1 & Hp1 & Hm1) (r2 & iter2 & Hr2 & Hp2 & Hm2) E1 E2 Hw1 Hw2 Hd He.
  rewrite E1 in Hr1. injection Hr1 as <-. rewrite E2 in Hr2. injection Hr2 as <-.
  apply produce_both; [done|]. intros c Hc.
  assert (Hs := shared_within env1 env2 root1 root2 t regs1 regs2 iter1 iter2 md1 md2 E1 Hp1 Hm1 E2 Hp2 Hm2 Hw1 Hw2 Hd c Hc).
  assert (HF := first_same env1 env2 root1 root2 t regs1 regs2 iter1 iter2 md1 md2 E1 Hp1 Hm1 E2 Hp2 Hm2 Hw1 Hw2 Hd).
  split; [by rewrite HF|]. specialize (He c Hc).
  assert (HL : (∀ y : tok, near_follow regs1 (key root1) (key c) (Some y) ↔ near_follow regs2 (key root2) (key c) (Some y)) →
    same_toks (tb_get (md_follow md1) (key c)) (tb_get (md_follow md2) (key c))).
  { intros H. apply same_toks_ext; [apply (md_trim _ _ _ _ Hm1)|apply (md_trim _ _ _ _ Hm2)|]. intros y.
    apply (follow_same env1 env2 root1 root2 t regs1 regs2 iter1 iter2 md1 md2 E1 Hp1 Hm1 E2 Hp2 Hm2 Hw1 Hw2 Hd). apply H. }
  destruct c as [n y [lit|]|n|l|c|c|c|c|c|c|c|c|c p|c p|c p]; try done.
  - intros x. apply (follow_same env1 env2 root1 root2 t regs1 regs2 iter1 iter2 md1 md2 E1 Hp1 Hm1 E2 Hp2 Hm2 Hw1 Hw2 Hd). apply He.
  - split; [by apply Hd|]. intros vs x En. symmetry.
    by apply (jump_same env1 env2 root1 root2 t regs1 regs2 iter1 iter2 md1 md2 E1 Hp1 Hm1 E2 Hp2 Hm2 Hw1 Hw2 Hd n vs).
  - symmetry. apply HF. by apply (shared_star env1 env2 root1 root2 t regs1 regs2 iter1 iter2 md1 md2 E1 Hp1 Hm1 E2 Hp2 Hm2 Hw1 Hw2 Hd).
  - by apply HL.
  - by apply HL.
Qed.
Lemma part_closed extract env1 env2 root1 root2 t md1 md2 f s :
  accepted env1 root1 md1 → accepted env2 root2 md2 →
  within env1 root1 t → within env2 root2 t → same_decls env1 env2 t → closed env1 t →
  run extract (produce_md env1 md1 f t) s = run extract (produce_md env2 md2 f t) s.
Proof.
  intros H1 H2 Hw1 Hw2 Hd Hc. destruct H1 as (r1 & i1 & E1 & Hp1 & Hm1). destruct H2 as (r2 & i2 & E2 & Hp2 & Hm2).
  apply (part_same extract env1 env2 root1 root2 t r1 r2); [by exists r1, i1|by exists r2, i2|done..|].
  intros c Hw. specialize (Hc c Hw). by destruct c as [n y [lit|]|n|l|c|c|c|c|c|c|c|c|c p|c p|c p].
Qed.
(** Other declarations do not matter. *)
Lemma unused_metadata env1 env2 root iter : env_declared env1 → ty_declared (length env1) root → env_declared env2 → ty_declared (length env2) root →
  same_decls env1 env2 root → root_metadata env2 root iter = root_metadata env1 root iter.
Proof.
  intros D1 T1 D2 T2 Hd. destruct (register_root_total env1 root D1 T1) as [r1 E1]. destruct (register_root_total env2 root D2 T2) as [r2 E2].
  unfold root_metadata. rewrite E1, E2. by rewrite (register_root_same env1 env2 root r1 r2 Hd E1 E2).
Qed.
Lemma unused_parse extract env1 env2 root meta f s : same_decls env1 env2 root →
  run extract (parse env1 f root meta) s = run extract (parse env2 f root meta) s.
Proof.
  intros Hd. destruct meta as [e|md]; [done|].
  assert (Ha : all_within env1 (ask_same env1 env2 (tb_get (md_first md)) (tb_get (md_first md)) (tb_get (md_follow md)) (tb_get (md_follow md))
    (jump_look_up (md_jump md)) (jump_look_up (md_jump md))) root).
  { intros c Hc. split; [done|]. destruct c as [n y [lit|]|n|l|c|c|c|c|c|c|c|c|c p|c p|c p]; try done. split; [by apply Hd|done]. }
  unfold parse, parse_with. apply le_run_eq; apply le_bind; [|intros; apply le_refl| |intros; apply le_refl];
    apply le_bind; [|intros; apply le_refl| |intros; apply le_refl]; apply produce_same; [done|].
  intros c Hc. apply ask_sym, Ha. by apply (within_back env1 env2 root Hd).
Qed.
(** The same FOLLOW sets: for the examples. *)
Lemma same_ends_check env1 env2 root1 root2 md1 md2 t regs1 regs2 : accepted env1 root1 md1 → accepted env2 root2 md2 →
  register_root env1 (prod_of root1) = Some regs1 → register_root env2 (prod_of root2) = Some regs2 →
  all_within env1 (λ c, match c with TTok _ _ (Some _) | TSplit _ _ | TPunct _ _ => tb_get (md_follow md1) (key c) = tb_get (md_follow md2) (key c) | _ => True end) t →
  same_ends env1 regs1 root1 regs2 root2 t.
Proof.
  intros (r1 & iter1 & Hr1 & Hp1 & Hm1) (r2 & iter2 & Hr2 & Hp2 & Hm2) E1 E2 H.
  rewrite E1 in Hr1. injection Hr1 as <-. rewrite E2 in Hr2. injection Hr2 as <-.
  assert (HL : ∀ c, tb_get (md_follow md1) (key c) = tb_get (md_follow md2) (key c) →
    ∀ y, near_follow regs1 (key root1) (key c) y ↔ near_follow regs2 (key root2) (key c) y).
  { intros c Hc y. rewrite <- (follow_spec env1 root1 regs1 iter1 md1 E1 Hp1 Hm1 c y), <- (follow_spec env2 root2 regs2 iter2 md2 E2 Hp2 Hm2 c y).
    by rewrite Hc. }
  intros c Hc. specialize (H c Hc). cbn beta in H. destruct c as [n y [lit|]|n|l|c|c|c|c|c|c|c|c|c p|c p|c p]; try done; intros; by apply HL.
Qed.
Lemma unused_same extract env1 env2 root : env_declared env1 → ty_declared (length env1) root →
  env_declared env2 → ty_declared (length env2) root → same_decls env1 env2 root →
  (∀ iter, root_metadata env2 root iter = root_metadata env1 root iter) ∧
  ∀ meta f s, run extract (parse env1 f root meta) s = run extract (parse env2 f root meta) s.
Proof. intros D1 T1 D2 T2 Hd. split; intros; [by apply unused_metadata|by apply unused_parse]. Qed.
