(** FOLLOW does not matter for what parses without errors. *)
From Coq Require Import String NArith.
From stdpp Require Import prelude list strings relations.
From Verif Require Import LexModel SynSetModel TableModel CfgSpec StreamModel StreamSpec TypeModel TypeSpec ProduceModel ParseSpec ProgFacts SoundFacts StreamFacts.
Local Open Scope nat_scope.
#[local] Arguments ts_contains : simpl never.

Section clean.
  Variable extract : nat → bool.
  Notation go := (run extract).
  (** Every result has [P]. *)
  Definition ends {A} (P : A → Prop) (m : M A) : Prop := ∀ s r s', go m s = ODone r s' → P r.
  (** Runs of [m] that end in [E] are runs of [m']. *)
  Definition keeps {A} (E : A → Prop) (m m' : M A) : Prop := ∀ s r s', go m s = ODone r s' → E r → go m' s = ODone r s'.

  Lemma ends_ret {A} (P : A → Prop) a : P a → ends P (mret a).
  Proof. by intros H s r s' [= <- <-]. Qed.
  Lemma ends_fuel {A} (P : A → Prop) : ends P Fuel.
  Proof. by intros s r s'. Qed.
  Lemma ends_bind {A B} (T : A → Prop) (P : B → Prop) (p : M A) (k : A → M B) : ends T p → (∀ a, T a → ends P (k a)) → ends P (p ≫= k).
  Proof.
    intros Hp Hk s r s'. rewrite run_bind. destruct (go p s) as [| |a s1] eqn:E; [done..|]. apply Hk. by eapply Hp.
  Qed.
  Lemma ends_any {A} (p : M A) : ends (λ _, True) p.
  Proof. by intros s r s'. Qed.
  Lemma ends_then {A B} (P : B → Prop) (p : M A) (k : A → M B) : (∀ a, ends P (k a)) → ends P (p ≫= k).
  Proof. intros H. eapply ends_bind; [apply ends_any|]. intros a _. apply H. Qed.
  Lemma keeps_refl {A} (E : A → Prop) m : keeps E m m.
  Proof. by intros s r s' H _. Qed.
  Lemma keeps_never {A} (E : A → Prop) m m' : ends (λ r, ¬ E r) m → keeps E m m'.
  Proof. intros H s r s' Hr HE. by destruct (H s r s' Hr). Qed.
  Lemma keeps_bind {A B} (T E1 : A → Prop) `{∀ a, Decision (E1 a)} (E : B → Prop) (p p' : M A) (k k' : A → M B) :
    keeps E1 p p' → ends T p → (∀ a, T a → E1 a → keeps E (k a) (k' a)) → (∀ a, T a → ¬ E1 a → ends (λ r, ¬ E r) (k a)) →
    keeps E (p ≫= k) (p' ≫= k').
  Proof.
    intros Hp HT Hk Hn s r s'. rewrite !run_bind. destruct (go p s) as [| |a s1] eqn:Ea; [done..|]. intros Hr HE.
    assert (Ha : T a) by by eapply HT. destruct (decide (E1 a)) as [H1|H1].
    - rewrite (Hp _ _ _ Ea H1). by eapply Hk.
    - destruct (Hn a Ha H1 _ _ _ Hr HE).
  Qed.
  Lemma keeps_then {A B} (E : B → Prop) (p : M A) (k k' : A → M B) : (∀ a, keeps E (k a) (k' a)) → keeps E (p ≫= k) (p ≫= k').
  Proof. intros H s r s'. rewrite !run_bind. destruct (go p s) as [| |a s1]; [done..|]. apply H. Qed.

  (** No errors; a failure has one. *)
  Definition fine {A} (r : res A) : Prop := match r with RSucc _ => True | RRec _ es => es = [] | RPanic _ => False end.
  Definition tells {A} (r : res A) : Prop := match r with RPanic es => es ≠ [] | _ => True end.
  #[global] Instance fine_dec {A} (r : res A) : Decision (fine r).
  Proof. destruct r; cbn; apply _. Defined.
  Definition told {A} (m : M (res A)) : Prop := ends tells m.
  Notation clean := (keeps fine).
  Definition silent {A} (x : A * list perr) : Prop := x.2 = [].
  #[global] Instance silent_dec {A} (x : A * list perr) : Decision (silent x).
  Proof. unfold silent. apply _. Defined.

  Lemma fine_unres {A} (r : res A) : fine r → ∃ x, unres r = (Some x, []).
  Proof. destruct r as [x|x es|es]; [by exists x|intros H; cbn in H; subst; by exists x|done]. Qed.
  Lemma not_fine_unres {A} (r : res A) : tells r → ¬ fine r → (unres r).2 ≠ [].
  Proof. destruct r as [x|x es|es]; cbn; [by intros _ []|done|done]. Qed.
  Lemma fine_into {A} (a : A) es : fine (res_into a es) ↔ es = [].
  Proof. by destruct es. Qed.
  Lemma tells_into {A} (a : A) es : tells (res_into a es).
  Proof. by destruct es. Qed.
  Lemma fine_map {A B} (f : A → B) r : fine (res_map f r) ↔ fine r.
  Proof. by destruct r. Qed.
  Lemma tells_map {A B} (f : A → B) r : tells (res_map f r) ↔ tells r.
  Proof. by destruct r. Qed.
  Lemma app_l {A} (l e : list A) : l ≠ [] → l ++ e ≠ [].
  Proof. by destruct l. Qed.
  Lemma app_r {A} (l e : list A) : e ≠ [] → l ++ e ≠ [].
  Proof. by destruct l. Qed.

  Lemma ends_panic {A} e : ends (λ r : res A, ¬ fine r) (mret (RPanic e)).
  Proof. apply ends_ret. by intros []. Qed.
  (** ** Sequences *)
  Lemma seq_never rec ts acc errs : errs ≠ [] → ends (λ r, ¬ fine r) (produce_seq rec ts acc errs).
  Proof.
    revert acc errs. induction ts as [|t ts IH]; intros acc errs He; cbn [produce_seq].
    - apply ends_ret. by rewrite fine_into.
    - apply ends_then. intros r. destruct (unres r) as [[x|] e]; [apply IH, app_l, He|apply ends_panic].
  Qed.
  Lemma seq_told rec ts acc errs : (∀ t, t ∈ ts → told (rec t)) → told (produce_seq rec ts acc errs).
  Proof.
    revert acc errs. induction ts as [|t ts IH]; intros acc errs H; cbn [produce_seq].
    - apply ends_ret, tells_into.
    - eapply ends_bind; [apply H; set_solver|]. intros r Hr. destruct (unres r) as [[x|] e] eqn:Er; [apply IH; set_solver|].
      apply ends_ret. destruct r; [done..|]. injection Er as <-. by apply app_r.
  Qed.
  Lemma seq_clean rec rec' ts acc : (∀ t, t ∈ ts → told (rec t) ∧ clean (rec t) (rec' t)) →
    clean (produce_seq rec ts acc []) (produce_seq rec' ts acc []).
  Proof.
    revert acc. induction ts as [|t ts IH]; intros acc H; cbn [produce_seq]; [apply keeps_refl|].
    destruct (H t) as [H1 H2]; [set_solver|]. apply (keeps_bind tells fine); [exact H2|exact H1| |].
    - intros r _ Hf. destruct (fine_unres r Hf) as [x ->]. apply IH. set_solver.
    - intros r Hr Hf. apply not_fine_unres in Hf; [|done]. destruct (unres r) as [[x|] e]; cbn in Hf; [by apply seq_never|apply ends_panic].
  Qed.

  (** ** Options, repetitions *)
  Lemma option_told {X} (p : M (res X)) sp set : told (produce_option p sp set).
  Proof.
    unfold produce_option. apply ends_then. intros [x|]; [|by apply ends_then; intros; apply ends_ret].
    destruct (ts_contains set (Some x)); apply ends_then; [|by intros; apply ends_ret].
    intros [y|y es|es]; [by apply ends_ret..|]. apply ends_then. intros. by apply ends_ret.
  Qed.
  Lemma option_clean {X} (p p' : M (res X)) sp set : told p → clean p p' → clean (produce_option p sp set) (produce_option p' sp set).
  Proof.
    intros H1 H2. unfold produce_option. apply keeps_then. intros [x|]; [|apply keeps_refl].
    destruct (ts_contains set (Some x)); [|apply keeps_refl]. apply (keeps_bind tells fine); [exact H2|exact H1| |].
    - intros r _ _. apply keeps_refl.
    - intros [y|y es|es] Ht Hf; cbn in Hf; [by destruct Hf|by apply ends_ret|]. apply ends_then. intros. by apply ends_ret.
  Qed.
  Definition quiet {A B} (x : A * list perr * B) : Prop := x.1.2 = [].
  #[global] Instance quiet_dec {A B} (x : A * list perr * B) : Decision (quiet x).
  Proof. unfold quiet. apply _. Defined.
  Lemma iter_never n p set acc errs hi : errs ≠ [] → ends (λ x, ¬ quiet x) (iter_loop n p set acc errs hi).
  Proof.
    revert acc errs hi. induction n as [|n IH]; intros acc errs hi He; cbn [iter_loop]; [apply ends_fuel|].
    apply ends_then. intros [x|]; [|by apply ends_ret]. destruct (ts_contains set (Some x)); [|by apply ends_ret].
    apply ends_then. intros r. destruct (unres r) as [[y|] e]; [by apply IH, app_l|]. apply ends_ret. by apply app_l.
  Qed.
  Lemma iter_clean n p p' set acc hi : told p → clean p p' → keeps quiet (iter_loop n p set acc [] hi) (iter_loop n p' set acc [] hi).
  Proof.
    intros H1 H2. revert acc hi. induction n as [|n IH]; intros acc hi; cbn [iter_loop]; [apply keeps_refl|].
    apply keeps_then. intros [x|]; [|apply keeps_refl]. destruct (ts_contains set (Some x)); [|apply keeps_refl].
    apply (keeps_bind tells fine); [exact H2|exact H1| |].
    - intros r _ Hf. destruct (fine_unres r Hf) as [y ->]. apply IH.
    - intros r Hr Hf. apply not_fine_unres in Hf; [|done]. destruct (unres r) as [[y|] e]; cbn in Hf; [by apply iter_never|by apply ends_ret].
  Qed.
  Lemma plus_told n p set : told p → told (produce_plus n p set).
  Proof.
    intros H. unfold produce_plus. eapply ends_bind; [exact H|]. intros r Hr. destruct (unres r) as [[x|] e] eqn:Er.
    - apply ends_then. intros [[l es] hi]. apply ends_ret, tells_into.
    - apply ends_ret. destruct r; [done..|]. by injection Er as <-.
  Qed.
  Lemma plus_clean n p p' set : told p → clean p p' → clean (produce_plus n p set) (produce_plus n p' set).
  Proof.
    intros H1 H2. unfold produce_plus. apply (keeps_bind tells fine); [exact H2|exact H1| |].
    - intros r _ Hf. destruct (fine_unres r Hf) as [x ->]. apply (keeps_bind (λ _, True) quiet); [by apply iter_clean|apply ends_any| |].
      + intros [[l es] hi] _ _. apply keeps_refl.
      + intros [[l es] hi] _ Hq. apply ends_ret. by rewrite fine_into.
    - intros r Hr Hf. apply not_fine_unres in Hf; [|done]. destruct (unres r) as [[y|] e]; cbn in Hf; [|apply ends_panic].
      eapply ends_bind; [by apply iter_never|]. intros [[l es] hi] Hq. apply ends_ret. by rewrite fine_into.
  Qed.
  Lemma loop_never n p set acc errs : errs ≠ [] → ends (λ x, ¬ silent x) (loop_loop n p set acc errs).
  Proof.
    revert acc errs. induction n as [|n IH]; intros acc errs He; cbn [loop_loop]; [apply ends_fuel|].
    apply ends_then. intros [x|]; [|by apply ends_ret].
    eapply (ends_bind (λ y : option tok * list perr, y.2 ≠ [])).
    - destruct (ts_contains set (Some x)); [by apply ends_ret|]. apply ends_then. intros sp. apply ends_then. intros _.
      apply ends_then. intros tk. apply ends_then. intros [tk1 hi]. apply ends_ret. by apply app_l.
    - intros [[tk1|] es] H; [|by apply ends_ret]. cbn in H. apply ends_then. intros sp. apply ends_then. intros r.
      destruct (unres r) as [o e]. apply ends_then. intros sp1. destruct (_ =? _).
      + apply ends_ret. by apply app_r.
      + by apply IH, app_l.
  Qed.
  Lemma loop_clean n p p' set acc : told p → clean p p' → keeps silent (loop_loop n p set acc []) (loop_loop n p' set acc []).
  Proof.
    intros H1 H2. revert acc. induction n as [|n IH]; intros acc; cbn [loop_loop]; [apply keeps_refl|].
    apply keeps_then. intros [x|]; [|apply keeps_refl].
    eapply (keeps_bind (λ _, True) silent); [apply keeps_refl|apply ends_any| |].
    - intros [tk1 es] _ E. cbn in E. unfold silent in E. cbn in E. subst es. destruct tk1 as [tk1|]; [|apply keeps_refl].
      apply keeps_then. intros sp. apply (keeps_bind tells fine); [exact H2|exact H1| |].
      + intros r _ Hf. destruct (fine_unres r Hf) as [y ->]. cbn [app]. apply keeps_then. intros sp1. destruct (_ =? _); [apply keeps_refl|]. apply IH.
      + intros r Hr Hf. apply not_fine_unres in Hf; [|done]. destruct (unres r) as [o e]; cbn in Hf. cbn [app]. apply ends_then. intros sp1.
        destruct (_ =? _); [apply ends_ret; by apply app_r|by apply loop_never].
    - intros [[tk1|] es] _ Hs; [|by apply ends_ret]. apply ends_then. intros sp. apply ends_then. intros r. destruct (unres r) as [o e].
      apply ends_then. intros sp1. destruct (_ =? _); [apply ends_ret; by apply app_r|]. apply loop_never. by apply app_l.
  Qed.
  Lemma produce_loop_told n p set : told (produce_loop n p set).
  Proof. unfold produce_loop. apply ends_then. intros [l es]. apply ends_then. intros sp. apply ends_ret, tells_into. Qed.
  Lemma produce_loop_clean n p p' set : told p → clean p p' → clean (produce_loop n p set) (produce_loop n p' set).
  Proof.
    intros H1 H2. unfold produce_loop. apply (keeps_bind (λ _, True) silent); [by apply loop_clean|apply ends_any| |].
    - intros [l es] _ _. apply keeps_refl.
    - intros [l es] _ Hs. apply ends_then. intros sp. apply ends_ret. by rewrite fine_into.
  Qed.

  (** ** Separated lists *)
  Lemma split_inner_never n pT ef pf fol panic errs : errs ≠ [] ∨ is_Some panic → ends (λ x, ¬ quiet x) (split_inner n pT ef pf fol panic errs).
  Proof.
    revert panic errs. induction n as [|n IH]; intros panic errs He; cbn [split_inner]; [apply ends_fuel|].
    apply ends_then. intros tk.
    eapply (ends_bind (λ y : (tree * list perr) + (option tok * option perr),
      match y with inl (_, es) => es ≠ [] | inr (_, p) => errs ≠ [] ∨ is_Some p end)).
    - destruct (_ || _).
      + apply ends_then. intros r. destruct (unres r) as [[y|] e].
        * apply ends_ret. destruct He as [He|[q ->]]; [by apply app_l|]. by apply app_r, app_r.
        * apply ends_then. intros tk'. apply ends_ret. destruct He as [He|He]; [by left|]. right. apply merge_some. by left.
      + destruct panic as [q|]; apply ends_then; intros a; apply ends_ret; right; by eexists.
    - intros [[y es]|[tk' q]] H; [by apply ends_ret|].
      assert (Hq : errs ++ option_list q ≠ []). { destruct H as [H|[q' ->]]; [by apply app_l|by apply app_r]. }
      destruct (ts_contains pf tk'); [by apply ends_ret|]. destruct (_ || _); [by apply ends_ret|]. apply ends_then. intros _. by apply IH.
  Qed.
  Lemma split_inner_clean n pT pT' ef pf fol fol' : told pT → clean pT pT' →
    keeps quiet (split_inner n pT ef pf fol None []) (split_inner n pT' ef pf fol' None []).
  Proof.
    intros H1 H2. destruct n as [|n]; cbn [split_inner]; [apply keeps_refl|]. apply keeps_then. intros tk.
    unshelve eapply (keeps_bind (λ y : (tree * list perr) + (option tok * option perr), match y with inl _ => True | inr (_, p) => is_Some p end)
      (λ y : (tree * list perr) + (option tok * option perr), match y with inl (_, es) => es = [] | inr _ => False end)).
    - intros [[y es]|z]; apply _.
    - destruct (_ || _); [|apply keeps_refl]. apply (keeps_bind tells fine); [exact H2|exact H1| |].
      + intros r _ Hf. destruct (fine_unres r Hf) as [y ->]. apply keeps_refl.
      + intros r Hr Hf. apply not_fine_unres in Hf; [|done]. destruct (unres r) as [[y|] e]; cbn in Hf.
        * apply ends_ret. cbn. by rewrite app_nil_r.
        * apply ends_then. intros tk'. apply ends_ret. by intros [].
    - destruct (_ || _).
      + eapply ends_bind; [exact H1|]. intros r Hr. destruct (unres r) as [[y|] e] eqn:Er; [by apply ends_ret|].
        apply ends_then. intros tk'. apply ends_ret. apply merge_some. right. destruct r; [done..|]. by injection Er as <-.
      + apply ends_then. intros e. apply ends_ret. by eexists.
    - intros [[y es]|[tk' q]] _ H; [apply keeps_refl|done].
    - intros [[y es]|[tk' q]] Hq H; [by apply ends_ret|]. destruct Hq as [q' ->]. cbn [app option_list].
      destruct (ts_contains pf tk'); [by apply ends_ret|]. destruct (_ || _); [by apply ends_ret|]. apply ends_then. intros _.
      apply split_inner_never. right. by eexists.
  Qed.
  Lemma punct_inner_never n pT ef pf fol panic errs : errs ≠ [] ∨ is_Some panic → ends (λ x, ¬ quiet x) (punct_inner n pT ef pf fol panic errs).
  Proof.
    revert panic errs. induction n as [|n IH]; intros panic errs He; cbn [punct_inner]; [apply ends_fuel|].
    assert (Hp : errs ++ option_list panic ≠ []). { destruct He as [He|[q' ->]]; [by apply app_l|by apply app_r]. }
    apply ends_then. intros [x|]; [|by apply ends_ret]. destruct (_ && _); [by apply ends_ret|].
    eapply (ends_bind (λ y : (tree * list perr) + option perr, match y with inl (_, es) => es ≠ [] | inr p => errs ≠ [] ∨ is_Some p end)).
    - destruct (ts_contains ef (Some x)).
      + apply ends_then. intros r. destruct (unres r) as [[y|] e]; apply ends_ret.
        * rewrite (assoc_L (++)). by apply app_l.
        * destruct He as [He|He]; [by left|]. right. apply merge_some. by left.
      + apply ends_then. intros sp. apply ends_ret. right. by eexists.
    - intros [[y es]|q] H; [by apply ends_ret|]. apply ends_then. intros tk'.
      assert (Hq : errs ++ option_list q ≠ []). { destruct H as [H|[q' ->]]; [by apply app_l|by apply app_r]. }
      destruct (ts_contains pf tk'); [by apply ends_ret|]. destruct (_ || _); [by apply ends_ret|]. apply ends_then. intros _. by apply IH.
  Qed.
  Lemma punct_inner_clean n pT pT' ef pf fol fol' : told pT → clean pT pT' →
    (∀ y : tok, ts_contains fol (Some y) = true → ts_contains fol' (Some y) = true) →
    keeps quiet (punct_inner n pT ef pf fol None []) (punct_inner n pT' ef pf fol' None []).
  Proof.
    intros H1 H2 Hf. destruct n as [|n]; cbn [punct_inner]; [apply keeps_refl|]. apply keeps_then. intros [x|]; [|apply keeps_refl].
    destruct (ts_contains ef (Some x)) eqn:Ee; cbn [negb andb].
    - unshelve eapply (keeps_bind (λ y : (tree * list perr) + option perr, match y with inl _ => True | inr p => is_Some p end)
        (λ y : (tree * list perr) + option perr, match y with inl (_, es) => es = [] | inr _ => False end)).
      + intros [[y es]|z]; apply _.
      + apply (keeps_bind tells fine); [exact H2|exact H1| |].
        * intros r _ Hr. destruct (fine_unres r Hr) as [y ->]. apply keeps_refl.
        * intros r Hr Hn. apply not_fine_unres in Hn; [|done]. destruct (unres r) as [[y|] e]; cbn in Hn; apply ends_ret; [done|by intros []].
      + eapply ends_bind; [exact H1|]. intros r Hr. destruct (unres r) as [[y|] e] eqn:Er; apply ends_ret; [done|].
        apply merge_some. right. destruct r; [done..|]. by injection Er as <-.
      + intros [[y es]|q] _ H; [apply keeps_refl|done].
      + intros [[y es]|q] Hq H; [by apply ends_ret|]. destruct Hq as [q' ->]. cbn [app option_list]. apply ends_then. intros tk'.
        destruct (ts_contains pf tk'); [by apply ends_ret|]. destruct (_ || _); [by apply ends_ret|]. apply ends_then. intros _.
        apply punct_inner_never. right. by eexists.
    - destruct (ts_contains fol (Some x)) eqn:El.
      + rewrite (Hf x El). apply keeps_refl.
      + apply keeps_never. eapply (ends_bind (λ y : (tree * list perr) + option perr, match y with inl _ => False | inr p => is_Some p end)).
        { apply ends_then. intros sp. apply ends_ret. by eexists. }
        intros [[y es]|q] Hq; [done|]. destruct Hq as [q' ->]. cbn [app option_list]. apply ends_then. intros tk'.
        destruct (ts_contains pf tk'); [by apply ends_ret|]. destruct (_ || _); [by apply ends_ret|]. apply ends_then. intros _.
        apply punct_inner_never. right. by eexists.
  Qed.
  Lemma split_outer_never n pT pP ef pf fol elems puncts errs : errs ≠ [] → ends (λ x, ¬ silent x) (split_outer n pT pP ef pf fol elems puncts errs).
  Proof.
    revert elems puncts errs. induction n as [|n IH]; intros elems puncts errs He; cbn [split_outer]; [apply ends_fuel|].
    apply ends_then. intros [x|]; [|by apply ends_ret]. destruct (ts_contains pf (Some x)); [|by apply ends_ret].
    apply ends_then. intros r. destruct (unres r) as [[y|] e]; [|by apply ends_ret, app_l].
    eapply ends_bind; [apply split_inner_never; left; by apply app_l|]. intros [[o es] cont] Hq. destruct cont; [by apply IH|by apply ends_ret].
  Qed.
  Lemma punct_outer_never n pT pP ef pf fol elems puncts errs : errs ≠ [] → ends (λ x, ¬ silent x) (punct_outer n pT pP ef pf fol elems puncts errs).
  Proof.
    revert elems puncts errs. induction n as [|n IH]; intros elems puncts errs He; cbn [punct_outer]; [apply ends_fuel|].
    apply ends_then. intros [x|]; [|by apply ends_ret]. destruct (ts_contains pf (Some x)); [|by apply ends_ret].
    apply ends_then. intros r. destruct (unres r) as [[y|] e]; [|by apply ends_ret, app_l].
    eapply ends_bind; [apply punct_inner_never; left; by apply app_l|]. intros [[o es] cont] Hq. destruct cont; [by apply IH|by apply ends_ret].
  Qed.
  Lemma split_outer_clean n pT pT' pP pP' ef pf fol fol' elems puncts : told pT → clean pT pT' → told pP → clean pP pP' →
    keeps silent (split_outer n pT pP ef pf fol elems puncts []) (split_outer n pT' pP' ef pf fol' elems puncts []).
  Proof.
    intros T1 T2 P1 P2. revert elems puncts. induction n as [|n IH]; intros elems puncts; cbn [split_outer]; [apply keeps_refl|].
    apply keeps_then. intros [x|]; [|apply keeps_refl]. destruct (ts_contains pf (Some x)); [|apply keeps_refl].
    apply (keeps_bind tells fine); [exact P2|exact P1| |].
    - intros r _ Hf. destruct (fine_unres r Hf) as [y ->]. apply (keeps_bind (λ _, True) quiet); [by apply split_inner_clean|apply ends_any| |].
      + intros [[o es] cont] _ Hq. unfold quiet in Hq. cbn in Hq. subst es. destruct cont; [apply IH|apply keeps_refl].
      + intros [[o es] cont] _ Hq. destruct cont; [by apply split_outer_never|by apply ends_ret].
    - intros r Hr Hf. apply not_fine_unres in Hf; [|done]. destruct (unres r) as [[y|] e]; cbn in Hf; [|by apply ends_ret].
      eapply ends_bind; [apply split_inner_never; by left|]. intros [[o es] cont] Hq. destruct cont; [by apply split_outer_never|by apply ends_ret].
  Qed.
  Lemma punct_outer_clean n pT pT' pP pP' ef pf fol fol' elems puncts : told pT → clean pT pT' → told pP → clean pP pP' →
    (∀ y : tok, ts_contains fol (Some y) = true → ts_contains fol' (Some y) = true) →
    keeps silent (punct_outer n pT pP ef pf fol elems puncts []) (punct_outer n pT' pP' ef pf fol' elems puncts []).
  Proof.
    intros T1 T2 P1 P2 Hl. revert elems puncts. induction n as [|n IH]; intros elems puncts; cbn [punct_outer]; [apply keeps_refl|].
    apply keeps_then. intros [x|]; [|apply keeps_refl]. destruct (ts_contains pf (Some x)); [|apply keeps_refl].
    apply (keeps_bind tells fine); [exact P2|exact P1| |].
    - intros r _ Hf. destruct (fine_unres r Hf) as [y ->]. apply (keeps_bind (λ _, True) quiet); [by apply punct_inner_clean|apply ends_any| |].
      + intros [[o es] cont] _ Hq. unfold quiet in Hq. cbn in Hq. subst es. destruct cont; [apply IH|apply keeps_refl].
      + intros [[o es] cont] _ Hq. destruct cont; [by apply punct_outer_never|by apply ends_ret].
    - intros r Hr Hf. apply not_fine_unres in Hf; [|done]. destruct (unres r) as [[y|] e]; cbn in Hf; [|by apply ends_ret].
      eapply ends_bind; [apply punct_inner_never; by left|]. intros [[o es] cont] Hq. destruct cont; [by apply punct_outer_never|by apply ends_ret].
  Qed.
  Lemma split_told n pT pP ef pf fol : told pT → told (produce_split n pT pP ef pf fol).
  Proof.
    intros H. unfold produce_split. eapply ends_bind; [exact H|]. intros r Hr. destruct (unres r) as [[x|] e] eqn:Er.
    - apply ends_then. intros [[l ps] es]. apply ends_ret, tells_into.
    - apply ends_ret. destruct r; [done..|]. by injection Er as <-.
  Qed.
  Lemma punct_told n pT pP ef pf fol : told pT → told (produce_punct n pT pP ef pf fol).
  Proof.
    intros H. unfold produce_punct. eapply ends_bind; [exact H|]. intros r Hr. destruct (unres r) as [[x|] e] eqn:Er.
    - apply ends_then. intros [[l ps] es]. apply ends_ret, tells_into.
    - apply ends_ret. destruct r; [done..|]. by injection Er as <-.
  Qed.
  Lemma split_clean n pT pT' pP pP' ef pf fol fol' : told pT → clean pT pT' → told pP → clean pP pP' →
    clean (produce_split n pT pP ef pf fol) (produce_split n pT' pP' ef pf fol').
  Proof.
    intros T1 T2 P1 P2. unfold produce_split. apply (keeps_bind tells fine); [exact T2|exact T1| |].
    - intros r _ Hf. destruct (fine_unres r Hf) as [x ->]. apply (keeps_bind (λ _, True) silent); [by apply split_outer_clean|apply ends_any| |].
      + intros [[l ps] es] _ _. apply keeps_refl.
      + intros [[l ps] es] _ Hq. apply ends_ret. by rewrite fine_into.
    - intros r Hr Hf. apply not_fine_unres in Hf; [|done]. destruct (unres r) as [[y|] e]; cbn in Hf; [|apply ends_panic].
      eapply ends_bind; [by apply split_outer_never|]. intros [[l ps] es] Hq. apply ends_ret. by rewrite fine_into.
  Qed.
  Lemma punct_clean n pT pT' pP pP' ef pf fol fol' : told pT → clean pT pT' → told pP → clean pP pP' →
    (∀ y : tok, ts_contains fol (Some y) = true → ts_contains fol' (Some y) = true) →
    clean (produce_punct n pT pP ef pf fol) (produce_punct n pT' pP' ef pf fol').
  Proof.
    intros T1 T2 P1 P2 Hl. unfold produce_punct. apply (keeps_bind tells fine); [exact T2|exact T1| |].
    - intros r _ Hf. destruct (fine_unres r Hf) as [x ->]. apply (keeps_bind (λ _, True) silent); [by apply punct_outer_clean|apply ends_any| |].
      + intros [[l ps] es] _ _. apply keeps_refl.
      + intros [[l ps] es] _ Hq. apply ends_ret. by rewrite fine_into.
    - intros r Hr Hf. apply not_fine_unres in Hf; [|done]. destruct (unres r) as [[y|] e]; cbn in Hf; [|apply ends_panic].
      eapply ends_bind; [by apply punct_outer_never|]. intros [[l ps] es] Hq. apply ends_ret. by rewrite fine_into.
  Qed.

  (** ** Tokens *)
  Lemma token_told y : told (parse_token y).
  Proof.
    unfold parse_token. apply ends_then. intros [t|]; [destruct (t_ty t =? y)|]; apply ends_then; intros; by apply ends_ret.
  Qed.
  Lemma lit_told y lit fol : told (parse_token_lit y lit fol).
  Proof.
    unfold parse_token_lit. apply ends_then. intros [t|].
    - intros s r s'. cbn [run]. destruct (token_src t (p_src s)) as [x|]; [|done]. revert s r s'.
      enough (H : told (if (t_ty t =? y) && bool_decide ((t_ty t, x).2 = lit) then _ ← consume; mret (RSucc t)
        else if ts_contains fol (Some (t_ty t, x)) then sp ← empty_span; e ← expecting (fs_one y (Some lit)); mret (RRec (Token sp y) [e])
        else e ← expecting (fs_one y (Some lit)); mret (RPanic [e]))) by exact H.
      destruct (_ && _); [|destruct (ts_contains _ _)]; apply ends_then; intros; try (by apply ends_ret). apply ends_then. intros. by apply ends_ret.
    - destruct (ts_contains_e fol); apply ends_then; intros; [|by apply ends_ret]. apply ends_then. intros. by apply ends_ret.
  Qed.
  Lemma lit_clean y lit fol fol' : clean (parse_token_lit y lit fol) (parse_token_lit y lit fol').
  Proof.
    unfold parse_token_lit. apply keeps_then. intros [t|].
    - intros s r s'. cbn [run]. destruct (token_src t (p_src s)) as [x|]; [|done]. revert s r s'.
      destruct (_ && _); [intros s r s'; exact (keeps_refl fine (_ ← consume; mret (RSucc t)) s r s')|].
      destruct (ts_contains fol _).
      + assert (H := ends_then (λ r, ¬ fine r) empty_span (λ sp, e ← expecting (fs_one y (Some lit)); mret (RRec (Token sp y) [e]))).
        intros s r s' Hr Hf. exfalso. refine (H _ s r s' Hr Hf). intros sp. apply ends_then. intros e. by apply ends_ret.
      + assert (H := ends_then (λ r : res token, ¬ fine r) (expecting (fs_one y (Some lit))) (λ e, mret (RPanic [e]))).
        intros s r s' Hr Hf. exfalso. refine (H _ s r s' Hr Hf). intros e. apply ends_ret. by intros [].
    - apply keeps_never. destruct (ts_contains_e fol); apply ends_then; intros a; [apply ends_then; intros b|]; apply ends_ret; [done|by intros []].
  Qed.

  (** ** All types *)
  Lemma produce_free env first L1 L2 jump f t :
    all_within env (λ c, match c with
      | TPunct _ _ => ∀ y, ts_contains (L1 (key c)) (Some y) = true → ts_contains (L2 (key c)) (Some y) = true
      | TRecover _ _ => False
      | _ => True end) t →
    told (produce env first L1 jump f t) ∧ clean (produce env first L1 jump f t) (produce env first L2 jump f t).
  Proof.
    revert t. induction f as [|f IH]; intros t Ht; [split; [apply ends_fuel|apply keeps_refl]|].
    assert (Hsub : ∀ c, c ∈ subs env t → told (produce env first L1 jump f c) ∧ clean (produce env first L1 jump f c) (produce env first L2 jump f c)).
    { intros c Hc. apply IH. intros c' Hc'. apply Ht. by eapply rtc_l. }
    assert (Hown := Ht t (rtc_refl _ _)). cbn beta in Hown. clear Ht IH.
    assert (Hmap : ∀ A (g : A → tree) (p p' : M (res A)), told p ∧ clean p p' → told (r ← p; mret (res_map g r)) ∧ clean (r ← p; mret (res_map g r)) (r ← p'; mret (res_map g r))).
    { intros A g p p' [H1 H2]. split.
      - eapply ends_bind; [exact H1|]. intros r Hr. apply ends_ret. by rewrite tells_map.
      - apply (keeps_bind tells fine); [exact H2|exact H1| |].
        + intros r _ _. apply keeps_refl.
        + intros r _ Hn. apply ends_ret. by rewrite fine_map. }
    destruct t as [n y lit|n|l|t|t|t|t|t|t|t|t|t p|t p|t p]; cbn [ProduceModel.produce].
    - apply Hmap. destruct lit; split; [apply lit_told|apply lit_clean|apply token_told|apply keeps_refl].
    - cbn [subs] in Hsub. destruct (env !! n) as [[fs|vs]|] eqn:En; [| |split; [apply ends_fuel|apply keeps_refl]].
      + split.
        * eapply ends_bind; [apply seq_told; intros c Hc; by apply Hsub|]. intros r Hr. destruct (unres r) as [[xs|] e] eqn:Er.
          -- apply ends_then. intros _. apply ends_ret, tells_into.
          -- apply ends_ret. destruct r; [done..|]. by injection Er as <-.
        * apply (keeps_bind (λ _, True) fine); [by apply seq_clean|apply ends_any| |].
          -- intros r _ _. apply keeps_refl.
          -- intros r _ Hn. destruct r as [xs|xs es|es]; cbn [unres]; [by destruct Hn| |by apply ends_ret; intros []].
             apply ends_then. intros _. apply ends_ret. by rewrite fine_into.
      + assert (Hv : ∀ i t' sem, vs !! i = Some (t', sem) → t' ∈ map fst vs).
        { intros i t' sem Hi. apply elem_of_list_In, in_map_iff. exists (t', sem). split; [done|]. apply elem_of_list_In. by eapply elem_of_list_lookup_2. }
        split.
        * apply ends_then. intros tk. destruct (jump (key (TNamed n)) tk) as [i|]; [|apply ends_then; intros; by apply ends_ret]. cbn [mbind option_bind].
          destruct (vs !! i) as [[t' sem]|] eqn:Ei; [|apply ends_then; intros; by apply ends_ret]. cbn [mbind option_bind].
          eapply ends_bind; [apply (Hsub t'); cbn; by eapply Hv|]. intros r Hr.
          destruct r as [x|x es|es]; destruct sem; try (apply ends_ret; done); apply ends_then; intros; by apply ends_ret.
        * apply keeps_then. intros tk. destruct (jump (key (TNamed n)) tk) as [i|]; [|apply keeps_refl]. cbn [mbind option_bind].
          destruct (vs !! i) as [[t' sem]|] eqn:Ei; [|apply keeps_refl]. cbn [mbind option_bind].
          destruct (Hsub t') as [H1 H2]; [cbn; by eapply Hv|]. apply (keeps_bind tells fine); [exact H2|exact H1| |].
          -- intros r _ _. apply keeps_refl.
          -- intros r Hr Hn. destruct r as [x|x es|es]; destruct sem; try (apply ends_ret; done); apply ends_then; intros; by apply ends_ret.
    - apply Hmap. split; [apply seq_told; intros c Hc; by apply Hsub|by apply seq_clean].
    - apply Hsub. cbn. set_solver.
    - destruct (Hsub t) as [H1 H2]; [cbn; set_solver|]. apply Hmap. split; [apply option_told|by apply option_clean].
    - destruct (Hsub t) as [H1 H2]; [cbn; set_solver|]. apply Hmap. split; [apply option_told|by apply option_clean].
    - destruct (Hsub t) as [H1 H2]; [cbn; set_solver|]. split.
      + eapply ends_bind; [exact H1|]. intros [x|x es|es] Hr; [| |by apply ends_ret]; apply ends_then; intros; by apply ends_ret.
      + apply (keeps_bind tells fine); [exact H2|exact H1| |].
        * intros r _ _. apply keeps_refl.
        * intros [x|x es|es] Hr Hn; [by destruct Hn| |by apply ends_ret]. apply ends_then. intros. by apply ends_ret.
    - destruct (Hsub t) as [H1 H2]; [cbn; set_solver|]. split.
      + eapply ends_bind; [exact H1|]. intros [x|x es|es] Hr; [| |by apply ends_ret]; apply ends_then; intros; by apply ends_ret.
      + apply (keeps_bind tells fine); [exact H2|exact H1| |].
        * intros r _ _. apply keeps_refl.
        * intros [x|x es|es] Hr Hn; [by destruct Hn| |by apply ends_ret]. apply ends_then. intros. by apply ends_ret.
    - destruct (Hsub t) as [H1 H2]; [cbn; set_solver|]. apply Hmap. split; [by apply plus_told|by apply plus_clean].
    - destruct (Hsub t) as [H1 H2]; [cbn; set_solver|]. apply Hmap. split; [apply option_told|]. apply option_clean; [by apply plus_told|by apply plus_clean].
    - destruct (Hsub t) as [H1 H2]; [cbn; set_solver|]. apply Hmap. split; [apply produce_loop_told|by apply produce_loop_clean].
    - destruct (Hsub t) as [H1 H2]; [cbn; set_solver|]. destruct (Hsub p) as [H3 H4]; [cbn; set_solver|]. split; [by apply split_told|by apply split_clean].
    - destruct (Hsub t) as [H1 H2]; [cbn; set_solver|]. destruct (Hsub p) as [H3 H4]; [cbn; set_solver|]. split; [by apply punct_told|by apply punct_clean].
    - done.
  Qed.
End clean.
