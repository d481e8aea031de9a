(** The errors and the nodes of a result are paid for by the operations of the run. *)
From Coq Require Import String NArith.
From stdpp Require Import prelude list strings relations.
From Verif Require Import LexModel LexSpec LexFacts SynSetModel TableModel CfgSpec StreamModel StreamSpec StreamFacts TypeModel
  TypeSpec ProduceModel ParseSpec ProgFacts RunFacts CostSpec CostFacts RankFacts LinearFacts TreeFacts ReportSpec ReportFacts ProgressFacts.
Local Open Scope nat_scope.
#[local] Arguments ts_contains : simpl never.
#[local] Arguments ts_contains_e : simpl never.

Definition size (x : tree) : nat := length (nodes x).
Definition sizes (l : list tree) : nat := length (flat_map nodes l).
Lemma sizes_app a b : sizes (a ++ b) = sizes a + sizes b.
Proof. unfold sizes. by rewrite flat_map_app, app_length. Qed.
Lemma sizes_one x : sizes [x] = size x.
Proof. unfold sizes. cbn. by rewrite app_nil_r. Qed.
Lemma sizes_opt o : sizes (option_list o) = match o with Some x => size x | None => 0 end.
Proof. destruct o; [apply sizes_one|done]. Qed.
Lemma size_seq l : size (TrSeq l) = S (sizes l).
Proof. done. Qed.
Lemma size_list sp l : size (TrList sp l) = S (sizes l).
Proof. done. Qed.
Lemma size_split sp a b : size (TrSplit sp a b) = S (sizes a + sizes b).
Proof. unfold size. cbn [nodes]. cbn [length]. by rewrite app_length. Qed.
Lemma size_punct sp a b : size (TrPunct sp a b) = S (sizes a + sizes b).
Proof. unfold size. cbn [nodes]. cbn [length]. by rewrite app_length. Qed.
Lemma size_recover sp h x : size (TrRecover sp h x) = S (match h with Some y => size y | None => 0 end + size x).
Proof. unfold size. cbn [nodes]. cbn [length]. rewrite app_length. by destruct h. Qed.
Lemma merge_len p e : length (option_list (merge_panic p e)) ≤ length (option_list p) + length e.
Proof.
  unfold merge_panic. destruct (last e) as [x|] eqn:E; [|lia]. apply last_Some in E as [l ->]. rewrite app_length.
  destruct p; cbn; lia.
Qed.

Section gk.
  Variable env : denv.
  (** Nesting by way of structs, tuples and what stands for its item. *)
  Fixpoint gk (r : nat) (t : ty) : Prop :=
    match r with
    | O => False
    | S r => match t with
      | TNamed n => match env !! n with Some (DStruct fs) => ∀ t, t ∈ map fst fs → gk r t | _ => True end
      | TTuple ts => ∀ t, t ∈ ts → gk r t
      | TBox t | TQuote t | TParse t | TPlus t | TSplit t _ | TPunct t _ => gk r t
      | _ => True
      end
    end.
  Lemma gk_mono r r' t : r ≤ r' → gk r t → gk r' t.
  Proof.
    revert r' t. induction r as [|r IH]; intros r' t Hle; [done|]. destruct r' as [|r']; [lia|].
    assert (H : ∀ t, gk r t → gk r' t) by (intros; apply IH; [lia|done]).
    destruct t as [nm y lit|n|ts|t|t|t|t|t|t|t|t|t d|t d|t d]; cbn [gk]; auto.
    destruct (env !! n) as [[fs|vs]|]; auto.
  Qed.
  Lemma gk_list (ts : list ty) : (∀ t, t ∈ ts → ∃ r, gk r t) → ∃ r, ∀ t, t ∈ ts → gk r t.
  Proof. apply common_bound. intros n m t. apply gk_mono. Qed.
  Lemma grounded_gk t : grounded env t → ∃ r, gk r t.
  Proof.
    induction 1 as [| n fs En H IH| n vs En|ts H IH| t H [r Hr]|t H [r Hr]|t H [r Hr]|t H [r Hr]|t d H [r Hr]|t d H [r Hr]|t|t|t|t|t r];
      try (by exists 1); try (by exists (S r)).
    - destruct (gk_list (map fst fs) IH) as [r Hr]. exists (S r). cbn [gk]. by rewrite En.
    - exists 1. cbn [gk]. by rewrite En.
    - destruct (gk_list ts IH) as [r Hr]. by exists (S r).
  Qed.
End gk.

Section pays.
  (** What an operation is worth. *)
  Variable K : nat.
  Hypothesis HK : 1 ≤ K.
  (** Whatever the operations answer, what is left of [n] and of the worth of the operations
      covers [E a] for the value [a]. *)
  Fixpoint pays {A} (E : A → nat) (n : nat) (m : M A) : Prop :=
    match m with
    | Ret a => E a ≤ n
    | Fuel => True
    | Peek k => ∀ x, pays E (n + K) (k x)
    | ToSrc _ k => ∀ x, pays E (n + K) (k x)
    | Consume k => ∀ x, pays E (n + K) (k x)
    | EmptySpan k => ∀ x, pays E (n + K) (k x)
    | CurSpan k => ∀ x, pays E (n + K) (k x)
    | GetSrc _ k => ∀ x, pays E (n + K) (k x)
    | Apply _ _ k => pays E (n + K) k
    | Extend _ k => pays E (n + K) k
    end.
  Lemma pays_acost {A} (E : A → nat) n (m : M A) s a s' : pays E n m → arun m s = ODone a s' → E a ≤ n + K * acost m s.
  Proof.
    revert n s. induction m as [| |k IH|t k IH|k IH|k IH|k IH|sp k IH|sp sem k IH|es k IH]; intros n s; cbn [pays arun acost]; intros H Hr;
      try done; try (by apply IH with (n := n + K) in Hr; [lia|]).
    - injection Hr as -> ->. lia.
    - destruct (token_src t (a_src s)); [|done]. apply IH with (n := n + K) in Hr; [lia|done].
    - destruct (a_rest s); (apply IH with (n := n + K) in Hr; [lia|done]).
    - destruct (span_get sp (a_src s)); [|done]. apply IH with (n := n + K) in Hr; [lia|done].
  Qed.
  Lemma pays_mono {A} (E E' : A → nat) n n' c (m : M A) : pays E n m → n + c ≤ n' → (∀ a, E' a ≤ E a + c) → pays E' n' m.
  Proof.
    intros H Hn HE. revert n n' Hn H. induction m as [a| |k IH|t k IH|k IH|k IH|k IH|sp k IH|sp sem k IH|es k IH]; intros n n' Hn; cbn [pays]; intros H;
      try done; try (intros x; specialize (H x)); try (eapply IH; [|done]; lia). specialize (HE a). lia.
  Qed.
  Lemma pays_bind {A B} (E1 : A → nat) (E2 : B → nat) n (m : M A) (f : A → M B) :
    pays E1 n m → (∀ a n', E1 a ≤ n' → pays E2 n' (f a)) → pays E2 n (m ≫= f).
  Proof.
    intros H Hf. rewrite bindM_eq. revert n H. induction m as [a| |k IH|t k IH|k IH|k IH|k IH|sp k IH|sp sem k IH|es k IH]; intros n; cbn [pays bindM]; auto.
  Qed.
  (** A call, [c] being kept. *)
  Lemma pays_call {A B} c (E1 : A → nat) (E2 : B → nat) n0 n (m : M A) (f : A → M B) :
    pays E1 n0 m → n0 + c ≤ n → (∀ a n', E1 a + c ≤ n' → pays E2 n' (f a)) → pays E2 n (m ≫= f).
  Proof.
    intros H Hn Hf. apply (pays_bind (λ a, E1 a + c)); [|done]. eapply pays_mono; [exact H|exact Hn|done].
  Qed.
  Lemma pays_ret {A} (E : A → nat) n a : E a ≤ n → pays E n (mret a).
  Proof. done. Qed.
  Lemma pays_le {A} (E : A → nat) n n' (m : M A) : pays E n m → n ≤ n' → pays E n' m.
  Proof. intros H Hn. eapply (pays_mono E E n n' 0); [done|lia|]. intros; cbn beta; lia. Qed.
  Lemma pays_peek {B} (E : B → nat) n (f : option tok → M B) : (∀ x n', n + K ≤ n' → pays E n' (f x)) → pays E n (peek_src ≫= f).
  Proof.
    intros H. apply (pays_bind (λ _, n + K)); [|intros; by apply H]. unfold peek_src. cbn [pays]. intros [t|]; cbn [pays]; [|lia]. intros x. lia.
  Qed.
  Lemma pays_cur {B} (E : B → nat) n (f : span → M B) : (∀ x, pays E (n + K) (f x)) → pays E n (cur_span ≫= f).
  Proof. intros H. apply (pays_bind (λ _, n + K)); [intros ?; cbn; lia|]. intros; by eapply pays_le. Qed.
  Lemma pays_empty {B} (E : B → nat) n (f : span → M B) : (∀ x, pays E (n + K) (f x)) → pays E n (empty_span ≫= f).
  Proof. intros H. apply (pays_bind (λ _, n + K)); [intros ?; cbn; lia|]. intros; by eapply pays_le. Qed.
  Lemma pays_expecting {B} (E : B → nat) n set (f : perr → M B) : (∀ x, pays E (n + K) (f x)) → pays E n (expecting set ≫= f).
  Proof. intros H. apply (pays_bind (λ _, n + K)); [unfold expecting; intros ?; cbn; lia|]. intros; by eapply pays_le. Qed.
  Lemma pays_consume {B} (E : B → nat) n (f : option token → M B) : (∀ x, pays E (n + K) (f x)) → pays E n (consume ≫= f).
  Proof. intros H. apply (pays_bind (λ _, n + K)); [intros ?; cbn; lia|]. intros; by eapply pays_le. Qed.
  Lemma pays_src {B} (E : B → nat) n sp (f : string → M B) : (∀ x, pays E (n + K) (f x)) → pays E n (get_src sp ≫= f).
  Proof. intros H. apply (pays_bind (λ _, n + K)); [intros ?; cbn; lia|]. intros; by eapply pays_le. Qed.
  Lemma pays_apply {B} (E : B → nat) n sp sem (f : unit → M B) : pays E (n + K) (f tt) → pays E n (apply_semantic sp sem ≫= f).
  Proof. intros H. apply (pays_bind (λ _, n + K)); [cbn; lia|]. intros []; intros; by eapply pays_le. Qed.
  Lemma pays_fields n fs xs : pays (λ _, n) n (apply_fields fs xs).
  Proof.
    revert xs. induction fs as [|[t [sem|]] fs IH]; intros [|x xs]; cbn [apply_fields]; try (by apply pays_ret); [|done].
    apply pays_apply. eapply pays_le; [apply IH|lia].
  Qed.

  Definition Ez {A} (z : A → nat) (r : res A) : nat := length (unres r).2 + match (unres r).1 with Some x => z x | None => 0 end.
  Notation Er := (Ez size).
  Lemma Ez_into {A} (z : A → nat) a es : Ez z (res_into a es) = length es + z a.
  Proof. unfold Ez. by destruct es. Qed.
  Lemma Ez_map {A B} (z : A → nat) (y : B → nat) c (g : A → B) r : (∀ x, y (g x) ≤ z x + c) → Ez y (res_map g r) ≤ Ez z r + c.
  Proof. intros H. unfold Ez. destruct r as [x|x e|e]; cbn; try specialize (H x); lia. Qed.
  Definition chd (c : nat) (p : M (res tree)) : Prop := pays (λ r, Er r + c) 0 p.

  Lemma chd_le c c' p : chd c p → c' ≤ c → chd c' p.
  Proof. intros H Hc. eapply (pays_mono _ _ 0 0 0); [exact H|lia|]. intros; cbn beta; lia. Qed.
  Lemma seq_pays rec ts acc errs c n : length errs + sizes acc + c ≤ n → (∀ t, t ∈ ts → chd 0 (rec t)) →
    pays (λ r, Ez sizes r + c) n (produce_seq rec ts acc errs).
  Proof.
    revert acc errs n. induction ts as [|t ts IH]; intros acc errs n Hn Hrec; cbn [produce_seq].
    - apply pays_ret. rewrite Ez_into. lia.
    - apply (pays_call n (λ r, Er r + 0) _ 0); [apply Hrec; set_solver|lia|]. intros r n' Hn'. unfold Ez in Hn'.
      destruct (unres r) as [[x|] e]; cbn [fst snd] in Hn'.
      + apply IH; [|intros; apply Hrec; set_solver]. rewrite app_length, sizes_app, sizes_one. lia.
      + apply pays_ret. unfold Ez. cbn. rewrite app_length. lia.
  Qed.
  Lemma seq_first rec t ts c n : chd c (rec t) → (∀ t, t ∈ ts → chd 0 (rec t)) →
    pays (λ r, Ez sizes r + c) n (produce_seq rec (t :: ts) [] []).
  Proof.
    intros Hc Hrec. cbn [produce_seq]. apply (pays_call n (λ r, Er r + c) _ 0); [done|lia|]. intros r n' Hn'. unfold Ez in Hn'.
    destruct (unres r) as [[x|] e]; cbn [fst snd] in Hn'.
    - apply seq_pays; [|done]. cbn [app]. rewrite sizes_one. lia.
    - apply pays_ret. unfold Ez. cbn. lia.
  Qed.
  Lemma option_pays {X} (z : X → nat) (p : M (res X)) sp set : pays (Ez z) 0 p →
    pays (λ r, Ez (λ '(_, o), match o with Some x => z x | None => 0 end) r + K) 0 (produce_option p sp set).
  Proof.
    intros Hp. unfold produce_option. apply pays_peek. intros tk n Hn.
    assert (Hnone : pays (λ r, Ez (λ '(_, o), match o with Some x => z x | None => 0 end) r + K) n (e ← empty_span; mret (RSucc (e, @None X)))).
    { apply pays_empty. intros x. apply pays_ret. cbn. lia. }
    destruct tk as [x|]; [|done]. destruct (ts_contains set (Some x)); [|done].
    apply (pays_call n (Ez z) _ 0); [done|lia|]. intros r n' Hn'. unfold Ez in *. destruct r as [t|t es|es]; cbn in Hn'.
    - apply pays_ret. cbn. lia.
    - apply pays_ret. cbn. lia.
    - apply pays_empty. intros y. apply pays_ret. cbn. lia.
  Qed.
  Lemma iter_pays p m set acc errs hi c n : chd 0 p → length errs + sizes acc + c ≤ n →
    pays (λ '(l, es, _), length es + sizes l + c + K) n (iter_loop m p set acc errs hi).
  Proof.
    intros Hp. revert acc errs hi n. induction m as [|m IH]; intros acc errs hi n Hn; cbn [iter_loop]; [done|].
    apply pays_peek. intros tk n1 Hn1. destruct tk as [x|]; [|apply pays_ret; lia]. destruct (ts_contains set (Some x)); [|apply pays_ret; lia].
    apply (pays_call n1 (λ r, Er r + 0) _ 0); [done|lia|]. intros r n' Hn'. unfold Ez in Hn'.
    destruct (unres r) as [[y|] e]; cbn [fst snd] in Hn'.
    - apply IH. rewrite app_length, sizes_app, sizes_one. lia.
    - apply pays_ret. rewrite app_length. lia.
  Qed.
  Lemma plus_pays p m set c : chd c p → pays (λ r, Ez (λ '(_, l), sizes l + K) r + c) 0 (produce_plus m p set).
  Proof.
    intros Hp. unfold produce_plus. apply (pays_call 0 (λ r, Er r + c) _ 0); [done|lia|]. intros r n Hn. unfold Ez in Hn.
    destruct (unres r) as [[y|] e]; cbn [fst snd] in Hn; [|apply pays_ret; unfold Ez; cbn; lia].
    eapply pays_bind; [apply (iter_pays p m set [y] e (tree_hi y) c n)|].
    { apply (chd_le c); [done|lia]. }
    { rewrite sizes_one. lia. }
    intros [[l es] h] n' Hn'. apply pays_ret. rewrite Ez_into. lia.
  Qed.
  Lemma skip_pays m set tk hi n : pays (λ _, n) n (skip_loop m set tk hi).
  Proof.
    revert tk hi n. induction m as [|m IH]; intros tk hi n; cbn [skip_loop]; [done|].
    destruct tk as [x|]; [|by apply pays_ret]. destruct (ts_contains set (Some x)); [by apply pays_ret|].
    apply pays_cur. intros sp. apply pays_consume. intros _. apply pays_peek. intros tk' n' Hn'.
    eapply (pays_mono _ _ n' n' 0); [apply IH|lia|]. intros a. cbn beta. lia.
  Qed.
  Lemma loop_pays p m set acc errs c n : chd 0 p → length errs + sizes acc + c ≤ n →
    pays (λ '(l, es), length es + sizes l + c + K) n (loop_loop m p set acc errs).
  Proof.
    intros Hp. revert acc errs n. induction m as [|m IH]; intros acc errs n Hn; cbn [loop_loop]; [done|].
    apply pays_peek. intros tk n1 Hn1. destruct tk as [x|]; [|apply pays_ret; lia].
    apply (pays_bind (λ '(_, es), length es + sizes acc + c + K)).
    { destruct (ts_contains set (Some x)); [apply pays_ret; lia|].
      apply pays_cur. intros sp. apply pays_consume. intros _. apply pays_peek. intros tk' n' Hn'.
      eapply pays_bind; [apply skip_pays|]. intros [t1 h] n2 Hn2. apply pays_ret. rewrite app_length. cbn. lia. }
    intros [t1 es1] n2 Hn2. destruct t1; [|apply pays_ret; lia].
    apply pays_cur. intros sp. apply (pays_call (n2 + K) (λ r, Er r + 0) _ 0); [done|lia|]. intros r n3 Hn3. unfold Ez in Hn3.
    destruct (unres r) as [o e]; cbn [fst snd] in Hn3. apply pays_cur. intros sp1. destruct (_ =? _).
    - apply pays_ret. rewrite !app_length, sizes_app, sizes_opt. cbn. lia.
    - apply IH. rewrite app_length, sizes_app, sizes_opt. lia.
  Qed.
  Lemma produce_loop_pays p m set : chd 0 p → pays (λ r, Ez (λ '(_, l), sizes l) r + K) 0 (produce_loop m p set).
  Proof.
    intros Hp. unfold produce_loop. eapply pays_bind; [apply (loop_pays p m set [] [] 0 0 Hp); cbn; lia|].
    intros [l es] n Hn. cbn beta in Hn. apply (pays_bind (λ _, n)).
    - destruct (head l), (last l); try (by apply pays_ret); cbn; lia.
    - intros sp n' Hn'. apply pays_ret. rewrite Ez_into. lia.
  Qed.

  Lemma split_inner_pays pT m ef pf fol panic errs c n : chd 0 pT → length errs + length (option_list panic) + c ≤ n →
    pays (λ '(o, es, _), length es + sizes (option_list o) + c) n (split_inner m pT ef pf fol panic errs).
  Proof.
    intros HT. revert panic errs n. induction m as [|m IH]; intros panic errs n Hn; cbn [split_inner]; [done|].
    apply pays_peek. intros tk n1 Hn1.
    apply (pays_bind (λ step, match step with
      | inl (t, es) => length es + size t + c
      | inr (_, p') => length errs + length (option_list p') + c end)).
    { destruct (_ || _).
      - apply (pays_call n1 (λ r, Er r + 0) _ 0); [done|lia|]. intros r n' Hn'. unfold Ez in Hn'.
        destruct (unres r) as [[y|] e]; cbn [fst snd] in Hn'.
        + apply pays_ret. rewrite !app_length. lia.
        + apply pays_peek. intros tk' n2 Hn2. apply pays_ret. assert (H := merge_len panic e). lia.
      - destruct panic as [p|].
        + apply pays_cur. intros sp. apply pays_ret. cbn in *. lia.
        + apply pays_expecting. intros e. apply pays_ret. cbn in *. lia. }
    intros [[x es]|[tk' p']] n2 Hn2; [apply pays_ret; rewrite sizes_opt; lia|].
    destruct (ts_contains pf tk'); [apply pays_ret; rewrite app_length; cbn; lia|].
    destruct (_ || _); [apply pays_ret; rewrite app_length; cbn; lia|].
    apply pays_consume. intros _. apply IH. lia.
  Qed.
  Lemma split_outer_pays pT pP m ef pf fol elems puncts errs c n : chd 0 pT → chd 0 pP →
    length errs + sizes elems + sizes puncts + c ≤ n →
    pays (λ '(l, q, es), length es + sizes l + sizes q + c + K) n (split_outer m pT pP ef pf fol elems puncts errs).
  Proof.
    intros HT HP. revert elems puncts errs n. induction m as [|m IH]; intros elems puncts errs n Hn; cbn [split_outer]; [done|].
    apply pays_peek. intros tk n1 Hn1. destruct tk as [x|]; [|apply pays_ret; lia]. destruct (ts_contains pf (Some x)); [|apply pays_ret; lia].
    apply (pays_call n1 (λ r, Er r + 0) _ 0); [done|lia|]. intros r n2 Hn2. unfold Ez in Hn2.
    destruct (unres r) as [[q|] e]; cbn [fst snd] in Hn2; [|apply pays_ret; rewrite app_length; lia].
    eapply pays_bind; [apply (split_inner_pays pT m ef pf fol None (errs ++ e) (sizes elems + sizes puncts + size q + c + K) n2 HT)|].
    { rewrite app_length. cbn. lia. }
    intros [[o es] b] n3 Hn3. cbn beta in Hn3. cbn zeta.
    assert (H : length es + sizes (elems ++ option_list o) + sizes (match o with Some _ => puncts ++ [q] | None => puncts end) + c + K ≤ n3).
    { rewrite sizes_app. destruct o; [rewrite sizes_app, sizes_one|]; lia. }
    destruct b; [apply IH; lia|apply pays_ret; lia].
  Qed.
  Lemma split_pays pT pP m ef pf fol c : chd c pT → chd 0 pP → pays (λ r, Er r + c) 0 (produce_split m pT pP ef pf fol).
  Proof.
    intros HT HP. unfold produce_split. apply (pays_call 0 (λ r, Er r + c) _ 0); [done|lia|]. intros r n Hn. unfold Ez in Hn.
    destruct (unres r) as [[y|] e]; cbn [fst snd] in Hn; [|apply pays_ret; unfold Ez; cbn; lia].
    eapply pays_bind; [apply (split_outer_pays pT pP m ef pf fol [y] [] e c n)|].
    { apply (chd_le c); [done|lia]. }
    { done. }
    { rewrite sizes_one. cbn. lia. }
    intros [[l q] es] n' Hn'. apply pays_ret. rewrite Ez_into, size_split. lia.
  Qed.
  Lemma punct_inner_pays pT m ef pf fol panic errs c n : chd 0 pT → length errs + length (option_list panic) + c ≤ n →
    pays (λ '(o, es, _), length es + sizes (option_list o) + c) n (punct_inner m pT ef pf fol panic errs).
  Proof.
    intros HT. revert panic errs n. induction m as [|m IH]; intros panic errs n Hn; cbn [punct_inner]; [done|].
    apply pays_peek. intros tk n1 Hn1. destruct tk as [x|]; [|apply pays_ret; rewrite app_length; cbn; lia].
    destruct (_ && _); [apply pays_ret; rewrite app_length; cbn; lia|].
    apply (pays_bind (λ step, match step with
      | inl (t, es) => length es + size t + c
      | inr p' => length errs + length (option_list p') + c end)).
    { destruct (ts_contains ef (Some x)).
      - apply (pays_call n1 (λ r, Er r + 0) _ 0); [done|lia|]. intros r n' Hn'. unfold Ez in Hn'.
        destruct (unres r) as [[y|] e]; cbn [fst snd] in Hn'; apply pays_ret.
        + rewrite !app_length. lia.
        + assert (H := merge_len panic e). lia.
      - apply pays_cur. intros sp. apply pays_ret. destruct panic; cbn in *; lia. }
    intros [[y es]|p'] n2 Hn2; [apply pays_ret; rewrite sizes_opt; lia|].
    apply pays_peek. intros tk' n3 Hn3.
    destruct (ts_contains pf tk'); [apply pays_ret; rewrite app_length; cbn; lia|].
    destruct (_ || _); [apply pays_ret; rewrite app_length; cbn; lia|].
    apply pays_consume. intros _. apply IH. lia.
  Qed.
  Lemma punct_outer_pays pT pP m ef pf fol elems puncts errs c n : chd 0 pT → chd 0 pP →
    length errs + sizes elems + sizes puncts + c ≤ n →
    pays (λ '(l, q, es), length es + sizes l + sizes q + c + K) n (punct_outer m pT pP ef pf fol elems puncts errs).
  Proof.
    intros HT HP. revert elems puncts errs n. induction m as [|m IH]; intros elems puncts errs n Hn; cbn [punct_outer]; [done|].
    apply pays_peek. intros tk n1 Hn1. destruct tk as [x|]; [|apply pays_ret; lia]. destruct (ts_contains pf (Some x)); [|apply pays_ret; lia].
    apply (pays_call n1 (λ r, Er r + 0) _ 0); [done|lia|]. intros r n2 Hn2. unfold Ez in Hn2.
    destruct (unres r) as [[q|] e]; cbn [fst snd] in Hn2; [|apply pays_ret; rewrite app_length; lia].
    eapply pays_bind; [apply (punct_inner_pays pT m ef pf fol None (errs ++ e) (sizes elems + sizes puncts + size q + c + K) n2 HT)|].
    { rewrite app_length. cbn. lia. }
    intros [[o es] b] n3 Hn3. cbn beta in Hn3. cbn zeta.
    destruct b; [apply IH|apply pays_ret]; rewrite !sizes_app, sizes_one; lia.
  Qed.
  Lemma punct_pays pT pP m ef pf fol c : chd c pT → chd 0 pP → pays (λ r, Er r + c) 0 (produce_punct m pT pP ef pf fol).
  Proof.
    intros HT HP. unfold produce_punct. apply (pays_call 0 (λ r, Er r + c) _ 0); [done|lia|]. intros r n Hn. unfold Ez in Hn.
    destruct (unres r) as [[y|] e]; cbn [fst snd] in Hn; [|apply pays_ret; unfold Ez; cbn; lia].
    eapply pays_bind; [apply (punct_outer_pays pT pP m ef pf fol [y] [] e c n)|].
    { apply (chd_le c); [done|lia]. }
    { done. }
    { rewrite sizes_one. cbn. lia. }
    intros [[l q] es] n' Hn'. apply pays_ret. rewrite Ez_into, size_punct. lia.
  Qed.
  Lemma recover_loop_pays pR m tf panic errs c n : chd 0 pR → length errs + length (option_list panic) + c ≤ n →
    pays (λ '(o, p', es), length es + length (option_list p') + sizes (option_list o) + c) n (recover_loop m pR tf panic errs).
  Proof.
    intros HR. revert panic errs n. induction m as [|m IH]; intros panic errs n Hn; cbn [recover_loop]; [done|].
    apply pays_peek. intros tk n1 Hn1. destruct tk as [x|].
    - apply (pays_bind (λ step, match step with
        | inl (t, es) => length es + length (option_list panic) + size t + c
        | inr p' => length errs + length (option_list p') + c end)).
      { destruct (_ || _); [|apply pays_ret; lia].
        apply (pays_call n1 (λ r, Er r + 0) _ 0); [done|lia|]. intros r n' Hn'. unfold Ez in Hn'.
        destruct (unres r) as [[y|] e]; cbn [fst snd] in Hn'; apply pays_ret.
        + rewrite !app_length. lia.
        + assert (H := merge_len panic e). lia. }
      intros [[y es]|p'] n2 Hn2; [apply pays_ret; rewrite sizes_opt; lia|].
      apply (pays_bind (λ _, length errs + 1 + c)).
      { destruct p' as [p'|].
        - apply pays_cur. intros sp. apply pays_ret. cbn in Hn2. lia.
        - unfold expecting. cbn. lia. }
      intros p n3 Hn3. apply pays_consume. intros _. apply IH. cbn. lia.
    - destruct (ts_contains_e tf); [|apply pays_ret; cbn; lia].
      apply (pays_call n1 (λ r, Er r + 0) _ 0); [done|lia|]. intros r n' Hn'. unfold Ez in Hn'.
      destruct (unres r) as [[y|] e]; cbn [fst snd] in Hn'; apply pays_ret.
      + rewrite app_length, sizes_opt. lia.
      + assert (H := merge_len panic e). cbn. lia.
  Qed.
  Lemma recover_pays pT pR m hf tf : chd 0 pT → chd 0 pR → pays (λ r, Er r + (K - 1)) 0 (produce_recover m pT pR hf tf).
  Proof.
    intros HT HR. unfold produce_recover. apply pays_peek. intros tk n Hn.
    apply (pays_bind (λ '(p, _, hd, es), length es + length (option_list p) + sizes (option_list hd) + K)).
    { destruct (_ || _).
      - apply (pays_call n (λ r, Er r + 0) _ 0); [done|lia|]. intros r n' Hn'. unfold Ez in Hn'.
        destruct (unres r) as [[y|] e]; cbn [fst snd] in Hn'.
        + apply pays_ret. rewrite sizes_opt. cbn. lia.
        + apply pays_empty. intros sp. apply pays_ret. assert (H := merge_len None e). unfold merge_panic in H.
          destruct (last e); cbn in *; lia.
      - apply pays_expecting. intros e. apply pays_empty. intros sp. apply pays_ret. cbn. lia. }
    intros [[[p hsp] hd] es] n1 Hn1.
    eapply pays_bind; [apply (recover_loop_pays pR m tf p es (sizes (option_list hd) + K) n1 HR); lia|].
    intros [[tl p'] es'] n2 Hn2. cbn zeta. cbn beta in Hn2. rewrite !sizes_opt in Hn2. destruct tl; apply pays_ret.
    - rewrite Ez_into, size_recover, app_length. lia.
    - unfold Ez. cbn. rewrite app_length. lia.
  Qed.

  (** * All types *)
  Variable env : denv.
  Notation gk := (gk env).
  Variable root : ty.
  Hypothesis Hfl : filled env root.
  Hypothesis Hgk : ∀ t, within env root t → gk (K - 1) t.
  Variables (first follow : prod → tset) (jump : prod → option tok → option nat).
  Notation produce := (produce env first follow jump).

  Lemma res_map_pays {A B} (z : A → nat) (y : B → nat) c d (g : A → B) (p : M (res A)) :
    pays (λ r, Ez z r + (c + d)) 0 p → (∀ x, y (g x) ≤ z x + c) → pays (λ r, Ez y r + d) 0 (r ← p; mret (res_map g r)).
  Proof.
    intros H Hz. eapply pays_bind; [exact H|]. intros r n Hn. cbn beta in Hn. apply pays_ret.
    assert (H' := Ez_map z y c g r Hz). lia.
  Qed.
  Lemma size_quote sp x : size (TrQuote sp x) = 1.
  Proof. done. Qed.
  Lemma size_parse sp x : size (TrParse sp x) = 1.
  Proof. done. Qed.
  Lemma size_pos x : 1 ≤ size x.
  Proof. destruct x; cbn; lia. Qed.

  Lemma produce_pays f t g : within env root t → gk g t → g ≤ K - 1 → chd (K - 1 - g) (produce f t).
  Proof using Hfl Hgk HK.
    revert t g. induction f as [|f IH]; intros t g Hw Hg Hle; [done|].
    assert (Hsub : ∀ c, c ∈ subs env t → within env root c) by (intros c Hc; by eapply rtc_r).
    assert (H0 : ∀ c, c ∈ subs env t → chd 0 (produce f c)).
    { intros c Hc. eapply chd_le; [apply (IH c (K - 1)); [by apply Hsub|by apply Hgk, Hsub|done]|lia]. }
    assert (Hh : filled env t) by (intros t' Ht'; apply Hfl; by eapply rtc_transitive). apply all_within_here in Hh.
    destruct g as [|g]; [done|].
    assert (H1 : ∀ c, c ∈ subs env t → gk g c → chd (K - 1 - g) (produce f c)).
    { intros c Hc Hgc. apply IH; [by apply Hsub|done|lia]. }
    unfold chd.
    destruct t as [n y lit|n|ts|t|t|t|t|t|t|t|t|t d|t d|t r]; cbn [ProduceModel.produce]; cbn [gk] in Hg.
    - apply (res_map_pays (λ _ : token, 1) size 0); [|intros; cbn; lia].
      destruct lit as [l|].
      + unfold parse_token_lit, peek. cbn. intros [tk|]; cbn.
        * intros x. destruct (_ && _); cbn; [intros; unfold Ez; cbn; lia|].
          destruct (ts_contains _ _); cbn; intros; unfold Ez; cbn; lia.
        * destruct (ts_contains_e _); cbn; intros; unfold Ez; cbn; lia.
      + unfold parse_token, peek. cbn. intros [tk|]; cbn; [|intros; unfold Ez; cbn; lia].
        destruct (_ =? _); cbn; intros; unfold Ez; cbn; lia.
    - cbn [subs] in *. destruct (env !! n) as [[fs|vs]|] eqn:En; [| |done].
      + cbn in Hsub, H0, H1. destruct fs as [|fd fs]; [done|]. cbn [map] in *.
        eapply pays_bind; [apply (seq_first _ (fst fd) (map fst fs) (K - 1 - g) 0)|].
        { apply H1; [set_solver|apply Hg; set_solver]. }
        { intros c Hc. apply H0. set_solver. }
        intros r n' Hn'. unfold Ez in Hn'. destruct (unres r) as [[xs|] e]; cbn [fst snd] in Hn'.
        * eapply pays_bind; [apply (pays_fields n')|]. intros [] n2 Hn2. apply pays_ret. rewrite Ez_into, size_seq. lia.
        * apply pays_ret. unfold Ez. cbn. lia.
      + apply pays_peek. intros tk n' Hn'. destruct (i ← _; _) as [[i [t' sem]]|] eqn:Ei.
        2: { apply pays_expecting. intros e. apply pays_ret. unfold Ez. cbn. lia. }
        assert (vs !! i = Some (t', sem)) as Hi.
        { destruct (jump (key (TNamed n)) tk) as [i'|]; [|done]. cbn in Ei.
          destruct (vs !! i') eqn:E; [|done]. cbn in Ei. injection Ei as -> ->. done. }
        assert (Ht2 : t' ∈ map fst vs).
        { apply elem_of_list_lookup_2 in Hi. by apply elem_of_list_In, (in_map fst), elem_of_list_In in Hi. }
        apply (pays_call n' (λ r, Er r + 0) _ 0); [by apply H0|lia|]. intros r n2 Hn2.
        assert (Hm := Ez_map size size 1 (TrVar i) r).
        assert (Ez size (res_map (TrVar i) r) ≤ Er r + 1) by (apply Hm; intros x; cbn; unfold size; lia).
        destruct r, sem; try (apply pays_ret; lia); apply pays_apply, pays_ret; lia.
    - cbn [subs] in *. destruct ts as [|t ts]; [done|].
      apply (res_map_pays sizes size 1).
      + eapply (pays_mono _ _ 0 0 0); [apply (seq_first _ t ts (K - 1 - g) 0)| |].
        * apply H1; [set_solver|apply Hg; set_solver].
        * intros c Hc. apply H0. set_solver.
        * lia.
        * intros r. cbn beta. lia.
      + intros l. rewrite size_seq. lia.
    - eapply (pays_mono _ _ 0 0 0); [apply (H1 t); [cbn; set_solver|done]|lia|]. intros; cbn beta; lia.
    - apply (res_map_pays (λ '(_, o), match o with Some x => size x | None => 0 end) size 1).
      + eapply (pays_mono _ _ 0 0 0); [apply (option_pays size)|lia|].
        * eapply (pays_mono _ _ 0 0 0); [apply (H0 t); cbn; set_solver|lia|]. intros; cbn beta; lia.
        * intros r. cbn beta. lia.
      + intros [sp [x|]]; cbn; unfold size; lia.
    - apply (res_map_pays (λ '(_, o), match o with Some x => size x | None => 0 end) size 1).
      + eapply (pays_mono _ _ 0 0 0); [apply (option_pays size)|lia|].
        * eapply (pays_mono _ _ 0 0 0); [apply (H0 t); cbn; set_solver|lia|]. intros; cbn beta; lia.
        * intros r. cbn beta. lia.
      + intros [sp [x|]]; cbn; unfold size; lia.
    - eapply pays_bind; [apply (H1 t); [cbn; set_solver|done]|]. intros r n' Hn'. unfold Ez in Hn'.
      destruct r as [x|x e|e]; cbn in Hn'; [..|apply pays_ret; unfold Ez; cbn; lia]; apply pays_src; intros str; apply pays_ret; unfold Ez; cbn; lia.
    - eapply pays_bind; [apply (H1 t); [cbn; set_solver|done]|]. intros r n' Hn'. unfold Ez in Hn'.
      destruct r as [x|x e|e]; cbn in Hn'; [..|apply pays_ret; unfold Ez; cbn; lia]; apply pays_src; intros str; apply pays_ret; unfold Ez; cbn; lia.
    - apply (res_map_pays (λ '(_, l), sizes l + K) size 0).
      + eapply (pays_mono _ _ 0 0 0); [apply plus_pays, (H1 t); [cbn; set_solver|done]|lia|]. intros; cbn beta; lia.
      + intros [sp l]. rewrite size_list. lia.
    - apply (res_map_pays (λ '(_, o), match o with Some x => (λ '(_, l), sizes l + K) x | None => 0 end) size 1).
      + eapply (pays_mono _ _ 0 0 0); [apply (option_pays (λ '(_, l), sizes l + K))|lia|].
        * eapply (pays_mono _ _ 0 0 0); [apply plus_pays, (H0 t); cbn; set_solver|lia|]. intros; cbn beta; lia.
        * intros r. cbn beta. lia.
      + intros [sp [[sp' l]|]]; rewrite size_list; cbn; lia.
    - apply (res_map_pays (λ '(_, l), sizes l) size 1).
      + eapply (pays_mono _ _ 0 0 0); [apply produce_loop_pays, (H0 t); cbn; set_solver|lia|]. intros; cbn beta; lia.
      + intros [sp l]. rewrite size_list. lia.
    - apply split_pays; [eapply chd_le; [apply (H1 t); [cbn; set_solver|done]|lia]|apply H0; cbn; set_solver].
    - apply punct_pays; [eapply chd_le; [apply (H1 t); [cbn; set_solver|done]|lia]|apply H0; cbn; set_solver].
    - eapply (pays_mono _ _ 0 0 0); [apply recover_pays; apply H0; cbn; set_solver|lia|]. intros; cbn beta; lia.
  Qed.
End pays.

Lemma output_paid env root : filled env root → all_within env (grounded env) root →
  ∃ K, ∀ extract first follow jump f s r s', run extract (produce env first follow jump f root) s = ODone r s' →
    length (errors_of r) + match value r with Some x => length (nodes x) | None => 0 end ≤
    K * operations extract (produce env first follow jump f root) s.
Proof.
  intros Hf Hg. destruct (types_list env root) as [l Hl].
  destruct (common_bound l (gk env)) as [R HR].
  { intros n m t. apply gk_mono. }
  { intros t Ht%Hl. by apply grounded_gk, Hg. }
  exists (S R). intros extract first follow jump f s r s' Hr. rewrite operations_abs. apply run_done in Hr.
  assert (HR' : ∀ t, within env root t → gk env (S R - 1) t).
  { intros t Ht%Hl%HR. eapply gk_mono; [|exact Ht]. lia. }
  assert (H := produce_pays (S R) ltac:(lia) env root Hf HR' first follow jump f root (S R - 1) (rtc_refl _ _) (HR' root (rtc_refl _ _)) ltac:(lia)).
  unfold chd in H. assert (H' := pays_acost (S R) ltac:(lia) _ _ _ _ _ _ H Hr). unfold Ez, errors_of, value, size in *. cbn beta in H'. lia.
Qed.
Lemma blocks_len acc evs : length (omap (λ b, hull b.1) (raw_blocks acc evs)) ≤ length acc + length evs.
Proof.
  revert acc. induction evs as [|[ty sp|sp] evs IH]; intros acc; cbn [raw_blocks].
  - destruct acc as [|a acc]; cbn; [lia|]. destruct (last (a :: acc)); cbn; lia.
  - cbn. specialize (IH []). cbn in IH. destruct acc as [|a acc]; cbn; [lia|]. destruct (last (a :: acc)); cbn; lia.
  - specialize (IH (acc ++ [sp])). rewrite app_length in IH. cbn in *. lia.
Qed.
Lemma output_linear env root md : accepted env root md → filled env root → plain_enums env root → all_within env (grounded env) root →
  ∃ K, ∀ extract s f, state_ok s → K * (1 + length (to_come extract s)) ≤ f →
    ∃ o s', run extract (parse env f root (inr md)) s = ODone (inr o) s' ∧
      (∀ x, o = Some x → length (nodes x) ≤ K * (1 + length (to_come extract s))) ∧
      length (p_errors s') ≤ length (p_errors s) + length (p_evs s) + K * (1 + length (to_come extract s)).
Proof.
  intros Hacc Hf He Hg. destruct (parse_linear env root md Hacc Hf He Hg) as [K1 H1].
  destruct (output_paid env root Hf Hg) as [K2 H2]. exists (K1 + K2 * K1). intros extract s f Hok Hle.
  destruct (H1 extract s f Hok) as (o & s' & Hr & Hops); [nia|]. exists o, s'. split; [done|].
  assert (Hr' := Hr). apply parse_run in Hr' as (x & [= ->] & Hr').
  destruct (parse_with_run _ _ _ _ _ _ _ _ _ _ Hr') as (r & s1 & Hp & -> & _ & He' & _).
  destruct (produce_run_errors _ _ _ _ _ _ _ _ _ _ Hp) as (bad & Hb1 & Hb2).
  assert (Hpaid := H2 _ _ _ _ _ _ _ _ Hp).
  assert (Hsub : operations extract (produce env (tb_get (md_first md)) (tb_get (md_follow md)) (jump_look_up (md_jump md)) f root) s ≤
    operations extract (parse env f root (inr md)) s).
  { rewrite !operations_abs. unfold parse, parse_with. rewrite !acost_bind. lia. }
  assert (Hbad : length bad ≤ length (p_evs s)).
  { assert (Hc := cv_invalid _ _ _ (run_conserves _ _ _ _ _ Hp)). rewrite Hb1, <- (assoc_L (++)) in Hc. apply app_inv_head in Hc.
    assert (Hl := blocks_len [] (p_evs s)). change (omap _ _) with (invalids (p_evs s)) in Hl. rewrite <- Hc, app_length in Hl. cbn in Hl. lia. }
  split.
  - intros y Hy. unfold value in Hpaid. rewrite Hy in Hpaid. nia.
  - rewrite He', Hb2, !app_length, map_length. unfold errors_of in Hpaid. nia.
Qed.
Lemma output_linear_productive env root md : accepted env root md → filled env root → plain_enums env root → productive env root →
  ∃ K, ∀ extract s f, state_ok s → K * (1 + length (to_come extract s)) ≤ f →
    ∃ o s', run extract (parse env f root (inr md)) s = ODone (inr o) s' ∧
      (∀ x, o = Some x → length (nodes x) ≤ K * (1 + length (to_come extract s))) ∧
      length (p_errors s') ≤ length (p_errors s) + length (p_evs s) + K * (1 + length (to_come extract s)).
Proof. intros ??? H%ProgressFacts.productive_grounded. by apply output_linear. Qed.
