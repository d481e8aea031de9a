(** A rank for types at a look-ahead: it goes down with every call made before something is
    consumed, and is bounded for a given grammar. *)
From Coq Require Import String NArith.
From stdpp Require Import prelude list strings relations.
From Verif Require Import LexModel LexSpec LexFacts SynSetModel SynSetFacts TableModel StreamModel StreamSpec StreamFacts TypeModel TypeSpec TypeFacts CfgSpec CfgFacts MetaFacts ProduceModel ParseSpec ProgFacts FuelFacts TreeFacts SoundFacts LangFacts RunFacts InvFacts LookFacts MdFacts ParseFacts TermFacts ProgressFacts EndFacts.
Local Open Scope nat_scope.
#[local] Arguments ts_contains : simpl never.
#[local] Arguments ts_contains_e : simpl never.
#[local] Arguments tb_get : simpl never.

(** * Finitely many types *)
Fixpoint ty_eqb (a b : ty) : bool :=
  match a, b with
  | TTok n y l, TTok n' y' l' => (n =? n') && (y =? y') && bool_decide (l = l')
  | TNamed n, TNamed n' => n =? n'
  | TTuple l, TTuple l' =>
      (fix go l l' := match l, l' with
        | [], [] => true
        | x :: l, x' :: l' => ty_eqb x x' && go l l'
        | _, _ => false
        end) l l'
  | TBox t, TBox t' | TOpt t, TOpt t' | TExists t, TExists t' | TQuote t, TQuote t' | TParse t, TParse t'
  | TPlus t, TPlus t' | TStar t, TStar t' | TLoop t, TLoop t' => ty_eqb t t'
  | TSplit t d, TSplit t' d' | TPunct t d, TPunct t' d' | TRecover t d, TRecover t' d' => ty_eqb t t' && ty_eqb d d'
  | _, _ => false
  end.
Lemma ty_eqb_eq a b : ty_eqb a b = true ↔ a = b.
Proof.
  revert b. induction a as [n y l|n|l IH|t IH|t IH|t IH|t IH|t IH|t IH|t IH|t IH|t d IH1 IH2|t d IH1 IH2|t d IH1 IH2] using ty_ind';
    intros [n' y' l'|n'|l'|t'|t'|t'|t'|t'|t'|t'|t'|t' d'|t' d'|t' d']; cbn [ty_eqb];
    rewrite ?andb_true_iff, ?Nat.eqb_eq, ?bool_decide_eq_true, ?IH, ?IH1, ?IH2; try naive_solver.
  revert l'. induction IH as [|x l Hx Hl IHl]; intros [|x' l']; try naive_solver.
  rewrite andb_true_iff, Hx, IHl. naive_solver.
Qed.
#[global] Instance ty_eq_dec : EqDecision ty.
Proof.
  intros p q. destruct (ty_eqb p q) eqn:E.
  - left. by apply ty_eqb_eq.
  - right. intros ->. assert (ty_eqb q q = true) by (by apply ty_eqb_eq). congruence.
Defined.

(** Paths in a finite set can be made short. *)
Lemma rtc_cut {A} `{EqDecision A} (R : relation A) (l : list A) x a y :
  rtc (λ a b, R a b ∧ b ∈ l) a y →
  rtc (λ a b, R a b ∧ b ∈ filter (λ z, z ≠ x) l) a y ∨ rtc (λ a b, R a b ∧ b ∈ filter (λ z, z ≠ x) l) x y.
Proof.
  induction 1 as [a|a b y [Hab Hb] Hby [IH|IH]].
  - left. apply rtc_refl.
  - destruct (decide (b = x)) as [->|Hne]; [by right|]. left. apply rtc_l with b; [|done]. split; [done|].
    apply elem_of_list_filter. done.
  - by right.
Qed.
Lemma rtc_short {A} `{EqDecision A} (R : relation A) (l : list A) x y :
  rtc (λ a b, R a b ∧ b ∈ l) x y → ∃ n, n ≤ length l ∧ nsteps R n x y.
Proof.
  remember (length l) as k eqn:Ek. revert l Ek x y. induction k as [k IH] using lt_wf_ind. intros l Ek x y H.
  destruct H as [x|x b y [Hxb Hb] Hby]; [exists 0; split; [lia|constructor]|].
  assert (Hlt : length (filter (λ z, z ≠ b) l) < length l).
  { apply filter_length_lt with b; [done|]. by intros []. }
  assert (H' : rtc (λ a c, R a c ∧ c ∈ filter (λ z, z ≠ b) l) b y) by (destruct (rtc_cut R l b b y Hby); done).
  destruct (IH (length (filter (λ z, z ≠ b) l)) ltac:(lia) _ eq_refl b y H') as (n & Hn & Hs).
  exists (S n). split; [lia|]. by econstructor.
Qed.
(** A common bound for finitely many. *)
Lemma common_bound {A} (l : list A) (P : nat → A → Prop) : (∀ n m x, n ≤ m → P n x → P m x) →
  (∀ x, x ∈ l → ∃ n, P n x) → ∃ n, ∀ x, x ∈ l → P n x.
Proof.
  intros Hm. induction l as [|x l IH]; intros H; [exists 0; by intros x ?%elem_of_nil|].
  destruct (H x ltac:(set_solver)) as [n Hn]. destruct IH as [m Hl]; [intros; apply H; set_solver|].
  exists (n `max` m). intros y [->|Hy]%elem_of_cons; [apply (Hm n); [lia|done]|apply (Hm m); [lia|by apply Hl]].
Qed.

Fixpoint parts (t : ty) : list ty :=
  t :: match t with
  | TTok _ _ _ | TNamed _ => []
  | TTuple l => flat_map parts l
  | TBox t | TOpt t | TExists t | TQuote t | TParse t | TPlus t | TStar t | TLoop t => parts t
  | TSplit t d | TPunct t d | TRecover t d => parts t ++ parts d
  end.
Lemma parts_self t : t ∈ parts t.
Proof. destruct t; cbn; apply elem_of_cons; by left. Qed.
Lemma in_flat_map' {A B} (f : A → list B) l y : y ∈ flat_map f l ↔ ∃ x, x ∈ l ∧ y ∈ f x.
Proof. rewrite elem_of_list_In, in_flat_map. setoid_rewrite elem_of_list_In. done. Qed.
Lemma parts_closed u t c : t ∈ parts u → (∀ n, t ≠ TNamed n) → c ∈ subs [] t → c ∈ parts u.
Proof.
  intros Ht Hn Hc. revert Ht.
  induction u as [n y l|n|l IH|u IH|u IH|u IH|u IH|u IH|u IH|u IH|u IH|u d IH1 IH2|u d IH1 IH2|u d IH1 IH2] using ty_ind';
    cbn [parts]; rewrite elem_of_cons; intros [->|Ht]; cbn [subs] in Hc; apply elem_of_cons; right;
    try (apply elem_of_list_singleton in Hc as ->; by apply parts_self);
    try (by destruct (Hn n)); try (by apply elem_of_nil in Hc); try (by apply elem_of_nil in Ht); try (by apply IH).
  - apply in_flat_map'. exists c. split; [done|apply parts_self].
  - apply in_flat_map' in Ht as (x & Hx & Ht). apply in_flat_map'. exists x. split; [done|].
    rewrite Forall_forall in IH. by apply IH.
  - rewrite elem_of_cons, elem_of_list_singleton in Hc. apply elem_of_app. destruct Hc as [->| ->]; [left|right]; apply parts_self.
  - apply elem_of_app in Ht as [Ht|Ht]; apply elem_of_app; [left|right]; auto.
  - rewrite elem_of_cons, elem_of_list_singleton in Hc. apply elem_of_app. destruct Hc as [->| ->]; [left|right]; apply parts_self.
  - apply elem_of_app in Ht as [Ht|Ht]; apply elem_of_app; [left|right]; auto.
  - rewrite elem_of_cons, elem_of_list_singleton in Hc. apply elem_of_app. destruct Hc as [->| ->]; [left|right]; apply parts_self.
  - apply elem_of_app in Ht as [Ht|Ht]; apply elem_of_app; [left|right]; auto.
Qed.
Definition all_types (env : denv) (root : ty) : list ty :=
  parts root ++ flat_map (λ d, flat_map parts (map fst (decl_fields d))) env.
Lemma all_types_closed env root t c : t ∈ all_types env root → c ∈ subs env t → c ∈ all_types env root.
Proof.
  intros Ht Hc. assert (Hd : (∃ n, t = TNamed n) ∨ ∀ n, t ≠ TNamed n) by (destruct t; try (right; by intros ? [=]); left; by eexists).
  destruct Hd as [[n ->]|Hn'].
  - cbn [subs] in Hc. destruct (env !! n) as [d|] eqn:En; [|by apply elem_of_nil in Hc].
    apply elem_of_app. right. apply in_flat_map'. exists d. split; [by eapply elem_of_list_lookup_2|].
    apply in_flat_map'. exists c. split; [done|apply parts_self].
  - assert (Hc' : c ∈ subs [] t) by (destruct t; try done; by destruct (Hn' n)).
    apply elem_of_app in Ht as [Ht|Ht]; apply elem_of_app; [left; by eapply parts_closed|right].
    apply in_flat_map' in Ht as (d & Hd & Ht). apply in_flat_map' in Ht as (f & Hf & Ht).
    apply in_flat_map'. exists d. split; [done|]. apply in_flat_map'. exists f. split; [done|]. by eapply parts_closed.
Qed.

(** The types used by [root], as a list. *)
Fixpoint layer (env : denv) (root : ty) (n : nat) : list ty :=
  match n with O => [root] | S n => layer env root n ++ flat_map (subs env) (layer env root n) end.
Lemma layer_within env root n t : t ∈ layer env root n → within env root t.
Proof.
  revert t. induction n as [|n IH]; intros t; cbn [layer].
  - intros ->%elem_of_list_singleton. apply rtc_refl.
  - intros [H|H]%elem_of_app; [by apply IH|]. apply in_flat_map' in H as (u & Hu & Ht). eapply rtc_r; [by apply IH|done].
Qed.
Lemma layer_le env root n m t : n ≤ m → t ∈ layer env root n → t ∈ layer env root m.
Proof. induction 1 as [|m H IH]; [done|]. intros Ht. cbn [layer]. apply elem_of_app. left. by apply IH. Qed.
Lemma layer_steps env root n t : nsteps (λ a b, b ∈ subs env a) n root t → t ∈ layer env root n.
Proof.
  revert t. induction n as [|n IH]; intros t H.
  - inversion H; subst. cbn. set_solver.
  - apply nsteps_inv_r in H as (u & Hu & Ht). cbn [layer]. apply elem_of_app. right. apply in_flat_map'. exists u. split; [by apply IH|done].
Qed.
Lemma types_list env root : ∃ l : list ty, ∀ t, t ∈ l ↔ within env root t.
Proof.
  exists (layer env root (length (all_types env root))). intros t. split; [apply layer_within|]. intros H.
  destruct (rtc_short (λ a b, b ∈ subs env a) (all_types env root) root t) as (n & Hn & Hs); [|eapply layer_le; [exact Hn|by apply layer_steps]].
  assert (Hr : root ∈ all_types env root) by (apply elem_of_app; left; apply parts_self).
  enough (HH : ∀ a, rtc (λ a b, b ∈ subs env a) a t → a ∈ all_types env root → rtc (λ a b, b ∈ subs env a ∧ b ∈ all_types env root) a t) by (by apply HH).
  clear H Hr. induction 1 as [a|a b c Hab Hbc IH]; intros Ha; [apply rtc_refl|].
  assert (Hb : b ∈ all_types env root) by (by eapply all_types_closed). apply rtc_l with b; [done|by apply IH].
Qed.

(** * The rank *)
Section rank.
  Variable env : denv.
  Variable st : ty → Prop. (* the next token can begin this type *)
  Variable nu : ty → Prop.
  Fixpoint seqrk (P : ty → Prop) (ts : list ty) : Prop :=
    match ts with [] => True | t :: ts => P t ∧ (st t ∨ seqrk P ts) end.
  (** [rk r t]: at most [r] nested calls are made for [t] before something is consumed. *)
  Fixpoint rk (r : nat) (t : ty) : Prop :=
    match r with
    | O => False
    | S r => match t with
      | TTok _ _ _ => True
      | TNamed n => match env !! n with
          | Some (DStruct fs) => seqrk (rk r) (map fst fs)
          | Some (DEnum vs) => ∀ t, t ∈ map fst vs → st t → rk r t
          | None => False
          end
      | TTuple ts => seqrk (rk r) ts
      | TBox t | TQuote t | TParse t | TPlus t => rk r t
      | TOpt t | TExists t | TStar t | TLoop t => st t → rk r t
      | TSplit t d | TPunct t d => rk r t ∧ (st d → st t ∨ rk r d)
      | TRecover t d => (st t ∨ nu t → rk r t) ∧ (st d ∨ nu d → st t ∨ rk r d)
      end
    end.
  Lemma seqrk_mono (P Q : ty → Prop) ts : (∀ t, P t → Q t) → seqrk P ts → seqrk Q ts.
  Proof. intros H. induction ts as [|t ts IH]; cbn; [done|]. naive_solver. Qed.
  Lemma seqrk_all (P : ty → Prop) ts : Forall P ts → seqrk P ts.
  Proof. induction 1; cbn; auto. Qed.
  Lemma seqrk_app (P : ty → Prop) l1 t l2 : Forall P l1 → P t → st t → seqrk P (l1 ++ t :: l2).
  Proof. induction 1; cbn; auto. Qed.
  Lemma rk_mono r r' t : r ≤ r' → rk r t → rk r' t.
  Proof.
    revert r' t. induction r as [|r IH]; intros r' t Hle; [done|]. destruct r' as [|r']; [lia|].
    assert (H : ∀ t, rk r t → rk r' t) by (intros; apply IH; [lia|done]).
    destruct t as [nm y lit|n|ts|t|t|t|t|t|t|t|t|t d|t d|t d]; cbn [rk]; try naive_solver.
    - destruct (env !! n) as [[fs|vs]|]; [|naive_solver..]. by apply seqrk_mono.
    - by apply seqrk_mono.
  Qed.
End rank.

(** [lead x t c]: [c] is the part of [t] that begins with [x]. *)
Inductive lead (env : denv) : ty → ty → Prop :=
| lead_struct n fs l1 t l2 : env !! n = Some (DStruct fs) → map fst fs = l1 ++ t :: l2 → Forall (λ t, lang env t []) l1 → lead env (TNamed n) t
| lead_enum n vs t : env !! n = Some (DEnum vs) → t ∈ map fst vs → lead env (TNamed n) t
| lead_tuple l1 t l2 : Forall (λ t, lang env t []) l1 → lead env (TTuple (l1 ++ t :: l2)) t
| lead_box t : lead env (TBox t) t
| lead_quote t : lead env (TQuote t) t
| lead_parse t : lead env (TParse t) t
| lead_opt t : lead env (TOpt t) t
| lead_exists t : lead env (TExists t) t
| lead_plus t : lead env (TPlus t) t
| lead_star t : lead env (TStar t) t
| lead_loop t : lead env (TLoop t) t
| lead_split_l t d : lead env (TSplit t d) t
| lead_split_r t d : lang env t [] → lead env (TSplit t d) d
| lead_punct t d : lead env (TPunct t d) t
| lead_recover_l t d : lead env (TRecover t d) t
| lead_recover_r t d : lang env t [] → lead env (TRecover t d) d.
Lemma lead_sub env t c : lead env t c → c ∈ subs env t.
Proof.
  destruct 1 as [n fs l1 t l2 En Efs Hl1|n vs t En Ht| | | | | | | | | | | | | |]; cbn [subs]; try set_solver.
  - rewrite En. cbn [decl_fields]. rewrite Efs. set_solver.
  - by rewrite En.
Qed.
Lemma sta_lead env t x : sta env t x → ∃ n y lit, covers y lit x ∧ rtc (lead env) t (TTok n y lit).
Proof.
  induction 1 as [nm y lit x Hc|m fs l1 t l2 x En Efs Hl1 Hs (n' & y & lit & Hc & IH)|m vs t x En Ht Hs (n' & y & lit & Hc & IH)
    |l1 t l2 x Hl1 Hs (n' & y & lit & Hc & IH)|t x Hs (n' & y & lit & Hc & IH)|t x Hs (n' & y & lit & Hc & IH)|t x Hs (n' & y & lit & Hc & IH)
    |t x Hs (n' & y & lit & Hc & IH)|t x Hs (n' & y & lit & Hc & IH)|t x Hs (n' & y & lit & Hc & IH)|t x Hs (n' & y & lit & Hc & IH)
    |t x Hs (n' & y & lit & Hc & IH)|t d x Hs (n' & y & lit & Hc & IH)|t d x Hn Hs (n' & y & lit & Hc & IH)|t d x Hs (n' & y & lit & Hc & IH)
    |t r x Hs (n' & y & lit & Hc & IH)|t r x Hn Hs (n' & y & lit & Hc & IH)].
  { exists nm, y, lit. split; [done|apply rtc_refl]. }
  all: exists n', y, lit; (split; [done|]); eapply rtc_l; [|exact IH]; by econstructor.
Qed.
Lemma lead_sta env t c x : lead env t c → sta env c x → sta env t x.
Proof. destruct 1; intros; by econstructor. Qed.

Set Default Proof Using "All".
Section md.
  Variable env : denv.
  Variable root : ty.
  Variable regs iter : grammar prod.
  Variable md : metadata prod.
  Hypothesis Hreg : register_root env (prod_of root) = Some regs.
  Hypothesis Hperm : iter ≡ₚ regs.
  Hypothesis Hmeta : meta_build regs iter (key root) = Some (inr md).
  Hypothesis Henums : plain_enums env root.

  Notation F := (tb_get (md_first md)).
  Notation J := (jump_look_up (md_jump md)).
  Notation V t := (visible env (key root) (key t)).
  Notation W t := (within env root t).
  Notation nul := (MdFacts.nul regs).
  Notation fst_ := (MdFacts.fst_ regs).
  Notation "'MD' l" := (l env root regs iter md Hreg Hperm Hmeta) (at level 9, l at level 0, only parsing).
  Notation "'ME' l" := (l env root regs iter md Hreg Hperm Hmeta Henums) (at level 9, l at level 0, only parsing).
  Notation sta := (sta env).
  Definition st (lk : option (nat * string)) (t : ty) : Prop := ∃ x, lk = Some x ∧ fst_ t x.
  Definition rank (r : nat) (t : ty) (lk : option (nat * string)) : Prop := rk env (st lk) nul r t.

  Lemma fst_dec t x : fst_ t x ∨ ¬ fst_ t x.
  Proof.
    destruct (ts_contains (F (key t)) (Some x)) eqn:E; [left; by apply (MD first_spec)|right].
    rewrite <- (MD first_spec t x), E. done.
  Qed.
  Lemma st_dec t lk : st lk t ∨ ¬ st lk t.
  Proof.
    destruct lk as [x|]; [|right; by intros (x & [=] & _)]. destruct (fst_dec t x) as [H|H]; [left; by exists x|right; by intros (y & [= <-] & Hy)].
  Qed.
  Lemma nul_dec t : nul t ∨ ¬ nul t.
  Proof.
    destruct (ts_contains_e (F (key t))) eqn:E; [left; by apply (MD first_eps)|right]. rewrite <- (MD first_eps t), E. done.
  Qed.
  Lemma rank_mono r r' t lk : r ≤ r' → rank r t lk → rank r' t lk.
  Proof. apply rk_mono. Qed.

  (** Types that derive nothing, when the next token cannot begin them. *)
  Definition calm (h : nat) (t : ty) : Prop := ∀ lk, ¬ st lk t → rank h t lk.
  Lemma calm_mono h h' t : h ≤ h' → calm h t → calm h' t.
  Proof. intros Hle H lk Hl. eapply rank_mono; [exact Hle|by apply H]. Qed.
  Lemma null_prefix k ts lk : Forall (λ t, V t) ts → Forall (λ t, lang env t []) ts → 
    (∀ x, MdFacts.fsts regs ts x → fst_ k x) → ¬ st lk k → Forall (λ t, ¬ st lk t) ts.
  Proof.
    intros HV Hls Hk Hst. apply Forall_forall. intros t Ht (x & -> & Hx). apply Hst. exists x. split; [done|]. apply Hk.
    apply elem_of_list_split in Ht as (l1 & l2 & ->). apply Forall_app in HV as [HV1 _]. apply Forall_app in Hls as [Hls1 _].
    apply (MD fsts_at); [by apply (MD lang_nul_all)|done].
  Qed.
  Lemma calm_all t : lang env t [] → W t → ∃ h, calm h t.
  Proof.
    assert (HH : ∀ t w, lang env t w → w = [] → W t → ∃ h, calm h t); [clear t|intros; by eapply HH].
    apply (lang_mut env (λ t w _, w = [] → W t → ∃ h, calm h t)
      (λ ts w _, w = [] → Forall (λ t, W t) ts → ∃ h, Forall (calm h) ts)).
    - done.
    - (* struct *) intros n fs w En Hls IH -> Hw. assert (Hv := ME W_V _ Hw). assert (HW := ME W_struct _ _ Hw En).
      destruct (IH eq_refl HW) as [h Hh]. exists (S h). intros lk Hst. unfold rank. cbn [rk]. rewrite En. apply seqrk_all.
      apply (ME langs_nil) in Hls. assert (HN := null_prefix (TNamed n) (map fst fs) lk (MD V_fields _ _ Hv En) Hls (λ x, proj2 (MD fst_struct _ _ x Hv En)) Hst).
      rewrite Forall_forall in Hh, HN |- *. intros t Ht. apply Hh; auto.
    - (* enum *) intros n vs t sem w En Hin Hlt IH -> Hw. assert (H := Henums _ Hw). cbn in H. rewrite En in H. by destruct (H _ Hin).
    - (* tuple *) intros ts w Hls IH -> Hw. assert (Hv := ME W_V _ Hw). assert (HW := ME W_all _ Hw). cbn [subs] in HW.
      destruct (IH eq_refl HW) as [h Hh]. exists (S h). intros lk Hst. unfold rank. cbn [rk]. apply seqrk_all.
      assert (HV : Forall (λ t, V t) ts) by (eapply Forall_impl; [exact HW|]; intros ?; apply (ME W_V)).
      apply (ME langs_nil) in Hls. assert (HN := null_prefix (TTuple ts) ts lk HV Hls (λ x, proj2 (MD fst_tuple _ x Hv)) Hst).
      rewrite Forall_forall in Hh, HN |- *. intros t Ht. apply Hh; auto.
    - (* box *) intros t w Hlt IH -> Hw. destruct IH as [h Hh]; [done|apply (ME W_sub _ _ Hw); cbn; set_solver|].
      exists (S h). intros lk Hst. apply Hh. done.
    - (* none *) intros t _ Hw. exists 1. intros lk Hst (x & -> & Hx). destruct Hst. exists x. split; [done|].
      by apply (MD fst_opt _ _ (ME W_V _ Hw)).
    - intros t w Hlt IH -> Hw. exists 1. intros lk Hst (x & -> & Hx). destruct Hst. exists x. split; [done|].
      by apply (MD fst_opt _ _ (ME W_V _ Hw)).
    - intros t _ Hw. exists 1. intros lk Hst (x & -> & Hx). destruct Hst. exists x. split; [done|].
      by apply (MD fst_opt t x (ME W_V _ Hw)).
    - intros t w Hlt IH -> Hw. exists 1. intros lk Hst (x & -> & Hx). destruct Hst. exists x. split; [done|].
      by apply (MD fst_opt t x (ME W_V _ Hw)).
    - (* quote *) intros t w Hlt IH -> Hw. destruct IH as [h Hh]; [done|apply (ME W_sub _ _ Hw); cbn; set_solver|].
      exists (S h). intros lk Hst. apply Hh. done.
    - (* parse *) intros t w Hlt IH -> Hw. destruct IH as [h Hh]; [done|apply (ME W_sub _ _ Hw); cbn; set_solver|].
      exists (S h). intros lk Hst. apply Hh. done.
    - (* plus *) intros t n w Hls IH -> Hw. apply (ME langs_nil) in Hls. cbn [replicate] in Hls. apply Forall_cons in Hls as [Hls _].
      destruct (MD plus_not_null t (ME W_V _ Hw)). apply (MD nul_lang); [|done]. apply (ME W_V), (ME W_sub _ _ Hw). cbn. set_solver.
    - (* star *) intros t n w Hls IH -> Hw. exists 1. intros lk Hst (x & -> & Hx). destruct Hst. exists x. split; [done|].
      by apply (MD fst_star _ _ (ME W_V _ Hw)).
    - (* loop *) intros t n w Hls IH -> Hw. apply (ME langs_nil) in Hls. cbn [replicate] in Hls. apply Forall_cons in Hls as [Hls _].
      destruct (MD plus_not_null t (ME W_V _ Hw)). apply (MD nul_lang); [|done]. apply (ME W_V), (ME W_sub _ _ Hw). cbn. set_solver.
    - (* split *) intros t d n w Hls IH -> Hw. assert (Hv := ME W_V _ Hw). destruct (ME W_two (TSplit t d) t d eq_refl Hw) as [W1 W2].
      destruct IH as [h Hh]; [done|clear -W1 W2; induction n as [|n IHn]; cbn; repeat (constructor; try done)|].
      assert (Ht : calm h t) by (destruct n; cbn in Hh; by apply Forall_cons in Hh as [? _]).
      assert (Hnl : lang env t []). { apply (ME langs_nil) in Hls. destruct n; cbn in Hls; by apply Forall_cons in Hls as [? _]. }
      apply (MD nul_lang) in Hnl; [|by apply (ME W_V)].
      exists (S h). intros lk Hst. unfold rank. cbn [rk]. split.
      + apply Ht. intros (x & -> & Hx). apply Hst. exists x. split; [done|]. apply (MD fst_split _ _ _ Hv). by left.
      + intros (x & -> & Hx). destruct Hst. exists x. split; [done|]. apply (MD fst_split _ _ _ Hv). by right.
    - (* punct *) intros t d n tr w Hls IH -> Hw. apply (ME langs_nil) in Hls. 
      assert (Hn : lang env t []). { destruct n; cbn in Hls; by apply Forall_cons in Hls as [? _]. }
      destruct (MD punct_not_null t d (ME W_V _ Hw)) as [[] _]. apply (MD nul_lang); [|done]. apply (ME W_V), (ME W_sub _ _ Hw). cbn. set_solver.
    - (* recover *) intros t r w Hls IH -> Hw. assert (Hv := ME W_V _ Hw). assert (HW := ME W_all _ Hw). cbn [subs] in HW.
      destruct (IH eq_refl HW) as [h Hh]. apply Forall_cons in Hh as [Q1 [Q2 _]%Forall_cons].
      apply (ME langs_nil) in Hls. apply Forall_cons in Hls as [N1 _]. apply Forall_cons in HW as [W1 [W2 _]%Forall_cons].
      apply (MD nul_lang) in N1; [|by apply (ME W_V)].
      exists (S h). intros lk Hst. unfold rank. cbn [rk]. split; intros _; [|right]; [apply Q1|apply Q2];
        intros (x & -> & Hx); apply Hst; (exists x); (split; [done|]); apply (MD fst_recover _ _ _ Hv); [by left|by right].
    - intros _ _. exists 0. constructor.
    - intros t ts w1 w2 H1 IH1 H2 IH2 [-> ->]%app_nil [W1 W2]%Forall_cons.
      destruct (IH1 eq_refl W1) as [h1 Hh1], (IH2 eq_refl W2) as [h2 Hh2]. exists (h1 `max` h2). constructor.
      + eapply calm_mono; [|exact Hh1]. lia.
      + eapply Forall_impl; [exact Hh2|]. intros c. apply calm_mono. lia.
  Qed.
  Lemma calm_uniform : ∃ H, ∀ t, W t → lang env t [] → calm H t.
  Proof.
    destruct (types_list env root) as [l Hl].
    destruct (common_bound l (λ h t, nul t → calm h t)) as [H HH].
    - intros n m t Hle H Hn. eapply calm_mono; [exact Hle|by apply H].
    - intros t Ht%Hl. destruct (nul_dec t) as [Hn|Hn]; [|by exists 0].
      destruct (calm_all t) as [h Hh]; [by apply (MD nul_lang); [apply (ME W_V)|]|done|by exists h].
    - exists H. intros t Hw Hn. apply HH; [by apply Hl|]. apply (MD nul_lang); [by apply (ME W_V)|done].
  Qed.

  (** Types that the next token can begin. *)
  Lemma lead_rank H t c x r : (∀ t, W t → lang env t [] → calm H t) → lead env t c → sta c x → W t → H ≤ r →
    rank r c (Some x) → rank (S r) t (Some x).
  Proof.
    intros HH Hl Hc Hw Hr Hrk. assert (Hv := ME W_V _ Hw). assert (Hwc := ME W_sub _ _ Hw (lead_sub _ _ _ Hl)).
    assert (Hsc : st (Some x) c) by (exists x; split; [done|]; by apply (MD sta_fst), (ME W_V)).
    assert (Hquiet : ∀ t, W t → lang env t [] → ¬ fst_ t x → rank r t (Some x)).
    { intros t' Hw' Hl' Hx. eapply rank_mono; [exact Hr|]. apply HH; [done|done|]. by intros (y & [= <-] & Hy). }
    unfold rank in *.
    destruct Hl as [n fs l1 t l2 En Efs Hl1|n vs t En Ht|l1 t l2 Hl1|t|t|t|t|t|t|t|t|t d|t d Hnl|t d|t d|t d Hnl]; cbn [rk]; try done.
    - rewrite En, Efs. apply seqrk_app; [|done|done]. assert (HW := ME W_struct _ _ Hw En). cbn [decl_fields] in HW. rewrite Efs in HW.
      apply Forall_app in HW as [HW1 _]. apply Forall_forall. intros a Ha. rewrite Forall_forall in HW1.
      apply Hquiet; [by apply HW1|rewrite Forall_forall in Hl1; by apply Hl1|]. intros Hf.
      apply elem_of_list_split in Ha as (m1 & m2 & ->). assert (HV := MD V_fields _ _ Hv En). cbn [decl_fields] in HV. rewrite Efs, <- app_assoc in HV. cbn [app] in HV.
      apply Forall_app in HV as [_ [HVc [HVb [HVt _]%Forall_cons]%Forall_app]%Forall_cons].
      apply Forall_app in Hl1 as [_ [Hca Hb]%Forall_cons].
      assert (Hin := MD ent_struct _ _ Hv En). rewrite Efs, <- app_assoc, map_app in Hin. cbn [app map] in Hin. rewrite map_app in Hin. cbn [map] in Hin.
      apply (MD no_seq_clash _ _ _ _ _ _ x Hin); [by apply (MD nul_lang)|by apply (MD lang_nul_all)|done|by apply (MD sta_fst)].
    - rewrite En. intros t' Ht' (y & [= <-] & Hy). assert (Hx : fst_ t x) by (by apply (MD sta_fst), (ME W_V)).
      apply elem_of_list_fmap in Ht as ([u sem] & E & Ht). cbn in E. subst u.
      apply elem_of_list_fmap in Ht' as ([u' sem'] & E' & Ht'). cbn in E'. subst u'.
      apply elem_of_list_lookup in Ht as [i Hi]. apply elem_of_list_lookup in Ht' as [i' Hi'].
      assert (EJ : J (PNamed n) (Some x) = Some i) by (apply (MD jump_spec _ _ _ _ Hv En); eauto).
      assert (EJ' : J (PNamed n) (Some x) = Some i') by (apply (MD jump_spec _ _ _ _ Hv En); eauto).
      assert (i = i') as -> by congruence. assert (t' = t) as -> by congruence. done.
    - apply seqrk_app; [|done|done]. assert (HW := ME W_all _ Hw). cbn [subs] in HW. assert (HW' := HW).
      apply Forall_app in HW as [HW1 _]. apply Forall_forall. intros a Ha. rewrite Forall_forall in HW1.
      apply Hquiet; [by apply HW1|rewrite Forall_forall in Hl1; by apply Hl1|]. intros Hf.
      apply elem_of_list_split in Ha as (m1 & m2 & ->).
      assert (HV : Forall (λ t, V t) ((m1 ++ a :: m2) ++ t :: l2)) by (eapply Forall_impl; [exact HW'|]; intros ?; apply (ME W_V)).
      rewrite <- app_assoc in HV. cbn [app] in HV.
      apply Forall_app in HV as [_ [HVc [HVb [HVt _]%Forall_cons]%Forall_app]%Forall_cons].
      apply Forall_app in Hl1 as [_ [Hca Hb]%Forall_cons].
      assert (Hin' : (key (TTuple ((m1 ++ a :: m2) ++ t :: l2)), ESeq (map key m1 ++ key a :: map key m2 ++ key t :: map key l2)) ∈ regs).
      { assert (E : map key ((m1 ++ a :: m2) ++ t :: l2) = map key m1 ++ key a :: map key m2 ++ key t :: map key l2).
        { rewrite <- app_assoc. cbn [app]. rewrite map_app. cbn [map]. by rewrite map_app. }
        rewrite <- E. by apply (MD ent_tuple). }
      apply (MD no_seq_clash _ _ _ _ _ _ x Hin'); [by apply (MD nul_lang)|by apply (MD lang_nul_all)|done|by apply (MD sta_fst)].
    - split; [done|]. intros _. by left.
    - destruct (ME W_two (TSplit t d) t d eq_refl Hw) as [W1 W2]. split; [|intros _; by right].
      assert (Hx : fst_ d x) by (by apply (MD sta_fst), (ME W_V)). destruct (MD V_split _ _ Hv) as (V1 & V2 & V3 & V4 & V5).
      apply Hquiet; [done..|]. intros Hf. apply (MD no_seq_clash _ [] _ [] _ [] x (MD ent_split _ _ Hv)); [by apply (MD nul_lang)|done|done|].
      apply (MD fst_star _ _ V3). apply (MD fst_tuple _ _ V4). by left.
    - split; [done|]. intros _. by left.
    - split; [done|]. intros _. by left.
    - destruct (ME W_two (TRecover t d) t d eq_refl Hw) as [W1 W2]. split; [|intros _; by right]. intros _.
      assert (Hx : fst_ d x) by (by apply (MD sta_fst), (ME W_V)).
      apply Hquiet; [done..|]. intros Hf.
      apply (MD no_seq_clash _ [] _ [] _ [] x (MD ent_recover _ _ Hv)); [by apply (MD nul_lang); [apply (ME W_V)|]|done..].
  Qed.
  Lemma path_rank H x n y lit : (∀ t, W t → lang env t [] → calm H t) → covers y lit x →
    ∀ k t, nsteps (lead env) k t (TTok n y lit) → W t → sta t x ∧ rank (S (H + k)) t (Some x).
  Proof.
    intros HH Hc k. induction k as [|k IH]; intros t Hs Hw.
    - inversion Hs; subst. split; [by constructor|done].
    - inversion Hs as [|? ? c ? Hl Hs']; subst. destruct (IH c Hs') as [H1 H2]; [by eapply (ME W_sub), lead_sub|].
      split; [by eapply lead_sta|]. replace (H + S k) with (S (H + k)) by lia. eapply lead_rank; [exact HH|exact Hl|done|done|lia|done].
  Qed.
  Lemma start_uniform : ∃ H, ∀ t lk, W t → st lk t → rank H t lk.
  Proof.
    destruct (types_list env root) as [l Hl]. destruct calm_uniform as [H HH].
    exists (S (H + length l)). intros t lk Hw (x & -> & Hx).
    apply (MD fst_sta) in Hx; [|by apply (ME W_V)]. destruct (sta_lead _ _ _ Hx) as (n & y & lit & Hc & Hp).
    destruct (rtc_short (lead env) l t (TTok n y lit)) as (k & Hk & Hs).
    { clear Hx Hc. revert Hw. induction Hp as [a|a b c Hab Hbc IH]; intros Hw; [apply rtc_refl|].
      assert (Hwb : W b) by (by eapply (ME W_sub), lead_sub). apply rtc_l with b; [split; [done|by apply Hl]|by apply IH]. }
    eapply rank_mono; [|by apply (path_rank H x n y lit HH Hc k t Hs Hw)]. lia.
  Qed.

  (** All types. *)
  Lemma grounded_rank t : grounded env t → W t → ∃ h, ∀ lk, rank h t lk.
  Proof.
    destruct start_uniform as [H HS], calm_uniform as [H' HQ].
    assert (HR : ∀ t lk, W t → st lk t ∨ nul t → rank (H `max` H') t lk).
    { intros c lk Hw Ho. destruct (st_dec c lk) as [Hs|Hs]; [eapply rank_mono; [|by apply HS]; lia|].
      destruct Ho as [?|Hn]; [done|]. eapply rank_mono; [|by apply HQ; [|apply (MD nul_lang); [apply (ME W_V)|]|]]. lia. }
    assert (HSt : ∀ t lk, W t → st lk t → rank (H `max` H') t lk) by (intros; apply HR; auto).
    unfold rank in *.
    assert (Hmany : ∀ ts, (∀ t, t ∈ ts → W t → ∃ h, ∀ lk, rk env (st lk) nul h t) → (∀ t, t ∈ ts → W t) → ∃ h, ∀ lk, seqrk (st lk) (rk env (st lk) nul h) ts).
    { intros ts IH HW. destruct (common_bound ts (λ h t, ∀ lk, rk env (st lk) nul h t)) as [h Hh].
      - intros n m c Hle Hc lk. eapply rk_mono; [exact Hle|done].
      - intros c Hc. apply IH; auto.
      - exists h. intros lk. apply seqrk_all, Forall_forall. intros c Hc. by apply Hh. }
    induction 1 as [nm y lit|n fs En Hfs IH|n vs En|ts Hts IH|t Ht IH|t Ht IH|t Ht IH|t Ht IH|t d Ht IH|t d Ht IH|t|t|t|t|t r]; intros Hw.
    - by exists 1.
    - destruct (Hmany (map fst fs) IH) as [h Hh].
      { assert (HW := ME W_struct _ _ Hw En). cbn [decl_fields] in HW. by rewrite Forall_forall in HW. }
      exists (S h). intros lk. cbn [rk]. rewrite En. apply Hh.
    - exists (S (H `max` H')). intros lk. cbn [rk]. rewrite En. intros t Ht Hs. apply HSt; [|done].
      assert (HW := ME W_struct _ _ Hw En). cbn [decl_fields] in HW. rewrite Forall_forall in HW. by apply HW.
    - destruct (Hmany ts IH) as [h Hh].
      { assert (HW := ME W_all _ Hw). cbn [subs] in HW. by rewrite Forall_forall in HW. }
      exists (S h). intros lk. cbn [rk]. apply Hh.
    - destruct IH as [h Hh]; [apply (ME W_sub _ _ Hw); cbn; set_solver|]. by exists (S h).
    - destruct IH as [h Hh]; [apply (ME W_sub _ _ Hw); cbn; set_solver|]. by exists (S h).
    - destruct IH as [h Hh]; [apply (ME W_sub _ _ Hw); cbn; set_solver|]. by exists (S h).
    - destruct IH as [h Hh]; [apply (ME W_sub _ _ Hw); cbn; set_solver|]. by exists (S h).
    - destruct (ME W_two (TSplit t d) t d eq_refl Hw) as [W1 W2]. destruct (IH W1) as [h Hh]. exists (S (h `max` (H `max` H'))). intros lk. cbn [rk].
      split; [eapply rk_mono; [|apply Hh]; lia|]. intros Hs. right. eapply rk_mono; [|apply HSt; done]. lia.
    - destruct (ME W_two (TPunct t d) t d eq_refl Hw) as [W1 W2]. destruct (IH W1) as [h Hh]. exists (S (h `max` (H `max` H'))). intros lk. cbn [rk].
      split; [eapply rk_mono; [|apply Hh]; lia|]. intros Hs. right. eapply rk_mono; [|apply HSt; done]. lia.
    - exists (S (H `max` H')). intros lk. cbn [rk]. apply HSt, (ME W_sub _ _ Hw). cbn. set_solver.
    - exists (S (H `max` H')). intros lk. cbn [rk]. apply HSt, (ME W_sub _ _ Hw). cbn. set_solver.
    - exists (S (H `max` H')). intros lk. cbn [rk]. apply HSt, (ME W_sub _ _ Hw). cbn. set_solver.
    - exists (S (H `max` H')). intros lk. cbn [rk]. apply HSt, (ME W_sub _ _ Hw). cbn. set_solver.
    - destruct (ME W_two (TRecover t r) t r eq_refl Hw) as [W1 W2]. exists (S (H `max` H')). intros lk. cbn [rk].
      split; [|intros ?; right]; by apply HR.
  Qed.
  Lemma rank_uniform : all_within env (grounded env) root → ∃ R, ∀ t lk, W t → rank R t lk.
  Proof.
    intros Hg. destruct (types_list env root) as [l Hl].
    destruct (common_bound l (λ h t, ∀ lk, rank h t lk)) as [R HR].
    - intros n m t Hle H lk. eapply rank_mono; [exact Hle|done].
    - intros t Ht%Hl. apply grounded_rank; [by apply Hg|done].
    - exists R. intros t lk Hw. by apply HR, Hl.
  Qed.
  (** No type has more than [N] parts. *)
  Lemma width_uniform : ∃ N, ∀ t, W t → length (subs env t) ≤ N.
  Proof.
    destruct (types_list env root) as [l Hl].
    destruct (common_bound l (λ h t, length (subs env t) ≤ h)) as [N HN]; [intros; lia|intros t _; by exists (length (subs env t))|].
    exists N. intros t Hw. by apply HN, Hl.
  Qed.
End md.
Unset Default Proof Using.
