(** Renaming: from declarations to answers. *)
From Coq Require Import String NArith.
From stdpp Require Import prelude list gmap strings.
From Verif Require Import SynSetModel TableModel CfgSpec TypeModel TypeSpec TypeFacts StreamModel ProduceModel RenameSpec RenameRunFacts RenameProduceFacts RenameTableFacts.
Local Open Scope nat_scope.

Lemma ty_declared_re r env env' t : redeclared r env env' → ty_declared (length env) t → ty_declared (length env') (re_ty r t).
Proof.
  intros He. revert t. fix IH 1. intros [n y l|n|l|t|t|t|t|t|t|t|t|t p|t p|t p]; cbn; try apply IH.
  - done.
  - intros H. apply lookup_lt_is_Some_2 in H as [d H]. apply (lookup_lt_Some _ _ (re_decl r d)). by rewrite He, H.
  - induction l as [|t l IHl]; [done|]. cbn. intros [H1 H2]. split; [by apply IH|by apply IHl].
  - intros [H1 H2]. split; by apply IH.
  - intros [H1 H2]. split; by apply IH.
  - intros [H1 H2]. split; by apply IH.
Qed.
Lemma renamed_register r env env' t : distinct r → redeclared r env env' → env_declared env → env_declared env' → ty_declared (length env) t →
  ∃ regs, register_root env (prod_of t) = Some regs ∧ register_root env' (prod_of (re_ty r t)) = Some (map (re_reg r) regs).
Proof.
  intros Hd He D1 D2 Ht. destruct (register_root_total env t D1 Ht) as [regs E1].
  destruct (register_root_total env' (re_ty r t) D2 (ty_declared_re _ _ _ _ He Ht)) as [regs' E2].
  exists regs. split; [done|]. rewrite E2. f_equal. unfold register_root in E1, E2.
  pose proof (register_re r Hd env env' He (S (length (all_parts env (prod_of t)))) (prod_of t) []) as E. rewrite E1 in E. cbn [map fmap option_fmap option_map] in E.
  rewrite <- prod_of_re in E.
  set (a := S (length (all_parts env (prod_of t)))) in *. set (b := S (length (all_parts env' (prod_of (re_ty r t))))) in *.
  apply (register_fuel _ _ (a + b)) in E; [|lia]. apply (register_fuel _ _ (a + b)) in E2; [|lia]. congruence.
Qed.
Lemma renamed_verdict r env env' t regs iter iter' : distinct r → redeclared r env env' → env_declared env → env_declared env' → ty_declared (length env) t →
  register_root env (prod_of t) = Some regs → iter ≡ₚ regs → iter' ≡ₚ map (re_reg r) regs →
  ∃ m m', root_metadata env t iter = Some m ∧ root_metadata env' (re_ty r t) iter' = Some m' ∧ same_meta r m m'.
Proof.
  intros Hd He D1 D2 Ht Hr Hi Hi'. destruct (renamed_register r env env' t Hd He D1 D2 Ht) as (regs1 & E1 & E2).
  assert (regs1 = regs) as -> by congruence. unfold root_metadata. rewrite E1, E2. cbn [mbind option_bind]. rewrite key_re.
  apply meta_build_re; try done. destruct (register_root_spec env (prod_of t) regs E1) as [H _]. exact H.
Qed.
Lemma renamed_run r env env' t m m' extract extract' f s s' : distinct r → redeclared r env env' → same_meta r m m' →
  (∀ y, extract' (rn_type r y) = extract y) → same_state r s s' →
  same_out r (same_answer r) (run extract (parse env f t m) s) (run extract' (parse env' f (re_ty r t) m') s').
Proof. intros Hd He Hm Hx Hs. apply sim_run; [done| |done]. by apply parse_sim. Qed.
Lemma same_start r x evs : same_state r (pst_new x evs) (pst_new x (map (re_raw r) evs)).
Proof. constructor; cbn; done. Qed.
Lemma renamed_program r env env' t regs iter iter' : distinct r → redeclared r env env' → env_declared env → env_declared env' → ty_declared (length env) t →
  register_root env (prod_of t) = Some regs → iter ≡ₚ regs → iter' ≡ₚ map (re_reg r) regs →
  ∃ m m', root_metadata env t iter = Some m ∧ root_metadata env' (re_ty r t) iter' = Some m' ∧
    ∀ extract extract' f x evs, (∀ y, extract' (rn_type r y) = extract y) →
      same_out r (same_answer r) (run extract (parse env f t m) (pst_new x evs)) (run extract' (parse env' f (re_ty r t) m') (pst_new x (map (re_raw r) evs))).
Proof.
  intros Hd He D1 D2 Ht Hr Hi Hi'. destruct (renamed_verdict r env env' t regs iter iter' Hd He D1 D2 Ht Hr Hi Hi') as (m & m' & E1 & E2 & H).
  exists m, m'. split; [done|]. split; [done|]. intros extract extract' f x evs Hx. apply renamed_run; try done. apply same_start.
Qed.
