(** Types that are abbreviations give the same grammar. *)
From Coq Require Import String NArith.
From stdpp Require Import prelude list strings relations.
From Verif Require Import LexModel SynSetModel TableModel CfgSpec StreamModel StreamSpec TypeModel TypeSpec ProduceModel ParseSpec SugarSpec.
Local Open Scope nat_scope.

Lemma plainly_prod : ∀ t, prod_of (plainly t) = prod_of t.
Proof.
  fix IH 1. intros [n y l|n|l|t|t|t|t|t|t|t|t|t d|t d|t r]; cbn [plainly prod_of spelled_out]; try reflexivity;
    [|rewrite (IH t); reflexivity..|idtac|idtac|idtac].
  - f_equal. induction l as [|t l IHl]; [reflexivity|]. cbn [map]. rewrite (IH t), IHl. reflexivity.
  - cbn. rewrite (IH t), (IH d). reflexivity.
  - rewrite (IH t), (IH d). reflexivity.
  - cbn. rewrite (IH t), (IH r). reflexivity.
Qed.
Lemma plainly_fields l : field_prods (map (λ f, (plainly f.1, None)) l) = field_prods l.
Proof. unfold field_prods. rewrite map_map. apply map_ext. intros [t a]. apply plainly_prod. Qed.
Section plain.
  Variable env : denv.
  Notation env' := (map plainly_decl env).
  Lemma plain_kids p : kids env' p = kids env p.
  Proof.
    destruct p; try done. cbn. rewrite list_lookup_fmap. destruct (env !! _) as [[l|l]|]; [..|done]; cbn; by rewrite plainly_fields.
  Qed.
  Lemma plain_entry p : entry_of env' p = entry_of env p.
  Proof.
    destruct p; try done. cbn. rewrite list_lookup_fmap. destruct (env !! _) as [[l|l]|]; [..|done]; cbn; by rewrite plainly_fields.
  Qed.
  Lemma reg_all_ext (f g : prod → list (prod * entry prod) → option (list (prod * entry prod))) ps regs :
    (∀ p r, f p r = g p r) → reg_all f ps regs = reg_all g ps regs.
  Proof.
    intros H. revert regs. induction ps as [|p ps IH]; intros regs; cbn; [done|]. rewrite H. destruct (g p regs); [apply IH|done].
  Qed.
  Lemma plain_register n p regs : register env' n p regs = register env n p regs.
  Proof.
    revert p regs. induction n as [|n IH]; intros p regs; cbn [register]; [done|]. rewrite plain_entry, plain_kids.
    destruct (decide _); [done|]. destruct (entry_of env (pid p)); [|done]. destruct (kids env (pid p)); [|done]. cbn. by apply reg_all_ext.
  Qed.
  Lemma plain_parts p : all_parts env' p = all_parts env p.
  Proof.
    unfold all_parts. f_equal. induction env as [|d l IH]; cbn; [done|]. rewrite IH. f_equal. destruct d; cbn; by rewrite plainly_fields.
  Qed.
  Lemma plain_root p : register_root env' p = register_root env p.
  Proof. unfold register_root. by rewrite plain_parts, plain_register. Qed.
  Lemma plain_metadata root iter : root_metadata env' (plainly root) iter = root_metadata env root iter.
  Proof. unfold root_metadata, key. by rewrite plainly_prod, plain_root. Qed.
  Lemma plain_accepted root md : accepted env' (plainly root) md ↔ accepted env root md.
  Proof. unfold accepted, key. by rewrite plainly_prod, plain_root. Qed.
End plain.
