(** Statements with an end, for the examples of P_Stmt. *)
From Coq Require Import String NArith.
From stdpp Require Import prelude list strings relations.
From Verif Require Import LexModel LexSpec SynSetModel TableModel CfgSpec CfgFacts StreamModel StreamSpec TypeModel TypeSpec ProduceModel ParseSpec ProgFacts CompleteSpec CompleteFacts
  SyntaxEx ParseEx TermEx CompleteEx LeafSpec LoopSpec NextFacts NextEx BrokenSpec BrokenFacts StmtSpec ScatterEx BrokenEx.
Local Open Scope nat_scope.

(** [a,b,c)]: an identifier, a comma, a list of identifiers, and a [")"] at the end. *)
Definition sgI := TSplit tId tC.
Definition sgT := TTuple [tId; tC; sgI].
Definition sgS := TRecover sgT tR.
Definition sgL := TLoop sgS.
Lemma sg_accepted : accepted [] sgL (md_get [] sgL).
Proof. apply md_get_accepted. by vm_compute. Qed.
Definition sg_types := [sgL; sgS; sgT; sgI; tId; tC; tR].
Lemma sg_regular : regular [] sgL.
Proof.
  apply (regular_interior _ _ _ sg_accepted); [within sg_types|within sg_types| | |].
  { apply (all_within_list _ _ sg_types); [set_solver|]; unfold sg_types.
    repeat (apply Forall_cons; split; [split; [cbn; try done; intros H; inversion H|cbn; repeat (apply Forall_cons; split; [set_solver|]); apply Forall_nil; done]|]).
    apply Forall_nil; done. }
  { cbn. within [sgS; sgT; sgI; tId; tC; tR]. }
  apply interior_ok. by vm_compute.
Qed.
Lemma id_lang x : lang [] tId [(0, x)].
Proof. by apply id_one; split; [|left]. Qed.
Lemma sgI_lang x : lang [] sgI [(0, x)].
Proof. apply (l_split _ _ _ 0). apply (ls_cons _ _ _ [(0, x)] []); [apply id_lang|constructor]. Qed.
Lemma sg_lang x y : lang [] sgT [(0, x); (1, ","%string); (0, y)].
Proof.
  constructor. apply (ls_cons _ _ _ [(0, x)]); [apply id_lang|]. apply (ls_cons _ _ _ [(1, ","%string)]); [apply l_lit|].
  apply (ls_cons _ _ _ [(0, y)] []); [apply sgI_lang|constructor].
Qed.
Lemma sg_stmt_lang x y : lang [] sgS [(0, x); (1, ","%string); (0, y); (1, ")"%string)].
Proof.
  constructor. apply (ls_cons _ _ _ [(0, x); (1, ","%string); (0, y)] [(1, ")"%string)]); [apply sg_lang|].
  apply (ls_cons _ _ _ [(1, ")"%string)] []); [apply l_lit|constructor].
Qed.
Lemma sg_productive : productive [] sgL.
Proof.
  apply (all_within_list _ _ sg_types); [set_solver|]. unfold sg_types.
  repeat (apply Forall_cons; split; [split; [|cbn; repeat (apply Forall_cons; split; [set_solver|]); apply Forall_nil; done]|]); [..|apply Forall_nil; done].
  - exists ([(0, "a"%string); (1, ","%string); (0, "a"%string); (1, ")"%string)] ++ []). apply (l_loop _ _ 0). apply (ls_cons _ _ []); [apply sg_stmt_lang|constructor].
  - eexists. apply (sg_stmt_lang "a" "a").
  - eexists. apply (sg_lang "a" "a").
  - eexists. apply (sgI_lang "a").
  - eexists. apply (id_lang "a").
  - eexists. apply l_lit.
  - eexists. apply l_lit.
Qed.
Definition sg_regs : grammar prod := default [] (register_root [] (prod_of sgL)).
Lemma sg_registered : register_root [] (prod_of sgL) = Some sg_regs.
Proof. by vm_compute. Qed.
Lemma sg_keeps : keeps_end [] sg_regs sgL sgT tR.
Proof.
  apply (all_within_list _ _ [sgT; sgI; tId; tC]); [set_solver|].
  repeat (apply Forall_cons; split; [split; [|cbn; repeat (apply Forall_cons; split; [set_solver|]); apply Forall_nil; done]|]); [..|apply Forall_nil; done]; try done.
  intros y Hy. inversion Hy; subst. match goal with H : covers _ _ y |- _ => destruct H as [E1 [E2|E2]] end; [done|]. destruct y as [y1 y2]. cbn in *. subst y1. injection E2 as <-.
  apply (after_list_spec _ _ _ _ _ _ sg_accepted sg_registered). by vm_compute.
Qed.
Lemma sg_apart : apart [] sgT tR.
Proof.
  intros n y lit w Hw Hl Hd.
  assert (HH : all_within [] (λ c, match c with TTok _ y lit => (y, lit) = (0, None) ∨ (y, lit) = (1, Some ","%string) | _ => True end) sgT)
    by (apply (all_within_list _ _ [sgT; sgI; tId; tC]); [set_solver|]; repeat (apply Forall_cons; split; [split; [cbn; auto|cbn; repeat (apply Forall_cons; split; [set_solver|]); apply Forall_nil; done]|]); apply Forall_nil; done).
  specialize (HH _ Hw). cbn in HH. inversion Hl; inversion Hd; subst.
  match goal with H1 : covers _ _ w, H2 : covers _ _ w |- _ => destruct H1 as [E1 E2], H2 as [E3 [E4|E4]] end; [done|].
  destruct HH as [[= -> ->]|[= -> ->]]; [congruence|]. destruct E2 as [?|E2]; [done|]. rewrite <- E2 in E4. done.
Qed.
Lemma sg_within : within [] sgL sgS.
Proof. apply rtc_once. cbn. by left. Qed.
Lemma not_end y x : (y, x) ≠ (1, ")"%string) → ¬ lang [] tR [(y, x)].
Proof.
  intros Hne H. inversion H; subst. match goal with H : covers _ _ _ |- _ => destruct H as [E1 [E2|E2]] end; [done|]. cbn in *. injection E2 as <-. by subst.
Qed.
Lemma sg_begins x : begins_stmt [] sgT tR (0, x).
Proof. eexists. apply (sg_stmt_lang x "a"). Qed.
Lemma sg_not_begins x : ¬ begins_stmt [] sgT tR (1, x).
Proof.
  intros [w H]. inversion H as [| | | | | | | | | | | | | | | |]; subst. match goal with H : langs _ _ _ |- _ => inversion H; subst end.
  match goal with H : lang _ sgT _ |- _ => inversion H; subst end. match goal with H : langs _ (tId :: _) _ |- _ => inversion H; subst end.
  match goal with H : lang _ tId _ |- _ => inversion H; subst end. cbn in *. simplify_eq.
  match goal with H : covers _ None _ |- _ => by destruct H as [? _] end.
Qed.

(** "(a,b)a(,c)d,": a "(" between, a statement, one with a "(" too much, and one that ends too early. *)
Definition sg_src : string := "(a,b)a(,c)d,".
Definition sg_segs : list seg :=
  [Gap [sc_tok 0 1]; Stmt [sc_tok 1 0; sc_tok 2 1; sc_tok 3 0] (sc_tok 4 1); Stmt [sc_tok 5 0; sc_tok 6 1; sc_tok 7 1; sc_tok 8 0] (sc_tok 9 1);
   Open [sc_tok 10 0; sc_tok 11 1]].
Lemma sg_tokens : to_come no_extract (start sg_src) = [sc_tok 0 1] ++ [sc_tok 1 0; sc_tok 2 1; sc_tok 3 0] ++ sc_tok 4 1 ::
  [sc_tok 5 0; sc_tok 6 1; sc_tok 7 1; sc_tok 8 0] ++ sc_tok 9 1 :: [sc_tok 10 0; sc_tok 11 1].
Proof. by vm_compute. Qed.
Lemma sg_divided : segs [] sgT tR sg_src (to_come no_extract (start sg_src)) sg_segs.
Proof.
  rewrite sg_tokens. apply sg_gap; [done| | |].
  { apply Forall_cons; split; [apply sg_not_begins|apply Forall_nil; done]. }
  { right. eexists. split; [done|]. apply sg_begins. }
  apply sg_stmt; [eexists; split; [done|]; apply sg_begins| |apply l_lit|].
  { repeat (apply Forall_cons; split; [by apply not_end|]). apply Forall_nil; done. }
  apply sg_stmt; [eexists; split; [done|]; apply sg_begins| |apply l_lit|].
  { repeat (apply Forall_cons; split; [by apply not_end|]). apply Forall_nil; done. }
  apply sg_open; [eexists; split; [done|]; apply sg_begins|].
  repeat (apply Forall_cons; split; [by apply not_end|]). apply Forall_nil; done.
Qed.

(** A list before a part of the statement: the list does not end before the end of the statement. *)
Definition swT := TTuple [sgI; tL].
Definition swL := TLoop (TRecover swT tR).
