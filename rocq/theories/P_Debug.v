(** Theorems about printed names and messages (C70, C71). *)
From Coq Require Import String.
From stdpp Require Import prelude list strings.
From Verif Require Import LexModel LexSpec SynSetModel TableModel StreamModel StreamSpec TypeModel TypeSpec ProduceModel CfgSpec ParseSpec ParseEx DebugModel DebugSpec DebugFacts.
Local Open Scope string_scope.
Local Open Scope list_scope.
Local Open Scope nat_scope.

(** ** C70: the text of a production tells which production it is *)
(** False: an optional sequence whose first part is optional and whose last part is a
    repetition prints like the sequence with only that last part optional. *)
Theorem C70_refuted : ∃ p q, p ≠ q ∧
  ∀ tn dn, tn 0 = "Ident" → debug tn dn p = debug tn dn q ∧ debug tn dn p = "(Ident)? ( + )*".
Proof. exact debug_ambiguous. Qed.
Print Assumptions C70_refuted.
(** Optional repetitions print as the documented starred forms. *)
Theorem C70_star_partial : ∀ tn dn p,
  debug tn dn (POpt (POneMore p)) = String.append "( " (String.append (debug tn dn p) " )*").
Proof. exact debug_star. Qed.
Print Assumptions C70_star_partial.
Theorem C70_punct_partial : ∀ tn dn p q, debug tn dn (POpt (PPunct p q)) =
  String.append "( " (String.append (debug tn dn p) (String.append " )[" (String.append (debug tn dn q) "]*"))).
Proof. exact debug_puncts. Qed.
Print Assumptions C70_punct_partial.
(** Anything else optional prints in brackets with a question mark, unless its own text begins
    and ends like a repetition. *)
Theorem C70_opt_partial : ∀ tn dn p, let x := debug tn dn p in let o := debug tn dn (POpt p) in
  o = String.append "(" (String.append x ")?") ∨
  ∃ y, (x = String.append "(" (String.append y ")+") ∧ o = String.append "(" (String.append y ")*")) ∨
       (x = String.append "(" (String.append y "]+") ∧ o = String.append "(" (String.append y "]*")).
Proof. exact debug_opt. Qed.
Print Assumptions C70_opt_partial.
(** Boxes and the nesting of sequences do not show. *)
Theorem C70_box_partial : ∀ tn dn p, debug tn dn (unbox p) = debug tn dn p.
Proof. exact debug_unbox. Qed.
Print Assumptions C70_box_partial.
Theorem C70_flat_partial : ∀ tn dn l1 l2 l3, l2 ≠ [] →
  debug tn dn (PTuple (l1 ++ PTuple l2 :: l3)) = debug tn dn (PTuple (l1 ++ l2 ++ l3)).
Proof. exact debug_flat. Qed.
Print Assumptions C70_flat_partial.
Example C70_ex : let tn := λ _, "Ident" in let dn := λ _, "S" in
  debug tn dn (POpt (POneMore (PTuple [PTok 0 0 None; PNamed 0]))) = "( Ident S )*" ∧
  debug tn dn (POpt (PPunct (PTok 0 0 None) (PTok 1 1 (Some ",")))) = "( Ident )[,]*" ∧
  debug tn dn (POpt (PNamed 0)) = "(S)?" ∧
  debug tn dn (PTuple [PTok 0 0 None; PTuple [PBox (PNamed 0); PTok 1 1 (Some ",")]]) = "Ident S ,".
Proof. by vm_compute. Qed.

(** ** C71: every recorded error has a message, with the right text in it *)
Theorem C71_messages : ∀ ty_name extract env t md f s o s', filled env t → state_ok s →
  run extract (parse env f t (inr md)) s = ODone o s' →
  ∃ es, p_errors s' = p_errors s ++ es ∧ ∀ e, e ∈ es → ∃ m, message ty_name e (p_src s) = Some m ∧
    match e_kind e with
    | UnexpectedCharacters => ∃ x, m = String.append "Unexpected: " x ∧ spanned (e_span e) (p_src s) x
    | UnexpectedTokens => ∃ x, m = String.append "Unexpected token(s): " x ∧ spanned (e_span e) (p_src s) x
    | Expecting set => ∃ items, m = String.append "Expecting one of " (String.concat ", " items) ∧ prints ty_name set items
    | UnexpectedEof => m = "Unexpected end of file"%string
    | NoAdvance => True
    end.
Proof. exact parse_messages. Qed.
Print Assumptions C71_messages.
Example C71_ex : match ex_parse ex_env exE "(a?,,b" with
  | ODone _ s' => map (λ e, message (λ _, "Ident") e (p_src s')) (p_errors s') =
      [Some "Unexpected: ?"; Some "Expecting one of ""("", "")"", Ident"; Some "Expecting one of "")"""]
  | _ => False end.
Proof. by vm_compute. Qed.

(** ** C84: the text of a grammar error *)
(** It names the non-terminal and the parts in conflict, and lists exactly the terminals in
    question, sorted and without repetition.  (Which conflicts are reported: C22-C25.) *)
Theorem C84_texts : ∀ tok_name decl_name ty_name regs iter root e, functional regs → iter ≡ₚ regs →
  meta_build regs iter root = Some (inl e) →
  let name := debug tok_name decl_name in
  let text := gerr_display tok_name decl_name ty_name e in
  match e with
  | GLeftRecursion _ _ => False
  | GFirstFirst self a b _ => ∃ items, listing ty_name (common_item regs true a b) items ∧
      text = String.concat "" ["The non-terminal `"; name self; "` has a FIRST/FIRST conflict producing either `";
        name a; "` or `"; name b; "`. The conflicting terminals are: "; String.concat ", " items]%string
  | GFirstFollow self _ => nullable regs self ∧
      ∃ items, listing ty_name (common (starts regs self) (λ t, near_follow regs root self (Some t))) items ∧
      text = String.concat "" ["The non-terminal `"; name self;
        "` has conflict in its FIRST and FOLLOW sets. The conflicting terminals are: "; String.concat ", " items]%string
  | GSeq self cur next _ => ∃ m1 m2 m3 items, (self, ESeq (m1 ++ cur :: m2 ++ next :: m3)) ∈ regs ∧
      listing ty_name (common (carried regs (m1 ++ cur :: m2)) (starts regs next)) items ∧
      text = String.concat "" ["The non-terminal `"; name self; "` has a FIRST/FOLLOW conflict producing `";
        name cur; "` followed by `"; name next; "`. `"; name cur; "` can be empty and both can start with: ";
        String.concat ", " items]%string
  end.
Proof. exact gerr_texts. Qed.
Print Assumptions C84_texts.
(** [(Option<A>, A)], A a terminal for any identifier; [((",", Option<A>), A)]. *)
Example C84_ex :
  let text p := match register_root [] p with
    | Some regs => match meta_build regs regs p with
      | Some (inl e) => Some (gerr_display (λ _, "A") (λ _, "S") (λ _, "Ident") e) | _ => None end
    | None => None end in
  let A := PTok 0 0 None in
  text (PTuple [POpt A; A]) =
    Some "The non-terminal `(A)? A` has a FIRST/FOLLOW conflict producing `(A)?` followed by `A`. `(A)?` can be empty and both can start with: Ident" ∧
  text (PTuple [PTuple [PTok 1 1 (Some ","); POpt A]; A]) =
    Some "The non-terminal `(A)?` has conflict in its FIRST and FOLLOW sets. The conflicting terminals are: Ident".
Proof. by vm_compute. Qed.
