(** Facts about the token stream: refinement of the parser state to (consumed, rest),
    conservation, locality. *)
From Coq Require Import String Ascii NArith.
From stdpp Require Import prelude list.
From Verif Require Import LexModel LexSpec LexFacts VecFacts SynSetModel StreamModel StreamSpec.
Local Open Scope nat_scope.

(** * Abstract runs: consumed tokens and the tokens still to come. *)
Record ast := Ast { a_src : string; a_done : list cell; a_rest : list token }.

Definition a_span (s : ast) : span :=
  match a_rest s with t :: _ => t_span t | [] => eof_span (a_src s) end.

Fixpoint arun {A} (m : M A) (s : ast) : out A ast :=
  match m with
  | Ret a => ODone a s
  | Fuel => OFuel
  | Peek k => arun (k (head (a_rest s))) s
  | ToSrc t k =>
    match token_src t (a_src s) with Some x => arun (k (t_ty t, x)) s | None => OCrash end
  | Consume k =>
    match a_rest s with
    | t :: r => arun (k (Some t)) (Ast (a_src s) (vec_push (a_done s) t) r)
    | [] => arun (k None) s
    end
  | EmptySpan k => arun (k (Span (end_of (a_done s)) (end_of (a_done s)))) s
  | CurSpan k => arun (k (a_span s)) s
  | GetSrc sp k =>
    match span_get sp (a_src s) with Some x => arun (k x) s | None => OCrash end
  | Apply sp sem k => arun k (Ast (a_src s) (vec_apply_semantic (a_done s) sp sem) (a_rest s))
  | Extend es k => arun k s
  end.

Lemma bindM_eq {A B} (m : M A) (f : A → M B) : m ≫= f = bindM m f.
Proof. done. Qed.

Lemma arun_bind {A B} (m : M A) (f : A → M B) s :
  arun (m ≫= f) s =
  match arun m s with OFuel => OFuel | OCrash => OCrash | ODone a s' => arun (f a) s' end.
Proof.
  rewrite bindM_eq. revert s.
  induction m as [| |k IH|t k IH|k IH|k IH|k IH|sp k IH|sp sem k IH|es k IH]; intros s;
    cbn [bindM arun]; auto.
  - destruct (token_src t (a_src s)); auto.
  - destruct (a_rest s); auto.
  - destruct (span_get sp (a_src s)); auto.
Qed.

Section facts.
  Variable extract : nat → bool.

  Definition keep (l : list token) : list token := filter (λ t, extract (t_ty t) = false) l.
  Definition pulled (l : list token) : list token := filter (λ t, extract (t_ty t) = true) l.
  Definition stream (s : pst) : list token :=
    match p_peeked s with Some t => [t] | None => [] end ++ keep (raw_tokens (p_evs s)).
  Definition abs (s : pst) : ast := Ast (p_src s) (p_tokens s) (stream s).
  Definition invalids (evs : list raw) : list span := omap (λ b, hull b.1) (raw_blocks [] evs).

  Definition with_evs (s : pst) (evs : list raw) : pst :=
    Pst (p_src s) evs (p_peeked s) (p_invalid s) (p_tokens s) (p_extracted s) (p_errors s).

  (** What reading does to the state. *)
  Record reads (s s' : pst) : Prop := {
    rd_src : p_src s' = p_src s;
    rd_tokens : p_tokens s' = p_tokens s;
    rd_stream : stream s' = stream s;
    rd_used : ∃ used, p_evs s = used ++ p_evs s';
    rd_invalid : p_invalid s' ++ invalids (p_evs s') = p_invalid s ++ invalids (p_evs s);
    rd_extracted : p_extracted s' ++ pulled (raw_tokens (p_evs s')) =
                   p_extracted s ++ pulled (raw_tokens (p_evs s));
    rd_errors : ∃ new, p_invalid s' = p_invalid s ++ new ∧
      p_errors s' = p_errors s ++ map (λ sp, PErr sp UnexpectedCharacters) new }.

  Lemma reads_refl s : reads s s.
  Proof. constructor; try done; exists []; by rewrite ?app_nil_r. Qed.

  Lemma raw_blocks_acc acc errs rest :
    raw_blocks acc (map RErr errs ++ rest) = raw_blocks (acc ++ errs) rest.
  Proof.
    revert acc. induction errs as [|e errs IH]; intros acc; cbn; [by rewrite app_nil_r|].
    rewrite IH. by rewrite <- (assoc_L (++)).
  Qed.

  Lemma invalids_block errs rest :
    match rest with RErr _ :: _ => False | _ => True end →
    invalids (map RErr errs ++ rest) =
    match hull errs with Some h => [h] | None => [] end ++
    match rest with RTok _ _ :: r => invalids r | _ => [] end.
  Proof.
    intros Hr. unfold invalids. rewrite raw_blocks_acc. cbn [app].
    destruct rest as [|[ty sp|sp] r]; [| |done]; cbn; destruct (hull errs); done.
  Qed.

  Lemma read_loop_spec f s : length (p_evs s) < f → p_peeked s = None →
    reads s (read_loop extract f s) ∧
    p_peeked (read_loop extract f s) = head (stream s) ∧
    (p_peeked (read_loop extract f s) = None → p_evs (read_loop extract f s) = []).
  Proof.
    revert s. induction f as [|f IH]; intros s Hf Hp; [lia|].
    destruct (raw_block (p_evs s)) as (errs & rest & Hev & Hr).
    destruct s as [src evs pk inv toks ext err]. cbn [p_evs p_peeked] in *. subst pk evs.
    cbn [read_loop p_evs]. rewrite lexer_next_block.
    destruct rest as [|[ty sp|sp] r]; [| |done].
    - (* end of input *)
      assert (Hs : stream (Pst src (map RErr errs ++ []) None inv toks ext err) = []).
      { unfold stream. cbn. by rewrite raw_tokens_errs. }
      assert (Hinv : invalids (map RErr errs ++ []) = option_list (hull errs)).
      { rewrite (invalids_block errs []) by done. destruct (hull errs); done. }
      rewrite Hs. split.
      2: { destruct (hull errs); done. }
      constructor.
      + by destruct (hull errs).
      + by destruct (hull errs).
      + rewrite Hs. by destruct (hull errs).
      + exists (map RErr errs ++ []). cbn. destruct (hull errs); cbn; by rewrite !app_nil_r.
      + cbn [p_invalid p_evs]. rewrite Hinv. destruct (hull errs); cbn; by rewrite !app_nil_r.
      + cbn [p_extracted p_evs]. rewrite raw_tokens_errs. by destruct (hull errs).
      + exists (option_list (hull errs)). destruct (hull errs); cbn; by rewrite ?app_nil_r.
    - set (t := Token sp ty).
      set (s1 := match hull errs with Some h => _ | None => _ end).
      assert (Hs1 : p_src s1 = src ∧ p_evs s1 = r ∧ p_peeked s1 = None ∧ p_tokens s1 = toks ∧
        p_extracted s1 = ext ∧ p_invalid s1 = inv ++ option_list (hull errs) ∧
        p_errors s1 = err ++ map (λ sp, PErr sp UnexpectedCharacters) (option_list (hull errs))).
      { unfold s1. destruct (hull errs); cbn; rewrite ?app_nil_r; done. }
      destruct Hs1 as (H1 & H2 & H3 & H4 & H5 & H6 & H7). clearbody s1.
      set (s0 := Pst src (map RErr errs ++ RTok ty sp :: r) None inv toks ext err).
      assert (Hinv : invalids (p_evs s0) = option_list (hull errs) ++ invalids r).
      { unfold s0. cbn [p_evs]. rewrite invalids_block by done. by destruct (hull errs). }
      assert (Hraw : raw_tokens (p_evs s0) = t :: raw_tokens r).
      { cbn. by rewrite raw_tokens_errs. }
      destruct (extract (t_ty t)) eqn:Ex.
      + set (s2 := Pst _ _ _ _ _ (_ ++ [t]) _).
        destruct (IH s2) as ([Q1 Q2 Q3 [used Q4] Q5 Q6 [new [Q7 Q8]]] & Hh & He).
        { subst s2. cbn. rewrite H2. rewrite app_length in Hf. cbn in Hf. lia. }
        { done. }
        assert (Hst : stream s2 = stream s0).
        { unfold stream. rewrite Hraw. unfold s2, s0. cbn [p_peeked p_evs]. rewrite H2, H3. cbn [app].
          unfold keep. rewrite filter_cons, decide_False; [done|]. by rewrite Ex. }
        split; [|split; [by rewrite Hh, Hst|done]].
        constructor.
        * rewrite Q1. done.
        * rewrite Q2. done.
        * by rewrite Q3, Hst.
        * exists (map RErr errs ++ RTok ty sp :: used). rewrite <- (assoc_L (++)). unfold s0. cbn [p_evs app].
          do 2 f_equal. by rewrite <- H2.
        * rewrite Q5. unfold s2. cbn [p_invalid p_evs]. rewrite H2, H6, Hinv. by rewrite <- (assoc_L (++)).
        * rewrite Q6. unfold s2. cbn [p_extracted p_evs]. rewrite H2, H5. rewrite Hraw.
          unfold pulled. rewrite filter_cons, decide_True by done. by rewrite <- (assoc_L (++)).
        * exists (option_list (hull errs) ++ new). rewrite Q7, Q8. unfold s2. cbn [p_invalid p_errors].
          rewrite H6, H7, map_app, !(assoc_L (++)). done.
      + assert (Hst : stream s0 = t :: keep (raw_tokens r)).
        { unfold stream. rewrite Hraw. unfold s0. cbn [p_peeked app]. unfold keep.
          rewrite filter_cons, decide_True by done. done. }
        split; [|rewrite Hst; done].
        constructor.
        * done.
        * done.
        * rewrite Hst. unfold stream. cbn. by rewrite H2.
        * exists (map RErr errs ++ [RTok ty sp]). cbn. rewrite H2. by rewrite <- (assoc_L (++)).
        * cbn [p_invalid p_evs]. rewrite H2, H6. fold s0. rewrite Hinv.
          by rewrite <- (assoc_L (++)).
        * cbn [p_extracted p_evs]. rewrite H2, H5. fold s0. rewrite Hraw.
          unfold pulled at 2. rewrite filter_cons, decide_False by (rewrite Ex; done). done.
        * exists (option_list (hull errs)). cbn. by rewrite H6, H7.
  Qed.

  Lemma fill_spec s : reads s (fill extract s) ∧ p_peeked (fill extract s) = head (stream s) ∧
    (p_peeked (fill extract s) = None → p_evs (fill extract s) = []).
  Proof.
    unfold fill. destruct (p_peeked s) eqn:E.
    - split; [apply reads_refl|]. split; [|by rewrite E]. unfold stream. by rewrite E.
    - apply read_loop_spec; [lia|done].
  Qed.

  Lemma abs_fill s : abs (fill extract s) = abs s.
  Proof. destruct (fill_spec s) as [[H1 H2 H3 _ _ _ _] _]. unfold abs. by rewrite H1, H2, H3. Qed.

  (** The abstract run follows the concrete one. *)
  Definition abs_out {A} (o : out A pst) : out A ast :=
    match o with OFuel => OFuel | OCrash => OCrash | ODone a s => ODone a (abs s) end.

  Lemma run_abs {A} (m : M A) s : abs_out (run extract m s) = arun m (abs s).
  Proof.
    revert s. induction m as [| |k IH|t k IH|k IH|k IH|k IH|sp k IH|sp sem k IH|es k IH];
      intros s; cbn [run arun].
    - done.
    - done.
    - rewrite IH, abs_fill. destruct (fill_spec s) as (_ & -> & _). done.
    - change (a_src (abs s)) with (p_src s). destruct (token_src t (p_src s)); [apply IH|done].
    - destruct (fill_spec s) as (_ & Hp & _).
      assert (Ha := abs_fill s).
      destruct (fill extract s) as [src evs pk inv toks ext err]. cbn in Hp. subst pk.
      unfold abs in Ha. cbn [p_src p_tokens] in Ha. injection Ha as -> -> Hst.
      unfold stream at 1 in Hst. cbn [p_peeked p_evs] in Hst.
      unfold take_peeked. cbn [p_peeked].
      change (a_rest (abs s)) with (stream s).
      destruct (stream s) as [|t r] eqn:Es; cbn [head hd_error app] in Hst |- *.
      + rewrite IH. f_equal. unfold abs, stream. cbn [p_peeked p_evs p_src p_tokens app].
        rewrite Hst. unfold stream in Es. by rewrite Es.
      + rewrite IH. f_equal. unfold abs, stream. cbn [p_peeked p_evs p_src p_tokens app].
        injection Hst as ->. done.
    - apply IH.
    - rewrite IH, abs_fill. f_equal. f_equal. unfold a_span.
      destruct (fill_spec s) as ([Hs _ _ _ _ _ _] & -> & _). cbn. rewrite Hs.
      unfold stream. by destruct (p_peeked s), (keep (raw_tokens (p_evs s))).
    - change (a_src (abs s)) with (p_src s). destruct (span_get sp (p_src s)); [apply IH|done].
    - rewrite IH. done.
    - rewrite IH. done.
  Qed.

  Lemma run_done {A} (m : M A) s a s' : run extract m s = ODone a s' → arun m (abs s) = ODone a (abs s').
  Proof. intros H. by rewrite <- run_abs, H. Qed.
  Lemma arun_done {A} (m : M A) s a t : arun m (abs s) = ODone a t →
    ∃ s', run extract m s = ODone a s' ∧ abs s' = t.
  Proof.
    rewrite <- run_abs. destruct (run extract m s) as [| |a' s']; cbn; try done.
    intros [= -> <-]. eauto.
  Qed.

  Lemma run_bind {A B} (m : M A) (f : A → M B) s :
    run extract (m ≫= f) s =
    match run extract m s with
    | OFuel => OFuel | OCrash => OCrash | ODone a s' => run extract (f a) s'
    end.
  Proof.
    rewrite bindM_eq. revert s.
    induction m as [| |k IH|t k IH|k IH|k IH|k IH|sp k IH|sp sem k IH|es k IH]; intros s;
      cbn [bindM run]; auto.
    - destruct (token_src t (p_src s)); auto.
    - destruct (take_peeked (fill extract s)); auto.
    - destruct (span_get sp (p_src s)); auto.
  Qed.

  (** * Conservation *)

  Lemma apply_toks l sp sem : map c_tok (vec_apply_semantic l sp sem) = map c_tok l.
  Proof.
    unfold vec_apply_semantic. destruct (inside_bounds l sp) as [[lo hi]|] eqn:E; [|done].
    assert (lo < hi).
    { unfold inside_bounds in E. destruct (search_lo l (sp_lo sp)), (search_hi l (sp_hi sp));
        case_match eqn:Hlt; try done; injection E as <- <-; by apply Nat.ltb_lt in Hlt. }
    unfold slice. rewrite !map_app, map_map. cbn.
    rewrite <- (take_drop lo l) at 4. rewrite map_app. f_equal.
    rewrite <- (take_drop (hi - lo) (drop lo l)) at 2. rewrite map_app, drop_drop.
    do 2 f_equal. f_equal. lia.
  Qed.

  Record conserves (s s' : pst) : Prop := {
    cv_src : p_src s' = p_src s;
    cv_all : map c_tok (p_tokens s') ++ stream s' = map c_tok (p_tokens s) ++ stream s;
    cv_done : ∃ new, map c_tok (p_tokens s') = map c_tok (p_tokens s) ++ new;
    cv_used : ∃ used, p_evs s = used ++ p_evs s';
    cv_invalid : p_invalid s' ++ invalids (p_evs s') = p_invalid s ++ invalids (p_evs s);
    cv_extracted : p_extracted s' ++ pulled (raw_tokens (p_evs s')) =
                   p_extracted s ++ pulled (raw_tokens (p_evs s));
    cv_grow : (∃ new, p_invalid s' = p_invalid s ++ new) ∧
              (∃ new, p_extracted s' = p_extracted s ++ new) ∧
              (∃ new, p_errors s' = p_errors s ++ new) }.

  Lemma conserves_refl s : conserves s s.
  Proof. constructor; try done; try (by exists []; rewrite ?app_nil_r). split_and!; by exists []; rewrite ?app_nil_r. Qed.

  Lemma grow_trans {A} (a b c : list A) : (∃ n, b = a ++ n) → (∃ n, c = b ++ n) → ∃ n, c = a ++ n.
  Proof. intros [n ->] [n' ->]. exists (n ++ n'). by rewrite (assoc_L (++)). Qed.

  Lemma conserves_trans s1 s2 s3 : conserves s1 s2 → conserves s2 s3 → conserves s1 s3.
  Proof.
    intros [A1 A2 A3 [u A4] A5 A6 (A7 & A8 & A9)] [B1 B2 B3 [v B4] B5 B6 (B7 & B8 & B9)].
    constructor; try congruence.
    - by eapply grow_trans.
    - exists (u ++ v). by rewrite A4, B4, (assoc_L (++)).
    - split_and!; by eapply grow_trans.
  Qed.

  Lemma pulled_grow s s' : reads s s' → ∃ new, p_extracted s' = p_extracted s ++ new.
  Proof.
    intros [_ _ _ [u H4] _ H6 _]. rewrite H4 in H6.
    assert (Hr : ∀ l1 l2, raw_tokens (l1 ++ l2) = raw_tokens l1 ++ raw_tokens l2).
    { intros l1 l2. induction l1 as [|[? ?|?] l1 IH]; cbn; rewrite ?IH; done. }
    rewrite Hr in H6. unfold pulled in H6. rewrite filter_app, (assoc_L (++)) in H6.
    apply app_inv_tail in H6. eauto.
  Qed.

  Lemma reads_conserves s s' : reads s s' → conserves s s'.
  Proof.
    intros H. assert (Hx := pulled_grow _ _ H). destruct H as [H1 H2 H3 H4 H5 H6 (n & H7 & H8)].
    constructor; try done; try congruence.
    - exists []. by rewrite H2, app_nil_r.
    - split_and!; eauto.
  Qed.

  Lemma fill_conserves s : conserves s (fill extract s).
  Proof. apply reads_conserves, fill_spec. Qed.

  Lemma take_conserves s : conserves s (take_peeked s).2.
  Proof.
    destruct s as [src evs pk inv toks ext err]. destruct pk as [t|]; [|apply conserves_refl].
    constructor; try done; try (by exists []; rewrite ?app_nil_r).
    - cbn [take_peeked p_peeked p_tokens p_src snd]. unfold vec_push, stream. cbn [p_peeked p_evs].
      rewrite map_app. cbn [map cell_of c_tok]. by rewrite <- (assoc_L (++)).
    - exists [t]. cbn. unfold vec_push. by rewrite map_app.
    - split_and!; by exists []; cbn; rewrite ?app_nil_r.
  Qed.

  Lemma run_conserves {A} (m : M A) s a s' : run extract m s = ODone a s' → conserves s s'.
  Proof.
    revert s. induction m as [| |k IH|t k IH|k IH|k IH|k IH|sp k IH|sp sem k IH|es k IH];
      intros s; cbn [run]; intros H.
    - injection H as _ <-. apply conserves_refl.
    - done.
    - apply IH in H. eapply conserves_trans; [apply fill_conserves|done].
    - destruct (token_src t (p_src s)); [by eapply IH|done].
    - destruct (take_peeked (fill extract s)) as [t s1] eqn:E. apply IH in H.
      eapply conserves_trans; [apply fill_conserves|].
      eapply conserves_trans; [apply take_conserves|]. by rewrite E.
    - by eapply IH.
    - apply IH in H. eapply conserves_trans; [apply fill_conserves|done].
    - destruct (span_get sp (p_src s)); [by eapply IH|done].
    - apply IH in H. eapply conserves_trans; [|done]. constructor; cbn; try done;
        try (by exists []; rewrite ?app_nil_r).
      + by rewrite apply_toks.
      + exists []. by rewrite apply_toks, app_nil_r.
      + split_and!; by exists []; rewrite ?app_nil_r.
    - apply IH in H. eapply conserves_trans; [|done]. constructor; cbn; try done;
        try (by exists []; rewrite ?app_nil_r). split_and!; [by exists []; rewrite ?app_nil_r..|eauto].
  Qed.

  (** Errors written while running: only by reading, unless the program writes some. *)
  Lemma run_errors {A} (m : M A) s a s' : no_extend m → run extract m s = ODone a s' →
    ∃ new, p_invalid s' = p_invalid s ++ new ∧
      p_errors s' = p_errors s ++ map (λ sp, PErr sp UnexpectedCharacters) new.
  Proof.
    assert (Hcomp : ∀ s1 s2 s3,
      (∃ n, p_invalid s2 = p_invalid s1 ++ n ∧
        p_errors s2 = p_errors s1 ++ map (λ sp, PErr sp UnexpectedCharacters) n) →
      (∃ n, p_invalid s3 = p_invalid s2 ++ n ∧
        p_errors s3 = p_errors s2 ++ map (λ sp, PErr sp UnexpectedCharacters) n) →
      ∃ n, p_invalid s3 = p_invalid s1 ++ n ∧
        p_errors s3 = p_errors s1 ++ map (λ sp, PErr sp UnexpectedCharacters) n).
    { intros s1 s2 s3 (n1 & -> & ->) (n2 & -> & ->). exists (n1 ++ n2).
      by rewrite map_app, !(assoc_L (++)). }
    assert (Hsame : ∀ s1 s2, p_invalid s1 = p_invalid s2 → p_errors s1 = p_errors s2 →
      ∃ n, p_invalid s2 = p_invalid s1 ++ n ∧
        p_errors s2 = p_errors s1 ++ map (λ sp, PErr sp UnexpectedCharacters) n).
    { intros s1 s2 -> ->. exists []. by rewrite !app_nil_r. }
    revert s. induction m as [| |k IH|t k IH|k IH|k IH|k IH|sp k IH|sp sem k IH|es k IH];
      intros s; cbn [run no_extend]; intros Hn H.
    - injection H as _ <-. by apply Hsame.
    - done.
    - apply IH in H; [|done]. eapply Hcomp; [|done]. apply fill_spec.
    - destruct (token_src t (p_src s)); [by eapply IH|done].
    - destruct (take_peeked (fill extract s)) as [t s1] eqn:E. apply IH in H; [|done].
      eapply Hcomp; [apply fill_spec|]. eapply Hcomp; [|done].
      unfold take_peeked in E. destruct (p_peeked (fill extract s)); injection E as <- <-; by apply Hsame.
    - by eapply IH.
    - apply IH in H; [|done]. eapply Hcomp; [|done]. apply fill_spec.
    - destruct (span_get sp (p_src s)); [by eapply IH|done].
    - apply IH in H; [|done]. eapply Hcomp; [|done]. by apply Hsame.
    - done.
  Qed.

  (** * Order of spans *)

  Lemma spans_ok_drop from len l1 x l2 : spans_ok from len (l1 ++ x :: l2) → spans_ok from len (l1 ++ l2).
  Proof.
    revert from. induction l1 as [|y l1 IH]; intros from; cbn.
    - intros (? & ? & ?). eapply spans_ok_weaken; [|done]. lia.
    - intros (? & ? & ?). auto.
  Qed.

  Lemma spans_ok_sublist from len l l' : sublist l l' → spans_ok from len l' → spans_ok from len l.
  Proof.
    intros H. revert from. induction H as [|x l l' H IH|x l l' H IH]; intros from; cbn; [done| |].
    - intros (? & ? & ?). auto.
    - intros (? & ? & ?). apply IH. eapply spans_ok_weaken; [|done]. lia.
  Qed.

  Lemma raw_tokens_sublist evs : sublist (map t_span (raw_tokens evs)) (map raw_span evs).
  Proof. induction evs as [|[? ?|?] evs IH]; cbn; [done|by constructor..]. Qed.

  Lemma sublist_map {A B} (f : A → B) l l' : sublist l l' → sublist (map f l) (map f l').
  Proof. induction 1; cbn; by constructor. Qed.

  Lemma keep_sublist l : sublist (keep l) l.
  Proof.
    unfold keep. induction l as [|x l IH]; [done|]. rewrite filter_cons. case_decide; by constructor.
  Qed.

  Definition aok (s : ast) : Prop :=
    spans_ok 0 (String.length (a_src s))
      (map (λ c, t_span (c_tok c)) (a_done s) ++ map t_span (a_rest s)).

  Lemma state_ok_abs s : state_ok s → aok (abs s).
  Proof.
    unfold state_ok, aok. cbn. apply spans_ok_sublist. apply sublist_app; [done|].
    unfold stream. rewrite map_app. apply sublist_app; [by destruct (p_peeked s)|].
    etrans; [|apply raw_tokens_sublist]. apply sublist_map, keep_sublist.
  Qed.

  Lemma raw_tokens_app l1 l2 : raw_tokens (l1 ++ l2) = raw_tokens l1 ++ raw_tokens l2.
  Proof. induction l1 as [|[? ?|?] l1 IH]; cbn; rewrite ?IH; done. Qed.

  (** ** C07 *)
  Lemma run_new_tokens {A} (m : M A) src evs a s : run extract m (pst_new src evs) = ODone a s →
    consumed s ++ to_come extract s = filter (λ t, extract (t_ty t) = false) (raw_tokens evs).
  Proof. intros H. apply run_conserves in H. exact (cv_all _ _ H). Qed.

  Lemma run_new_extracted {A} (m : M A) src evs a s : run extract m (pst_new src evs) = ODone a s →
    p_extracted s ++ filter (λ t, extract (t_ty t) = true) (raw_tokens (p_evs s)) =
    filter (λ t, extract (t_ty t) = true) (raw_tokens evs).
  Proof. intros H. apply run_conserves in H. exact (cv_extracted _ _ H). Qed.

  Lemma run_new_invalid {A} (m : M A) src evs a s : run extract m (pst_new src evs) = ODone a s →
    p_invalid s ++ bad_text (p_evs s) = bad_text evs.
  Proof. intros H. apply run_conserves in H. exact (cv_invalid _ _ H). Qed.

  Lemma run_new_errors {A} (m : M A) src evs a s : no_extend m →
    run extract m (pst_new src evs) = ODone a s →
    p_errors s = map (λ sp, PErr sp UnexpectedCharacters) (p_invalid s).
  Proof. intros Hn H. destruct (run_errors _ _ _ _ Hn H) as (n & H1 & H2). cbn in *. by subst n. Qed.

  Lemma run_new_kept {A} (m : M A) src evs a s t : run extract m (pst_new src evs) = ODone a s →
    t ∈ consumed s ++ to_come extract s → extract (t_ty t) = false.
  Proof. intros H. rewrite (run_new_tokens _ _ _ _ _ H). by intros [? _]%elem_of_list_filter. Qed.

  (** The look-ahead is missing only when everything has been read. *)
  Lemma peek_none s s' : run extract peek s = ODone None s' → p_evs s' = [].
  Proof. cbn. destruct (fill_spec s) as (_ & _ & H). intros [= H1 <-]. auto. Qed.

  (** State validity *)
  Lemma state_ok_new src evs : raw_ok (String.length src) evs → state_ok (pst_new src evs).
  Proof. done. Qed.

  Lemma raw_ok_sublist (evs : list raw) : sublist (map t_span (raw_tokens evs)) (map raw_span evs).
  Proof. apply raw_tokens_sublist. Qed.

  Lemma map_cells l : map (λ c, t_span (c_tok c)) l = map t_span (map c_tok l).
  Proof. by rewrite map_map. Qed.

  Lemma read_loop_ok f s : state_ok s → p_peeked s = None → state_ok (read_loop extract f s).
  Proof.
    revert s. induction f as [|f IH]; intros s Hs Hp; [done|].
    cbn [read_loop].
    destruct (raw_block (p_evs s)) as (errs & rest & Hev & Hr).
    assert (Hbase : ∀ l, sublist l (map raw_span (p_evs s)) →
      spans_ok 0 (String.length (p_src s)) (map (λ c, t_span (c_tok c)) (p_tokens s) ++ l)).
    { intros l Hl. eapply spans_ok_sublist; [|exact Hs]. apply sublist_app; [done|].
      rewrite Hp. done. }
    destruct (lexer_next (p_evs s)) as [[inv tk] evs] eqn:El.
    rewrite Hev, lexer_next_block in El.
    destruct rest as [|[ty sp|sp] r]; [| |done].
    - injection El as <- <- <-.
      destruct (hull errs); unfold state_ok; cbn [p_src p_tokens p_peeked p_evs]; rewrite Hp;
        apply Hbase, sublist_nil_l.
    - injection El as <- <- <-.
      assert (Hsub : sublist (map raw_span (RTok ty sp :: r)) (map raw_span (p_evs s))).
      { rewrite Hev, map_app. apply sublist_inserts_l. done. }
      destruct (hull errs); destruct (extract _).
      1,3: apply IH; [|done]; unfold state_ok; cbn [p_src p_tokens p_peeked p_evs]; rewrite Hp;
        apply Hbase; etrans; [|exact Hsub]; cbn [map]; by constructor.
      all: unfold state_ok; cbn [p_src p_tokens p_peeked p_evs]; apply Hbase; exact Hsub.
  Qed.

  Lemma fill_ok s : state_ok s → state_ok (fill extract s).
  Proof. unfold fill. destruct (p_peeked s) eqn:E; [done|]. intros H. by apply read_loop_ok. Qed.

  Lemma run_ok {A} (m : M A) s a s' : run extract m s = ODone a s' → state_ok s → state_ok s'.
  Proof.
    revert s. induction m as [| |k IH|t k IH|k IH|k IH|k IH|sp k IH|sp sem k IH|es k IH];
      intros s; cbn [run]; intros H Hs.
    - by injection H as _ <-.
    - done.
    - eapply IH; [done|]. by apply fill_ok.
    - destruct (token_src t (p_src s)); [by eapply IH|done].
    - apply fill_ok in Hs. set (s1 := fill extract s) in *. clearbody s1.
      destruct s1 as [src evs [t|] inv toks ext err]; cbn [take_peeked p_peeked] in H.
      + eapply IH; [done|]. unfold state_ok in *. cbn [p_src p_tokens p_peeked p_evs] in *.
        unfold vec_push. rewrite map_app, <- (assoc_L (++)). exact Hs.
      + by eapply IH.
    - by eapply IH.
    - eapply IH; [done|]. by apply fill_ok.
    - destruct (span_get sp (p_src s)); [by eapply IH|done].
    - eapply IH; [done|]. unfold state_ok in *. cbn [p_src p_tokens p_peeked p_evs] in *.
      rewrite map_cells, apply_toks, <- map_cells. exact Hs.
    - by eapply IH.
  Qed.

  (** ** C08 *)
  Definition set_toks (s : pst) (l : list cell) : pst :=
    Pst (p_src s) (p_evs s) (p_peeked s) (p_invalid s) l (p_extracted s) (p_errors s).

  Lemma read_loop_toks f s l :
    read_loop extract f (set_toks s l) = set_toks (read_loop extract f s) l.
  Proof.
    revert s. induction f as [|f IH]; intros s; [done|]. cbn [read_loop].
    unfold set_toks at 1. cbn [p_evs].
    destruct (lexer_next (p_evs s)) as [[[sp|] [t|]] evs]; cbn; try done;
      (destruct (extract (t_ty t)); [|done]); rewrite <- IH; done.
  Qed.
  Lemma fill_toks s l : fill extract (set_toks s l) = set_toks (fill extract s) l.
  Proof.
    unfold fill, try_read. change (p_peeked (set_toks s l)) with (p_peeked s).
    change (p_evs (set_toks s l)) with (p_evs s).
    destruct (p_peeked s); [done|]. apply read_loop_toks.
  Qed.

  Lemma fill_fill s : fill extract (fill extract s) = fill extract s.
  Proof.
    destruct (fill_spec s) as (_ & _ & H). destruct (p_peeked (fill extract s)) eqn:E.
    - unfold fill at 1. by rewrite E.
    - specialize (H eq_refl). unfold fill at 1. rewrite E. unfold try_read.
      destruct (fill extract s) as [src evs pk inv toks ext err]. cbn in *. subst. done.
  Qed.

  Definition after_fill {A} (o : out A pst) : out A pst :=
    match o with OFuel => OFuel | OCrash => OCrash | ODone a s => ODone a (fill extract s) end.

  Lemma run_fill {A} (m : M A) s : no_extend m →
    after_fill (run extract m (fill extract s)) = after_fill (run extract m s).
  Proof.
    revert s. induction m as [| |k IH|t k IH|k IH|k IH|k IH|sp k IH|sp sem k IH|es k IH];
      intros s; cbn [run no_extend]; intros Hn.
    - cbn. by rewrite fill_fill.
    - done.
    - by rewrite fill_fill.
    - destruct (fill_spec s) as ([-> _ _ _ _ _ _] & _). destruct (token_src t (p_src s)); auto.
    - by rewrite fill_fill.
    - destruct (fill_spec s) as ([_ -> _ _ _ _ _] & _). auto.
    - by rewrite fill_fill.
    - destruct (fill_spec s) as ([-> _ _ _ _ _ _] & _). destruct (span_get sp (p_src s)); auto.
    - change (Pst (p_src s) (p_evs s) (p_peeked s) (p_invalid s)
        (vec_apply_semantic (p_tokens s) sp sem) (p_extracted s) (p_errors s))
        with (set_toks s (vec_apply_semantic (p_tokens s) sp sem)).
      rewrite <- (IH (set_toks s _)) by done.
      rewrite fill_toks. destruct (fill_spec s) as ([_ -> _ _ _ _ _] & _). done.
    - done.
  Qed.


  Lemma peek_invisible {A} (m : M A) s : no_extend m →
    run extract (_ ← peek; a ← m; _ ← peek; mret a) s = run extract (a ← m; _ ← peek; mret a) s.
  Proof.
    intros Hn. rewrite run_bind. cbn [run peek].
    assert (H : ∀ s, run extract (a ← m; _ ← peek; mret a) s = after_fill (run extract m s)).
    { intros s0. rewrite run_bind. destruct (run extract m s0); done. }
    rewrite !H. by apply run_fill.
  Qed.

  (** Running from the refined state, then reading off the concrete one. *)
  Lemma run_via {A} (m : M A) s a t : arun m (abs s) = ODone a t →
    ∃ s', run extract m s = ODone a s' ∧ consumed s' = map c_tok (a_done t) ∧
      p_tokens s' = a_done t ∧ to_come extract s' = a_rest t.
  Proof. intros H. destruct (arun_done _ _ _ _ H) as (s' & H1 & <-). eauto. Qed.

  Lemma peek_run s : ∃ s', run extract peek s = ODone (head (to_come extract s)) s' ∧
    p_tokens s' = p_tokens s ∧ to_come extract s' = to_come extract s.
  Proof.
    destruct (run_via peek s (head (stream s)) (abs s)) as (s' & H1 & _ & H3 & H4); [done|]. eauto.
  Qed.

  Lemma peek_twice s :
    run extract (x ← peek; y ← peek; mret (x, y)) s = run extract (x ← peek; mret (x, x)) s.
  Proof. rewrite !run_bind. cbn [run peek]. rewrite run_bind. cbn [run peek]. by rewrite fill_fill. Qed.

  Lemma peek_consume s :
    run extract (x ← peek; y ← consume; mret (x, y)) s = run extract (y ← consume; mret (y, y)) s.
  Proof.
    rewrite !run_bind. cbn [run peek consume]. rewrite run_bind. cbn [run consume].
    rewrite fill_fill. destruct (take_peeked (fill extract s)) as [t s'] eqn:E. cbn. f_equal.
    unfold take_peeked in E. destruct (p_peeked (fill extract s)); by injection E as <- <-.
  Qed.

  Lemma consume_run s : ∃ s', run extract consume s = ODone (head (to_come extract s)) s' ∧
    match head (to_come extract s) with
    | Some t => consumed s' = consumed s ++ [t] ∧ to_come extract s = t :: to_come extract s'
    | None => consumed s' = consumed s ∧ to_come extract s' = []
    end.
  Proof.
    change (to_come extract s) with (a_rest (abs s)). destruct (a_rest (abs s)) as [|t r] eqn:E.
    - destruct (run_via consume s None (abs s)) as (s' & H1 & H2 & _ & H4); [cbn [arun consume]; by rewrite E|].
      exists s'. split; [exact H1|]. cbn [head hd_error]. by rewrite H2, H4, E.
    - destruct (run_via consume s (Some t) (Ast (p_src s) (vec_push (p_tokens s) t) r))
        as (s' & H1 & H2 & _ & H4); [cbn [arun consume]; by rewrite E|].
      exists s'. split; [exact H1|]. cbn [head hd_error]. rewrite H2, H4. split; [|done].
      cbn [a_done]. unfold vec_push. by rewrite map_app.
  Qed.

  Lemma cur_span_run s : ∃ s', run extract cur_span s = ODone
      (match to_come extract s with t :: _ => t_span t | [] => eof_span (p_src s) end) s' ∧
    p_tokens s' = p_tokens s ∧ to_come extract s' = to_come extract s.
  Proof.
    destruct (run_via cur_span s (a_span (abs s)) (abs s)) as (s' & H1 & _ & H3 & H4); [done|]. eauto.
  Qed.

  (** ** C09 *)
  Lemma arun_parse_token ty (s : ast) :
    arun (parse_token ty) s =
    match a_rest s with
    | t :: r => if t_ty t =? ty then ODone (RSucc t) (Ast (a_src s) (vec_push (a_done s) t) r)
                else ODone (RPanic [PErr (t_span t) (Expecting (fs_one ty None))]) s
    | [] => ODone (RPanic [PErr (eof_span (a_src s)) (Expecting (fs_one ty None))]) s
    end.
  Proof.
    unfold parse_token. rewrite arun_bind. cbn [arun peek].
    unfold a_span. destruct (a_rest s) as [|t r] eqn:E; cbn [head hd_error].
    - cbn. unfold a_span. by rewrite E.
    - destruct (t_ty t =? ty); cbn; rewrite ?E; [done|]. unfold a_span. by rewrite E.
  Qed.

  Lemma parse_token_run ty s : ∃ r s', run extract (parse_token ty) s = ODone r s' ∧
    match head (to_come extract s) with
    | Some t =>
      if decide (t_ty t = ty) then
        r = RSucc t ∧ consumed s' = consumed s ++ [t] ∧ to_come extract s = t :: to_come extract s'
      else r = RPanic [PErr (t_span t) (Expecting (fs_one ty None))] ∧
        p_tokens s' = p_tokens s ∧ to_come extract s' = to_come extract s
    | None => r = RPanic [PErr (eof_span (p_src s)) (Expecting (fs_one ty None))] ∧
        p_tokens s' = p_tokens s ∧ to_come extract s' = to_come extract s
    end.
  Proof.
    assert (H := arun_parse_token ty (abs s)).
    change (to_come extract s) with (a_rest (abs s)).
    destruct (a_rest (abs s)) as [|t r] eqn:E; cbn [head hd_error].
    - destruct (run_via _ _ _ _ H) as (s' & H1 & _ & H3 & H4). rewrite E in H4. eauto 10.
    - destruct (Nat.eqb_spec (t_ty t) ty).
      + destruct (run_via _ _ _ _ H) as (s' & H1 & H2 & _ & H4). 
        eexists _, s'. split; [exact H1|]. rewrite decide_True by done. cbn in H2, H4. unfold vec_push in H2. rewrite map_app in H2. rewrite H4. eauto.
      + destruct (run_via _ _ _ _ H) as (s' & H1 & _ & H3 & H4). 
        eexists _, s'. split; [exact H1|]. rewrite decide_False by done.
        rewrite E in H4. eauto 10.
  Qed.

  (** ** C10 *)
  Lemma spans_ok_in from len l sp : spans_ok from len l → sp ∈ l → from ≤ sp_lo sp ∧ sp_lo sp < sp_hi sp ∧ sp_hi sp ≤ len.
  Proof.
    revert from. induction l as [|x l IH]; intros from; cbn; [by intros _ ?%elem_of_nil|].
    intros (H1 & H2 & H3) [->|Hin]%elem_of_cons.
    - split_and!; try done. by apply spans_ok_le in H3.
    - apply IH in H3; [|done]. lia.
  Qed.

  Lemma head_src (s : ast) t r : aok s → a_rest s = t :: r → ∃ x, token_src t (a_src s) = Some x.
  Proof.
    intros H E. unfold aok in H.
    destruct (spans_ok_in _ _ _ (t_span t) H) as (_ & H1 & H2).
    { rewrite E. cbn. set_solver. }
    unfold token_src, span_get. case_match; [eauto|].
    case_match eqn:Hlt; [|eauto]. apply Nat.ltb_lt in Hlt. lia.
  Qed.

  Lemma arun_parse_token_lit ty lit fol (s : ast) :
    arun (parse_token_lit ty lit fol) s =
    match a_rest s with
    | t :: r =>
      match token_src t (a_src s) with
      | None => OCrash
      | Some x =>
        if (t_ty t =? ty) && bool_decide (x = lit) then
          ODone (RSucc t) (Ast (a_src s) (vec_push (a_done s) t) r)
        else if ts_contains fol (Some (t_ty t, x)) then
          ODone (RRec (Token (Span (end_of (a_done s)) (end_of (a_done s))) ty)
                   [PErr (t_span t) (Expecting (fs_one ty (Some lit)))]) s
        else ODone (RPanic [PErr (t_span t) (Expecting (fs_one ty (Some lit)))]) s
      end
    | [] =>
      if ts_contains_e fol then
        ODone (RRec (Token (eof_span (a_src s)) ty)
                 [PErr (eof_span (a_src s)) (Expecting (fs_one ty (Some lit)))]) s
      else ODone (RPanic [PErr (eof_span (a_src s)) UnexpectedEof]) s
    end.
  Proof.
    unfold parse_token_lit. rewrite arun_bind. cbn [arun peek].
    assert (Hsp : a_span s = match a_rest s with t :: _ => t_span t | [] => eof_span (a_src s) end) by done.
    destruct (a_rest s) as [|t r] eqn:E; cbn [head hd_error].
    - destruct (ts_contains_e fol); cbn; rewrite ?Hsp; done.
    - cbn [arun]. destruct (token_src t (a_src s)) as [x|]; [|done]. cbn [snd].
      destruct ((t_ty t =? ty) && bool_decide (x = lit)); [cbn; by rewrite E|].
      match goal with |- arun (if ?b then _ else _) _ = (if ?c then _ else _) => change c with b; destruct b end;
        rewrite arun_bind; cbn [arun empty_span expecting];
        [rewrite arun_bind; cbn [arun expecting]|]; rewrite Hsp; reflexivity.
  Qed.

  Lemma parse_token_lit_run ty lit fol s : state_ok s →
    ∃ r s', run extract (parse_token_lit ty lit fol) s = ODone r s' ∧
    match head (to_come extract s) with
    | Some t =>
      ∃ x, text_of (p_src s) t = Some x ∧
      if decide (t_ty t = ty ∧ x = lit) then
        r = RSucc t ∧ consumed s' = consumed s ++ [t] ∧ to_come extract s = t :: to_come extract s'
      else
        p_tokens s' = p_tokens s ∧ to_come extract s' = to_come extract s ∧
        let e := PErr (t_span t) (Expecting (fs_one ty (Some lit))) in
        r = (if ts_contains fol (Some (t_ty t, x))
             then RRec (Token (Span (end_of (p_tokens s)) (end_of (p_tokens s))) ty) [e]
             else RPanic [e])
    | None =>
        p_tokens s' = p_tokens s ∧ to_come extract s' = to_come extract s ∧
        let sp := eof_span (p_src s) in
        r = (if ts_contains fol None then RRec (Token sp ty) [PErr sp (Expecting (fs_one ty (Some lit)))]
             else RPanic [PErr sp UnexpectedEof])
    end.
  Proof.
    intros Hok. apply state_ok_abs in Hok.
    assert (H := arun_parse_token_lit ty lit fol (abs s)).
    assert (Hh := head_src (abs s)).
    change (to_come extract s) with (a_rest (abs s)).
    destruct (a_rest (abs s)) as [|t r] eqn:E; cbn [head hd_error].
    - change (ts_contains fol None) with (ts_contains_e fol).
      destruct (ts_contains_e fol); destruct (run_via _ _ _ _ H) as (s' & H1 & _ & H3 & H4);
        rewrite E in H4; eexists _, s'; (split; [exact H1|]); done.
    - destruct (Hh t r Hok eq_refl) as [x Hx]. rewrite Hx in H.
      assert (Hxx : text_of (p_src s) t = Some x) by exact Hx.
      destruct ((t_ty t =? ty) && bool_decide (x = lit)) eqn:Eb.
      + destruct (run_via _ _ _ _ H) as (s' & H1 & H2 & _ & H4).
        eexists _, s'; (split; [exact H1|]). exists x. split; [done|].
        apply andb_true_iff in Eb as [?%Nat.eqb_eq ?%bool_decide_eq_true_1]. rewrite decide_True by done.
        cbn in H2, H4. unfold vec_push in H2. rewrite map_app in H2. rewrite H4. eauto.
      + assert (¬ (t_ty t = ty ∧ x = lit)).
        { intros [<- <-]. by rewrite Nat.eqb_refl, bool_decide_eq_true_2 in Eb. }
        destruct (ts_contains fol (Some (t_ty t, x))) eqn:Ef; destruct (run_via _ _ _ _ H) as (s' & H1 & _ & H3 & H4);
        rewrite E in H4; eexists _, s'; (split; [exact H1|]); exists x; (split; [done|]);
        rewrite decide_False by done; rewrite Ef; done.
  Qed.

  (** The span of the last consumed token ends where [end_of] says, whatever was done to
      the semantics. *)
  Lemma run_src {A} (m : M A) s a s' : run extract m s = ODone a s' → p_src s' = p_src s.
  Proof. intros H. apply (cv_src _ _ (run_conserves _ _ _ _ H)). Qed.

  (** ** C64 *)
  Lemma substring_split lo n s : lo + n ≤ String.length s →
    substring lo (String.length s - lo) s =
    String.append (substring lo n s) (substring (lo + n) (String.length s - (lo + n)) s).
  Proof.
    revert lo n. induction s as [|c s IH]; intros lo n H.
    - cbn in H. assert (lo = 0) as -> by lia. assert (n = 0) as -> by lia. done.
    - destruct lo as [|lo].
      + destruct n as [|n]; [done|]. cbn in H |- *.
        assert (E := IH 0 n). rewrite Nat.sub_0_r in E. rewrite E by lia. done.
      + cbn in H |- *. apply IH. lia.
  Qed.

  Lemma substring_all s : substring 0 (String.length s) s = s.
  Proof. induction s as [|c s IH]; [done|]. cbn. by rewrite IH. Qed.

  Lemma remaining_spec s : state_ok s → ∃ txt s',
    remaining extract s = (Some txt, s') ∧
    p_tokens s' = p_tokens s ∧ p_src s' = p_src s ∧ to_come extract s' = to_come extract s ∧
    ∃ pre, p_src s = String.append pre txt ∧
    match head (to_come extract s) with
    | Some t => String.length pre = sp_lo (t_span t) ∧
        ∃ x rest, text_of (p_src s) t = Some x ∧ txt = String.append x rest
    | None => txt = EmptyString
    end.
  Proof.
    intros Hok. destruct (fill_spec s) as (_ & Hp & _).
    assert (Ha := abs_fill s). injection Ha as Hs Hd Hr.
    assert (Hsplit : ∀ lo, lo ≤ String.length (p_src s) →
      p_src s = String.append (substring 0 lo (p_src s)) (substring lo (String.length (p_src s) - lo) (p_src s)) ∧
      String.length (substring 0 lo (p_src s)) = lo).
    { intros lo H. split.
      - rewrite <- (substring_all (p_src s)) at 1.
        assert (E := substring_split 0 lo (p_src s)). rewrite Nat.sub_0_r in E. apply E. lia.
      - by apply substring_length. }
    unfold remaining. rewrite Hp, Hs. change (stream s) with (to_come extract s).
    apply state_ok_abs in Hok.
    assert (Hh := head_src (abs s)).
    assert (Hb : ∀ t, head (to_come extract s) = Some t →
      sp_lo (t_span t) < sp_hi (t_span t) ∧ sp_hi (t_span t) ≤ String.length (p_src s)).
    { intros t Ht. unfold aok in Hok. change (a_rest (abs s)) with (to_come extract s) in Hok.
      destruct (to_come extract s) as [|t' r]; [done|]. injection Ht as ->.
      apply spans_ok_app in Hok as [_ Hok]. cbn [map spans_ok] in Hok. destruct Hok as (_ & ? & Hok).
      apply spans_ok_le in Hok. done. }
    change (a_rest (abs s)) with (to_come extract s) in Hh.
    destruct (head (to_come extract s)) as [t|] eqn:E.
    - destruct (Hb t eq_refl) as [H1 H2].
      rewrite (proj2 (Nat.leb_le _ _)) by lia.
      destruct (Hsplit (sp_lo (t_span t))) as [H3 H4]; [lia|].
      eexists _, _. split; [reflexivity|]. split_and!; [done..|].
      eexists. split; [exact H3|]. split; [exact H4|].
      unfold text_of, token_src, span_get. rewrite (proj2 (Nat.leb_gt _ _)) by lia. cbv zeta.
      rewrite Nat.min_l by lia. rewrite (proj2 (Nat.ltb_ge _ _)) by lia.
      eexists _, _. split; [reflexivity|].
      apply substring_split. lia.
    - cbn [sp_lo eof_span]. rewrite Nat.leb_refl.
      destruct (Hsplit (String.length (p_src s))) as [H3 H4]; [lia|].
      eexists _, _. split; [reflexivity|]. split_and!; [done..|].
      eexists. split; [exact H3|]. rewrite Nat.sub_diag.
      clear. assert (∀ n x, substring n 0 x = EmptyString) as ->; [|done].
      intros n x. revert n. induction x; intros [|n]; cbn; auto.
  Qed.
End facts.
