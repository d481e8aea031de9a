(** Threads that share roots. *)
From Coq Require Import String.
From stdpp Require Import prelude list strings relations.
From Verif Require Import LexModel SynSetModel TableModel StreamModel TypeModel ProduceModel DebugModel RootModel ThreadModel ThreadSpec.
Local Open Scope nat_scope.

Section threads.
  Context (extract : nat → bool) (env : denv) (tn dn ln : nat → string) (f : nat) (lexer : string → list raw)
    (roots : nat → ty) (order : nat → list (prod * entry prod)) (ms : nat → gerr prod + metadata prod)
    (Hms : ∀ r, root_metadata env (roots r) (order r) = Some (ms r)).
  Notation step := (step extract env tn dn ln f lexer roots order).
  Notation any_step := (any_step extract env tn dn ln f lexer roots order).
  Notation alone := (alone extract env tn dn ln f lexer roots ms).

  Definition now (ph : phase) : list call := match ph with Idle => [] | Init c | Use c _ => [c] end.
  Definition th_ok (cs : list call) (t : thread) : Prop :=
    ∃ fin, cs = fin ++ now (th_phase t) ++ th_todo t ∧ th_done t = map alone fin ∧
      match th_phase t with Use c m => m = Some (ms (call_root c)) | _ => True end.
  Definition cell_ok (s : sys) (r : nat) : Prop :=
    match sy_cells s r with
    | Empty => r ∉ sy_built s
    | Busy => r ∉ sy_built s ∧ ∃ i t c, sy_ths s !! i = Some t ∧ th_phase t = Init c ∧ call_root c = r
    | Full m => m = Some (ms r)
    end.
  Record inv (css : list (list call)) (s : sys) : Prop := {
    inv_th : Forall2 th_ok css (sy_ths s);
    inv_cell : ∀ r, cell_ok s r;
    inv_init : ∀ i t c, sy_ths s !! i = Some t → th_phase t = Init c → sy_cells s (call_root c) = Busy;
    inv_one : ∀ i j t u c d, sy_ths s !! i = Some t → sy_ths s !! j = Some u → th_phase t = Init c → th_phase u = Init d →
      call_root c = call_root d → i = j;
    inv_built : NoDup (sy_built s) }.

  Lemma start_inv css : inv css (sys_start css).
  Proof.
    split.
    - cbn. apply Forall2_fmap_r, Forall_Forall2_diag, Forall_true. intros cs. by exists [].
    - intros r. cbn. intros H. by apply elem_of_nil in H.
    - cbn. intros i t c H Hp. apply list_lookup_fmap_inv in H as (cs & -> & _). done.
    - cbn. intros i j t u c d H _ Hp. apply list_lookup_fmap_inv in H as (cs & -> & _). done.
    - constructor.
  Qed.

  Lemma set_same cs r x : set_cell cs r x r = x.
  Proof. unfold set_cell. by rewrite decide_True. Qed.
  Lemma set_other cs r x r' : r' ≠ r → set_cell cs r x r' = cs r'.
  Proof. intros H. unfold set_cell. by rewrite decide_False. Qed.

  Lemma insert_ok css l i t t' : Forall2 th_ok css l → l !! i = Some t → (∀ cs, css !! i = Some cs → th_ok cs t → th_ok cs t') →
    Forall2 th_ok css (<[i := t']> l).
  Proof.
    intros H Hi Ht. destruct (Forall2_lookup_r _ _ _ _ _ H Hi) as (cs & Hc & Hok).
    rewrite <- (list_insert_id css i cs Hc). apply Forall2_insert; auto.
  Qed.

  Lemma step_inv css s s' i : inv css s → step i s = Some s' → inv css s'.
  Proof using Hms.
    intros [Hth Hcell Hinit Hone Hb] Hs. unfold ThreadModel.step in Hs.
    destruct (sy_ths s !! i) as [[todo ph dn']|] eqn:Ei; [|done].
    destruct ph as [|c|c m].
    - destruct todo as [|c todo]; [done|]. destruct (sy_cells s (call_root c)) as [| |m] eqn:Ec; [|done|].
      + injection Hs as <-. set (r := call_root c) in *.
        split; cbn [sy_ths sy_cells sy_built].
        * eapply insert_ok; [exact Hth|exact Ei|]. intros cs _ (fin & E & Hd & _). exists fin. by split_and!.
        * intros r'. unfold cell_ok; cbn [sy_ths sy_cells sy_built]. assert (H := Hcell r'). unfold cell_ok in H. destruct (decide (r' = r)) as [->|Hne].
          -- rewrite set_same. rewrite Ec in H. split; [exact H|]. exists i, (Thread todo (Init c) dn'), c.
             split; [|done]. apply list_lookup_insert. by apply lookup_lt_Some in Ei.
          -- rewrite set_other by done. destruct (sy_cells s r') as [| |m']; [done| |done]. destruct H as (Hn & j & t & d & Hj & Hp & Hr).
             split; [done|]. exists j, t, d. split; [|done]. destruct (decide (i = j)) as [->|Hij]; [|by rewrite list_lookup_insert_ne].
             rewrite Ei in Hj. injection Hj as <-. done.
        * intros j t d Hj Hp. destruct (decide (i = j)) as [->|Hij].
          -- rewrite list_lookup_insert in Hj by (by apply lookup_lt_Some in Ei). injection Hj as <-. injection Hp as <-. by rewrite set_same.
          -- rewrite list_lookup_insert_ne in Hj by done. assert (H := Hinit _ _ _ Hj Hp).
             destruct (decide (call_root d = r)) as [E|E]; [by rewrite E, set_same|]. by rewrite set_other.
        * assert (Hno : ∀ j t d, sy_ths s !! j = Some t → th_phase t = Init d → call_root d ≠ r).
          { intros j t d Hj Hp E. assert (H := Hinit _ _ _ Hj Hp). rewrite E, Ec in H. done. }
          intros j k t u d e Hj Hk Hp Hq Hde. destruct (decide (i = j)) as [->|Hij], (decide (j = k)) as [->|Hjk]; [done| |done|].
          -- rewrite list_lookup_insert in Hj by (by apply lookup_lt_Some in Ei). injection Hj as <-. injection Hp as <-.
             rewrite list_lookup_insert_ne in Hk by done. by destruct (Hno _ _ _ Hk Hq).
          -- rewrite list_lookup_insert_ne in Hj by done. destruct (decide (i = k)) as [->|Hik].
             ++ rewrite list_lookup_insert in Hk by (by apply lookup_lt_Some in Ei). injection Hk as <-. injection Hq as <-.
                by destruct (Hno _ _ _ Hj Hp).
             ++ rewrite list_lookup_insert_ne in Hk by done. by eapply Hone.
        * exact Hb.
      + injection Hs as <-. assert (Hm : m = Some (ms (call_root c))) by (assert (H := Hcell (call_root c)); unfold cell_ok in H; by rewrite Ec in H).
        split; cbn [sy_ths sy_cells sy_built].
        * eapply insert_ok; [exact Hth|exact Ei|]. intros cs _ (fin & E & Hd & _). exists fin. by split_and!.
        * intros r'. unfold cell_ok; cbn [sy_ths sy_cells sy_built]. assert (H := Hcell r'). unfold cell_ok in H.
          destruct (sy_cells s r') as [| |m']; [done| |done]. destruct H as (Hn & j & t & d & Hj & Hp & Hr).
          split; [done|]. exists j, t, d. split; [|done]. destruct (decide (i = j)) as [->|Hij]; [|by rewrite list_lookup_insert_ne].
          rewrite Ei in Hj. injection Hj as <-. done.
        * intros j t d Hj Hp. destruct (decide (i = j)) as [->|Hij].
          -- rewrite list_lookup_insert in Hj by (by apply lookup_lt_Some in Ei). injection Hj as <-. done.
          -- rewrite list_lookup_insert_ne in Hj by done. by eapply Hinit.
        * intros j k t u d e Hj Hk Hp Hq Hde. destruct (decide (i = j)) as [->|Hij].
          { rewrite list_lookup_insert in Hj by (by apply lookup_lt_Some in Ei). injection Hj as <-. done. }
          destruct (decide (i = k)) as [->|Hik].
          { rewrite list_lookup_insert in Hk by (by apply lookup_lt_Some in Ei). injection Hk as <-. done. }
          rewrite list_lookup_insert_ne in Hj, Hk by done. by eapply Hone.
        * exact Hb.
    - injection Hs as <-. set (r := call_root c) in *. rewrite Hms.
      assert (Hbusy := Hinit _ _ _ Ei eq_refl). fold r in Hbusy.
      assert (Hno : ∀ j t d, j ≠ i → sy_ths s !! j = Some t → th_phase t = Init d → call_root d ≠ r).
      { intros j t d Hji Hj Hp E. apply Hji. by eapply Hone. }
      split; cbn [sy_ths sy_cells sy_built].
      + eapply insert_ok; [exact Hth|exact Ei|]. intros cs _ (fin & E & Hd & _). exists fin. by split_and!.
      + intros r'. unfold cell_ok; cbn [sy_ths sy_cells sy_built]. assert (H := Hcell r'). unfold cell_ok in H. destruct (decide (r' = r)) as [->|Hne].
        * by rewrite set_same.
        * rewrite set_other by done. destruct (sy_cells s r') as [| |m']; [| |done].
          -- rewrite elem_of_app, elem_of_list_singleton. tauto.
          -- destruct H as (Hn & j & t & d & Hj & Hp & Hr). split; [rewrite elem_of_app, elem_of_list_singleton; tauto|].
             exists j, t, d. split; [|done]. rewrite list_lookup_insert_ne; [done|]. intros ->. rewrite Ei in Hj. injection Hj as <-. injection Hp as <-. done.
      + intros j t d Hj Hp. destruct (decide (i = j)) as [->|Hij].
        * rewrite list_lookup_insert in Hj by (by apply lookup_lt_Some in Ei). injection Hj as <-. done.
        * rewrite list_lookup_insert_ne in Hj by done. rewrite set_other; [by eapply Hinit|]. by eapply Hno.
      + intros j k t u d e Hj Hk Hp Hq Hde. destruct (decide (i = j)) as [->|Hij].
        { rewrite list_lookup_insert in Hj by (by apply lookup_lt_Some in Ei). injection Hj as <-. done. }
        destruct (decide (i = k)) as [->|Hik].
        { rewrite list_lookup_insert in Hk by (by apply lookup_lt_Some in Ei). injection Hk as <-. done. }
        rewrite list_lookup_insert_ne in Hj, Hk by done. by eapply Hone.
      + apply NoDup_app. split_and!; [exact Hb| |apply NoDup_singleton]. intros x Hx ->%elem_of_list_singleton.
        assert (H := Hcell r). unfold cell_ok in H. rewrite Hbusy in H. by destruct H as [H _].
    - injection Hs as <-. split; cbn [sy_ths sy_cells sy_built].
      + eapply insert_ok; [exact Hth|exact Ei|]. intros cs _ (fin & E & Hd & Hm). cbn in *. subst m. exists (fin ++ [c]).
        split_and!; [by rewrite E, <- app_assoc| |done]. cbn. rewrite map_app, Hd. f_equal. by destruct c.
      + intros r'. unfold cell_ok; cbn [sy_ths sy_cells sy_built]. assert (H := Hcell r'). unfold cell_ok in H.
        destruct (sy_cells s r') as [| |m']; [done| |done]. destruct H as (Hn & j & t & d & Hj & Hp & Hr).
        split; [done|]. exists j, t, d. split; [|done]. destruct (decide (i = j)) as [->|Hij]; [|by rewrite list_lookup_insert_ne].
        rewrite Ei in Hj. injection Hj as <-. done.
      + intros j t d Hj Hp. destruct (decide (i = j)) as [->|Hij].
        * rewrite list_lookup_insert in Hj by (by apply lookup_lt_Some in Ei). injection Hj as <-. done.
        * rewrite list_lookup_insert_ne in Hj by done. by eapply Hinit.
      + intros j k t u d e Hj Hk Hp Hq Hde. destruct (decide (i = j)) as [->|Hij].
        { rewrite list_lookup_insert in Hj by (by apply lookup_lt_Some in Ei). injection Hj as <-. done. }
        destruct (decide (i = k)) as [->|Hik].
        { rewrite list_lookup_insert in Hk by (by apply lookup_lt_Some in Ei). injection Hk as <-. done. }
        rewrite list_lookup_insert_ne in Hj, Hk by done. by eapply Hone.
      + exact Hb.
  Qed.

  Lemma reach_inv css s : rtc any_step (sys_start css) s → inv css s.
  Proof using Hms.
    assert (H : ∀ s0, rtc any_step s0 s → inv css s0 → inv css s).
    { intros s0 Hr. induction Hr as [|s0 s1 s2 [i Hi] _ IH]; [done|]. intros H. apply IH. by eapply step_inv. }
    intros Hr. by eapply H, start_inv.
  Qed.

  (** The answers so far are those of the first calls. *)
  Lemma threads_answers css s i cs t : rtc any_step (sys_start css) s → css !! i = Some cs → sy_ths s !! i = Some t →
    th_done t `prefix_of` map alone cs.
  Proof using Hms.
    intros Hr Hc Ht. destruct (Forall2_lookup_lr _ _ _ _ _ _ (inv_th _ _ (reach_inv _ _ Hr)) Hc Ht) as (fin & -> & -> & _).
    rewrite map_app. by apply prefix_app_r.
  Qed.
  (** Every root is built at most once. *)
  Lemma threads_once css s : rtc any_step (sys_start css) s → NoDup (sy_built s).
  Proof using Hms. intros Hr. apply (inv_built _ _ (reach_inv _ _ Hr)). Qed.
  (** Nobody waits for ever: if nobody can move, all have all their answers. *)
  Lemma threads_end css s : rtc any_step (sys_start css) s → (∀ s', ¬ any_step s s') → map th_done (sy_ths s) = map (map alone) css.
  Proof using Hms.
    intros Hr Hend. destruct (reach_inv _ _ Hr) as [Hth Hcell Hinit Hone Hb].
    assert (Hph : ∀ i t, sy_ths s !! i = Some t → th_phase t = Idle).
    { intros i [todo ph d] Hi. destruct ph as [|c|c m]; [done|exfalso..]; (eapply Hend; exists i; unfold ThreadModel.step; rewrite Hi; reflexivity). }
    assert (Htd : ∀ i t, sy_ths s !! i = Some t → th_todo t = []).
    { intros i t Hi. assert (Hp := Hph _ _ Hi). destruct t as [todo ph d]. cbn in Hp. subst ph. cbn. destruct todo as [|c todo]; [done|exfalso].
      assert (Hc := Hcell (call_root c)). unfold cell_ok in Hc. destruct (sy_cells s (call_root c)) as [| |m] eqn:Ec.
      - eapply Hend. exists i. unfold ThreadModel.step. rewrite Hi, Ec. reflexivity.
      - destruct Hc as (_ & j & t & e & Hj & Hp & _). rewrite (Hph _ _ Hj) in Hp. done.
      - eapply Hend. exists i. unfold ThreadModel.step. rewrite Hi, Ec. reflexivity. }
    apply list_eq. intros i. change (map th_done (sy_ths s)) with (th_done <$> sy_ths s). change (map (map alone) css) with (map alone <$> css). rewrite !list_lookup_fmap.
    destruct (sy_ths s !! i) as [t|] eqn:Et.
    - destruct (Forall2_lookup_r _ _ _ _ _ Hth Et) as (cs & Hc & fin & E & Hd & _). rewrite Hc. cbn. f_equal. rewrite Hd.
      rewrite (Hph _ _ Et), (Htd _ _ Et) in E. cbn in E. rewrite app_nil_r in E. by subst.
    - destruct (css !! i) as [cs|] eqn:Ec; [|done]. destruct (Forall2_lookup_l _ _ _ _ _ Hth Ec) as (t & Ht & _). congruence.
  Qed.

  (** Every step uses up one of at most three per call. *)
  Definition left_of (t : thread) : nat := 3 * length (th_todo t) + match th_phase t with Idle => 0 | Init _ => 2 | Use _ _ => 1 end.
  Lemma sum_insert (l : list thread) i t t' : l !! i = Some t → left_of t' < left_of t →
    sum_list_with left_of (<[i := t']> l) < sum_list_with left_of l.
  Proof.
    revert i. induction l as [|u l IH]; intros [|i]; [done|done| |]; cbn; intros H Hlt.
    - injection H as ->. lia.
    - specialize (IH _ H Hlt). apply Nat.add_lt_mono_l. exact IH.
  Qed.
  Lemma step_left s s' i : step i s = Some s' → sum_list_with left_of (sy_ths s') < sum_list_with left_of (sy_ths s).
  Proof.
    unfold ThreadModel.step. destruct (sy_ths s !! i) as [[todo ph dn']|] eqn:Ei; [|done].
    destruct ph as [|c|c m].
    - destruct todo as [|c todo]; [done|]. destruct (sy_cells s (call_root c)); [| |]; intros [= <-]; cbn [sy_ths]; (eapply sum_insert; [exact Ei|]); unfold left_of; cbn; lia.
    - intros [= <-]. cbn [sy_ths]. eapply sum_insert; [exact Ei|]. unfold left_of; cbn; lia.
    - intros [= <-]. cbn [sy_ths]. eapply sum_insert; [exact Ei|]. unfold left_of; cbn; lia.
  Qed.
  Lemma threads_bound css n s : nsteps any_step n (sys_start css) s → n ≤ 3 * sum_list_with length css.
  Proof.
    intros H. assert (E : sum_list_with left_of (sy_ths (sys_start css)) = 3 * sum_list_with length css).
    { clear. induction css as [|cs css IH]; [done|]. cbn in *. rewrite IH. unfold left_of. cbn. lia. }
    rewrite <- E. clear E. induction H as [|n s0 s1 s2 [i Hi] _ IH]; [lia|]. apply step_left in Hi. lia.
  Qed.
End threads.
