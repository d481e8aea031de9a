(** Character boundaries of a text given by its code points. *)
From Coq Require Import String Ascii NArith.
From stdpp Require Import prelude list.
From Verif Require Import LexModel StreamModel Utf8Model Utf8Spec.
Local Open Scope nat_scope.

Definition cont (b : N) : bool := (128 <=? b)%N && (b <? 192)%N.
Lemma continues_cont b : (b < 256)%N → continues (ascii_of_N b) = cont b.
Proof. intros H. unfold continues, cont. by rewrite N_ascii_embedding. Qed.
Lemma length_str (l : list ascii) : String.length (string_of_list_ascii l) = length l.
Proof. induction l as [|a l IH]; cbn; [done|by rewrite IH]. Qed.
Lemma get_str (l : list ascii) i : String.get i (string_of_list_ascii l) = l !! i.
Proof. revert i. induction l as [|a l IH]; intros [|i]; cbn; [done..|]. apply IH. Qed.
Lemma substring_str (l : list ascii) n m : substring n m (string_of_list_ascii l) = string_of_list_ascii (take m (drop n l)).
Proof.
  revert n m. induction l as [|a l IH]; intros [|n] m; cbn; [by destruct m..| |].
  - destruct m; [done|]. cbn. rewrite (IH 0). by rewrite drop_0.
  - apply IH.
Qed.
Lemma encode_bytes c : (c < 1114112)%N → Forall (λ b, b < 256)%N (encode c) ∧
  ∃ b bs, encode c = b :: bs ∧ cont b = false ∧ Forall (λ b, cont b = true) bs.
Proof.
  intros H. unfold encode, cont.
  assert (M : ∀ x, (x mod 64 < 64)%N) by (intros; by apply N.mod_lt).
  assert (T : ∀ x, (128 <=? 128 + x mod 64)%N && (128 + x mod 64 <? 192)%N = true).
  { intros x. generalize (M x). generalize (x mod 64)%N. intros y Hy. apply andb_true_intro. split; [apply N.leb_le|apply N.ltb_lt]; lia. }
  assert (B : ∀ x, (128 + x mod 64 < 256)%N) by (intros x; generalize (M x); generalize (x mod 64)%N; lia).
  destruct (N.ltb_spec c 128) as [H1|H1]; [|destruct (N.ltb_spec c 2048) as [H2|H2]; [|destruct (N.ltb_spec c 65536) as [H3|H3]]].
  - split; [repeat constructor; lia|]. eexists _, _. split_and!; [done| |constructor].
    apply andb_false_intro1. apply N.leb_gt. lia.
  - assert (D : (c / 64 < 32)%N) by (apply N.div_lt_upper_bound; lia).
    split; [repeat constructor; [clear -D; revert D; generalize (c / 64)%N; lia|apply B]|]. eexists _, _. split_and!; [done| |repeat constructor; apply T].
    apply andb_false_intro2. apply N.ltb_ge. clear -D. revert D. generalize (c / 64)%N. lia.
  - assert (D : (c / 4096 < 16)%N) by (apply N.div_lt_upper_bound; lia).
    split; [repeat constructor; [clear -D; revert D; generalize (c / 4096)%N; lia|apply B..]|]. eexists _, _. split_and!; [done| |repeat constructor; apply T].
    apply andb_false_intro2. apply N.ltb_ge. clear -D. revert D. generalize (c / 4096)%N. lia.
  - assert (D : (c / 262144 < 5)%N) by (apply N.div_lt_upper_bound; lia).
    split; [repeat constructor; [clear -D; revert D; generalize (c / 262144)%N; lia|apply B..]|]. eexists _, _. split_and!; [done| |repeat constructor; apply T].
    apply andb_false_intro2. apply N.ltb_ge. clear -D. revert D. generalize (c / 262144)%N. lia.
Qed.
Definition isb (l : list N) (i : nat) : bool := match l !! i with Some b => negb (cont b) | None => i =? length l end.
Lemma bytes_small cs : code_points cs → Forall (λ b, b < 256)%N (concat (map encode cs)).
Proof. induction 1 as [|c cs Hc _ IH]; cbn; [constructor|]. apply Forall_app. split; [by apply encode_bytes|done]. Qed.
Lemma boundary_bytes cs i : code_points cs → char_boundary (utf8 cs) i = isb (concat (map encode cs)) i.
Proof.
  intros Hc. unfold char_boundary, utf8, isb. rewrite get_str, length_str, map_length, list_lookup_fmap.
  assert (Hs := bytes_small _ Hc). destruct (concat (map encode cs) !! i) as [b|] eqn:E; cbn.
  - rewrite continues_cont by (by eapply Forall_lookup_1 in E; [|exact Hs]).
    destruct i as [|i]; [|done]. cbn. destruct cs as [|c cs]; [done|]. apply Forall_cons in Hc as [Hc _].
    destruct (encode_bytes c Hc) as (_ & b0 & bs & Eb & H0 & _). cbn in E. rewrite Eb in E. cbn in E. injection E as <-. by rewrite H0.
  - destruct i as [|i]; [|done]. apply lookup_ge_None in E. apply Nat.le_0_r in E. by rewrite E.
Qed.
Lemma isb_begins cs i : code_points cs →
  isb (concat (map encode cs)) i = true ↔ ∃ n, n ≤ length cs ∧ i = length (concat (map encode (take n cs))).
Proof.
  intros Hc. revert i. induction Hc as [|c cs Hc Hcs IH]; intros i; cbn [map concat length].
  - unfold isb. rewrite lookup_nil. cbn [length]. rewrite Nat.eqb_eq. split; [intros ->; by exists 0|]. intros (n & Hn & ->). assert (n = 0) as -> by lia. done.
  - destruct (encode_bytes c Hc) as (_ & b & bs & Eb & H0 & Hbs).
    destruct (decide (i < length (encode c))) as [Hi|Hi].
    + unfold isb. rewrite lookup_app_l by done. split.
      * intros H. exists 0. split; [lia|]. cbn. rewrite Eb in H, Hi. destruct i as [|i]; [done|]. cbn in H, Hi.
        destruct (bs !! i) as [x|] eqn:E; [|apply lookup_ge_None in E; lia].
        eapply Forall_lookup_1 in E; [|exact Hbs]. cbn in E. by rewrite E in H.
      * intros ([|n] & Hn & ->); cbn in *; [rewrite Eb; cbn; by rewrite H0|]. rewrite app_length in Hi. lia.
    + transitivity (isb (concat (map encode cs)) (i - length (encode c)) = true).
      { unfold isb. rewrite lookup_app_r, app_length by lia. destruct (_ !! _); [done|]. rewrite !Nat.eqb_eq. lia. }
      rewrite IH. split.
      * intros (n & Hn & E). exists (S n). split; [lia|]. cbn. rewrite app_length. lia.
      * intros ([|n] & Hn & ->); cbn in *; [rewrite Eb in Hi; cbn in Hi; lia|]. exists n. split; [lia|]. rewrite app_length. lia.
Qed.
Lemma begins_eq cs n : begins cs n = length (concat (map encode (take n cs))).
Proof. unfold begins, utf8. by rewrite length_str, map_length. Qed.
Lemma boundary_iff cs i : code_points cs → char_boundary (utf8 cs) i = true ↔ ∃ n, n ≤ length cs ∧ i = begins cs n.
Proof. intros Hc. rewrite boundary_bytes, isb_begins by done. setoid_rewrite begins_eq. done. Qed.
Lemma begins_mono cs n m : n ≤ m → begins cs n ≤ begins cs m.
Proof.
  intros H. rewrite !begins_eq. replace m with (n + (m - n)) by lia. rewrite <- take_take_drop, map_app, concat_app, app_length. lia.
Qed.
Lemma bytes_slice cs n m : n ≤ m → m ≤ length cs →
  take (begins cs m - begins cs n) (drop (begins cs n) (concat (map encode cs))) = concat (map encode (drop n (take m cs))).
Proof.
  intros H1 H2. rewrite !begins_eq.
  assert (E : cs = take n cs ++ drop n (take m cs) ++ drop m cs).
  { rewrite (assoc_L (++)). rewrite <- (take_drop m cs) at 1. f_equal. rewrite <- (take_drop n (take m cs)) at 1. by rewrite take_take, Nat.min_l. }
  assert (E2 : take m cs = take n cs ++ drop n (take m cs)).
  { rewrite <- (take_drop n (take m cs)) at 1. by rewrite take_take, Nat.min_l. }
  set (a := take n cs) in *. set (b := drop n (take m cs)) in *. rewrite E2, E, !map_app, !concat_app, app_length.
  rewrite drop_app_alt by done.
  replace (_ + _ - _) with (length (concat (map encode b))) by lia.
  by rewrite take_app.
Qed.
Lemma slices_chars cs n m : code_points cs → n ≤ m → m ≤ length cs →
  span_get_c (Span (begins cs n) (begins cs m)) (utf8 cs) = Some (utf8 (drop n (take m cs))).
Proof.
  intros Hc H1 H2. assert (Hle := begins_mono cs n m H1). unfold span_get_c. cbn [sp_lo sp_hi].
  assert (Hlen : begins cs m ≤ String.length (utf8 cs)).
  { etrans; [apply (begins_mono cs m (length cs) H2)|]. unfold begins. by rewrite firstn_all. }
  destruct (Nat.leb_spec (begins cs m) (begins cs n)) as [H|H].
  - assert (E := bytes_slice cs n m H1 H2). replace (begins cs m - begins cs n) with 0 in E by lia. cbn in E. unfold utf8. by rewrite <- E.
  - rewrite Nat.min_l by done. destruct (Nat.ltb_spec (begins cs m) (begins cs n)); [lia|].
    assert (B : ∀ k, k ≤ length cs → char_boundary (utf8 cs) (begins cs k) = true) by (intros k Hk; apply boundary_iff; eauto).
    rewrite !B by lia. cbn. f_equal. unfold utf8. rewrite substring_str. f_equal. rewrite <- fmap_drop, <- fmap_take. f_equal. by apply bytes_slice.
Qed.
