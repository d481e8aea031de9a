(** Lemmas about longest match tokenizers, and about the README's. *)
From Coq Require Import String Ascii.
From stdpp Require Import prelude list strings.
From Verif Require Import LexModel LexSpec MacroModel MacroSpec ScanSpec.
Local Open Scope nat_scope.

Local Arguments append : simpl nomatch.

Lemma app_len a b : String.length (a +:+ b) = String.length a + String.length b.
Proof. induction a as [|c a IH]; [done|]. cbn [append String.length]. by rewrite IH. Qed.
Lemma app_as a b c : (a +:+ b) +:+ c = a +:+ (b +:+ c).
Proof. induction a as [|x a IH]; [done|]. cbn [append String.length]. by rewrite IH. Qed.
Lemma app_nil a : a +:+ "" = a.
Proof. induction a as [|x a IH]; [done|]. cbn [append String.length]. by rewrite IH. Qed.
Lemma app_longer a b c d : a +:+ b = c +:+ d → String.length a ≤ String.length c → ∃ m, c = a +:+ m ∧ b = m +:+ d.
Proof.
  revert c. induction a as [|x a IH]; intros c E H; [by exists c|].
  destruct c as [|y c]; [cbn in H; lia|]. cbn [append String.length] in E, H. injection E as <- E.
  destruct (IH c E) as (m & -> & ->); [lia|]. by exists m.
Qed.
Lemma app_same a b c d : a +:+ b = c +:+ d → String.length a = String.length c → a = c ∧ b = d.
Proof.
  intros E H. destruct (app_longer _ _ _ _ E) as (m & -> & ->); [lia|]. rewrite app_len in H.
  destruct m; [by rewrite app_nil|cbn in H; lia].
Qed.
Lemma len_0 a : String.length a = 0 → a = ""%string.
Proof. by destruct a. Qed.
Lemma len_pos a : a ≠ ""%string → 0 < String.length a.
Proof. destruct a; [done|]. cbn. lia. Qed.
Lemma spans_from p q len l : p ≤ q → spans_ok q len l → spans_ok p len l.
Proof. destruct l as [|sp l]; cbn; [lia|]. intros H (H1 & H2 & H3). split; [lia|done]. Qed.
Lemma substring_mid a b c : substring (String.length a) (String.length b) (a +:+ b +:+ c) = b.
Proof.
  induction a as [|x a IH]; cbn [String.length append substring].
  - induction b as [|y b IH]; [by destruct c|]. cbn. by rewrite IH.
  - exact IH.
Qed.
Lemma token_mid a b c ty : b ≠ ""%string →
  token_src (Token (Span (String.length a) (String.length a + String.length b)) ty) (a +:+ b +:+ c) = Some b.
Proof.
  intros Hb%len_pos. unfold token_src, span_get. cbn [t_span sp_lo sp_hi].
  assert ((String.length a + String.length b <=? String.length a) = false) as -> by (apply Nat.leb_gt; lia).
  rewrite Nat.min_l by (rewrite !app_len; lia).
  assert ((String.length a + String.length b <? String.length a) = false) as -> by (apply Nat.ltb_ge; lia).
  replace (String.length a + String.length b - String.length a) with (String.length b) by lia. by rewrite substring_mid.
Qed.

Section Gen.
  Variable rx_match : string → string → Prop.
  Variable ignore : list string.
  Variable rules : list (list rule * nat).
  Notation is_a := (is_a rx_match ignore rules).
  Notation longest := (longest rx_match ignore rules).
  Notation scan := (scan rx_match ignore rules).

  Lemma scan_spans p s evs : scan p s evs → spans_ok p (p + String.length s) (map raw_span evs).
  Proof.
    induction 1 as [p|p w rest evs Hl H IH|p ty w rest evs Hl H IH|p w rest evs Hw Hn H IH]; rewrite ?app_len.
    - cbn. lia.
    - eapply spans_from; [|rewrite Nat.add_assoc; exact IH]. lia.
    - assert (0 < String.length w) by (apply len_pos, Hl). cbn. split; [lia|]. split; [lia|]. by rewrite Nat.add_assoc.
    - apply len_pos in Hw. cbn. split; [lia|]. split; [lia|]. by rewrite Nat.add_assoc.
  Qed.
  Lemma scan_raw_ok s evs : scan 0 s evs → raw_ok (String.length s) evs.
  Proof. apply scan_spans. Qed.
  Lemma scan_tokens p s evs : scan p s evs → ∀ pre, String.length pre = p →
    ∀ t, t ∈ raw_tokens evs → ∃ w, token_src t (pre +:+ s) = Some w ∧ is_a (Some (t_ty t)) w.
  Proof.
    induction 1 as [p|p w rest evs Hl H IH|p ty w rest evs Hl H IH|p w rest evs Hw Hn H IH]; intros pre Hp t Ht.
    - by apply elem_of_nil in Ht.
    - rewrite <- app_as. apply IH; [|done]. rewrite app_len. lia.
    - cbn [raw_tokens] in Ht. apply elem_of_cons in Ht as [->|Ht].
      + exists w. split; [rewrite <- Hp; apply token_mid, Hl|apply Hl].
      + rewrite <- app_as. apply IH; [|done]. rewrite app_len. lia.
    - rewrite <- app_as. apply IH; [|done]. rewrite app_len. lia.
  Qed.

  Lemma scan_inv p s evs : scan p s evs → (s = ""%string ∧ evs = []) ∨
    ∃ w rest evs', w ≠ ""%string ∧ s = w +:+ rest ∧ scan (p + String.length w) rest evs' ∧
      ((longest None w rest ∧ evs = evs') ∨
       (∃ ty, longest (Some ty) w rest ∧ evs = RTok ty (Span p (p + String.length w)) :: evs') ∨
       ((∀ o w' rest', w +:+ rest = w' +:+ rest' → is_a o w' → w' = ""%string) ∧
        evs = RErr (Span p (p + String.length w)) :: evs')).
  Proof.
    destruct 1 as [p|p w rest evs Hl H|p ty w rest evs Hl H|p w rest evs Hw Hn H]; [by left|right; exists w, rest, evs..].
    - split; [apply Hl|]. auto.
    - split; [apply Hl|]. split; [done|]. split; [done|]. right. left. by exists ty.
    - split; [done|]. split; [done|]. split; [done|]. right. by right.
  Qed.
  Notation untied := (untied rx_match ignore rules).
  Lemma untied_rest w rest : untied (w +:+ rest) → untied rest.
  Proof. intros H o o' a v b ->. apply (H o o' (w +:+ a) v b). by rewrite app_as. Qed.
  Lemma longest_unique o w rest o' w' rest' : untied (w +:+ rest) → longest o w rest → longest o' w' rest' →
    w +:+ rest = w' +:+ rest' → o = o' ∧ w = w' ∧ rest = rest'.
  Proof.
    intros Hu (Hw & Ha & Hm) (Hw' & Ha' & Hm') E.
    destruct (app_same _ _ _ _ E) as [-> ->].
    { apply Nat.le_antisymm; [by eapply Hm'|by eapply Hm]. }
    split; [by apply (Hu o o' ""%string w' rest')|done].
  Qed.
  Lemma scan_unique p s evs evs' : untied s → scan p s evs → no_error evs → scan p s evs' → evs' = evs.
  Proof.
    intros Hu H. revert Hu evs'. induction H as [p|p w rest evs Hl H IH|p ty w rest evs Hl H IH|p w rest evs Hw Hn H IH]; intros Hu evs' He H'; try apply untied_rest in Hu as Hu'.
    - apply scan_inv in H' as [[_ ->]|(w & rest & e & Hw & E & _)]; [done|]. destruct w; [done|discriminate].
    - apply scan_inv in H' as [[E _]|(w' & rest' & e & Hw & E & Hs & [[Hl' ->]|[(ty' & Hl' & ->)|[Hn ->]]])].
      + destruct w; [by destruct Hl|discriminate].
      + destruct (longest_unique _ _ _ _ _ _ Hu Hl Hl' E) as (_ & <- & <-). by apply IH.
      + by destruct (longest_unique _ _ _ _ _ _ Hu Hl Hl' E).
      + destruct Hl as (Hw0 & Ha & _). destruct Hw0. eapply Hn; [symmetry; exact E|exact Ha].
    - assert (no_error evs) as He' by (intros sp Hsp; apply (He sp); by right).
      apply scan_inv in H' as [[E _]|(w' & rest' & e & Hw & E & Hs & [[Hl' ->]|[(ty' & Hl' & ->)|[Hn ->]]])].
      + destruct w; [by destruct Hl|discriminate].
      + by destruct (longest_unique _ _ _ _ _ _ Hu Hl Hl' E).
      + destruct (longest_unique _ _ _ _ _ _ Hu Hl Hl' E) as ([= <-] & <- & <-). f_equal. by apply IH.
      + destruct Hl as (Hw0 & Ha & _). destruct Hw0. eapply Hn; [symmetry; exact E|exact Ha].
    - exfalso. eapply He. by left.
  Qed.

  (** ** Every text can be scanned *)
  Context `{Hdec : ∀ r w, Decision (rx_match r w)}.
  Lemma kind_dec w : {o | is_a o w} + {∀ o, ¬ is_a o w}.
  Proof.
    destruct (decide (Exists (λ r, rx_match r w) ignore)) as [H|H].
    { left. exists None. apply Exists_exists in H as (r & H1 & H2). by exists r. }
    assert (Hr : ∀ r, Decision (rule_matches rx_match r w)) by (intros [r|l]; cbn; apply _).
    assert (H' : {ty | is_a (Some ty) w} + {∀ ty, ¬ is_a (Some ty) w}).
    { cbn [ScanSpec.is_a]. clear H. induction rules as [|[rs ty] l IH].
      { right. intros ty (rs & r & H & _). by apply elem_of_nil in H. }
      destruct (decide (Exists (λ r, rule_matches rx_match r w) rs)) as [H|H].
      { left. exists ty. apply Exists_exists in H as (r & H1 & H2). exists rs, r. split; [by left|done]. }
      destruct IH as [[ty' H']|H'].
      - left. exists ty'. destruct H' as (rs' & r & H1 & H2). exists rs', r. split; [by right|done].
      - right. intros ty' (rs' & r & H1 & H2 & H3). apply elem_of_cons in H1 as [[= -> ->]|H1].
        + apply H, Exists_exists. by exists r.
        + apply (H' ty'). by exists rs', r. }
    destruct H' as [[ty H']|H']; [left; by exists (Some ty)|right]. intros [ty|]; [apply H'|].
    intros (r & H1 & H2). apply H, Exists_exists. by exists r.
  Qed.
  (** Among the beginnings of at most [n] characters. *)
  Lemma find_longest s n : n ≤ String.length s →
    (∃ o w rest, s = w +:+ rest ∧ w ≠ ""%string ∧ is_a o w ∧
      ∀ o' w' rest', s = w' +:+ rest' → String.length w' ≤ n → is_a o' w' → String.length w' ≤ String.length w) ∨
    (∀ o w rest, s = w +:+ rest → String.length w ≤ n → is_a o w → w = ""%string).
  Proof.
    induction n as [|n IH]; intros Hn.
    { right. intros o w rest _ Hw _. apply len_0. lia. }
    assert (Hs : s = substring 0 (S n) s +:+ substring (S n) (String.length s - S n) s ∧ String.length (substring 0 (S n) s) = S n).
    { clear IH. revert Hn. generalize (S n) as k. induction s as [|c s IHs]; intros k Hk.
      - assert (k = 0) as -> by (cbn in Hk; lia). done.
      - destruct k as [|k].
        + cbn. split; [|done]. f_equal. clear. induction s as [|c s IH]; [done|]. cbn. by f_equal.
        + cbn in Hk. destruct (IHs k) as [E1 E2]; [lia|]. cbn. split; [by f_equal|by rewrite E2]. }
    destruct Hs as [Hs Hl]. destruct (kind_dec (substring 0 (S n) s)) as [[o Ho]|Ho].
    { left. exists o, (substring 0 (S n) s), (substring (S n) (String.length s - S n) s). split; [done|].
      split; [intros E; by rewrite E in Hl|]. split; [done|]. intros o' w' rest' _ Hw' _. lia. }
    assert (Hbig : ∀ o' w' rest', s = w' +:+ rest' → String.length w' ≤ S n → is_a o' w' → String.length w' ≤ n).
    { intros o' w' rest' E Hw' Ha. destruct (decide (String.length w' = S n)) as [E'|]; [|lia].
      rewrite Hs in E. destruct (app_same _ _ _ _ E) as [E1 _]; [lia|]. rewrite <- E1 in Ha. by apply Ho in Ha. }
    destruct IH as [(o & w & rest & E & Hw & Ha & Hm)|Hno]; [lia|left|right].
    - exists o, w, rest. split; [done|]. split; [done|]. split; [done|]. intros o' w' rest' E' Hw' Ha'. eapply Hm; [done|by eapply Hbig|done].
    - intros o' w' rest' E Hw' Ha. eapply Hno; [done|by eapply Hbig|done].
  Qed.
  Lemma scan_exists p s : ∃ evs, scan p s evs.
  Proof.
    revert p. remember (String.length s) as n eqn:E. revert s E. induction (lt_wf n) as [n _ IH]. intros s -> p.
    destruct (decide (s = ""%string)) as [->|Hs]; [exists []; constructor|].
    destruct (find_longest s (String.length s)) as [(o & w & rest & E & Hw & Ha & Hm)|Hno]; [lia|..].
    - assert (String.length rest < String.length s) as Hlt by (rewrite E, app_len; apply len_pos in Hw; lia).
      destruct (IH _ Hlt _ eq_refl (p + String.length w)) as [evs Hevs].
      assert (longest o w rest).
      { split; [done|]. split; [done|]. intros o' w' rest' E' Ha'. eapply Hm; [by rewrite E|rewrite E, E', app_len; lia|done]. }
      rewrite E. destruct o as [ty|]; eexists; [by eapply scan_token|by eapply scan_skip].
    - exists [RErr (Span p (p + String.length s))]. rewrite <- (app_nil s) at 1. apply scan_error; [done| |constructor].
      intros o w' rest' E Ha. rewrite app_nil in E. eapply Hno; [done|rewrite E, app_len; lia|done].
  Qed.
End Gen.

Lemma scan_tokenized rx_match ignore a s evs :
  scan rx_match ignore (derived_logos a) 0 s evs → tokenized rx_match a s evs.
Proof.
  intros H t Ht. destruct (scan_tokens _ _ _ _ _ _ H "" eq_refl t Ht) as (w & Hw & rs & r & H1 & H2 & H3). by exists rs, r, w.
Qed.
