(** White space and numbers: the pure functions against the grammar. *)
From Coq Require Import String ZArith List Bool Lia Arith.
From Verif Require Import Base ModelIter ModelStack ModelSkip Sim SimLib SimSkip Spec.
Import ListNotations.
Local Open Scope Z_scope.

(** ** White space *)
Lemma is_space_ws c : is_space c = true <-> is_ws c.
Proof.
  unfold is_space, valueTypeMap, is_ws.
  destruct ((c =? 32) || (c =? 10) || (c =? 9) || (c =? 13)) eqn:E; simpl.
  - rewrite andb_true_r. lia.
  - rewrite <- Bool.not_true_iff_false, !orb_true_iff, !Z.eqb_eq in E.
    split; [|lia]. intros H. apply andb_true_iff in H. destruct H as [_ H]. revert H.
    repeat match goal with |- context [if ?b then _ else _] => destruct b end; discriminate.
Qed.
Lemma is_space_nws c : is_space c = false <-> ~ is_ws c.
Proof. rewrite <- is_space_ws. now destruct (is_space c). Qed.
Lemma spaces_ws w : Forall (fun x => is_space x = true) w <-> ws w.
Proof.
  unfold ws. split; intros H; (eapply Forall_impl; [|apply H]); intros c; apply is_space_ws.
Qed.
Lemma nextToken_run f w c r : ws w -> ~ is_ws c -> p_nextToken f (w ++ c :: r) = POk c (c :: r).
Proof.
  intros Hw Hc. induction Hw as [|x w Hx _ IH]; rewrite p_nextToken_eq; simpl.
  - apply is_space_nws in Hc. now rewrite Hc.
  - apply is_space_ws in Hx. now rewrite Hx.
Qed.
Lemma takeToken_run f w c r : ws w -> ~ is_ws c -> p_takeToken f (w ++ c :: r) = POk c r.
Proof. intros Hw Hc. unfold p_takeToken, pbind. rewrite nextToken_run by auto. reflexivity. Qed.
Lemma takeToken_inv f l c r : p_takeToken f l = POk c r -> exists w, l = w ++ c :: r /\ ws w /\ ~ is_ws c.
Proof.
  intros H. apply p_takeToken_ok in H. destruct H as (w & -> & Hw & Hc). exists w.
  split; auto. split; [now apply spaces_ws|now apply is_space_nws].
Qed.
Lemma nextToken_inv f l c r : p_nextToken f l = POk c r ->
  exists w r', l = w ++ c :: r' /\ r = c :: r' /\ ws w /\ ~ is_ws c.
Proof.
  intros H. apply p_nextToken_ok in H. destruct H as (w & r' & -> & -> & Hw & Hc). exists w, r'.
  split; auto. split; auto. split; [now apply spaces_ws|now apply is_space_nws].
Qed.
Lemma nextToken_end f w : ws w -> p_nextToken f w = PErr f.
Proof.
  induction 1 as [|x w Hx _ IH]; rewrite p_nextToken_eq; auto.
  apply is_space_ws in Hx. now rewrite Hx.
Qed.
Lemma nextToken_cases f l :
  (ws l /\ p_nextToken f l = PErr f) \/
  (exists w c r, l = w ++ c :: r /\ ws w /\ ~ is_ws c /\ p_nextToken f l = POk c (c :: r)).
Proof.
  induction l as [|x l IH].
  - left. split; [constructor|reflexivity].
  - destruct (is_space x) eqn:E.
    + assert (Hx := E). apply is_space_ws in Hx. rewrite p_nextToken_eq, E.
      destruct IH as [[Hw Hn]|(w & c & r & -> & Hw & Hc & Hn)].
      * left. split; auto. constructor; auto.
      * right. exists (x :: w), c, r. split; auto. split; [constructor; auto|auto].
    + right. exists [], x, l. split; auto. split; [constructor|]. split; [now apply is_space_nws|].
      rewrite p_nextToken_eq, E. reflexivity.
Qed.

(** ** Digits *)
Lemma intDigits_digit c : is_digit c -> intDigits c = c - 48 /\ (intDigits c =? invalidDigit) = false.
Proof.
  unfold is_digit, intDigits, invalidDigit. intros H.
  replace ((cZERO <=? c) && (c <=? cNINE)) with true by lia. lia.
Qed.
Lemma intDigits_nodigit c : ~ is_digit c -> (intDigits c =? invalidDigit) = true.
Proof.
  unfold is_digit, intDigits, invalidDigit. intros H.
  replace ((cZERO <=? c) && (c <=? cNINE)) with false by lia. reflexivity.
Qed.
Lemma is_digit_dec c : {is_digit c} + {~ is_digit c}.
Proof. unfold is_digit. destruct (Z_le_dec 48 c), (Z_le_dec c 57); [left|right|right|right]; lia. Qed.
Definition is_e (c : Z) : Prop := c = 101 \/ c = 69.
Lemma is_e_dec c : {is_e c} + {~ is_e c}.
Proof. unfold is_e. destruct (Z.eq_dec c 101), (Z.eq_dec c 69); [left|left|left|right]; lia. Qed.

(** what the number loops may stop at: the end of input or a byte outside [S] *)
Definition stops (S0 : Z -> Prop) (f : err) (r : bytes) : Prop :=
  match r with [] => f = EEOF | c :: _ => ~ S0 c end.
Lemma eof_iff f : err_eqb_eof f = true <-> f = EEOF.
Proof. destruct f; simpl; split; intros; congruence. Qed.
Lemma ret0_run {T} (t : T) f : f = EEOF -> p_ret0 t f [] = POk tt [].
Proof. intros ->. reflexivity. Qed.
Lemma ret0_inv {T} (t : T) f a r : p_ret0 t f [] = POk a r -> r = [] /\ f = EEOF.
Proof.
  unfold p_ret0, p_eofReturn, pret. destruct (err_eqb_eof f) eqn:E; [|discriminate].
  intros [= <- <-]. split; auto. now apply eof_iff.
Qed.

Ltac presume_none := intros ? ? ? ?H; exfalso; revert H; split_ifs; discriminate.

(** exponent digits *)
Lemma expLoop_eq f l : p_skipExponentLoop f l =
  match l with
  | [] => p_ret0 tt f []
  | c :: r => if intDigits c =? invalidDigit then POk tt l else p_skipExponentLoop f r
  end.
Proof.
  unfold p_skipExponentLoop. destruct l as [|c l]; [reflexivity|]. rewrite p_scan_cons by presume_none.
  destruct (intDigits c =? invalidDigit); reflexivity.
Qed.
Lemma expLoop_run f d r : digits d -> stops is_digit f r -> p_skipExponentLoop f (d ++ r) = POk tt r.
Proof.
  intros Hd Hs. induction Hd as [|c d Hc _ IH]; simpl; rewrite expLoop_eq.
  - destruct r as [|c r]; [now apply ret0_run|]. simpl in Hs. now rewrite intDigits_nodigit.
  - apply intDigits_digit in Hc. destruct Hc as [_ ->]. auto.
Qed.
Lemma expLoop_inv f l r : p_skipExponentLoop f l = POk tt r ->
  exists d, l = d ++ r /\ digits d /\ stops is_digit f r.
Proof.
  induction l as [|c l IH]; rewrite expLoop_eq; intros H.
  - apply ret0_inv in H. destruct H as [-> ->]. exists []. repeat split. constructor.
  - destruct (is_digit_dec c) as [Hc|Hc].
    + destruct (intDigits_digit _ Hc) as [_ E]. rewrite E in H. destruct (IH H) as (d & -> & Hd & Hs).
      exists (c :: d). repeat split; auto. constructor; auto.
    + rewrite intDigits_nodigit in H by auto. injection H as <-. exists []. repeat split; auto. constructor.
Qed.

(** the exponent after its e *)
Inductive exp_tail : bytes -> Prop :=
| et_plain l : digits1 l -> exp_tail l
| et_sign s l : s = 43 \/ s = 45 -> digits1 l -> exp_tail (s :: l).
Lemma digits1_inv l : digits1 l -> exists c d, l = c :: d /\ is_digit c /\ digits d.
Proof. intros [H1 H2]. destruct l as [|c d]; [congruence|]. inversion H2; subst. eauto. Qed.
Lemma digits1_cons c d : is_digit c -> digits d -> digits1 (c :: d).
Proof. intros. split; [discriminate|constructor; auto]. Qed.
Lemma digit_not_sign c : is_digit c -> (c =? cPLUS) || (c =? cMINUS) = false.
Proof. unfold is_digit. lia. Qed.
Lemma expPart_run f x r : exp_tail x -> stops is_digit f r -> p_skipExponentPart f (x ++ r) = POk tt r.
Proof.
  intros Hx Hs. destruct Hx as [l Hl|s l Hsg Hl]; apply digits1_inv in Hl; destruct Hl as (c & d & -> & Hc & Hd);
    unfold p_skipExponentPart; cbn.
  - unfold pbind, p_peek, p_inc, pret; cbn. rewrite digit_not_sign by auto. cbn.
    destruct (intDigits_digit _ Hc) as [_ ->]. now apply expLoop_run.
  - unfold pbind, p_peek, p_inc, pret; cbn. replace ((s =? cPLUS) || (s =? cMINUS)) with true by lia. cbn.
    destruct (intDigits_digit _ Hc) as [_ ->]. now apply expLoop_run.
Qed.
Lemma expPart_inv f l r : p_skipExponentPart f l = POk tt r ->
  exists x, l = x ++ r /\ exp_tail x /\ stops is_digit f r.
Proof.
  unfold p_skipExponentPart, pbind, p_peek, p_inc, pret, pfail. destruct l as [|c0 l]; [discriminate|]. cbn.
  destruct ((c0 =? cPLUS) || (c0 =? cMINUS)) eqn:E.
  - destruct l as [|c1 l]; [discriminate|]. cbn.
    destruct (is_digit_dec c1) as [Hc|Hc]; [|now rewrite intDigits_nodigit].
    destruct (intDigits_digit _ Hc) as [_ ->]. cbn [tl]. intros H. apply expLoop_inv in H.
    destruct H as (d & -> & Hd & Hs). exists (c0 :: c1 :: d). repeat split; auto.
    apply et_sign; [lia|]. now apply digits1_cons.
  - cbn. destruct (is_digit_dec c0) as [Hc|Hc]; [|now rewrite intDigits_nodigit].
    destruct (intDigits_digit _ Hc) as [_ ->]. cbn [tl]. intros H. apply expLoop_inv in H.
    destruct H as (d & -> & Hd & Hs). exists (c0 :: d). repeat split; auto.
    apply et_plain. now apply digits1_cons.
Qed.
Lemma exp_part_tail e : exp_part e <-> e = [] \/ exists c x, e = c :: x /\ is_e c /\ exp_tail x.
Proof.
  split.
  - intros []; [now left| |]; right.
    + exists e0, l. repeat split; auto. now apply et_plain.
    + exists e0, (s :: l). repeat split; auto. now apply et_sign.
  - intros [->|(c & x & -> & Hc & [])]; [apply ep_none|apply ep_some|apply ep_sign]; auto.
Qed.

(** floatDigits *)
Lemma fd_digit c : is_digit c -> (floatDigits c <? 0) = false /\ (floatDigits c =? dotInNumber) = false
  /\ (floatDigits c =? expInNumber) = false.
Proof.
  unfold is_digit, floatDigits, dotInNumber, expInNumber. intros H.
  replace ((cZERO <=? c) && (c <=? cNINE)) with true by lia. lia.
Qed.
Lemma fd_dot : floatDigits 46 = dotInNumber.
Proof. reflexivity. Qed.
Lemma fd_e c : is_e c -> floatDigits c = expInNumber.
Proof. intros [->| ->]; reflexivity. Qed.
Lemma fd_other c : ~ is_digit c -> c <> 46 -> ~ is_e c -> floatDigits c = invalidFloatDigit.
Proof.
  unfold is_digit, is_e, floatDigits. intros.
  replace ((cZERO <=? c) && (c <=? cNINE)) with false by lia.
  replace (c =? cDOT) with false by lia. replace ((c =? c_e) || (c =? c_E)) with false by lia. auto.
Qed.
Lemma fd_cases c : is_digit c \/ c = 46 \/ is_e c \/ (~ is_digit c /\ c <> 46 /\ ~ is_e c).
Proof.
  destruct (is_digit_dec c), (is_e_dec c), (Z.eq_dec c 46); tauto.
Qed.

(** the bytes that would continue a number whose parts are given *)
Definition cont_frac (e : bytes) (c : Z) : Prop := is_digit c \/ (e = [] /\ is_e c).
Definition cont_int (fr e : bytes) (c : Z) : Prop :=
  is_digit c \/ (e = [] /\ is_e c) \/ (fr = [] /\ e = [] /\ c = 46).

Lemma fracLoop_eq f l : p_skipFractionLoop f l =
  match l with
  | [] => p_ret0 tt f []
  | c :: r =>
      if floatDigits c <? 0 then
        if floatDigits c =? expInNumber then p_skipExponentPart f r else POk tt l
      else p_skipFractionLoop f r
  end.
Proof.
  unfold p_skipFractionLoop. destruct l as [|c l]; [reflexivity|]. rewrite p_scan_cons by presume_none.
  split_ifs; reflexivity.
Qed.
Lemma e_not_digit c : is_e c -> ~ is_digit c.
Proof. unfold is_e, is_digit. lia. Qed.
Lemma fracLoop_run f d e r : digits d -> exp_part e -> stops (cont_frac e) f r ->
  p_skipFractionLoop f (d ++ e ++ r) = POk tt r.
Proof.
  intros Hd He Hs. induction Hd as [|c d Hc _ IH]; simpl; rewrite fracLoop_eq.
  - apply exp_part_tail in He. destruct He as [->|(c & x & -> & Hc & Hx)]; simpl.
    + destruct r as [|c r]; [now apply ret0_run|]. simpl in Hs. unfold cont_frac in Hs.
      destruct (fd_cases c) as [H|[->|[H|(H1 & H2 & H3)]]]; try tauto.
      rewrite fd_other by auto. reflexivity.
    + rewrite (fd_e _ Hc). cbn. apply expPart_run; auto. destruct r; auto. simpl in *. unfold cont_frac in Hs. tauto.
  - apply fd_digit in Hc. destruct Hc as [-> _]. auto.
Qed.
Lemma fracLoop_inv f l r : p_skipFractionLoop f l = POk tt r ->
  exists d e, l = d ++ e ++ r /\ digits d /\ exp_part e /\ stops (cont_frac e) f r.
Proof.
  induction l as [|c l IH]; rewrite fracLoop_eq; intros H.
  - apply ret0_inv in H. destruct H as [-> ->]. exists [], []. repeat split; constructor.
  - destruct (fd_cases c) as [Hc|[->|[Hc|(H1 & H2 & H3)]]].
    + destruct (fd_digit _ Hc) as [E _]. rewrite E in H. destruct (IH H) as (d & e & -> & Hd & He & Hs).
      exists (c :: d), e. repeat split; auto. constructor; auto.
    + cbn in H. injection H as <-. exists [], []. split; auto. split; [constructor|]. split; [constructor|].
      unfold stops, cont_frac, is_digit, is_e. lia.
    + rewrite (fd_e _ Hc) in H. cbn in H. apply expPart_inv in H. destruct H as (x & -> & Hx & Hs).
      exists [], (c :: x). split; auto. split; [constructor|]. split; [apply exp_part_tail; right; eauto|].
      destruct r; auto. simpl in *. unfold cont_frac. intros [H|[H _]]; [tauto|discriminate].
    + rewrite fd_other in H by auto. cbn in H. injection H as <-. exists [], []. split; auto.
      split; [constructor|]. split; [constructor|]. simpl. unfold cont_frac. tauto.
Qed.
Lemma fracPart_run f d e r : digits1 d -> exp_part e -> stops (cont_frac e) f r ->
  p_skipFractionPart f (d ++ e ++ r) = POk tt r.
Proof.
  intros Hd He Hs. apply digits1_inv in Hd. destruct Hd as (c & d' & -> & Hc & Hd).
  unfold p_skipFractionPart, pbind, p_peek, p_inc; cbn.
  destruct (intDigits_digit _ Hc) as [_ ->]. now apply fracLoop_run.
Qed.
Lemma fracPart_inv f l r : p_skipFractionPart f l = POk tt r ->
  exists d e, l = d ++ e ++ r /\ digits1 d /\ exp_part e /\ stops (cont_frac e) f r.
Proof.
  unfold p_skipFractionPart, pbind, p_peek, p_inc, pfail; destruct l as [|c l]; [discriminate|]; cbn.
  destruct (is_digit_dec c) as [Hc|Hc]; [|now rewrite intDigits_nodigit].
  destruct (intDigits_digit _ Hc) as [_ ->]. cbn [tl]. intros H. apply fracLoop_inv in H.
  destruct H as (d & e & -> & Hd & He & Hs). exists (c :: d), e. repeat split; auto; try discriminate. constructor; auto.
Qed.

Lemma intLoop_eq f l : p_skipIntegerLoop f l =
  match l with
  | [] => p_ret0 tt f []
  | c :: r =>
      if floatDigits c <? 0 then
        if floatDigits c =? dotInNumber then p_skipFractionPart f r
        else if floatDigits c =? expInNumber then p_skipExponentPart f r else POk tt l
      else p_skipIntegerLoop f r
  end.
Proof.
  unfold p_skipIntegerLoop. destruct l as [|c l]; [reflexivity|]. rewrite p_scan_cons by presume_none.
  split_ifs; reflexivity.
Qed.
Lemma frac_part_inv fr : frac_part fr -> fr = [] \/ exists d, fr = 46 :: d /\ digits1 d.
Proof. intros []; eauto. Qed.
Lemma intLoop_run f d fr e r : digits d -> frac_part fr -> exp_part e -> stops (cont_int fr e) f r ->
  p_skipIntegerLoop f (d ++ fr ++ e ++ r) = POk tt r.
Proof.
  intros Hd Hf He Hs. induction Hd as [|c d Hc _ IH]; simpl; rewrite intLoop_eq.
  - apply frac_part_inv in Hf. destruct Hf as [->|(x & -> & Hx)]; simpl.
    + apply exp_part_tail in He. destruct He as [->|(c & x & -> & Hc & Hx)]; simpl.
      * destruct r as [|c r]; [now apply ret0_run|]. simpl in Hs. unfold cont_int in Hs.
        destruct (fd_cases c) as [H|[->|[H|(H1 & H2 & H3)]]]; try tauto.
        rewrite fd_other by auto. reflexivity.
      * rewrite (fd_e _ Hc). cbn. apply expPart_run; auto. destruct r; auto. simpl in *. unfold cont_int in Hs. tauto.
    + apply fracPart_run; auto. destruct r; auto. simpl in *. unfold cont_int, cont_frac in *. tauto.
  - apply fd_digit in Hc. destruct Hc as [-> _]. auto.
Qed.
Lemma intLoop_inv f l r : p_skipIntegerLoop f l = POk tt r ->
  exists d fr e, l = d ++ fr ++ e ++ r /\ digits d /\ frac_part fr /\ exp_part e /\ stops (cont_int fr e) f r.
Proof.
  induction l as [|c l IH]; rewrite intLoop_eq; intros H.
  - apply ret0_inv in H. destruct H as [-> ->]. exists [], [], []. repeat split; constructor.
  - destruct (fd_cases c) as [Hc|[->|[Hc|(H1 & H2 & H3)]]].
    + destruct (fd_digit _ Hc) as [E _]. rewrite E in H. destruct (IH H) as (d & fr & e & -> & Hd & Hf & He & Hs).
      exists (c :: d), fr, e. repeat split; auto. constructor; auto.
    + cbn in H. apply fracPart_inv in H. destruct H as (d & e & -> & Hd & He & Hs).
      exists [], (46 :: d), e. split; auto. split; [constructor|]. split; [now constructor|]. split; auto.
      destruct r; auto. simpl in *. unfold cont_int, cont_frac in *. intros [H|[H|[H _]]]; [tauto|tauto|discriminate].
    + rewrite (fd_e _ Hc) in H. cbn in H. apply expPart_inv in H. destruct H as (x & -> & Hx & Hs).
      exists [], [], (c :: x). split; auto. split; [constructor|]. split; [constructor|].
      split; [apply exp_part_tail; right; eauto|].
      destruct r; auto. simpl in *. unfold cont_int. intros [H|[[H _]|[_ [H _]]]]; [tauto|discriminate|discriminate].
    + rewrite fd_other in H by auto. cbn in H. injection H as <-. exists [], [], []. split; auto.
      split; [constructor|]. split; [constructor|]. split; [constructor|]. simpl. unfold cont_int. tauto.
Qed.

(** ** Whole numbers *)
(** the bytes that would continue the number i fr e *)
Definition cont_num (i fr e : bytes) (c : Z) : Prop :=
  (is_digit c /\ ~ (i = [48] /\ fr = [] /\ e = [])) \/ (e = [] /\ is_e c) \/ (fr = [] /\ e = [] /\ c = 46).
Definition num_parts (i fr e : bytes) : Prop := int_part i /\ frac_part fr /\ exp_part e.

Definition p_unsigned (c : Z) : P unit :=
  if c =? cZERO then
    pbind p_peekOrEOF (fun o =>
     match o with
     | None => pret tt
     | Some d =>
         if floatDigits d =? dotInNumber then pbind p_inc (fun _ => p_skipFractionPart)
         else if floatDigits d =? expInNumber then pbind p_inc (fun _ => p_skipExponentPart)
         else pret tt
     end)
  else p_skipIntegerLoop.
Lemma unsigned_run f i fr e c t r :
  num_parts i fr e -> i ++ fr ++ e = c :: t -> stops (cont_num i fr e) f r ->
  is_digit c /\ p_unsigned c f (t ++ r) = POk tt r.
Proof.
  intros (Hi & Hf & He) E Hs. destruct Hi as [|d l Hd Hl].
  - simpl in E. injection E as <- <-. split; [unfold is_digit; lia|]. unfold p_unsigned. cbn [Z.eqb]. simpl (48 =? cZERO). cbv iota.
    apply frac_part_inv in Hf. destruct Hf as [->|(x & -> & Hx)].
    + apply exp_part_tail in He. destruct He as [->|(c & x & -> & Hc & Hx)].
      * simpl. destruct r as [|c r].
        -- simpl in Hs. subst f. reflexivity.
        -- unfold pbind, p_peekOrEOF. simpl in Hs. unfold cont_num in Hs.
           destruct (fd_cases c) as [H|[->|[H|(H1 & H2 & H3)]]]; try tauto.
           ++ destruct (fd_digit _ H) as (_ & -> & ->). reflexivity.
           ++ rewrite fd_other by auto. reflexivity.
      * simpl. unfold pbind, p_peekOrEOF. rewrite (fd_e _ Hc). cbn. apply expPart_run; auto.
        destruct r; auto. simpl in *. unfold cont_num in Hs. intros Hdg. apply Hs. left. split; auto.
        intros (_ & _ & ?). discriminate.
    + simpl. unfold pbind, p_peekOrEOF. cbn. rewrite <- app_assoc. apply fracPart_run; auto.
      destruct r; auto. simpl in *. unfold cont_num, cont_frac in *. intros [H|H]; apply Hs; [left|tauto].
      split; auto. intros (_ & ? & _). discriminate.
  - simpl in E. injection E as <- <-. split; [unfold is_digit; lia|]. unfold p_unsigned.
    replace (d =? cZERO) with false by lia. rewrite <- !app_assoc. apply intLoop_run; auto.
    destruct r; auto. simpl in *. unfold cont_num, cont_int in *. intros [H|H]; apply Hs; [left|tauto].
    split; auto. intros (? & _ & _). injection H0 as ? ?. lia.
Qed.
Lemma unsigned_inv f c l r : is_digit c -> p_unsigned c f l = POk tt r ->
  exists i fr e t, num_parts i fr e /\ i ++ fr ++ e = c :: t /\ l = t ++ r /\ stops (cont_num i fr e) f r.
Proof.
  intros Hc. unfold p_unsigned. destruct (Z.eqb_spec c cZERO) as [->|Hz].
  - unfold pbind, p_peekOrEOF. destruct l as [|d l].
    + destruct (err_eqb_eof f) eqn:E; [|discriminate]. intros [= <-].
      exists [48], [], [], []. split; [repeat split; constructor|]. split; auto. split; auto. simpl. now apply eof_iff.
    + destruct (fd_cases d) as [Hd|[->|[Hd|(H1 & H2 & H3)]]].
      * destruct (fd_digit _ Hd) as (_ & -> & ->). intros [= <-].
        exists [48], [], [], []. split; [repeat split; constructor|]. split; auto. split; auto. simpl.
        unfold cont_num. intros [[_ H]|[[_ H]|(_ & _ & H)]]; [tauto|now apply e_not_digit in H|]. unfold is_digit in Hd. lia.
      * simpl. unfold p_inc. simpl. intros H. apply fracPart_inv in H. destruct H as (x & e & -> & Hx & He & Hs).
        exists [48], (46 :: x), e, (46 :: x ++ e). split; [repeat split; auto; constructor; auto|].
        split; auto. split; [simpl; now rewrite <- app_assoc|]. destruct r; auto. simpl in *. unfold cont_num, cont_frac in *.
        intros [[H _]|[H|(H & _)]]; [tauto|tauto|discriminate].
      * rewrite (fd_e _ Hd). cbn. unfold p_inc. simpl. intros H. apply expPart_inv in H. destruct H as (x & -> & Hx & Hs).
        exists [48], [], (d :: x), (d :: x). split; [split; [apply ip_zero|split; [apply fp_none|apply exp_part_tail; right; eauto]]|].
        split; auto. split; auto. destruct r; auto. simpl in *. unfold cont_num.
        intros [[H _]|[[H _]|(_ & H & _)]]; [tauto|discriminate|discriminate].
      * rewrite fd_other by auto. intros [= <-].
        exists [48], [], [], []. split; [repeat split; constructor|]. split; auto. split; auto. simpl.
        unfold cont_num. tauto.
  - intros H. apply intLoop_inv in H. destruct H as (d & fr & e & -> & Hd & Hf & He & Hs).
    exists (c :: d), fr, e, (d ++ fr ++ e). split; [repeat split; auto; constructor; auto; unfold is_digit in Hc; lia|].
    split; auto. split; [now rewrite !app_assoc|]. destruct r; auto. simpl in *. unfold cont_num, cont_int in *. tauto.
Qed.

Definition sign_ok (sg : bytes) : Prop := sg = [] \/ sg = [45].
Lemma skipNumber_unsigned c f l : is_digit c -> p_skipNumber c f l = p_unsigned c f l.
Proof.
  intros H. unfold p_skipNumber, pbind at 1. replace (c =? cMINUS) with false by (unfold is_digit in H; lia). reflexivity.
Qed.
Lemma skipNumber_minus f l : p_skipNumber cMINUS f l =
  match l with
  | [] => PErr f
  | c :: r => if intDigits c =? invalidDigit then PErr (EInvalidDigit c) else p_unsigned c f r
  end.
Proof.
  unfold p_skipNumber, pbind at 1. destruct l as [|c l]; [reflexivity|]. cbn.
  unfold pbind, p_peek. destruct (intDigits c =? invalidDigit); reflexivity.
Qed.
Lemma skipNumber_run f sg i fr e c t r :
  sign_ok sg -> num_parts i fr e -> sg ++ i ++ fr ++ e = c :: t -> stops (cont_num i fr e) f r ->
  (c = 45 \/ is_digit c) /\ p_skipNumber c f (t ++ r) = POk tt r.
Proof.
  intros [->| ->] Hp E Hs; simpl in E.
  - destruct (unsigned_run _ _ _ _ _ _ _ Hp E Hs) as [Hc H]. split; auto. now rewrite skipNumber_unsigned.
  - injection E as <- <-. split; auto. destruct (i ++ fr ++ e) as [|c t] eqn:Ei.
    + destruct Hp as [Hi _]. destruct Hi; discriminate.
    + destruct (unsigned_run _ _ _ _ _ _ _ Hp Ei Hs) as [Hc H]. rewrite skipNumber_minus. simpl.
      destruct (intDigits_digit _ Hc) as [_ ->]. auto.
Qed.
Lemma skipNumber_inv f c l r : c = 45 \/ is_digit c -> p_skipNumber c f l = POk tt r ->
  exists sg i fr e t, sign_ok sg /\ num_parts i fr e /\ sg ++ i ++ fr ++ e = c :: t /\ l = t ++ r /\
    stops (cont_num i fr e) f r.
Proof.
  intros [->|Hc] H.
  - rewrite skipNumber_minus in H. destruct l as [|c l]; [discriminate|].
    destruct (is_digit_dec c) as [Hc|Hc]; [|now rewrite intDigits_nodigit in H].
    destruct (intDigits_digit _ Hc) as [_ E]. rewrite E in H.
    destruct (unsigned_inv _ _ _ _ Hc H) as (i & fr & e & t & Hp & E' & -> & Hs).
    exists [45], i, fr, e, (c :: t). split; [now right|]. split; auto. split; [simpl; now rewrite E'|]. auto.
  - rewrite skipNumber_unsigned in H by auto.
    destruct (unsigned_inv _ _ _ _ Hc H) as (i & fr & e & t & Hp & E' & -> & Hs).
    exists [], i, fr, e, t. split; [now left|]. auto.
Qed.

Lemma number_parts t : number t <-> exists sg i fr e, sign_ok sg /\ num_parts i fr e /\ t = sg ++ i ++ fr ++ e.
Proof.
  split.
  - intros [? [i fr e ? ? ?]|? [i fr e ? ? ?]]; [exists [], i, fr, e|exists [45], i, fr, e]; repeat split; auto; [now left|now right].
  - intros (sg & i & fr & e & [->| ->] & (Hi & Hf & He) & ->); [apply num_pos|apply num_neg]; apply (un i fr e); auto.
Qed.
Lemma number_first t : number t -> exists c t', t = c :: t' /\ (c = 45 \/ is_digit c).
Proof.
  intros H. apply number_parts in H. destruct H as (sg & i & fr & e & Hs & Hp & ->).
  destruct Hs as [->| ->]; [|eexists _, _; split; [reflexivity|auto]].
  destruct Hp as [[|d l Hd Hl] _]; eexists _, _; (split; [reflexivity|]); right; unfold is_digit; lia.
Qed.

(** The maximal-munch condition of the specification is the loop's stopping condition. *)
Lemma cont_num_ext i fr e c sg :
  sign_ok sg -> num_parts i fr e ->
  (cont_num i fr e c <-> exists x, number ((sg ++ i ++ fr ++ e) ++ c :: x)).
Proof.
  intros Hsg Hp. split.
  - intros H.
    assert (Hd0 : digits1 [48]) by (split; [discriminate|repeat constructor; unfold is_digit; lia]).
    destruct Hp as (Hi & Hf & He).
    destruct H as [[Hc Hn]|[[-> Hc]|(-> & -> & ->)]].
    + exists []. apply number_parts.
      destruct He as [|e0 l He0 Hl|e0 s l He0 Hsn Hl].
      * destruct Hf as [|l Hl].
        -- destruct Hi as [|d l Hd Hl]; [exfalso; apply Hn; auto|].
           exists sg, (d :: l ++ [c]), [], []. split; auto. split.
           { repeat split; try constructor; auto. apply Forall_app; split; auto; repeat constructor; auto; apply Hc. }
           rewrite !app_nil_r. now rewrite <- app_assoc.
        -- exists sg, i, (46 :: l ++ [c]), []. split; auto. split.
           { repeat split; try constructor; auto. destruct Hl as [Hl1 Hl2]. split; [now destruct l|]. apply Forall_app; split; auto; repeat constructor; auto; apply Hc. }
           rewrite !app_nil_r. now rewrite <- !app_assoc.
      * exists sg, i, fr, (e0 :: l ++ [c]). split; auto. split.
        { repeat split; auto. apply ep_some; auto. destruct Hl as [Hl1 Hl2]. split; [now destruct l|]. apply Forall_app; split; auto; repeat constructor; auto; apply Hc. }
        now rewrite <- !app_assoc.
      * exists sg, i, fr, (e0 :: s :: l ++ [c]). split; auto. split.
        { repeat split; auto. apply ep_sign; auto. destruct Hl as [Hl1 Hl2]. split; [now destruct l|]. apply Forall_app; split; auto; repeat constructor; auto; apply Hc. }
        now rewrite <- !app_assoc.
    + exists [48]. apply number_parts. exists sg, i, fr, [c; 48]. split; auto. split.
      { repeat split; auto. apply ep_some; auto. }
      rewrite app_nil_r. now rewrite <- !app_assoc.
    + exists [48]. apply number_parts. exists sg, i, [46; 48], []. split; auto. split.
      { repeat split; auto; constructor; auto. }
      rewrite !app_nil_r. now rewrite <- !app_assoc.
  - intros [x Hx].
    assert (D : {cont_num i fr e c} + {~ cont_num i fr e c}).
    { unfold cont_num.
      destruct (is_digit_dec c), (is_e_dec c), (Z.eq_dec c 46), (list_eq_dec Z.eq_dec i [48]),
        (list_eq_dec Z.eq_dec fr []), (list_eq_dec Z.eq_dec e []); try (left; tauto); right; tauto. }
    destruct D as [D|D]; auto. exfalso.
    apply number_parts in Hx. destruct Hx as (sg' & i' & fr' & e' & Hsg' & Hp' & E).
    destruct (sg ++ i ++ fr ++ e) as [|a t] eqn:Et.
    { destruct Hsg as [->| ->]; [|discriminate Et]. destruct Hp as [Hi _]. destruct Hi; discriminate Et. }
    destruct (skipNumber_run EEOF _ _ _ _ _ _ (c :: x) Hsg Hp Et D) as [_ R1].
    assert (E2 : sg' ++ i' ++ fr' ++ e' = a :: t ++ c :: x) by now rewrite <- E.
    destruct (skipNumber_run EEOF _ _ _ _ _ _ [] Hsg' Hp' E2 eq_refl) as [_ R2].
    rewrite app_nil_r in R2. congruence.
Qed.

(** the stopping condition in terms of the specification *)
Lemma num_ends_stops sg i fr e f r : sign_ok sg -> num_parts i fr e ->
  (num_ends (sg ++ i ++ fr ++ e) f r <-> stops (cont_num i fr e) f r).
Proof.
  intros Hsg Hp. unfold num_ends. destruct r as [|c r]; simpl.
  - split; [tauto|]. intros ->. split; auto. discriminate.
  - rewrite (cont_num_ext i fr e c sg Hsg Hp). split.
    + intros [H _] [x Hx]. exact (H _ _ _ eq_refl Hx).
    + intros H. split; [|discriminate]. intros c' r' x [= <- <-] Hx. apply H. eauto.
Qed.
Theorem skipNumber_spec f c l r : c = 45 \/ is_digit c ->
  (p_skipNumber c f l = POk tt r <->
   exists t, number (c :: t) /\ l = t ++ r /\ num_ends (c :: t) f r).
Proof.
  intros Hc. split.
  - intros H. destruct (skipNumber_inv _ _ _ _ Hc H) as (sg & i & fr & e & t & Hsg & Hp & E & -> & Hs).
    exists t. rewrite <- E. split; [apply number_parts; eauto 10|]. split; auto. apply num_ends_stops; auto.
  - intros (t & Hn & -> & He). apply number_parts in Hn. destruct Hn as (sg & i & fr & e & Hsg & Hp & E).
    rewrite E in He. apply num_ends_stops in He; auto.
    eapply skipNumber_run; eauto.
Qed.

(** number bytes *)
Lemma number_bytes t : number t -> Forall (fun c => is_digit c \/ c = 46 \/ is_e c \/ c = 43 \/ c = 45) t.
Proof.
  intros H. apply number_parts in H. destruct H as (sg & i & fr & e & Hsg & (Hi & Hf & He) & ->).
  assert (Hdg : forall l, digits l -> Forall (fun c => is_digit c \/ c = 46 \/ is_e c \/ c = 43 \/ c = 45) l).
  { intros l Hl. eapply Forall_impl; [|apply Hl]. auto. }
  rewrite !Forall_app. repeat split.
  - destruct Hsg as [->| ->]; constructor; auto.
  - destruct Hi as [|d l Hd Hl]; constructor; auto; left; unfold is_digit; lia.
  - destruct Hf as [|l [_ Hl]]; constructor; auto.
  - destruct He as [|e l Hel [_ Hl]|e s l Hel Hsn [_ Hl]]; [constructor|constructor; auto|].
    constructor; auto.
Qed.
Lemma num_ends_sep t f c r : ~ (is_digit c \/ c = 46 \/ is_e c \/ c = 43 \/ c = 45) -> num_ends t f (c :: r).
Proof.
  intros Hc. split; [|discriminate]. intros c' r' x [= <- <-] H. apply number_bytes in H.
  rewrite Forall_app in H. destruct H as [_ H]. inversion H; subst. tauto.
Qed.
