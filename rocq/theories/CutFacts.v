(** How the pure functions depend on bytes that are not there yet: what they accept, where they refuse, and
    how an input that ends too early can be completed. *)
From Coq Require Import String ZArith List Bool Lia Arith.
From Verif Require Import Base ModelIter ModelStack ModelSkip Sim SimLib StackFacts Machine SimSkip Spec SpecCut NumFacts StrFacts MachineFacts GrammarFacts.
Import ListNotations.
Local Open Scope Z_scope.

Definition F0 : err := EIO 0.
Definition bad {A} (c : Z) (x : pres A) : Prop := exists e, x = PErr e /\ byteOf e = Some c.
Definition agrees (r x : bytes) : Prop := match r with [] => True | c :: _ => exists y, x = c :: y end.
Definition gd {A} (p : P A) (l : bytes) : Prop :=
  match p F0 l with
  | POk a r => exists u, l = u ++ r /\ forall f x, agrees r x -> p f (u ++ x) = POk a x
  | PErr e => (e = F0 /\ (forall n, p (EIO n) l = PErr (EIO n)) /\ (p EEOF l = PErr EEOF \/ exists a, p EEOF l = POk a [])) \/
              exists u c r, l = u ++ c :: r /\ p F0 u = PErr F0 /\ forall f s, bad c (p f (u ++ c :: s))
  end.
Definition good {A} (p : P A) : Prop := forall l, gd p l.

Lemma agrees_refl r : agrees r r.
Proof. destruct r; simpl; eauto. Qed.
Lemma agrees_app r s : agrees r (r ++ s).
Proof. destruct r; simpl; eauto. Qed.
Lemma bad_F0 {A} c : ~ bad c (@PErr A F0).
Proof. intros (e & [= <-] & H). discriminate. Qed.
Lemma gd_ext {A} (p q : P A) l : (forall f x, p f x = q f x) -> gd q l -> gd p l.
Proof.
  intros E. unfold gd. rewrite !E. destruct (q F0 l) as [a r|e].
  - intros (u & -> & H). exists u. split; auto. intros f x Hx. rewrite E. auto.
  - intros [(-> & N & H)|(u & c & r & -> & H & K)]; [left; split; auto; split; auto; intros; now rewrite E|].
    right. exists u, c, r. split; auto. rewrite E. split; auto. intros f s. rewrite E. auto.
Qed.
Lemma gd_cut {A} (p : P A) a u c r : good p -> p F0 (u ++ c :: r) = POk a (c :: r) ->
  p F0 u = PErr F0 \/ p F0 u = POk a [].
Proof.
  intros G H. specialize (G u). unfold gd in G. destruct (p F0 u) as [a' r'|e].
  - right. destruct G as (v & -> & G). rewrite <- app_assoc in H.
    rewrite (G F0 (r' ++ c :: r) (agrees_app _ _)) in H. injection H as -> E.
    apply (f_equal (@length Z)) in E. rewrite app_length in E. destruct r'; [auto|cbn [length] in E; lia].
  - left. destruct G as [[-> _]|(v & d & r' & -> & _ & G)]; auto. exfalso.
    rewrite <- app_assoc in H. simpl in H. destruct (G F0 (r' ++ c :: r)) as (e' & E & _). rewrite E in H. discriminate.
Qed.
Lemma gd_bind {A B} (p : P A) (q : A -> P B) l : good p -> (forall a r, p F0 l = POk a r -> gd (q a) r) ->
  (forall a, p F0 l = PErr F0 -> p EEOF l = POk a [] -> q a EEOF [] = PErr EEOF \/ exists b, q a EEOF [] = POk b []) ->
  gd (pbind p q) l.
Proof.
  intros G Q N. assert (GL := G l). unfold gd in GL |- *. unfold pbind. destruct (p F0 l) as [a r|e] eqn:E.
  - destruct GL as (u & -> & GL). specialize (Q a r eq_refl). unfold gd in Q. destruct (q a F0 r) as [b r'|e].
    + destruct Q as (v & -> & Q). exists (u ++ v). split; [now rewrite app_assoc|]. intros f x Hx. rewrite <- app_assoc.
      rewrite GL; [auto|]. destruct v; simpl; eauto.
    + destruct Q as [(-> & Qn & Q)|(v & c & r' & -> & Q & K)].
      * left. split; auto. split; [intros n; rewrite (GL (EIO n) r (agrees_refl r)); auto|]. rewrite (GL EEOF r (agrees_refl r)). auto.
      * right. exists (u ++ v), c, r'. split; [now rewrite app_assoc|]. split.
        -- destruct v as [|d v].
           ++ rewrite app_nil_r. destruct (gd_cut p a u c r' G E) as [-> | ->]; auto.
           ++ rewrite (GL F0 (d :: v)) by (simpl; eauto). auto.
        -- intros f s. rewrite <- app_assoc. rewrite (GL f (v ++ c :: s)) by (destruct v; simpl; eauto). auto.
  - destruct GL as [(-> & GN & [H|[a H]])|(u & c & r & -> & H & K)].
    + left. split; auto. split; [intros n; now rewrite GN|]. rewrite H. auto.
    + left. split; auto. split; [intros n; now rewrite GN|]. rewrite H. apply N; auto.
    + right. exists u, c, r. split; auto. rewrite H. split; auto. intros f s. destruct (K f s) as (e' & -> & B').
      exists e'. auto.
Qed.

(** functions that read byte by byte *)
Lemma gd_nil {A} (p : P A) : (forall n, p (EIO n) [] = PErr (EIO n)) -> (p EEOF [] = PErr EEOF \/ exists a, p EEOF [] = POk a []) -> gd p [].
Proof. intros H K. unfold gd, F0. rewrite H. auto. Qed.
Lemma gd_wrong {A} (p : P A) c l : p F0 [] = PErr F0 -> (forall f s, bad c (p f (c :: s))) -> gd p (c :: l).
Proof.
  intros H K. unfold gd. destruct (K F0 l) as (e & E & B). rewrite E. right. exists [], c, l. auto.
Qed.
Lemma gd_take {A} (p : P A) a c l : (forall f s, p f (c :: s) = POk a s) -> gd p (c :: l).
Proof. intros H. unfold gd. rewrite H. exists [c]. split; auto. intros. apply H. Qed.
Lemma gd_stay {A} (p : P A) a c l : (forall f s, p f (c :: s) = POk a (c :: s)) -> gd p (c :: l).
Proof. intros H. unfold gd. rewrite H. exists []. split; auto. intros f x [y ->]. apply H. Qed.
Lemma gd_step {A} (p q : P A) c l : (forall f s, p f (c :: s) = q f s) -> gd q l -> gd p (c :: l).
Proof.
  intros H G. unfold gd in *. rewrite !H. destruct (q F0 l) as [a r|e].
  - destruct G as (u & -> & G). exists (c :: u). split; auto. intros f x Hx. simpl. rewrite H. auto.
  - destruct G as [(-> & N & G)|(u & d & r & -> & G & K)]; [left; split; auto; split; auto; intros; now rewrite H|].
    right. exists (c :: u), d, r. split; auto. rewrite H. split; auto. intros f s. simpl. rewrite H. auto.
Qed.
Lemma gd_pret {A} (a : A) l : gd (pret a) l.
Proof. unfold gd, pret. exists []. split; auto. Qed.

Lemma good_peek : good p_peek.
Proof. intros [|c l]; [apply gd_nil; auto|apply gd_stay with c; auto]. Qed.
Lemma good_nextToken : good p_nextToken.
Proof.
  intros l. induction l as [|c l IH]; [apply gd_nil; auto|]. destruct (is_space c) eqn:E.
  - eapply gd_step; [|exact IH]. intros f s. rewrite p_nextToken_eq, E. reflexivity.
  - apply gd_stay with c. intros f s. rewrite p_nextToken_eq, E. reflexivity.
Qed.
Lemma good_takeToken : good p_takeToken.
Proof.
  intros l. induction l as [|c l IH]; [apply gd_nil; auto|]. destruct (is_space c) eqn:E.
  - eapply gd_step; [|exact IH]. intros f s. unfold p_takeToken, pbind. rewrite p_nextToken_eq, E. reflexivity.
  - apply gd_take with c. intros f s. unfold p_takeToken, pbind. rewrite p_nextToken_eq, E. reflexivity.
Qed.
Lemma take_end l a : p_takeToken F0 l = PErr F0 -> p_takeToken EEOF l = POk a [] -> False.
Proof.
  unfold p_takeToken, pbind. destruct (nextToken_cases F0 l) as [[W E]|(w & c & r & -> & Hw & Hc & E)]; rewrite E.
  - intros _. rewrite nextToken_end by auto. discriminate.
  - discriminate.
Qed.
Lemma good_expect s : s <> [] -> good (p_expectBytes s).
Proof.
  intros N l. revert s N. induction l as [|c l IH]; intros s N; [apply gd_nil; auto|]. destruct s as [|x s]; [congruence|].
  destruct (Z.eqb_spec c x) as [->|D].
  - destruct s as [|y s].
    + apply gd_take with tt. intros f r. rewrite p_expectBytes_eq, Z.eqb_refl. reflexivity.
    + eapply gd_step; [|apply (IH (y :: s)); discriminate]. intros f r. rewrite p_expectBytes_eq, Z.eqb_refl. reflexivity.
  - apply gd_wrong; [reflexivity|]. intros f r. rewrite p_expectBytes_eq. destruct (Z.eqb_spec c x); [congruence|]. eexists; split; reflexivity.
Qed.

(** ** numbers *)
Lemma good_expLoop : good p_skipExponentLoop.
Proof.
  intros l. induction l as [|c l IH]; [apply gd_nil; [reflexivity|right; exists tt; reflexivity]|].
  destruct (intDigits c =? invalidDigit) eqn:E.
  - apply gd_stay with tt. intros. now rewrite expLoop_eq, E.
  - eapply gd_step; [|exact IH]. intros. now rewrite expLoop_eq, E.
Qed.
Lemma expPart_eq f l : p_skipExponentPart f l =
  match l with
  | [] => PErr f
  | c0 :: r => if (c0 =? cPLUS) || (c0 =? cMINUS) then
                 match r with
                 | [] => PErr f
                 | c :: r' => if intDigits c =? invalidDigit then PErr (EInvalidDigit c) else p_skipExponentLoop f r'
                 end
               else if intDigits c0 =? invalidDigit then PErr (EInvalidDigit c0) else p_skipExponentLoop f r
  end.
Proof.
  unfold p_skipExponentPart, pbind, p_peek, p_inc, pret, pfail. destruct l as [|c0 r]; [reflexivity|]. cbn [tl].
  destruct ((c0 =? cPLUS) || (c0 =? cMINUS)).
  - destruct r as [|c r]; [reflexivity|]. cbn [tl]. destruct (intDigits c =? invalidDigit); reflexivity.
  - destruct (intDigits c0 =? invalidDigit); reflexivity.
Qed.
Definition digitThen (q : P unit) : P unit := fun f l =>
  match l with [] => PErr f | c :: r => if intDigits c =? invalidDigit then PErr (EInvalidDigit c) else q f r end.
Lemma good_digitThen q : good q -> good (digitThen q).
Proof.
  intros G [|c l]; [apply gd_nil; auto|]. destruct (intDigits c =? invalidDigit) eqn:E.
  - apply gd_wrong; [reflexivity|]. intros f s. unfold digitThen. rewrite E. eexists; split; reflexivity.
  - eapply gd_step; [|apply G]. intros f s. unfold digitThen. now rewrite E.
Qed.
Lemma good_expPart : good p_skipExponentPart.
Proof.
  intros [|c l]; [apply gd_nil; auto|]. destruct ((c =? cPLUS) || (c =? cMINUS)) eqn:E.
  - eapply (gd_step _ (digitThen p_skipExponentLoop)); [|apply good_digitThen, good_expLoop].
    intros f s. rewrite expPart_eq, E. reflexivity.
  - destruct (intDigits c =? invalidDigit) eqn:D.
    + apply gd_wrong; [reflexivity|]. intros f s. rewrite expPart_eq, E, D. eexists; split; reflexivity.
    + eapply gd_step; [|apply good_expLoop]. intros f s. rewrite expPart_eq, E, D. reflexivity.
Qed.
Lemma good_fracLoop : good p_skipFractionLoop.
Proof.
  intros l. induction l as [|c l IH]; [apply gd_nil; [reflexivity|right; exists tt; reflexivity]|].
  destruct (floatDigits c <? 0) eqn:E; [destruct (floatDigits c =? expInNumber) eqn:D|].
  - eapply gd_step; [|apply good_expPart]. intros. now rewrite fracLoop_eq, E, D.
  - apply gd_stay with tt. intros. now rewrite fracLoop_eq, E, D.
  - eapply gd_step; [|exact IH]. intros. now rewrite fracLoop_eq, E.
Qed.
Lemma fracPart_eq f l : p_skipFractionPart f l = digitThen p_skipFractionLoop f l.
Proof.
  unfold p_skipFractionPart, pbind, p_peek, p_inc, pfail, digitThen. destruct l as [|c r]; [reflexivity|].
  destruct (intDigits c =? invalidDigit); reflexivity.
Qed.
Lemma good_fracPart : good p_skipFractionPart.
Proof. intros l. eapply gd_ext; [intros; apply fracPart_eq|]. apply good_digitThen, good_fracLoop. Qed.
Lemma good_intLoop : good p_skipIntegerLoop.
Proof.
  intros l. induction l as [|c l IH]; [apply gd_nil; [reflexivity|right; exists tt; reflexivity]|].
  destruct (floatDigits c <? 0) eqn:E; [destruct (floatDigits c =? dotInNumber) eqn:H; [|destruct (floatDigits c =? expInNumber) eqn:D]|].
  - eapply gd_step; [|apply good_fracPart]. intros. now rewrite intLoop_eq, E, H.
  - eapply gd_step; [|apply good_expPart]. intros. now rewrite intLoop_eq, E, H, D.
  - apply gd_stay with tt. intros. now rewrite intLoop_eq, E, H, D.
  - eapply gd_step; [|exact IH]. intros. now rewrite intLoop_eq, E.
Qed.
Lemma zero_eq f l : p_unsigned cZERO f l =
  match l with
  | [] => if err_eqb_eof f then POk tt [] else PErr f
  | d :: r => if floatDigits d =? dotInNumber then p_skipFractionPart f r
              else if floatDigits d =? expInNumber then p_skipExponentPart f r else POk tt l
  end.
Proof.
  unfold p_unsigned. rewrite Z.eqb_refl. unfold pbind, p_peekOrEOF, p_inc. destruct l as [|d r].
  - destruct (err_eqb_eof f); reflexivity.
  - destruct (floatDigits d =? dotInNumber); [reflexivity|]. destruct (floatDigits d =? expInNumber); reflexivity.
Qed.
Lemma good_unsigned c : good (p_unsigned c).
Proof.
  destruct (Z.eqb_spec c cZERO) as [->|N].
  - intros [|d l]; [apply gd_nil; [reflexivity|right; exists tt; reflexivity]|].
    destruct (floatDigits d =? dotInNumber) eqn:H; [|destruct (floatDigits d =? expInNumber) eqn:D].
    + eapply gd_step; [|apply good_fracPart]. intros. now rewrite zero_eq, H.
    + eapply gd_step; [|apply good_expPart]. intros. now rewrite zero_eq, H, D.
    + apply gd_stay with tt. intros. now rewrite zero_eq, H, D.
  - intros l. apply (gd_ext _ p_skipIntegerLoop); [|apply good_intLoop]. intros f x. unfold p_unsigned.
    destruct (Z.eqb_spec c cZERO); congruence.
Qed.
Lemma good_number c : c = 45 \/ is_digit c -> good (p_skipNumber c).
Proof.
  intros [->|H].
  - intros [|c l]; [apply gd_nil; auto|]. destruct (intDigits c =? invalidDigit) eqn:E.
    + apply gd_wrong; [reflexivity|]. intros f s. rewrite skipNumber_minus, E. eexists; split; reflexivity.
    + eapply gd_step; [|apply (good_unsigned c)]. intros f s. now rewrite skipNumber_minus, E.
  - intros l. eapply gd_ext; [intros; now apply skipNumber_unsigned|]. apply good_unsigned.
Qed.

(** ** strings *)
Definition p_hexes (n : nat) : P unit := p_scan pb_su4 (fun _ => p_eof) n.
Lemma hexes_eq n f l : p_hexes n f l =
  match l with
  | [] => PErr f
  | c :: r => if hexValue c =? invalidHex then PErr (EInvalidUnicodeChar c)
              else match n with 1%nat => POk tt r | _ => p_hexes (n - 1) f r end
  end.
Proof.
  unfold p_hexes. destruct l as [|c l]; [reflexivity|]. rewrite p_scan_cons by apply presume_su4. unfold pb_su4 at 1.
  destruct (hexValue c =? invalidHex); [reflexivity|]. destruct n as [|[|n]]; reflexivity.
Qed.
Lemma good_hexes l : forall n, gd (p_hexes n) l.
Proof.
  induction l as [|c l IH]; intros n; [apply gd_nil; auto|]. destruct (hexValue c =? invalidHex) eqn:E.
  - apply gd_wrong; [reflexivity|]. intros f s. rewrite hexes_eq, E. eexists; split; reflexivity.
  - destruct n as [|[|n]].
    + eapply gd_step; [|apply (IH 0%nat)]. intros. now rewrite hexes_eq, E.
    + apply gd_take with tt. intros. now rewrite hexes_eq, E.
    + eapply gd_step; [|apply (IH (S n))]. intros. rewrite hexes_eq, E. simpl (_ - _)%nat. reflexivity.
Qed.
Lemma escaped_eq f l : p_skipEscapedChar f l =
  match l with
  | [] => PErr f
  | c :: r => if negb (escapeMap c =? noEscape) then POk tt r
              else if negb (c =? c_u) then PErr (EInvalidEscapeChar c) else p_hexes 4 f r
  end.
Proof.
  unfold p_skipEscapedChar, pbind, p_peek, p_inc, pfail. destruct l as [|c r]; [reflexivity|].
  destruct (negb (escapeMap c =? noEscape)); [reflexivity|]. destruct (negb (c =? c_u)); reflexivity.
Qed.
Lemma good_escaped : good p_skipEscapedChar.
Proof.
  intros [|c l]; [apply gd_nil; auto|]. destruct (negb (escapeMap c =? noEscape)) eqn:E; [|destruct (negb (c =? c_u)) eqn:D].
  - apply gd_take with tt. intros. now rewrite escaped_eq, E.
  - apply gd_wrong; [reflexivity|]. intros f s. rewrite escaped_eq, E, D. eexists; split; reflexivity.
  - eapply gd_step; [|apply (good_hexes l 4)]. intros. now rewrite escaped_eq, E, D.
Qed.
Lemma shrinks_lt {A} (p : P A) f l a r : shrinks p -> p f l = POk a r -> (length r <= length l)%nat.
Proof. intros S H. destruct (S _ _ _ _ H) as [u ->]. rewrite app_length. lia. Qed.
Lemma good_string : good p_skipString.
Proof.
  intros l. remember (length l) as n. revert l Heqn. induction n as [n IH] using lt_wf_ind. intros l ->.
  destruct l as [|c l]; [apply gd_nil; auto|].
  destruct (c =? cQUOTE) eqn:Q. { apply gd_take with tt. intros. now rewrite skipString_eq, Q. }
  destruct (c =? cBSLASH) eqn:S.
  - apply (gd_step _ (pbind p_skipEscapedChar (fun _ => p_skipString))). { intros. rewrite skipString_eq, Q, S. reflexivity. }
    apply gd_bind; [apply good_escaped| |].
    + intros a r E. apply shrinks_lt in E; [|apply shrinks_skipEscapedChar]. eapply IH; [|reflexivity]. cbn [length]. lia.
    + intros a _ _. left. reflexivity.
  - destruct (c <? cSPACE) eqn:C.
    + apply gd_wrong; [reflexivity|]. intros f s. rewrite skipString_eq, Q, S, C. eexists; split; reflexivity.
    + eapply gd_step; [|eapply IH; [|reflexivity]; cbn [length]; lia]. intros. now rewrite skipString_eq, Q, S, C.
Qed.
(** a token that is either refused or decides how to go on *)
Lemma gd_takeq {B} (q : Z -> P B) l :
  (forall c r, p_takeToken F0 l = POk c r -> (forall f s, bad c (q c f s)) \/ gd (q c) r) -> gd (pbind p_takeToken q) l.
Proof.
  induction l as [|c l IH]; intros H; [apply gd_nil; auto|].
  assert (T : forall f s, p_takeToken f (c :: s) = if is_space c then p_takeToken f s else POk c s).
  { intros f s. unfold p_takeToken, pbind. rewrite p_nextToken_eq. destruct (is_space c); reflexivity. }
  rewrite T in H. destruct (is_space c) eqn:E.
  - apply (gd_step _ (pbind p_takeToken q)); [|auto]. intros f s. unfold pbind. now rewrite T.
  - destruct (H c l eq_refl) as [K|K].
    + apply gd_wrong; [reflexivity|]. intros f s. unfold pbind. rewrite T. apply K.
    + apply (gd_step _ (q c)); auto. intros f s. unfold pbind. now rewrite T.
Qed.
Lemma bad_fail {A} c a b : forall (f : err) (s : bytes), @bad A c (pfail (EUnexpectedByte c a b) f s).
Proof. intros. eexists; split; reflexivity. Qed.
Definition colon : P unit := pbind p_takeToken (fun c => if negb (c =? cCOLON) then pfail (EUnexpectedByte c cCOLON 0) else pret tt).
Lemma good_colon : good colon.
Proof. intros l. apply gd_takeq. intros c r _. destruct (negb (c =? cCOLON)); [left; apply bad_fail|right; apply gd_pret]. Qed.
Lemma field_eq f l : p_skipObjectField f l = pbind p_skipString (fun _ => colon) f l.
Proof.
  unfold p_skipObjectField, colon, p_takeToken, pbind, p_inc, pret. destruct (p_skipString f l) as [[] r|]; [|reflexivity].
  destruct (p_nextToken f r) as [c r'|] eqn:E; [|reflexivity]. destruct (negb (c =? cCOLON)); reflexivity.
Qed.
Lemma string_end l a : p_skipString F0 l = PErr F0 -> p_skipString EEOF l = POk a [] -> False.
Proof.
  intros H K. destruct a. apply skipString_body in K. destruct K as (b & s & -> & us & Hb & _).
  rewrite (skipString_run _ _ us) in H by auto. discriminate.
Qed.
Lemma good_field : good p_skipObjectField.
Proof.
  intros l. eapply gd_ext; [intros; apply field_eq|]. apply gd_bind; [apply good_string|intros; apply good_colon|].
  intros a H K. destruct (string_end _ _ H K).
Qed.
Lemma good_leaf c : c <> 91 -> c <> 123 -> (forall f s, bad c (p_skipLeaf c f s)) \/ good (p_skipLeaf c).
Proof.
  intros _ _. unfold p_skipLeaf. destruct (c =? cQUOTE); [right; apply good_string|].
  destruct (c =? c_n); [right; apply good_expect; discriminate|].
  destruct (c =? c_t); [right; apply good_expect; discriminate|].
  destruct (c =? c_f); [right; apply good_expect; discriminate|].
  destruct ((c =? cMINUS) || ((cZERO <=? c) && (c <=? cNINE))) eqn:E; [|left; apply bad_fail].
  right. apply good_number. unfold is_digit. lia.
Qed.

(** ** Completions *)
Definition cp {A} (R : bytes -> Prop) (p : P A) (l : bytes) : Prop :=
  p F0 l = PErr F0 -> exists s a, forall rest, R rest -> p F0 (l ++ s ++ rest) = POk a rest.
Definition anyR (_ : bytes) : Prop := True.
Lemma cp_ext {A} R (p q : P A) l : (forall f x, p f x = q f x) -> cp R q l -> cp R p l.
Proof. intros E H K. rewrite E in K. destruct (H K) as (s & a & G). exists s, a. intros. rewrite E. auto. Qed.
Lemma cp_step {A} R (p q : P A) c l : (forall f s, p f (c :: s) = q f s) -> cp R q l -> cp R p (c :: l).
Proof. intros E H K. rewrite E in K. destruct (H K) as (s & a & G). exists s, a. intros. simpl. rewrite E. auto. Qed.
Lemma cp_nil {A} (R : bytes -> Prop) (p : P A) s a : (forall rest, R rest -> p F0 (s ++ rest) = POk a rest) -> cp R p [].
Proof. intros H _. exists s, a. auto. Qed.
Lemma cp_not {A} R (p : P A) l : p F0 l <> PErr F0 -> cp R p l.
Proof. intros H K. congruence. Qed.
Lemma cp_bind {A B} R (p : P A) (q : A -> P B) l : good p -> (forall a r, p F0 l = POk a r -> cp R (q a) r) ->
  (p F0 l = PErr F0 -> exists s a s2 b, forall rest, R rest -> p F0 (l ++ s ++ s2 ++ rest) = POk a (s2 ++ rest) /\ q a F0 (s2 ++ rest) = POk b rest) ->
  cp R (pbind p q) l.
Proof.
  intros G Q N. assert (GL := G l). unfold gd in GL. unfold cp, pbind. destruct (p F0 l) as [a r|e] eqn:E.
  - destruct GL as (u & -> & GL). intros K. destruct (Q a r eq_refl K) as (s & b & H). exists s, b. intros rest HR.
    rewrite <- app_assoc. rewrite GL by apply agrees_app. auto.
  - intros [= ->]. destruct (N eq_refl) as (s & a & s2 & b & H). exists (s ++ s2), b. intros rest HR.
    rewrite <- (app_assoc s). destruct (H rest HR) as [-> ->]. reflexivity.
Qed.
Lemma cp_takeq {B} R (q : Z -> P B) l : (forall c r, p_takeToken F0 l = POk c r -> cp R (q c) r) ->
  (exists c s b, ~ is_ws c /\ forall rest, R rest -> q c F0 (s ++ rest) = POk b rest) -> cp R (pbind p_takeToken q) l.
Proof.
  intros H (c & s & b & Hc & K). apply cp_bind; [apply good_takeToken|auto|]. intros E. exists [c], c, s, b. intros rest HR.
  split; auto. destruct (nextToken_cases F0 l) as [[W _]|(w & d & r & -> & Hw & Hd & N)].
  - now apply takeToken_run.
  - rewrite takeToken_run in E by auto. discriminate.
Qed.
Lemma cp_any {A} R (p : P A) l : cp anyR p l -> cp R p l.
Proof. intros H K. destruct (H K) as (s & a & G). exists s, a. intros. apply G. exact I. Qed.

Lemma cp_expect s : s <> [] -> forall l, cp anyR (p_expectBytes s) l.
Proof.
  intros N l. revert s N. induction l as [|c l IH]; intros s N.
  - apply (cp_nil _ _ s tt). intros rest _. now apply p_expectBytes_ok.
  - destruct s as [|x s]; [congruence|]. destruct (Z.eqb_spec c x) as [->|D].
    + destruct s as [|y s].
      * apply cp_not. rewrite p_expectBytes_eq, Z.eqb_refl. discriminate.
      * eapply cp_step; [|apply (IH (y :: s)); discriminate]. intros f r. rewrite p_expectBytes_eq, Z.eqb_refl. reflexivity.
    + apply cp_not. rewrite p_expectBytes_eq. destruct (Z.eqb_spec c x); [congruence|discriminate].
Qed.
Lemma sep_nodigit rest : sep rest -> exists c r, rest = c :: r /\ ~ is_digit c /\ c <> 46 /\ ~ is_e c.
Proof. intros (c & r & -> & H). exists c, r. split; auto. unfold is_digit, is_e, is_ws in *. lia. Qed.
Lemma expLoop_sep rest : sep rest -> p_skipExponentLoop F0 rest = POk tt rest.
Proof. intros H. destruct (sep_nodigit _ H) as (c & r & -> & D & _). rewrite expLoop_eq. now rewrite intDigits_nodigit. Qed.
Lemma cp_expLoop l : cp sep p_skipExponentLoop l.
Proof.
  induction l as [|c l IH]; [apply (cp_nil _ _ [] tt); exact expLoop_sep|].
  destruct (intDigits c =? invalidDigit) eqn:E.
  - apply cp_not. rewrite expLoop_eq, E. discriminate.
  - eapply cp_step; [|exact IH]. intros. now rewrite expLoop_eq, E.
Qed.
Lemma cp_digitThen q : (forall l, cp sep q l) -> (forall rest, sep rest -> q F0 rest = POk tt rest) -> forall l, cp sep (digitThen q) l.
Proof.
  intros H K [|c l].
  - apply (cp_nil _ _ [48] tt). intros rest HR. unfold digitThen. simpl app. cbv iota. rewrite K by auto. reflexivity.
  - destruct (intDigits c =? invalidDigit) eqn:E.
    + apply cp_not. unfold digitThen. rewrite E. discriminate.
    + eapply cp_step; [|apply H]. intros. unfold digitThen. now rewrite E.
Qed.
Lemma cp_expPart l : cp sep p_skipExponentPart l.
Proof.
  destruct l as [|c l].
  - apply (cp_nil _ _ [48] tt). intros rest HR. rewrite expPart_eq. simpl app. cbv iota. apply expLoop_sep; auto.
  - destruct ((c =? cPLUS) || (c =? cMINUS)) eqn:E.
    + eapply (cp_step _ _ (digitThen p_skipExponentLoop)); [|apply cp_digitThen; [apply cp_expLoop|apply expLoop_sep]].
      intros f s. rewrite expPart_eq, E. reflexivity.
    + destruct (intDigits c =? invalidDigit) eqn:D.
      * apply cp_not. rewrite expPart_eq, E, D. discriminate.
      * eapply cp_step; [|apply cp_expLoop]. intros f s. rewrite expPart_eq, E, D. reflexivity.
Qed.
Lemma fracLoop_sep rest : sep rest -> p_skipFractionLoop F0 rest = POk tt rest.
Proof. intros H. destruct (sep_nodigit _ H) as (c & r & -> & D). rewrite fracLoop_eq. rewrite fd_other by tauto. reflexivity. Qed.
Lemma cp_fracLoop l : cp sep p_skipFractionLoop l.
Proof.
  induction l as [|c l IH]; [apply (cp_nil _ _ [] tt); exact fracLoop_sep|].
  destruct (floatDigits c <? 0) eqn:E; [destruct (floatDigits c =? expInNumber) eqn:D|].
  - eapply cp_step; [|apply cp_expPart]. intros. now rewrite fracLoop_eq, E, D.
  - apply cp_not. rewrite fracLoop_eq, E, D. discriminate.
  - eapply cp_step; [|exact IH]. intros. now rewrite fracLoop_eq, E.
Qed.
Lemma cp_fracPart l : cp sep p_skipFractionPart l.
Proof. eapply cp_ext; [intros; apply fracPart_eq|]. apply cp_digitThen; [apply cp_fracLoop|apply fracLoop_sep]. Qed.
Lemma intLoop_sep rest : sep rest -> p_skipIntegerLoop F0 rest = POk tt rest.
Proof. intros H. destruct (sep_nodigit _ H) as (c & r & -> & D). rewrite intLoop_eq. rewrite fd_other by tauto. reflexivity. Qed.
Lemma cp_intLoop l : cp sep p_skipIntegerLoop l.
Proof.
  induction l as [|c l IH]; [apply (cp_nil _ _ [] tt); exact intLoop_sep|].
  destruct (floatDigits c <? 0) eqn:E; [destruct (floatDigits c =? dotInNumber) eqn:H; [|destruct (floatDigits c =? expInNumber) eqn:D]|].
  - eapply cp_step; [|apply cp_fracPart]. intros. now rewrite intLoop_eq, E, H.
  - eapply cp_step; [|apply cp_expPart]. intros. now rewrite intLoop_eq, E, H, D.
  - apply cp_not. rewrite intLoop_eq, E, H, D. discriminate.
  - eapply cp_step; [|exact IH]. intros. now rewrite intLoop_eq, E.
Qed.
Lemma unsigned_sep c rest : sep rest -> p_unsigned c F0 rest = POk tt rest.
Proof.
  intros HR. destruct (Z.eqb_spec c cZERO) as [->|N].
  - destruct (sep_nodigit _ HR) as (d & r & -> & D). rewrite zero_eq, fd_other by tauto. reflexivity.
  - unfold p_unsigned. destruct (Z.eqb_spec c cZERO); [congruence|]. now apply intLoop_sep.
Qed.
Lemma cp_unsigned c l : cp sep (p_unsigned c) l.
Proof.
  destruct l as [|d l]; [apply (cp_nil _ _ [] tt); apply unsigned_sep|]. destruct (Z.eqb_spec c cZERO) as [->|N].
  - destruct (floatDigits d =? dotInNumber) eqn:H; [|destruct (floatDigits d =? expInNumber) eqn:D].
    + eapply cp_step; [|apply cp_fracPart]. intros. now rewrite zero_eq, H.
    + eapply cp_step; [|apply cp_expPart]. intros. now rewrite zero_eq, H, D.
    + apply cp_not. rewrite zero_eq, H, D. discriminate.
  - apply (cp_ext _ _ p_skipIntegerLoop); [|apply cp_intLoop]. intros f x. unfold p_unsigned.
    destruct (Z.eqb_spec c cZERO); congruence.
Qed.
Lemma cp_number c l : c = 45 \/ is_digit c -> cp sep (p_skipNumber c) l.
Proof.
  intros [->|H].
  - destruct l as [|c l].
    + apply (cp_nil _ _ [48] tt). intros rest HR. rewrite skipNumber_minus. simpl app. cbv iota. exact (unsigned_sep 48 rest HR).
    + destruct (intDigits c =? invalidDigit) eqn:E.
      * apply cp_not. rewrite skipNumber_minus, E. discriminate.
      * eapply cp_step; [|apply (cp_unsigned c)]. intros f s. now rewrite skipNumber_minus, E.
  - eapply cp_ext; [intros; now apply skipNumber_unsigned|]. apply cp_unsigned.
Qed.
Lemma hexes_zeros n : forall rest, p_hexes (S n) F0 (repeat 48 (S n) ++ rest) = POk tt rest.
Proof. induction n as [|n IH]; intros rest; rewrite hexes_eq; [reflexivity|]. exact (IH rest). Qed.
Lemma cp_hexes l : forall n, cp anyR (p_hexes (S n)) l.
Proof.
  induction l as [|c l IH]; intros n; [apply (cp_nil _ _ (repeat 48 (S n)) tt); intros; apply hexes_zeros|].
  destruct (hexValue c =? invalidHex) eqn:E.
  - apply cp_not. rewrite hexes_eq, E. discriminate.
  - destruct n as [|n].
    + apply cp_not. rewrite hexes_eq, E. discriminate.
    + eapply cp_step; [|apply (IH n)]. intros. rewrite hexes_eq, E. simpl (_ - _)%nat. reflexivity.
Qed.
Lemma cp_escaped l : cp anyR p_skipEscapedChar l.
Proof.
  destruct l as [|c l]; [apply (cp_nil _ _ [110] tt); reflexivity|].
  destruct (negb (escapeMap c =? noEscape)) eqn:E; [|destruct (negb (c =? c_u)) eqn:D].
  - apply cp_not. rewrite escaped_eq, E. discriminate.
  - apply cp_not. rewrite escaped_eq, E, D. discriminate.
  - eapply cp_step; [|apply (cp_hexes l 3)]. intros. now rewrite escaped_eq, E, D.
Qed.
Lemma cp_string l : cp anyR p_skipString l.
Proof.
  remember (length l) as n. revert l Heqn. induction n as [n IH] using lt_wf_ind. intros l ->.
  destruct l as [|c l]; [apply (cp_nil _ _ [34] tt); reflexivity|].
  destruct (c =? cQUOTE) eqn:Q. { apply cp_not. rewrite skipString_eq, Q. discriminate. }
  destruct (c =? cBSLASH) eqn:S.
  - apply (cp_step _ _ (pbind p_skipEscapedChar (fun _ => p_skipString))). { intros. rewrite skipString_eq, Q, S. reflexivity. }
    apply cp_bind; [apply good_escaped| |].
    + intros a r E. apply shrinks_lt in E; [|apply shrinks_skipEscapedChar]. eapply IH; [|reflexivity]. cbn [length]. lia.
    + intros E. destruct (cp_escaped l E) as (s & a & H). exists s, a, [34], tt. intros rest _. split; [apply H; exact I|reflexivity].
  - destruct (c <? cSPACE) eqn:C.
    + apply cp_not. rewrite skipString_eq, Q, S, C. discriminate.
    + eapply cp_step; [|eapply IH; [|reflexivity]; cbn [length]; lia]. intros. now rewrite skipString_eq, Q, S, C.
Qed.
Lemma cp_field l : cp anyR p_skipObjectField l.
Proof.
  eapply cp_ext; [intros; apply field_eq|]. apply cp_bind; [apply good_string| |].
  - intros a r _. apply cp_takeq.
    + intros c r' _. apply cp_not. destruct (negb (c =? cCOLON)); discriminate.
    + exists 58, [], tt. split; [unfold is_ws; lia|]. reflexivity.
  - intros E. destruct (cp_string l E) as (s & a & H). exists s, a, [58], tt. intros rest _. split; [apply H; exact I|reflexivity].
Qed.
Lemma cp_leaf c l : c <> 91 -> c <> 123 -> cp sep (p_skipLeaf c) l.
Proof.
  intros _ _. unfold p_skipLeaf. destruct (c =? cQUOTE); [apply cp_any, cp_string|].
  destruct (c =? c_n); [apply cp_any, cp_expect; discriminate|].
  destruct (c =? c_t); [apply cp_any, cp_expect; discriminate|].
  destruct (c =? c_f); [apply cp_any, cp_expect; discriminate|].
  destruct ((c =? cMINUS) || ((cZERO <=? c) && (c <=? cNINE))) eqn:E; [|apply cp_not; discriminate].
  apply cp_number. unfold is_digit. lia.
Qed.
