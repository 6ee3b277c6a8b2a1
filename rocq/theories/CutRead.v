(** Read and the functions for strings end where the functions that skip do: with the same rest, the same error at the end of
    the input, an error that names the same byte.  Without UseNumber a number can also be refused by strconv. *)
From Coq Require Import String ZArith List Bool Lia Arith.
From Verif Require Import Base ModelIter ModelStack ModelSkip ModelStr ModelFloat ModelRead Sim SimLib StackFacts Machine SimSkip SimRaw SimStr SimFloat SimRead
  Spec SpecCut NumFacts StrFacts FloatFacts MachineFacts GrammarFacts CutFacts.
Import ListNotations.
Local Open Scope Z_scope.

Definition slip {A} (b : bool) (x : pres A) : Prop := b = false /\ exists n, x = PErr (EParseFloat n).
Definition echo {A B} (b : bool) (x : pres A) (y : pres B) : Prop :=
  slip b x \/
  match x, y with
  | POk _ r, POk _ r' => r = r'
  | PErr e, PErr e' => e = e' \/ exists c, byteOf e = Some c /\ byteOf e' = Some c
  | _, _ => False
  end.
Lemma echo_ok {A B} b (x : A) (y : B) r : echo b (POk x r) (POk y r).
Proof. right. reflexivity. Qed.
Lemma echo_err {A B} b e : echo b (@PErr A e) (@PErr B e).
Proof. right. left. reflexivity. Qed.
Lemma echo_bad {A B} b c e e' : byteOf e = Some c -> byteOf e' = Some c -> echo b (@PErr A e) (@PErr B e').
Proof. right. right. eauto. Qed.
Lemma echo_bind {A B A' B'} b (p : P A) (q : A -> P B) (p' : P A') (q' : A' -> P B') f l :
  echo b (p f l) (p' f l) -> (forall a a' r, p f l = POk a r -> p' f l = POk a' r -> echo b (q a f r) (q' a' f r)) ->
  echo b (pbind p q f l) (pbind p' q' f l).
Proof.
  intros H K. unfold pbind. destruct (p f l) as [a r|e] eqn:E.
  - destruct H as [[_ [n H]]|H]; [discriminate|]. destruct (p' f l) as [a' r'|e']; [|contradiction]. subst. auto.
  - destruct H as [[Hb [n [= ->]]]|H]; [left; split; eauto|]. destruct (p' f l) as [a' r'|e']; [contradiction|]. right. exact H.
Qed.
Lemma echo_same {A B B'} b (p : P A) (q : A -> P B) (q' : A -> P B') f l :
  (forall a r, p f l = POk a r -> echo b (q a f r) (q' a f r)) -> echo b (pbind p q f l) (pbind p q' f l).
Proof. intros K. unfold pbind. destruct (p f l) as [a r|e] eqn:E; [auto|apply echo_err]. Qed.
Lemma echo_left {A B D} b (x : pres A) (y : pres D) (g : A -> P B) f :
  echo b x y -> (forall a r, echo b (g a f r) (@POk unit tt r)) -> echo b (match x with POk a r => g a f r | PErr e => PErr e end) y.
Proof.
  intros H K. destruct x as [a r|e].
  - destruct H as [[_ [n H]]|H]; [discriminate|]. destruct y as [d r'|e']; [|contradiction]. subst.
    destruct (K a r') as [K'|K']; [left; exact K'|]. right. destruct (g a f r'); exact K'.
  - destruct H as [[Hb [n [= ->]]]|H]; [left; split; eauto|]. right. exact H.
Qed.

(** ** strings *)
Lemma hexes_echo f l : forall n r, echo true (p_scan pb_u4 (fun _ => p_eof) (n, r) f l) (p_hexes n f l).
Proof.
  induction l as [|c l IH]; intros n r; [apply echo_err|]. rewrite p_scan_cons by apply presume_u4. rewrite hexes_eq. unfold pb_u4 at 1.
  destruct (hexValue c =? invalidHex); [apply echo_err|]. destruct n as [|[|n]]; [apply IH|apply echo_ok|apply IH].
Qed.
Lemma u4_echo f l : echo true (p_readU4 f l) (p_hexes 4 f l).
Proof. apply (hexes_echo f l 4%nat 0). Qed.
Lemma string_echo n : forall buf f l, (length l < n)%nat -> echo true (p_string buf f l) (p_skipString f l).
Proof.
  induction n as [|n IH]; intros buf f l Hl; [lia|]. rewrite string_eq, skipString_eq.
  destruct l as [|c l]; [apply echo_err|]. cbn [length] in Hl. destruct (Z.ltb_spec c cSPACE) as [Lt|Ge].
  { destruct (Z.eqb_spec c cQUOTE); [lia|]. destruct (Z.eqb_spec c cBSLASH); [lia|]. apply echo_err. }
  destruct (c =? cQUOTE); [apply echo_ok|]. destruct (c =? cBSLASH); [|apply IH; lia].
  rewrite readEscaped_eq, escaped_eq. destruct l as [|d l]; [apply echo_err|]. cbn [length] in Hl.
  destruct (negb (escapeMap d =? noEscape)); [apply IH; lia|]. destruct (negb (d =? c_u)); [apply echo_err|].
  assert (S : forall m b u x, (length x < n)%nat -> (length x < m)%nat ->
    echo true (match p_readSurrogate m b u f x with POk t r => p_string t f r | PErr e => PErr e end) (p_skipString f x)).
  { clear Hl l. induction m as [|m IHm]; intros b u x Hx Hm; [lia|]. rewrite surr_eq.
    destruct (utf16_IsSurrogate u); [|now apply IH]. destruct x as [|c1 x]; [rewrite skipString_eq; apply echo_err|].
    destruct (Z.eqb_spec c1 cBSLASH) as [->|Ne]; cbn [negb]; [|now apply IH]. rewrite skipString_eq. simpl (cBSLASH =? _). cbv iota.
    rewrite escaped_eq. destruct x as [|c2 x]; [apply echo_err|]. cbn [length] in Hx, Hm.
    destruct (Z.eqb_spec c2 c_u) as [->|Nu]; cbn [negb].
    - change (escapeMap c_u =? noEscape) with true. cbn [negb]. assert (U := u4_echo f x). destruct (p_readU4 f x) as [v x'|e] eqn:Eu.
      + destruct U as [[U _]|U]; [discriminate|]. destruct (p_hexes 4 f x) as [[] x''|]; [subst x''|contradiction].
        assert (Lx : (length x' <= length x)%nat). { apply readU4_inv in Eu. destruct Eu as (h & _ & ->). rewrite app_length. lia. }
        destruct (utf16_DecodeRune u v =? runeError); [apply IHm; lia|apply IH; lia].
      + destruct U as [[U _]|U]; [discriminate|]. destruct (p_hexes 4 f x); [contradiction|]. right. exact U.
    - destruct (escapeMap c2 =? noEscape); cbn [negb]; [apply echo_err|apply IH; lia]. }
  assert (U := u4_echo f l). destruct (p_readU4 f l) as [v x'|e] eqn:Eu.
  - destruct U as [[U _]|U]; [discriminate|]. destruct (p_hexes 4 f l) as [[] x''|]; [subst x''|contradiction].
    assert (Lx : (length x' <= length l)%nat). { apply readU4_inv in Eu. destruct Eu as (h & _ & ->). rewrite app_length. lia. }
    apply S; lia.
  - destruct U as [[U _]|U]; [discriminate|]. destruct (p_hexes 4 f l); [contradiction|]. right. exact U.
Qed.
Lemma echo_weak {A B} b (x : pres A) (y : pres B) : echo true x y -> echo b x y.
Proof. intros [[H _]|H]; [discriminate|right; exact H]. Qed.
Lemma str_echo b buf f l : echo b (p_string buf f l) (p_skipString f l).
Proof. apply echo_weak, (string_echo (S (length l))). lia. Qed.

(** ** containers *)
Section Machines.
Context {V K SA SO V' K' SA' SO' : Type}.
Variable b : bool.
Variable X : alg V K SA SO.
Variable Y : alg V' K' SA' SO'.
Hypothesis leafE : forall c f l, echo b (leaf X c f l) (leaf Y c f l).
Hypothesis fieldE : forall f l, echo b (field X f l) (field Y f l).
Hypothesis arrE : forall c, byteOf (arrErr X c) = Some c /\ byteOf (arrErr Y c) = Some c.
Lemma sepThen_echo {B B'} (q : Z -> P B) (q' : Z -> P B') (first : bool) c0 f l : (forall c r, echo b (q c f r) (q' c f r)) ->
  echo b (pbind (if negb first then if negb (c0 =? cCOMMA) then pfail (EUnexpectedByte c0 cCOMMA 0) else p_takeToken else pret c0) q f l)
         (pbind (if negb first then if negb (c0 =? cCOMMA) then pfail (EUnexpectedByte c0 cCOMMA 0) else p_takeToken else pret c0) q' f l).
Proof. intros H. apply echo_same. auto. Qed.
Lemma loop_echo n f : forall l first a a' stk stk', is_arr a = is_arr a' -> kinds stk = kinds stk' ->
  echo b (p_loop X n first a stk f l) (p_loop Y n first a' stk' f l).
Proof.
  induction n as [|n IH]; intros l first a a' stk stk' Ea Es; [apply echo_err|]. cbn [p_loop]. apply echo_same. intros c0 r _.
  destruct a as [s|s], a' as [s'|s']; try discriminate Ea.
  - destruct (c0 =? cRBRACK).
    { destruct stk as [|[k x] stk], stk' as [|[k' x'] stk']; try discriminate Es; [apply echo_ok|]. injection Es as Ex Es.
      apply IH; auto. destruct x, x'; try discriminate Ex; reflexivity. }
    apply sepThen_echo. intros c r'. destruct (c =? cLBRACK); [apply IH; auto; unfold kinds in *; cbn; now rewrite Es|].
    destruct (c =? cLBRACE); [apply IH; auto; unfold kinds in *; cbn; now rewrite Es|].
    apply echo_bind; [apply leafE|]. intros v v' r2 _ _. apply IH; auto.
  - destruct (c0 =? cRBRACE).
    { destruct stk as [|[k x] stk], stk' as [|[k' x'] stk']; try discriminate Es; [apply echo_ok|]. injection Es as Ex Es.
      apply IH; auto. destruct x, x'; try discriminate Ex; reflexivity. }
    apply sepThen_echo. intros c r'. destruct (negb (c =? cQUOTE)); [apply echo_err|].
    apply echo_bind; [apply fieldE|]. intros k k' r2 _ _. apply echo_same. intros d r3 _.
    destruct (d =? cLBRACK); [apply IH; auto; unfold kinds in *; cbn; now rewrite Es|].
    destruct (d =? cLBRACE); [apply IH; auto; unfold kinds in *; cbn; now rewrite Es|].
    apply echo_bind; [apply leafE|]. intros v v' r4 _ _. apply IH; auto.
Qed.
Lemma arrLoop_echo n f : forall l c s s', echo b (p_arrLoop X n c s f l) (p_arrLoop Y n c s' f l).
Proof.
  induction n as [|n IH]; intros l c s s'; [apply echo_err|]. cbn [p_arrLoop].
  destruct (c =? cLBRACE); [now apply loop_echo|]. destruct (c =? cLBRACK); [now apply loop_echo|].
  apply echo_bind; [apply leafE|]. intros v v' r2 _ _. apply echo_same. intros d r3 _. destruct (d =? cRBRACK); [apply echo_ok|].
  destruct (negb (d =? cCOMMA)); [apply (echo_bad _ d); apply arrE|]. apply echo_same. intros; apply IH.
Qed.
Lemma objLoop_echo n f : forall l c s s', echo b (p_objLoop X n c s f l) (p_objLoop Y n c s' f l).
Proof.
  induction n as [|n IH]; intros l c s s'; [apply echo_err|]. cbn [p_objLoop].
  destruct (negb (c =? cQUOTE)); [apply echo_err|]. apply echo_same. intros _ r1 _. apply echo_bind; [apply fieldE|]. intros k k' r2 _ _.
  apply echo_same. intros d r3 _. destruct (d =? cLBRACE); [now apply loop_echo|]. destruct (d =? cLBRACK); [now apply loop_echo|].
  apply echo_bind; [apply leafE|]. intros v v' r4 _ _. apply echo_same. intros e r5 _. destruct (e =? cRBRACE); [apply echo_ok|].
  destruct (negb (e =? cCOMMA)); [apply echo_err|]. apply echo_same. intros; apply IH.
Qed.
Lemma value_echo c f l : echo b (p_value X c f l) (p_value Y c f l).
Proof.
  unfold p_value. destruct (c =? cLBRACK); [|destruct (c =? cLBRACE); [|apply leafE]]; apply echo_same.
  - intros d r _. destruct (d =? cRBRACK); [apply echo_ok|apply arrLoop_echo].
  - intros d r _. destruct (d =? cRBRACE); [apply echo_ok|apply objLoop_echo].
Qed.
End Machines.

(** ** numbers *)
Section Read.
Variable F : floatOps.
Lemma parse_echo buf f l : echo false (p_parseFloat F buf f l) (POk tt l).
Proof. unfold p_parseFloat. destruct (fl_parse F buf) as [x|n]; [apply echo_ok|left; split; [reflexivity|exists n; reflexivity]]. Qed.
Lemma end_echo buf f : echo false (p_eofReturn (p_parseFloat F) buf f []) (p_ret0 tt f []).
Proof. unfold p_eofReturn, p_ret0, p_eofReturn. destruct (err_eqb_eof f); [apply parse_echo|apply echo_err]. Qed.
Lemma expLoop_echo f l : forall buf, echo false (p_readExponentLoop F buf f l) (p_skipExponentLoop f l).
Proof.
  induction l as [|c l IH]; intros buf; rewrite rexpLoop_eq, expLoop_eq; [apply end_echo|].
  destruct (intDigits c =? invalidDigit); [apply parse_echo|apply IH].
Qed.
Lemma expPart_echo f l buf : echo false (p_readFloatExponentPart F buf f l) (p_skipExponentPart f l).
Proof.
  unfold p_readFloatExponentPart, p_skipExponentPart. apply echo_same. intros c0 r _. apply echo_same. intros _ r' _.
  destruct ((c0 =? cPLUS) || (c0 =? cMINUS)).
  - unfold pbind, p_peek, p_inc. destruct r' as [|c1 x]; [apply echo_err|]. cbn [tl pret]. unfold pret. destruct (intDigits c1 =? invalidDigit).
    + apply (echo_bad _ c1); reflexivity.
    + apply expLoop_echo.
  - unfold pbind, pret. destruct (intDigits c0 =? invalidDigit); [apply (echo_bad _ c0); reflexivity|apply expLoop_echo].
Qed.
Lemma fracLoop_echo f l : forall buf, echo false (p_readFractionLoop F buf f l) (p_skipFractionLoop f l).
Proof.
  induction l as [|c l IH]; intros buf; rewrite rfracLoop_eq, fracLoop_eq; [apply end_echo|].
  destruct (floatDigits c <? 0); [|apply IH]. destruct (floatDigits c =? expInNumber); [apply expPart_echo|apply parse_echo].
Qed.
Lemma fracPart_echo f l buf : echo false (p_readFloatFractionPart F buf f l) (p_skipFractionPart f l).
Proof.
  apply echo_same. intros c r _. destruct (intDigits c =? invalidDigit); [apply (echo_bad _ c); reflexivity|].
  apply echo_same. intros _ r' _. apply fracLoop_echo.
Qed.
Lemma intLoop_echo f l : forall buf, echo false (p_readIntegerLoop F buf f l) (p_skipIntegerLoop f l).
Proof.
  induction l as [|c l IH]; intros buf; rewrite rintLoop_eq, intLoop_eq; [apply end_echo|].
  destruct (floatDigits c <? 0); [|apply IH]. destruct (floatDigits c =? dotInNumber); [apply fracPart_echo|].
  destruct (floatDigits c =? expInNumber); [apply expPart_echo|apply parse_echo].
Qed.
Lemma positive_echo c f l : intDigits c =? invalidDigit = false -> echo false (p_readPositiveFloat F c f l) (p_unsigned c f l).
Proof.
  intros D. unfold p_readPositiveFloat, p_unsigned. rewrite D. replace (intDigits c =? 0) with (c =? cZERO).
  - destruct (c =? cZERO); [|apply intLoop_echo]. apply echo_same. intros [d|] r _; [|apply echo_ok].
    destruct (floatDigits d =? dotInNumber); [apply echo_same; intros; apply fracPart_echo|].
    destruct (floatDigits d =? expInNumber); [apply echo_same; intros; apply expPart_echo|apply echo_ok].
  - unfold intDigits in *. destruct ((48 <=? c) && (c <=? 57)) eqn:B; [lia|discriminate].
Qed.
Lemma float_echo c f l : c = 45 \/ is_digit c -> echo false (p_readFloat F c f l) (p_skipNumber c f l).
Proof.
  intros [->|H].
  - rewrite skipNumber_minus. unfold p_readFloat. simpl (45 =? cMINUS). cbv iota. unfold pbind at 1, p_peek. destruct l as [|c l]; [apply echo_err|].
    unfold pbind at 1, p_inc. cbn [tl]. destruct (intDigits c =? invalidDigit) eqn:D.
    + unfold pbind, p_readPositiveFloat. rewrite D. apply (echo_bad _ c); reflexivity.
    + unfold pbind. apply (echo_left _ _ _ (fun a => pret (fl_neg F a))); [now apply positive_echo|]. intros; apply echo_ok.
  - rewrite skipNumber_unsigned by auto. unfold p_readFloat. replace (c =? cMINUS) with false by (unfold is_digit in H; lia).
    apply positive_echo. now apply intDigits_digit.
Qed.

(** ** values *)
Variable b : bool.
Lemma leaf_echo c f l : echo b (leaf (readAlg F b) c f l) (leaf skipAlg c f l).
Proof.
  cbn [leaf readAlg skipAlg]. unfold p_readLeaf, p_skipLeaf.
  assert (E : forall {A} s (v : A), echo b (pbind (p_expectBytes s) (fun _ => pret v) f l) (p_expectBytes s f l)).
  { intros A s v. unfold pbind. destruct (p_expectBytes s f l) as [[] r|e]; [apply echo_ok|apply echo_err]. }
  destruct (c =? cQUOTE).
  { apply (echo_left _ _ _ (fun a => pret (GString a))); [apply str_echo|intros; apply echo_ok]. }
  destruct (c =? c_n); [apply E|]. destruct (c =? c_t); [apply E|]. destruct (c =? c_f); [apply E|].
  destruct ((c =? cMINUS) || ((cZERO <=? c) && (c <=? cNINE))) eqn:N; [|apply echo_err].
  unfold p_readNumberValue. destruct b.
  - unfold p_readNumberAsString, p_captured, pbind. destruct (p_skipNumber c f l) as [x r|e]; [apply echo_ok|apply echo_err].
  - apply (echo_left _ _ _ (fun a => pret (GFloat a))); [|intros; apply echo_ok]. apply float_echo. unfold is_digit. lia.
Qed.
Lemma field_echo f l : echo b (field (readAlg F b) f l) (field skipAlg f l).
Proof.
  cbn [field readAlg skipAlg]. apply echo_bind; [apply str_echo|]. intros a a' r _ _. apply echo_same. intros c r' _.
  destruct (negb (c =? cCOLON)); [apply echo_err|apply echo_ok].
Qed.
Lemma Read_echo f l : echo b (p_Read F b f l) (p_Skip f l).
Proof.
  apply echo_same. intros c r _. apply value_echo; [apply leaf_echo|apply field_echo|]. intros d. split; reflexivity.
Qed.
End Read.
