(** The skipping functions refine pure functions on the remaining bytes. *)
From Coq Require Import String ZArith List Bool Lia Arith.
From Verif Require Import Base ModelIter ModelStack ModelSkip Sim SimLib StackFacts Machine.
Import ListNotations.
Local Open Scope Z_scope.

(** solve refinements of code built from if/fail/ret by matching structure *)
Ltac sim_auto :=
  repeat first
    [ apply sim_fail
    | apply sim_ret_eq
    | apply sim_if; intros
    | apply sim_bind_inc ].

Ltac scan_noresume :=
  intros ? ? ? ?H; exfalso; revert H; cbv beta zeta; split_ifs; discriminate.

Lemma scan_simple {A} (body : unit -> Z -> sres unit A) pbody (onErr : unit -> err -> M A) ponErr Pre :
  (forall c, match body tt c with
             | SNext _ => pbody tt c = PNext tt
             | SStop O m => exists q, pbody tt c = PStop 0 q /\ simR (peek c) m q eqR
             | SStop 1 m => exists q, pbody tt c = PStop 1 q /\ simR (prev c) m q eqR
             | SStop _ _ => False
             | SFail e => pbody tt c = PFail e
             | SResume m => exists q, pbody tt c = PResume q /\ shrinks q /\ simR (prev c) m q eqR
             end) ->
  onErr_ok onErr ponErr (fun _ (s : unit) => s) eqR ->
  simR Pre (scan (fun _ _ s c => body s c) noEnd onErr tt) (p_scan pbody ponErr tt) eqR.
Proof.
  intros H K. apply (sim_scan (fun _ _ s c => body s c) noEnd onErr pbody ponErr (fun _ (s : unit) => s)).
  - intros it i s c W Hi Hl E. cbv zeta. specialize (H c). destruct s.
    destruct (body tt c) as [[]|[|[|k]] m|e|m]; auto.
  - apply noEnd_ok'.
  - auto.
  - intros t c q Hq. specialize (H c). destruct t.
    destruct (body tt c) as [[]|[|[|k]] m|e|m]; try destruct H as (q' & H & H');
      try contradiction; rewrite Hq in H; try discriminate. injection H as ->. tauto.
Qed.

Definition p_ret0 {T} : T -> P unit := p_eofReturn (fun _ => pret tt).
Lemma ret0_ok {S0} : onErr_ok (eofReturn (fun _ : S0 => ret tt)) p_ret0 (fun _ s => s) eqR.
Proof. apply eof_ok. intros. apply sim_ret_eq. Qed.

(** ** numbers *)
Definition p_skipExponentLoop : P unit :=
  p_scan (fun (_ : unit) c =>
            if intDigits c =? invalidDigit then PStop 0 (pret tt) else PNext tt) p_ret0 tt.
Lemma sim_skipExponentLoop Pre : simR Pre skipExponentLoop p_skipExponentLoop eqR.
Proof.
  apply (scan_simple (fun _ c => if intDigits c =? invalidDigit then SStop 0 (ret tt) else SNext tt)).
  - intros c. cbv beta. split_ifs; auto. eexists; split; [reflexivity|]. apply sim_ret_eq.
  - apply ret0_ok.
Qed.

Definition p_skipExponentPart : P unit :=
  pbind p_peek (fun c0 =>
  pbind p_inc (fun _ =>
  pbind (if (c0 =? cPLUS) || (c0 =? cMINUS)
         then pbind p_peek (fun c1 => pbind p_inc (fun _ => pret c1)) else pret c0) (fun c =>
  if intDigits c =? invalidDigit then pfail (EInvalidDigit c) else p_skipExponentLoop))).
Lemma sim_skipExponentPart Pre : simR Pre skipExponentPart p_skipExponentPart eqR.
Proof.
  apply simR_any. eapply sim_bind_peek; [apply sim_nextByte|]. intros c0.
  apply sim_bind_inc. eapply sim_bind_eq.
  - apply sim_if; intros; sim_auto. apply simR_any. eapply sim_bind_peek; [apply sim_nextByte|].
    intros. sim_auto.
  - intros c. sim_auto. apply sim_skipExponentLoop.
Qed.

Definition p_skipFractionLoop : P unit :=
  p_scan (fun (_ : unit) c =>
          if floatDigits c <? 0 then
            if floatDigits c =? expInNumber then PStop 1 p_skipExponentPart
            else PStop 0 (pret tt)
          else PNext tt) p_ret0 tt.
Lemma sim_skipFractionLoop Pre : simR Pre skipFractionLoop p_skipFractionLoop eqR.
Proof.
  apply (scan_simple (fun _ c =>
          if floatDigits c <? 0 then
            if floatDigits c =? expInNumber then SStop 1 skipExponentPart
            else SStop 0 (ret tt)
          else SNext tt)).
  - intros c. cbv beta. split_ifs; auto; eexists; (split; [reflexivity|]);
      [apply sim_skipExponentPart | apply sim_ret_eq].
  - apply ret0_ok.
Qed.

Definition p_skipFractionPart : P unit :=
  pbind p_peek (fun c =>
  if intDigits c =? invalidDigit then pfail (EInvalidDigit c)
  else pbind p_inc (fun _ => p_skipFractionLoop)).
Lemma sim_skipFractionPart Pre : simR Pre skipFractionPart p_skipFractionPart eqR.
Proof.
  apply simR_any. eapply sim_bind_peek; [apply sim_nextByte|]. intros c0.
  sim_auto. apply sim_skipFractionLoop.
Qed.

Definition p_skipIntegerLoop : P unit :=
  p_scan (fun (_ : unit) c =>
          if floatDigits c <? 0 then
            if floatDigits c =? dotInNumber then PStop 1 p_skipFractionPart
            else if floatDigits c =? expInNumber then PStop 1 p_skipExponentPart
            else PStop 0 (pret tt)
          else PNext tt) p_ret0 tt.
Lemma sim_skipIntegerLoop Pre : simR Pre skipIntegerLoop p_skipIntegerLoop eqR.
Proof.
  apply (scan_simple (fun _ c =>
          if floatDigits c <? 0 then
            if floatDigits c =? dotInNumber then SStop 1 skipFractionPart
            else if floatDigits c =? expInNumber then SStop 1 skipExponentPart
            else SStop 0 (ret tt)
          else SNext tt)).
  - intros c. cbv beta. split_ifs; auto; eexists; (split; [reflexivity|]);
      [apply sim_skipFractionPart | apply sim_skipExponentPart | apply sim_ret_eq].
  - apply ret0_ok.
Qed.

Lemma sim_bind_peekOpt {B D} Pre (f : option Z -> M B) (q : option Z -> P D) R :
  simR anyP (f None) (q None) R ->
  (forall c, simR (peek c) (f (Some c)) (q (Some c)) R) ->
  simR Pre (bind peekOrEOF f) (pbind p_peekOrEOF q) R.
Proof.
  intros HN HS. apply simR_any. eapply sim_bind; [apply sim_peekOrEOF|]. intros a b.
  apply (simR_pure (a = b)); [now intros it [? ?]|]. intros ->.
  destruct b; [eapply simR_pre; [apply HS|]; now intros it [? ?]|]. now apply simR_any.
Qed.

Definition p_skipNumber (c0 : Z) : P unit :=
  pbind (if c0 =? cMINUS then
             (pbind p_peek (fun c1 =>
              if intDigits c1 =? invalidDigit then pfail (EInvalidDigit c1)
              else pbind p_inc (fun _ => pret c1)))
           else pret c0) (fun c =>
  if c =? cZERO then
    pbind p_peekOrEOF (fun o =>
     match o with
     | None => pret tt
     | Some d =>
         if floatDigits d =? dotInNumber then pbind p_inc (fun _ => p_skipFractionPart)
         else if floatDigits d =? expInNumber then pbind p_inc (fun _ => p_skipExponentPart)
         else pret tt
     end)
  else p_skipIntegerLoop).
Lemma sim_skipNumber Pre c0 : simR Pre (skipNumber c0) (p_skipNumber c0) eqR.
Proof.
  apply simR_any. eapply sim_bind_eq.
  - sim_auto. apply simR_any. eapply sim_bind_peek; [apply sim_nextByte|]. intros. sim_auto.
  - intros c. apply sim_if; intros.
    + apply sim_bind_peekOpt; sim_auto. intros d. sim_auto.
      apply sim_skipFractionPart. apply sim_skipExponentPart.
    + apply sim_skipIntegerLoop.
Qed.

(** ** strings *)
Definition p_skipU4 : P unit :=
  p_scan (fun (remain : nat) c =>
          if hexValue c =? invalidHex then PFail (EInvalidUnicodeChar c)
          else match remain with
               | 1%nat => PStop 1 (pret tt)
               | _ => PNext (remain - 1)%nat
               end) (fun _ => p_eof) 4%nat.
Lemma sim_skipU4 Pre : simR Pre skipU4 p_skipU4 eqR.
Proof.
  apply (sim_scan _ _ _ _ _ (fun _ (s : nat) => s)).
  - intros it i s c W Hi Hl E. cbv zeta. split_ifs; auto. destruct s as [|[|s]]; auto.
    eexists; split; [reflexivity|]. apply sim_ret_eq.
  - apply noEnd_ok'.
  - apply err_ok.
  - intros t c q H. exfalso. revert H. split_ifs; [|destruct t as [|[|t]]]; discriminate.
Qed.

Definition p_skipEscapedChar : P unit :=
  pbind p_peek (fun c =>
  if negb (escapeMap c =? noEscape) then p_inc
  else if negb (c =? c_u) then pfail (EInvalidEscapeChar c)
  else pbind p_inc (fun _ => p_skipU4)).
Lemma sim_skipEscapedChar Pre : simR Pre skipEscapedChar p_skipEscapedChar eqR.
Proof.
  apply simR_any. eapply sim_bind_peek; [apply sim_nextByte|]. intros c. sim_auto.
  - apply sim_inc.
  - apply sim_skipU4.
Qed.
Lemma shrinks_skipU4 : shrinks p_skipU4.
Proof.
  apply shrinks_pscan.
  - intros t c k q H. split_ifs_in H; [discriminate|]. destruct t as [|[|t]]; try discriminate.
    injection H as <- <-. apply shrinks_pret.
  - intros t c q H. split_ifs_in H; [discriminate|]. destruct t as [|[|t]]; discriminate.
  - intros; apply shrinks_eof.
Qed.
Lemma shrinks_skipEscapedChar : shrinks p_skipEscapedChar.
Proof.
  apply shrinks_pbind; [apply shrinks_peek|]. intros c.
  apply shrinks_if; [apply shrinks_inc|]. apply shrinks_if; [apply shrinks_pfail|].
  apply shrinks_pbind; [apply shrinks_inc|]. intros. apply shrinks_skipU4.
Qed.

Definition pb_skipString (_ : unit) (c : Z) : psres unit unit :=
  if c =? cQUOTE then PStop 1 (pret tt)
  else if c =? cBSLASH then PResume p_skipEscapedChar
  else if c <? cSPACE then PFail (EInvalidStringChar c)
  else PNext tt.
Definition p_skipString : P unit := p_scan pb_skipString (fun _ => p_eof) tt.
Lemma sim_skipString Pre : simR Pre skipString p_skipString eqR.
Proof.
  apply (scan_simple (fun _ c =>
          if c =? cQUOTE then SStop 1 (ret tt)
          else if c =? cBSLASH then SResume skipEscapedChar
          else if c <? cSPACE then SFail (EInvalidStringChar c)
          else SNext tt)).
  - intros c. unfold pb_skipString. split_ifs; auto.
    + eexists; split; [reflexivity|]. apply sim_ret_eq.
    + eexists; split; [reflexivity|]. split; [apply shrinks_skipEscapedChar|apply sim_skipEscapedChar].
  - apply err_ok.
Qed.
Lemma presume_skipString : presume_ok pb_skipString.
Proof.
  intros t c q H. unfold pb_skipString in H. split_ifs_in H; try discriminate.
  injection H as <-. apply shrinks_skipEscapedChar.
Qed.

Definition p_skipObjectField : P unit :=
  pbind p_skipString (fun _ =>
  pbind p_nextToken (fun c =>
  if negb (c =? cCOLON) then pfail (EUnexpectedByte c cCOLON 0) else p_inc)).
Lemma sim_skipObjectField Pre : simR Pre skipObjectField p_skipObjectField eqR.
Proof.
  eapply sim_bind_eq; [apply sim_skipString|]. intros _.
  eapply sim_bind_peek; [apply sim_nextToken|]. intros c. sim_auto. apply sim_inc.
Qed.

Definition p_skipLeaf (c : Z) : P unit :=
  if c =? cQUOTE then p_skipString
  else if c =? c_n then p_expectBytes (bs "ull")
  else if c =? c_t then p_expectBytes (bs "rue")
  else if c =? c_f then p_expectBytes (bs "alse")
  else if (c =? cMINUS) || ((cZERO <=? c) && (c <=? cNINE)) then p_skipNumber c
  else pfail (EUnexpectedByte c 0 0).
Lemma sim_skipLeaf Pre c : simR Pre (skipLeaf c) (p_skipLeaf c) eqR.
Proof.
  unfold skipLeaf, p_skipLeaf. sim_auto.
  - apply sim_skipString.
  - apply sim_expectBytes.
  - apply sim_expectBytes.
  - apply sim_expectBytes.
  - apply sim_skipNumber.
Qed.

(** ** containers: the bit stack describes the enclosing containers of the machine *)
Definition skipE (d : Z) : err := EUnexpectedByte d cRBRACK cCOMMA.
Definition skipAlg : alg unit unit unit unit :=
  mkAlg p_skipLeaf p_skipObjectField tt tt (fun _ _ => tt) tt (fun _ _ _ => tt) (fun _ => tt) (fun _ => tt) skipE.
Notation sacc := (acc unit unit).

Lemma sim_skipLoop fuel : forall first (a : sacc) stk s, reps s (kinds stk) ->
  simR (len fuel) (skipWithStack_loop fuel (topOf first a) s) (p_loop skipAlg fuel first a stk) eqR.
Proof.
  induction fuel as [|f IH]; intros first a stk s Hr; [apply sim_fuel|].
  cbn [skipWithStack_loop p_loop]. apply sim_bind_take. intros c0.
  assert (Hpop : forall b, simR (len f)
    (match pop s with
     | None => panic
     | Some (top', s') =>
         if top' =? stackElementNone then ret tt else skipWithStack_loop f top' s'
     end)
    (match stk with [] => pret (finish skipAlg b) | (k, a') :: stk' => p_loop skipAlg f false (add skipAlg a' k (finish skipAlg b)) stk' end) eqR).
  { intros b. apply reps_pop in Hr. destruct stk as [|[k a'] stk].
    - simpl in Hr. rewrite Hr. simpl. destruct b; apply sim_ret_eq.
    - simpl in Hr. destruct Hr as (s' & -> & Hr).
      replace (elem (is_arr a') =? stackElementNone) with false by (destruct a'; reflexivity).
      replace (elem (is_arr a')) with (topOf false (add skipAlg a' k (finish skipAlg b))) by (destruct a'; reflexivity).
      now apply IH. }
  destruct a as [sa|so].
  - replace (Z.land (topOf first (AArr sa)) 1 =? 0) with false by (destruct first; reflexivity).
    apply sim_if; intros Hc; [apply (Hpop (AArr sa))|].
    apply sim_bind_len.
    { replace (topOf first (AArr sa : sacc) =? stackElementArray) with (negb first) by (destruct first; reflexivity).
      apply sim_if; intros; sim_auto. apply sim_takeToken_eq. }
    intros c. destruct (reps_pushArray _ _ Hr) as (s' & -> & Hr').
    apply sim_if; intros; [now apply (IH true (AArr tt))|].
    apply sim_if; intros; [now apply (IH true (AObj tt))|].
    apply sim_bind_len; [apply sim_skipLeaf|]. intros []. now apply (IH false (AArr tt)).
  - replace (Z.land (topOf first (AObj so)) 1 =? 0) with true by (destruct first; reflexivity).
    apply sim_if; intros Hc; [apply (Hpop (AObj so))|].
    apply sim_bind_len.
    { replace (topOf first (AObj so : sacc) =? stackElementObject) with (negb first) by (destruct first; reflexivity).
      apply sim_if; intros; sim_auto. apply sim_takeToken_eq. }
    intros c. apply sim_if; intros Hq; [apply sim_fail|].
    apply sim_bind_len; [apply sim_skipObjectField|]. intros k.
    apply sim_bind_len; [apply sim_takeToken_eq|]. intros d.
    destruct (reps_pushObject _ _ Hr) as (s' & -> & Hr').
    apply sim_if; intros; [now apply (IH true (AArr tt))|].
    apply sim_if; intros; [now apply (IH true (AObj tt))|].
    apply sim_bind_len; [apply sim_skipLeaf|]. intros []. now apply (IH false (AObj tt)).
Qed.

Lemma sim_withInit Pre top (init : stack -> stack) first (a : sacc) stk :
  top = topOf first a -> (forall s, reps (init s) (kinds stk)) ->
  simR Pre (fun it => skipWithStack top (init (it_pool it)) it) (p_fuel (fun n => p_loop skipAlg n first a stk)) eqR.
Proof.
  intros -> H. apply (sim_state Pre it_pool (fun s => skipWithStack (topOf first a) (init s))).
  intros s. apply simR_any. unfold skipWithStack.
  apply (sim_fuel_total anyP (fun n => skipWithStack_loop n (topOf first a) (init s))). intros n.
  eapply simR_pre; [now apply sim_skipLoop|]. now intros it [? ?].
Qed.

Lemma sim_skipArrayLoop fuel : forall c,
  simR (len fuel) (skipArray_loop fuel c) (p_arrLoop skipAlg fuel c tt) eqR.
Proof.
  induction fuel as [|f IH]; intros c; [apply sim_fuel|].
  cbn [skipArray_loop p_arrLoop].
  apply sim_if; intros; [apply sim_withInit; [reflexivity|apply reps_initArray]|].
  apply sim_if; intros; [apply sim_withInit; [reflexivity|apply reps_initArray]|].
  apply sim_bind_len; [apply sim_skipLeaf|]. intros [].
  apply sim_bind_take. intros d. sim_auto.
  apply sim_bind_len; [apply sim_takeToken_eq|]. auto.
Qed.
Definition p_skipArray : P unit := p_array skipAlg.
Lemma sim_skipArray Pre : simR Pre skipArrayWithStack p_skipArray eqR.
Proof.
  eapply sim_bind_eq; [apply sim_takeToken_eq|]. intros c. apply sim_if; intros; [apply sim_ret_eq|].
  apply (sim_fuel_total anyP (fun n => skipArray_loop n c)). intros n.
  eapply simR_pre; [apply sim_skipArrayLoop|]. now intros it [? ?].
Qed.

Lemma sim_skipObjectLoop fuel : forall c,
  simR (fun it => peek c it /\ len fuel it) (skipObject_loop fuel c) (p_objLoop skipAlg fuel c tt) eqR.
Proof.
  induction fuel as [|f IH]; intros c.
  { eapply simR_pre; [apply sim_fuel|]. now intros it [? ?]. }
  cbn [skipObject_loop p_objLoop].
  apply sim_if; intros; [apply sim_fail|]. apply sim_bind_inc_len.
  apply sim_bind_len; [apply sim_skipObjectField|]. intros k.
  apply sim_bind_take. intros d.
  apply sim_if; intros; [apply sim_withInit; [reflexivity|apply reps_initObject]|].
  apply sim_if; intros; [apply sim_withInit; [reflexivity|apply reps_initObject]|].
  apply sim_bind_len; [apply sim_skipLeaf|]. intros [].
  apply sim_bind_len; [apply sim_takeToken_eq|]. intros e. sim_auto.
  apply sim_bind_next_len. auto.
Qed.
Definition p_skipObject : P unit := p_object skipAlg.
Lemma sim_skipObject Pre : simR Pre skipObjectWithStack p_skipObject eqR.
Proof.
  apply simR_any. eapply sim_bind_peek; [apply sim_nextToken|]. intros c. apply sim_if; intros.
  - eapply simR_ext; [|apply sim_inc]. intros f l. unfold pbind, p_inc, pret. simpl. reflexivity.
  - apply (sim_fuel_total (peek c) (fun n => skipObject_loop n c)). intros n. apply sim_skipObjectLoop.
Qed.

Definition p_skipFunctions (c : Z) : P unit := p_value skipAlg c.
Lemma sim_skipFunctions Pre c : simR Pre (skipFunctions c) (p_skipFunctions c) eqR.
Proof.
  unfold skipFunctions, p_skipFunctions, p_value.
  apply sim_if; intros; [apply sim_skipArray|].
  apply sim_if; intros; [apply sim_skipObject|].
  apply sim_skipLeaf.
Qed.

Definition p_Skip : P unit := pbind p_takeToken p_skipFunctions.
Lemma sim_Skip : sim Skip p_Skip.
Proof. eapply sim_bind_eq; [apply sim_takeToken_eq|]. intros; apply sim_skipFunctions. Qed.

Definition p_SkipArray : P unit :=
  pbind p_nextToken (fun c =>
  if negb (c =? cLBRACK) then pfail (EUnexpectedByte c cLBRACK 0)
  else pbind p_inc (fun _ => p_skipArray)).
Lemma sim_SkipArray : sim SkipArray p_SkipArray.
Proof.
  eapply sim_bind_peek; [apply sim_nextToken|]. intros c. sim_auto. apply sim_skipArray.
Qed.
Definition p_SkipObject : P unit :=
  pbind p_nextToken (fun c =>
  if negb (c =? cLBRACE) then pfail (EUnexpectedByte c cLBRACE 0)
  else pbind p_inc (fun _ => p_skipObject)).
Lemma sim_SkipObject : sim SkipObject p_SkipObject.
Proof.
  eapply sim_bind_peek; [apply sim_nextToken|]. intros c. sim_auto. apply sim_skipObject.
Qed.
Definition p_SkipNumber : P unit :=
  pbind p_nextToken (fun c =>
  if negb (isNumberValue (valueTypeMap c)) then pfail (EUnexpectedByte c 0 0)
  else pbind p_inc (fun _ => p_skipNumber c)).
Lemma sim_SkipNumber : sim SkipNumber p_SkipNumber.
Proof.
  eapply sim_bind_peek; [apply sim_nextToken|]. intros c. sim_auto. apply sim_skipNumber.
Qed.
Definition p_SkipString : P unit :=
  pbind p_nextToken (fun c =>
  if negb (c =? cQUOTE) then pfail (EUnexpectedByte c cQUOTE 0)
  else pbind p_inc (fun _ => p_skipString)).
Lemma sim_SkipString : sim SkipString p_SkipString.
Proof.
  eapply sim_bind_peek; [apply sim_nextToken|]. intros c. sim_auto. apply sim_skipString.
Qed.
Definition p_ReadNull : P unit :=
  pbind p_nextToken (fun c =>
  if negb (c =? c_n) then pfail (EUnexpectedByte c c_n 0)
  else pbind p_inc (fun _ => p_expectBytes (bs "ull"))).
Lemma sim_ReadNull : sim ReadNull p_ReadNull.
Proof.
  eapply sim_bind_peek; [apply sim_nextToken|]. intros c. sim_auto. apply sim_expectBytes.
Qed.
Definition p_ReadBool : P bool :=
  pbind p_nextToken (fun c =>
  if c =? c_t then pbind p_inc (fun _ => pbind (p_expectBytes (bs "rue")) (fun _ => pret true))
  else if c =? c_f then pbind p_inc (fun _ => pbind (p_expectBytes (bs "alse")) (fun _ => pret false))
  else pfail (EUnexpectedByte c c_t c_f)).
Lemma sim_ReadBool : sim ReadBool p_ReadBool.
Proof.
  eapply sim_bind_peek; [apply sim_nextToken|]. intros c. sim_auto.
  - eapply sim_bind_eq; [apply sim_expectBytes|]. intros; apply sim_ret_eq.
  - eapply sim_bind_eq; [apply sim_expectBytes|]. intros; apply sim_ret_eq.
Qed.
