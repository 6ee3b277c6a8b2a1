(** The float reader refines a pure function on the remaining bytes. *)
From Coq Require Import String ZArith List Bool Lia Arith.
From Verif Require Import Base ModelIter ModelStack ModelSkip ModelStr ModelFloat Sim SimLib SimSkip SimStr.
Import ListNotations.
Local Open Scope Z_scope.

Section Float.
Variable F : floatOps.

Definition p_parseFloat (buf : bytes) : P (fl F) :=
  match fl_parse F buf with inl f => pret f | inr n => pfail (EParseFloat n) end.
Lemma sim_parseFloat Pre buf : simR Pre (parseFloat F buf) (p_parseFloat buf) eqR.
Proof. unfold parseFloat, p_parseFloat. destruct (fl_parse F buf); [apply sim_ret_eq|apply sim_fail]. Qed.

(** loops that collect the bytes they pass *)
Lemma scan_buf {A} (body : iter -> nat -> bytes -> Z -> sres bytes A) pbody onErr ponErr Pre buf :
  (forall it i s c, wf it -> (it_head it <= i)%nat -> (i < it_tail it)%nat ->
     nth_error (it_buffer it) i = Some c ->
     let b := s ++ sl (it_buffer it) (it_head it) i in
     match body it i s c with
     | SNext s' => s' = s /\ pbody b c = PNext (b ++ [c])
     | SStop O m => exists q, pbody b c = PStop 0 q /\ simR (peek c) m q eqR
     | SStop 1 m => exists q, pbody b c = PStop 1 q /\ simR (prev c) m q eqR
     | _ => False
     end) ->
  (forall s, simR anyP (onErr s) (ponErr s) eqR) ->
  (forall t c q, pbody t c <> PResume q) ->
  simR Pre (scan body (fun it buf => match seg it (it_tail it) with
                      | None => None
                      | Some sg => Some (buf ++ sg)
                      end) (eofReturn onErr) buf)
       (p_scan pbody (p_eofReturn ponErr) buf) eqR.
Proof.
  intros H K N. apply (simR_ext _ _ (p_scan pbody (p_eofReturn ponErr) (buf ++ []))).
  { intros. rewrite app_nil_r. reflexivity. }
  apply (sim_scan _ _ _ pbody _ (fun sg (s : bytes) => s ++ sg)).
  - intros it i s c W Hi Hl E. specialize (H it i s c W Hi Hl E). cbv zeta in *.
    destruct (body it i s c) as [s'|[|[|k]] m|e|m]; try contradiction; auto.
    destruct H as [-> ->]. now rewrite app_assoc.
  - intros it s W. rewrite (seg_ok it _ W) by (destruct W; lia). eexists; split; [reflexivity|]. now rewrite app_nil_r.
  - apply eof_ok. intros s. rewrite app_nil_r. apply K.
  - intros t c q Hq. now apply N in Hq.
Qed.

Definition p_readExponentLoop (buf : bytes) : P (fl F) :=
  p_scan (fun b c => if intDigits c =? invalidDigit then PStop 0 (p_parseFloat b) else PNext (b ++ [c]))
         (p_eofReturn p_parseFloat) buf.
Lemma sim_readExponentLoop Pre buf : simR Pre (readExponentLoop F buf) (p_readExponentLoop buf) eqR.
Proof.
  apply scan_buf.
  - intros it i s c W Hi Hl E. cbv zeta. rewrite (seg_ok it i W) by lia. split_ifs; auto.
    eexists; split; [reflexivity|]. apply sim_parseFloat.
  - intros; apply sim_parseFloat.
  - intros t c q. split_ifs; discriminate.
Qed.

Definition p_readFloatExponentPart (buf : bytes) : P (fl F) :=
  pbind p_peek (fun c0 =>
  pbind p_inc (fun _ =>
  if (c0 =? cPLUS) || (c0 =? cMINUS) then
    pbind p_peek (fun c1 =>
    pbind p_inc (fun _ =>
    if intDigits c1 =? invalidDigit then pfail (EInvalidFloat c1)
    else p_readExponentLoop (buf ++ [c0] ++ [c1])))
  else
    if intDigits c0 =? invalidDigit then pfail (EInvalidFloat c0)
    else p_readExponentLoop (buf ++ [c0]))).
Lemma sim_readFloatExponentPart Pre buf :
  simR Pre (readFloatExponentPart F buf) (p_readFloatExponentPart buf) eqR.
Proof.
  apply simR_any. eapply sim_bind_peek; [apply sim_nextByte|]. intros c0.
  apply sim_bind_inc. apply sim_if; intros.
  - apply simR_any. eapply sim_bind_peek; [apply sim_nextByte|]. intros c1. apply sim_bind_inc. sim_auto.
    apply sim_readExponentLoop.
  - sim_auto. apply sim_readExponentLoop.
Qed.

Definition p_readFractionLoop (buf : bytes) : P (fl F) :=
  p_scan (fun b c =>
          if floatDigits c <? 0 then
            if floatDigits c =? expInNumber then PStop 1 (p_readFloatExponentPart (b ++ [c]))
            else PStop 0 (p_parseFloat b)
          else PNext (b ++ [c])) (p_eofReturn p_parseFloat) buf.
Lemma seg_S it i c : wf it -> (it_head it <= i)%nat -> (i < it_tail it)%nat ->
  nth_error (it_buffer it) i = Some c ->
  seg it (S i) = Some (sl (it_buffer it) (it_head it) i ++ [c]).
Proof. intros W H L E. rewrite seg_ok by (auto; lia). f_equal. now apply sl_snoc. Qed.
Lemma sim_readFractionLoop Pre buf : simR Pre (readFractionLoop F buf) (p_readFractionLoop buf) eqR.
Proof.
  apply scan_buf.
  - intros it i s c W Hi Hl E. cbv zeta. rewrite (seg_ok it i W) by lia. rewrite (seg_S it i c W) by auto.
    rewrite app_assoc. split_ifs; auto; eexists; (split; [reflexivity|]).
    apply sim_readFloatExponentPart. apply sim_parseFloat.
  - intros; apply sim_parseFloat.
  - intros t c q. split_ifs; discriminate.
Qed.
Definition p_readFloatFractionPart (buf : bytes) : P (fl F) :=
  pbind p_peek (fun c =>
  if intDigits c =? invalidDigit then pfail (EInvalidFloat c)
  else pbind p_inc (fun _ => p_readFractionLoop (buf ++ [c]))).
Lemma sim_readFloatFractionPart Pre buf :
  simR Pre (readFloatFractionPart F buf) (p_readFloatFractionPart buf) eqR.
Proof.
  apply simR_any. eapply sim_bind_peek; [apply sim_nextByte|]. intros c. sim_auto.
  apply sim_readFractionLoop.
Qed.
Definition p_readIntegerLoop (buf : bytes) : P (fl F) :=
  p_scan (fun b c =>
          if floatDigits c <? 0 then
            if floatDigits c =? dotInNumber then PStop 1 (p_readFloatFractionPart (b ++ [c]))
            else if floatDigits c =? expInNumber then PStop 1 (p_readFloatExponentPart (b ++ [c]))
            else PStop 0 (p_parseFloat b)
          else PNext (b ++ [c])) (p_eofReturn p_parseFloat) buf.
Lemma sim_readIntegerLoop Pre buf : simR Pre (readIntegerLoop F buf) (p_readIntegerLoop buf) eqR.
Proof.
  apply scan_buf.
  - intros it i s c W Hi Hl E. cbv zeta. rewrite (seg_ok it i W) by lia. rewrite (seg_S it i c W) by auto.
    rewrite app_assoc. split_ifs; auto; eexists; (split; [reflexivity|]).
    apply sim_readFloatFractionPart. apply sim_readFloatExponentPart. apply sim_parseFloat.
  - intros; apply sim_parseFloat.
  - intros t c q. split_ifs; discriminate.
Qed.
Definition p_readPositiveFloat (c : Z) : P (fl F) :=
  if intDigits c =? invalidDigit then pfail (EInvalidFloat c)
  else
    if intDigits c =? 0 then
      pbind p_peekOrEOF (fun o =>
      match o with
      | None => pret (fl_zero F)
      | Some d =>
          if floatDigits d =? dotInNumber then pbind p_inc (fun _ => p_readFloatFractionPart ([c] ++ [cDOT]))
          else if floatDigits d =? expInNumber then pbind p_inc (fun _ => p_readFloatExponentPart ([c] ++ [c_e]))
          else pret (fl_zero F)
      end)
    else p_readIntegerLoop [c].
Lemma sim_readPositiveFloat Pre c : simR Pre (readPositiveFloat F c) (p_readPositiveFloat c) eqR.
Proof.
  unfold readPositiveFloat, p_readPositiveFloat. cbv zeta. apply sim_if; intros; [apply sim_fail|].
  apply sim_if; intros; [|apply sim_readIntegerLoop].
  apply sim_bind_peekOpt; [apply sim_ret_eq|]. intros d.
  apply sim_if; intros; [apply sim_bind_inc, sim_readFloatFractionPart|].
  apply sim_if; intros; [apply sim_bind_inc, sim_readFloatExponentPart|apply sim_ret_eq].
Qed.
Definition p_readFloat (c : Z) : P (fl F) :=
  if c =? cMINUS then
    pbind p_peek (fun c1 => pbind p_inc (fun _ =>
    pbind (p_readPositiveFloat c1) (fun f => pret (fl_neg F f))))
  else p_readPositiveFloat c.
Lemma sim_readFloat Pre c : simR Pre (readFloat F c) (p_readFloat c) eqR.
Proof.
  unfold readFloat, p_readFloat. apply sim_if; intros; [|apply sim_readPositiveFloat].
  apply simR_any. eapply sim_bind_peek; [apply sim_nextByte|]. intros c1. apply sim_bind_inc.
  eapply sim_bind_eq; [apply sim_readPositiveFloat|]. intros; apply sim_ret_eq.
Qed.
Definition p_ReadFloat : P (fl F) := pbind p_takeToken p_readFloat.
Lemma sim_ReadFloat : sim (ReadFloat F) p_ReadFloat.
Proof. eapply sim_bind_eq; [apply sim_takeToken_eq|]. intros; apply sim_readFloat. Qed.
End Float.
