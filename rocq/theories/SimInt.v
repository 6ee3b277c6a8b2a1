(** The integer readers refine pure functions on the remaining bytes. *)
From Coq Require Import String ZArith List Bool Lia Arith.
From Verif Require Import Base ModelIter ModelStack ModelSkip ModelInt Sim SimLib SimSkip.
Import ListNotations.
Local Open Scope Z_scope.

Definition pb_uint (w : Z) (nd : nat) (st : nat * Z) (c : Z) : psres (nat * Z) Z :=
  let '(numDigit, r) := st in
  if intDigits c =? invalidDigit then PStop 0 (pret r)
  else if (nd <=? numDigit)%nat &&
          ((maxDiv10 w <? r) || ((r =? maxDiv10 w) && (maxMod10 w <? intDigits c)))
  then PStop 0 (pfail EIntOverflow)
  else PNext (S numDigit, mul10add w r (intDigits c)).
Definition p_uintLoop (w : Z) (nd : nat) (st : nat * Z) : P Z :=
  p_scan (pb_uint w nd) (p_eofReturn (fun st => pret (snd st))) st.
Lemma presume_uint w nd : presume_ok (pb_uint w nd).
Proof. intros [n r] c q H. exfalso. revert H. unfold pb_uint. split_ifs; discriminate. Qed.
Lemma sim_uintLoop Pre w nd u : simR Pre (readUintLoop w nd u) (p_uintLoop w nd (1%nat, u)) eqR.
Proof.
  apply (sim_scan _ _ _ (pb_uint w nd) _ (fun _ (s : nat * Z) => s)).
  - intros it i [n r] c W Hi Hl E. cbv zeta. unfold pb_uint. split_ifs; auto.
    + eexists; split; [reflexivity|]. apply sim_ret_eq.
    + eexists; split; [reflexivity|]. apply sim_fail.
  - apply noEnd_ok'.
  - apply eof_ok. intros; apply sim_ret_eq.
  - apply presume_uint.
Qed.
Definition p_readUintN (w : Z) (nd : nat) (c : Z) : P Z :=
  if intDigits c =? 0 then pret 0
  else if intDigits c =? invalidDigit then pfail (EInvalidDigit c)
  else p_uintLoop w nd (1%nat, intDigits c).
Lemma sim_readUintN Pre w nd c : simR Pre (readUintN w nd c) (p_readUintN w nd c) eqR.
Proof. unfold readUintN, p_readUintN. cbv zeta. sim_auto. apply sim_uintLoop. Qed.

Definition p_readUint8 (c : Z) : P Z :=
  if intDigits c =? 0 then pret 0
  else if intDigits c =? invalidDigit then pfail (EInvalidDigit c)
  else
    pbind p_peekOrEOF (fun o =>
    match o with
    | None => pret (intDigits c)
    | Some c2 =>
        if intDigits c2 =? invalidDigit then pret (intDigits c)
        else
          pbind p_inc (fun _ =>
          pbind p_peekOrEOF (fun o2 =>
          match o2 with
          | None => pret (mul10add 8 (intDigits c) (intDigits c2))
          | Some c3 =>
              if intDigits c3 =? invalidDigit then pret (mul10add 8 (intDigits c) (intDigits c2))
              else
                pbind p_inc (fun _ =>
                if (maxDiv10 8 <? mul10add 8 (intDigits c) (intDigits c2)) ||
                   ((mul10add 8 (intDigits c) (intDigits c2) =? maxDiv10 8) && (maxMod10 8 <? intDigits c3))
                then pfail EIntOverflow
                else pret (mul10add 8 (mul10add 8 (intDigits c) (intDigits c2)) (intDigits c3)))
          end))
    end).
Lemma sim_readUint8 Pre c : simR Pre (readUint8 c) (p_readUint8 c) eqR.
Proof.
  unfold readUint8, p_readUint8. cbv zeta. sim_auto.
  apply sim_bind_peekOpt; [apply sim_ret_eq|]. intros c2.
  apply sim_if; intros; [apply sim_ret_eq|]. apply sim_bind_inc.
  apply sim_bind_peekOpt; [apply sim_ret_eq|]. intros c3. sim_auto.
Qed.

Definition p_readIntN (w : Z) (readU : Z -> P Z) (c : Z) : P Z :=
  if c =? cMINUS then
    pbind p_peek (fun c' =>
    pbind p_inc (fun _ =>
    pbind (readU c') (fun v =>
    if maxInt w + 1 <? v then pfail EIntOverflow else pret (to_signed w (- to_signed w v)))))
  else
    pbind (readU c) (fun v =>
    if maxInt w <? v then pfail EIntOverflow else pret (to_signed w v)).
Lemma sim_readIntN Pre w readU preadU c :
  (forall Pre c, simR Pre (readU c) (preadU c) eqR) ->
  simR Pre (readIntN w readU c) (p_readIntN w preadU c) eqR.
Proof.
  intros H. unfold readIntN, p_readIntN. apply sim_if; intros.
  - apply simR_any. eapply sim_bind_peek; [apply sim_nextByte|]. intros c'.
    apply sim_bind_inc. eapply sim_bind_eq; [apply H|]. intros v. sim_auto.
  - eapply sim_bind_eq; [apply H|]. intros v. sim_auto.
Qed.

(** the reading methods, by width *)
Definition p_readU (w : Z) : Z -> P Z :=
  if w =? 8 then p_readUint8
  else if w =? 16 then p_readUintN 16 4
  else if w =? 32 then p_readUintN 32 9
  else p_readUintN 64 19.
Definition p_ReadU (w : Z) : P Z := pbind p_takeToken (p_readU w).
Definition p_ReadI (w : Z) : P Z := pbind p_takeToken (p_readIntN w (p_readU w)).

Lemma sim_ReadUint8 : sim ReadUint8 (p_ReadU 8).
Proof. eapply sim_bind_eq; [apply sim_takeToken_eq|]. intros. apply sim_readUint8. Qed.
Lemma sim_ReadUint16 : sim ReadUint16 (p_ReadU 16).
Proof. eapply sim_bind_eq; [apply sim_takeToken_eq|]. intros. apply sim_readUintN. Qed.
Lemma sim_ReadUint32 : sim ReadUint32 (p_ReadU 32).
Proof. eapply sim_bind_eq; [apply sim_takeToken_eq|]. intros. apply sim_readUintN. Qed.
Lemma sim_ReadUint64 : sim ReadUint64 (p_ReadU 64).
Proof. eapply sim_bind_eq; [apply sim_takeToken_eq|]. intros. apply sim_readUintN. Qed.
Lemma sim_ReadInt8 : sim ReadInt8 (p_ReadI 8).
Proof. eapply sim_bind_eq; [apply sim_takeToken_eq|]. intros. apply sim_readIntN. intros; apply sim_readUint8. Qed.
Lemma sim_ReadInt16 : sim ReadInt16 (p_ReadI 16).
Proof. eapply sim_bind_eq; [apply sim_takeToken_eq|]. intros. apply sim_readIntN. intros; apply sim_readUintN. Qed.
Lemma sim_ReadInt32 : sim ReadInt32 (p_ReadI 32).
Proof. eapply sim_bind_eq; [apply sim_takeToken_eq|]. intros. apply sim_readIntN. intros; apply sim_readUintN. Qed.
Lemma sim_ReadInt64 : sim ReadInt64 (p_ReadI 64).
Proof. eapply sim_bind_eq; [apply sim_takeToken_eq|]. intros. apply sim_readIntN. intros; apply sim_readUintN. Qed.
