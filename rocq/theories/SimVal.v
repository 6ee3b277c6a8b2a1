(** The typed decoders refine pure functions on the remaining bytes. *)
From Coq Require Import String ZArith List Bool Lia Arith.
From Verif Require Import Base ModelIter ModelStack ModelSkip ModelStr ModelInt ModelFloat ModelRead ModelIterate ModelOps
  ModelFold SpecGrow ModelGrow GrowFacts ModelBase64 Spec Sim SimLib SimSkip SimRaw SimStr SimInt SimFloat SimRead SimIterate SimOps
  StrFacts FoldFacts ModelVal.
Import ListNotations.
Local Open Scope Z_scope.

Definition dis (d : bool) (it : iter) : Prop := it_disallow it = d.
Lemma stable_dis d : stable (dis d).
Proof. intros it it' [u M] H. unfold dis in *. rewrite (mv_dis _ _ _ M). auto. Qed.

(** the string between two quotes, as it stands *)
Definition p_body : P bytes := fun f l =>
  match p_captured [] p_skipString f l with
  | POk b r => POk (removelast b) r
  | PErr e => PErr e
  end.
Lemma removelast_sl (l : bytes) a b : (a < b)%nat -> (b <= length l)%nat -> removelast (sl l a b) = sl l a (b - 1).
Proof.
  intros H K. unfold sl. rewrite removelast_firstn_len, firstn_firstn. f_equal. rewrite firstn_length, skipn_length. lia.
Qed.
Lemma sim_body it : wf it -> (1 <= it_tail it)%nat ->
  let '(r, it') := startCapture (skipString ;; sliceBody (it_head it)) it in
  wf it' /\ step_ok it it' /\ outcome it it' r (p_body (fin it) (stream it)) eqR.
Proof.
  intros W T. assert (H := captured_ok skipString p_skipString eqR it 0 W T ltac:(lia) (sim_skipString _)).
  rewrite Nat.sub_0_r, sl_nil in H. revert H. unfold withCapture, startCapture, bind.
  assert (H0 := sim_skipString (fun it' => it' = set_capture true it) _ (wf_set_capture true it W T) eq_refl).
  change (fin (set_capture true it)) with (fin it) in H0.
  change (stream (set_capture true it)) with (stream it) in H0.
  destruct (skipString (set_capture true it)) as [r it1]. destruct H0 as (W1 & [u M1] & H0).
  unfold sliceFrom, sliceBody, p_body, p_captured.
  destruct r as [[]|e| |].
  2:{ intros (_ & _ & H). split; auto. split; [exists u; now apply moved_start_capture|]. unfold outcome in *.
      destruct (p_skipString (fin it) (stream it)) as [? ?|?]; auto.
      destruct H as [(a9 & Ha & _)|H]; [discriminate|auto]. }
  2:{ intros (_ & _ & H). split; auto. split; [exists u; now apply moved_start_capture|]. unfold outcome in *.
      destruct (p_skipString (fin it) (stream it)) as [? ?|?]; destruct H as [H|[_ H]]; try discriminate; destruct H as (a9 & Ha & _); discriminate. }
  2:{ intros (_ & _ & H). split; auto. split; [exists u; now apply moved_start_capture|]. unfold outcome in *.
      destruct (p_skipString (fin it) (stream it)) as [? ?|?]; destruct H as [H|[_ H]]; try discriminate; destruct H as (a9 & Ha & _); discriminate. }
  destruct H0 as [H0|[_ H0]]; [|discriminate].
  destruct (p_skipString (fin it) (stream it)) as [[] rest|e] eqn:Es; [|discriminate].
  destruct H0 as (_ & _ & Hs & _).
  apply skipString_inv in Es. destruct Es as (bb & us & Es & _).
  assert (Hk : firstn (it_head it1) (it_buffer it1) = firstn (it_head it) (it_buffer it) ++ u).
  { apply (mv_kept _ _ _ M1). reflexivity. }
  assert (Hu : u = bb ++ [34]).
  { assert (Hm := mv_stream _ _ _ M1). change (stream (set_capture true it)) with (stream it) in Hm.
    rewrite Hs, Es in Hm. change (34 :: rest) with ([34] ++ rest) in Hm. rewrite app_assoc in Hm.
    now apply app_inv_tail in Hm. }
  assert (Hl : it_head it1 = (it_head it + length u)%nat).
  { apply (f_equal (@length Z)) in Hk. rewrite app_length, !firstn_length in Hk. destruct W1, W. lia. }
  rewrite Hu, app_length in Hl. simpl in Hl.
  assert (Hb : (it_head it1 <= length (it_buffer it1))%nat) by (destruct W1; lia).
  rewrite !slice_sl by lia. intros (H1 & H2 & H). split; auto. split; auto. left.
  destruct H as [(a & Ha & Hst & Hq)|[_ H]]; [|discriminate]. eexists. split; [reflexivity|]. split; [exact Hst|].
  unfold eqR in *. rewrite <- removelast_sl by lia. simpl in Ha. injection Ha as ->. now rewrite Hq.
Qed.

Section SimVal.
Variables F32 F64 : floatOps.
Variable C : custom.
Notation gval := (gval F32 F64 C).
Variable E : env F32 F64 C.
Notation zero := (zero F32 F64 C E).
Notation under := (under F32 F64 C E).
Notation decoder := (decoder F32 F64 C).
Variables b d : bool.                    (* useNumber, disallowUnknownFields *)
Definition set (it : iter) : Prop := num b it /\ dis d it.
Lemma stable_set : stable set.
Proof. apply stable_and; [apply stable_num|apply stable_dis]. Qed.
Hint Resolve stable_set : core.
Lemma stable_setL n : stable (fun it => set it /\ len n it).
Proof. apply stable_and; auto. apply stable_len. Qed.
Hint Resolve stable_setL : core.

Definition pdecoder := decOpts -> gval -> P gval.
(** what the sim lemmas need of the decoder of a part *)
Definition simD (m : decoder) (p : pdecoder) : Prop := forall o v, simR set (m o v) (p o v) eqR.

Definition p_readNull (v : gval) : P gval := pbind p_inc (fun _ => pbind (p_expectBytes (bs "ull")) (fun _ => pret v)).
Lemma sim_readNull c v : simR (peek c) (readNull F32 F64 C v) (p_readNull v) eqR.
Proof.
  unfold readNull, p_readNull. apply sim_bind_inc. eapply sim_bind_eq; [apply sim_expectBytes|]. intros; apply sim_ret_eq.
Qed.
Lemma sim_expect_ret {A} Pre s (v : A) : simR Pre (expectBytes s ;; ret v) (pbind (p_expectBytes s) (fun _ => pret v)) eqR.
Proof. eapply sim_bind_eq; [apply sim_expectBytes|]. intros; apply sim_ret_eq. Qed.

Definition p_boolDecoder : pdecoder := fun o old =>
  pbind p_nextToken (fun c =>
  if c =? c_n then p_readNull old
  else if c =? c_t then pbind p_inc (fun _ => pbind (p_expectBytes (bs "rue")) (fun _ => pret (VBool true)))
  else if c =? c_f then pbind p_inc (fun _ => pbind (p_expectBytes (bs "alse")) (fun _ => pret (VBool false)))
  else if c =? cQUOTE then
    if negb (o_quoted o) then pfail (EUnexpectedByte c 0 0)
    else
      pbind p_inc (fun _ =>
      pbind p_nextToken (fun d =>
      pbind p_inc (fun _ =>
      if d =? c_t then pbind (p_expectBytes (bs "rue" ++ [cQUOTE])) (fun _ => pret (VBool true))
      else if d =? c_f then pbind (p_expectBytes (bs "alse" ++ [cQUOTE])) (fun _ => pret (VBool false))
      else if d =? c_n then pbind (p_expectBytes (bs "ull" ++ [cQUOTE])) (fun _ => pret old)
      else pfail (EUnexpectedByte d 0 0))))
  else pfail (EUnexpectedByte c 0 0)).
Lemma sim_boolDecoder Pre o old : simR Pre (boolDecoder F32 F64 C o old) (p_boolDecoder o old) eqR.
Proof.
  apply simR_any. unfold boolDecoder, p_boolDecoder. eapply sim_bind_peek; [apply sim_nextToken|]. intros c.
  apply sim_if; [apply sim_readNull|]. apply sim_if; [apply sim_bind_inc, sim_expect_ret|].
  apply sim_if; [apply sim_bind_inc, sim_expect_ret|]. apply sim_if; [|apply sim_fail].
  apply sim_if; [apply sim_fail|]. apply sim_bind_inc. apply simR_any. eapply sim_bind_peek; [apply sim_nextToken|]. intros c2.
  apply sim_bind_inc. apply sim_if; [apply sim_expect_ret|]. apply sim_if; [apply sim_expect_ret|].
  apply sim_if; [apply sim_expect_ret|apply sim_fail].
Qed.

Definition p_readQuoted (s : bytes) : option bytes :=
  match p_ReadString EEOF s with
  | POk sub rest => match p_nextToken EEOF rest with PErr e => if err_eqb_eof e then Some sub else None | POk _ _ => None end
  | PErr _ => None
  end.
Lemma readQuoted_eq s : readQuoted s = Ok (p_readQuoted s).
Proof.
  unfold readQuoted, p_readQuoted. set (it := ResetBytes s (newIter false false (mkStack [] 0))).
  assert (W : wf it) by (apply wf_ResetBytes, wf_new).
  assert (D : ~ dirty it) by apply clean_ResetBytes.
  assert (H := sim_ReadString it W I). destruct (ReadString it) as [r it1]. destruct H as (W1 & [u M1] & [H|[? _]]); [|tauto].
  assert (Sit : stream it = s) by apply stream_ResetBytes. assert (Fit : fin it = EEOF) by reflexivity.
  rewrite Sit, Fit in H. destruct (p_ReadString EEOF s) as [sub rest|e]; [|now rewrite H].
  destruct H as (a & -> & Hs & ->).
  assert (H2 := sim_nextToken it1 W1 I). destruct (nextToken it1) as [r2 it2]. destruct H2 as (_ & _ & H2).
  assert (D1 : ~ dirty it1) by (intros K; apply D; exact (mv_dirty _ _ _ M1 K)).
  assert (F1 : fin it1 = EEOF) by (rewrite (mv_fin _ _ _ M1); auto).
  destruct H2 as [H2|[? _]]; [|tauto]. rewrite F1, Hs in H2.
  destruct (p_nextToken EEOF rest) as [c rest2|e].
  - destruct H2 as (a2 & -> & _). reflexivity.
  - now rewrite H2.
Qed.

Definition p_stringDecoder : pdecoder := fun o old =>
  pbind p_nextToken (fun c =>
  if c =? cQUOTE then
    pbind p_inc (fun _ =>
    pbind p_readStringAsSlice (fun s =>
    if negb (o_quoted o) then pret (VStr s)
    else if (length s <? 2)%nat then pfail BadQuotedStringError
    else
      if nth 0 s 0 =? c_n then
        if negb (bytes_eqb s (bs "null")) then pfail BadQuotedStringError else pret old
      else if nth 0 s 0 =? cQUOTE then
        if negb (nth (length s - 1) s 0 =? cQUOTE) then pfail BadQuotedStringError
        else
          match p_readQuoted s with None => pfail BadQuotedStringError | Some sub => pret (VStr sub) end
      else pfail BadQuotedStringError))
  else if c =? c_n then p_readNull old
  else pfail (EUnexpectedByte c cQUOTE c_n)).
Lemma sim_stringDecoder Pre o old : simR Pre (stringDecoder F32 F64 C o old) (p_stringDecoder o old) eqR.
Proof.
  apply simR_any. unfold stringDecoder, p_stringDecoder. eapply sim_bind_peek; [apply sim_nextToken|]. intros c.
  apply sim_if.
  2:{ apply sim_if; [apply sim_readNull|apply sim_fail]. }
  apply sim_bind_inc. eapply sim_bind_eq; [apply sim_readStringAsSlice|]. intros s. cbv zeta.
  apply sim_if; [apply sim_ret_eq|]. apply sim_if; [apply sim_fail|]. apply sim_if.
  { apply sim_if; [apply sim_fail|apply sim_ret_eq]. }
  apply sim_if; [|apply sim_fail]. apply sim_if; [apply sim_fail|].
  rewrite readQuoted_eq. intros it W _. unfold bind, lift.
  destruct (p_readQuoted s); [apply (sim_ret_eq anyP)|apply (sim_fail anyP)]; auto; exact I.
Qed.

Definition p_readIntOf (signed : bool) (w : width) : Z -> P Z :=
  if signed then p_readIntN (wbits w) (p_readU (wbits w)) else p_readU (wbits w).
Lemma sim_readIntOf Pre signed w c : simR Pre (readIntOf signed w c) (p_readIntOf signed w c) eqR.
Proof.
  destruct signed, w; unfold readIntOf, p_readIntOf, wbits.
  - apply sim_readIntN. intros. apply sim_readUint8.
  - apply sim_readIntN. intros. apply sim_readUintN.
  - apply sim_readIntN. intros. apply sim_readUintN.
  - apply sim_readIntN. intros. apply sim_readUintN.
  - apply sim_readUint8.
  - apply sim_readUintN.
  - apply sim_readUintN.
  - apply sim_readUintN.
Qed.
Definition p_intDecoder (signed : bool) (w : width) : pdecoder := fun o old =>
  pbind p_nextToken (fun c =>
  if c =? c_n then p_readNull old
  else
    pbind (if o_quoted o || o_mapKey o then
             if negb (c =? cQUOTE) then pfail (EUnexpectedByte c cQUOTE 0)
             else pbind p_inc (fun _ => p_peek)
           else pret c) (fun c' =>
    pbind p_inc (fun _ =>
    pbind (p_readIntOf signed w c') (fun i =>
    if o_quoted o || o_mapKey o then
      pbind p_peek (fun d =>
      if negb (d =? cQUOTE) then pfail (EUnexpectedByte d cQUOTE 0)
      else pbind p_inc (fun _ => pret (VInt i)))
    else pret (VInt i))))).
Lemma sim_intDecoder Pre signed w o old : simR Pre (intDecoder F32 F64 C signed w o old) (p_intDecoder signed w o old) eqR.
Proof.
  apply simR_any. unfold intDecoder, p_intDecoder. eapply sim_bind_peek; [apply sim_nextToken|]. intros c. cbv zeta.
  apply sim_if; [apply sim_readNull|]. eapply sim_bind_peek.
  { apply sim_if.
    - apply sim_if; [apply sim_fail|]. apply sim_bind_inc. apply simR_any. apply sim_nextByte.
    - apply sim_ret. intros it H. split; auto. }
  intros c'. apply sim_bind_inc. eapply sim_bind_eq; [apply sim_readIntOf|]. intros i.
  apply sim_if; [|apply sim_ret_eq]. eapply sim_bind_peek; [apply sim_nextByte|]. intros e.
  apply sim_if; [apply sim_fail|]. apply sim_bind_inc, sim_ret_eq.
Qed.

Definition p_floatDecoder (F : floatOps) (inj : fl F -> gval) : pdecoder := fun _ old =>
  pbind p_nextToken (fun c =>
  if c =? c_n then p_readNull old
  else pbind (p_ReadFloat F) (fun f => pret (inj f))).
Lemma sim_floatDecoder Pre F inj o old : simR Pre (floatDecoder F32 F64 C F inj o old) (p_floatDecoder F inj o old) eqR.
Proof.
  apply simR_any. unfold floatDecoder, p_floatDecoder. eapply sim_bind_peek; [apply sim_nextToken|]. intros c.
  apply sim_if; [apply sim_readNull|]. eapply sim_bind_eq; [apply simR_any, sim_ReadFloat|]. intros; apply sim_ret_eq.
Qed.

Definition p_jsonNumberDecoder : pdecoder := fun _ old =>
  pbind p_nextToken (fun c =>
  match valueTypeMap c with
  | StringValue =>
      pbind p_inc (fun _ =>
      pbind p_peek (fun d =>
      if negb (isNumberValue (valueTypeMap d)) then pfail (EInvalidDigit d)
      else
        pbind p_inc (fun _ =>
        pbind (p_readNumberAsString d) (fun s =>
        pbind p_peek (fun e =>
        if negb (e =? cQUOTE) then pfail (EUnexpectedByte e cQUOTE 0)
        else pbind p_inc (fun _ => pret (VStr s)))))))
  | NullValue => p_readNull old
  | NumberValue => pbind p_inc (fun _ => pbind (p_readNumberAsString c) (fun s => pret (VStr s)))
  | _ => pfail (EUnexpectedByte c 0 0)
  end).
Lemma sim_jsonNumberDecoder Pre o old : simR Pre (jsonNumberDecoder F32 F64 C o old) (p_jsonNumberDecoder o old) eqR.
Proof.
  apply simR_any. unfold jsonNumberDecoder, p_jsonNumberDecoder. eapply sim_bind_peek; [apply sim_nextToken|]. intros c.
  destruct (valueTypeMap c); try apply sim_fail.
  - apply sim_bind_inc. apply simR_any. eapply sim_bind_peek; [apply sim_nextByte|]. intros e.
    apply sim_if; [apply sim_fail|]. apply sim_bind_inc. eapply sim_bind_eq; [apply sim_readNumberAsString|]. intros s.
    eapply sim_bind_peek; [apply sim_nextByte|]. intros g. apply sim_if; [apply sim_fail|]. apply sim_bind_inc, sim_ret_eq.
  - apply sim_bind_inc. eapply sim_bind_eq; [apply sim_readNumberAsString|]. intros; apply sim_ret_eq.
  - apply sim_readNull.
Qed.

Definition p_jsonRawMessageDecoder : pdecoder := fun _ _ => pbind (p_AppendRaw []) (fun x => pret (VRaw (Some x))).
Lemma sim_jsonRawMessageDecoder Pre o old : simR Pre (jsonRawMessageDecoder F32 F64 C o old) (p_jsonRawMessageDecoder o old) eqR.
Proof. eapply sim_bind_eq; [apply simR_any, sim_AppendRaw|]. intros; apply sim_ret_eq. Qed.

(** the method of a user-defined type *)
Definition p_method (m : cu_state C -> bytes -> cu_state C + err) (old : gval) (x : bytes) : P gval :=
  match old with
  | VObj s => match m s x with inl s' => pret (VObj s') | inr e => pfail e end
  | _ => pfail errType
  end.
Definition p_jsonUnmarshalerDecoder (id : nat) : pdecoder := fun _ old =>
  pbind p_SkipRaw (fun x => p_method (cu_json C id) old x).
Lemma sim_jsonUnmarshalerDecoder Pre id o old :
  simR Pre (jsonUnmarshalerDecoder F32 F64 C id o old) (p_jsonUnmarshalerDecoder id o old) eqR.
Proof.
  eapply sim_bind_eq; [apply simR_any, sim_SkipRaw|]. intros x. unfold p_method. destruct old; try apply sim_fail.
  destruct (cu_json C id x0 x); [apply sim_ret_eq|apply sim_fail].
Qed.
Definition p_textUnmarshalerDecoder (id : nat) : pdecoder := fun _ old =>
  pbind p_nextToken (fun c =>
  if c =? cQUOTE then pbind p_inc (fun _ => pbind p_readStringAsSlice (fun x => p_method (cu_text C id) old x))
  else if c =? c_n then p_readNull old
  else pfail (EUnexpectedByte c cQUOTE c_n)).
Lemma sim_textUnmarshalerDecoder Pre id o old :
  simR Pre (textUnmarshalerDecoder F32 F64 C id o old) (p_textUnmarshalerDecoder id o old) eqR.
Proof.
  apply simR_any. unfold textUnmarshalerDecoder, p_textUnmarshalerDecoder. eapply sim_bind_peek; [apply sim_nextToken|]. intros c.
  apply sim_if.
  - apply sim_bind_inc. eapply sim_bind_eq; [apply sim_readStringAsSlice|]. intros x. unfold p_method.
    destruct old; try apply sim_fail. destruct (cu_text C id x0 x); [apply sim_ret_eq|apply sim_fail].
  - apply sim_if; [apply sim_readNull|apply sim_fail].
Qed.

(** after nextToken *)
Lemma sim_readNull_s c v : simR (fun it => peek c it /\ set it) (readNull F32 F64 C v) (p_readNull v) eqR.
Proof. eapply simR_pre; [apply (sim_readNull c)|]. tauto. Qed.

Definition p_pointerDecoder (elemZero : gval) (elemDec : pdecoder) : pdecoder := fun o old =>
  pbind p_nextToken (fun c =>
  if c =? c_n then p_readNull (VPtr None)
  else
    match old with
    | VPtr p =>
        pbind (elemDec o (match p with Some v => v | None => elemZero end)) (fun v => pret (VPtr (Some v)))
    | _ => pfail errType
    end).
Lemma sim_pointerDecoder z m p : simD m p -> simD (pointerDecoder F32 F64 C z m) (p_pointerDecoder z p).
Proof.
  intros H o old. unfold pointerDecoder, p_pointerDecoder. apply sim_bind_next_st; auto. intros c.
  apply sim_if; [apply sim_readNull_s|]. destruct old; try apply sim_fail. cbv zeta.
  eapply simR_pre; [apply sim_bind_st; [apply stable_set|apply H|intros; apply sim_ret_eq]|tauto].
Qed.

Fixpoint p_arrayLoop (fuel : nat) (elemDec : pdecoder) (count : nat) (a : list gval) : P (nat * list gval) :=
  match fuel with
  | O => fuel0
  | S f =>
      pbind (match nth_error a count with
             | Some v => pbind (elemDec noOpts v) (fun v' => pret (S count, upd a count v'))
             | None => pbind p_Skip (fun _ => pret (count, a))
             end) (fun st =>
      pbind p_nextToken (fun c =>
      pbind p_inc (fun _ =>
      if c =? cRBRACK then pret st
      else if negb (c =? cCOMMA) then pfail (EUnexpectedByte c cRBRACK cCOMMA)
      else p_arrayLoop f elemDec (fst st) (snd st))))
  end.
Lemma sim_arrayLoop m p : simD m p -> forall n count a,
  simR (fun it => set it /\ len n it) (arrayLoop F32 F64 C n m count a) (p_arrayLoop n p count a) eqR.
Proof.
  intros H. induction n as [|n IH]; intros count a; [eapply simR_pre; [apply sim_fuel|]; now intros it [_ ?]|].
  cbn [arrayLoop p_arrayLoop]. apply sim_bind_st; auto.
  { destruct (nth_error a count) as [v|].
    - eapply simR_pre; [apply sim_bind_st; [apply stable_set|apply H|intros; apply sim_ret_eq]|tauto].
    - eapply sim_bind_eq; [apply simR_any, sim_Skip|]. intros; apply sim_ret_eq. }
  intros st. apply sim_bind_next_st; auto. intros c. apply (sim_bind_inc_dec set n c); auto.
  apply sim_if; [apply sim_ret_eq|]. apply sim_if; [apply sim_fail|apply IH].
Qed.
Definition p_arrayDecoder (elemZero : gval) (elemDec : pdecoder) : pdecoder := fun _ old =>
  pbind p_nextToken (fun c =>
  if c =? c_n then p_readNull old
  else if negb (c =? cLBRACK) then pfail (EUnexpectedByte c cLBRACK c_n)
  else
    match old with
    | VArr a =>
        pbind p_inc (fun _ =>
        pbind p_nextToken (fun c2 =>
        pbind (if c2 =? cRBRACK then pbind p_inc (fun _ => pret (O, a)) else p_fuel (fun n => p_arrayLoop n elemDec O a)) (fun st =>
        pret (VArr (firstn (fst st) (snd st) ++ repeat elemZero (length a - fst st))))))
    | _ => pfail errType
    end).
Lemma sim_arrayDecoder z m p : simD m p -> simD (arrayDecoder F32 F64 C z m) (p_arrayDecoder z p).
Proof.
  intros H o old. unfold arrayDecoder, p_arrayDecoder. apply sim_bind_next_st; auto. intros c.
  apply sim_if; [apply sim_readNull_s|]. apply sim_if; [apply sim_fail|]. destruct old; try apply sim_fail.
  apply sim_bind_inc_st; auto. apply sim_bind_next_st; auto. intros c2.
  eapply sim_bind_eq; [|intros; apply sim_ret_eq]. apply sim_if.
  - apply sim_bind_inc_st with (Q := set); auto. apply sim_ret_eq.
  - eapply simR_pre; [apply (sim_fuel_total set (fun n => arrayLoop F32 F64 C n m 0 l) (fun n => p_arrayLoop n p 0 l))|tauto].
    intros n. now apply sim_arrayLoop.
Qed.

Fixpoint p_sliceLoop (fuel : nat) (elemZero : gval) (elemDec : pdecoder) (acc : list gval) : P (list gval) :=
  match fuel with
  | O => fuel0
  | S f =>
      pbind (elemDec noOpts elemZero) (fun v =>
      pbind p_nextToken (fun c =>
      pbind p_inc (fun _ =>
      if c =? cRBRACK then pret (acc ++ [v])
      else if negb (c =? cCOMMA) then pfail (EUnexpectedByte c cRBRACK cCOMMA)
      else p_sliceLoop f elemZero elemDec (acc ++ [v]))))
  end.
Definition sliceR (sh : slice gval) (l : list gval) (_ : iter) : Prop := elems sh = l.
Lemma sim_sliceLoop z m p : simD m p -> forall fuel n sh,
  valid sh -> fresh z sh -> sl_len sh = n ->
  simR (fun it => set it /\ len fuel it) (sliceLoop F32 F64 C fuel z m n sh) (p_sliceLoop fuel z p (elems sh)) sliceR.
Proof.
  intros H. induction fuel as [|f IH]; intros n sh V Fr L; [eapply simR_pre; [apply sim_fuel|]; now intros it [_ ?]|].
  cbn [sliceLoop p_sliceLoop]. cbv zeta.
  destruct (grow_spec z sh (S n) V Fr ltac:(lia)) as (V1 & F1 & E1 & L1).
  set (sh1 := unsafeGrowSlice z sh (S n)) in *.
  replace (S n - sl_len sh)%nat with 1%nat in E1 by lia. cbn [repeat] in E1.
  assert (Hle : length (elems sh) = n) by (rewrite elems_length; auto).
  assert (Hg : childGet sh1 n = Some z).
  { unfold childGet. rewrite <- (firstn_skipn (sl_len sh1) (sl_data sh1)). fold (elems sh1). rewrite E1.
    rewrite nth_error_app1 by (rewrite app_length; simpl; lia). rewrite nth_error_app2 by lia. now rewrite Hle, Nat.sub_diag. }
  rewrite Hg. apply sim_bind_st; auto. { eapply simR_pre; [apply H|tauto]. }
  intros v. destruct (childSet_spec z sh1 n v V1 ltac:(lia)) as (V2 & F2 & L2 & _ & E2).
  assert (E3 : elems (childSet sh1 n v) = elems sh ++ [v]).
  { rewrite E2, E1. rewrite firstn_app, Hle, Nat.sub_diag, firstn_all2 by lia. cbn [firstn]. rewrite app_nil_r. f_equal.
    rewrite skipn_all2; auto. rewrite app_length. simpl. lia. }
  apply sim_bind_next_st; auto. intros c. apply (sim_bind_inc_dec set f c); auto.
  apply sim_if. { apply sim_retR. intros it _. exact E3. }
  apply sim_if; [apply sim_fail|]. rewrite <- E3. apply IH; auto; lia.
Qed.
Definition p_readBase64 : P gval :=
  pbind p_inc (fun _ => pbind p_body (fun buf =>
  match b64decode buf with
  | Some data => pret (VSlice (Some (map VInt data)))
  | None => pfail CorruptInputError
  end)).
Lemma sim_readBase64 c : simR (peek c) (readBase64 F32 F64 C) p_readBase64 eqR.
Proof.
  unfold readBase64, p_readBase64. apply sim_bind_inc.
  intros it W Pv.
  assert (H := sim_body it W (prev_tail _ _ W Pv)).
  apply (sim_bind (fun it' => it' = it) _ p_body eqR); auto.
  - intros it' W' ->. exact H.
  - intros a0 b0. apply (simR_pure (a0 = b0)); [intros ? H0; exact H0|]. intros ->.
    destruct (b64decode b0); [apply sim_ret_eq|apply sim_fail].
Qed.
Definition p_sliceDecoder (isByte : bool) (elemZero : gval) (elemDec : pdecoder) : pdecoder := fun _ _ =>
  pbind p_nextToken (fun c =>
  if c =? c_n then p_readNull (VSlice None)
  else if c =? cQUOTE then
    if negb isByte then pfail (EUnexpectedByte c cLBRACK c_n) else p_readBase64
  else if negb (c =? cLBRACK) then pfail (EUnexpectedByte c cLBRACK c_n)
  else
    pbind p_inc (fun _ =>
    pbind p_nextToken (fun c2 =>
    pbind (if c2 =? cRBRACK then pbind p_inc (fun _ => pret []) else p_fuel (fun n => p_sliceLoop n elemZero elemDec [])) (fun l =>
    pret (VSlice (Some l)))))).
Lemma sim_sliceDecoder ib z m p : simD m p -> simD (sliceDecoder F32 F64 C ib z m) (p_sliceDecoder ib z p).
Proof.
  intros H o old. unfold sliceDecoder, p_sliceDecoder. apply sim_bind_next_st; auto. intros c.
  apply sim_if; [apply sim_readNull_s|]. apply sim_if.
  { apply sim_if; [apply sim_fail|]. eapply simR_pre; [apply (sim_readBase64 c)|tauto]. }
  apply sim_if; [apply sim_fail|].
  apply sim_bind_inc_st; auto. apply sim_bind_next_st; auto. intros c2. cbv zeta.
  destruct (make_fresh z) as (V & Fr & E0).
  eapply (sim_bind _ _ _ sliceR).
  - apply sim_if.
    + apply sim_bind_inc_st with (Q := set); auto. apply sim_retR. intros it _. exact E0.
    + eapply simR_pre; [apply (sim_fuel_total set (fun n => sliceLoop F32 F64 C n z m 0 (unsafeMakeSlice z 0 0)) (fun n => p_sliceLoop n z p []))|tauto].
      intros n. rewrite <- E0. apply sim_sliceLoop; auto.
  - intros sh l. apply (simR_pure (elems sh = l)); [intros it K; exact K|]. intros <-. apply sim_ret_eq.
Qed.

Definition p_kindKeyDecoder (kd : kkind) : option pdecoder :=
  match kd with KKString => Some p_stringDecoder | KKInt s w => Some (p_intDecoder s w) | KKOther => None end.
Definition p_keyDecoder (k : kty) : option pdecoder :=
  match k with
  | KString => p_kindKeyDecoder KKString
  | KInt s w => p_kindKeyDecoder (KKInt s w)
  | KUser _ (Some id) _ => Some (p_textUnmarshalerDecoder id)
  | KUser kd None _ => p_kindKeyDecoder kd
  end.
(** both have a decoder, with the same behaviour, or none *)
Definition simK (m : option decoder) (p : option pdecoder) : Prop :=
  match m, p with
  | Some m, Some p => forall Pre o v, simR Pre (m o v) (p o v) eqR
  | None, None => True
  | _, _ => False
  end.
Lemma sim_kindKeyDecoder kd : simK (kindKeyDecoder F32 F64 C kd) (p_kindKeyDecoder kd).
Proof. destruct kd; simpl; auto; intros; [apply sim_stringDecoder|apply sim_intDecoder]. Qed.
Lemma sim_keyDecoder k : simK (keyDecoder F32 F64 C k) (p_keyDecoder k).
Proof.
  destruct k as [|s w|kd [id|] mar]; try apply (sim_kindKeyDecoder KKString); try apply (sim_kindKeyDecoder (KKInt s w)); try apply sim_kindKeyDecoder.
  intros Pre o v. apply sim_textUnmarshalerDecoder.
Qed.
Fixpoint p_mapLoop (fuel : nat) (k : kty) (keyDec : pdecoder) (elemZero : gval) (elemDec : pdecoder) (m : list (key * gval)) : P (list (key * gval)) :=
  match fuel with
  | O => fuel0
  | S f =>
      pbind (keyDec (mkOpts true false) (keyZero F32 F64 C k)) (fun kv =>
      pbind p_nextToken (fun c =>
      if negb (c =? cCOLON) then pfail (EUnexpectedByte c cCOLON 0)
      else
        pbind p_inc (fun _ =>
        pbind (elemDec noOpts elemZero) (fun v =>
        match toKey F32 F64 C k kv with
        | None => pfail errType
        | Some kk =>
            pbind p_nextToken (fun d =>
            if d =? cRBRACE then pbind p_inc (fun _ => pret (mapassign F32 F64 C m kk v))
            else if d =? cCOMMA then pbind p_inc (fun _ => p_mapLoop f k keyDec elemZero elemDec (mapassign F32 F64 C m kk v))
            else pfail (EUnexpectedByte d cRBRACE cCOMMA))
        end))))
  end.
Lemma sim_mapLoop k km kp z dm dp : (forall Pre o v, simR Pre (km o v) (kp o v) eqR) -> simD dm dp -> forall n m,
  simR (fun it => set it /\ len n it) (mapLoop F32 F64 C n k km z dm m) (p_mapLoop n k kp z dp m) eqR.
Proof.
  intros HK H. induction n as [|n IH]; intros m; [eapply simR_pre; [apply sim_fuel|]; now intros it [_ ?]|].
  cbn [mapLoop p_mapLoop]. apply sim_bind_st; auto. intros kv.
  apply sim_bind_next_st; auto. intros c. apply sim_if; [apply sim_fail|].
  apply sim_bind_inc_Q; auto. apply sim_bind_st; auto. { eapply simR_pre; [apply H|tauto]. }
  intros v. destruct (toKey F32 F64 C k kv) as [kk|]; [|apply sim_fail]. cbv zeta.
  apply sim_bind_next_st; auto. intros c2. apply sim_if.
  { apply sim_bind_inc_Q with (Q := fun it => set it /\ len (S n) it); auto. apply sim_ret_eq. }
  apply sim_if; [|apply sim_fail]. apply (sim_bind_inc_dec set n c2); auto.
Qed.
Definition p_mapDecoder (k : kty) (keyDec : pdecoder) (elemZero : gval) (elemDec : pdecoder) : pdecoder := fun _ old =>
  pbind p_nextToken (fun c =>
  if c =? c_n then p_readNull (VMap None)
  else if negb (c =? cLBRACE) then pfail (EUnexpectedByte c cLBRACE c_n)
  else
    match old with
    | VMap p =>
        pbind p_inc (fun _ =>
        pbind p_nextToken (fun c2 =>
        pbind (if c2 =? cRBRACE then pbind p_inc (fun _ => pret (match p with Some m => m | None => [] end))
               else p_fuel (fun n => p_mapLoop n k keyDec elemZero elemDec (match p with Some m => m | None => [] end))) (fun m' =>
        pret (VMap (Some m')))))
    | _ => pfail errType
    end).
Lemma sim_mapDecoder k km kp z m p : (forall Pre o v, simR Pre (km o v) (kp o v) eqR) -> simD m p ->
  simD (mapDecoder F32 F64 C k km z m) (p_mapDecoder k kp z p).
Proof.
  intros HK H o old. unfold mapDecoder, p_mapDecoder. apply sim_bind_next_st; auto. intros c.
  apply sim_if; [apply sim_readNull_s|]. apply sim_if; [apply sim_fail|]. destruct old as [ | | | | | | | | | | m0 | | ]; try apply sim_fail.
  apply sim_bind_inc_st; auto. apply sim_bind_next_st; auto. intros c2. cbv zeta.
  eapply sim_bind_eq; [|intros; apply sim_ret_eq]. apply sim_if.
  - apply sim_bind_inc_st with (Q := set); auto. apply sim_ret_eq.
  - set (m1 := match m0 with Some x => x | None => [] end).
    eapply simR_pre; [apply (sim_fuel_total set (fun n => mapLoop F32 F64 C n k km z m m1) (fun n => p_mapLoop n k kp z p m1))|tauto].
    intros n. now apply sim_mapLoop.
Qed.

Fixpoint p_follow (path : list (hop ty)) (dec : gval -> P gval) (v : gval) : P gval :=
  match path with
  | [] => dec v
  | HField i :: r =>
      match v with
      | VStruct l =>
          match nth_error l i with
          | Some x => pbind (p_follow r dec x) (fun x' => pret (VStruct (upd l i x')))
          | None => pfail errType
          end
      | _ => pfail errType
      end
  | HPtr alloc :: r =>
      match v with
      | VPtr (Some x) => pbind (p_follow r dec x) (fun x' => pret (VPtr (Some x')))
      | VPtr None =>
          match alloc with
          | None => pfail ErrNilEmbeddedPointer
          | Some t => pbind (p_follow r dec (zero t)) (fun x' => pret (VPtr (Some x')))
          end
      | _ => pfail errType
      end
  end.
Lemma sim_follow m p : (forall v, simR set (m v) (p v) eqR) -> forall path v,
  simR set (follow F32 F64 C E path m v) (p_follow path p v) eqR.
Proof.
  intros H. induction path as [|[i|al] r IH]; intros v; cbn [follow p_follow]; [apply H| |].
  - destruct v; try apply sim_fail. destruct (nth_error l i); [|apply sim_fail].
    apply sim_bind_st; auto. intros; apply sim_ret_eq.
  - destruct v; try apply sim_fail. destruct o.
    + apply sim_bind_st; auto. intros; apply sim_ret_eq.
    + destruct al; [|apply sim_fail]. apply sim_bind_st; auto. intros; apply sim_ret_eq.
Qed.

Record pfieldInfo := pInfo { pf_path : list (hop ty); pf_quoted : bool; pf_decoder : pdecoder }.
Definition simF (m : fieldInfo F32 F64 C) (p : pfieldInfo) : Prop :=
  df_path _ _ _ m = pf_path p /\ df_quoted _ _ _ m = pf_quoted p /\ simD (df_decoder _ _ _ m) (pf_decoder p).
Fixpoint p_structLoop (fuel : nat) (find : bytes -> option nat) (fields : list pfieldInfo) (v : gval) : P gval :=
  match fuel with
  | O => fuel0
  | S f =>
      pbind p_readObjectField (fun name =>
      pbind (match find name with
             | Some i =>
                 match nth_error fields i with
                 | None => pfail errType
                 | Some fi => p_follow (pf_path fi) (pf_decoder fi (mkOpts false (pf_quoted fi))) v
                 end
             | None => if d then pfail (EUnknownField name) else pbind p_Skip (fun _ => pret v)
             end) (fun v' =>
      pbind p_nextToken (fun c =>
      if c =? cRBRACE then pbind p_inc (fun _ => pret v')
      else if c =? cCOMMA then
        pbind p_inc (fun _ =>
        pbind p_nextToken (fun c2 =>
        if negb (c2 =? cQUOTE) then pfail (EUnexpectedByte c2 cQUOTE 0)
        else pbind p_inc (fun _ => p_structLoop f find fields v')))
      else pfail (EUnexpectedByte c cRBRACE cCOMMA))))
  end.
Lemma Forall2_nth {A B} (R : A -> B -> Prop) l l' i x : Forall2 R l l' -> nth_error l i = Some x ->
  exists y, nth_error l' i = Some y /\ R x y.
Proof.
  intros H. revert i. induction H as [|a0 b0 l l' H Hs IH]; intros [|i] K; try discriminate.
  - injection K as <-. exists b0. auto.
  - apply IH. exact K.
Qed.
Lemma sim_getDisallow {A} (Q : iter -> Prop) (k : bool -> M A) (p : P A) R :
  (forall it, Q it -> dis d it) -> simR Q (k d) p R -> simR Q (bind getDisallow k) p R.
Proof.
  intros HQ H it W Qi. unfold bind, getDisallow. rewrite (HQ it Qi). apply H; auto.
Qed.
Lemma sim_structLoop find ms ps : Forall2 simF ms ps ->
  (forall k i, find k = Some i -> (i < length ms)%nat) -> forall n v,
  simR (fun it => set it /\ len n it) (structLoop F32 F64 C E n find ms v) (p_structLoop n find ps v) eqR.
Proof.
  intros HF Hfind. induction n as [|n IH]; intros v; [eapply simR_pre; [apply sim_fuel|]; now intros it [_ ?]|].
  cbn [structLoop p_structLoop]. apply sim_bind_st; auto; [apply sim_readObjectField|]. intros name.
  apply sim_bind_st; auto.
  { destruct (find name) as [i|] eqn:Ef.
    - assert (Hi := Hfind _ _ Ef). destruct (nth_error ms i) as [fi|] eqn:En.
      2:{ apply nth_error_None in En. lia. }
      destruct (Forall2_nth _ _ _ _ _ HF En) as (pf & -> & H1 & H2 & H3). rewrite H1, H2.
      eapply simR_pre; [apply sim_follow; intros; apply H3|tauto].
    - apply sim_getDisallow; [unfold set; tauto|]. apply sim_if; [apply sim_fail|].
      eapply sim_bind_eq; [apply simR_any, sim_Skip|]. intros; apply sim_ret_eq. }
  intros v'. apply sim_bind_next_st; auto. intros c. apply sim_if.
  { apply sim_bind_inc_Q with (Q := fun it => set it /\ len (S n) it); auto. apply sim_ret_eq. }
  apply sim_if; [|apply sim_fail]. apply (sim_bind_inc_dec set n c); auto.
  apply sim_bind_next_st; auto. intros c2. apply sim_if; [apply sim_fail|].
  apply sim_bind_inc_Q with (Q := fun it => set it /\ len n it); auto.
Qed.
Definition p_structDecoder (find : bytes -> option nat) (fields : list pfieldInfo) : pdecoder := fun _ old =>
  pbind p_nextToken (fun c =>
  if c =? c_n then p_readNull old
  else if negb (c =? cLBRACE) then pfail (EUnexpectedByte c cLBRACE c_n)
  else
    pbind p_inc (fun _ =>
    pbind p_nextToken (fun c2 =>
    if c2 =? cRBRACE then pbind p_inc (fun _ => pret old)
    else if negb (c2 =? cQUOTE) then pfail (EUnexpectedByte c2 cRBRACE cQUOTE)
    else pbind p_inc (fun _ => p_fuel (fun n => p_structLoop n find fields old))))).
Lemma sim_structDecoder find ms ps : Forall2 simF ms ps ->
  (forall k i, find k = Some i -> (i < length ms)%nat) ->
  simD (structDecoder F32 F64 C E find ms) (p_structDecoder find ps).
Proof.
  intros HF Hfind o old. unfold structDecoder, p_structDecoder. apply sim_bind_next_st; auto. intros c.
  apply sim_if; [apply sim_readNull_s|]. apply sim_if; [apply sim_fail|].
  apply sim_bind_inc_st; auto. apply sim_bind_next_st; auto. intros c2.
  apply sim_if. { apply sim_bind_inc_st with (Q := set); auto. apply sim_ret_eq. }
  apply sim_if; [apply sim_fail|]. apply sim_bind_inc_st with (Q := set); auto.
  apply (sim_fuel_total set (fun n => structLoop F32 F64 C E n find ms old) (fun n => p_structLoop n find ps old)).
  intros n. now apply sim_structLoop.
Qed.

Definition p_emptyObjectDecoder : pdecoder := fun _ old =>
  pbind p_nextToken (fun c =>
  pbind p_inc (fun _ =>
  if c =? c_n then pbind (p_expectBytes (bs "ull")) (fun _ => pret old)
  else if c =? cLBRACE then
    if d then
      pbind p_nextToken (fun c2 =>
      pbind p_inc (fun _ =>
      if negb (c2 =? cRBRACE) then pfail (EUnexpectedByte c2 cRBRACE 0) else pret old))
    else pbind (p_skipFunctions c) (fun _ => pret old)
  else pfail (EUnexpectedByte c cLBRACE c_n))).
Lemma sim_emptyObjectDecoder : simD (emptyObjectDecoder F32 F64 C) p_emptyObjectDecoder.
Proof.
  intros o old. unfold emptyObjectDecoder, p_emptyObjectDecoder. apply sim_bind_next_st; auto. intros c.
  apply sim_bind_inc_st; auto. apply sim_if; [apply sim_expect_ret|]. apply sim_if; [|apply sim_fail].
  apply sim_getDisallow; [unfold set; tauto|]. apply sim_if.
  - apply sim_bind_next_st; auto. intros c2. apply sim_bind_inc_st; auto. apply sim_if; [apply sim_fail|apply sim_ret_eq].
  - eapply sim_bind_eq; [apply sim_skipFunctions|]. intros; apply sim_ret_eq.
Qed.

Definition p_efaceDecoder (dec : ty -> pdecoder) : pdecoder := fun _ old =>
  match old with
  | VIface o =>
      match heldPtr F32 F64 C E o with
      | None => pbind (p_Read F64 b) (fun g => pret (of_read F32 F64 C g))
      | Some (t, v) =>
          pbind p_nextToken (fun c =>
          if c =? c_n then
            p_readNull (if isPtr F32 F64 C E t then VIface (Some (TPtr t, VPtr (Some (VPtr None)))) else VIface None)
          else
            pbind (dec t noOpts v) (fun v' =>
            pret (VIface (option_map (fun p => (fst p, VPtr (Some v'))) o))))
      end
  | _ => pfail errType
  end.
Lemma sim_efaceDecoder m p : (forall t, simD (m t) (p t)) -> simD (efaceDecoder F32 F64 C E m) (p_efaceDecoder p).
Proof.
  intros H o old. unfold efaceDecoder, p_efaceDecoder. destruct old; try apply sim_fail.
  destruct (heldPtr F32 F64 C E o0) as [[t v]|].
  - apply sim_bind_next_st; auto. intros c. apply sim_if; [apply sim_readNull_s|].
    eapply simR_pre; [apply sim_bind_st; [apply stable_set|apply H|intros; apply sim_ret_eq]|tauto].
  - eapply sim_bind_eq; [|intros; apply sim_ret_eq]. eapply simR_pre; [apply sim_Read|unfold set; tauto].
Qed.
Definition p_ifaceDecoder (dec : ty -> pdecoder) : pdecoder := fun _ old =>
  pbind p_nextToken (fun c =>
  if c =? c_n then p_readNull (VIface None)
  else
    match old with
    | VIface None => pfail ErrEmptyIFace
    | VIface (Some (t, v)) =>
        match under t, v with
        | TPtr _, VPtr None => pfail ErrNilPointerReceiver
        | TPtr t', VPtr (Some x) => pbind (dec t' noOpts x) (fun x' => pret (VIface (Some (t, VPtr (Some x')))))
        | _, _ => pfail (if nilWord F32 F64 C v then ErrNilPointerReceiver else ErrPointerReceiver)
        end
    | _ => pfail errType
    end).
Lemma sim_ifaceDecoder m p : (forall t, simD (m t) (p t)) -> simD (ifaceDecoder F32 F64 C E m) (p_ifaceDecoder p).
Proof.
  intros H o old. unfold ifaceDecoder, p_ifaceDecoder. apply sim_bind_next_st; auto. intros c.
  apply sim_if; [apply sim_readNull_s|]. destruct old as [ | | | | | | | | | | | |[[t v]|]]; try apply sim_fail.
  destruct (under t); try apply sim_fail; destruct v as [ | | | | | | |[x|]| | |[mm|]| | ]; try apply sim_fail.
  eapply simR_pre; [apply sim_bind_st; [apply stable_set|apply H|intros; apply sim_ret_eq]|tauto].
Qed.

Variable sf : Z -> Z.
Variable cs : bool.
Lemma firstIndex_lt q : forall names i, firstIndex q names = Some i -> (i < length names)%nat.
Proof.
  induction names as [|n r IH]; intros i H; simpl in H; [discriminate|]. destruct (q n); [injection H as <-; simpl; lia|].
  destruct (firstIndex q r) as [j|]; [|discriminate]. injection H as <-. specialize (IH j eq_refl). simpl. lia.
Qed.
Definition below (n : nat) (m : index) : Prop := Forall (fun p => (snd p < n)%nat) m.
Lemma below_get n m k i : below n m -> indexGet m k = Some i -> (i < n)%nat.
Proof.
  induction 1 as [|[k' i'] m H Hm IH]; simpl; [discriminate|]. destruct (bytes_eqb k' k); [|auto]. intros [= <-]. exact H.
Qed.
Lemma below_set n m k i : below n m -> (i < n)%nat -> below n (indexSet m k i).
Proof.
  intros H Hi. induction H as [|[k' i'] m H Hm IH]; simpl; [repeat constructor; auto|].
  destruct (bytes_eqb k' k); constructor; auto.
Qed.
Lemma below_S n m : below n m -> below (S n) m.
Proof. apply Forall_impl. intros a0 H. lia. Qed.
Lemma df_build_below names : forall df,
  below (df_len df) (df_nameIndex df) -> below (df_len df) (df_nameIndexUpper df) ->
  let df' := fold_left (df_add sf) names df in
  df_len df' = (df_len df + length names)%nat /\ below (df_len df') (df_nameIndex df') /\ below (df_len df') (df_nameIndexUpper df').
Proof.
  induction names as [|n r IH]; intros df H1 H2; cbn [fold_left]; cbv zeta.
  - simpl. split; [lia|auto].
  - destruct (IH (df_add sf df n)) as (E1 & E2 & E3).
    + unfold df_add. cbn [df_len df_nameIndex]. apply below_set; [apply below_S; auto|lia].
    + unfold df_add. cbn [df_len df_nameIndexUpper].
      destruct (indexGet (df_nameIndexUpper df) (toUpper sf n [])); [apply below_S; auto|].
      apply below_set; [apply below_S; auto|lia].
    + split; [|split; auto]. rewrite E1. unfold df_add. cbn [df_len]. simpl. lia.
Qed.
Lemma findField_lt names k i : findField sf cs names k = Some i -> (i < length names)%nat.
Proof.
  unfold findField. destruct names as [|n [|n2 r]]; [discriminate| |].
  - unfold findOne. destruct ((if cs then bytes_eqb else foldFunc sf n) k n); [intros [= <-]; simpl; lia|discriminate].
  - set (names := n :: n2 :: r). destruct (length names <=? 10)%nat.
    + unfold findSmall. destruct (firstIndex (fun n => bytes_eqb n k) names) as [j|] eqn:Ej.
      { intros [= <-]. now apply firstIndex_lt in Ej. }
      destruct cs; [discriminate|]. apply firstIndex_lt.
    + unfold findLarge. destruct (df_build_below names df_init) as (E1 & E2 & E3); [constructor|constructor|].
      fold (df_build sf names) in *. rewrite E1 in *. cbn [df_init df_len] in *. rewrite Nat.add_0_l in *.
      destruct (indexGet (df_nameIndex (df_build sf names)) k) as [j|] eqn:Ej.
      { intros [= <-]. exact (below_get _ _ _ _ E2 Ej). }
      destruct cs; [discriminate|]. intros H. exact (below_get _ _ _ _ E3 H).
Qed.

Fixpoint p_decode (fuel : nat) (t : ty) : pdecoder :=
  match fuel with
  | O => fun _ _ => pfail errDepth
  | S f =>
      match t with
      | TBool => p_boolDecoder
      | TInt s w => p_intDecoder s w
      | TFloat32 => p_floatDecoder F32 VFloat32
      | TFloat64 => p_floatDecoder F64 VFloat64
      | TString => p_stringDecoder
      | TNumber => p_jsonNumberDecoder
      | TRaw => p_jsonRawMessageDecoder
      | TJson id => p_jsonUnmarshalerDecoder id
      | TText id => p_textUnmarshalerDecoder id
      | TPtr t => p_pointerDecoder (zero t) (p_decode f t)
      | TArray _ t => p_arrayDecoder (zero t) (p_decode f t)
      | TSlice t =>
          p_sliceDecoder (match under t with TInt false W8 => true | _ => false end) (zero t) (p_decode f t)
      | TMap k t => match p_keyDecoder k with Some kd => p_mapDecoder k kd (zero t) (p_decode f t) | None => fun _ _ => pfail TypeNotSupportedError end
      | TStruct _ [] => p_emptyObjectDecoder
      | TStruct _ fields =>
          p_structDecoder (findField sf cs (map f_name fields))
            (map (fun fd => pInfo (f_path fd) (f_quoted fd) (p_decode f (f_type fd))) fields)
      | TEface => p_efaceDecoder (p_decode f)
      | TIface => p_ifaceDecoder (p_decode f)
      | TRef n => p_decode f (te_type _ _ _ E n)
      | TBad => fun _ _ => pfail TypeNotSupportedError
      end
  end.
Theorem sim_decode : forall fuel t, simD (decode F32 F64 C E sf cs fuel t) (p_decode fuel t).
Proof.
  induction fuel as [|f IH]; intros t; [intros o v; apply sim_fail|].
  cbn [decode p_decode]. destruct t; try (intros o v; first
    [ apply sim_boolDecoder | apply sim_intDecoder | apply sim_floatDecoder | apply sim_stringDecoder | apply sim_jsonNumberDecoder
    | apply sim_jsonRawMessageDecoder | apply sim_jsonUnmarshalerDecoder | apply sim_textUnmarshalerDecoder | apply sim_fail ]).
  - apply sim_pointerDecoder, IH.
  - apply sim_arrayDecoder, IH.
  - apply sim_sliceDecoder, IH.
  - pose proof (sim_keyDecoder k) as HK. destruct (keyDecoder F32 F64 C k) as [km|], (p_keyDecoder k) as [kp|]; try contradiction.
    + apply sim_mapDecoder; [exact HK|apply IH].
    + intros o v. apply sim_fail.
  - destruct fields as [|f0 fs]; [apply sim_emptyObjectDecoder|].
    apply sim_structDecoder.
    + generalize (f0 :: fs) as l. induction l as [|g l IHl]; simpl; constructor; auto. split; [reflexivity|]. split; [reflexivity|apply IH].
    + intros k i H. apply findField_lt in H. rewrite map_length in *. exact H.
  - apply sim_efaceDecoder, IH.
  - apply sim_ifaceDecoder, IH.
  - apply IH.
Qed.
End SimVal.
