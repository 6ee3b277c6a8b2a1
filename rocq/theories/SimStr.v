(** The string readers refine pure functions on the remaining bytes. *)
From Coq Require Import String ZArith List Bool Lia Arith.
From Verif Require Import Base ModelIter ModelStack ModelSkip ModelStr Sim SimLib SimSkip.
Import ListNotations.
Local Open Scope Z_scope.

Definition p_readU4 : P Z :=
  p_scan (fun (st : nat * Z) c =>
          let '(remain, r) := st in
          if hexValue c =? invalidHex then PFail (EInvalidUnicodeChar c)
          else
            let r' := Z.shiftl r 4 + hexValue c in
            match remain with
            | 1%nat => PStop 1 (pret r')
            | _ => PNext ((remain - 1)%nat, r')
            end) (fun _ => p_eof) (4%nat, 0).
Lemma sim_readU4 Pre : simR Pre readU4 p_readU4 eqR.
Proof.
  apply (sim_scan _ _ _ _ _ (fun _ (s : nat * Z) => s)).
  - intros it i [n s] c W Hi Hl E. cbv zeta. split_ifs; auto. destruct n as [|[|n]]; auto.
    eexists; split; [reflexivity|]. apply sim_ret_eq.
  - apply noEnd_ok'.
  - apply err_ok.
  - intros [n s] c q H. exfalso. revert H. cbv zeta. split_ifs; [|destruct n as [|[|n]]]; discriminate.
Qed.
Lemma shrinks_readU4 : shrinks p_readU4.
Proof.
  apply shrinks_pscan.
  - intros [n s] c k q H. cbv zeta in H. split_ifs_in H; [discriminate|]. destruct n as [|[|n]]; try discriminate.
    injection H as <- <-. apply shrinks_pret.
  - intros [n s] c q H. cbv zeta in H. split_ifs_in H; [discriminate|]. destruct n as [|[|n]]; discriminate.
  - intros; apply shrinks_eof.
Qed.

Fixpoint p_readSurrogate (fuel : nat) (b : bytes) (r : Z) : P bytes :=
  match fuel with
  | O => fuel0
  | S f =>
      if utf16_IsSurrogate r then
        pbind p_peek (fun c =>
        if negb (c =? cBSLASH) then pret (appendRune b r)
        else
          pbind p_inc (fun _ =>
          pbind p_peek (fun c2 =>
          if negb (c2 =? c_u) then
            if escapeMap c2 =? noEscape then pfail (EInvalidEscapeChar c2)
            else pbind p_inc (fun _ => pret (appendRune b r ++ [escapeMap c2]))
          else
            pbind p_inc (fun _ =>
            pbind p_readU4 (fun r2 =>
            if utf16_DecodeRune r r2 =? runeError then p_readSurrogate f (appendRune b r) r2
            else pret (appendRune b (utf16_DecodeRune r r2)))))))
      else pret (appendRune b r)
  end.
Lemma len_inc c n : simR (fun it => peek c it /\ len (S n) it) incHead p_inc (fun _ _ it => len n it).
Proof.
  intros it W [Pk L]. generalize (sim_incHead c it W Pk). unfold incHead.
  intros (W' & S & [(a & Ha & Hs & _)|D0]). 2:{ split; auto. split; auto. right; auto. }
  split; auto. split; auto. left. simpl. exists tt. split; auto.
  split; auto. destruct (peek_stream _ _ Pk) as [l E]. unfold len in *.
  rewrite E in *. rewrite Hs. simpl in *. lia.
Qed.
Lemma sim_bind_incdec {A B} n c (m : M A) (q : P B) R :
  simR (len n) m q R ->
  simR (fun it => peek c it /\ len (S n) it) (bind incHead (fun _ => m)) (pbind p_inc (fun _ => q)) R.
Proof. intros H. eapply sim_bind; [apply len_inc|]. intros a b. apply H. Qed.
Lemma sim_bind_byte_len {B D} n (f : Z -> M B) (q : Z -> P D) R :
  (forall c, simR (fun it => peek c it /\ len n it) (f c) (q c) R) ->
  simR (len n) (bind nextByte f) (pbind p_peek q) R.
Proof.
  intros H. eapply sim_bind.
  - eapply simR_pre; [apply (simR_len _ _ _ _ n sim_nextByte)|]. unfold anyP; auto.
  - intros a c. apply (simR_pure (a = c)); [now intros it [[? ?] ?]|]. intros ->.
    eapply simR_pre; [apply H|]. now intros it [[? ?] ?].
Qed.
Lemma sim_readSurrogate fuel : forall b r,
  simR (len fuel) (readSurrogate fuel b r) (p_readSurrogate fuel b r) eqR.
Proof.
  induction fuel as [|f IH]; intros b r; [apply sim_fuel|].
  cbn [readSurrogate p_readSurrogate].
  apply sim_if; intros; [|apply sim_ret_eq]. apply sim_bind_byte_len. intros c.
  apply sim_if; intros; [apply sim_ret_eq|]. apply sim_bind_incdec.
  apply sim_bind_byte_len. intros c2.
  apply sim_if; intros.
  - sim_auto. eapply simR_pre; [apply (sim_bind_inc c2), sim_ret_eq|]. now intros it [? ?].
  - apply sim_bind_inc_len. apply sim_bind_len; [apply sim_readU4|]. intros r2. cbv zeta.
    apply sim_if; intros; [apply IH|apply sim_ret_eq].
Qed.
Lemma shrinks_fuel0 {A} : shrinks (fuel0 (A := A)).
Proof. intros f l a r H. discriminate. Qed.
Lemma shrinks_readSurrogate fuel : forall b r, shrinks (p_readSurrogate fuel b r).
Proof.
  induction fuel as [|f IH]; intros b r; [apply shrinks_fuel0|].
  cbn [p_readSurrogate]. apply shrinks_if; [|apply shrinks_pret].
  apply shrinks_pbind; [apply shrinks_peek|]. intros c.
  apply shrinks_if; [apply shrinks_pret|].
  apply shrinks_pbind; [apply shrinks_inc|]. intros _.
  apply shrinks_pbind; [apply shrinks_peek|]. intros c2.
  apply shrinks_if.
  - apply shrinks_if; [apply shrinks_pfail|]. apply shrinks_pbind; [apply shrinks_inc|]. intros; apply shrinks_pret.
  - apply shrinks_pbind; [apply shrinks_inc|]. intros _.
    apply shrinks_pbind; [apply shrinks_readU4|]. intros r2.
    apply shrinks_if; [apply IH|apply shrinks_pret].
Qed.

Definition p_readEscapedChar (b : bytes) : P bytes :=
  pbind p_peek (fun c =>
  if negb (escapeMap c =? noEscape) then pbind p_inc (fun _ => pret (b ++ [escapeMap c]))
  else if negb (c =? c_u) then pfail (EInvalidEscapeChar c)
  else
    pbind p_inc (fun _ =>
    pbind p_readU4 (fun r => p_fuel (fun n => p_readSurrogate n b r)))).
Lemma sim_readEscapedChar Pre b : simR Pre (readEscapedChar b) (p_readEscapedChar b) eqR.
Proof.
  apply simR_any. eapply sim_bind_peek; [apply sim_nextByte|]. intros c. sim_auto.
  eapply sim_bind_eq; [apply sim_readU4|]. intros r.
  apply (sim_fuel_total anyP (fun n => readSurrogate n b r)). intros n.
  eapply simR_pre; [apply sim_readSurrogate|]. now intros it [? ?].
Qed.
Lemma shrinks_readEscapedChar b : shrinks (p_readEscapedChar b).
Proof.
  apply shrinks_pbind; [apply shrinks_peek|]. intros c.
  apply shrinks_if; [apply shrinks_pbind; [apply shrinks_inc|intros; apply shrinks_pret]|].
  apply shrinks_if; [apply shrinks_pfail|].
  apply shrinks_pbind; [apply shrinks_inc|]. intros _.
  apply shrinks_pbind; [apply shrinks_readU4|]. intros r f l a r' H.
  eapply shrinks_readSurrogate, H.
Qed.

Definition pb_string (buf : bytes) (c : Z) : psres bytes bytes :=
  if c <? cSPACE then PFail (EInvalidStringChar c)
  else if c =? cQUOTE then PStop 1 (pret buf)
  else if c =? cBSLASH then PResume (p_readEscapedChar buf)
  else PNext (buf ++ [c]).
Definition p_string (buf : bytes) : P bytes := p_scan pb_string (fun _ => p_eof) buf.
Lemma presume_string : presume_ok pb_string.
Proof.
  intros t c q H. unfold pb_string in H. split_ifs_in H; try discriminate.
  injection H as <-. apply shrinks_readEscapedChar.
Qed.
Lemma seg_ok it i : wf it -> (it_head it <= i)%nat -> (i <= it_tail it)%nat ->
  seg it i = Some (sl (it_buffer it) (it_head it) i).
Proof. intros W Hi Hl. unfold seg. apply slice_sl; destruct W; lia. Qed.
Lemma sim_slow Pre buf : simR Pre (readStringAsSliceSlow buf) (p_string buf) eqR.
Proof.
  apply (simR_ext _ _ (p_scan pb_string (fun _ => p_eof) (buf ++ []))).
  { intros. rewrite app_nil_r. reflexivity. }
  apply (sim_scan _ _ _ pb_string _ (fun sg (s : bytes) => s ++ sg)).
  - intros it i s c W Hi Hl E. cbv zeta. rewrite (seg_ok it i) by (auto; lia).
    unfold pb_string. split_ifs; auto.
    + eexists; split; [reflexivity|]. apply sim_ret_eq.
    + eexists; split; [reflexivity|]. split; [apply shrinks_readEscapedChar|].
      eapply simR_post; [apply sim_readEscapedChar|]. intros a b it' ->. apply app_nil_r.
    + now rewrite app_assoc.
  - intros it s W. rewrite (seg_ok it _ W) by (destruct W; lia). eexists; split; [reflexivity|]. now rewrite app_nil_r.
  - apply err_ok.
  - apply presume_string.
Qed.
Lemma sim_setTmp Pre b : simR Pre (setTmp b) (pret tt) eqR.
Proof.
  intros it W _. unfold setTmp, pret. split; [now destruct W; constructor|].
  split; [|left; exists tt; repeat split; auto].
  exists []. constructor; simpl; rewrite ?app_nil_r; auto.
Qed.
Lemma pbind_pret {A} (p : P A) f l : pbind p pret f l = p f l.
Proof. unfold pbind, pret. destruct (p f l); auto. Qed.
Lemma sim_thenTmp Pre (m : M bytes) p :
  simR Pre m p eqR -> simR Pre (do b <- m; setTmp b ;; ret b) p eqR.
Proof.
  intros H. apply (simR_ext _ _ (pbind p (fun b => pbind (pret tt) (fun _ => pret b)))).
  { intros. apply pbind_pret. }
  eapply sim_bind_eq; eauto. intros b. eapply sim_bind_eq; [apply sim_setTmp|]. intros; apply sim_ret_eq.
Qed.
(** run a refined action after moving the head *)
Lemma simR_at {A} (m : M A) p h it :
  simR anyP m p eqR -> wf it -> (it_head it <= h)%nat -> (h <= it_tail it)%nat ->
  let '(r, it') := m (set_head h it) in
  wf it' /\ step_ok it it' /\
  outcome it it' r (p (fin it) (sl (it_buffer it) h (it_tail it) ++ rdata it)) eqR.
Proof.
  intros H W H1 H2. specialize (H _ (wf_set_head _ _ W H2) I).
  destruct (m (set_head h it)) as [r it']. destruct H as (W' & S & H). split; auto. split.
  { eapply step_trans; [|exact S]. eexists. apply moved_set_head; auto. }
  destruct H as [H|[Dd ->]]; [left; exact H|right]. split; [|reflexivity].
  exact (mv_dirty _ _ _ (moved_set_head it h W H1 H2) Dd).
Qed.
Lemma sim_fast it n : forall i, wf it -> (it_head it <= i)%nat -> (i <= it_tail it)%nat -> n = (it_tail it - i)%nat ->
  let '(r, it') := readStringFast n i it in
  wf it' /\ step_ok it it' /\
  outcome it it' r (p_string (sl (it_buffer it) (it_head it) i) (fin it) (sl (it_buffer it) i (it_tail it) ++ rdata it)) eqR.
Proof.
  induction n as [|n IH]; intros i W Hi Hl Hn; cbn [readStringFast].
  - assert (i = it_tail it) by lia. subst i. rewrite (seg_ok it _ W) by lia. rewrite sl_nil.
    set (buf := sl (it_buffer it) (it_head it) (it_tail it)).
    assert (W1 : wf (set_head (it_tail it) it)) by (apply wf_set_head; auto).
    assert (M1 := moved_set_head it (it_tail it) W (wf_ht _ W) ltac:(lia)).
    assert (HM := readMore_ok _ W1 eq_refl). unfold bind at 1.
    destruct (readMore (set_head (it_tail it) it)) as [r it2]. destruct HM as (W2 & M2 & _ & HM).
    assert (Hst : stream it2 = rdata it).
    { destruct M2. simpl in mv_stream. rewrite <- mv_stream.
      unfold stream, window, rdata; simpl. rewrite Nat.sub_diag. reflexivity. }
    destruct HM as [(-> & L2 & RL)|[(-> & Sn & Sn2)|[-> Dd]]].
    + assert (H := sim_thenTmp anyP _ _ (sim_slow anyP buf) it2 W2 I).
      destruct ((do b <- readStringAsSliceSlow buf; setTmp b ;; ret b) it2) as [r3 it3].
      destruct H as (W3 & S3 & H3). split; auto. split.
      { eapply step_trans; [eexists; apply M1|]. eapply step_trans; [eexists; apply M2|]. auto. }
      unfold outcome in H3. rewrite Hst, (mv_fin _ _ _ M2) in H3. simpl app.
      destruct H3 as [H3|[Dd ->]]; [left; exact H3|right]. split; [|reflexivity].
      exact (mv_dirty _ _ _ M1 (mv_dirty _ _ _ M2 Dd)).
    + split; auto. split.
      { eapply step_trans; [eexists; apply M1|]. eexists; apply M2. }
      left. rewrite Sn2 in Hst. rewrite <- Hst. reflexivity.
    + split; auto. split.
      { eapply step_trans; [eexists; apply M1|]. eexists; apply M2. }
      right. split; [exact (mv_dirty _ _ _ M1 Dd)|reflexivity].
  - destruct (nth_error_ex (it_buffer it) i) as [c E]. { destruct W; lia. }
    rewrite E. rewrite (sl_cons _ _ _ _ E) by lia. simpl app. unfold p_string.
    rewrite p_scan_cons by apply presume_string.
    rewrite (seg_ok it i W) by lia. unfold pb_string at 1.
    destruct (c <? cSPACE) eqn:E1. { split; auto. split; [apply step_refl|left; reflexivity]. }
    destruct (c =? cQUOTE) eqn:E2.
    { assert (H := simR_at (setTmp (sl (it_buffer it) (it_head it) i) ;; ret (sl (it_buffer it) (it_head it) i))
                     (pbind (pret tt) (fun _ => pret (sl (it_buffer it) (it_head it) i))) (S i) it).
      apply H; auto; try lia. eapply sim_bind_eq; [apply sim_setTmp|]. intros; apply sim_ret_eq. }
    destruct (c =? cBSLASH) eqn:E3.
    { set (buf := sl (it_buffer it) (it_head it) i).
      assert (H := simR_at (do b <- readEscapedChar buf; do b' <- readStringAsSliceSlow b; setTmp b' ;; ret b')
                     (pbind (p_readEscapedChar buf) p_string) (S i) it).
      destruct ((do b <- readEscapedChar buf; do b' <- readStringAsSliceSlow b; setTmp b' ;; ret b') (set_head (S i) it)) as [r it'].
      destruct H as (W' & St & H); auto; try lia.
      - eapply sim_bind_eq; [apply sim_readEscapedChar|]. intros b. apply sim_thenTmp, sim_slow. }
    specialize (IH (S i) W ltac:(lia) ltac:(lia) ltac:(lia)).
    rewrite (sl_snoc _ _ _ _ E) in IH by lia. exact IH.
Qed.
Definition p_readStringAsSlice : P bytes := p_string [].
Lemma sim_readStringAsSlice Pre : simR Pre readStringAsSlice p_readStringAsSlice eqR.
Proof.
  intros it W _. unfold readStringAsSlice.
  assert (H := sim_fast it (it_tail it - it_head it) (it_head it) W ltac:(lia) ltac:(destruct W; lia) eq_refl).
  rewrite sl_nil in H. exact H.
Qed.
Definition p_expectQuote : P unit :=
  pbind p_nextToken (fun c =>
  if negb (c =? cQUOTE) then pfail (EUnexpectedByte c cQUOTE 0) else p_inc).
Lemma sim_expectQuote Pre : simR Pre expectQuote p_expectQuote eqR.
Proof.
  apply simR_any. eapply sim_bind_peek; [apply sim_nextToken|]. intros c. sim_auto. apply sim_inc.
Qed.
Definition p_ReadString : P bytes := pbind p_expectQuote (fun _ => p_readStringAsSlice).
Lemma sim_ReadString : sim ReadString p_ReadString.
Proof. eapply sim_bind_eq; [apply sim_expectQuote|]. intros; apply sim_readStringAsSlice. Qed.
Lemma sim_ReadStringAsSlice : sim ReadStringAsSlice p_ReadString.
Proof. apply sim_ReadString. Qed.
Lemma sim_ReadStringAndAppend buf :
  sim (ReadStringAndAppend buf) (pbind p_ReadString (fun s => pret (buf ++ s))).
Proof.
  apply (simR_ext _ _ (pbind p_expectQuote (fun _ => pbind p_readStringAsSlice (fun s => pret (buf ++ s))))).
  { intros f l. unfold p_ReadString, pbind. destruct (p_expectQuote f l); auto. }
  eapply sim_bind_eq; [apply sim_expectQuote|]. intros.
  eapply sim_bind_eq; [apply sim_readStringAsSlice|]. intros; apply sim_ret_eq.
Qed.
Definition p_readObjectField : P bytes :=
  pbind p_readStringAsSlice (fun field =>
  pbind p_nextToken (fun c =>
  if negb (c =? cCOLON) then pfail (EUnexpectedByte c cCOLON 0)
  else pbind p_inc (fun _ => pret field))).
Lemma sim_readObjectField Pre : simR Pre readObjectField p_readObjectField eqR.
Proof.
  eapply sim_bind_eq; [apply sim_readStringAsSlice|]. intros field.
  eapply sim_bind_peek; [apply sim_nextToken|]. intros c. sim_auto.
Qed.
