(** Raw capture: the returned bytes are exactly the bytes consumed. *)
From Coq Require Import String ZArith List Bool Lia Arith.
From Verif Require Import Base ModelIter ModelStack ModelSkip Sim SimLib SimSkip.
Import ListNotations.
Local Open Scope Z_scope.

(** the bytes dropped by [p] *)
Definition p_captured {A} (pre : bytes) (p : P A) : P bytes := fun f l =>
  match p f l with
  | POk _ r => POk (pre ++ firstn (length l - length r) l) r
  | PErr e => PErr e
  end.

Lemma app_len_inj {A} (a b c d : list A) : length a = length b -> a ++ c = b ++ d -> a = b /\ c = d.
Proof.
  revert b. induction a as [|x a IH]; intros [|y b] H E; try discriminate; auto.
  injection E as -> E. apply IH in E; [|now injection H]. destruct E as [-> ->]. auto.
Qed.
Lemma wf_set_capture b it : wf it -> (1 <= it_tail it)%nat -> wf (set_capture b it).
Proof. intros [] H. constructor; simpl; auto. Qed.
Lemma wf_unset_capture b it : wf it -> it_capture it = true -> wf (set_capture b it).
Proof. intros [] H. constructor; simpl; auto. Qed.
Lemma moved_set_capture it it' u b : it_capture it = b ->
  moved (set_capture true it) it' u -> moved it (set_capture b it') u.
Proof.
  intros Hb M. destruct M. constructor; auto. simpl. congruence.
Qed.
Lemma moved_start_capture it it' u : moved (set_capture true it) it' u -> moved it it' u.
Proof. intros []. constructor; auto. Qed.

Lemma withCapture_slice {A} (m : M A) b it :
  (withCapture m ;; sliceFrom b) it = withCapture (m ;; sliceFrom b) it.
Proof.
  unfold bind, withCapture, sliceFrom. destruct (m (set_capture true it)) as [[a|e| |] it']; auto.
  simpl. destruct (slice _ _ _); auto.
Qed.

Lemma captured_ok {A B} (m : M A) (p : P B) (R : A -> B -> iter -> Prop) it k :
  wf it -> (1 <= it_tail it)%nat -> (k <= it_head it)%nat ->
  simR (fun it' => it' = set_capture true it) m p R ->
  let '(r, it') := withCapture (m ;; sliceFrom (it_head it - k)) it in
  wf it' /\ step_ok it it' /\
  outcome it it' r (p_captured (sl (it_buffer it) (it_head it - k) (it_head it)) p (fin it) (stream it)) eqR.
Proof.
  intros W T K H. unfold withCapture, bind, p_captured.
  specialize (H _ (wf_set_capture true it W T) eq_refl).
  change (fin (set_capture true it)) with (fin it) in H.
  change (stream (set_capture true it)) with (stream it) in H.
  destruct (m (set_capture true it)) as [r it1]. destruct H as (W1 & [u M1] & H).
  unfold outcome in H. change (fin (set_capture true it)) with (fin it) in H.
  assert (Hc1 : it_capture it1 = true) by (apply (mv_capture _ _ _ M1); auto).
  assert (Hs : stream it = u ++ stream it1).
  { rewrite <- (mv_stream _ _ _ M1). reflexivity. }
  destruct H as [H|[Dd ->]].
  2:{ split; [now apply wf_unset_capture|]. split; [exists u; now apply moved_set_capture|].
      right. auto. }
  unfold outcome. destruct (p (fin it) (stream it)) as [b rest|e].
  - destruct H as (a & -> & Es & HR). unfold sliceFrom.
    assert (Hk : firstn (it_head it1) (it_buffer it1) = firstn (it_head it) (it_buffer it) ++ u).
    { apply (mv_kept _ _ _ M1). reflexivity. }
    assert (Hl : it_head it1 = (it_head it + length u)%nat).
    { apply (f_equal (@length Z)) in Hk. rewrite app_length, !firstn_length in Hk.
      destruct W1, W. lia. }
    rewrite slice_sl.
    2: lia. 2: destruct W1; lia.
    split; [now apply wf_unset_capture|]. split.
    { exists u. now apply moved_set_capture. }
    left. eexists. split; [reflexivity|]. split; [exact Es|]. unfold eqR.
    replace (length (stream it) - length rest)%nat with (length u).
    2:{ rewrite Hs, app_length, Es. lia. }
    rewrite Hs, firstn_app, Nat.sub_diag, firstn_all, firstn_O, app_nil_r.
    assert (E1 : firstn (it_head it1) (it_buffer it1)
                 = firstn (it_head it - k) (it_buffer it1) ++ sl (it_buffer it1) (it_head it - k) (it_head it1)).
    { apply firstn_sl. lia. }
    assert (E2 : firstn (it_head it) (it_buffer it)
                 = firstn (it_head it - k) (it_buffer it) ++ sl (it_buffer it) (it_head it - k) (it_head it)).
    { apply firstn_sl. lia. }
    rewrite E1, E2, <- app_assoc in Hk. apply app_len_inj in Hk; [tauto|].
    rewrite !firstn_length. destruct W1, W. lia.
  - subst r. split; [now apply wf_unset_capture|]. split; auto.
    exists u. now apply moved_set_capture.
Qed.

Lemma peek_tail c it : peek c it -> (1 <= it_tail it)%nat.
Proof. intros [? ?]. lia. Qed.

Definition p_SkipRaw : P bytes :=
  pbind p_nextToken (fun c => p_captured [] (pbind p_inc (fun _ => p_skipFunctions c))).
Lemma sim_SkipRaw : sim SkipRaw p_SkipRaw.
Proof.
  eapply sim_bind_peek; [apply sim_nextToken|]. intros c it W Pk. cbv zeta.
  rewrite withCapture_slice.
  assert (H := captured_ok (incHead ;; skipFunctions c) (pbind p_inc (fun _ => p_skipFunctions c))
                 eqR it 0 W (peek_tail _ _ Pk) ltac:(lia)).
  rewrite Nat.sub_0_r, sl_nil in H.
  destruct (withCapture (incHead ;; skipFunctions c;; sliceFrom (it_head it)) it) as [r it'] eqn:E.
  assert (E' : withCapture ((incHead ;; skipFunctions c);; sliceFrom (it_head it)) it = (r, it')).
  { rewrite <- E. unfold withCapture, bind.
    destruct (incHead (set_capture true it)) as [[]]; auto. }
  rewrite E' in H. rewrite E'.
  destruct H as (W' & S & H).
  - eapply simR_pre; [apply (sim_bind_inc c), sim_skipFunctions|]. intros it0 ->. exact Pk.
  - split; auto.
Qed.
Definition p_AppendRaw (b0 : bytes) : P bytes := pbind p_SkipRaw (fun b => pret (b0 ++ b)).
Lemma sim_AppendRaw b0 : sim (AppendRaw b0) (p_AppendRaw b0).
Proof. eapply sim_bind_eq; [apply sim_SkipRaw|]. intros; apply sim_ret_eq. Qed.

Definition p_readNumberAsString (c : Z) : P bytes := p_captured [c] (p_skipNumber c).
Lemma prev_tail c it : wf it -> prev c it -> (1 <= it_tail it)%nat.
Proof. intros [] [? ?]. lia. Qed.
Lemma sim_readNumberAsString c : simR (prev c) (readNumberAsString c) (p_readNumberAsString c) eqR.
Proof.
  intros it W Pv. unfold readNumberAsString, p_readNumberAsString.
  assert (H := captured_ok (skipNumber c) (p_skipNumber c) eqR it 1 W (prev_tail _ _ W Pv)
                 (proj1 Pv) (sim_skipNumber _ c)).
  cbv zeta.
  destruct (withCapture (skipNumber c ;; sliceFrom (it_head it - 1)) it) as [r it'].
  destruct H as (W' & S & H). split; auto. split; auto.
  destruct Pv as [Hh Pv]. rewrite (sl_cons _ _ _ _ Pv) in H by lia.
  replace (Datatypes.S (it_head it - 1)) with (it_head it) in H by lia. rewrite sl_nil in H.
  exact H.
Qed.
Definition p_ReadNumber : P bytes :=
  pbind p_nextToken (fun c =>
  if negb (isNumberValue (valueTypeMap c)) then pfail (EUnexpectedByte c 0 0)
  else pbind p_inc (fun _ => p_readNumberAsString c)).
Lemma sim_ReadNumber : sim ReadNumber p_ReadNumber.
Proof.
  eapply sim_bind_peek; [apply sim_nextToken|]. intros c. sim_auto. apply sim_readNumberAsString.
Qed.
