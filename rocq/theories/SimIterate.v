(** Array and object iteration refines pure functions on the remaining bytes. *)
From Coq Require Import String ZArith List Bool Lia Arith.
From Verif Require Import Base ModelIter ModelStack ModelSkip ModelStr ModelIterate Sim SimLib SimSkip SimStr Spec StrFacts.
Import ListNotations.
Local Open Scope Z_scope.

Lemma sim_bind_inc_dec {A B} (Q : iter -> Prop) n c (m : M A) (q : P B) R :
  stable Q -> simR (fun it => Q it /\ len n it) m q R ->
  simR (fun it => peek c it /\ Q it /\ len (S n) it) (bind incHead (fun _ => m)) (pbind p_inc (fun _ => q)) R.
Proof.
  intros HQ H. eapply (sim_bind _ incHead p_inc (fun _ _ it => Q it /\ len n it)).
  - intros it W (Pk & Qi & L). generalize (sim_incHead c it W Pk). destruct (incHead it) as [r it'].
    intros (W' & S & K). split; auto. split; auto. unfold p_inc. destruct K as [K|K]; [left|right; auto].
    destruct K as (a & -> & Hs & _). exists a. split; auto. split; auto. split; [eapply HQ; eauto|].
    unfold len in *. rewrite Hs. destruct (stream it) as [|x l] eqn:E.
    + exfalso. destruct Pk as [Hh Hn]. assert (K := stream_length it W). rewrite E in K. simpl in K.
      unfold left_total in K. lia.
    + simpl in *. lia.
  - intros a b. exact H.
Qed.
Lemma sim_bind_inc_Q {A B} (Q : iter -> Prop) c (m : M A) (q : P B) R :
  stable Q -> simR Q m q R ->
  simR (fun it => peek c it /\ Q it) (bind incHead (fun _ => m)) (pbind p_inc (fun _ => q)) R.
Proof. apply sim_bind_inc_st. Qed.

Section CB.
Context {S0 : Type}.
Variable Q : iter -> Prop.
Hypothesis HQ : stable Q.

Section Arr.
Variables (cb : S0 -> M S0) (pcb : S0 -> P S0).
Hypothesis Hcb : forall s, simR Q (cb s) (pcb s) eqR.

Definition p_arrEnd (k : P S0) (s : S0) : P S0 :=
  pbind p_nextToken (fun c =>
  if c =? cCOMMA then pbind p_inc (fun _ => k)
  else if c =? cRBRACK then pbind p_inc (fun _ => pret s)
  else pfail (EUnexpectedByte c cCOMMA cRBRACK)).
Fixpoint p_arrLoop (fuel : nat) (s : S0) : P S0 :=
  match fuel with
  | O => fuel0
  | S f => pbind (pcb s) (fun s' => p_arrEnd (p_arrLoop f s') s')
  end.
Definition p_ArrayCB (s : S0) : P S0 :=
  pbind p_nextToken (fun c =>
  if negb (c =? cLBRACK) then pfail (EUnexpectedByte c cLBRACK 0)
  else
    pbind p_inc (fun _ =>
    pbind p_nextToken (fun c2 =>
    if c2 =? cRBRACK then pbind p_inc (fun _ => pret s)
    else p_fuel (fun n => p_arrLoop n s)))).
Lemma stable_QL n : stable (fun it => Q it /\ len n it).
Proof. apply stable_and; auto. apply stable_len. Qed.
Lemma sim_arrLoop fuel : forall s, simR (fun it => Q it /\ len fuel it) (arrayCB_loop fuel cb s) (p_arrLoop fuel s) eqR.
Proof.
  induction fuel as [|n IH]; intros s; [eapply simR_pre; [apply sim_fuel|]; now intros it [_ ?]|].
  cbn [arrayCB_loop p_arrLoop]. unfold p_arrEnd.
  apply sim_bind_st; [apply stable_QL| |].
  { eapply simR_pre; [apply Hcb|]. now intros it [? _]. }
  intros s'. apply sim_bind_next_st; [apply stable_QL|]. intros c.
  apply sim_if; intros.
  { eapply simR_pre; [apply (sim_bind_inc_dec Q n c); auto|]. tauto. }
  apply sim_if; intros; [|apply sim_fail].
  eapply simR_pre; [apply sim_bind_inc_Q with (Q := Q) (c := c); [auto|apply sim_ret_eq]|]. tauto.
Qed.
Lemma sim_ReadArrayCB s : simR Q (ReadArrayCB cb s) (p_ArrayCB s) eqR.
Proof.
  unfold ReadArrayCB, p_ArrayCB. apply sim_bind_next_st; auto. intros c.
  apply sim_if; intros; [apply sim_fail|]. apply sim_bind_inc_Q; auto.
  apply sim_bind_next_st; auto. intros c2. apply sim_if; intros.
  - apply sim_bind_inc_Q; auto. apply sim_ret_eq.
  - eapply simR_pre; [apply (sim_fuel_total Q (fun n => arrayCB_loop n cb s) (fun n => p_arrLoop n s))|tauto]. intros n. apply sim_arrLoop.
Qed.

(** the client loop is the same function *)
Definition p_ArrayBegin : P bool :=
  pbind p_nextToken (fun c =>
  if negb (c =? cLBRACK) then pfail (EUnexpectedByte c cLBRACK 0)
  else
    pbind p_inc (fun _ =>
    pbind p_nextToken (fun c2 =>
    if c2 =? cRBRACK then pbind p_inc (fun _ => pret false) else pret true))).
Definition p_ArrayMore : P bool :=
  pbind p_nextToken (fun c =>
  if c =? cCOMMA then pbind p_inc (fun _ => pret true)
  else if c =? cRBRACK then pbind p_inc (fun _ => pret false)
  else pfail (EUnexpectedByte c cCOMMA cRBRACK)).
Lemma sim_ReadArrayBegin Pre : simR Pre ReadArrayBegin p_ArrayBegin eqR.
Proof.
  apply simR_any. eapply sim_bind_peek; [apply sim_nextToken|]. intros c. apply sim_if; intros; [apply sim_fail|].
  apply sim_bind_inc. apply simR_any. eapply sim_bind_peek; [apply sim_nextToken|]. intros c2. sim_auto.
Qed.
Lemma sim_ReadArrayMore Pre : simR Pre ReadArrayMore p_ArrayMore eqR.
Proof.
  apply simR_any. eapply sim_bind_peek; [apply sim_nextToken|]. intros c. sim_auto.
Qed.
Lemma p_ArrayMore_len f l m r : p_ArrayMore f l = POk m r -> (length r < length l)%nat.
Proof.
  unfold p_ArrayMore, pbind. destruct (p_nextToken f l) as [c l1|] eqn:E; [|discriminate].
  apply p_nextToken_ok in E. destruct E as (w & r1 & -> & -> & _). unfold p_inc, pret. cbn [tl].
  destruct (c =? cCOMMA); [intros [= <- <-]|destruct (c =? cRBRACK); [intros [= <- <-]|discriminate]];
    rewrite app_length; simpl; lia.
Qed.
Lemma sim_ReadArrayMore_len n :
  simR (fun it => Q it /\ len (S n) it) ReadArrayMore p_ArrayMore (fun a b it => a = b /\ Q it /\ len n it).
Proof.
  intros it W [Qi L]. generalize (sim_ReadArrayMore anyP it W I). destruct (ReadArrayMore it) as [r it'].
  intros (W' & St & H). split; auto. split; auto. destruct H as [H|H]; [left|right; auto].
  destruct (p_ArrayMore (fin it) (stream it)) as [m rest|] eqn:E; auto.
  destruct H as (a & -> & Hs & Ha). exists a. split; auto. split; auto. split; auto. split; [eapply HQ; eauto|].
  apply p_ArrayMore_len in E. unfold len in *. rewrite Hs. lia.
Qed.
Fixpoint p_arrClient (fuel : nat) (more : bool) (s : S0) : P S0 :=
  match fuel with
  | O => fuel0
  | S f => if more then pbind (pcb s) (fun s' => pbind p_ArrayMore (fun m => p_arrClient f m s')) else pret s
  end.
Lemma sim_arrClient fuel : forall more s,
  simR (fun it => Q it /\ len fuel it) (arrayClient_loop fuel cb more s) (p_arrClient fuel more s) eqR.
Proof.
  induction fuel as [|n IH]; intros more s; [eapply simR_pre; [apply sim_fuel|]; now intros it [_ ?]|].
  cbn [arrayClient_loop p_arrClient]. destruct more; [|apply sim_ret_eq].
  apply sim_bind_st; [apply stable_QL| |].
  { eapply simR_pre; [apply Hcb|]. now intros it [? _]. }
  intros s'. eapply sim_bind; [apply sim_ReadArrayMore_len|]. intros a b.
  apply (simR_pure (a = b)); [now intros it [? _]|]. intros ->. eapply simR_pre; [apply IH|]. tauto.
Qed.
Definition p_arrayClient (s : S0) : P S0 :=
  pbind p_ArrayBegin (fun more => p_fuel (fun n => p_arrClient n more s)).
Lemma sim_arrayClient s : simR Q (arrayClient cb s) (p_arrayClient s) eqR.
Proof.
  apply sim_bind_st; auto; [apply sim_ReadArrayBegin|]. intros more. apply (sim_fuel_total Q (fun n => arrayClient_loop n cb more s) (fun n => p_arrClient n more s)). intros n. apply sim_arrClient.
Qed.
End Arr.

Section Obj.
Variables (cb : S0 -> bytes -> M S0) (pcb : S0 -> bytes -> P S0).
Hypothesis Hcb : forall s k, simR Q (cb s k) (pcb s k) eqR.

Definition p_objEnd (k : P S0) (s : S0) : P S0 :=
  pbind p_nextToken (fun c =>
  if c =? cRBRACE then pbind p_inc (fun _ => pret s)
  else if c =? cCOMMA then
    pbind p_inc (fun _ =>
    pbind p_nextToken (fun c2 =>
    if negb (c2 =? cQUOTE) then pfail (EUnexpectedByte c2 cQUOTE 0) else pbind p_inc (fun _ => k)))
  else pfail (EUnexpectedByte c cRBRACE cCOMMA)).
Fixpoint p_objLoop (fuel : nat) (s : S0) : P S0 :=
  match fuel with
  | O => fuel0
  | S f => pbind p_readObjectField (fun k => pbind (pcb s k) (fun s' => p_objEnd (p_objLoop f s') s'))
  end.
Definition p_ObjectCB (s : S0) : P S0 :=
  pbind p_nextToken (fun c =>
  if negb (c =? cLBRACE) then pfail (EUnexpectedByte c cLBRACE 0)
  else
    pbind p_inc (fun _ =>
    pbind p_nextToken (fun c2 =>
    if c2 =? cRBRACE then pbind p_inc (fun _ => pret s)
    else if negb (c2 =? cQUOTE) then pfail (EUnexpectedByte c2 cQUOTE cRBRACE)
    else pbind p_inc (fun _ => p_fuel (fun n => p_objLoop n s))))).
Lemma sim_objLoop fuel : forall s, simR (fun it => Q it /\ len fuel it) (objectCB_loop fuel cb s) (p_objLoop fuel s) eqR.
Proof.
  induction fuel as [|n IH]; intros s; [eapply simR_pre; [apply sim_fuel|]; now intros it [_ ?]|].
  cbn [objectCB_loop p_objLoop]. unfold p_objEnd.
  apply sim_bind_st; [apply stable_QL|apply sim_readObjectField|]. intros k.
  apply sim_bind_st; [apply stable_QL| |].
  { eapply simR_pre; [apply Hcb|]. now intros it [? _]. }
  intros s'. apply sim_bind_next_st; [apply stable_QL|]. intros c.
  apply sim_if; intros.
  { eapply simR_pre; [apply sim_bind_inc_Q with (Q := Q) (c := c); [auto|apply sim_ret_eq]|]. tauto. }
  apply sim_if; intros; [|apply sim_fail].
  eapply simR_pre; [apply (sim_bind_inc_dec Q n c); auto|tauto].
  apply sim_bind_next_st; [apply stable_QL|]. intros c2. apply sim_if; intros; [apply sim_fail|].
  apply sim_bind_inc_Q; [apply stable_QL|]. apply IH.
Qed.
Lemma sim_ReadObjectCB s : simR Q (ReadObjectCB cb s) (p_ObjectCB s) eqR.
Proof.
  unfold ReadObjectCB, p_ObjectCB. apply sim_bind_next_st; auto. intros c.
  apply sim_if; intros; [apply sim_fail|]. apply sim_bind_inc_Q; auto.
  apply sim_bind_next_st; auto. intros c2. apply sim_if; intros.
  - apply sim_bind_inc_Q; auto. apply sim_ret_eq.
  - apply sim_if; intros; [apply sim_fail|]. apply sim_bind_inc_Q; auto.
    apply (sim_fuel_total Q (fun n => objectCB_loop n cb s) (fun n => p_objLoop n s)). intros n. apply sim_objLoop.
Qed.

Definition p_ObjectBegin : P (option bytes) :=
  pbind p_nextToken (fun c =>
  if negb (c =? cLBRACE) then pfail (EUnexpectedByte c cLBRACE 0)
  else
    pbind p_inc (fun _ =>
    pbind p_nextToken (fun c2 =>
    if c2 =? cRBRACE then pbind p_inc (fun _ => pret None)
    else if c2 =? cQUOTE then pbind p_inc (fun _ => pbind p_readObjectField (fun k => pret (Some k)))
    else pfail (EUnexpectedByte c2 cRBRACE cQUOTE)))).
Definition p_ObjectMore : P (option bytes) :=
  pbind p_nextToken (fun c =>
  if c =? cRBRACE then pbind p_inc (fun _ => pret None)
  else if c =? cCOMMA then
    pbind p_inc (fun _ =>
    pbind p_nextToken (fun c2 =>
    if negb (c2 =? cQUOTE) then pfail (EUnexpectedByte c2 cQUOTE 0)
    else pbind p_inc (fun _ => pbind p_readObjectField (fun k => pret (Some k)))))
  else pfail (EUnexpectedByte c cRBRACE cCOMMA)).
Lemma sim_ReadObjectBegin Pre : simR Pre ReadObjectBegin p_ObjectBegin eqR.
Proof.
  apply simR_any. eapply sim_bind_peek; [apply sim_nextToken|]. intros c. apply sim_if; intros; [apply sim_fail|].
  apply sim_bind_inc. apply simR_any. eapply sim_bind_peek; [apply sim_nextToken|]. intros c2.
  apply sim_if; intros; [apply sim_bind_inc, sim_ret_eq|]. apply sim_if; intros; [|apply sim_fail].
  apply sim_bind_inc. eapply sim_bind_eq; [apply sim_readObjectField|]. intros; apply sim_ret_eq.
Qed.
Lemma sim_ReadObjectMore Pre : simR Pre ReadObjectMore p_ObjectMore eqR.
Proof.
  apply simR_any. eapply sim_bind_peek; [apply sim_nextToken|]. intros c.
  apply sim_if; intros; [apply sim_bind_inc, sim_ret_eq|]. apply sim_if; intros; [|apply sim_fail].
  apply sim_bind_inc. apply simR_any. eapply sim_bind_peek; [apply sim_nextToken|]. intros c2.
  apply sim_if; intros; [apply sim_fail|].
  apply sim_bind_inc. eapply sim_bind_eq; [apply sim_readObjectField|]. intros; apply sim_ret_eq.
Qed.
Lemma shrinks_readStringAsSlice : shrinks p_readStringAsSlice.
Proof.
  intros f l s r H. apply readString_spec in H. destruct H as (b & -> & _). exists (b ++ [34]). now rewrite <- app_assoc.
Qed.
Lemma shrinks_readObjectField : shrinks p_readObjectField.
Proof.
  apply shrinks_pbind; [apply shrinks_readStringAsSlice|]. intros k. apply shrinks_pbind; [apply shrinks_nextToken|].
  intros c. apply shrinks_if; [apply shrinks_pfail|]. apply shrinks_pbind; [apply shrinks_inc|]. intros; apply shrinks_pret.
Qed.
Lemma p_ObjectMore_len f l m r : p_ObjectMore f l = POk m r -> (length r < length l)%nat.
Proof.
  unfold p_ObjectMore, pbind at 1. destruct (p_nextToken f l) as [c l1|] eqn:E; [|discriminate].
  apply p_nextToken_ok in E. destruct E as (w & r1 & -> & -> & _).
  destruct (c =? cRBRACE); [intros [= <- <-]; rewrite app_length; simpl; lia|].
  destruct (c =? cCOMMA); [|discriminate]. unfold pbind at 1, p_inc at 1. cbn [tl].
  intros H. match type of H with ?p f r1 = _ => assert (Sh : shrinks p) end.
  { apply shrinks_pbind; [apply shrinks_nextToken|]. intros c2. apply shrinks_if; [apply shrinks_pfail|].
    apply shrinks_pbind; [apply shrinks_inc|]. intros _. apply shrinks_pbind; [apply shrinks_readObjectField|].
    intros; apply shrinks_pret. }
  destruct (Sh _ _ _ _ H) as [u ->]. rewrite !app_length. simpl. rewrite app_length. lia.
Qed.
Lemma sim_ReadObjectMore_len n :
  simR (fun it => Q it /\ len (S n) it) ReadObjectMore p_ObjectMore (fun a b it => a = b /\ Q it /\ len n it).
Proof.
  intros it W [Qi L]. generalize (sim_ReadObjectMore anyP it W I). destruct (ReadObjectMore it) as [r it'].
  intros (W' & St & H). split; auto. split; auto. destruct H as [H|H]; [left|right; auto].
  destruct (p_ObjectMore (fin it) (stream it)) as [m rest|] eqn:E; auto.
  destruct H as (a & -> & Hs & Ha). exists a. split; auto. split; auto. split; auto. split; [eapply HQ; eauto|].
  apply p_ObjectMore_len in E. unfold len in *. rewrite Hs. lia.
Qed.
Fixpoint p_objClient (fuel : nat) (o : option bytes) (s : S0) : P S0 :=
  match fuel with
  | O => fuel0
  | S f => match o with
           | Some k => pbind (pcb s k) (fun s' => pbind p_ObjectMore (fun o' => p_objClient f o' s'))
           | None => pret s
           end
  end.
Lemma sim_objClient fuel : forall o s,
  simR (fun it => Q it /\ len fuel it) (objectClient_loop fuel cb o s) (p_objClient fuel o s) eqR.
Proof.
  induction fuel as [|n IH]; intros o s; [eapply simR_pre; [apply sim_fuel|]; now intros it [_ ?]|].
  cbn [objectClient_loop p_objClient]. destruct o as [k|]; [|apply sim_ret_eq].
  apply sim_bind_st; [apply stable_QL| |].
  { eapply simR_pre; [apply Hcb|]. now intros it [? _]. }
  intros s'. eapply sim_bind; [apply sim_ReadObjectMore_len|]. intros a b.
  apply (simR_pure (a = b)); [now intros it [? _]|]. intros ->. eapply simR_pre; [apply IH|]. tauto.
Qed.
Definition p_objectClient (s : S0) : P S0 :=
  pbind p_ObjectBegin (fun o => p_fuel (fun n => p_objClient n o s)).
Lemma sim_objectClient s : simR Q (objectClient cb s) (p_objectClient s) eqR.
Proof.
  apply sim_bind_st; auto; [apply sim_ReadObjectBegin|]. intros o. apply (sim_fuel_total Q (fun n => objectClient_loop n cb o s) (fun n => p_objClient n o s)). intros n. apply sim_objClient.
Qed.
End Obj.
End CB.
