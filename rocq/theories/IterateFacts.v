(** Array and object iteration against the grammar. *)
From Coq Require Import String ZArith List Bool Lia Arith.
From Verif Require Import Base ModelIter ModelStack ModelSkip ModelStr ModelIterate
  Sim SimLib SimSkip SimStr SimFloat SimRead SimIterate Spec NumFacts StrFacts MachineFacts GrammarFacts.
Import ListNotations.
Local Open Scope Z_scope.

(** [p] reads one JSON value [j] and returns a result related to it by [G] *)
Definition sound {A} (p : P A) (G : jval -> A -> Prop) : Prop := forall f l a r, p f l = POk a r ->
  exists w t j, l = w ++ t ++ r /\ ws w /\ value t j /\ G j a /\ vends t j f r.
Definition complete {A} (p : P A) (G : jval -> A -> Prop) : Prop := forall f w t j a r,
  ws w -> value t j -> G j a -> vends t j f r -> p f (w ++ t ++ r) = POk a r.

Lemma sound_shrinks {A} (p : P A) G : sound p G -> shrinks p.
Proof.
  intros H f l a r E. destruct (H _ _ _ _ E) as (w & t & j & -> & _). exists (w ++ t). now rewrite <- app_assoc.
Qed.
Lemma field_spec f l k r : p_readObjectField f l = POk k r <->
  exists b w, string_body b k /\ ws w /\ l = b ++ 34 :: w ++ 58 :: r.
Proof.
  assert (H := gfield_ok p_readStringAsSlice (fun x => x)). change (p_readObjectField f l) with (gfield p_readStringAsSlice f l).
  rewrite H.
  - split; [intros (b & s & w & H1 & H2 & -> & ->)|intros (b & w & H1 & H2 & ->)]; eauto 8.
  - intros f0 l0 k0 r0. rewrite readString_spec. split; [intros (b & -> & Hb)|intros (b & s & -> & Hb & ->)]; eauto.
Qed.
Lemma next_run f w c r A (k : Z -> P A) : ws w -> ~ is_ws c -> pbind p_nextToken k f (w ++ c :: r) = k c f (c :: r).
Proof. intros. unfold pbind. now rewrite nextToken_run. Qed.
Lemma pbind_eq {A B} (p : P A) (q : A -> P B) f l :
  pbind p q f l = match p f l with POk a r => q a f r | PErr e => PErr e end.
Proof. reflexivity. Qed.
Lemma inc_eq f l : p_inc f l = POk tt (tl l).
Proof. reflexivity. Qed.
Lemma inc_run f c r A (k : unit -> P A) : pbind p_inc k f (c :: r) = k tt f r.
Proof. reflexivity. Qed.
Lemma next_inv f l A (k : Z -> P A) a r : pbind p_nextToken k f l = POk a r ->
  exists w c l', l = w ++ c :: l' /\ ws w /\ ~ is_ws c /\ k c f (c :: l') = POk a r.
Proof.
  intros H. apply pbind_ok in H. destruct H as (c & l1 & E & H). apply nextToken_inv in E.
  destruct E as (w & l' & -> & -> & Hw & Hc). eauto 8.
Qed.
Lemma fuel_eq {A} (p : nat -> P A) f l : p_fuel p f l = p (S (length l)) f l.
Proof. reflexivity. Qed.

Section CB.
Context {S0 : Type}.

(** ** Arrays *)
Section Arr.
Variable pcb : S0 -> P S0.
Variable G : S0 -> jval -> S0 -> Prop.
Inductive foldG : S0 -> list jval -> S0 -> Prop :=
| fg_nil s : foldG s [] s
| fg_cons s j s1 js s' : G s j s1 -> foldG s1 js s' -> foldG s (j :: js) s'.

Lemma atail_ws w x vs : ws w -> atail true x vs -> atail true (w ++ x) vs.
Proof.
  intros Hw H. inversion H; subst; rewrite app_assoc; constructor; auto; now apply ws_app.
Qed.
Lemma arrLoop_sound n : (forall s, sound (pcb s) (G s)) -> forall s f l s' r, p_arrLoop pcb n s f l = POk s' r ->
  exists x js, l = x ++ r /\ atail true x js /\ js <> [] /\ foldG s js s'.
Proof.
  intros Hs. induction n as [|n IH]; intros s f l s' r H; [discriminate|]. cbn [p_arrLoop] in H.
  apply pbind_ok in H. destruct H as (s1 & l1 & E1 & H). apply Hs in E1.
  destruct E1 as (w & t & j & -> & Hw & Hv & HG & _). unfold p_arrEnd in H.
  apply next_inv in H. destruct H as (w1 & c & l2 & -> & Hw1 & Hc & H).
  destruct (Z.eqb_spec c cCOMMA) as [->|].
  - rewrite inc_run in H. apply IH in H. destruct H as (x & js & -> & Hx & Hn & Hf).
    exists (w ++ t ++ w1 ++ 44 :: x), (j :: js). repeat split; try discriminate.
    + now rewrite <- !app_assoc.
    + constructor; auto. now apply atail_comma.
    + econstructor; eauto.
  - destruct (Z.eqb_spec c cRBRACK) as [->|]; [|discriminate]. rewrite inc_run in H. injection H as <- <-.
    exists (w ++ t ++ w1 ++ [93]), [j]. repeat split; try discriminate.
    + now rewrite <- !app_assoc.
    + constructor; auto. now constructor.
    + econstructor; eauto. constructor.
Qed.
Theorem ArrayCB_sound s : (forall s, sound (pcb s) (G s)) ->
  sound (p_ArrayCB pcb s) (fun j s' => exists js, j = JArr js /\ foldG s js s').
Proof.
  intros Hs f l s' r H. unfold p_ArrayCB in H. apply next_inv in H. destruct H as (w & c & l1 & -> & Hw & Hc & H).
  destruct (Z.eqb_spec c cLBRACK) as [->|]; [|discriminate]. cbn [negb] in H. rewrite inc_run in H.
  apply next_inv in H. destruct H as (w2 & c2 & l2 & -> & Hw2 & Hc2 & H).
  destruct (Z.eqb_spec c2 cRBRACK) as [->|].
  - rewrite inc_run in H. injection H as <- <-. exists w, (91 :: w2 ++ [93]), (JArr []).
    split; [simpl; now rewrite <- !app_assoc|]. split; auto. split; [now constructor|]. split; [|exact I].
    exists []. split; auto. constructor.
  - rewrite fuel_eq in H. apply arrLoop_sound in H; auto. destruct H as (x & js & E & Hx & Hn & Hf). rewrite E.
    exists w, (91 :: w2 ++ x), (JArr js). split; [simpl; now rewrite <- !app_assoc|]. split; auto.
    split; [|split; [eauto|exact I]]. apply value_arr. exists js. split; auto. now apply atail_ws.
Qed.
Lemma foldG_cons_inv s j js s' : foldG s (j :: js) s' -> exists s1, G s j s1 /\ foldG s1 js s'.
Proof. intros H. inversion H; subst; eauto. Qed.
Lemma atail_true_cons x j js : atail true x (j :: js) -> exists w t y, ws w /\ value t j /\ atail false y js /\ x = w ++ t ++ y.
Proof. intros H. inversion H; subst; eauto 8. Qed.
Lemma arrLoop_complete n : (forall s, complete (pcb s) (G s)) -> forall s f x j js r s',
  atail true x (j :: js) -> foldG s (j :: js) s' -> (length (x ++ r) < n)%nat ->
  p_arrLoop pcb n s f (x ++ r) = POk s' r.
Proof.
  intros Hs. induction n as [|n IH]; intros s f x j js r s' Hx Hf Hl; [lia|]. cbn [p_arrLoop].
  apply atail_true_cons in Hx. destruct Hx as (w & t & y & Hw & Hv & Hy & ->).
  apply foldG_cons_inv in Hf. destruct Hf as (s1 & HG & Hf).
  rewrite <- !app_assoc. rewrite (pbind_run _ _ _ _ s1 (y ++ r)).
  2:{ apply (Hs s f w t j); auto. apply sep_vends. eapply atail_sep; eauto. }
  unfold p_arrEnd. inversion Hy as [? w1 Hw1| |w1 w2 t2 v2 y2 vs2 Hw1 Hw2 Hv2 Hy2]; subst.
  - rewrite <- app_assoc. simpl app. rewrite next_run by (auto; unfold is_ws; lia). cbn.
    inversion Hf; subst. reflexivity.
  - repeat (rewrite <- !app_assoc; simpl app). rewrite next_run by (auto; unfold is_ws; lia).
    change (44 =? cCOMMA) with true. cbv iota. rewrite inc_run.
    replace (w2 ++ t2 ++ y2 ++ r) with ((w2 ++ t2 ++ y2) ++ r) by now rewrite <- !app_assoc.
    eapply IH; eauto; [constructor; auto|].
    repeat (rewrite ?app_length in *; simpl in *). lia.
Qed.
Theorem ArrayCB_complete s : (forall s, complete (pcb s) (G s)) ->
  complete (p_ArrayCB pcb s) (fun j s' => exists js, j = JArr js /\ foldG s js s').
Proof.
  intros Hs f w t j s' r Hw Hv (js & -> & Hf) _.
  assert (Ht : exists t', t = 91 :: t') by (inversion Hv; subst; eauto). destruct Ht as [t' ->].
  apply value_arr in Hv. destruct Hv as (vs & [= <-] & Ht). unfold p_ArrayCB. simpl app.
  rewrite next_run by (auto; unfold is_ws; lia). change (negb (91 =? cLBRACK)) with false. cbv iota. rewrite inc_run.
  inversion Ht as [? w1 Hw1|w1 t1 v1 y1 vs1 Hw1 Hv1 Hy1|]; subst.
  - rewrite <- app_assoc. simpl app. rewrite next_run by (auto; unfold is_ws; lia). cbn. inversion Hf; subst. reflexivity.
  - destruct (value_first _ _ Hv1) as (c & t1' & -> & Hc & H93 & _).
    rewrite <- !app_assoc. simpl app. rewrite next_run by auto.
    replace (c =? cRBRACK) with false by lia. rewrite fuel_eq.
    change (c :: t1' ++ y1 ++ r) with ((c :: t1') ++ y1 ++ r). rewrite app_assoc.
    eapply arrLoop_complete; eauto. apply (at_first [] (c :: t1')); auto. apply ws_nil.
Qed.
Lemma arrClient_eq n : (forall s, shrinks (pcb s)) -> forall s f l, (length l < n)%nat ->
  p_arrClient pcb n true s f l = p_arrLoop pcb n s f l.
Proof.
  intros Sh. induction n as [|n IH]; intros s f l Hl; [lia|]. cbn [p_arrClient p_arrLoop].
  rewrite !(pbind_eq (pcb s)). destruct (pcb s f l) as [s1 l1|] eqn:E; auto.
  destruct (Sh s _ _ _ _ E) as [u ->]. rewrite app_length in Hl. rewrite (pbind_eq p_ArrayMore).
  unfold p_ArrayMore, p_arrEnd. rewrite !(pbind_eq p_nextToken). destruct (p_nextToken f l1) as [c l2|] eqn:E2; auto.
  apply p_nextToken_ok in E2. destruct E2 as (w & l3 & -> & -> & _). rewrite app_length in Hl. simpl in Hl.
  destruct (c =? cCOMMA).
  - cbn [pbind p_inc pret tl]. unfold pbind, p_inc, pret. cbn [tl]. apply IH. lia.
  - destruct (c =? cRBRACK); auto. unfold pbind, p_inc, pret. cbn [tl]. destruct n; [lia|]. reflexivity.
Qed.
Theorem arrayClient_eq s f l : (forall s, shrinks (pcb s)) -> p_arrayClient pcb s f l = p_ArrayCB pcb s f l.
Proof.
  intros Sh. unfold p_arrayClient. rewrite (pbind_eq p_ArrayBegin). unfold p_ArrayBegin, p_ArrayCB. rewrite !(pbind_eq p_nextToken).
  destruct (p_nextToken f l) as [c l1|]; auto. destruct (negb (c =? cLBRACK)); auto.
  rewrite !(pbind_eq p_inc), !inc_eq. rewrite !(pbind_eq p_nextToken). destruct (p_nextToken f (tl l1)) as [c2 l2|]; auto.
  destruct (c2 =? cRBRACK); [reflexivity|]. unfold pret. rewrite !fuel_eq. apply arrClient_eq; auto.
Qed.
End Arr.

(** ** Objects *)
Section Obj.
Variable pcb : S0 -> bytes -> P S0.
Variable G : S0 -> bytes -> jval -> S0 -> Prop.
Inductive foldK : S0 -> list (bytes * jval) -> S0 -> Prop :=
| fk_nil s : foldK s [] s
| fk_cons s k j s1 ms s' : G s k j s1 -> foldK s1 ms s' -> foldK s ((k, j) :: ms) s'.

Lemma otail_ws w x vs : ws w -> otail true x vs -> otail true (w ++ x) vs.
Proof.
  intros Hw H. inversion H; subst; rewrite app_assoc; constructor; auto; now apply ws_app.
Qed.
Lemma objLoop_sound n : (forall s k, sound (pcb s k) (G s k)) -> forall s f l s' r, p_objLoop pcb n s f l = POk s' r ->
  exists x ms, 34 :: l = x ++ r /\ otail true x ms /\ ms <> [] /\ foldK s ms s'.
Proof.
  intros Hs. induction n as [|n IH]; intros s f l s' r H; [discriminate|]. cbn [p_objLoop] in H.
  apply pbind_ok in H. destruct H as (k & l0 & E0 & H). apply field_spec in E0.
  destruct E0 as (b & w0 & Hb & Hw0 & ->).
  apply pbind_ok in H. destruct H as (s1 & l1 & E1 & H). apply Hs in E1.
  destruct E1 as (w & t & j & -> & Hw & Hv & HG & _). unfold p_objEnd in H.
  apply next_inv in H. destruct H as (w1 & c & l2 & -> & Hw1 & Hc & H).
  destruct (Z.eqb_spec c cRBRACE) as [->|].
  - rewrite inc_run in H. injection H as <- <-.
    exists ([] ++ mtext b w0 w t ++ w1 ++ [125]), [(k, j)]. split; [|split; [|split]]; try discriminate.
    + unfold mtext. repeat (rewrite <- ?app_assoc; simpl). reflexivity.
    + constructor; auto; [apply ws_nil|]. now constructor.
    + econstructor; eauto. constructor.
  - destruct (Z.eqb_spec c cCOMMA) as [->|]; [|discriminate]. rewrite inc_run in H.
    apply next_inv in H. destruct H as (w2 & c2 & l3 & -> & Hw2 & Hc2 & H).
    destruct (Z.eqb_spec c2 cQUOTE) as [->|]; [|discriminate]. cbn [negb] in H. rewrite inc_run in H.
    apply IH in H. destruct H as (x & ms & E & Hx & Hn & Hf).
    exists ([] ++ mtext b w0 w t ++ w1 ++ 44 :: w2 ++ x), ((k, j) :: ms). split; [|split; [|split]]; try discriminate.
    + unfold mtext. rewrite E. repeat (rewrite <- ?app_assoc; simpl). reflexivity.
    + constructor; auto; [apply ws_nil|]. apply otail_comma; auto. now apply otail_ws.
    + econstructor; eauto.
Qed.
Theorem ObjectCB_sound s : (forall s k, sound (pcb s k) (G s k)) ->
  sound (p_ObjectCB pcb s) (fun j s' => exists ms, j = JObj ms /\ foldK s ms s').
Proof.
  intros Hs f l s' r H. unfold p_ObjectCB in H. apply next_inv in H. destruct H as (w & c & l1 & -> & Hw & Hc & H).
  destruct (Z.eqb_spec c cLBRACE) as [->|]; [|discriminate]. cbn [negb] in H. rewrite inc_run in H.
  apply next_inv in H. destruct H as (w2 & c2 & l2 & -> & Hw2 & Hc2 & H).
  destruct (Z.eqb_spec c2 cRBRACE) as [->|].
  - rewrite inc_run in H. injection H as <- <-. exists w, (123 :: w2 ++ [125]), (JObj []).
    split; [simpl; now rewrite <- !app_assoc|]. split; auto. split; [now constructor|]. split; [|exact I].
    exists []. split; auto. constructor.
  - destruct (Z.eqb_spec c2 cQUOTE) as [->|]; [|discriminate]. cbn [negb] in H. rewrite inc_run in H.
    rewrite fuel_eq in H. apply objLoop_sound in H; auto. destruct H as (x & ms & E & Hx & Hn & Hf). rewrite E.
    exists w, (123 :: w2 ++ x), (JObj ms). split; [simpl; now rewrite <- !app_assoc|]. split; auto.
    split; [|split; [eauto|exact I]]. apply value_obj. exists ms. split; auto. now apply otail_ws.
Qed.
Lemma foldK_cons_inv s k j js s' : foldK s ((k, j) :: js) s' -> exists s1, G s k j s1 /\ foldK s1 js s'.
Proof. intros H. inversion H; subst; eauto. Qed.
Lemma objLoop_complete n : (forall s k, complete (pcb s k) (G s k)) -> forall s f b k w2 w3 t j y ms r s',
  string_body b k -> ws w2 -> ws w3 -> value t j -> otail false y ms -> foldK s ((k, j) :: ms) s' ->
  lt (length (b ++ 34 :: w2 ++ 58 :: w3 ++ t ++ y ++ r)) n ->
  p_objLoop pcb n s f (b ++ 34 :: w2 ++ 58 :: w3 ++ t ++ y ++ r) = POk s' r.
Proof.
  intros Hs. induction n as [|n IH]; intros s f b k w2 w3 t j y ms r s' Hb Hw2 Hw3 Hv Hy Hf Hl; [lia|].
  cbn [p_objLoop]. apply foldK_cons_inv in Hf. destruct Hf as (s1 & HG & Hf).
  rewrite (pbind_run _ _ _ _ k (w3 ++ t ++ y ++ r)).
  2:{ apply field_spec. exists b, w2. auto. }
  rewrite (pbind_run _ _ _ _ s1 (y ++ r)).
  2:{ apply (Hs s k f w3 t j); auto. apply sep_vends. eapply otail_sep; eauto. }
  unfold p_objEnd. inversion Hy as [? w1 Hw1| |w1 w1' b' k' w2' w3' t' v' y' ms' Hw1 Hw1' Hb' Hw2' Hw3' Hv' Hy']; subst.
  - rewrite <- app_assoc. simpl app. rewrite next_run by (auto; unfold is_ws; lia). cbn.
    inversion Hf; subst. reflexivity.
  - unfold mtext. repeat (rewrite <- ?app_assoc; simpl app). rewrite next_run by (auto; unfold is_ws; lia).
    change (44 =? cRBRACE) with false. change (44 =? cCOMMA) with true. cbv iota. rewrite inc_run.
    rewrite next_run by (auto; unfold is_ws; lia). change (negb (34 =? cQUOTE)) with false. cbv iota. rewrite inc_run.
    eapply IH; eauto. unfold mtext in Hl.
    repeat (rewrite ?app_length in *; simpl in *). lia.
Qed.
Theorem ObjectCB_complete s : (forall s k, complete (pcb s k) (G s k)) ->
  complete (p_ObjectCB pcb s) (fun j s' => exists ms, j = JObj ms /\ foldK s ms s').
Proof.
  intros Hs f w t j s' r Hw Hv (ms & -> & Hf) _.
  assert (Ht : exists t', t = 123 :: t') by (inversion Hv; subst; eauto). destruct Ht as [t' ->].
  apply value_obj in Hv. destruct Hv as (vs & [= <-] & Ht). unfold p_ObjectCB. simpl app.
  rewrite next_run by (auto; unfold is_ws; lia). change (negb (123 =? cLBRACE)) with false. cbv iota. rewrite inc_run.
  inversion Ht as [? w1 Hw1|w1 b k w2 w3 t1 v1 y1 ms1 Hw1 Hb Hw2 Hw3 Hv1 Hy1|]; subst.
  - rewrite <- app_assoc. simpl app. rewrite next_run by (auto; unfold is_ws; lia). cbn. inversion Hf; subst. reflexivity.
  - unfold mtext. repeat (rewrite <- ?app_assoc; simpl app). rewrite next_run by (auto; unfold is_ws; lia).
    change (34 =? cRBRACE) with false. change (negb (34 =? cQUOTE)) with false. cbv iota. rewrite inc_run.
    rewrite fuel_eq. eapply objLoop_complete; eauto.
Qed.
Lemma objClient_eq n : (forall s k, shrinks (pcb s k)) -> forall s f l, (length l < n)%nat ->
  pbind p_readObjectField (fun k => p_objClient pcb n (Some k) s) f l = p_objLoop pcb n s f l.
Proof using pcb.
  intros Sh. induction n as [|n IH]; intros s f l Hl; [lia|]. cbn [p_objClient p_objLoop].
  rewrite !(pbind_eq p_readObjectField). destruct (p_readObjectField f l) as [k l0|] eqn:E0; auto.
  destruct (shrinks_readObjectField _ _ _ _ E0) as [u0 ->]. rewrite app_length in Hl.
  rewrite !(pbind_eq (pcb s k)). destruct (pcb s k f l0) as [s1 l1|] eqn:E; auto.
  destruct (Sh s k _ _ _ _ E) as [u ->]. rewrite app_length in Hl. rewrite (pbind_eq p_ObjectMore). unfold p_ObjectMore, p_objEnd.
  rewrite !(pbind_eq p_nextToken). destruct (p_nextToken f l1) as [c l2|] eqn:E2; auto.
  apply p_nextToken_ok in E2. destruct E2 as (w & l3 & -> & -> & _). rewrite app_length in Hl. simpl in Hl.
  destruct (c =? cRBRACE).
  { unfold pbind, p_inc, pret. cbn [tl]. destruct n; [lia|]. reflexivity. }
  destruct (c =? cCOMMA); auto.
  rewrite !(pbind_eq p_inc), !inc_eq. cbn [tl]. rewrite !(pbind_eq p_nextToken).
  destruct (p_nextToken f l3) as [c2 l4|] eqn:E4; auto.
  apply p_nextToken_ok in E4. destruct E4 as (w4 & l5 & -> & -> & _). rewrite app_length in Hl. simpl in Hl.
  destruct (negb (c2 =? cQUOTE)); auto.
  rewrite !(pbind_eq p_inc), !inc_eq. cbn [tl]. rewrite <- (IH s1 f l5) by lia.
  unfold pbind. destruct (p_readObjectField f l5); reflexivity.
Qed.
Lemma objLoop_fuel n : (forall s k, shrinks (pcb s k)) -> forall m s f l, (length l < n)%nat -> (length l < m)%nat ->
  p_objLoop pcb n s f l = p_objLoop pcb m s f l.
Proof using pcb.
  intros Sh. induction n as [|n IH]; intros [|m] s f l Hn Hm; try lia. cbn [p_objLoop].
  rewrite !(pbind_eq p_readObjectField). destruct (p_readObjectField f l) as [k l0|] eqn:E0; auto.
  destruct (shrinks_readObjectField _ _ _ _ E0) as [u0 ->]. rewrite app_length in *.
  rewrite !(pbind_eq (pcb s k)). destruct (pcb s k f l0) as [s1 l1|] eqn:E; auto.
  destruct (Sh s k _ _ _ _ E) as [u ->]. rewrite app_length in *. unfold p_objEnd.
  rewrite !(pbind_eq p_nextToken). destruct (p_nextToken f l1) as [c l2|] eqn:E2; auto.
  apply p_nextToken_ok in E2. destruct E2 as (w & l3 & -> & -> & _). rewrite app_length in *. simpl in *.
  destruct (c =? cRBRACE); auto. destruct (c =? cCOMMA); auto.
  rewrite !(pbind_eq p_inc), !inc_eq. cbn [tl]. rewrite !(pbind_eq p_nextToken).
  destruct (p_nextToken f l3) as [c2 l4|] eqn:E4; auto.
  apply p_nextToken_ok in E4. destruct E4 as (w4 & l5 & -> & -> & _). rewrite app_length in *. simpl in *.
  destruct (negb (c2 =? cQUOTE)); auto. unfold pbind, p_inc. cbn [tl]. apply IH; lia.
Qed.
Lemma objClient_fuel n : (forall s k, shrinks (pcb s k)) -> forall m o s f l, (length l < n)%nat -> (length l < m)%nat ->
  p_objClient pcb n o s f l = p_objClient pcb m o s f l.
Proof using pcb.
  intros Sh. induction n as [|n IH]; intros [|m] o s f l Hn Hm; try lia. cbn [p_objClient].
  destruct o as [k|]; auto. unfold pbind. destruct (pcb s k f l) as [s1 l1|] eqn:E; auto.
  destruct (Sh s k _ _ _ _ E) as [u ->]. rewrite app_length in *.
  destruct (p_ObjectMore f l1) as [o l2|] eqn:E2; auto. apply p_ObjectMore_len in E2. apply IH; lia.
Qed.
(** the two differ only in the order of the expected bytes of one error *)
Theorem objectClient_ok s f l s' r : (forall s k, shrinks (pcb s k)) ->
  (p_objectClient pcb s f l = POk s' r <-> p_ObjectCB pcb s f l = POk s' r).
Proof using pcb.
  intros Sh. clear G. unfold p_objectClient. rewrite (pbind_eq p_ObjectBegin). unfold p_ObjectBegin, p_ObjectCB.
  rewrite !(pbind_eq p_nextToken).
  destruct (p_nextToken f l) as [c l1|]; [|tauto]. destruct (negb (c =? cLBRACE)); [split; discriminate|].
  rewrite !(pbind_eq p_inc), !inc_eq. rewrite !(pbind_eq p_nextToken). destruct (p_nextToken f (tl l1)) as [c2 l2|]; [|tauto].
  destruct (c2 =? cRBRACE); [reflexivity|]. destruct (c2 =? cQUOTE) eqn:E; [|split; discriminate]. cbn [negb].
  rewrite !(pbind_eq p_inc), !inc_eq. rewrite fuel_eq. rewrite <- objClient_eq by auto.
  unfold pbind. destruct (p_readObjectField f (tl l2)) as [k l3|] eqn:E3; [|tauto].
  unfold pret. rewrite fuel_eq. destruct (shrinks_readObjectField _ _ _ _ E3) as [u Hu].
  erewrite objClient_fuel; [reflexivity|auto| |]; rewrite ?Hu, ?app_length; lia.
Qed.
End Obj.
End CB.
