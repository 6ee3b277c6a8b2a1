(** Property C51 (encoding ends, and panics for listed values only).  Each theorem is followed by an example that meets its hypotheses. *)
From Coq Require Import String ZArith List Bool Lia Arith Wellfounded.
From Verif Require Import Spec SpecStream SpecBase64 SpecFold StreamFacts StreamStrFacts StreamTree FloatFacts Base64Facts FoldFacts IterFacts Sim Properties1 Properties2.
From Verif Require Import ModelIter ModelStack ModelRead Properties3.
From Verif Require Import Base ModelInt ModelFloat ModelOps ModelBase64 ModelStream ModelFold ModelVal ModelDecoder ModelEnc SpecVal SpecEnc ValFacts EncFacts EncRound Properties4 Properties5.
From Verif Require Import SpecTyped TidyFacts TypedFacts Properties14 SpecHazard EncEnds EncMono.
Import ListNotations.
Local Open Scope Z_scope.

(** ** C51 *)
Section Ends.
Variables F32 F64 : floatOps.
Variable C : custom.
Notation gval := (gval F32 F64 C).
Variable E : env F32 F64 C.
Variable U : marshalers F32 F64 C.
Variables G32 G64 : floatFmt.
Variable e32 : fl F32 -> ff G32.
Variable e64 : fl F64 -> ff G64.
Variable cfgHTML : bool.
Notation Value := (Value F32 F64 C E U G32 G64 e32 e64 cfgHTML).
Notation Marshal := (Marshal F32 F64 C E U G32 G64 e32 e64 cfgHTML).
Notation encodeValue := (encodeValue F32 F64 C E U G32 G64 e32 e64 cfgHTML).
Notation sound := (sound F32 F64 C E).
Notation typed := (typed F32 F64 C E).
Notation hazard := (hazard F32 F64 C E U).

(** more nesting fuel does not change what is written: what one run without panic writes is what all runs with more fuel write *)
Theorem C51_fuel n o s s' : Value n o s = SOk s' -> forall m, (n <= m)%nat -> Value m o s = SOk s'.
Proof. intros H m Hm. exact (value_mono F32 F64 C E U G32 G64 e32 e64 cfgHTML n m o false Hm s s' H). Qed.

Variables (S32 : fmt_sane G32) (S64 : fmt_sane G64).
Hypothesis NO : names_ok F32 F64 C E U.
Hypothesis SE : sound_env F32 F64 C E.
Hypothesis SU : sound_users F32 F64 C E U.
Hypothesis NC : no_cycles F32 F64 C U.

(** the argument of a call: a value of a Go type, no part of which is a hazard *)
Definition safe_arg (o : option (ty * gval)) : Prop := forall T v, o = Some (T, v) -> sound T /\ typed T v /\ ~ hazard false T v.
(** Streamer.Value returns, whatever the state of the streamer: there is one result, which every nesting fuel from some bound on gives,
    and no smaller one gives another *)
Theorem C51_value o s : safe_arg o -> exists n s', (forall m, (n <= m)%nat -> Value m o s = SOk s') /\ forall m s2, Value m o s = SOk s2 -> s2 = s'.
Proof using All.
  intros H. assert (K : ends (fun m => Value m o) s).
  { destruct o as [[T v]|].
    - destruct (H T v eq_refl) as (A & B & D). exact (value_ends F32 F64 C E U G32 G64 S32 S64 e32 e64 cfgHTML NO SE SU NC T v false s A B D).
    - apply (en_ok (fun _ => docall G32 G64 SNull)). apply en_call; auto. exact I. }
  destruct K as (n & s' & K). exists n, s'. split; auto. intros m s2 H2. apply C51_fuel with (m := Nat.max n m) in H2; [|lia]. rewrite K in H2 by lia. congruence.
Qed.
(** Marshal returns a text or an error *)
Theorem C51_marshal o : safe_arg o -> exists n r, ((exists t, r = MOk t) \/ (exists e, r = MErr e)) /\ (forall m, (n <= m)%nat -> Marshal m o = r) /\
  forall m, (exists t, Marshal m o = MOk t) \/ (exists e, Marshal m o = MErr e) -> Marshal m o = r.
Proof using All.
  intros H. destruct (C51_value o (newStm cfgHTML) H) as (n & s' & K & Q). exists n, (match sm_error s' with Some e => MErr e | None => MOk (sm_buffer s') end). split; [|split].
  - destruct (sm_error s'); eauto.
  - intros m Hm. unfold ModelEnc.Marshal. now rewrite K.
  - intros m Hm. unfold ModelEnc.Marshal in *. destruct (Value m o (newStm cfgHTML)) as [s2| |] eqn:X.
    + now rewrite (Q m s2 X).
    + destruct Hm as [[t Hm]|[t Hm]]; discriminate.
    + destruct Hm as [[t Hm]|[t Hm]]; discriminate.
Qed.
(** Encoder.Encode returns, whatever the writer does *)
Theorem C51_encoder o en : safe_arg o -> exists n r, forall m, (n <= m)%nat -> encodeValue m o en = Some r.
Proof using All.
  intros H. unfold Properties14.encodeValue, ModelStream.Encode. destruct (en_err en) as [e|]; [exists O; eauto|].
  destruct (C51_value o (en_s en) H) as (n & s' & K & _). exists n. unfold encodeInternal.
  assert (Q : exists r, (let '(e, s2) := Flush s' in match e with Some x => Some (Some x, s2) | None => match sm_writer s2 with None => None
    | Some w => let '(_, e2, w') := w_write w [10] in
        match e2 with Some x => Some (Some x, mkStm (Some w') (sm_buffer s2) (sm_error s2) (sm_poped s2) (sm_html s2)) | None => Some (None, sm_Reset w' s2) end end end) = Some r).
  { unfold Flush. destruct (sm_error s'); [eauto|]. destruct (sm_writer s') as [w|]; [|eauto]. destruct (w_write w (sm_buffer s')) as [[k [x|]] w']; [eauto|]. cbn [sm_writer].
    destruct (w_write w' [10]) as [[k2 [x|]] w2]; eauto. }
  destruct Q as ([e s2] & Q). eexists. intros m Hm. rewrite (K m Hm), Q. reflexivity.
Qed.
End Ends.

(** *** Examples and refutations *)
Ltac hazardStep := match goal with
  | H : False |- _ => destruct H
  | H : ?x <> ?x |- _ => now destruct H
  | H : ~ ?P, K : ?P |- _ => now destruct H
  | H : SpecEnc.user _ _ |- _ => destruct H as [H|H]; try discriminate; injection H as <-
  | H : SpecEnc.packed _ _ _ _ _ |- _ => inversion H; clear H; subst
  | H : SpecHazard.untestable _ _ _ _ _ _ |- _ => destruct H as [H|(? & H & ? & ?)]
  | H : ?T = TEface \/ ?T = TIface |- _ => first [destruct H; discriminate|clear H]
  | H : In _ (map VInt _) |- _ => cbn [map] in H
  | H : In _ [] |- _ => destruct H
  | H : In _ (_ :: _) |- _ => destruct H as [H|H]; [try injection H as <- <-; try subst|]
  | H : In _ itemFields |- _ => unfold itemFields in H
  | H : SpecEnc.leads _ _ _ _ _ _ |- _ => inversion H; clear H; subst
  | H : nth_error _ _ = Some _ |- _ => cbn in H; injection H as <-
  | H : ma_dyn _ _ _ _ _ = _ |- _ => try discriminate H; clear H
  | H : te_type _ _ _ _ _ = TPtr _ |- _ => first [discriminate H|cbn in H; injection H as <-]
  | H : SpecHazard.hazard _ _ _ _ _ _ _ _ |- _ => cbn [te_type encE encType f_type] in H; unfold itemT in H; inversion H; clear H; subst
  end; cbn [f_path f_omitEmpty f_type] in *; try discriminate.
Notation thazard := (hazard textF textF demoC encE tidyU).
Lemma page_safe : ~ thazard false pageT page1.
Proof. intros H. unfold pageT, page1, item0, item1 in H. repeat hazardStep. Qed.
Lemma flat_users : no_cycles textF textF demoC tidyU.
Proof. intros x. constructor. intros y (id & H). destruct id as [|[|[|[|id]]]]; inversion H; subst; match goal with K : In _ _ |- _ => destruct K end. Qed.
Example C51_marshal_ex : names_ok textF textF demoC encE tidyU /\ sound_env textF textF demoC encE /\ sound_users textF textF demoC encE tidyU /\
  no_cycles textF textF demoC tidyU /\ fmt_sane demoF /\ safe_arg textF textF demoC encE tidyU (Some (pageT, page1)) /\
  (exists t, tMarshal true 20 (Some (pageT, page1)) = MOk t) /\ tMarshal true 3 (Some (pageT, page1)) = MBad.
Proof.
  split; [exact tidy_names|]. split; [exact enc_sound|]. split; [exact users_sound|]. split; [exact flat_users|]. split; [exact demoF_sane|].
  split; [|split; [eexists; vm_compute; reflexivity|vm_compute; reflexivity]].
  intros T v [= <- <-]. split; [exact page_sound|]. split; [exact page_typed|exact page_safe].
Qed.
(** an error: the keys of a map cannot be encoded, which leaves the text of the elements before it *)
Definition mixT : ty := TStruct [TSlice (TJson 1); TIface] [mkField (bs "a") [HField 0] false true (TSlice (TJson 1)); mkField (bs "b") [HField 1] false false TIface].
Definition mixV : eval := VStruct [VSlice (Some [VObj (bs "x" : cu_state demoC)]); VIface (Some (TMap (KUser KKOther None None) TBool, VMap None))].
Example C51_value_ex : safe_arg textF textF demoC encE tidyU (Some (mixT, mixV)) /\
  exists s', tValue true 9 (Some (mixT, mixV)) (mkStm None (bs "[0") None true false) = SOk s' /\ sm_error s' <> None /\ sm_buffer s' = bs "[0,{""a"":[""x""],""b"":".
Proof.
  split; [|eexists; split; [vm_compute; reflexivity|]; split; [discriminate|reflexivity]].
  intros T v [= <- <-]. split; [|split].
  - apply so_struct.
    + intros T H. simpl in H. repeat destruct H as [<-|H]; try contradiction; repeat soundStep.
    + intros fd H. simpl in H. repeat destruct H as [<-|H]; try contradiction; own.
  - unfold mixT, mixV. repeat first [typedStep|apply ty_json].
  - intros H. unfold mixT, mixV in H. repeat hazardStep.
Qed.
(** a writer that fails *)
Definition fullW : writer := mkWriter (fun _ d => (2%nat, Some (SErr 5))) [] [].
Example C51_encoder_ex : exists en', encodeValue textF textF demoC encE tidyU demoF demoF encF encF true 20 (Some (pageT, page1)) (mkEncoder (sm_Reset fullW (newStm true)) None) =
    Some (Some (SErr 5), en') /\ encLog en' = bs "{""".
Proof. eexists. split; vm_compute; reflexivity. Qed.
Example C51_fuel_ex : exists s', tValue true 9 (Some (mixT, mixV)) (newStm true) = SOk s' /\ tValue true 50 (Some (mixT, mixV)) (newStm true) = SOk s'.
Proof. eexists. split; vm_compute; reflexivity. Qed.
(** one value for each kind of hazard, for which Marshal panics *)
Definition dangers : list (ty * eval) :=
  [(TSlice (TRef 4), VSlice (Some [VIface None; VIface (Some (TJson 0, VObj (bs "x" : cu_state demoC)))]));
   (TArray 1 (TRef 2), VArr [VIface (Some (TPtr (TJson 0), VPtr None))]);
   (TArray 1 (TRef 1), VArr [VIface (Some (TPtr (TText 2), VPtr None))]);
   (TEface, VIface (Some (TPtr (TRef 1), VPtr None)));
   (TPtr (TMap (KUser KKOther None (Some (5%nat, KIface))) TBool), VPtr (Some (VMap (Some [(KO 0, VBool true)]))));
   (oneField (TJson 0), VStruct [VObj (bs "1" : cu_state demoC)])].
Example C51_hazard_ex : Forall (fun p => thazard false (fst p) (snd p) /\ tMarshal true 4 (Some p) = MPanic) dangers.
Proof.
  assert (NP : forall m T id x, ~ method textF textF demoC encE m (TPtr T) (VPtr None) id x) by (intros m T id x H; inversion H; subst; match goal with K : SpecEnc.user _ _ |- _ => destruct K; discriminate end).
  unfold dangers. repeat apply Forall_cons; try apply Forall_nil; (split; [|vm_compute; reflexivity]).
  - eapply hz_slice; [left; reflexivity|]. apply hz_packed, pk_json. reflexivity.
  - eapply hz_array; [left; reflexivity|]. apply hz_json; [reflexivity|apply NP].
  - eapply hz_array; [left; reflexivity|]. apply hz_text; [reflexivity|apply NP].
  - apply hz_iface; [auto|]. apply hz_nil. reflexivity.
  - apply hz_ptr. apply hz_key; discriminate.
  - eapply hz_omit; [left; reflexivity|reflexivity|eapply SpecEnc.le_field; [reflexivity|apply SpecEnc.le_here]|].
    right. exists 0%nat. split; [now left|]. split; [left; now left|exact I].
Qed.

(** linked lists: type Node struct { Next *Node }, by the number of nodes that follow *)
Definition nodeT : ty := TStruct [TPtr (TJson 0)] [mkField (bs "Next") [HField 0] false false (TPtr (TJson 0))].
Definition nodes (repr : cu_state demoC -> option eval) : marshalers textF textF demoC := mkMarshalers textF textF demoC
  (fun _ => RNone) (fun _ => RNone) (fun _ _ => inl []) (fun _ _ => inl []) (fun _ => nodeT) (fun _ x => VStruct [VPtr (repr x)])
  (fun _ => None) (fun _ _ => inl []) (fun _ _ => false).
Definition chainU := nodes (fun x => match (x : bytes) with [] => None | _ :: r => Some (VObj (r : cu_state demoC)) end).
(** and circular ones: x.Next = x *)
Definition ringU := nodes (fun x => Some (VObj x)).
Lemma node_sound E : sound textF textF demoC E nodeT.
Proof.
  apply so_struct.
  - intros T H. simpl in H. destruct H as [<-|[]]. repeat soundStep.
  - intros fd H. simpl in H. destruct H as [<-|[]]. own.
Qed.
Lemma nodes_sound r : (forall x y, r x = Some y -> exists z, y = VObj z) -> sound_users textF textF demoC encE (nodes r).
Proof.
  intros H. constructor; try (intros; simpl in *; match goal with K : inl _ = inl _ |- _ => injection K as <-; constructor end).
  - intros id. apply node_sound.
  - intros id x. simpl. apply ty_struct. constructor; [|constructor]. destruct (r x) as [y|] eqn:X; [|apply ty_ptr_nil]. destruct (H x y X) as (z & ->). apply ty_ptr, ty_json.
Qed.
Lemma nodes_names r : names_ok textF textF demoC encE (nodes r).
Proof.
  constructor; try (intros; simpl; repeat split; discriminate).
  - intros [|[|[|[|[|n]]]]] m; discriminate.
  - intros n H. now destruct H.
  - intros id x. constructor.
Qed.
Lemma node_hazard a o : hazard textF textF demoC encE chainU a nodeT (VStruct [VPtr o]) -> hazard textF textF demoC encE chainU true (TPtr (TJson 0)) (VPtr o).
Proof.
  intros H. unfold nodeT in H. inversion H; subst.
  - match goal with K : SpecEnc.packed _ _ _ _ _ |- _ => inversion K end.
  - match goal with K : In _ _ |- _ => destruct K as [<-|[]] end. discriminate.
  - match goal with K : In _ _ |- _ => destruct K as [<-|[]] end.
    match goal with K : SpecEnc.leads _ _ _ _ _ _ |- _ => cbn [f_path] in K; inversion K; subst end.
    match goal with K : SpecEnc.leads _ _ _ [] _ _ |- _ => inversion K; subst end.
    match goal with K : nth_error _ _ = Some _ |- _ => cbn in K; injection K as <- end. assumption.
Qed.
Lemma link_hazard o : hazard textF textF demoC encE chainU true (TPtr (TJson 0)) (VPtr o) -> exists y, o = Some y /\ hazard textF textF demoC encE chainU true (TJson 0) y.
Proof.
  intros H. inversion H; subst.
  - match goal with K : SpecEnc.packed _ _ _ _ _ |- _ => inversion K end.
  - eauto.
Qed.
Lemma chain_safe a (x : bytes) : ~ hazard textF textF demoC encE chainU a (TJson 0) (VObj (x : cu_state demoC)).
Proof.
  revert a. induction x as [|c x IH]; intros a H; inversion H; subst;
    try match goal with K : SpecEnc.packed _ _ _ _ _ |- _ => inversion K end;
    match goal with K : SpecHazard.hazard _ _ _ _ _ false _ _ |- _ => apply node_hazard, link_hazard in K; destruct K as (y & Q & Hy) end; [discriminate|].
  injection Q as <-. now apply IH in Hy.
Qed.
Example C51_chain_ex : no_cycles textF textF demoC chainU /\ sound_users textF textF demoC encE chainU /\ names_ok textF textF demoC encE chainU /\
  (forall x, safe_arg textF textF demoC encE chainU (Some (TJson 0, VObj x))) /\
  Marshal textF textF demoC encE chainU demoF demoF encF encF true 20 (Some (TJson 0, VObj ([1; 2] : cu_state demoC))) = MOk (bs "{""Next"":{""Next"":{""Next"":null}}}").
Proof.
  split.
  { intros x. induction (x : bytes) as [|c r IH]; constructor; intros y (id & H); inversion H; subst;
      match goal with K : In _ _ |- _ => destruct K as [<-|[]] end; match goal with K : SpecHazard.within _ _ _ (VPtr _) _ |- _ => inversion K; subst end.
    match goal with K : SpecHazard.within _ _ _ (VObj _) _ |- _ => inversion K; subst end. exact IH. }
  split; [apply nodes_sound; intros [|c x] y; [discriminate|intros [= <-]; eauto]|]. split; [apply nodes_names|]. split; [|vm_compute; reflexivity].
  intros x T v [= <- <-]. split; [repeat soundStep|]. split; [apply ty_json|].
  apply chain_safe.
Qed.

(** a circular list: every nesting fuel is used up, so that Marshal never returns (val_encoder_native_ptr.go:30-34 follows the pointers until the stack overflows) *)
Lemma ring_deep n (x : cu_state demoC) : 
  (forall q s, sm_error s = None -> en_Encode _ _ _ (encode textF textF demoC encE ringU demoF demoF encF encF true n (TJson 0)) (Some (VObj x)) q s = SBad) /\
  (forall q s, sm_error s = None -> en_Encode _ _ _ (encode textF textF demoC encE ringU demoF demoF encF encF true n nodeT) (Some (VStruct [VPtr (Some (VObj x))])) q s = SBad) /\
  (forall q s, sm_error s = None -> en_Encode _ _ _ (encode textF textF demoC encE ringU demoF demoF encF encF true n (TPtr (TJson 0))) (Some (VPtr (Some (VObj x)))) q s = SBad).
Proof.
  induction n as [|n (A & B & D)]; [repeat split; reflexivity|]. split; [exact B|]. split; [|exact A].
  intros q s Hs. destruct s as [w b e p h]. simpl in Hs. subst e.
  set (e := encode textF textF demoC encE ringU demoF demoF encF encF true n (TPtr (TJson 0))) in *.
  change ((docall demoF demoF SObjectStart (mkStm w b None p h) >>>
    encodeAll (encodeField textF textF demoC demoF demoF (VStruct [VPtr (Some (VObj x))])) [addField textF textF demoC (mkField (bs "Next") [HField 0] false false (TPtr (TJson 0))) e] >>>
    docall demoF demoF SObjectEnd) = SBad).
  unfold encodeField, addField. destruct p, h; cbn -[e]; rewrite D by reflexivity; reflexivity.
Qed.
Theorem C51_cycle_refuted : exists (U : marshalers textF textF demoC) T v, names_ok textF textF demoC encE U /\ sound_users textF textF demoC encE U /\
  tsound T /\ ttyped T v /\ ~ no_cycles textF textF demoC U /\ 
  forall n, Marshal textF textF demoC encE U demoF demoF encF encF true n (Some (T, v)) = MBad.
Proof.
  exists ringU, (TJson 0), (VObj ([] : cu_state demoC)). split; [apply nodes_names|]. split; [apply nodes_sound; intros x y [= <-]; eauto|].
  split; [repeat soundStep|]. split; [apply ty_json|]. split.
  - intros N. assert (Q : forall x : cu_state demoC, False); [|exact (Q [])]. intros x. induction x as [x IH] using (well_founded_induction N). apply (IH x).
    exists 0%nat. eapply wi_struct; [left; reflexivity|]. apply wi_ptr, wi_obj.
  - intros n. unfold Marshal, Value, encValue, ifNoError. simpl sm_error. cbv iota.
    change (isEmptyStruct textF textF demoC encE ringU (TJson 0)) with false. cbv iota.
    destruct (ring_deep n ([] : cu_state demoC)) as (A & _). now rewrite A.
Qed.
Print Assumptions C51_fuel.
Print Assumptions C51_value.
Print Assumptions C51_marshal.
Print Assumptions C51_encoder.
Print Assumptions C51_cycle_refuted.
