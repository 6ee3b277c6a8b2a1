(** Property C54: what the options of a decoder change.  Each theorem is followed by an example that meets its
    hypotheses. *)
From Coq Require Import String ZArith List Bool Lia Arith.
From Verif Require Import Base ModelIter ModelStack ModelSkip ModelStr ModelInt ModelFloat ModelRead ModelOps ModelVal ModelDecoder Spec SpecVal SpecOption
  Sim SimLib SimOps SimVal FloatFacts NumFacts IterFacts ValFacts OptionFacts OptionStep Properties1 Properties3 Properties4.
Import ListNotations.
Local Open Scope Z_scope.

Section Options.
Variables F32 F64 : floatOps.
Variable C : custom.
Notation gval := (gval F32 F64 C).
Variable E : env F32 F64 C.
Variable sf : Z -> Z.
Notation Unmarshal cs := (Unmarshal F32 F64 C E sf cs).
Notation UnmarshalFromReader cs := (UnmarshalFromReader F32 F64 C E sf cs).
Notation ReadVal cs := (ReadVal F32 F64 C E sf cs).
Notation vreachable cs := (vreachable F32 F64 C E sf cs).
Notation renumbered := (renumbered F32 F64 C).

(** ** DisallowUnknownFields: the same result, value or error, unless a member is refused *)
Theorem C54_disallow cs n T old data it it' : vreachable cs it -> vreachable cs it' -> it_useNumber it = it_useNumber it' ->
  it_disallow it = true -> it_disallow it' = false ->
  fst (Unmarshal cs n T old data it) = fst (Unmarshal cs n T old data it') \/
  (exists name, fst (Unmarshal cs n T old data it) = Err (EUnknownField name)) \/
  (exists c, c <> 125 /\ fst (Unmarshal cs n T old data it) = Err (EUnexpectedByte c 125 0)).
Proof.
  intros R R' Hu Hd Hd'. unfold ModelVal.Unmarshal, unmarshal, bind.
  assert (W : wf (ResetBytes data it)) by (apply wf_ResetBytes; eapply vreachable_wf; eauto).
  assert (W' : wf (ResetBytes data it')) by (apply wf_ResetBytes; eapply vreachable_wf; eauto).
  assert (D : ~ dirty (ResetBytes data it)) by apply clean_ResetBytes. assert (D' : ~ dirty (ResetBytes data it')) by apply clean_ResetBytes.
  assert (S := sim_ReadVal F32 F64 C E sf cs n T old _ W). assert (S' := sim_ReadVal F32 F64 C E sf cs n T old _ W').
  rewrite !stream_ResetBytes in *.
  change (fin (ResetBytes data it)) with EEOF in S. change (fin (ResetBytes data it')) with EEOF in S'.
  change (it_useNumber (ResetBytes data it)) with (it_useNumber it) in S. change (it_useNumber (ResetBytes data it')) with (it_useNumber it') in S'.
  change (it_disallow (ResetBytes data it)) with (it_disallow it) in S. change (it_disallow (ResetBytes data it')) with (it_disallow it') in S'.
  rewrite Hu, Hd in S. rewrite Hd' in S'.
  destruct (ReadVal cs n T old (ResetBytes data it)) as [r a], (ReadVal cs n T old (ResetBytes data it')) as [r' a'].
  destruct S as (Wa & [u Ma] & [S|[? _]]); [|tauto]. destruct S' as (Wa' & [u' Ma'] & [S'|[? _]]); [|tauto].
  destruct (ag_decode F32 F64 C E (it_useNumber it') sf cs n T noOpts old EEOF data) as [A|(e & A & K)].
  - rewrite A in S. left. destruct (p_decode F32 F64 C E (it_useNumber it') false sf cs n T noOpts old EEOF data) as [v l|e]; [|now subst].
    destruct S as (x & -> & Sx & Ex), S' as (x' & -> & Sx' & Ex'). unfold eqR in Ex, Ex'. subst x x'.
    assert (N := sim_nextToken a Wa I). assert (N' := sim_nextToken a' Wa' I).
    assert (Da : ~ dirty a) by (intros Q; apply D; exact (mv_dirty _ _ _ Ma Q)).
    assert (Da' : ~ dirty a') by (intros Q; apply D'; exact (mv_dirty _ _ _ Ma' Q)).
    rewrite Sx, (mv_fin _ _ _ Ma) in N. rewrite Sx', (mv_fin _ _ _ Ma') in N'.
    change (fin (ResetBytes data it)) with EEOF in N. change (fin (ResetBytes data it')) with EEOF in N'.
    destruct (nextToken a) as [y c], (nextToken a') as [y' c']. destruct N as (_ & _ & [N|[? _]]); [|tauto]. destruct N' as (_ & _ & [N'|[? _]]); [|tauto].
    destruct (p_nextToken EEOF l) as [z l'|e]; [|now subst].
    destruct N as (k & -> & _), N' as (k' & -> & _). reflexivity.
  - right. rewrite A in S. simpl in S. subst r. simpl. destruct K as [(name & ->)|(c & Hc & ->)]; eauto.
Qed.
Theorem C54_disallow_accepts cs n T old data it it' v : vreachable cs it -> vreachable cs it' -> it_useNumber it = it_useNumber it' ->
  it_disallow it = true -> it_disallow it' = false ->
  fst (Unmarshal cs n T old data it) = Ok v -> fst (Unmarshal cs n T old data it') = Ok v.
Proof.
  intros R R' Hu Hd Hd' H. destruct (C54_disallow cs n T old data it it' R R' Hu Hd Hd') as [K|[(name & K)|(c & _ & K)]]; congruence.
Qed.
(** the same for ReadVal in the middle of an input: what follows the value is the same, too *)
Theorem C54_disallow_readval cs n T old it it' : vreachable cs it -> vreachable cs it' -> it_useNumber it = it_useNumber it' ->
  it_disallow it = true -> it_disallow it' = false -> ~ dirty it -> ~ dirty it' -> stream it = stream it' -> fin it = fin it' ->
  (fst (ReadVal cs n T old it) = fst (ReadVal cs n T old it') /\
   forall v, fst (ReadVal cs n T old it) = Ok v -> stream (snd (ReadVal cs n T old it)) = stream (snd (ReadVal cs n T old it'))) \/
  (exists name, fst (ReadVal cs n T old it) = Err (EUnknownField name)) \/
  (exists c, c <> 125 /\ fst (ReadVal cs n T old it) = Err (EUnexpectedByte c 125 0)).
Proof.
  intros R R' Hu Hd Hd' D D' Es Ef.
  assert (S := sim_ReadVal F32 F64 C E sf cs n T old _ (vreachable_wf _ _ _ _ _ _ _ R)).
  assert (S' := sim_ReadVal F32 F64 C E sf cs n T old _ (vreachable_wf _ _ _ _ _ _ _ R')).
  rewrite Hu, Hd, Es, Ef in S. rewrite Hd' in S'.
  destruct (ReadVal cs n T old it) as [r a], (ReadVal cs n T old it') as [r' a'].
  destruct S as (_ & _ & [S|[? _]]); [|tauto]. destruct S' as (_ & _ & [S'|[? _]]); [|tauto]. cbn [fst snd].
  destruct (ag_decode F32 F64 C E (it_useNumber it') sf cs n T noOpts old (fin it') (stream it')) as [A|(e & A & K)].
  - left. rewrite A in S. destruct (p_decode F32 F64 C E (it_useNumber it') false sf cs n T noOpts old (fin it') (stream it')) as [v l|e].
    + destruct S as (x & -> & Sx & Ex), S' as (x' & -> & Sx' & Ex'). unfold eqR in Ex, Ex'. subst x x'. split; [reflexivity|congruence].
    + subst. split; auto. discriminate.
  - right. rewrite A in S. simpl in S. subst r. destruct K as [(name & ->)|(c & Hc & ->)]; eauto.
Qed.

Hypothesis sane32 : float_sane F32.
Hypothesis sane64 : float_sane F64.
Let lax cs cs' (d d' : bool) : Prop := cs = cs' /\ (d = false -> d' = false) \/ cs = true /\ d = true.
Lemma lax_lookup cs cs' (d d' : bool) : lax cs cs' d d' -> (forall names key i, findField sf cs names key = Some i -> findField sf cs' names key = Some i) /\
  (d = false -> d' = false /\ forall names key, findField sf cs names key = None -> findField sf cs' names key = None).
Proof.
  intros [[<- H]|[-> ->]]; [auto|]. split; [|discriminate]. intros. now apply findField_exact.
Qed.
Lemma by_decodes cs cs' T old old' data it it' v (Q : gval -> Prop) : vreachable cs it -> vreachable cs' it' ->
  (forall t, (exists w1 w2, data = w1 ++ t ++ w2) -> decodes F32 F64 C E (findField sf cs) (it_useNumber it) (it_disallow it) T noOpts old t v ->
     exists v', decodes F32 F64 C E (findField sf cs') (it_useNumber it') (it_disallow it') T noOpts old' t v' /\ Q v') ->
  forall n, fst (Unmarshal cs n T old data it) = Ok v -> exists n' v', fst (Unmarshal cs' n' T old' data it') = Ok v' /\ Q v'.
Proof using sane32 sane64.
  intros R R' H n Hn.
  destruct (proj1 (C26_unmarshal F32 F64 C E sf cs sane32 sane64 T old data it v R)) as (w1 & t & w2 & Ed & H1 & H2 & Hd); [eauto|].
  destruct (H t) as (v' & Hd' & HQ); eauto.
  destruct (proj2 (C26_unmarshal F32 F64 C E sf cs' sane32 sane64 T old' data it' v' R')) as (n' & Hn'); [eauto 8|]. eauto.
Qed.

(** ** UseNumber: everything accepted without it is accepted with it, and the value differs only in the numbers held by interfaces *)
Theorem C54_number cs n T old old' data it it' v : vreachable cs it -> vreachable cs it' -> it_disallow it = it_disallow it' ->
  it_useNumber it = false -> it_useNumber it' = true -> renumbered old old' ->
  fst (Unmarshal cs n T old data it) = Ok v -> exists n' v', fst (Unmarshal cs n' T old' data it') = Ok v' /\ renumbered v v'.
Proof.
  intros R R' Hd Hu Hu' A. apply by_decodes; auto. intros t _ D. rewrite Hu in D. rewrite Hu'.
  apply (options_number F32 F64 C E (findField sf cs) (findField sf cs) (it_disallow it) (it_disallow it') T noOpts old old' t v); auto.
  intros K; split; [congruence|auto].
Qed.
(** the other way: if ParseFloat accepts the numbers of the input *)
Theorem C54_float cs n T old old' data it it' v' : vreachable cs it -> vreachable cs it' -> it_disallow it = it_disallow it' ->
  it_useNumber it = false -> it_useNumber it' = true -> renumbered old old' -> in_float_range F64 data ->
  fst (Unmarshal cs n T old' data it') = Ok v' -> exists n' v, fst (Unmarshal cs n' T old data it) = Ok v /\ renumbered v v'.
Proof.
  intros R R' Hd Hu Hu' A HR. apply (by_decodes cs cs T old' old data it' it v' (fun v => renumbered v v')); auto. intros t (w1 & w2 & ->) D.
  rewrite Hu' in D. rewrite Hu. apply (options_float F32 F64 C E (findField sf cs) (findField sf cs) (it_disallow it') (it_disallow it) T noOpts old old' t v'); auto; [intros K; split; [congruence|auto]|].
  intros a m c -> Hm. apply (HR (w1 ++ a) m (c ++ w2)); auto. now rewrite <- !app_assoc.
Qed.

(** ** CaseSensitive: what is accepted with it and without unknown members is accepted without it, with the same value *)
Theorem C54_case n T old data it it' v : vreachable true it -> vreachable false it' -> it_useNumber it = it_useNumber it' ->
  it_disallow it = true -> fst (Unmarshal true n T old data it) = Ok v -> exists n', fst (Unmarshal false n' T old data it') = Ok v.
Proof.
  intros R R' Hu Hd H. destruct (by_decodes true false T old old data it it' v (fun v' => v' = v) R R') with (n := n) as (n' & v' & K & ->); eauto.
  intros t _ D. exists v. split; auto. rewrite <- Hu. destruct (lax_lookup true false (it_disallow it) (it_disallow it')) as [L1 L2]; [now right|].
  eapply options_same; eauto.
Qed.
(** ** The strictest setting: what it accepts is accepted with every setting *)
Theorem C54_strict cs' n T old data it it' v : vreachable true it -> vreachable cs' it' -> it_useNumber it = false -> it_disallow it = true ->
  fst (Unmarshal true n T old data it) = Ok v ->
  exists n' v', fst (Unmarshal cs' n' T old data it') = Ok v' /\ (if it_useNumber it' then renumbered v v' else v' = v).
Proof.
  intros R R' Hu Hd. apply by_decodes; auto. intros t _ D. rewrite Hu, Hd in D.
  destruct (lax_lookup true cs' true (it_disallow it')) as [L1 L2]; [now right|]. destruct (it_useNumber it').
  - eapply options_number; eauto. apply al_same.
  - exists v. split; auto. eapply options_same; eauto.
Qed.
End Options.

(** ** Examples *)
(** with CaseSensitive and a folding, see C29 *)
Notation oUnmarshal cs := (Unmarshal textF textF demoC demoE demoSf cs).
Definition opts (b d : bool) : iter := newIter b d (mkStack [5] 0).
Lemma opts_reach cs b d : vreachable textF textF demoC demoE demoSf cs (opts b d).
Proof. apply vr_reachable, re_new. Qed.
Notation outer0 := (zero textF textF demoC demoE outerT).
Definition known : bytes := bs " {""x"":5,""Rest"":[1,{""y"":2}],""name"":""a"",""on"":""true""} ".
Definition unknown : bytes := bs "{""x"":5,""z"":{}}".
Notation floatV s := (VIface (Some (TFloat64, @VFloat64 textF textF demoC (false, bs s)))).
Notation numberV s := (VIface (Some (TNumber, @VStr textF textF demoC (bs s)))).
Notation pairV v w := (VStruct [VBool true; VStruct [VStr (bs "a")]; VPtr (Some (VStruct [VInt 5]));
  VIface (Some (TSlice TEface, VSlice (Some [v; VIface (Some (TMap KString TEface, VMap (Some [(KS (bs "y"), w)])))])))]).

(** the same value, the refusal of a member, the same error *)
Example C54_disallow_ex :
  fst (oUnmarshal true 9 outerT outer0 known (opts false true)) = Ok (pairV (floatV "1") (floatV "2")) /\
  fst (oUnmarshal true 9 outerT outer0 known (opts false false)) = Ok (pairV (floatV "1") (floatV "2")) /\
  fst (oUnmarshal true 9 outerT outer0 unknown (opts false true)) = Err (EUnknownField (bs "z")) /\
  fst (oUnmarshal true 9 (TStruct [] []) (VStruct []) unknown (opts false true)) = Err (EUnexpectedByte 34 125 0) /\
  fst (oUnmarshal true 9 outerT outer0 (bs "{""x"":5,""on"":7}") (opts false true)) = Err (EUnexpectedByte 55 0 0) /\
  fst (oUnmarshal true 9 outerT outer0 (bs "{""x"":5,""on"":7}") (opts false false)) = Err (EUnexpectedByte 55 0 0).
Proof. vm_compute. repeat split; reflexivity. Qed.
Example C54_disallow_accepts_ex : fst (oUnmarshal true 9 outerT outer0 known (opts false true)) = Ok (pairV (floatV "1") (floatV "2")).
Proof. vm_compute. reflexivity. Qed.
Example C54_disallow_readval_ex :
  let it := ResetFrom (SReader (pieces "{""x"":5} ]")) (opts false true) in let it' := ResetFrom (SBytes (bs "{""x"":5} ]")) (opts false false) in
  ~ dirty it /\ ~ dirty it' /\ stream it = stream it' /\ fin it = fin it' /\ it_disallow it = true /\ it_disallow it' = false /\
  fst (ReadVal textF textF demoC demoE demoSf false 9 outerT outer0 it) = fst (ReadVal textF textF demoC demoE demoSf false 9 outerT outer0 it') /\
  stream (snd (ReadVal textF textF demoC demoE demoSf false 9 outerT outer0 it)) = bs " ]".
Proof.
  cbv zeta. split; [apply clean_Reset; intros [H _]; now apply H|]. split; [apply clean_ResetBytes|]. vm_compute. repeat split; reflexivity.
Qed.
Example C54_number_ex : exists v v', fst (oUnmarshal true 9 outerT outer0 known (opts false true)) = Ok v /\
  fst (oUnmarshal true 9 outerT outer0 known (opts true true)) = Ok v' /\ v = pairV (floatV "1") (floatV "2") /\ v' = pairV (numberV "1") (numberV "2") /\
  renumbered textF textF demoC v v'.
Proof.
  eexists _, _. split; [vm_compute; reflexivity|]. split; [vm_compute; reflexivity|]. split; [reflexivity|]. split; [reflexivity|].
  apply al_struct. do 3 (constructor; [apply al_same|]). constructor; [|constructor]. apply al_iface, al_slice.
  constructor; [apply al_base; now constructor|]. constructor; [|constructor]. apply al_iface, al_map. constructor; [|constructor].
  split; [reflexivity|]. apply al_base. now constructor.
Qed.
Example C54_float_ex : in_float_range textF known /\ exists v', fst (oUnmarshal true 9 outerT outer0 known (opts true true)) = Ok v'.
Proof.
  split; [|eexists; vm_compute; reflexivity]. intros a n c _ Hn. destruct (number_first _ Hn) as (x & t & -> & _). simpl. destruct (x =? 45); eauto.
Qed.
Example C54_case_ex : exists v, fst (oUnmarshal true 9 outerT outer0 known (opts false true)) = Ok v /\
  fst (oUnmarshal false 9 outerT outer0 known (opts false false)) = Ok v.
Proof. eexists. split; vm_compute; reflexivity. Qed.
Example C54_strict_ex : exists v v', fst (oUnmarshal true 9 outerT outer0 known (opts false true)) = Ok v /\
  fst (oUnmarshal false 9 outerT outer0 known (opts true false)) = Ok v' /\ v = pairV (floatV "1") (floatV "2") /\ v' = pairV (numberV "1") (numberV "2").
Proof. eexists _, _. split; [vm_compute; reflexivity|]. split; [vm_compute; reflexivity|]. split; reflexivity. Qed.

(** If unknown members are allowed, an input accepted with CaseSensitive can be refused without it: the member X is
    then the field x. *)
Theorem C54_case_refuted : exists T data old it it' v, vreachable textF textF demoC demoE demoSf true it /\ vreachable textF textF demoC demoE demoSf false it' /\
  it_useNumber it = it_useNumber it' /\ it_disallow it = it_disallow it' /\ fst (oUnmarshal true 9 T old data it) = Ok v /\
  forall n, fst (oUnmarshal false n T old data it') <> Ok v.
Proof.
  exists outerT, (bs "{""X"":5}"), outer0, (opts false false), (opts false false), outer0. split; [apply opts_reach|]. split; [apply opts_reach|].
  split; [reflexivity|]. split; [reflexivity|]. split; [vm_compute; reflexivity|]. intros n Hn.
  destruct (C26_fuel textF textF demoC demoE demoSf false textF_sane textF_sane _ _ _ _ _ _ (opts_reach false false false) Hn) as (n0 & H).
  assert (K : exists v9, (exists m, fst (oUnmarshal false m outerT outer0 (bs "{""X"":5}") (opts false false)) = Ok v9) /\ v9 <> outer0).
  { eexists. split; [exists 9%nat; vm_compute; reflexivity|]. vm_compute. discriminate. }
  destruct K as (v9 & (m & Hm) & Hne).
  destruct (C26_fuel textF textF demoC demoE demoSf false textF_sane textF_sane _ _ _ _ _ _ (opts_reach false false false) Hm) as (m0 & H').
  apply Hne. specialize (H (n0 + m0)%nat ltac:(lia)). specialize (H' (n0 + m0)%nat ltac:(lia)). congruence.
Qed.
(** Without UseNumber a number that ParseFloat refuses is an error, so the converse of C54_number needs its condition.
    This ParseFloat refuses numbers with more than six characters besides the sign. *)
Definition shortF : floatOps := mkFloatOps (bool * bytes)
  (fun t => match t with
            | c :: u => if c =? 45 then if (6 <? List.length u)%nat then inr 1 else inl (true, lowerE u)
                        else if (6 <? List.length t)%nat then inr 1 else inl (false, lowerE t)
            | [] => inr 1
            end)
  (false, [48]) (fun x => (negb (fst x), snd x)).
Lemma shortF_sane : float_sane shortF.
Proof.
  constructor; auto. intros u Hu. destruct (unsigned_first _ Hu) as (d & t & -> & Hd). cbn [fl_parse shortF]. cbn [Z.eqb Pos.eqb].
  unfold is_digit in Hd. destruct (Z.eqb_spec d 45); [lia|]. destruct (6 <? List.length (d :: t))%nat; reflexivity.
Qed.
Definition shortE : env textF shortF demoC := mkEnv _ _ _ (fun _ => TBad) (fun _ => VBool false).
Theorem C54_float_refuted : float_sane shortF /\ exists data it it' v' e, vreachable textF shortF demoC shortE noFold true it /\ vreachable textF shortF demoC shortE noFold true it' /\
  it_disallow it = it_disallow it' /\ it_useNumber it = false /\ it_useNumber it' = true /\
  fst (Unmarshal textF shortF demoC shortE noFold true 9 TEface (VIface None) data it') = Ok v' /\
  forall n, (2 <= n)%nat -> fst (Unmarshal textF shortF demoC shortE noFold true n TEface (VIface None) data it) = Err e.
Proof.
  split; [apply shortF_sane|].
  exists (bs "[1e99999]"), (opts false false), (opts true false). eexists _, _. split; [apply vr_reachable, re_new|]. split; [apply vr_reachable, re_new|].
  split; [reflexivity|]. split; [reflexivity|]. split; [reflexivity|]. split; [vm_compute; reflexivity|].
  intros n Hn. destruct n as [|[|n]]; [lia|lia|]. vm_compute. reflexivity.
Qed.

Print Assumptions C54_disallow.
Print Assumptions C54_disallow_accepts.
Print Assumptions C54_disallow_readval.
Print Assumptions C54_number.
Print Assumptions C54_float.
Print Assumptions C54_case.
Print Assumptions C54_strict.
Print Assumptions C54_case_refuted.
Print Assumptions C54_float_refuted.
