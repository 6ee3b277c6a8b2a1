(** C57: input that is cut off and input that is wrong are told apart. *)
From Coq Require Import String ZArith List Bool Lia.
From Verif Require Import Base ModelIter ModelStack ModelSkip ModelFloat ModelRead ModelOps ModelVal ModelDecoder Sim SimLib SimSkip SimRaw SimRead SimOps SimVal
  Spec SpecCut NumFacts GrammarFacts IterFacts ValFacts CutFacts CutMachine CutRead Properties1 Properties4.
Import ListNotations.
Local Open Scope Z_scope.

(** Every input is of exactly one of the three kinds, and the first wrong byte is at one place. *)
Theorem C57_kinds : forall f l, ending f ->
  (starts f l \/ cut f l \/ exists u c r, l = u ++ c :: r /\ wrong u c) /\
  ~ (starts f l /\ cut f l) /\ ~ (starts f l /\ exists u c r, l = u ++ c :: r /\ wrong u c) /\
  ~ (cut f l /\ exists u c r, l = u ++ c :: r /\ wrong u c) /\
  (forall u c r u' c' r', l = u ++ c :: r -> l = u' ++ c' :: r' -> wrong u c -> wrong u' c' -> u = u').
Proof.
  intros f l En. split; [|split; [|split; [|split]]].
  - destruct (skip_kinds f l En) as [K|[[K _]|(u & c & r & E & W & _)]].
    + left. now apply starts_spec.
    + right. left. now apply skip_cut.
    + right. right. eauto.
  - intros [S [N _]]. auto.
  - intros [S (u & c & r & -> & _ & W)]. apply starts_eof in S. exact (W _ S).
  - intros [[_ X] (u & c & r & -> & _ & W)]. apply extends_starts in X. destruct X as (s & X). rewrite <- app_assoc in X. exact (W _ X).
  - intros u c r u' c' r' -> E W W'. now destruct (wrong_unique _ _ _ _ _ _ W W' E).
Qed.

Definition fits {A} (y : pres A) (x : res A) : Prop := match y with POk a _ => x = Ok a | PErr e => x = Err e end.
Lemma tells_echo {A} f l (y : pres A) x : ending f -> echo true y (p_Skip f l) -> fits y x -> tells f l x.
Proof.
  intros En [[H _]|H] O; [discriminate|]. assert (B : byteOf f = None) by (destruct En as [->|[n ->]]; reflexivity). unfold fits in O.
  split; [|split].
  - rewrite <- skip_cut by auto. destruct y as [a r|e], (p_Skip f l) as [[] r'|e']; try contradiction; subst x; [split; discriminate|].
    destruct H as [<-|(c & H1 & H2)]; [split; intros [= <-]; reflexivity|]. split; intros [= <-]; congruence.
  - intros c. rewrite <- (skip_bad f l c) by auto. unfold bad. destruct y as [a r|e], (p_Skip f l) as [[] r'|e']; try contradiction; subst x.
    + split; intros (e & E & _); discriminate.
    + destruct H as [<-|(d & H1 & H2)]; split; intros (e0 & [= <-] & E); eexists; (split; [reflexivity|]); congruence.
  - rewrite starts_spec. destruct y as [a r|e], (p_Skip f l) as [[] r'|e']; try contradiction; subst x; split; intros (z & E); eauto; discriminate.
Qed.
Lemma fits_outcome {A} it it' x (y : pres A) : ~ dirty it -> outcome it it' x y eqR -> fits y x.
Proof. intros D [H|[H _]]; [|contradiction]. destruct y; [|exact H]. destruct H as (a' & -> & _ & ->). reflexivity. Qed.

(** The calls that take any JSON value; Read keeps numbers as text in this theorem *)
Definition whole (it : iter) (o : op) : Prop :=
  match o with OSkip | OSkipRaw | OReadRaw | OAppendRaw _ => True | ORead => it_useNumber it = true | _ => False end.
Theorem C57_calls : forall F32 F64 it o, reachable F32 F64 it -> ~ dirty it -> ending (fin it) -> whole it o ->
  tells (fin it) (stream it) (fst (exec F32 F64 o it)).
Proof.
  intros F32 F64 it o R D En Wh. assert (S := sim_exec F32 F64 (it_useNumber it) o it (reachable_wf _ _ _ R) eq_refl).
  destruct (exec F32 F64 o it) as [x it'] eqn:Ex. destruct S as (_ & _ & S). apply fits_outcome in S; auto. cbn [fst].
  eapply tells_echo; [exact En| |exact S].
  assert (SR : forall f l, echo true (p_SkipRaw f l) (p_Skip f l)).
  { intros f l. unfold p_SkipRaw, p_Skip, p_takeToken, p_captured, pbind. destruct (p_nextToken f l) as [c r|e]; [|apply echo_err].
    unfold p_inc, pret. destruct (p_skipFunctions c f (tl r)); [apply echo_ok|apply echo_err]. }
  assert (O : forall A (g : A -> out F32 F64) (p : P A) f l, echo true (p f l) (p_Skip f l) -> echo true (p_out F32 F64 g p f l) (p_Skip f l)).
  { intros A g p f l H. apply (echo_left _ _ _ (fun a => pret (g a))); [exact H|]. intros; apply echo_ok. }
  destruct o; try contradiction; cbn [p_exec]; apply O.
  - destruct (p_Skip (fin it) (stream it)) as [[] r|e]; [apply echo_ok|apply echo_err].
  - apply SR.
  - apply (echo_left _ _ _ (fun a => pret ([] ++ a))); [apply SR|]. intros; apply echo_ok.
  - apply (echo_left _ _ _ (fun a => pret (b ++ a))); [apply SR|]. intros; apply echo_ok.
  - cbn in Wh. rewrite Wh. apply Read_echo.
Qed.
(** Read without UseNumber can also fail because strconv refuses a number; else it tells the same. *)
Theorem C57_read : forall F32 F64 it, reachable F32 F64 it -> ~ dirty it -> ending (fin it) ->
  (exists n, fst (Read F64 it) = Err (EParseFloat n)) \/ tells (fin it) (stream it) (fst (Read F64 it)).
Proof.
  intros F32 F64 it R D En. assert (S := sim_Read F64 (it_useNumber it) it (reachable_wf _ _ _ R) eq_refl).
  destruct (Read F64 it) as [x it'] eqn:Ex. destruct S as (_ & _ & S). apply fits_outcome in S; auto. cbn [fst].
  destruct (Read_echo F64 (it_useNumber it) (fin it) (stream it)) as [[_ [n H]]|H].
  - left. exists n. rewrite H in S. exact S.
  - right. eapply tells_echo; [exact En|right; exact H|exact S].
Qed.

Section Typed.
Variables F32 F64 : floatOps.
Variable C : custom.
Variable E : env F32 F64 C.
Variable sf : Z -> Z.
Variable cs : bool.
Notation ReadVal := (ReadVal F32 F64 C E sf cs).
Notation Unmarshal := (Unmarshal F32 F64 C E sf cs).
Notation vreachable := (vreachable F32 F64 C E sf cs).
(** The targets that take any JSON value *)
Definition target (it : iter) (t : ty) (old : gval F32 F64 C) : Prop :=
  t = TRaw \/ (t = TEface /\ old = VIface None /\ it_useNumber it = true).
Lemma target_echo it n t old f l : target it t old ->
  echo true (p_decode F32 F64 C E (it_useNumber it) (it_disallow it) sf cs (S n) t noOpts old f l) (p_Skip f l).
Proof.
  intros [->|(-> & -> & Un)]; cbn [p_decode].
  - unfold p_jsonRawMessageDecoder, p_AppendRaw. apply (echo_left _ _ _ (fun a => pret (VRaw (Some a)))); [|intros; apply echo_ok].
    apply (echo_left _ _ _ (fun a => pret ([] ++ a))); [|intros; apply echo_ok].
    unfold p_SkipRaw, p_Skip, p_takeToken, p_captured, pbind. destruct (p_nextToken f l) as [c r|e]; [|apply echo_err].
    unfold p_inc, pret. destruct (p_skipFunctions c f (tl r)); [apply echo_ok|apply echo_err].
  - rewrite Un. unfold p_efaceDecoder. cbn [heldPtr]. apply (echo_left _ _ _ (fun a => pret (of_read F32 F64 C a))); [apply Read_echo|intros; apply echo_ok].
Qed.
Theorem C57_readval n t old it : vreachable it -> ~ dirty it -> ending (fin it) -> target it t old ->
  tells (fin it) (stream it) (fst (ReadVal (S n) t old it)).
Proof.
  intros R D En T. assert (S := sim_ReadVal F32 F64 C E sf cs (S n) t old it (vreachable_wf _ _ _ _ _ _ _ R)).
  destruct (ReadVal (Datatypes.S n) t old it) as [x it'] eqn:Ex. destruct S as (_ & _ & S). apply fits_outcome in S; auto. cbn [fst].
  eapply tells_echo; [exact En| |exact S]. now apply target_echo.
Qed.
(** Unmarshal of a byte slice: io.EOF, an error that names a byte, or ErrDataRemained *)
Theorem C57_unmarshal n t old data it : vreachable it -> target it t old ->
  let x := fst (Unmarshal (S n) t old data it) in
  (x = Err EEOF <-> cut EEOF data) /\
  (forall c, (exists e, x = Err e /\ byteOf e = Some c) <-> exists u r, data = u ++ c :: r /\ wrong u c) /\
  (x = Err EDataRemained <-> starts EEOF data /\ ~ exists j, json_text data j) /\
  ((exists v, x = Ok v) <-> exists j, json_text data j).
Proof.
  intros R T x. unfold x, ModelVal.Unmarshal. clear x. remember (ResetBytes data it) as it0 eqn:E0. assert (W : wf it0) by (subst it0; apply wf_ResetBytes, (vreachable_wf _ _ _ _ _ _ _ R)).
  assert (D : ~ dirty it0) by (subst it0; apply clean_ResetBytes). assert (Hs : stream it0 = data) by (subst it0; apply stream_ResetBytes).
  assert (Hf : fin it0 = EEOF) by (subst it0; reflexivity).
  assert (T0 : target it0 t old) by (subst it0; exact T). clear E0.
  assert (X := sim_ReadVal F32 F64 C E sf cs (S n) t old it0 W).
  assert (B := target_echo it0 n t old EEOF data T0). unfold unmarshal, bind.
  destruct (ModelVal.ReadVal F32 F64 C E sf cs (S n) t old it0) as [y it1] eqn:Ex. destruct X as (W1 & [u M1] & X).
  rewrite Hf, Hs in X.
  assert (D1 : ~ dirty it1) by (intros K; apply D; exact (mv_dirty _ _ _ M1 K)).
  assert (F1 : fin it1 = EEOF) by (rewrite (mv_fin _ _ _ M1); exact Hf).
  assert (TE := tells_echo EEOF data _ y (or_introl eq_refl) B (fits_outcome _ _ _ _ D X)). destruct TE as (T1 & T2 & T3).
  destruct X as [X|[X _]]; [|contradiction].
  destruct (p_decode _ _ _ _ _ _ _ _ (S n) t noOpts old EEOF data) as [v r|e] eqn:Ep.
  - destruct X as (v' & -> & Hr & ->). assert (St : starts EEOF data) by (apply T3; eauto).
    assert (Sk : p_Skip EEOF data = POk tt r).
    { destruct B as [[B _]|B]; [discriminate|]. destruct (p_Skip EEOF data) as [[] r'|]; [now subst|contradiction]. }
    assert (Tx : (exists j, json_text data j) <-> ws r).
    { split.
      - intros (j & w & tx & w2 & -> & H1 & H2 & H3).
        assert (K : p_Skip EEOF (w ++ tx ++ w2) = POk tt w2). { apply Skip_spec. exists w, tx, j. repeat split; auto. now apply ws_vends. }
        rewrite K in Sk. injection Sk as ->. auto.
      - intros Hw. apply Skip_spec in Sk. destruct Sk as (w & tx & j & -> & H1 & H2 & H3). exists j, w, tx, r. auto. }
    assert (H2 := sim_nextToken it1 W1 I). destruct (nextToken it1) as [r2 it2]. destruct H2 as (_ & _ & [H2|[? _]]); [|tauto]. rewrite F1, Hr in H2.
    destruct (p_nextToken EEOF r) as [c l|e] eqn:En.
    + destruct H2 as (a & -> & _). assert (Nw : ~ ws r) by (intros Hw; rewrite nextToken_end in En by auto; discriminate). cbn [fst].
      split; [|split; [|split]].
      * split; [discriminate|]. intros [N _]. contradiction.
      * intros d. rewrite <- T2. split; intros (e & [= ] & He); subst; discriminate.
      * split; [intros _; split; [exact St|tauto]|reflexivity].
      * split; [intros (v0 & [=])|tauto].
    + subst r2. assert (e = EEOF) by (now apply nextToken_no_other in En). subst e. apply nextToken_eof_inv in En. destruct En as [_ En]. cbn [fst err_eqb_eof].
      split; [|split; [|split]].
      * split; [discriminate|]. intros [N _]. contradiction.
      * intros d. rewrite <- T2. split; intros (e & [= ] & He).
      * split; [discriminate|]. intros [_ N]. tauto.
      * split; eauto. intros _. tauto.
  - subst y. cbn [fst]. assert (Ns : ~ starts EEOF data) by (intros St; apply T3 in St; destruct St; discriminate).
    split; [exact T1|]. split; [exact T2|]. split; [|split].
    + split; [|tauto]. intros [= ->]. exfalso. destruct B as [[B _]|B]; [discriminate|]. destruct (p_Skip EEOF data) as [|e'] eqn:Es; [contradiction|].
      destruct B as [<-|(c & B & _)]; [|discriminate]. destruct (skip_other EEOF data EDataRemained (or_introl eq_refl) Es) as [c Hc]; discriminate.
    + intros (v & [=]).
    + intros (j & J). apply text_starts in J. contradiction.
Qed.
End Typed.
(** an iterator with a history, attached to a text that arrives in pieces *)
Lemma small_ending s : ending (fin (small s)).
Proof. left. reflexivity. Qed.
Definition cutText : string := " [1,{""a"": ""\ud83d\ud".
Definition wrongText : string := " [1,{""a"": -x}, 2".
Lemma wrong_at u c : p_Skip F0 u = PErr F0 -> bad c (p_Skip F0 (u ++ [c])) -> wrong u c.
Proof.
  intros H B. apply skip_bad in B; [|right; exists 0; reflexivity]. destruct B as (u' & r & E & W). destruct (@exists_last _ (c :: r)) as (x & d & Ex); [discriminate|].
  destruct x as [|e x]; cbn in Ex.
  - injection Ex as -> ->. apply app_inj_tail in E. destruct E as [-> _]. exact W.
  - injection Ex as <- Ex. rewrite Ex in E. change (u' ++ c :: x ++ [d]) with (u' ++ (c :: x) ++ [d]) in E. rewrite app_assoc in E.
    apply app_inj_tail in E. destruct E as [-> <-]. exfalso. apply skip_cut in H; [|right; exists 0; reflexivity].
    destruct H as [_ X]. apply extends_starts in X. destruct X as (s & X). rewrite <- app_assoc in X. exact (proj2 W _ X).
Qed.
Example C57_kinds_ex : cut EEOF (bs cutText) /\ wrong (bs " [1,{""a"": -") 120 /\ starts EEOF (bs "-0 x").
Proof.
  split; [|split].
  - apply (skip_cut EEOF); [left; reflexivity|]. vm_compute. reflexivity.
  - apply wrong_at; [vm_compute; reflexivity|]. eexists. split; [vm_compute; reflexivity|reflexivity].
  - apply starts_spec. exists (bs " x"). vm_compute. reflexivity.
Qed.
Example C57_calls_ex : reachable textF textF (small cutText) /\ ~ dirty (small cutText) /\ ending (fin (small cutText)) /\ stream (small cutText) = bs cutText /\
  fst (exec textF textF OSkip (small cutText)) = Err EEOF /\ fst (exec textF textF (OAppendRaw [1]) (small cutText)) = Err EEOF /\
  fst (exec textF textF OSkip (small wrongText)) = Err (EInvalidDigit 120) /\ fst (exec textF textF OSkip (small "-0 x")) = Ok RUnit.
Proof.
  split; [apply reachable_small|]. split; [apply clean_small|]. split; [apply small_ending|]. vm_compute. auto.
Qed.
Example C57_read_ex : fst (Read textF (small cutText)) = Err EEOF /\ fst (Read textF (small wrongText)) = Err (EInvalidFloat 120) /\
  fst (Read textF (small "[1, 2.e")) = Err (EInvalidFloat 101).
Proof. vm_compute. auto. Qed.
Example C57_readval_ex : vreachable textF textF demoC demoE noFold true (smallv false cutText) /\ ~ dirty (smallv false cutText) /\
  ending (fin (smallv false cutText)) /\ target textF textF demoC (smallv false cutText) TRaw (VRaw None) /\
  fst (dReadVal 1 TRaw (VRaw None) (smallv false cutText)) = Err EEOF /\
  fst (dReadVal 1 TRaw (VRaw None) (smallv false wrongText)) = Err (EInvalidDigit 120).
Proof.
  split; [apply reachable_smallv|]. split; [apply clean_smallv|]. split; [left; reflexivity|]. split; [left; reflexivity|]. vm_compute. auto.
Qed.
Example C57_unmarshal_ex : vreachable textF textF demoC demoE noFold true (used2 true) /\ target textF textF demoC (used2 true) TRaw (VRaw None) /\
  fst (dUnmarshal 1 TRaw (VRaw None) (bs cutText) (used2 true)) = Err EEOF /\
  fst (dUnmarshal 1 TRaw (VRaw None) (bs wrongText) (used2 true)) = Err (EInvalidDigit 120) /\
  fst (dUnmarshal 1 TRaw (VRaw None) (bs "-0 x") (used2 true)) = Err EDataRemained /\
  fst (dUnmarshal 1 TRaw (VRaw None) (bs "-0 ") (used2 true)) = Ok (VRaw (Some (bs "-0"))).
Proof. split; [apply reachable_used2|]. split; [left; reflexivity|]. vm_compute. auto. Qed.

(** io.EOF of Decode does not mean that the input ends between two values: it is also the error of a value that is cut off, so
    a loop that stops at io.EOF, as it is usual for Decoders, takes a truncated input for a complete one. *)
Theorem C57_decoder_refuted : exists dc1 dc2, let step dc := Decode textF textF demoC demoE noFold true 1 TRaw (VRaw None) dc in
  dc1 = NewDecoder (SReader (pieces "[1] ")) (used2 false) /\ dc2 = NewDecoder (SReader (pieces "[1] {""a"": [2,")) (used2 false) /\
  fst (step dc1) = fst (step dc2) /\ fst (step dc1) = Ok (VRaw (Some (bs "[1]"))) /\
  fst (step (snd (step dc1))) = Err EEOF /\ fst (step (snd (step dc2))) = Err EEOF /\
  fst (More (snd (step dc1))) = false /\ fst (More (snd (step dc2))) = true.
Proof. do 2 eexists. cbv zeta. split; [reflexivity|]. split; [reflexivity|]. vm_compute. auto 6. Qed.

Print Assumptions C57_kinds.
Print Assumptions C57_calls.
Print Assumptions C57_read.
Print Assumptions C57_readval.
Print Assumptions C57_unmarshal.
Print Assumptions C57_decoder_refuted.
