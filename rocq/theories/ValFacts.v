(** ReadVal, Unmarshal and the Decoder on concrete iterators. *)
From Coq Require Import String ZArith List Bool Lia Arith.
From Verif Require Import Base ModelIter ModelStack ModelSkip ModelStr ModelInt ModelFloat ModelRead ModelIterate ModelOps
  ModelVal ModelDecoder Spec SpecVal SpecDecoder Sim SimLib SimSkip SimRaw SimStr SimInt SimFloat SimRead SimIterate SimOps SimVal NumFacts StrFacts MachineFacts FloatFacts GrammarFacts IntFacts IterateFacts IterFacts DecSound DecComplete.
Import ListNotations.
Local Open Scope Z_scope.

Section Val.
Variables F32 F64 : floatOps.
Variable C : custom.
Notation gval := (gval F32 F64 C).
Variable E : env F32 F64 C.
Variable sf : Z -> Z.
Variable cs : bool.
Notation lookup := (findField sf cs).
Notation ReadVal := (ReadVal F32 F64 C E sf cs).
Notation Unmarshal := (Unmarshal F32 F64 C E sf cs).
Notation unmarshal := (unmarshal F32 F64 C E sf cs).
Notation vreachable := (vreachable F32 F64 C E sf cs).
Notation pdec b d := (p_decode F32 F64 C E b d sf cs).

(** ** The states *)
Lemma sim_ReadVal n T old : forall it, wf it ->
  let '(r, it') := ReadVal n T old it in
  wf it' /\ step_ok it it' /\ outcome it it' r (pdec (it_useNumber it) (it_disallow it) n T noOpts old (fin it) (stream it)) eqR.
Proof.
  intros it W. apply (sim_decode F32 F64 C E (it_useNumber it) (it_disallow it) sf cs n T noOpts old it W). now split.
Qed.
Lemma wf_ResetFrom s it : wf it -> wf (ResetFrom s it).
Proof. destruct s; [apply wf_Reset|apply wf_ResetBytes|apply wf_reset]. Qed.
Lemma wf_unmarshal n T old it : wf it -> wf (snd (unmarshal n T old it)).
Proof.
  intros W. unfold ModelVal.unmarshal, bind. assert (H := sim_ReadVal n T old it W).
  destruct (ReadVal n T old it) as [r it1]. destruct H as (W1 & _ & _).
  destruct r as [v|e| |]; auto. assert (H2 := sim_nextToken it1 W1 I). destruct (nextToken it1) as [r2 it2]. destruct H2 as (W2 & _ & _).
  now destruct r2.
Qed.
Lemma vreachable_wf it : vreachable it -> wf it.
Proof.
  induction 1 as [it H|s it H IH|u d p it H IH|S p it H IH|n T old it H IH|n T old it H IH].
  - now apply (reachable_wf F32 F64).
  - now apply wf_ResetFrom.
  - now apply wf_reuse, wf_reset.
  - apply (run_outcome F32 F64 p it IH).
  - assert (K := sim_ReadVal n T old it IH). destruct (ReadVal n T old it). apply K.
  - now apply wf_unmarshal.
Qed.

Hypothesis sane32 : float_sane F32.
Hypothesis sane64 : float_sane F64.
Notation decodes b d := (decodes F32 F64 C E lookup b d).

Lemma ReadVal_sound n T old it v r : wf it -> yields (ReadVal n T old) it v r ->
  exists w t, stream it = w ++ t ++ r /\ ws w /\ decodes (it_useNumber it) (it_disallow it) T noOpts old t v.
Proof.
  intros W Y. assert (H := yields_pure _ _ _ (sim_decode F32 F64 C E (it_useNumber it) (it_disallow it) sf cs n T noOpts old) it v r W (conj eq_refl eq_refl) Y).
  now apply decode_sound in H.
Qed.
Lemma ReadVal_complete T old it v w t r : wf it -> ~ dirty it -> stream it = w ++ t ++ r -> ws w -> ends t (fin it) r ->
  decodes (it_useNumber it) (it_disallow it) T noOpts old t v ->
  exists n0, forall n, (n0 <= n)%nat -> yields (ReadVal n T old) it v r.
Proof.
  intros W D Es Hw He Hd. destruct (proj1 (decode_complete F32 F64 C E (it_useNumber it) (it_disallow it) sf cs sane32 sane64) _ _ _ _ _ Hd) as (n0 & H0).
  exists n0. intros n Hn.
  apply (pure_yields _ _ _ (sim_decode F32 F64 C E (it_useNumber it) (it_disallow it) sf cs n T noOpts old) it v r W (conj eq_refl eq_refl) D).
  rewrite Es. now apply H0.
Qed.
Lemma ReadVal_complete_ex T old it v w t r : wf it -> ~ dirty it -> stream it = w ++ t ++ r -> ws w -> ends t (fin it) r ->
  decodes (it_useNumber it) (it_disallow it) T noOpts old t v -> exists n, yields (ReadVal n T old) it v r.
Proof. intros W D Es Hw He Hd. destruct (ReadVal_complete _ _ _ _ _ _ _ W D Es Hw He Hd) as (n0 & H). exists n0. auto. Qed.

(** ** Unmarshal *)
Lemma ws_ends t w : ws w -> ends t EEOF w.
Proof. intros Hw Hn. exact (ws_vends t (JNum t) w Hw). Qed.
(** the part after the value *)
Lemma unmarshal_end n T old it v : wf it -> fin it = EEOF -> ~ dirty it ->
  (fst (unmarshal n T old it) = Ok v <-> exists r, yields (ReadVal n T old) it v r /\ ws r).
Proof.
  intros W Hf D. unfold ModelVal.unmarshal, bind, yields. assert (H := sim_ReadVal n T old it W).
  destruct (ReadVal n T old it) as [x it1] eqn:Ex. destruct H as (W1 & [u M1] & H).
  assert (D1 : ~ dirty it1) by (intros K; apply D; exact (mv_dirty _ _ _ M1 K)).
  assert (F1 : fin it1 = EEOF) by (rewrite (mv_fin _ _ _ M1); auto).
  destruct x as [v1|e| |].
  2,3,4: split; [discriminate|]; intros (r & [K _] & _); discriminate.
  simpl. assert (H2 := sim_nextToken it1 W1 I). destruct (nextToken it1) as [r2 it2].
  destruct H2 as (_ & _ & [H2|[? _]]); [|tauto]. rewrite F1 in H2.
  destruct (p_nextToken EEOF (stream it1)) as [c l|e] eqn:En.
  - destruct H2 as (a & -> & _). split; [discriminate|]. intros (r & [K1 K2] & Hr).
    rewrite K2, nextToken_end in En by auto. discriminate.
  - subst r2. assert (e = EEOF) by (now apply nextToken_no_other in En). subst e. apply nextToken_eof_inv in En.
    destruct En as [_ En]. simpl. split.
    + intros [= ->]. eauto.
    + intros (r & [[= ->] _] & _). reflexivity.
Qed.
Lemma unmarshal_spec T old it v : wf it -> fin it = EEOF -> ~ dirty it ->
  ((exists n, fst (unmarshal n T old it) = Ok v) <->
   exists w1 t w2, stream it = w1 ++ t ++ w2 /\ ws w1 /\ ws w2 /\ decodes (it_useNumber it) (it_disallow it) T noOpts old t v).
Proof.
  intros W Hf D. split.
  - intros (n & H). apply unmarshal_end in H; auto. destruct H as (r & H & Hr). apply ReadVal_sound in H; auto.
    destruct H as (w & t & Es & Hw & Hd). exists w, t, r. auto.
  - intros (w1 & t & w2 & Es & H1 & H2 & Hd).
    destruct (ReadVal_complete T old it v w1 t w2 W D Es H1) as (n & Hn); auto; [rewrite Hf; now apply ws_ends|].
    exists n. apply unmarshal_end; auto. exists w2. auto.
Qed.
Lemma unmarshal_more T old it v : wf it -> fin it = EEOF -> ~ dirty it ->
  (exists n, fst (unmarshal n T old it) = Ok v) -> exists n0, forall n, (n0 <= n)%nat -> fst (unmarshal n T old it) = Ok v.
Proof.
  intros W Hf D H. apply unmarshal_spec in H; auto. destruct H as (w1 & t & w2 & Es & H1 & H2 & Hd).
  destruct (ReadVal_complete T old it v w1 t w2 W D Es H1) as (n0 & H0); auto; [rewrite Hf; now apply ws_ends|].
  exists n0. intros n Hn. apply unmarshal_end; auto. exists w2. auto.
Qed.
(** a reader that fails after the value *)
Lemma unmarshal_fails n T old it v : wf it -> fin it <> EEOF -> fst (unmarshal n T old it) <> Ok v.
Proof.
  intros W Hf. unfold ModelVal.unmarshal, bind. assert (H := sim_ReadVal n T old it W).
  destruct (ReadVal n T old it) as [x it1] eqn:Ex. destruct H as (W1 & [u M1] & H).
  destruct x as [v1|e| |]; try discriminate. simpl.
  assert (H2 := sim_nextToken it1 W1 I). destruct (nextToken it1) as [r2 it2].
  assert (F1 : fin it1 <> EEOF) by (rewrite (mv_fin _ _ _ M1); auto).
  assert (X : forall e, e = fin it1 -> fst (if err_eqb_eof e then Ok v1 else Err e, it2) <> Ok v).
  { intros e ->. destruct (fin it1); simpl; try discriminate. congruence. }
  destruct H2 as (_ & _ & [H2|[_ ->]]); [|now apply X].
  destruct (p_nextToken (fin it1) (stream it1)) as [c l|e] eqn:En.
  - destruct H2 as (a & -> & _). discriminate.
  - subst r2. apply X. now apply nextToken_no_other in En.
Qed.
Theorem Unmarshal_spec T old data it v : wf it ->
  ((exists n, fst (Unmarshal n T old data it) = Ok v) <->
   exists w1 t w2, data = w1 ++ t ++ w2 /\ ws w1 /\ ws w2 /\ decodes (it_useNumber it) (it_disallow it) T noOpts old t v).
Proof.
  intros W. unfold ModelVal.Unmarshal. rewrite unmarshal_spec; [|now apply wf_ResetBytes|reflexivity|apply clean_ResetBytes].
  now rewrite stream_ResetBytes.
Qed.
Theorem UnmarshalFromReader_spec T old rd it v : wf it -> rd_fin rd = EEOF ->
  ((exists n, fst (UnmarshalFromReader F32 F64 C E sf cs n T old rd it) = Ok v) <->
   exists w1 t w2, rd_data rd = w1 ++ t ++ w2 /\ ws w1 /\ ws w2 /\ decodes (it_useNumber it) (it_disallow it) T noOpts old t v).
Proof.
  intros W Hf. unfold UnmarshalFromReader. rewrite unmarshal_spec; [|now apply wf_Reset|exact Hf|].
  - now rewrite stream_Reset.
  - apply clean_Reset. intros [K _]. auto.
Qed.
Lemma decodes_det b d T o old t v1 v2 : decodes b d T o old t v1 -> decodes b d T o old t v2 -> v1 = v2.
Proof.
  intros H1 H2. destruct (decode_complete F32 F64 C E b d sf cs sane32 sane64) as [H _].
  destruct (H _ _ _ _ _ H1) as (n1 & K1). destruct (H _ _ _ _ _ H2) as (n2 & K2).
  assert (A1 := K1 (Nat.max n1 n2) ltac:(lia) EEOF [] [] ltac:(constructor) (ws_ends t [] ltac:(constructor))).
  rewrite (K2 (Nat.max n1 n2) ltac:(lia) EEOF [] [] ltac:(constructor) (ws_ends t [] ltac:(constructor))) in A1. congruence.
Qed.
Theorem UnmarshalFromReader_fails n T old rd it v : wf it -> rd_fin rd <> EEOF -> fst (UnmarshalFromReader F32 F64 C E sf cs n T old rd it) <> Ok v.
Proof. intros W Hf. apply unmarshal_fails; [now apply wf_Reset|exact Hf]. Qed.
(** no panics, whatever the input *)
Lemma ReadVal_safe n T old it : wf it -> fst (ReadVal n T old it) <> Panic /\ fst (ReadVal n T old it) <> OutOfFuel.
Proof.
  intros W. assert (H := sim_ReadVal n T old it W). destruct (ReadVal n T old it) as [x it1]. destruct H as (_ & _ & H). simpl.
  destruct H as [H|[_ ->]]; [|split; discriminate].
  destruct (pdec (it_useNumber it) (it_disallow it) n T noOpts old (fin it) (stream it)); [destruct H as (a9 & -> & _)|subst x]; split; discriminate.
Qed.
(** two inputs with the same bytes *)
Lemma ReadVal_same n T old a c : wf a -> wf c -> ~ dirty a -> ~ dirty c -> stream a = stream c -> fin a = fin c ->
  it_useNumber a = it_useNumber c -> it_disallow a = it_disallow c ->
  fst (ReadVal n T old a) = fst (ReadVal n T old c) /\
  (forall v, fst (ReadVal n T old a) = Ok v -> stream (snd (ReadVal n T old a)) = stream (snd (ReadVal n T old c))).
Proof.
  intros Wa Wc Da Dc Es Ef Eu Ed. assert (Ha := sim_ReadVal n T old a Wa). assert (Hc := sim_ReadVal n T old c Wc).
  destruct (ReadVal n T old a) as [x a1]. destruct (ReadVal n T old c) as [y c1].
  destruct Ha as (_ & _ & [Ha|[? _]]); [|tauto]. destruct Hc as (_ & _ & [Hc|[? _]]); [|tauto]. simpl.
  rewrite Es, Ef, Eu, Ed in Ha. destruct (pdec (it_useNumber c) (it_disallow c) n T noOpts old (fin c) (stream c)).
  - destruct Ha as (v & -> & Ha & ->). destruct Hc as (v' & -> & Hc & ->). split; auto. intros. congruence.
  - subst. split; auto. discriminate.
Qed.

(** ** The end of the input *)
Lemma read_eof F u f w : ws w -> p_Read F u f w = PErr f.
Proof.
  intros Hw. unfold p_Read, p_takeToken, pbind.
  now rewrite nextToken_end.
Qed.
Lemma skipRaw_eof f w : ws w -> p_SkipRaw f w = PErr f.
Proof. intros Hw. unfold p_SkipRaw, pbind. now rewrite nextToken_end. Qed.
Ltac at_end := exists 1%nat; let n := fresh "n" in let H := fresh in intros n H; destruct n as [|n]; [lia|clear H]; cbn [p_decode];
  let f9 := fresh "f" in let w9 := fresh "w" in let Hw := fresh "Hw" in intros f9 w9 Hw;
  unfold p_boolDecoder, p_intDecoder, p_floatDecoder, p_stringDecoder, p_jsonNumberDecoder, p_jsonRawMessageDecoder, p_AppendRaw,
    p_jsonUnmarshalerDecoder, p_textUnmarshalerDecoder, p_pointerDecoder, p_arrayDecoder, p_sliceDecoder, p_mapDecoder,
    p_structDecoder, p_emptyObjectDecoder, p_ifaceDecoder, pbind;
  rewrite ?nextToken_end, ?skipRaw_eof by exact Hw; reflexivity.
Lemma decode_eof b d T o old t v : decodes b d T o old t v ->
  exists n0, forall n, (n0 <= n)%nat -> forall f w, ws w -> pdec b d n T o old f w = PErr f.
Proof.
  induction 1; try at_end.
  - destruct T; try discriminate; try at_end. destruct fields; at_end.
  - destruct (decodable_some F32 F64 C k ltac:(assumption)) as (kp & Hkp).
    exists 1%nat. intros n Hn f w Hw. destruct n as [|n]; [lia|]. cbn [p_decode]. rewrite Hkp. unfold p_mapDecoder, pbind. now rewrite nextToken_end.
  - destruct (decodable_some F32 F64 C k ltac:(assumption)) as (kp & Hkp).
    exists 1%nat. intros n Hn f w Hw. destruct n as [|n]; [lia|]. cbn [p_decode]. rewrite Hkp. unfold p_mapDecoder, pbind. now rewrite nextToken_end.
  - destruct fields; at_end.
  - exists 1%nat. intros n Hn f w Hw. destruct n as [|n]; [lia|]. cbn [p_decode]. unfold p_efaceDecoder.
    destruct (heldPtr F32 F64 C E x) as [[T y]|]; unfold pbind; [now rewrite nextToken_end|now rewrite read_eof].
  - exists 1%nat. intros n Hn f w Hw. destruct n as [|n]; [lia|]. cbn [p_decode]. unfold p_efaceDecoder.
    destruct (heldPtr F32 F64 C E _) as [[T0 y]|]; unfold pbind; [now rewrite nextToken_end|now rewrite read_eof].
  - exists 1%nat. intros n Hn f w Hw. destruct n as [|n]; [lia|]. cbn [p_decode]. unfold p_efaceDecoder.
    destruct (heldPtr F32 F64 C E _) as [[T0 y]|]; unfold pbind; [now rewrite nextToken_end|now rewrite read_eof].
  - exists 1%nat. intros n Hn f w Hw. destruct n as [|n]; [lia|]. cbn [p_decode]. unfold p_efaceDecoder.
    destruct (heldPtr F32 F64 C E _) as [[T0 y]|]; unfold pbind; [now rewrite nextToken_end|now rewrite read_eof].
  - destruct IHdecodes as (n0 & H0). exists (S n0). intros n9 Hn f w Hw. destruct n9 as [|n9]; [lia|]. cbn [p_decode].
    apply H0; auto. lia.
Qed.

(** ** The Decoder *)
Notation Decode := (Decode F32 F64 C E sf cs).
Notation drun := (drun F32 F64 C E sf cs).
Definition ready (b d : bool) (f : err) (s : bytes) (dc : decoderS) : Prop :=
  let it := de_it dc in
  de_err dc = None /\ wf it /\ ~ dirty it /\ it_useNumber it = b /\ it_disallow it = d /\ fin it = f /\ stream it = s.
Lemma ready_step b d f s dc it' s' : ready b d f s dc -> wf it' -> step_ok (de_it dc) it' -> stream it' = s' ->
  ready b d f s' (mkDecoderS it' None).
Proof.
  intros (H1 & H2 & H3 & H4 & H5 & H6 & H7) W [u M] Es. unfold ready; simpl. split; auto. split; auto. split.
  { intros K. apply H3. exact (mv_dirty _ _ _ M K). }
  rewrite (mv_num _ _ _ M), (mv_dis _ _ _ M), (mv_fin _ _ _ M). auto.
Qed.
Lemma Decode_ok b d f T old t v : decodes b d T noOpts old t v ->
  exists n0, forall n, (n0 <= n)%nat -> forall dc w r, ready b d f (w ++ t ++ r) dc -> ws w -> ends t f r ->
  exists dc', Decode n T old dc = (Ok v, dc') /\ ready b d f r dc'.
Proof.
  intros Hd. destruct (proj1 (decode_complete F32 F64 C E b d sf cs sane32 sane64) _ _ _ _ _ Hd) as (n0 & H0).
  exists n0. intros n Hn dc w r R Hw He. assert (R' := R). destruct R' as (H1 & H2 & H3 & H4 & H5 & H6 & H7).
  unfold ModelDecoder.Decode. rewrite H1. assert (K := sim_ReadVal n T old (de_it dc) H2).
  destruct (ReadVal n T old (de_it dc)) as [x it']. destruct K as (W & St & [K|[? _]]); [|tauto].
  rewrite H4, H5, H6, H7, (H0 n Hn f w r Hw He) in K. destruct K as (a & -> & Es & ->).
  eexists. split; [reflexivity|]. eapply ready_step; eauto.
Qed.
Lemma Decode_eof b d f T old t v : decodes b d T noOpts old t v ->
  exists n0, forall n, (n0 <= n)%nat -> forall dc w, ready b d f w dc -> ws w ->
  exists it', Decode n T old dc = (Err f, mkDecoderS it' (Some f)).
Proof.
  intros Hd. destruct (decode_eof _ _ _ _ _ _ _ Hd) as (n0 & H0).
  exists n0. intros n Hn dc w R Hw. destruct R as (H1 & H2 & H3 & H4 & H5 & H6 & H7).
  unfold ModelDecoder.Decode. rewrite H1. assert (K := sim_ReadVal n T old (de_it dc) H2).
  destruct (ReadVal n T old (de_it dc)) as [x it']. destruct K as (W & St & [K|[? _]]); [|tauto].
  rewrite H4, H5, H6, H7, (H0 n Hn f w Hw) in K. subst x. eauto.
Qed.
Lemma app_ws_split w w0 c c' l l' : ws w -> ws w0 -> ~ is_ws c -> ~ is_ws c' -> w0 ++ c' :: l' = w ++ c :: l -> w = w0 /\ c' :: l' = c :: l.
Proof.
  intros Hw. revert w0. induction Hw as [|x w Hx Hw IH]; intros w0 H0 Hc Hc' Ee.
  - destruct H0 as [|y w0 Hy H0]; [auto|]. injection Ee as -> _. tauto.
  - destruct H0 as [|y w0 Hy H0]; [injection Ee as -> _; tauto|]. injection Ee as -> Ee. destruct (IH w0); auto. subst. auto.
Qed.
Lemma stream_of_skip w c l ts : ws w -> ~ is_ws c -> stream_of (w ++ c :: l) ts -> ts <> [] /\ stream_of (c :: l) ts.
Proof.
  intros Hw Hc H. inversion H as [w0 Hw0|w0 t s ts0 Hw0 Ht Hs Hst Eq]; subst.
  - exfalso. apply Forall_app in Hw0. destruct Hw0 as [_ K]. inversion K; tauto.
  - split; [discriminate|]. destruct Ht as (c' & t' & -> & Hc'). simpl in Eq.
    destruct (app_ws_split w w0 c c' l (t' ++ s)) as [-> K]; auto.
    rewrite <- K. apply (so_next [] (c' :: t') s ts0); auto; [constructor|eauto].
Qed.
Lemma stream_sep t f s : (s = [] -> f = EEOF) -> s = [] \/ (exists c s', s = c :: s' /\ is_ws c) -> ends t f s.
Proof.
  intros Hf [->|(c & s' & -> & Hc)] Hn.
  - rewrite Hf by auto. apply (ws_ends t []); auto. constructor.
  - apply num_ends_sep. unfold is_ws, is_digit, is_e in *. lia.
Qed.
Lemma failed_run n e ops it : drun n ops (mkDecoderS it (Some e)) = map (failed F32 F64 C e) ops.
Proof. induction ops as [|[T old|] ops IH]; simpl; [auto|f_equal; exact IH|f_equal; exact IH]. Qed.
Lemma Decode_err n T old dc e dc' : Decode n T old dc = (Err e, dc') -> exists it, dc' = mkDecoderS it (Some e).
Proof.
  unfold ModelDecoder.Decode. destruct dc as [it [e0|]]; simpl.
  - intros [= -> <-]. eauto.
  - destruct (ReadVal n T old it) as [[v|e1| |] it1]; intros [= -> <-]; eauto.
Qed.
Theorem session_run b d f ts ops outs : session F32 F64 C E lookup b d f ts ops outs ->
  exists n0, forall n, (n0 <= n)%nat -> forall dc s, ready b d f s dc -> stream_of s ts -> f = EEOF ->
  drun n ops dc = outs.
Proof.
  induction 1 as [ts|ts ops outs Hs (n0 & IH)|t ts T old v ops outs Hd Hs (n0 & IH)|T old t v ops Hd].
  - exists 0%nat. reflexivity.
  - exists n0. intros n Hn dc s R Hst Ef. cbn [ModelDecoder.drun]. unfold More.
    assert (R' := R). destruct R' as (H1 & H2 & H3 & H4 & H5 & H6 & H7). rewrite H1.
    assert (K := sim_nextToken (de_it dc) H2 I). destruct (nextToken (de_it dc)) as [x it']. destruct K as (W & St & [K|[? _]]); [|tauto].
    rewrite H6, H7 in K. destruct (p_nextToken f s) as [c l|e] eqn:En.
    + destruct K as (a & -> & Es & Ea). apply nextToken_inv in En. destruct En as (w & l2 & -> & -> & Hw & Hc).
      destruct (stream_of_skip _ _ _ _ Hw Hc Hst) as [Hne Hst2]. destruct ts; [tauto|]. f_equal.
      apply (IH n Hn _ (c :: l2)); auto. eapply ready_step; eauto.
    + subst x. assert (e = f) by (now apply nextToken_no_other in En). subst e f. apply nextToken_eof_inv in En. destruct En as [_ Hw].
      assert (ts = []).
      { destruct Hst as [|w t s ts Hw0 (c & t' & -> & Hc) _ _]; auto. apply Forall_app in Hw. destruct Hw as [_ K]. simpl in K. inversion K; tauto. }
      subst ts. f_equal. destruct St as [u M]. apply (IH n Hn _ (stream it')); auto.
      * eapply ready_step; eauto. exists u. exact M.
      * constructor. assert (Hm := mv_stream _ _ _ M). rewrite H7 in Hm. rewrite Hm in Hw. now apply Forall_app in Hw.
  - destruct (Decode_ok b d f T old t v Hd) as (n1 & H1). exists (Nat.max n0 n1). intros n Hn dc s R Hst Ef.
    inversion Hst as [|w t0 s0 ts0 Hw Ht Hsep Hst2]; subst. cbn [ModelDecoder.drun].
    destruct (H1 n ltac:(lia) dc w s0 R Hw) as (dc' & -> & R').
    { apply stream_sep; auto. }
    f_equal. apply (IH n ltac:(lia) dc' s0); auto.
  - destruct (Decode_eof b d f T old t v Hd) as (n0 & H0). exists n0. intros n Hn dc s R Hst Ef. cbn [ModelDecoder.drun].
    inversion Hst as [w Hw|]; subst. destruct (H0 n Hn dc s R Hw) as (it' & ->). f_equal. apply failed_run.
Qed.
End Val.
