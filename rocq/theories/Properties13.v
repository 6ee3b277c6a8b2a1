(** C45: calls of the library do not influence each other through the pools of iterators and streamers. *)
From Coq Require Import String ZArith List Bool Lia Arith.
From Verif Require Import Base ModelIter ModelStack ModelSkip ModelFloat ModelOps ModelVal ModelDecoder ModelStream ModelEnc ModelPool
  Spec SpecVal SpecPool Sim PoolFacts Properties1 Properties2 Properties4 Properties5.
Import ListNotations.
Local Open Scope Z_scope.

Section Iterators.
Variables F32 F64 : floatOps.
Variable C : custom.
Variable E : env F32 F64 C.
Variable sf : Z -> Z.
Variable cs : bool.
Variable fuel : nat.
Notation iterHistory := (history iter icfg stack iloc (iwork F32 F64 C) (iout F32 F64 C) freshIter prepareIter reset (fun _ => LIter)
                           (iterWork F32 F64 C E sf cs fuel)).
Notation iterSolo p := (solo iter icfg stack iloc (iwork F32 F64 C) (iout F32 F64 C) freshIter prepareIter (fun _ => LIter)
                           (iterWork F32 F64 C E sf cs fuel) p).
Notation event := (event icfg stack (iwork F32 F64 C)).
Notation actsOf := (actsOf icfg stack (iwork F32 F64 C)).
Notation outsOf := (outsOf (iout F32 F64 C)).

(** Whatever other users do before, between and after the calls, a user gets the results of the same calls on brand-new
    iterators; [p] is any state of the stack pool. *)
Theorem C45_decoding p (h : list event) k : carefulAll _ _ _ h -> cleanActs (actsOf k h) ->
  outsOf k (fst (iterHistory h world0)) = iterSolo p (actsOf k h) None.
Proof.
  intros Hc Hg. apply (pool_solo iter icfg stack iloc (iwork F32 F64 C) (iout F32 F64 C) freshIter prepareIter reset (fun _ => LIter)
    (iterWork F32 F64 C E sf cs fuel) p wf idleIter Rit cleanWork); auto.
  - apply idle_fresh.
  - intros. now apply prepareIter_ok.
  - apply reset_idle.
  - apply iterWork_ok.
  - intros. now apply prepareIter_same.
  - intros. now apply iterWork_same.
Qed.
(** In particular the results do not depend on the other users. *)
Theorem C45_others (h1 h2 : list event) k : carefulAll _ _ _ h1 -> carefulAll _ _ _ h2 -> cleanActs (actsOf k h1) -> actsOf k h1 = actsOf k h2 ->
  outsOf k (fst (iterHistory h1 world0)) = outsOf k (fst (iterHistory h2 world0)).
Proof.
  intros H1 H2 Hg He. rewrite (C45_decoding (mkStack [] 0) h1 k H1 Hg). rewrite He in Hg |- *. symmetry. now apply C45_decoding.
Qed.
(** No iterator is in two hands, *)
Theorem C45_iterators (h : list event) : carefulAll _ _ _ h -> exclusive _ _ _ _ _ h (snd (iterHistory h world0)).
Proof.
  intros Hc. apply (pool_exclusive iter icfg stack iloc (iwork F32 F64 C) (iout F32 F64 C) freshIter prepareIter reset (fun _ => LIter)
    (iterWork F32 F64 C E sf cs fuel) (mkStack [] 0) wf idleIter Rit cleanWork); auto.
  - apply idle_fresh.
  - intros. now apply prepareIter_ok.
  - apply reset_idle.
  - apply iterWork_ok.
  - intros. now apply prepareIter_same.
  - intros. now apply iterWork_same.
Qed.
(** and the ones in the pool refer neither to a reader nor to data of a user. *)
Theorem C45_idle_iterators (h : list event) a : carefulAll _ _ _ h -> In a (w_free _ _ (snd (iterHistory h world0))) ->
  exists it, nth_error (w_objs _ _ (snd (iterHistory h world0))) a = Some it /\
    it_reader it = None /\ it_buffer it = [] /\ it_head it = O /\ it_tail it = O /\ it_offset it = O /\ it_capture it = false.
Proof.
  intros Hc Hi. destruct (pool_free iter icfg stack iloc (iwork F32 F64 C) (iout F32 F64 C) freshIter prepareIter reset (fun _ => LIter)
    (iterWork F32 F64 C E sf cs fuel) (mkStack [] 0) wf idleIter Rit cleanWork) with (h := h) (a := a) as (it & Hn & _ & Er); auto.
  - apply idle_fresh.
  - intros. now apply prepareIter_ok.
  - apply reset_idle.
  - apply iterWork_ok.
  - intros. now apply prepareIter_same.
  - intros. now apply iterWork_same.
  - exists it. split; [exact Hn|]. rewrite Er. do 5 (split; [reflexivity|]). reflexivity.
Qed.

(** the calls of a whole function or of a Decoder *)
Theorem C45_unmarshal p (h : list event) k c i q t old data : carefulAll _ _ _ h ->
  actsOf k h = callUnmarshal F32 F64 C c i q t old data ->
  outsOf k (fst (iterHistory h world0)) =
  [RDone; ROut (OVal (fst (Unmarshal F32 F64 C E sf cs fuel t old data (newIter (ic_useNumber c) (ic_disallow c) p)))); RDone].
Proof.
  intros Hc He. rewrite (C45_decoding p h k Hc); rewrite He; [|repeat constructor].
  cbn [callUnmarshal solo iterWork]. unfold prepareIter, freshIter, reuse. cbn [it_reader it_buffer it_fixbuf it_tmp it_tail it_capture it_offset it_head newIter].
  fold (newIter (ic_useNumber c) (ic_disallow c) p).
  now destruct (Unmarshal F32 F64 C E sf cs fuel t old data (newIter (ic_useNumber c) (ic_disallow c) p)).
Qed.
Theorem C45_valid (h : list event) k c i q data : carefulAll _ _ _ h -> actsOf k h = callValid F32 F64 C c i q data ->
  exists b, outsOf k (fst (iterHistory h world0)) = [RDone; ROut (OBool b); RDone] /\ (b = true <-> exists j, json_text data j).
Proof.
  intros Hc He. rewrite (C45_decoding q h k Hc); rewrite He; [|repeat constructor]. cbn [callValid solo iterWork].
  assert (K := IterFacts.Valid_spec data (prepareIter c q freshIter) (prepareIter_ok c q freshIter idle_fresh)).
  destruct (Valid data (prepareIter c q freshIter)) as [b it]. exists b. auto.
Qed.
Definition toWork (o : dop F32 F64 C) : act icfg stack (iwork F32 F64 C) :=
  AWork (match o with DDecode t old => IDecode t old | DMore => IMore end).
Definition ofOut (o : dout F32 F64 C) : result (iout F32 F64 C) := ROut (match o with RDecode r => OVal r | RMore b => OBool b end).
Lemma solo_decoder p ops : forall dc, iterSolo p (map toWork ops ++ [APut true]) (Some (LDecoder (de_err dc), de_it dc)) =
  map ofOut (drun F32 F64 C E sf cs fuel ops dc) ++ [RDone].
Proof.
  induction ops as [|[t old|] ops IH]; intros [it e]; [reflexivity| |].
  - cbn [map app toWork solo iterWork drun de_err de_it]. destruct e as [e|].
    + cbn [Decode de_err]. cbn [map app ofOut]. now rewrite <- (IH (mkDecoderS it (Some e))).
    + destruct (Decode F32 F64 C E sf cs fuel t old (mkDecoderS it None)) as [r dc]. cbn [map app ofOut]. now rewrite <- IH.
  - cbn [map app toWork solo iterWork drun de_err de_it]. destruct e as [e|].
    + cbn [More de_err]. cbn [map app ofOut]. now rewrite <- (IH (mkDecoderS it (Some e))).
    + destruct (More (mkDecoderS it None)) as [r dc]. cbn [map app ofOut]. now rewrite <- IH.
Qed.
Theorem C45_decoder p (h : list event) k c i q s ops : carefulAll _ _ _ h -> cleanSource s ->
  actsOf k h = callNewDecoder F32 F64 C c i q s ++ map toWork ops ++ callDecoderRelease F32 F64 C ->
  outsOf k (fst (iterHistory h world0)) =
  RDone :: ROut ONone :: map ofOut (drun F32 F64 C E sf cs fuel ops (NewDecoder s (newIter (ic_useNumber c) (ic_disallow c) p))) ++ [RDone].
Proof.
  intros Hc Hs He. rewrite (C45_decoding p h k Hc); rewrite He.
  - cbn [callNewDecoder callDecoderRelease app]. cbn [solo iterWork]. do 2 f_equal. exact (solo_decoder p ops (NewDecoder s (prepareIter c p freshIter))).
  - cbn. constructor; auto. constructor; auto. apply Forall_app. split; [|repeat constructor]. apply Forall_forall. intros x Hx. apply in_map_iff in Hx.
    destruct Hx as ([t old|] & <- & _); exact I.
Qed.
End Iterators.

Section Streamers.
Variables F32 F64 : floatOps.
Variable C : custom.
Variable E : env F32 F64 C.
Variable U : marshalers F32 F64 C.
Variables G32 G64 : floatFmt.
Variable e32 : fl F32 -> ff G32.
Variable e64 : fl F64 -> ff G64.
Variable fuel : nat.
Notation swork := (swork F32 F64 C G32 G64).
Notation stmHistory := (history stm bool unit sloc swork sout freshStm prepareStm sm_reset LStream (stmWork F32 F64 C E U G32 G64 e32 e64 fuel)).
Notation stmSolo := (solo stm bool unit sloc swork sout freshStm prepareStm LStream (stmWork F32 F64 C E U G32 G64 e32 e64 fuel) tt).
Notation event := (event bool unit swork).
Notation actsOf := (actsOf bool unit swork).

Theorem C45_encoding (h : list event) k : carefulAll _ _ _ h -> outsOf _ k (fst (stmHistory h world0)) = stmSolo (actsOf k h) None.
Proof.
  intros Hc. apply (pool_solo stm bool unit sloc swork sout freshStm prepareStm sm_reset LStream (stmWork F32 F64 C E U G32 G64 e32 e64 fuel) tt
    (fun _ => True) idleStm (fun _ x y => x = y) (fun _ => True)); auto.
  - reflexivity.
  - intros x _. reflexivity.
  - intros c e x. apply prepareStm_same.
  - intros w l x y _ -> _. auto.
  - apply Forall_forall. intros [] _; exact I.
Qed.
Theorem C45_streamers (h : list event) : carefulAll _ _ _ h -> exclusive _ _ _ _ _ h (snd (stmHistory h world0)).
Proof.
  intros Hc. apply (pool_exclusive stm bool unit sloc swork sout freshStm prepareStm sm_reset LStream (stmWork F32 F64 C E U G32 G64 e32 e64 fuel) tt
    (fun _ => True) idleStm (fun _ x y => x = y) (fun _ => True)); auto.
  - reflexivity.
  - intros x _. reflexivity.
  - intros c e x. apply prepareStm_same.
  - intros w l x y _ -> _. auto.
Qed.
Theorem C45_idle_streamers (h : list event) a : carefulAll _ _ _ h -> In a (w_free _ _ (snd (stmHistory h world0))) ->
  exists s, nth_error (w_objs _ _ (snd (stmHistory h world0))) a = Some s /\
    sm_writer s = None /\ sm_buffer s = [] /\ sm_error s = None /\ sm_poped s = false.
Proof.
  intros Hc Hi. destruct (pool_free stm bool unit sloc swork sout freshStm prepareStm sm_reset LStream (stmWork F32 F64 C E U G32 G64 e32 e64 fuel) tt
    (fun _ => True) idleStm (fun _ x y => x = y) (fun _ => True)) with (h := h) (a := a) as (s & Hn & Er); auto.
  - reflexivity.
  - intros x _. reflexivity.
  - intros c e x. apply prepareStm_same.
  - intros w l x y _ -> _. auto.
  - exists s. split; [exact Hn|]. rewrite Er. do 3 (split; [reflexivity|]). reflexivity.
Qed.
Theorem C45_marshal (h : list event) k html i o : carefulAll _ _ _ h -> actsOf k h = callMarshal F32 F64 C G32 G64 html i o ->
  outsOf _ k (fst (stmHistory h world0)) = [RDone; ROut (PMarshal (Marshal F32 F64 C E U G32 G64 e32 e64 html fuel o)); RDone].
Proof.
  intros Hc He. rewrite (C45_encoding h k Hc), He. cbn [callMarshal solo stmWork]. unfold Marshal.
  change (prepareStm html tt freshStm) with (newStm html). now destruct (Value F32 F64 C E U G32 G64 e32 e64 html fuel o (newStm html)).
Qed.
End Streamers.

(** ** Examples *)
Notation dHistory := (history iter icfg stack iloc (iwork textF textF demoC) (iout textF textF demoC) freshIter prepareIter reset (fun _ => LIter)
                           (iterWork textF textF demoC demoE noFold true 9)).
Notation dSolo := (solo iter icfg stack iloc (iwork textF textF demoC) (iout textF textF demoC) freshIter prepareIter (fun _ => LIter)
                           (iterWork textF textF demoC demoE noFold true 9) (mkStack [] 0)).
Notation dWork := (iwork textF textF demoC).
Definition stk : stack := mkStack [5; 7]%Z 1.
Definition plainCfg : icfg := mkIcfg false false.
Notation nilFace := (@VIface textF textF demoC None).
Definition one : gval textF textF demoC := VIface (Some (TFloat64, @VFloat64 textF textF demoC (false, bs "1"))).
(** User 1 unmarshals with UseNumber, user 2 has a Decoder which turns UseNumber on, user 3 unmarshals "1" with the iterator that user 1
    gave back, and later again with the one of the Decoder. *)
Definition demoHistory : list (event icfg stack dWork) :=
  [Step 1 (AGet (mkIcfg true true) 0 stk); Step 2 (AGet plainCfg 0 stk);
   Step 2 (AWork (IAttach (SReader (pieces "[true] 1 x"))));
   Step 1 (AWork (IUnmarshal TEface nilFace (bs "[1")));
   Step 2 (AWork (IDecode (TSlice TBool) (VSlice None)));
   Step 1 (APut false);
   Step 3 (AGet plainCfg 0 stk); Step 2 (AWork IUseNumber); Step 3 (AWork (IUnmarshal TEface nilFace (bs "1")));
   Step 2 (AWork IOffset); Step 2 (AWork IMore); Step 2 (AWork (IDecode TEface nilFace)); Step 3 (APut false);
   Step 2 (AWork (IDecode TEface nilFace)); Step 2 (AWork IMore); Step 2 (APut true); GC 1; Step 2 (AWork IMore);
   Step 4 (AGet plainCfg 0 stk); Step 4 (AWork (IUnmarshal TEface nilFace (bs "1"))); Step 4 (APut false)].
Ltac users k := destruct k as [|[|[|[|[|k]]]]]; vm_compute; intuition discriminate.
Lemma demoHistory_careful : carefulAll _ _ _ demoHistory.
Proof. intros k. users k. Qed.
Lemma demoHistory_clean k : cleanActs (actsOf _ _ _ k demoHistory).
Proof.
  destruct k as [|[|[|[|[|k]]]]]; cbn; repeat constructor. intros [H _]. now apply H.
Qed.
Example C45_decoding_ex : carefulAll _ _ _ demoHistory /\ cleanActs (actsOf _ _ _ 2 demoHistory) /\
  outsOf _ 2 (fst (dHistory demoHistory world0)) =
  [RDone; ROut ONone; ROut (OVal (Ok (VSlice (Some [VBool true])))); ROut ONone; ROut (ONat 6); ROut (OBool true);
   ROut (OVal (Ok (VIface (Some (TNumber, VStr (bs "1")))))); ROut (OVal (Err (EUnexpectedByte 120 0 0))); ROut (OBool false); RDone; RPanic] /\
  outsOf _ 1 (fst (dHistory demoHistory world0)) = [RDone; ROut (OVal (Err EEOF)); RDone].
Proof.
  split; [apply demoHistory_careful|]. split; [apply demoHistory_clean|]. vm_compute. auto.
Qed.
(** user 3 alone *)
Definition shortHistory : list (event icfg stack dWork) :=
  [Step 3 (AGet plainCfg 0 stk); Step 3 (AWork (IUnmarshal TEface nilFace (bs "1"))); Step 3 (APut false)].
Lemma shortHistory_careful : carefulAll _ _ _ shortHistory.
Proof. intros k. users k. Qed.
Example C45_others_ex : carefulAll _ _ _ demoHistory /\ carefulAll _ _ _ shortHistory /\ cleanActs (actsOf _ _ _ 3 demoHistory) /\
  actsOf _ _ _ 3 demoHistory = actsOf _ _ _ 3 shortHistory /\ outsOf _ 3 (fst (dHistory demoHistory world0)) = [RDone; ROut (OVal (Ok one)); RDone].
Proof.
  split; [apply demoHistory_careful|]. split; [apply shortHistory_careful|]. split; [apply demoHistory_clean|]. split; [reflexivity|vm_compute; reflexivity].
Qed.
Example C45_iterators_ex : carefulAll _ _ _ demoHistory /\ length (w_objs _ _ (snd (dHistory demoHistory world0))) = 2%nat /\
  length (actsOf _ _ _ 2 demoHistory) = 11%nat.
Proof. split; [apply demoHistory_careful|]. vm_compute. auto. Qed.
Example C45_idle_iterators_ex : carefulAll _ _ _ demoHistory /\ In 1%nat (w_free _ _ (snd (dHistory demoHistory world0))).
Proof. split; [apply demoHistory_careful|]. vm_compute. auto. Qed.
Example C45_unmarshal_ex : carefulAll _ _ _ demoHistory /\
  actsOf _ _ _ 4 demoHistory = callUnmarshal textF textF demoC plainCfg 0 stk TEface nilFace (bs "1") /\
  outsOf _ 4 (fst (dHistory demoHistory world0)) = [RDone; ROut (OVal (Ok one)); RDone].
Proof. split; [apply demoHistory_careful|]. split; [reflexivity|vm_compute; reflexivity]. Qed.
Definition validHistory : list (event icfg stack dWork) :=
  [Step 1 (AGet plainCfg 0 stk); Step 1 (AWork (IValid (bs "[1, {}")));
   Step 2 (AGet plainCfg 0 stk); Step 2 (AWork (IAttach (SReader (pieces "7 ""a"""))));
   Step 1 (APut false); Step 2 (AWork (IDecode (TInt true W8) (VInt 3)));
   Step 3 (AGet plainCfg 0 stk); Step 3 (AWork (IValid (bs "[1, {}]")));
   Step 2 (AWork IMore); Step 2 (AWork (IDecode (TInt true W8) (VInt 3))); Step 3 (APut false); Step 2 (AWork IMore); Step 2 (APut true)].
Lemma validHistory_careful : carefulAll _ _ _ validHistory.
Proof. intros k. users k. Qed.
Example C45_valid_ex : carefulAll _ _ _ validHistory /\ actsOf _ _ _ 3 validHistory = callValid textF textF demoC plainCfg 0 stk (bs "[1, {}]") /\
  outsOf _ 3 (fst (dHistory validHistory world0)) = [RDone; ROut (OBool true); RDone] /\
  outsOf _ 1 (fst (dHistory validHistory world0)) = [RDone; ROut (OBool false); RDone].
Proof. split; [apply validHistory_careful|]. split; [reflexivity|vm_compute; auto]. Qed.
Example C45_decoder_ex : carefulAll _ _ _ validHistory /\ cleanSource (SReader (pieces "7 ""a""")) /\
  actsOf _ _ _ 2 validHistory = callNewDecoder textF textF demoC plainCfg 0 stk (SReader (pieces "7 ""a""")) ++
    map (toWork textF textF demoC) [DDecode (TInt true W8) (VInt 3); DMore; DDecode (TInt true W8) (VInt 3); DMore] ++ callDecoderRelease textF textF demoC /\
  outsOf _ 2 (fst (dHistory validHistory world0)) =
  [RDone; ROut ONone; ROut (OVal (Ok (VInt 7))); ROut (OBool true); ROut (OVal (Err (EInvalidDigit 34))); ROut (OBool false); RDone].
Proof. split; [apply validHistory_careful|]. split; [intros [H _]; now apply H|]. split; [reflexivity|vm_compute; reflexivity]. Qed.

Notation dsWork := (swork textF textF demoC demoF demoF).
Notation sHistory := (history stm bool unit sloc dsWork sout freshStm prepareStm sm_reset LStream (stmWork textF textF demoC encE encU demoF demoF encF encF 9)).
(** a writer that accepts everything *)
Definition sink : writer := mkWriter (fun _ d => (length d, None)) [] [].
Definition logs (r : result sout) : option bytes := match r with ROut (PState _ (Some w)) => Some (w_log w) | ROut (PMarshal (MOk b)) => Some b | _ => None end.
(** An Encoder (user 1) turns HTML escapes off and on; user 2 marshals before and after; user 3 has a Streamer and releases it
    with half of an array in the buffer. *)
Definition stmHistory1 : list (event bool unit dsWork) :=
  [Step 3 (AGet true 0 tt); Step 3 (AWork (SCalls [SArrayStart; SBool true])); Step 1 (AGet true 0 tt); Step 1 (AWork (SNewEncoder sink));
   Step 3 (APut false); Step 1 (AWork (SEscape false));
   Step 2 (AGet true 0 tt); Step 1 (AWork (SEncode (Some (TString, VStr (bs "<")))));
   Step 2 (AWork (SMarshal (Some (TString, VStr (bs "<"))))); Step 1 (AWork (SEscape true)); Step 2 (APut false);
   Step 1 (AWork (SEncode (Some (TString, VStr (bs "<"))))); Step 1 (AWork (SEscape false)); Step 1 (APut true); Step 1 (AWork (SEncode None));
   Step 4 (AGet true 0 tt); Step 4 (AWork (SMarshal (Some (TString, VStr (bs "<"))))); Step 4 (APut false)].
Lemma stmHistory1_careful : carefulAll _ _ _ stmHistory1.
Proof. intros k. users k. Qed.
Example C45_encoding_ex : carefulAll _ _ _ stmHistory1 /\
  map logs (outsOf _ 1 (fst (sHistory stmHistory1 world0))) =
  [None; Some []; Some []; Some (bs """<""" ++ [10]); Some (bs """<""" ++ [10]); Some (bs """<""" ++ [10] ++ bs """\u003c""" ++ [10]);
   Some (bs """<""" ++ [10] ++ bs """\u003c""" ++ [10]); None; None].
Proof. split; [apply stmHistory1_careful|]. vm_compute. reflexivity. Qed.
Example C45_streamers_ex : carefulAll _ _ _ stmHistory1 /\ length (w_objs _ _ (snd (sHistory stmHistory1 world0))) = 2%nat.
Proof. split; [apply stmHistory1_careful|]. vm_compute. reflexivity. Qed.
Example C45_idle_streamers_ex : carefulAll _ _ _ stmHistory1 /\ In 0%nat (w_free _ _ (snd (sHistory stmHistory1 world0))).
Proof. split; [apply stmHistory1_careful|]. vm_compute. auto. Qed.
Example C45_marshal_ex : carefulAll _ _ _ stmHistory1 /\
  actsOf _ _ _ 4 stmHistory1 = callMarshal textF textF demoC demoF demoF true 0 (Some (TString, VStr (bs "<"))) /\
  map logs (outsOf _ 4 (fst (sHistory stmHistory1 world0))) = [None; Some (bs """\u003c"""); None].
Proof. split; [apply stmHistory1_careful|]. split; [reflexivity|vm_compute; reflexivity]. Qed.

(** ** What does not hold *)

(** Without [careful]: user 1 calls Release twice.  The iterator is then twice in the pool (the second call finds it.cfg = nil, which
    does not stop it), and users 2 and 3, who are careful, share it: the Decoder of user 2 fails although its input is "[1]". *)
Theorem C45_double_release_refuted : exists (h : list (event icfg stack dWork)) k,
  careful _ _ _ false (actsOf _ _ _ k h) /\ cleanActs (actsOf _ _ _ k h) /\
  outsOf _ k (fst (dHistory h world0)) <> dSolo (actsOf _ _ _ k h) None.
Proof.
  exists [Step 1 (AGet plainCfg 0 stk); Step 1 (APut false); Step 1 (APut false);
          Step 2 (AGet plainCfg 0 stk); Step 2 (AWork (IAttach (SBytes (bs "[1]"))));
          Step 3 (AGet plainCfg 0 stk); Step 3 (AWork (IUnmarshal TEface nilFace (bs "2")));
          Step 2 (AWork (IDecode TEface nilFace))], 2%nat.
  split; [vm_compute; auto|]. split; [repeat constructor|]. vm_compute. discriminate.
Qed.
(** The location in the text of an error, the bytes around the position, depends on earlier users of the iterator: the buffer of an
    iterator that once had to keep a long raw value is larger. *)
Definition grown : iter :=
  reset (snd (UnmarshalFromReader textF textF demoC demoE noFold true 9 TRaw (VRaw None) (mkReader (34 :: repeat 97 70 ++ [34]) [] EEOF) freshIter)).
Theorem C45_location_refuted : exists it1 it2 r t old e l1 l2,
  vreachable textF textF demoC demoE noFold true it1 /\ vreachable textF textF demoC demoE noFold true it2 /\ ~ rd_dirty r /\
  it_reader it1 = None /\ it_reader it2 = None /\ it_useNumber it1 = it_useNumber it2 /\ it_disallow it1 = it_disallow it2 /\
  fst (UnmarshalFromReader textF textF demoC demoE noFold true 9 t old r it1) = Err e /\
  fst (UnmarshalFromReader textF textF demoC demoE noFold true 9 t old r it2) = Err e /\
  WrapError (WPlain e) (snd (UnmarshalFromReader textF textF demoC demoE noFold true 9 t old r it1)) = Some (WDecode e l1) /\
  WrapError (WPlain e) (snd (UnmarshalFromReader textF textF demoC demoE noFold true 9 t old r it2)) = Some (WDecode e l2) /\ l1 <> l2.
Proof.
  exists freshIter, grown, (mkReader (repeat 32 58 ++ bs "[1,x" ++ repeat 97 30) [] EEOF), (TSlice (TInt true W8)), (VSlice None).
  do 3 eexists. split; [apply vr_reachable, re_new|]. split.
  { unfold grown, UnmarshalFromReader. change (@reset ?x) with (ResetFrom SNil x). apply vr_attach, vr_Unmarshal. apply (vr_attach _ _ _ _ _ _ (SReader _)), vr_reachable, re_new. }
  split; [intros [H _]; now apply H|]. do 4 (split; [reflexivity|]). split; [vm_compute; reflexivity|]. split; [vm_compute; reflexivity|].
  split; [vm_compute; reflexivity|]. split; [vm_compute; reflexivity|]. vm_compute. discriminate.
Qed.

Print Assumptions C45_decoding.
Print Assumptions C45_others.
Print Assumptions C45_iterators.
Print Assumptions C45_idle_iterators.
Print Assumptions C45_unmarshal.
Print Assumptions C45_valid.
Print Assumptions C45_decoder.
Print Assumptions C45_encoding.
Print Assumptions C45_streamers.
Print Assumptions C45_idle_streamers.
Print Assumptions C45_marshal.
Print Assumptions C45_double_release_refuted.
Print Assumptions C45_location_refuted.
