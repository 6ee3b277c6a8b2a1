(** Properties C24, C26, C28, C32, C33, the decoder part of C39, and C02, C03 for typed decoding.  Each
    theorem is followed by an example that meets its hypotheses. *)
From Coq Require Import String ZArith List Bool Lia Arith.
From Verif Require Import Base ModelIter ModelStack ModelSkip ModelStr ModelInt ModelFloat ModelRead ModelIterate ModelOps ModelVal ModelDecoder
  ModelBase64 Spec SpecVal SpecDecoder SpecBase64 Sim SimOps FloatFacts NumFacts StrFacts GrammarFacts Base64Facts IterFacts DecFacts DecSound
  DecComplete DecStrict ValFacts StructFacts SpecFold FoldFacts Properties1.
Import ListNotations.
Local Open Scope Z_scope.

Section Typed.
Variables F32 F64 : floatOps.
Variable C : custom.
Notation gval := (gval F32 F64 C).
Variable E : env F32 F64 C.
Notation zero := (zero F32 F64 C E).
Notation under := (under F32 F64 C E).
Variable sf : Z -> Z.                    (* unicode.SimpleFold *)
Variable cs : bool.                      (* CaseSensitive *)
Notation lookup := (findField sf cs).
Notation ReadVal := (ReadVal F32 F64 C E sf cs).
Notation Unmarshal := (Unmarshal F32 F64 C E sf cs).
Notation UnmarshalFromReader := (UnmarshalFromReader F32 F64 C E sf cs).
Notation vreachable := (vreachable F32 F64 C E sf cs).
Notation decodes b d := (decodes F32 F64 C E lookup b d).
Notation members b d := (members F32 F64 C E lookup b d).
Notation drun := (drun F32 F64 C E sf cs).
Let wfv := vreachable_wf F32 F64 C E sf cs.

(** ** C02, C03 for typed decoding *)
Theorem C02_readval n T old a c : vreachable a -> vreachable c -> ~ dirty a -> ~ dirty c -> stream a = stream c -> fin a = fin c ->
  it_useNumber a = it_useNumber c -> it_disallow a = it_disallow c ->
  fst (ReadVal n T old a) = fst (ReadVal n T old c) /\
  (forall v, fst (ReadVal n T old a) = Ok v -> stream (snd (ReadVal n T old a)) = stream (snd (ReadVal n T old c))).
Proof. intros. apply ReadVal_same; auto. Qed.
Theorem C03_readval n T old it : vreachable it -> fst (ReadVal n T old it) <> Panic /\ fst (ReadVal n T old it) <> OutOfFuel.
Proof. intros R. apply ReadVal_safe; auto. Qed.

Hypothesis sane32 : float_sane F32.
Hypothesis sane64 : float_sane F64.

(** ** C26 *)
(** exactly which inputs are accepted, and what is stored *)
Theorem C26_unmarshal T old data it v : vreachable it ->
  ((exists n, fst (Unmarshal n T old data it) = Ok v) <->
   exists w1 t w2, data = w1 ++ t ++ w2 /\ ws w1 /\ ws w2 /\ decodes (it_useNumber it) (it_disallow it) T noOpts old t v).
Proof. intros R. apply Unmarshal_spec; auto. Qed.
Theorem C26_reader T old rd it v : vreachable it -> rd_fin rd = EEOF ->
  ((exists n, fst (UnmarshalFromReader n T old rd it) = Ok v) <->
   exists w1 t w2, rd_data rd = w1 ++ t ++ w2 /\ ws w1 /\ ws w2 /\ decodes (it_useNumber it) (it_disallow it) T noOpts old t v).
Proof. intros R. apply UnmarshalFromReader_spec; auto. Qed.
(** a reader that ends with an error other than io.EOF is never accepted, not even after a complete value *)
Theorem C26_reader_fails n T old rd it v : vreachable it -> rd_fin rd <> EEOF -> fst (UnmarshalFromReader n T old rd it) <> Ok v.
Proof. intros R. apply UnmarshalFromReader_fails; auto. Qed.
(** the nesting fuel is only a bound: with more of it the result is the same *)
Theorem C26_fuel T old data it v n : vreachable it -> fst (Unmarshal n T old data it) = Ok v ->
  exists n0, forall m, (n0 <= m)%nat -> fst (Unmarshal m T old data it) = Ok v.
Proof.
  intros R H. apply unmarshal_more; auto; [now apply wf_ResetBytes, wfv|apply clean_ResetBytes|]. exists n. exact H.
Qed.
(** every accepted input is JSON up to two relaxations, and each of them needs a type that allows it *)
Theorem C26_lax nk sp S T old data it v n : closed F32 F64 C E nk sp S -> (forall k, holds_only F32 F64 C E S (te_zero _ _ _ E k)) ->
  S T -> holds_only F32 F64 C E S old -> vreachable it -> fst (Unmarshal n T old data it) = Ok v ->
  exists w1 t w2, data = w1 ++ t ++ w2 /\ ws w1 /\ ws w2 /\ lax nk sp t.
Proof.
  intros HS HE HT Ho R H. destruct (proj1 (C26_unmarshal T old data it v R)) as (w1 & t & w2 & Ed & H1 & H2 & Hd); [eauto|].
  exists w1, t, w2. repeat (split; auto).
  apply (proj1 (decodes_lax F32 F64 C E lookup (it_useNumber it) (it_disallow it) nk sp S HS HE) _ _ _ _ _ Hd); auto. discriminate.
Qed.
Theorem C26_valid S T old data it v n : closed F32 F64 C E False False S -> (forall k, holds_only F32 F64 C E S (te_zero _ _ _ E k)) ->
  S T -> holds_only F32 F64 C E S old -> vreachable it -> fst (Unmarshal n T old data it) = Ok v -> exists j, json_text data j.
Proof.
  intros HS HE HT Ho R H. destruct (C26_lax _ _ _ _ _ _ _ _ _ HS HE HT Ho R H) as (w1 & t & w2 & -> & H1 & H2 & Hl).
  destruct (strict_value _ Hl) as (j & Hj). exists j, w1, t, w2. auto.
Qed.

(** ** C24 *)
Theorem C24_session s it ts ops outs : vreachable it ->
  (match s with SReader r => rd_fin r = EEOF | _ => True end) ->
  stream_of (match s with SReader r => rd_data r | SBytes data => data | SNil => [] end) ts ->
  session F32 F64 C E lookup (it_useNumber it) (it_disallow it) EEOF ts ops outs ->
  exists n0, forall n, (n0 <= n)%nat -> drun n ops (NewDecoder s it) = outs.
Proof.
  intros R Hf Hs H. destruct (session_run F32 F64 C E sf cs sane32 sane64 _ _ _ _ _ _ H) as (n0 & H0). exists n0. intros n Hn.
  eapply H0; eauto. unfold ready, NewDecoder; simpl. split; auto. split; [apply wf_ResetFrom, wfv, R|]. split.
  { destruct s as [r|l|]; simpl; [apply clean_Reset; intros [K _]; auto|apply clean_ResetBytes|]. intros (r & K & _). discriminate. }
  destruct s as [r|l|]; simpl; (split; [reflexivity|]); (split; [reflexivity|]); (split; [auto|]); auto using stream_Reset, stream_ResetBytes.
Qed.
(** after an error every call reports it, whatever it is *)
Theorem C24_sticky n T old dc e dc' m ops : Decode F32 F64 C E sf cs n T old dc = (Err e, dc') ->
  drun m ops dc' = map (failed F32 F64 C e) ops.
Proof. intros H. apply Decode_err in H. destruct H as (it & ->). apply failed_run. Qed.

(** ** C28 *)
(** what a successful decode into a struct has read and done *)
Theorem C28_struct n layout fs l it v r : vreachable it -> in_struct fs -> yields (ReadVal n (TStruct layout fs) (VStruct l)) it v r ->
  exists w t l', stream it = w ++ t ++ r /\ ws w /\ v = VStruct l' /\ length l' = length l /\
  ((t = bs "null" /\ l' = l) \/
   exists ps, object_text t ps /\ members (it_useNumber it) (it_disallow it) fs (VStruct l) ps (VStruct l') /\
     (forall i, ~ touches lookup fs ps i -> nth_error l' i = nth_error l i) /\
     (forall k fd i x, nth_error fs k = Some fd -> f_path fd = [HField i] ->
        (forall k' fd' path, nth_error fs k' = Some fd' -> f_path fd' = HField i :: path -> k' = k) -> nth_error l i = Some x ->
        exists ts y, texts_for lookup (map f_name fs) k ps ts /\ nth_error l' i = Some y /\
          updates F32 F64 C E lookup (it_useNumber it) (it_disallow it) (f_type fd) (mkOpts false (f_quoted fd)) x ts y)).
Proof.
  intros R HF Y. apply ReadVal_sound in Y; auto. destruct Y as (w & t & Es & Hw & Hd).
  inversion Hd; subst.
  - exists w, (bs "null"), l. repeat (split; auto).
  - match goal with K : SpecVal.members _ _ _ _ _ _ _ _ _ _ _ |- _ => rename K into Hm end.
    destruct (members_frame _ _ _ _ _ _ _ _ _ _ _ Hm HF l eq_refl) as (l' & -> & Hlen & Hfr).
    exists w, t, l'. split; auto. split; auto. split; auto. split; auto. right. eexists. split; [eassumption|]. split; auto. split; auto.
    intros k fd i x Hk Hp Hu Hx.
    destruct (members_field _ _ _ _ _ _ _ _ _ _ _ Hm HF k fd i Hk Hp Hu l x eq_refl Hx) as (l2 & ts & y & [= <-] & Hts & Hy & Hup). eauto.
Qed.
(** every sequence of members that the specification allows is accepted *)
Theorem C28_accepts layout fs old ps new it w t r : vreachable it -> ~ dirty it -> stream it = w ++ t ++ r -> ws w ->
  object_text t ps -> members (it_useNumber it) (it_disallow it) fs old ps new ->
  exists n0, forall n, (n0 <= n)%nat -> yields (ReadVal n (TStruct layout fs) old) it new r.
Proof.
  intros R D Es Hw Ht Hm. eapply ReadVal_complete; eauto.
  - intros Hn. exfalso. destruct (number_first _ Hn) as (c & t' & -> & Hc). unfold is_digit in Hc. inversion Ht; subst; lia.
  - eapply d_struct; eauto.
Qed.
(** the first unknown member is reported if unknown fields are disallowed *)
Theorem C28_unknown layout fs old ps1 v1 x name y ps2 it w t r : vreachable it -> ~ dirty it -> stream it = w ++ t ++ r -> ws w ->
  it_disallow it = true -> fs <> [] -> object_text t (ps1 ++ (quote x, y) :: ps2) ->
  members (it_useNumber it) true fs old ps1 v1 -> string_body x name -> lookup (map f_name fs) name = None ->
  exists n0, forall n, (n0 <= n)%nat -> fst (ReadVal n (TStruct layout fs) old it) = Err (EUnknownField name).
Proof.
  intros R D Es Hw Hd Hne Ht Hm Hx Hl.
  destruct (unknown_first F32 F64 C E (it_useNumber it) sf cs sane32 sane64 layout fs noOpts old t ps1 v1 x name y ps2 Hne Ht Hm Hx Hl) as (n0 & H0).
  exists n0. intros n Hn.
  apply (pure_fails _ _ _ (SimVal.sim_decode F32 F64 C E (it_useNumber it) (it_disallow it) sf cs n (TStruct layout fs) noOpts old));
    auto; [split; reflexivity|]. rewrite Es, Hd. auto.
Qed.

(** ** C32 *)
Section Null.
Variables (it : iter) (w r : bytes).
Hypothesis R : vreachable it.
Hypothesis D : ~ dirty it.
Hypothesis Es : stream it = w ++ bs "null" ++ r.
Hypothesis Hw : ws w.
Definition becomes (T : ty) (old v : gval) : Prop := exists n0, forall n, (n0 <= n)%nat -> yields (ReadVal n T old) it v r.
Lemma null_becomes T old v : decodes (it_useNumber it) (it_disallow it) T noOpts old (bs "null") v -> becomes T old v.
Proof.
  intros H. eapply ReadVal_complete; eauto. intros Hn. exfalso. destruct (number_first _ Hn) as (c & t' & [= <- <-] & Hc).
  unfold is_digit in Hc. lia.
Qed.
Lemma null_ref T old v : decodes (it_useNumber it) (it_disallow it) (under T) noOpts old (bs "null") v -> becomes T old v.
Proof. intros H. apply null_becomes. destruct T; auto. now apply d_ref. Qed.
Theorem C32_keeps T old : null_keeps (under T) = true -> becomes T old old.
Proof. intros H. apply null_ref. now apply d_null. Qed.
Theorem C32_pointer T T' old : under T = TPtr T' -> becomes T old (VPtr None).
Proof. intros H. apply null_ref. rewrite H. apply d_null_ptr. Qed.
Theorem C32_slice T T' old : under T = TSlice T' -> becomes T old (VSlice None).
Proof. intros H. apply null_ref. rewrite H. apply d_null_slice. Qed.
Theorem C32_map T k T' old : under T = TMap k T' -> decodable_key k -> becomes T old (VMap None).
Proof. intros H Hk. apply null_ref. rewrite H. now apply d_null_map. Qed.
Theorem C32_interface T old : under T = TIface -> becomes T old (VIface None).
Proof. intros H. apply null_ref. rewrite H. apply d_null_iface. Qed.
(** an empty interface becomes nil unless it holds a pointer to a pointer; that pointer is then set to nil *)
Theorem C32_eface T o : under T = TEface ->
  (forall P T' T'' y, o = Some (P, VPtr (Some y)) -> under P = TPtr T' -> under T' <> TPtr T'') -> becomes T (VIface o) (VIface None).
Proof.
  intros H Ho. apply null_ref. rewrite H.
  assert (K : (exists P T' y, o = Some (P, VPtr (Some y)) /\ under P = TPtr T') \/
              (forall P T' y, o = Some (P, VPtr (Some y)) -> under P <> TPtr T')).
  { destruct o as [[P v]|]; [|right; discriminate].
    destruct v as [| | | | | | |[y|]| | | | |]; try (right; intros; discriminate).
    destruct (under P) as [|s0 w0| | | | | |id|id|T0|k T0|T0|k T0|layout fs| | |m|] eqn:EP; try (right; intros P0 T1 y0 [= -> ->]; rewrite EP; discriminate).
    left. eauto. }
  destruct K as [(P & T' & y & -> & HP)|K].
  - eapply d_eface_null; eauto.
  - eapply d_eface; [exact K|constructor|reflexivity].
Qed.
Theorem C32_eface_pointer T P T' T'' y : under T = TEface -> under P = TPtr T' -> under T' = TPtr T'' ->
  becomes T (VIface (Some (P, VPtr (Some y)))) (VIface (Some (TPtr T', VPtr (Some (VPtr None))))).
Proof. intros H HP HT'. apply null_ref. rewrite H. eapply d_eface_null_ptr; eauto. Qed.
End Null.

(** ** C33 *)
Theorem C33_slice n T old it v r : vreachable it -> yields (ReadVal n (TSlice T) old) it v r ->
  exists w t, stream it = w ++ t ++ r /\ ws w /\
  ((t = bs "null" /\ v = VSlice None) \/
   (exists ts vs, array_text t ts /\ v = VSlice (Some vs) /\
      Forall2 (fun t v => decodes (it_useNumber it) (it_disallow it) T noOpts (zero T) t v) ts vs) \/
   (exists b s data, under T = TInt false W8 /\ t = quote b /\ string_body b s /\ base64_lax data b /\ v = VSlice (Some (map VInt data)))).
Proof.
  intros R Y. apply ReadVal_sound in Y; auto. destruct Y as (w & t & Es & Hw & Hd). exists w, t. split; auto. split; auto.
  inversion Hd; subst; try discriminate.
  - auto.
  - right. left. eexists _, _. split; [eassumption|]. split; auto. now apply elems_iff.
  - right. right. eauto 9.
Qed.
Theorem C33_slice_accepts T old ts vs it w t r : vreachable it -> ~ dirty it -> stream it = w ++ t ++ r -> ws w ->
  array_text t ts -> Forall2 (fun t v => decodes (it_useNumber it) (it_disallow it) T noOpts (zero T) t v) ts vs ->
  exists n0, forall n, (n0 <= n)%nat -> yields (ReadVal n (TSlice T) old) it (VSlice (Some vs)) r.
Proof.
  intros R D Es Hw Ht Hv. eapply ReadVal_complete; eauto.
  - intros Hn. exfalso. destruct (number_first _ Hn) as (c & t' & -> & Hc). unfold is_digit in Hc. inversion Ht; subst; lia.
  - eapply d_slice; eauto. now apply elems_iff.
Qed.
(** [filled]: the elements with a text are decoded in place, the others are zeroed, excess texts are only
    checked *)
Definition filled (b d : bool) (T : ty) (a : list gval) (ts : list bytes) (vs : list gval) : Prop :=
  length vs = length a /\
  (forall i x t, nth_error a i = Some x -> nth_error ts i = Some t -> exists v, nth_error vs i = Some v /\ decodes b d T noOpts x t v) /\
  (forall i, (length ts <= i < length a)%nat -> nth_error vs i = Some (zero T)) /\
  (forall i t, (length a <= i)%nat -> nth_error ts i = Some t -> exists j, value t j).
Theorem C33_array n k T a it v r : vreachable it -> yields (ReadVal n (TArray k T) (VArr a)) it v r ->
  exists w t, stream it = w ++ t ++ r /\ ws w /\
  ((t = bs "null" /\ v = VArr a) \/
   (exists ts vs, array_text t ts /\ v = VArr vs /\ filled (it_useNumber it) (it_disallow it) T a ts vs)).
Proof.
  intros R Y. apply ReadVal_sound in Y; auto. destruct Y as (w & t & Es & Hw & Hd). exists w, t. split; auto. split; auto.
  inversion Hd; subst; try discriminate.
  - auto.
  - right. eexists _, _. split; [eassumption|]. split; auto. now apply overwrite_iff.
Qed.
Theorem C33_array_accepts k T a ts vs it w t r : vreachable it -> ~ dirty it -> stream it = w ++ t ++ r -> ws w ->
  array_text t ts -> filled (it_useNumber it) (it_disallow it) T a ts vs ->
  exists n0, forall n, (n0 <= n)%nat -> yields (ReadVal n (TArray k T) (VArr a)) it (VArr vs) r.
Proof.
  intros R D Es Hw Ht Hv. eapply ReadVal_complete; eauto.
  - intros Hn. exfalso. destruct (number_first _ Hn) as (c & t' & -> & Hc). unfold is_digit in Hc. inversion Ht; subst; lia.
  - eapply d_array; eauto. now apply overwrite_iff.
Qed.

(** ** C39, decoding *)
Theorem C39_read T old data text it w r : vreachable it -> ~ dirty it -> stream it = w ++ quote text ++ r -> ws w ->
  under T = TInt false W8 -> base64 data text ->
  exists n0, forall n, (n0 <= n)%nat -> yields (ReadVal n (TSlice T) old) it (VSlice (Some (map VInt data))) r.
Proof.
  intros R D Es Hw HT Hb. eapply ReadVal_complete; eauto.
  - intros Hn. exfalso. destruct (number_first _ Hn) as (c & t' & [= <- <-] & Hc). unfold is_digit in Hc. lia.
  - assert (K : b64decode text = Some data) by now apply b64decode_complete.
    eapply d_bytes; eauto.
    + apply plain_body. eapply Forall_impl; [|eapply base64_chars; eauto]. unfold plain. intros; lia.
    + now apply base64_is_lax.
Qed.
End Typed.

(** ** Examples and refutations *)
Definition demoC : custom := mkCustom bytes (fun _ => []) (fun _ _ t => inl t)
  (fun _ _ t => if bytes_eqb t (bs "bad") then inr (EOther 50) else inl t)
  (fun id x => match id with 5%nat => KO (Z.of_nat (List.length x) - 1) | _ => KS x end).
(** type node struct { V int8 `json:"v"`; Next *node `json:"next"` } *)
Definition nodeT : ty := TStruct [TInt true W8; TPtr (TRef 0)]
  [mkField (bs "v") [HField 0] false false (TInt true W8); mkField (bs "next") [HField 1] false false (TPtr (TRef 0))].
Definition demoE : env textF textF demoC := mkEnv _ _ _
  (fun n => match n with O => nodeT | _ => TBad end) (fun n => match n with O => VStruct [VInt 0; VPtr None] | _ => VBool false end).
(** type base struct { Name string `json:"name"` }; type extra struct { X int `json:"x"` }
    type outer struct { On bool `json:"on,string"`; base; *extra; Rest interface{} } *)
Definition baseT : ty := TStruct [TString] [mkField (bs "name") [HField 0] false false TString].
Definition extraT : ty := TStruct [TInt true W64] [mkField (bs "x") [HField 0] false false (TInt true W64)].
Definition outerFields : list (field ty) :=
  [mkField (bs "on") [HField 0] true false TBool;
   mkField (bs "name") [HField 1; HField 0] false false TString;
   mkField (bs "x") [HField 2; HPtr (Some extraT); HField 0] false false (TInt true W64);
   mkField (bs "Rest") [HField 3] false false TEface].
Definition outerT : ty := TStruct [TBool; baseT; TPtr extraT; TEface] outerFields.
Definition noFold (r : Z) : Z := r.
Notation dReadVal := (ReadVal textF textF demoC demoE noFold true).
Notation dUnmarshal := (Unmarshal textF textF demoC demoE noFold true).
Notation dval := (gval textF textF demoC).
(** an iterator that has failed in the middle of a base64 string, then attached to an input in pieces *)
Definition used2 (d : bool) : iter :=
  snd (dReadVal 5 (TSlice (TInt false W8)) (VSlice None) (ResetBytes (bs "  [12,345]") (newIter false d (mkStack [5; 7] 0)))).
Definition smallv (d : bool) (s : string) : iter := ResetFrom (SReader (pieces s)) (used2 d).
Lemma reachable_smallv d s : vreachable textF textF demoC demoE noFold true (smallv d s).
Proof. apply vr_attach, vr_ReadVal, vr_reachable, re_ResetBytes, re_new. Qed.
Lemma reachable_used2 d : vreachable textF textF demoC demoE noFold true (used2 d).
Proof. apply vr_ReadVal, vr_reachable, re_ResetBytes, re_new. Qed.
Lemma clean_smallv d s : ~ dirty (smallv d s).
Proof. apply clean_Reset. intros [H _]. now apply H. Qed.

Example C02_readval_ex : fst (dReadVal 9 (TRef 0) (zero _ _ _ demoE (TRef 0)) (smallv false "{""v"":-128,""next"":{""v"":1}}  ]")) =
  fst (dReadVal 9 (TRef 0) (zero _ _ _ demoE (TRef 0)) (ResetBytes (bs "{""v"":-128,""next"":{""v"":1}}  ]") (used2 false))) /\
  fst (dReadVal 9 (TRef 0) (zero _ _ _ demoE (TRef 0)) (smallv false "{""v"":-128,""next"":{""v"":1}}  ]")) =
  Ok (VStruct [VInt (-128); VPtr (Some (VStruct [VInt 1; VPtr None]))]).
Proof. vm_compute. auto. Qed.
Example C03_readval_ex : fst (dReadVal 9 outerT (zero _ _ _ demoE outerT) (smallv false "{""on"":""")) = Err EEOF.
Proof. vm_compute. reflexivity. Qed.

Example C26_unmarshal_ex : fst (dUnmarshal 9 outerT (zero _ _ _ demoE outerT) (bs " {""x"":5,""Rest"":[1],""name"":""a"",""on"":""true"",""z"":{}} ") (used2 false)) =
  Ok (VStruct [VBool true; VStruct [VStr (bs "a")]; VPtr (Some (VStruct [VInt 5]));
      VIface (Some (TSlice TEface, VSlice (Some [VIface (Some (TFloat64, @VFloat64 textF textF demoC (false, bs "1")))])))]) /\
  fst (dUnmarshal 9 outerT (zero _ _ _ demoE outerT) (bs "{""x"":5}}") (used2 false)) = Err EDataRemained.
Proof. vm_compute. auto. Qed.
Example C26_reader_ex : rd_fin (pieces " [1,22 ] ") = EEOF /\
  fst (UnmarshalFromReader textF textF demoC demoE noFold true 9 (TSlice (TInt true W8)) (VSlice None) (pieces " [1,22 ] ") (used2 false)) =
  Ok (VSlice (Some [VInt 1; VInt 22])).
Proof. vm_compute. auto. Qed.
Definition failing (s : string) : reader := mkReader (bs s) [(1%nat, false); (0%nat, false); (3%nat, false)] (EOther 9).
Example C26_reader_fails_ex : rd_fin (failing "[1,22] ") <> EEOF /\
  fst (ReadVal textF textF demoC demoE noFold true 9 (TSlice (TInt true W8)) (VSlice None) (ResetFrom (SReader (failing "[1,22] ")) (used2 false))) =
  Ok (VSlice (Some [VInt 1; VInt 22])) /\
  fst (UnmarshalFromReader textF textF demoC demoE noFold true 9 (TSlice (TInt true W8)) (VSlice None) (failing "[1,22] ") (used2 false)) = Err (EOther 9).
Proof. split; [discriminate|]. vm_compute. auto. Qed.
Definition nodeSet (T : ty) : Prop := In T [TRef 0; nodeT; TInt true W8; TPtr (TRef 0)].
Lemma nodeSet_closed : closed textF textF demoC demoE False False nodeSet.
Proof.
  intros T [<-|[<-|[<-|[<-|[]]]]]; unfold nodeT; cbn -[In]; try exact I.
  - right. left. reflexivity.
  - constructor; [split; [right; right; left; reflexivity|discriminate]|]. constructor; [|constructor].
    split; [right; right; right; left; reflexivity|discriminate].
  - left. reflexivity.
Qed.
Lemma demo_zero S k : holds_only textF textF demoC demoE S (te_zero _ _ _ demoE k).
Proof. destruct k; repeat constructor. Qed.
Example C26_valid_ex : closed textF textF demoC demoE False False nodeSet /\ nodeSet (TRef 0) /\
  holds_only textF textF demoC demoE nodeSet (zero _ _ _ demoE (TRef 0)) /\
  fst (dUnmarshal 9 (TRef 0) (zero _ _ _ demoE (TRef 0)) (bs " {""next"":{""next"":{""v"":-1}}}") (used2 false)) =
  Ok (VStruct [VInt 0; VPtr (Some (VStruct [VInt 0; VPtr (Some (VStruct [VInt (-1); VPtr None]))]))]).
Proof. split; [apply nodeSet_closed|]. split; [now left|]. split; [apply (demo_zero nodeSet 0)|]. vm_compute. reflexivity. Qed.

(** an unquoted null is accepted as a map key, so Unmarshal accepts what Valid rejects *)
Theorem C26_key_refuted : exists T data it n (v : dval), vreachable textF textF demoC demoE noFold true it /\
  fst (dUnmarshal n T (zero _ _ _ demoE T) data it) = Ok v /\ ~ exists j, json_text data j.
Proof.
  exists (TMap KString (TInt true W64)), (bs "{null:1}"), (newIter false false (mkStack [] 0)), 3%nat, (VMap (Some [(KS [], VInt 1)])).
  split; [apply vr_reachable, re_new|]. split; [vm_compute; reflexivity|].
  intros H. apply (proj2 (C01_valid textF textF _ (newIter false false (mkStack [] 0)) (re_new _ _ _ _ _))) in H. vm_compute in H. discriminate.
Qed.
(** white space, here a line feed, is accepted after the opening quote of a quoted boolean *)
Theorem C26_bool_refuted : exists T data it n (v : dval), vreachable textF textF demoC demoE noFold true it /\
  fst (dUnmarshal n T (zero _ _ _ demoE T) data it) = Ok v /\ ~ exists j, json_text data j.
Proof.
  exists outerT, (bs "{""on"":""" ++ [10] ++ bs "true""}"), (newIter false false (mkStack [] 0)), 3%nat,
    (VStruct [VBool true; VStruct [VStr []]; VPtr None; VIface None]).
  split; [apply vr_reachable, re_new|]. split; [vm_compute; reflexivity|].
  intros H. apply (proj2 (C01_valid textF textF _ (newIter false false (mkStack [] 0)) (re_new _ _ _ _ _))) in H. vm_compute in H. discriminate.
Qed.
(** the types of these two examples are in sets closed with the relaxation *)
Example C26_lax_ex : closed textF textF demoC demoE True False (fun T => In T [TMap KString (TInt true W64); TInt true W64]) /\
  lax True False (bs "{null:1}").
Proof.
  split.
  - intros T [<-|[<-|[]]]; cbn -[In]; auto. split; auto. right. left. reflexivity.
  - apply (lax_object _ _ _ [(bs "null", bs "1")]).
    + apply (object_pairs (bs "null:1")). apply (pairs_one [] (bs "null") [] [] (bs "1") []); constructor.
    + repeat constructor.
    + constructor; [|constructor]. apply (lax_value _ _ _ (JNum (bs "1"))), v_num. change (snd (bs "null", bs "1")) with (bs "1").
      apply num_pos, (un [49] [] []); [apply (ip_pos 49 []); [lia|constructor]|constructor|constructor].
Qed.

(** map[K]int8, where K is a struct with UnmarshalText, and where K is a string with UnmarshalText; a key type that cannot be decoded *)
Definition keyT : ty := TMap (KUser KKOther (Some 5%nat) (Some (5%nat, KIndir))) (TInt true W8).
Example C26_key_ex :
  decodes textF textF demoC demoE (findField noFold true) false false keyT noOpts (VMap (Some [(KO 1, VInt 7)])) (bs "{""ab"":1,null:2}")
    (VMap (Some [(KO 1, VInt 1); (KO (-1), VInt 2)])) /\
  yields (dReadVal 9 keyT (VMap (Some [(KO 1, VInt 7)]))) (smallv false " {""ab"":1,null:2} ") (VMap (Some [(KO 1, VInt 1); (KO (-1), VInt 2)])) (bs " ") /\
  yields (dReadVal 9 (TMap (KUser KKString (Some 3%nat) None) TBool) (VMap None)) (smallv false "{""a"":true}") (VMap (Some [(KS (bs "a"), VBool true)])) [] /\
  fst (dReadVal 9 (TMap (KUser KKString (Some 3%nat) None) TBool) (VMap None) (smallv false "{""bad"":true}")) = Err (EOther 50) /\
  fst (dReadVal 9 (TMap (KUser KKOther None None) TBool) (VMap None) (smallv false "{""a"":true}")) = Err TypeNotSupportedError.
Proof.
  split; [|vm_compute; auto 9].
  eapply d_map; [exact I| |].
  - apply (object_pairs (bs """ab"":1,null:2")). apply (pairs_cons [] (quote (bs "ab")) [] [] (bs "1") [] (bs "null:2")); try constructor.
    apply (pairs_one [] (bs "null") [] [] (bs "2") []); constructor.
  - eapply en_next with (key := KO 1) (v := VInt 1).
    + apply (kt_text demoC KKOther 5 _ (bs "ab") (bs "ab") (bs "ab" : cu_state demoC)); [|reflexivity].
      exists [UByte 97; UByte 98]. split; [|reflexivity]. repeat (apply si_plain; try lia). constructor.
    + apply d_int; auto.
      * exact (it_plain true [49] (ip_pos 49 [] ltac:(lia) (Forall_nil _))).
      * change (- 2 ^ (8 - 1) <= 1 < 2 ^ (8 - 1)). lia.
    + eapply en_next with (key := KO (-1)) (v := VInt 2).
      * apply (kt_null_text demoC KKOther 5).
      * apply d_int; auto.
        -- exact (it_plain true [50] (ip_pos 50 [] ltac:(lia) (Forall_nil _))).
        -- change (- 2 ^ (8 - 1) <= 2 < 2 ^ (8 - 1)). lia.
      * constructor.
Qed.

(** ** C24 *)
Example C24_session_ex :
  let ops := [DMore; DDecode TBool (VBool false); DMore; DMore; DDecode (TPtr TString) (VPtr None); DMore; DDecode TBool (VBool true); DDecode TBool (VBool true); DMore] in
  let outs := [RMore true; RDecode (Ok (VBool true)); RMore true; RMore true; RDecode (Ok (VPtr (Some (VStr (bs "a"))))); RMore false;
     RDecode (Err EEOF); RDecode (Err EEOF); RMore false] in
  stream_of (bs " true   ""a"" ") [bs "true"; quote (bs "a")] /\
  session textF textF demoC demoE (findField noFold true) false false EEOF [bs "true"; quote (bs "a")] ops outs /\
  drun textF textF demoC demoE noFold true 9 ops (NewDecoder (SReader (pieces " true   ""a"" ")) (used2 false)) = outs.
Proof.
  cbv zeta. split; [|split].
  - apply (so_next (bs " ") (bs "true") (bs "   ""a"" ")); [repeat constructor; unfold is_ws; lia| | |].
    + exists 116, (bs "rue"). split; auto. unfold is_ws. lia.
    + right. exists 32, (bs "  ""a"" "). split; auto. unfold is_ws. lia.
    + apply (so_next (bs "   ") (quote (bs "a")) (bs " ")); [repeat constructor; unfold is_ws; lia| | |].
      * exists 34, (bs "a"""). split; auto. unfold is_ws. lia.
      * right. exists 32, []. split; auto. unfold is_ws. lia.
      * constructor. repeat constructor; unfold is_ws; lia.
  - apply se_more. apply se_decode; [apply d_true|]. apply se_more, se_more. apply se_decode.
    { apply d_ptr_new; [discriminate|]. apply d_string; auto. apply plain_body. constructor; [unfold plain; simpl; lia|constructor]. }
    apply se_more.
    apply (se_end textF textF demoC demoE (findField noFold true) false false EEOF TBool (VBool true) (bs "true") (VBool true) [DDecode TBool (VBool true); DMore]).
    apply d_true.
  - vm_compute. reflexivity.
Qed.
Example C24_sticky_ex : exists dc', Decode textF textF demoC demoE noFold true 3 (TInt false W8) (VInt 0)
  (NewDecoder (SReader (pieces "300 5")) (used2 false)) = (Err EIntOverflow, dc').
Proof. eexists. vm_compute. reflexivity. Qed.
(** Reading from a stream, a number that is not an integer is cut off at its point: 1.5 is read as 1. *)
Theorem C24_integer_refuted : exists data ts T (old v : dval) n dc', stream_of data ts /\ Forall (fun t => exists j, value t j) ts /\
  Decode textF textF demoC demoE noFold true n T old (NewDecoder (SReader (mkReader data [] EEOF)) (newIter false false (mkStack [] 0))) = (Ok v, dc') /\
  forall t, In t ts -> ~ decodes textF textF demoC demoE (findField noFold true) false false T noOpts old t v.
Proof.
  exists (bs "1.5"), [bs "1.5"], (TInt true W64), (VInt 0), (VInt 1), 3%nat. eexists. split; [|split; [|split]].
  - apply (so_next [] (bs "1.5") []); [constructor| |auto|constructor; constructor]. exists 49, (bs ".5"). split; auto. unfold is_ws. lia.
  - repeat constructor. exists (JNum (bs "1.5")). apply v_num. change (bs "1.5") with ([49] ++ (46 :: [53]) ++ []).
    apply num_pos, (un [49] (46 :: [53]) []); [apply (ip_pos 49 []); [lia|constructor]| |constructor]. apply fp_some. split; [discriminate|]. repeat constructor; unfold is_digit; lia.
  - vm_compute. reflexivity.
  - intros t [<-|[]] H. inversion H; subst; try discriminate. match goal with K : int_text _ _ _ |- _ => inversion K as [s0 t0 K1|t0 K1]; subst end.
Qed.

(** ** C28 *)
Example C28_struct_ex : in_struct outerFields /\ yields (dReadVal 9 outerT (zero _ _ _ demoE outerT))
  (smallv false " {""x"":5, ""?"":[{}], ""x"" : 6}}")
  (VStruct [VBool false; VStruct [VStr []]; VPtr (Some (VStruct [VInt 6])); VIface None]) (bs "}").
Proof. split; [repeat (apply Forall_cons; [eexists _, _; reflexivity|]); apply Forall_nil|]. vm_compute. auto. Qed.
Example C28_accepts_ex : stream (smallv false " {""x"":5}}") = bs " " ++ bs "{""x"":5}" ++ bs "}" /\
  object_text (bs "{""x"":5}") [(quote (bs "x"), bs "5")] /\
  members textF textF demoC demoE (findField noFold true) false false outerFields (zero _ _ _ demoE outerT) [(quote (bs "x"), bs "5")]
    (VStruct [VBool false; VStruct [VStr []]; VPtr (Some (VStruct [VInt 5])); VIface None]).
Proof.
  split; [vm_compute; reflexivity|]. split.
  - apply (object_pairs (bs """x"":5")). apply (pairs_one [] (quote (bs "x")) [] [] (bs "5") []); constructor.
  - eapply ms_field with (name := bs "x") (i := 2%nat).
    + apply plain_body. constructor; [unfold plain; simpl; lia|constructor].
    + vm_compute. reflexivity.
    + reflexivity.
    + apply (ap_field _ _ _ _ _ _ _ _ _ _ [VBool false; VStruct [VStr []]]). apply ap_alloc.
      apply (ap_field _ _ _ _ _ _ _ _ _ _ []). apply ap_here. apply d_int; auto.
      * exact (it_plain true [53] (ip_pos 53 [] ltac:(lia) (Forall_nil _))).
      * change (- 2 ^ (64 - 1) <= 5 < 2 ^ (64 - 1)). lia.
    + constructor.
Qed.
Example C28_unknown_ex : it_disallow (smallv true "{""x"":5,""y"":6,""z"":7}") = true /\
  fst (dReadVal 9 outerT (zero _ _ _ demoE outerT) (smallv true "{""x"":5,""y"":6,""z"":7}")) = Err (EUnknownField (bs "y")).
Proof. vm_compute. auto. Qed.
(** For a struct without JSON fields the unknown member is not what is reported. *)
Theorem C28_unknown_refuted : exists layout data (old : dval) it, vreachable textF textF demoC demoE noFold true it /\ it_disallow it = true /\
  stream it = data /\ object_text data [(quote (bs "y"), bs "6")] /\
  exists e, fst (dReadVal 9 (TStruct layout []) old it) = Err e /\ forall name, e <> EUnknownField name.
Proof.
  exists [], (bs "{""y"":6}"), (VStruct []), (smallv true "{""y"":6}"). split; [apply reachable_smallv|]. split; [reflexivity|]. split; [vm_compute; reflexivity|].
  split.
  { apply (object_pairs (bs """y"":6")). apply (pairs_one [] (quote (bs "y")) [] [] (bs "6") []); constructor. }
  eexists. split; [vm_compute; reflexivity|]. discriminate.
Qed.

(** ** C32, C33, C39 *)
Example C32_ex : stream (smallv false " null ,") = bs " " ++ bs "null" ++ bs " ," /\
  yields (dReadVal 9 (TRef 0) (VStruct [VInt 7; VPtr None])) (smallv false " null ,") (VStruct [VInt 7; VPtr None]) (bs " ,") /\
  yields (dReadVal 9 (TPtr TBool) (VPtr (Some (VBool true)))) (smallv false " null ,") (VPtr None) (bs " ,") /\
  yields (dReadVal 9 TEface (VIface (Some (TPtr TBool, VPtr (Some (VBool true)))))) (smallv false " null ,") (VIface None) (bs " ,") /\
  yields (dReadVal 9 TEface (VIface (Some (TPtr (TPtr TBool), VPtr (Some (VPtr (Some (VBool true)))))))) (smallv false " null ,")
    (VIface (Some (TPtr (TPtr TBool), VPtr (Some (VPtr None))))) (bs " ,").
Proof. vm_compute. auto 9. Qed.
Example C33_ex : yields (dReadVal 9 (TArray 3 (TInt true W8)) (VArr [VInt 7; VInt 8; VInt 9])) (smallv false "[1, null] ") (VArr [VInt 1; VInt 8; VInt 0]) (bs " ") /\
  yields (dReadVal 9 (TArray 1 (TInt true W8)) (VArr [VInt 7])) (smallv false "[1, {""a"":[]}] ") (VArr [VInt 1]) (bs " ") /\
  yields (dReadVal 9 (TSlice (TPtr (TInt true W8))) (VSlice (Some [VPtr None]))) (smallv false "[1, null] ") (VSlice (Some [VPtr (Some (VInt 1)); VPtr None])) (bs " ").
Proof. vm_compute. auto 9. Qed.
Example C33_accepts_ex : filled textF textF demoC demoE noFold true false false (TInt true W8) [VInt 7; VInt 8] [bs "null"] [VInt 7; VInt 0].
Proof.
  split; auto. split; [|split].
  - intros [|i] x t Hx Ht; [|destruct i; discriminate]. injection Hx as <-. injection Ht as <-. exists (VInt 7). split; auto. now apply d_null.
  - intros i Hi. simpl in Hi. destruct i as [|[|i]]; [lia|reflexivity|lia].
  - intros [|i] t Hi Ht; simpl in *; [lia|]. destruct i; discriminate.
Qed.
Example C39_read_ex : base64 (bs "fooba") (b64encode (bs "fooba")) /\
  yields (dReadVal 9 (TSlice (TInt false W8)) (VSlice None)) (smallv false " ""Zm9vYmE="",") (VSlice (Some (map VInt (bs "fooba")))) (bs ",").
Proof.
  split; [|vm_compute; auto]. apply b64encode_spec. apply Forall_forall. intros x Hx. simpl in Hx. unfold SpecStream.is_byte. lia.
Qed.

Print Assumptions C02_readval.
Print Assumptions C03_readval.
Print Assumptions C24_session.
Print Assumptions C24_sticky.
Print Assumptions C24_integer_refuted.
Print Assumptions C26_unmarshal.
Print Assumptions C26_reader.
Print Assumptions C26_reader_fails.
Print Assumptions C26_fuel.
Print Assumptions C26_lax.
Print Assumptions C26_valid.
Print Assumptions C26_key_refuted.
Print Assumptions C26_bool_refuted.
Print Assumptions C28_struct.
Print Assumptions C28_accepts.
Print Assumptions C28_unknown.
Print Assumptions C28_unknown_refuted.
Print Assumptions C32_keeps.
Print Assumptions C32_pointer.
Print Assumptions C32_slice.
Print Assumptions C32_map.
Print Assumptions C32_interface.
Print Assumptions C32_eface.
Print Assumptions C32_eface_pointer.
Print Assumptions C33_slice.
Print Assumptions C33_slice_accepts.
Print Assumptions C33_array.
Print Assumptions C33_array_accepts.
Print Assumptions C39_read.
