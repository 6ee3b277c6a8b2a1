(** C58: the error of the end of the input means that the text is cut off there, for typed targets and for every call. *)
From Coq Require Import String ZArith List Bool Lia.
From Verif Require Import Base ModelIter ModelStack ModelSkip ModelInt ModelFloat ModelRead ModelOps ModelVal ModelDecoder Sim SimLib SimSkip SimRaw SimStr SimInt
  SimFloat SimRead SimIterate SimOps SimVal Spec SpecCut SpecEnd NumFacts StrFacts MachineFacts FloatFacts GrammarFacts IterFacts ValFacts DecFacts DecSound
  CutFacts CutMachine CutRead CutTyped CutVal Properties1 Properties4 Properties24.
Import ListNotations.
Local Open Scope Z_scope.

(** ** The calls of an iterator *)
(** the calls that take a value, or the start of one *)
Definition atStart (o : op) : Prop := match o with OArrayMore | OObjectMore => False | _ => True end.
Definition ended {A} (f : err) (x : pres A) (l : bytes) : Prop := x = PErr f -> cut f l.
Lemma told_ended {A} f (T : A -> Prop) x l : told f T x l -> ended f x l.
Proof. intros H ->. apply H. reflexivity. Qed.
Lemma ended_out {A B} f (p : P A) (q : A -> P B) l : (forall a r, q a f r <> PErr f) -> ended f (p f l) l -> ended f (pbind p q f l) l.
Proof. intros N H K. unfold pbind in K. destruct (p f l) as [a r|e]; [contradiction (N a r)|]. apply H. now injection K as ->. Qed.
Lemma ended_token {A} f (En : ending f) (q : Z -> P A) l :
  (forall c r, ~ is_ws c -> ended f (q c f (c :: r)) (c :: r)) -> ended f (pbind p_nextToken q f l) l.
Proof.
  intros H. unfold pbind. destruct (nextToken_cases f l) as [[Hw ->]|(w & c & r & -> & Hw & Hc & ->)].
  - intros _. now apply blank_cut.
  - intros K. apply cut_ws; auto. now apply H.
Qed.
Lemma ended_fail {A} f (En : ending f) e c l : byteOf e = Some c -> @ended A f (PErr e) l.
Proof. intros B [= ->]. destruct En as [->|[n ->]]; discriminate. Qed.
Lemma ended_skip {A} f (En : ending f) (x : pres A) l : (x = PErr f -> p_Skip f l = PErr f) -> ended f x l.
Proof. intros H K. apply skip_cut; auto. Qed.
Lemma ended_int f (En : ending f) s w c r : ~ is_ws c -> ended f (p_readIntOf s w c f r) (c :: r).
Proof. intros Hc K. apply intOf_end in K; auto. destruct K as [D K]. apply skip_cut; auto. now rewrite skipNumber_at. Qed.
Lemma array_open f w : ws w -> cut f (91 :: w).
Proof. intros Hw. apply (other_cut f _ [93] [] (91 :: w ++ [93]) (JArr [])); [reflexivity|discriminate|constructor|now constructor|discriminate]. Qed.
Lemma object_open f w : ws w -> cut f (123 :: w).
Proof. intros Hw. apply (other_cut f _ [125] [] (123 :: w ++ [125]) (JObj [])); [reflexivity|discriminate|constructor|now constructor|discriminate]. Qed.
(** the name of a member *)
Lemma field_end f (En : ending f) l : p_readObjectField f l = PErr f -> exists x ms, members (34 :: l ++ x) ms.
Proof.
  unfold p_readObjectField. intros H.
  assert (Hk : told f (fun _ => True) (p_readStringAsSlice f l) (34 :: l)).
  { apply (told_echo f En _ true); auto. rewrite skip_at by (unfold is_ws; lia). apply str_echo. }
  unfold pbind at 1 in H. destruct (p_readStringAsSlice f l) as [name r1|e] eqn:Ek.
  2:{ injection H as ->. destruct (Hk eq_refl) as [_ (x & j & w & t & w2 & E & Hw & Hv & Hw2)].
      destruct (value_head _ _ Hv) as (c & t' & -> & Nc & _).
      destruct (ws_split [] 34 (l ++ x) w c (t' ++ w2)) as (<- & <- & E'); auto; [constructor|unfold is_ws; lia|].
      inversion Hv; subst. { apply number_first in H. destruct H as (? & ? & [= <- _] & H). unfold is_digit in H. lia. }
      rewrite <- app_assoc in E'. cbn [app] in E'. exists (x ++ [58; 48]). eexists. rewrite app_assoc, E'. rewrite <- app_assoc. cbn [app].
      now apply member0; eauto. }
  clear Hk. apply readString_spec in Ek. destruct Ek as (b & -> & Hb). unfold pbind at 1 in H.
  destruct (nextToken_cases f r1) as [[Hw2 E2]|(w2 & c & r2 & -> & Hw2 & Hc & E2)]; rewrite E2 in H.
  { exists [58; 48]. eexists. rewrite <- app_assoc. cbn [app]. now apply member0; eauto. }
  exfalso. destruct (Z.eqb_spec c cCOLON) as [->|N]; cbn [negb] in H; [discriminate|]. revert H. intros [= H]. revert H. now apply no_byte.
Qed.
Lemma key_open f w l x ms : ws w -> members (34 :: l ++ x) ms -> cut f (123 :: w ++ 34 :: l).
Proof.
  intros Hw H. destruct (inObject_ws w Hw _ _ H) as [ms' M]. apply (other_cut f _ (x ++ [125]) [] (123 :: (w ++ 34 :: l ++ x) ++ [125]) (JObj ms')).
  - repeat (cbn [app]; rewrite <- ?app_assoc). reflexivity.
  - now destruct x.
  - constructor.
  - now constructor.
  - discriminate.
Qed.
Lemma ended_op F32 F64 b f l o : ending f -> atStart o -> ended f (p_exec F32 F64 b o f l) l.
Proof.
  intros En Ho. assert (Nr : forall A (g : A -> out F32 F64) a (r : bytes), (fun a => pret (g a)) a f r <> PErr f) by discriminate.
  assert (Raw : forall l, ended f (p_SkipRaw f l) l) by (intros l0; exact (told_ended _ _ _ _ (told_raw f En l0))).
  assert (Str : forall l, ended f (p_ReadString f l) l).
  { intros l0. unfold p_ReadString, p_expectQuote. rewrite pbind_assoc. apply ended_token; auto. intros c r Hc.
    destruct (Z.eqb_spec c cQUOTE) as [->|N]; cbn [negb]; [|eapply ended_fail; auto; reflexivity].
    apply ended_skip; [exact En|]. rewrite skip_at by auto. rewrite (pbind_run _ _ _ _ tt r) by reflexivity.
    change (p_skipFunctions cQUOTE f r) with (p_skipString f r). intros K.
    assert (S := str_echo true [] f r). change (p_string [] f r) with (p_readStringAsSlice f r) in S. rewrite K in S. destruct S as [[? _]|S]; [discriminate|].
    change (p_skipFunctions 34 f r) with (p_skipString f r) in S.
    destruct (p_skipString f r); [contradiction|]. destruct S as [<-|(x & S & _)]; auto. exfalso. revert S. destruct En as [->|[m ->]]; discriminate. }
  assert (Flt : forall F l, ended f (p_ReadFloat F f l) l).
  { intros F l0 K. destruct (nextToken_cases f l0) as [[Hw _]|(w & c & r & -> & Hw & Hc & _)]; [now apply blank_cut|]. apply cut_ws; auto.
    assert (K2 : p_ReadFloat F f (c :: r) = PErr f).
    { unfold p_ReadFloat, pbind in *. rewrite takeToken_run in K by auto.
      assert (Tk := takeToken_run f [] c r ws_nil Hc). cbn [app] in Tk. now rewrite Tk. }
    apply (told_ended _ _ _ _ (told_float noFold f En (fun _ => True) F (fun x => x) c r (fun _ => I) Hc)). unfold pbind. now rewrite K2. }
  destruct o; cbn [p_exec]; try contradiction; (apply ended_out; [intros; discriminate|]).
  - apply ended_skip; auto.
  - apply ended_token; auto. intros c r Hc. destruct (Z.eqb_spec c cLBRACK) as [->|N]; cbn [negb]; [|eapply ended_fail; auto; reflexivity].
    apply ended_skip; [exact En|]. rewrite skip_at by auto. auto.
  - apply ended_token; auto. intros c r Hc. destruct (Z.eqb_spec c cLBRACE) as [->|N]; cbn [negb]; [|eapply ended_fail; auto; reflexivity].
    apply ended_skip; [exact En|]. rewrite skip_at by auto. auto.
  - apply ended_token; auto. intros c r Hc. destruct (isNumberValue (valueTypeMap c)) eqn:Ev; cbn [negb]; [|eapply ended_fail; auto; reflexivity].
    apply (isNumber_digit noFold) in Ev. apply ended_skip; [exact En|]. rewrite skipNumber_at by auto. auto.
  - apply ended_token; auto. intros c r Hc. destruct (Z.eqb_spec c cQUOTE) as [->|N]; cbn [negb]; [|eapply ended_fail; auto; reflexivity].
    apply ended_skip; [exact En|]. rewrite skip_at by auto. auto.
  - apply Raw.
  - apply ended_out; [intros; discriminate|]. apply Raw.
  - apply ended_out; [intros; discriminate|]. apply Raw.
  - apply ended_token; auto. intros c r Hc. destruct (isNumberValue (valueTypeMap c)) eqn:Ev; cbn [negb]; [|eapply ended_fail; auto; reflexivity].
    apply (isNumber_digit noFold) in Ev. apply ended_skip; [exact En|]. rewrite skipNumber_at by auto. rewrite (pbind_run _ _ _ _ tt r) by reflexivity.
    unfold p_readNumberAsString, p_captured. destruct (p_skipNumber c f r) as [[] ?|]; [discriminate|]. now intros [= ->].
  - apply ended_token; auto. intros c r Hc. destruct (Z.eqb_spec c c_n) as [->|N]; cbn [negb]; [|eapply ended_fail; auto; reflexivity].
    apply ended_skip; [exact En|]. rewrite skip_at by auto. auto.
  - apply ended_token; auto. intros c r Hc. destruct (Z.eqb_spec c c_t) as [->|N].
    + apply ended_skip; [exact En|]. rewrite skip_at by auto. rewrite (pbind_run _ _ _ _ tt r) by reflexivity.
      change (p_skipFunctions c_t f r) with (p_expectBytes (bs "rue") f r). unfold pbind. destruct (p_expectBytes _ f r); [discriminate|]. now intros [= ->].
    + destruct (Z.eqb_spec c c_f) as [->|N2]; [|eapply ended_fail; auto; reflexivity].
      apply ended_skip; [exact En|]. rewrite skip_at by auto. rewrite (pbind_run _ _ _ _ tt r) by reflexivity.
      change (p_skipFunctions c_f f r) with (p_expectBytes (bs "alse") f r). unfold pbind. destruct (p_expectBytes _ f r); [discriminate|]. now intros [= ->].
  - apply Str.
  - apply Str.
  - apply ended_out; [intros; discriminate|]. apply Str.
  - intros K. destruct (nextToken_cases f l) as [[Hw _]|(w' & c & r & -> & Hw & Hc & _)]; [now apply blank_cut|]. apply cut_ws; auto.
    unfold p_ReadU, pbind in K. rewrite takeToken_run in K by auto. now apply (ended_int f En false w).
  - intros K. destruct (nextToken_cases f l) as [[Hw _]|(w' & c & r & -> & Hw & Hc & _)]; [now apply blank_cut|]. apply cut_ws; auto.
    unfold p_ReadI, pbind in K. rewrite takeToken_run in K by auto. now apply (ended_int f En true w).
  - apply Flt.
  - apply Flt.
  - apply (told_ended _ (fun _ => True)). apply (told_echo f En _ b); auto. apply Read_echo.
  - apply ended_token; auto. intros; discriminate.
  - apply ended_token; auto. intros c r Hc. destruct (Z.eqb_spec c cLBRACK) as [->|N]; cbn [negb]; [|eapply ended_fail; auto; reflexivity].
    rewrite (pbind_run _ _ _ _ tt r) by reflexivity. unfold pbind at 1. destruct (nextToken_cases f r) as [[Hw ->]|(w & c & r2 & -> & Hw & Hc2 & ->)].
    + intros _. now apply array_open.
    + destruct (c =? cRBRACK); discriminate.
  - apply ended_token; auto. intros c r Hc. destruct (Z.eqb_spec c cLBRACE) as [->|N]; cbn [negb]; [|eapply ended_fail; auto; reflexivity].
    rewrite (pbind_run _ _ _ _ tt r) by reflexivity. unfold pbind at 1. destruct (nextToken_cases f r) as [[Hw ->]|(w & c & r2 & -> & Hw & Hc2 & ->)].
    + intros _. now apply object_open.
    + destruct (Z.eqb_spec c cRBRACE) as [->|N2]; [discriminate|].
      destruct (Z.eqb_spec c cQUOTE) as [->|N3]; [|eapply ended_fail; auto; reflexivity].
      rewrite (pbind_run _ _ _ _ tt r2) by reflexivity. unfold pbind. intros K. destruct (p_readObjectField f r2) as [k r3|e] eqn:Ek; [discriminate|].
      injection K as ->. apply field_end in Ek; auto. destruct Ek as (x & ms & M). now apply (key_open f w r2 x ms).
Qed.
(** A call that returns the error of the end has met a text that is cut off: no value is complete at the start of the input, and
    more bytes make a JSON text of it.  The calls within an array or an object start behind a value and are left out. *)
Theorem C58_calls : forall F32 F64 it o, reachable F32 F64 it -> ~ dirty it -> ending (fin it) -> atStart o ->
  fst (exec F32 F64 o it) = Err (fin it) -> cut (fin it) (stream it).
Proof.
  intros F32 F64 it o R D En Ho H. assert (S := sim_exec F32 F64 (it_useNumber it) o it (reachable_wf _ _ _ R) eq_refl).
  destruct (exec F32 F64 o it) as [x it'] eqn:Ex. destruct S as (_ & _ & S). apply fits_outcome in S; auto. cbn [fst] in H. subst x.
  apply (ended_op F32 F64 (it_useNumber it) _ _ o En Ho). unfold fits in S. destruct (p_exec _ _ _ o (fin it) (stream it)); [discriminate|]. now injection S as ->.
Qed.

(** ** Typed targets *)
Section Typed.
Variables F32 F64 : floatOps.
Variable C : custom.
Variable E : env F32 F64 C.
Variable sf : Z -> Z.
Variable cs : bool.
Notation gval := (gval F32 F64 C).
Notation ReadVal := (ReadVal F32 F64 C E sf cs).
Notation Unmarshal := (Unmarshal F32 F64 C E sf cs).
Notation UnmarshalFromReader := (UnmarshalFromReader F32 F64 C E sf cs).
Notation Decode := (Decode F32 F64 C E sf cs).
Notation vreachable := (vreachable F32 F64 C E sf cs).
Variable P : bool -> ty -> Prop.
Hypothesis types : forall q t, P q t -> meant E P q t.
Hypothesis named : forall n, tame (te_zero F32 F64 C E n).

Lemma readval_told n t (old : gval) it : wf it -> ~ dirty it -> ending (fin it) -> P false t -> tame old ->
  let (x, it') := ReadVal n t old it in
  wf it' /\ ~ dirty it' /\ fin it' = fin it /\
  match x with Ok v => front (stream it) (stream it') | Err e => e = fin it -> cut (fin it) (stream it) | _ => False end.
Proof.
  intros W D En Pt To. assert (S := sim_ReadVal F32 F64 C E sf cs n t old it W).
  destruct (ModelVal.ReadVal F32 F64 C E sf cs n t old it) as [x it'] eqn:Ex. destruct S as (W' & [u M] & S).
  assert (D' : ~ dirty it') by (intros K; apply D; exact (mv_dirty _ _ _ M K)).
  split; [exact W'|]. split; [exact D'|]. split; [exact (mv_fin _ _ _ M)|].
  assert (K := clear_decode F32 F64 C E (it_useNumber it) (it_disallow it) sf cs (fin it) En named P types n false t Pt noOpts old (stream it) eq_refl eq_refl To).
  destruct S as [S|[S _]]; [|contradiction]. destruct (p_decode _ _ _ _ _ _ _ _ n t noOpts old (fin it) (stream it)) as [v r|e].
  - destruct S as (v' & -> & <- & _). apply K.
  - subst x. exact K.
Qed.
Theorem C58_readval n t (old : gval) it : vreachable it -> ~ dirty it -> ending (fin it) -> P false t -> tame old ->
  fst (ReadVal n t old it) = Err (fin it) -> cut (fin it) (stream it).
Proof.
  intros R D En Pt To H. assert (K := readval_told n t old it (vreachable_wf _ _ _ _ _ _ _ R) D En Pt To).
  destruct (ModelVal.ReadVal F32 F64 C E sf cs n t old it) as [x it']. cbn [fst] in H. subst x. now apply K.
Qed.
(** A Decoder that has not failed before *)
Theorem C58_decode n t (old : gval) dc : vreachable (de_it dc) -> ~ dirty (de_it dc) -> ending (fin (de_it dc)) -> de_err dc = None -> P false t -> tame old ->
  fst (Decode n t old dc) = Err (fin (de_it dc)) -> cut (fin (de_it dc)) (stream (de_it dc)).
Proof.
  intros R D En Er Pt To H. apply (C58_readval n t old); auto. unfold ModelDecoder.Decode in H. rewrite Er in H.
  destruct (ModelVal.ReadVal F32 F64 C E sf cs n t old (de_it dc)) as [[v|e| |] it']; exact H.
Qed.
Lemma unmarshal_told n t (old : gval) it : wf it -> ~ dirty it -> ending (fin it) -> P false t -> tame old ->
  fst (unmarshal F32 F64 C E sf cs n t old it) = Err (fin it) -> cut (fin it) (stream it) \/ (fin it <> EEOF /\ exists j, json_text (stream it) j).
Proof.
  intros W D En Pt To H. assert (K := readval_told n t old it W D En Pt To). unfold unmarshal, bind in H.
  destruct (ModelVal.ReadVal F32 F64 C E sf cs n t old it) as [x it']. destruct K as (W' & D' & Hf & K).
  destruct x as [v|e| |]; try contradiction; [|left; apply K; now injection H as ->].
  assert (S := sim_nextToken it' W' I). destruct (nextToken it') as [y it2]. destruct S as (_ & _ & [S|[S _]]); [|contradiction].
  rewrite Hf in S. destruct (nextToken_cases (fin it) (stream it')) as [[Et Ev]|(w & c & r & _ & _ & _ & Ev)]; rewrite Ev in S; [|destruct S as (a & -> & _); injection H as H; destruct En as [En|[m En]]; congruence].
  subst y. right. destruct K as (w & tx & j & Es & Hw & Hv). split.
  - intros Hz. rewrite Hz in H. discriminate.
  - exists j, w, tx, (stream it'). auto.
Qed.
(** io.EOF of Unmarshal *)
Theorem C58_unmarshal n t (old : gval) data it : vreachable it -> P false t -> tame old ->
  fst (Unmarshal n t old data it) = Err EEOF -> cut EEOF data.
Proof.
  intros R Pt To H. unfold ModelVal.Unmarshal in H. assert (K := unmarshal_told n t old (ResetBytes data it)). rewrite stream_ResetBytes in K.
  destruct K as [K|[K _]]; auto.
  - apply wf_ResetBytes, (vreachable_wf _ _ _ _ _ _ _ R).
  - apply clean_ResetBytes.
  - left. reflexivity.
  - now contradiction K.
Qed.
(** UnmarshalFromReader looks behind the value: the failure of a reader can also come after a complete text. *)
Theorem C58_reader n t (old : gval) r it : vreachable it -> ~ rd_dirty r -> ending (rd_fin r) -> P false t -> tame old ->
  fst (UnmarshalFromReader n t old r it) = Err (rd_fin r) -> cut (rd_fin r) (rd_data r) \/ (rd_fin r <> EEOF /\ exists j, json_text (rd_data r) j).
Proof.
  intros R D En Pt To H. unfold ModelVal.UnmarshalFromReader in H.
  assert (Hs : stream (Reset r it) = rd_data r) by reflexivity. assert (Hf : fin (Reset r it) = rd_fin r) by reflexivity.
  assert (K := unmarshal_told n t old (Reset r it)). rewrite Hs, Hf in K. apply K; auto.
  - apply wf_Reset, (vreachable_wf _ _ _ _ _ _ _ R).
  - now apply clean_Reset.
Qed.
End Typed.

(** ** Examples and refutations *)
(** type order struct { ID int8 `json:"id,string"`; Data []byte; Next *node; At textTime; Any interface{}; Rows [][2]json.Number } *)
Definition orderFields : list (field ty) :=
  [mkField (bs "id") [HField 0] true false (TInt true W8);
   mkField (bs "Data") [HField 1] false false (TSlice (TInt false W8));
   mkField (bs "Next") [HField 2] false false (TPtr (TRef 0));
   mkField (bs "At") [HField 3] false false (TText 1);
   mkField (bs "Any") [HField 4] false false TEface;
   mkField (bs "Rows") [HField 5] false false (TSlice (TArray 2 TNumber))].
Definition orderT : ty := TStruct [TInt true W8; TSlice (TInt false W8); TPtr (TRef 0); TText 1; TEface; TSlice (TArray 2 TNumber)] orderFields.
Definition order0 : dval := zero _ _ _ demoE orderT.
Definition orderSet (q : bool) (T : ty) : Prop :=
  In (q, T) [(false, orderT); (true, TInt true W8); (false, TInt true W8); (false, TInt false W8); (false, TSlice (TInt false W8)); (false, TPtr (TRef 0));
             (false, TRef 0); (false, nodeT); (false, TText 1); (false, TEface); (false, TSlice (TArray 2 TNumber)); (false, TArray 2 TNumber); (false, TNumber)].
Lemma order_types q T : orderSet q T -> meant demoE orderSet q T.
Proof.
  unfold orderSet. cbn [In]. intros H. repeat (destruct H as [[= <- <-]|H]; [|]); try contradiction; cbn [meant]; auto 20.
  - unfold orderFields. repeat (constructor; [cbn; auto 20|]). constructor.
  - unfold nodeT. cbn [meant]. repeat (constructor; [cbn; auto 20|]). constructor.
  - intros s x e H. unfold demoC, cu_text in H. destruct (bytes_eqb x (bs "bad")); [|discriminate]. injection H as <-. intros [K|[m K]]; discriminate.
Qed.
Lemma demo_tame n : tame (te_zero _ _ _ demoE n).
Proof. destruct n; cbn; auto. Qed.
Lemma order0_tame : tame order0.
Proof. cbn. auto 10. Qed.
Definition cuts : list string :=
  [" {""id"": ""-1"; "{""id"":""-1""} "; "{""Data"":""aGV"; "{""Next"":{""v"":1,"; "{""At"": ""ba\u00"; "{""Any"":[1,{"; "{""Rows"":[[1, -";
   "{""Rows"":[[1, ""2.5"; "{""extra"":tru"; "{""Nex"; ""; "{""id"":""-1"",""At"":""bad""}"; "{""id"":""128"]%string.
Example C58_readval_ex : (forall q T, orderSet q T -> meant demoE orderSet q T) /\ (forall n, tame (te_zero _ _ _ demoE n)) /\ orderSet false orderT /\ tame order0 /\
  Forall (fun s => vreachable textF textF demoC demoE noFold true (smallv false s) /\ ~ dirty (smallv false s) /\ ending (fin (smallv false s))) cuts /\
  map (fun s => match fst (dReadVal 9 orderT order0 (smallv false s)) with Ok _ => None | Err e => Some e | _ => Some (EOther 1) end) cuts =
  [Some EEOF; None; Some EEOF; Some EEOF; Some EEOF; Some EEOF; Some EEOF; Some EEOF; Some EEOF; Some EEOF; Some EEOF; Some (EOther 50); Some EIntOverflow].
Proof.
  split; [apply order_types|]. split; [apply demo_tame|]. split; [left; reflexivity|]. split; [apply order0_tame|]. split; [|vm_compute; reflexivity].
  apply Forall_forall. intros s _. split; [apply reachable_smallv|]. split; [apply clean_smallv|]. left. reflexivity.
Qed.
Example C58_decode_ex : let dc := NewDecoder (SReader (pieces "{""Next"":{""v"":1,")) (used2 false) in
  de_err dc = None /\ vreachable textF textF demoC demoE noFold true (de_it dc) /\ ~ dirty (de_it dc) /\ ending (fin (de_it dc)) /\
  fst (Decode textF textF demoC demoE noFold true 9 orderT order0 dc) = Err (fin (de_it dc)).
Proof.
  cbv zeta. split; [reflexivity|]. split; [apply vr_attach, reachable_used2|]. split; [apply clean_Reset; intros [H _]; now apply H|].
  split; [left; reflexivity|]. vm_compute. reflexivity.
Qed.
Example C58_unmarshal_ex : vreachable textF textF demoC demoE noFold true (used2 true) /\ orderSet false orderT /\ tame order0 /\
  fst (dUnmarshal 9 orderT order0 (bs "{""Rows"":[[1, ""2.5") (used2 true)) = Err EEOF.
Proof. split; [apply reachable_used2|]. split; [left; reflexivity|]. split; [apply order0_tame|]. vm_compute. reflexivity. Qed.
Definition broken (s : string) : reader := mkReader (bs s) [(1%nat, false); (0%nat, false); (3%nat, false)] (EIO 7).
Example C58_reader_ex : ~ rd_dirty (broken "[12, 3") /\ ending (rd_fin (broken "[12, 3")) /\ orderSet false (TSlice (TInt false W8)) /\
  fst (UnmarshalFromReader textF textF demoC demoE noFold true 9 (TSlice (TInt false W8)) (VSlice None) (broken "[12, 3") (used2 false)) = Err (EIO 7) /\
  fst (UnmarshalFromReader textF textF demoC demoE noFold true 9 (TSlice (TInt false W8)) (VSlice None) (broken "[12, 3] ") (used2 false)) = Err (EIO 7).
Proof.
  split; [intros [_ H]; repeat (inversion H as [? ? K|? ? K]; subst; [discriminate K|]; clear H; rename K into H); inversion H|]. split; [right; eexists; reflexivity|]. split; [cbn; auto 10|]. vm_compute. auto.
Qed.
Example C58_calls_ex : reachable textF textF (small "  -") /\ ~ dirty (small "  -") /\ ending (fin (small "  -")) /\
  map (fun p => match fst (exec textF textF (fst p) (small (snd p))) with Ok _ => None | Err e => Some e | _ => Some (EOther 1) end)
    [(OInt W8, "  -"); (OUint W64, ""); (OReadNull, "nul"); (OReadBool, "fal"); (OReadString, """\u12"); (OFloat64, "1.5e"); (OSkipArray, "[1,");
     (OReadNumber, "-"); (ORead, "{""a"""); (OArrayBegin, " [ "); (OObjectBegin, "{""a"" "); (ONextValueType, " "); (OInt W8, "-x")]%string =
  [Some EEOF; Some EEOF; Some EEOF; Some EEOF; Some EEOF; Some EEOF; Some EEOF; Some EEOF; Some EEOF; Some EEOF; Some EEOF; Some EEOF; Some (EInvalidDigit 120)].
Proof. split; [apply reachable_small|]. split; [apply clean_small|]. split; [apply small_ending|]. vm_compute. reflexivity. Qed.

(** What the two restrictions on types are for.  A map takes null for a name, so the text below ends within a value for it, although
    no JSON text begins like this. *)
Lemma not_cut l e : p_Skip EEOF l = PErr e -> e <> EEOF -> ~ extends l.
Proof.
  intros H N X. assert (K : ~ starts EEOF l) by (intros St; apply starts_spec in St; destruct St as [z St]; congruence).
  assert (Cu : cut EEOF l) by (split; auto). apply (proj2 (skip_cut EEOF l (or_introl eq_refl))) in Cu. congruence.
Qed.
Theorem C58_map_refuted : exists T (old : dval) data it n, vreachable textF textF demoC demoE noFold true it /\
  fst (dUnmarshal n T old data it) = Err EEOF /\ ~ extends data.
Proof.
  exists (TMap KString TString), (VMap None), (bs "{nu"), (used2 false), 3%nat. split; [apply reachable_used2|]. split; [vm_compute; reflexivity|].
  eapply not_cut; [vm_compute; reflexivity|discriminate].
Qed.
(** A boolean with the option string takes white space behind the quote, also a line feed, which no string has. *)
Theorem C58_quoted_refuted : exists T (old : dval) data it n, vreachable textF textF demoC demoE noFold true it /\
  fst (dUnmarshal n T old data it) = Err EEOF /\ ~ extends data.
Proof.
  exists outerT, (zero _ _ _ demoE outerT), (bs "{""on"":""" ++ [10] ++ bs "tr"), (used2 false), 3%nat. split; [apply reachable_used2|]. split; [vm_compute; reflexivity|].
  eapply not_cut; [vm_compute; reflexivity|discriminate].
Qed.

Print Assumptions C58_calls.
Print Assumptions C58_readval.
Print Assumptions C58_decode.
Print Assumptions C58_unmarshal.
Print Assumptions C58_reader.
Print Assumptions C58_map_refuted.
Print Assumptions C58_quoted_refuted.
