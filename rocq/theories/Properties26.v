(** C59: texts that differ only in their spelling are decoded to the same value; and a text has only one JSON value. *)
From Coq Require Import String ZArith List Bool Lia.
From Verif Require Import Base ModelIter ModelStack ModelSkip ModelInt ModelFloat ModelRead ModelOps ModelVal ModelDecoder Sim SimLib SimOps SimVal NumFacts StrFacts
  MachineFacts FloatFacts GrammarFacts IterFacts ValFacts DecFacts DecSound DecComplete Spec TreeFacts SpecSpell SpellFacts SpellVal Properties1 Properties4.
Import ListNotations.
Local Open Scope Z_scope.

(** ** One text, one value *)
Theorem C59_unambiguous l j j' : json_text l j -> json_text l j' -> j = j'.
Proof.
  intros (w & t & w2 & -> & Hw & Hv & Hw2) (w' & t' & w2' & E & Hw' & Hv' & Hw2').
  assert (A : p_tree EEOF (w ++ t ++ w2) = POk j w2).
  { apply tree_spec. exists w, t. split; [reflexivity|]. split; [exact Hw|]. split; [exact Hv|]. now apply ws_vends. }
  assert (B : p_tree EEOF (w ++ t ++ w2) = POk j' w2').
  { apply tree_spec. exists w', t'. split; [exact E|]. split; [exact Hw'|]. split; [exact Hv'|]. now apply ws_vends. }
  congruence.
Qed.
Example C59_unambiguous_ex : json_text (bs " [""A"" , 1e2]") (JArr [JStr (bs "A"); JNum (bs "1e2")]).
Proof.
  assert (T : p_tree EEOF (bs " [""A"" , 1e2]") = POk (JArr [JStr (bs "A"); JNum (bs "1e2")]) []) by (vm_compute; reflexivity).
  apply tree_spec in T. destruct T as (w & t & E & Hw & Hv & _). exists w, t, []. repeat split; auto. constructor.
Qed.
(** the texts of one JSON value are those that differ in white space and escape sequences only *)
Theorem C59_alike l l' : (exists j, json_text l j /\ json_text l' j) <-> alike_texts true l l'.
Proof.
  split.
  - intros (j & (w & t & w2 & -> & Hw & Hv & Hw2) & (w' & t' & w2' & -> & Hw' & Hv' & Hw2')).
    exists w, t, w2, w', t', w2'. repeat (split; [auto|]). exact (proj1 (value_alike true eq_refl) t j Hv t' Hv').
  - intros (w & t & w2 & w' & t' & w2' & -> & -> & Hw & Hw2 & Hw' & Hw2' & A). destruct (proj1 (alike_value true) _ _ A) as (j & Hv & Hv').
    exists j. split; [exists w, t, w2|exists w', t', w2']; auto.
Qed.

Section Typed.
Variables F32 F64 : floatOps.
Variable C : custom.
Variable E : env F32 F64 C.
Variable sf : Z -> Z.
Variable cs : bool.
Notation gval := (gval F32 F64 C).
Notation ReadVal := (ReadVal F32 F64 C E sf cs).
Notation Unmarshal := (Unmarshal F32 F64 C E sf cs).
Notation UnmarshalFromReader := (UnmarshalFromReader F32 F64 C E sf cs).
Notation Decode := (Decode F32 F64 C E sf cs).
Notation vreachable := (vreachable F32 F64 C E sf cs).
Hypothesis sane32 : float_sane F32.
Hypothesis sane64 : float_sane F64.
Variable loose : bool.
Variable P : bool -> ty -> Prop.
Hypothesis types : forall q t, P q t -> blind E loose P q t.
Hypothesis named : forall n, held E P (te_zero F32 F64 C E n).

Lemma readval_spell n T (old : gval) it it' w w' t t' r r' v x : wf it -> wf it' -> ~ dirty it' -> it_useNumber it = it_useNumber it' -> it_disallow it = it_disallow it' ->
  P false T -> held E P old -> stream it = w ++ t ++ r -> stream it' = w' ++ t' ++ r' -> ws w -> ws w' -> alike loose t t' -> ends t (fin it) r -> ends t' (fin it') r' ->
  yields (ReadVal n T old) it v x -> held E P v /\ exists u, x = u ++ r /\ Forall numchar u /\ yields (ReadVal n T old) it' v (u ++ r').
Proof.
  intros W W' D' Hn Hd PT Ho Es Es' Hw Hw' A He He' Y.
  assert (K := yields_pure _ _ _ (sim_decode F32 F64 C E (it_useNumber it) (it_disallow it) sf cs n T noOpts old) it v x W (conj eq_refl eq_refl) Y).
  rewrite Es in K.
  destruct (spell_decode F32 F64 C E (it_useNumber it) (it_disallow it) sf cs sane32 sane64 loose P types named n false T PT noOpts old eq_refl eq_refl Ho
    w w' t t' Hw Hw' A (fin it) (fin it') r r' v x He He' K) as (Hv & u & -> & Hu & K').
  split; [exact Hv|]. exists u. split; [reflexivity|]. split; [exact Hu|]. rewrite <- Es' in K'.
  assert (S := sim_ReadVal F32 F64 C E sf cs n T old it' W'). rewrite <- Hn, <- Hd in S. unfold yields.
  destruct (ModelVal.ReadVal F32 F64 C E sf cs n T old it') as [y it2]. destruct S as (_ & _ & [S|[S _]]); [|contradiction].
  rewrite K' in S. destruct S as (a & -> & <- & ->). now split.
Qed.
(** ReadVal stores the same value and leaves the input at the same place.  (A decoder for integers stops within a number such as 1.5,
    in both texts alike: [u] is then the rest of the number.) *)
Theorem C59_readval n T (old : gval) it it' w w' t t' r r' v x : vreachable it -> vreachable it' -> ~ dirty it' ->
  it_useNumber it = it_useNumber it' -> it_disallow it = it_disallow it' ->
  P false T -> held E P old -> stream it = w ++ t ++ r -> stream it' = w' ++ t' ++ r' -> ws w -> ws w' -> alike loose t t' -> ends t (fin it) r -> ends t' (fin it') r' ->
  yields (ReadVal n T old) it v x -> exists u, x = u ++ r /\ Forall numchar u /\ yields (ReadVal n T old) it' v (u ++ r').
Proof.
  intros R R' D' Hn Hd PT Ho Es Es' Hw Hw' A He He' Y.
  exact (proj2 (readval_spell n T old it it' w w' t t' r r' v x (vreachable_wf _ _ _ _ _ _ _ R) (vreachable_wf _ _ _ _ _ _ _ R') D' Hn Hd PT Ho Es Es' Hw Hw' A He He' Y)).
Qed.
Lemma numchar_ws u r : Forall numchar u -> ws (u ++ r) -> u = [].
Proof.
  intros Hu Hw. destruct u as [|c u]; [reflexivity|]. inversion Hu; subst. inversion Hw; subst. exfalso.
  unfold numchar, is_digit, is_e, is_ws in *. lia.
Qed.
Lemma unmarshal_spell n T (old : gval) it it' v : wf it -> wf it' -> ~ dirty it -> ~ dirty it' -> fin it = EEOF -> fin it' = EEOF ->
  it_useNumber it = it_useNumber it' -> it_disallow it = it_disallow it' -> P false T -> held E P old -> alike_texts loose (stream it) (stream it') ->
  fst (unmarshal F32 F64 C E sf cs n T old it) = Ok v -> fst (unmarshal F32 F64 C E sf cs n T old it') = Ok v.
Proof.
  intros W W' D D' Hf Hf' Hn Hd PT Ho (w & t & w2 & w' & t' & w2' & Es & Es' & Hw & Hw2 & Hw' & Hw2' & A) H.
  apply unmarshal_end in H; auto. destruct H as (x & Y & Hx). apply unmarshal_end; auto.
  destruct (readval_spell n T old it it' w w' t t' w2 w2' v x W W' D' Hn Hd PT Ho Es Es' Hw Hw' A) as (_ & u & -> & Hu & Y'); auto.
  - rewrite Hf. now apply ws_ends.
  - rewrite Hf'. now apply ws_ends.
  - apply numchar_ws in Hx; auto. subst u. exists w2'. now split.
Qed.
Lemma alike_texts_sym l l' : alike_texts loose l l' -> alike_texts loose l' l.
Proof.
  intros (w & t & w2 & w' & t' & w2' & Es & Es' & Hw & Hw2 & Hw' & Hw2' & A). exists w', t', w2', w, t, w2. repeat (split; [auto|]). now apply alike_sym.
Qed.
(** Unmarshal *)
Theorem C59_unmarshal n T (old : gval) data data' it it' v : vreachable it -> vreachable it' ->
  it_useNumber it = it_useNumber it' -> it_disallow it = it_disallow it' -> P false T -> held E P old -> alike_texts loose data data' ->
  (fst (Unmarshal n T old data it) = Ok v <-> fst (Unmarshal n T old data' it') = Ok v).
Proof.
  assert (G : forall data data' it it', vreachable it -> vreachable it' ->
    it_useNumber it = it_useNumber it' -> it_disallow it = it_disallow it' -> P false T -> held E P old -> alike_texts loose data data' ->
    fst (Unmarshal n T old data it) = Ok v -> fst (Unmarshal n T old data' it') = Ok v).
  { intros l l' i i' R R' Hn Hd PT Ho A. unfold ModelVal.Unmarshal. apply unmarshal_spell; auto.
    - apply wf_ResetBytes, (vreachable_wf _ _ _ _ _ _ _ R).
    - apply wf_ResetBytes, (vreachable_wf _ _ _ _ _ _ _ R').
    - apply clean_ResetBytes.
    - apply clean_ResetBytes.
    - now rewrite !stream_ResetBytes. }
  intros R R' Hn Hd PT Ho A. split; apply G; auto. now apply alike_texts_sym.
Qed.
(** UnmarshalFromReader, whatever pieces the readers deliver, and against Unmarshal *)
Theorem C59_reader n T (old : gval) rd rd' it it' v : vreachable it -> vreachable it' -> rd_fin rd = EEOF -> rd_fin rd' = EEOF ->
  it_useNumber it = it_useNumber it' -> it_disallow it = it_disallow it' -> P false T -> held E P old -> alike_texts loose (rd_data rd) (rd_data rd') ->
  (fst (UnmarshalFromReader n T old rd it) = Ok v <-> fst (UnmarshalFromReader n T old rd' it') = Ok v).
Proof.
  assert (G : forall rd rd' it it', vreachable it -> vreachable it' -> rd_fin rd = EEOF -> rd_fin rd' = EEOF ->
    it_useNumber it = it_useNumber it' -> it_disallow it = it_disallow it' -> P false T -> held E P old -> alike_texts loose (rd_data rd) (rd_data rd') ->
    fst (UnmarshalFromReader n T old rd it) = Ok v -> fst (UnmarshalFromReader n T old rd' it') = Ok v).
  { intros l l' i i' R R' Hf Hf' Hn Hd PT Ho A. unfold ModelVal.UnmarshalFromReader. apply unmarshal_spell; auto.
    - apply wf_Reset, (vreachable_wf _ _ _ _ _ _ _ R).
    - apply wf_Reset, (vreachable_wf _ _ _ _ _ _ _ R').
    - apply clean_Reset. intros [K _]. now apply K.
    - apply clean_Reset. intros [K _]. now apply K. }
  intros R R' Hf Hf' Hn Hd PT Ho A. split; apply G; auto. now apply alike_texts_sym.
Qed.
(** Texts with the same JSON value, for types that do not see the escape sequences *)
Theorem C59_value n T (old : gval) data data' it it' v j : loose = true -> vreachable it -> vreachable it' ->
  it_useNumber it = it_useNumber it' -> it_disallow it = it_disallow it' -> P false T -> held E P old -> json_text data j -> json_text data' j ->
  (fst (Unmarshal n T old data it) = Ok v <-> fst (Unmarshal n T old data' it') = Ok v).
Proof.
  intros L R R' Hn Hd PT Ho J J'. apply C59_unmarshal; auto. rewrite L. apply C59_alike. eauto.
Qed.
End Typed.

(** ** Examples and refutations *)
(** type menu struct { Size int8; Next *node; At textTime; Any interface{}; Rows map[string][2]float64; on bool } *)
Definition menuFields : list (field ty) :=
  [mkField (bs "Size") [HField 0] false false (TInt true W8);
   mkField (bs "Next") [HField 1] false false (TPtr (TRef 0));
   mkField (bs "At") [HField 2] false false (TText 1);
   mkField (bs "Any") [HField 3] false false TEface;
   mkField (bs "Rows") [HField 4] false false (TMap KString (TArray 2 TFloat64))].
Definition menuT : ty := TStruct [TInt true W8; TPtr (TRef 0); TText 1; TEface; TMap KString (TArray 2 TFloat64)] menuFields.
Definition menu0 : dval := zero _ _ _ demoE menuT.
Definition menuSet (q : bool) (T : ty) : Prop :=
  In (q, T) [(false, menuT); (false, TInt true W8); (false, TPtr (TRef 0)); (false, TRef 0); (false, nodeT); (false, TText 1); (false, TEface);
             (false, TMap KString (TArray 2 TFloat64)); (false, TArray 2 TFloat64); (false, TFloat64)].
Lemma menu_types q T : menuSet q T -> blind demoE true menuSet q T.
Proof.
  unfold menuSet. cbn [In]. intros H. repeat (destruct H as [[= <- <-]|H]; [|]); try contradiction; cbn [blind]; auto 20.
  - unfold menuFields. repeat (constructor; [cbn; auto 20|]). constructor.
  - unfold nodeT. cbn [blind]. repeat (constructor; [cbn; auto 20|]). constructor.
Qed.
Lemma demo_held P n : held demoE P (te_zero _ _ _ demoE n).
Proof. destruct n; cbn; auto. Qed.
Lemma menu0_held : held demoE menuSet menu0.
Proof. cbn. auto 10. Qed.
Definition menuText : string :=
  "{""Size"":-7,""Next"":{""v"":1,""next"":null},""At"":""now"",""Any"":[""A/"",{}],""Rows"":{""k"":[1.5,2]},""extra"":[]}".
Definition menuText2 : string :=
  " { ""Size"" : -7 , ""Next"": {""v"":  1,""next"":null },""At"":""now"", ""Any"":[""A\/"", {  }], ""Rows"":{""k"" :[1.5 , 2]},""extra"":[ ] } ".
(** checks that two texts have one value *)
Lemma tree_texts l l' j : p_tree EEOF l = POk j [] -> (exists w, p_tree EEOF l' = POk j w /\ ws w) -> json_text l j /\ json_text l' j.
Proof.
  intros T (w2 & T' & Hw2). apply tree_spec in T, T'. destruct T as (w & t & Es & Hw & Hv & _), T' as (w' & t' & Es' & Hw' & Hv' & _).
  split; [exists w, t, []|exists w', t', w2]; auto using ws_nil.
Qed.
Definition treeOf (l : bytes) : jval := match p_tree EEOF l with POk j _ => j | PErr _ => JNull end.
Lemma menu_texts : json_text (bs menuText) (treeOf (bs menuText)) /\ json_text (bs menuText2) (treeOf (bs menuText)).
Proof.
  apply tree_texts; [vm_compute; reflexivity|]. exists [32]. split; [vm_compute; reflexivity|]. now repeat constructor.
Qed.
Example C59_value_ex : (forall q T, menuSet q T -> blind demoE true menuSet q T) /\ (forall n, held demoE menuSet (te_zero _ _ _ demoE n)) /\
  menuSet false menuT /\ held demoE menuSet menu0 /\ vreachable textF textF demoC demoE noFold true (used2 false) /\
  json_text (bs menuText) (treeOf (bs menuText)) /\ json_text (bs menuText2) (treeOf (bs menuText)) /\
  exists v, fst (dUnmarshal 9 menuT menu0 (bs menuText) (used2 false)) = Ok v /\ fst (dUnmarshal 9 menuT menu0 (bs menuText2) (used2 false)) = Ok v /\ v <> menu0.
Proof.
  split; [apply menu_types|]. split; [apply demo_held|]. split; [left; reflexivity|]. split; [apply menu0_held|]. split; [apply reachable_used2|].
  split; [apply menu_texts|]. split; [apply menu_texts|]. eexists. split; [vm_compute; reflexivity|]. split; [vm_compute; reflexivity|discriminate].
Qed.
Example C59_unmarshal_ex : alike_texts true (bs menuText) (bs menuText2).
Proof. apply C59_alike. exists (treeOf (bs menuText)). apply menu_texts. Qed.
Example C59_reader_ex : rd_fin (pieces menuText) = EEOF /\ alike_texts true (rd_data (pieces menuText)) (rd_data (pieces menuText2)) /\
  fst (UnmarshalFromReader textF textF demoC demoE noFold true 9 menuT menu0 (pieces menuText) (used2 false)) =
  fst (UnmarshalFromReader textF textF demoC demoE noFold true 9 menuT menu0 (mkReader (bs menuText2) [(1%nat, false); (0%nat, false)] EEOF) (used2 false)).
Proof. split; [reflexivity|]. split; [apply C59_unmarshal_ex|]. vm_compute. reflexivity. Qed.
(** white space alone: also for numbers in quotes, json.Number and []byte *)
Definition billFields : list (field ty) :=
  [mkField (bs "id") [HField 0] true false (TInt true W8); mkField (bs "Data") [HField 1] false false (TSlice (TInt false W8));
   mkField (bs "Sum") [HField 2] false false TNumber; mkField (bs "By") [HField 3] false false (TMap (KInt true W8) TBool)].
Definition billT : ty := TStruct [TInt true W8; TSlice (TInt false W8); TNumber; TMap (KInt true W8) TBool] billFields.
Definition billSet (q : bool) (T : ty) : Prop :=
  In (q, T) [(false, billT); (true, TInt true W8); (false, TSlice (TInt false W8)); (false, TInt false W8); (false, TNumber); (false, TMap (KInt true W8) TBool); (false, TBool)].
Lemma bill_types q T : billSet q T -> blind demoE false billSet q T.
Proof.
  unfold billSet. cbn [In]. intros H. repeat (destruct H as [[= <- <-]|H]; [|]); try contradiction; cbn [blind];
    try (split; [auto 20|discriminate]); try discriminate; auto 20.
  unfold billFields. repeat (constructor; [cbn; auto 20|]). constructor.
Qed.
Definition billText : string := "{""id"":""-7"",""Data"":""aGV5"",""Sum"":""1"",""By"":{""2"":true}}".
Definition billText2 : string := "{ ""id"": ""-7"" ,""Data"":""aGV5"" ,  ""Sum"":""1"",""By"":{""2"" : true }}".
Lemma same_plain b : Forall (fun c => 32 <= c < 128 /\ c <> 34 /\ c <> 92) b -> same_string false b b.
Proof.
  intros H. exists b. assert (S : string_body b b); [|auto]. exists (map UByte b). induction H as [|c b H Hb [IH IE]]; [split; [constructor|reflexivity]|].
  split; [constructor; auto; apply H|]. cbn [map denote]. now rewrite <- IE.
Qed.
Lemma bill_alike : alike false (bs billText) (bs billText2).
Proof.
  assert (W1 : ws [32]) by now repeat constructor. assert (W2 : ws [32; 32]) by now repeat constructor. assert (W0 := ws_nil).
  apply (ak_obj false (bs """id"":""-7"",""Data"":""aGV5"",""Sum"":""1"",""By"":{""2"":true}") (bs " ""id"": ""-7"" ,""Data"":""aGV5"" ,  ""Sum"":""1"",""By"":{""2"" : true }")).
  apply (am_cons false [] (bs "id") [] [] (bs """-7""") [] _ [32] (bs "id") [] [32] (bs """-7""") [32] (bs """Data"":""aGV5"" ,  ""Sum"":""1"",""By"":{""2"" : true }")); auto.
  { apply same_plain. repeat constructor; discriminate. }
  { apply (ak_str false (bs "-7") (bs "-7")). apply same_plain. repeat constructor; discriminate. }
  apply (am_cons false [] (bs "Data") [] [] (bs """aGV5""") [] _ [] (bs "Data") [] [] (bs """aGV5""") [32] (bs "  ""Sum"":""1"",""By"":{""2"" : true }")); auto.
  { apply same_plain. repeat constructor; discriminate. }
  { apply (ak_str false (bs "aGV5") (bs "aGV5")). apply same_plain. repeat constructor; discriminate. }
  apply (am_cons false [] (bs "Sum") [] [] (bs """1""") [] _ [32; 32] (bs "Sum") [] [] (bs """1""") [] (bs """By"":{""2"" : true }")); auto.
  { apply same_plain. repeat constructor; discriminate. }
  { apply (ak_str false (bs "1") (bs "1")). apply same_plain. repeat constructor; discriminate. }
  apply (am_one false [] (bs "By") [] [] (bs "{""2"":true}") [] [] (bs "By") [] [] (bs "{""2"" : true }") []); auto.
  { apply same_plain. repeat constructor; discriminate. }
  apply (ak_obj false (bs """2"":true") (bs """2"" : true ")).
  apply (am_one false [] (bs "2") [] [] (bs "true") [] [] (bs "2") [32] [32] (bs "true") [32]); auto.
  { apply same_plain. repeat constructor; discriminate. }
  constructor.
Qed.
Example C59_readval_ex : (forall q T, billSet q T -> blind demoE false billSet q T) /\ billSet false billT /\ held demoE billSet (zero _ _ _ demoE billT) /\
  let l := billText in let l' := billText2 in
  alike false (bs l) (bs l') /\ ends (bs l) EEOF (bs " x") /\
  exists v, yields (dReadVal 9 billT (zero _ _ _ demoE billT)) (smallv false (l ++ " x")) v (bs " x") /\
            yields (dReadVal 9 billT (zero _ _ _ demoE billT)) (smallv false ("  " ++ l' ++ ",")) v (bs ",") /\ v <> zero _ _ _ demoE billT.
Proof.
  split; [apply bill_types|]. split; [left; reflexivity|]. split; [cbn; auto 10|]. cbv zeta. split; [|split].
  - apply bill_alike.
  - apply sep_ends. eexists _, _. split; [reflexivity|]. left. now left.
  - eexists. split; [split; vm_compute; reflexivity|]. split; [split; vm_compute; reflexivity|]. discriminate.
Qed.

(** What the restrictions are for.  In the texts of the same value below the second has escape sequences.  The decoders for []byte, for json.Number,
    for the option string and for integer keys take what stands between the quotes as it is, and refuse them. *)
Definition spellings : list (ty * dval * string * string) :=
  [(TSlice (TInt false W8), VSlice None, """////""", """\/\/\/\/""");
   (TNumber, VStr [], """12""", """1\u0032""");
   (TMap (KInt true W8) TBool, VMap None, "{""1"":true}", "{""\u0031"":true}");
   (outerT, zero _ _ _ demoE outerT, "{""on"":""true""}", "{""on"":""\u0074rue""}")]%string.
Theorem C59_escapes_refuted : Forall (fun '(T, old, l, l') => (exists j, json_text (bs l) j /\ json_text (bs l') j) /\
  exists n it v e, vreachable textF textF demoC demoE noFold true it /\ fst (dUnmarshal n T old (bs l) it) = Ok v /\
    fst (dUnmarshal n T old (bs l') it) = Err e /\ e <> EOther (-2)) spellings.
Proof.
  repeat (constructor; [split; [eexists; apply tree_texts; [vm_compute; reflexivity|]; exists []; split; [vm_compute; reflexivity|constructor]|];
    exists 5%nat, (used2 false); do 2 eexists; split; [apply reachable_used2|]; split; [vm_compute; reflexivity|]; split; [vm_compute; reflexivity|discriminate]|]).
  constructor.
Qed.
(** json.RawMessage keeps the text as it is, with its white space *)
Theorem C59_raw_refuted : exists l l' v v', alike_texts false l l' /\ (exists n it, vreachable textF textF demoC demoE noFold true it /\
  fst (dUnmarshal n TRaw (VRaw None) l it) = Ok v /\ fst (dUnmarshal n TRaw (VRaw None) l' it) = Ok v') /\ v <> v'.
Proof.
  exists (bs "[]"), (bs "[ ]"). do 2 eexists. split; [|split].
  - exists [], (bs "[]"), [], [], (bs "[ ]"), []. repeat (split; [auto using ws_nil|]). apply (ak_arr0 false [] [32]); now repeat constructor.
  - exists 3%nat, (used2 false). split; [apply reachable_used2|]. split; vm_compute; reflexivity.
  - discriminate.
Qed.

Print Assumptions C59_unambiguous.
Print Assumptions C59_alike.
Print Assumptions C59_readval.
Print Assumptions C59_unmarshal.
Print Assumptions C59_reader.
Print Assumptions C59_value.
Print Assumptions C59_escapes_refuted.
Print Assumptions C59_raw_refuted.
