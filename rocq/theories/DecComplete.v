(** Typed decoding accepts everything that the specification allows. *)
From Coq Require Import String ZArith List Bool Lia Arith.
From Verif Require Import Base ModelIter ModelStack ModelSkip ModelStr ModelInt ModelFloat ModelRead ModelIterate ModelOps
  ModelFold ModelBase64 Spec Sim SimLib SimSkip SimRaw SimStr SimInt SimFloat SimRead SimIterate SimOps
  NumFacts StrFacts MachineFacts FloatFacts GrammarFacts IntFacts IterateFacts IterFacts SpecBase64 Base64Facts
  FoldFacts ModelVal SimVal SpecVal DecFacts DecSound.
Import ListNotations.
Local Open Scope Z_scope.

(** a number must end where its text ends *)
Definition ends (t : bytes) (f : err) (r : bytes) : Prop := number t -> num_ends t f r.
Lemma ends_vends t j f r : ends t f r -> value t j -> vends t j f r.
Proof. intros H Hv. destruct j; simpl; auto. apply H. now inversion Hv. Qed.
Lemma sep_ends t f r : sep r -> ends t f r.
Proof. intros H _. exact (sep_vends t (JNum t) f r H). Qed.
Lemma quote_ends t f r : num_ends t f (34 :: r).
Proof. apply num_ends_sep. unfold is_ws, is_digit, is_e in *. lia. Qed.

Section Dec.
Variables F32 F64 : floatOps.
Variable C : custom.
Notation gval := (gval F32 F64 C).
Variable E : env F32 F64 C.
Notation zero := (zero F32 F64 C E).
Notation under := (under F32 F64 C E).
Variables b d : bool.
Variable sf : Z -> Z.
Variable cs : bool.
Hypothesis sane32 : float_sane F32.
Hypothesis sane64 : float_sane F64.
Notation lookup := (findField sf cs).
Notation decodes := (decodes F32 F64 C E lookup b d).
Notation elems := (elems F32 F64 C E lookup b d).
Notation overwrite := (overwrite F32 F64 C E lookup b d).
Notation entries := (entries F32 F64 C E lookup b d).
Notation members := (members F32 F64 C E lookup b d).
Notation at_path := (at_path F32 F64 C E lookup b d).
Notation pdecoder := (pdecoder F32 F64 C).
Notation pd := (p_decode F32 F64 C E b d sf cs).

(** ** The first byte of a text *)
Definition starts (t : bytes) : Prop := exists c t', t = c :: t' /\ ~ is_ws c /\ c <> 93 /\ c <> 125 /\ c <> 44 /\
  (c = 110 -> t = bs "null").
Lemma starts_num t : number t -> starts t.
Proof.
  intros H. destruct (number_first _ H) as (c & t' & -> & Hc). exists c, t'. unfold is_digit, is_ws in *.
  repeat split; auto; try lia.
Qed.
Lemma starts_value t j : value t j -> starts t.
Proof.
  intros H. destruct (value_first _ _ H) as (c & t' & -> & H1 & H2 & H3 & H4 & _). exists c, t'. repeat (split; auto).
  intros ->. apply value_leaf in H; try lia. unfold is_digit in H.
  destruct H as [(H & _)|[(_ & -> & _)|[(H & _)|[(H & _)|(H & _)]]]]; try lia. reflexivity.
Qed.
Lemma starts_lit c t : ~ is_ws c -> c <> 93 -> c <> 125 -> c <> 44 -> c <> 110 -> starts (c :: t).
Proof. intros. exists c, t. repeat (split; auto). congruence. Qed.
Lemma starts_quote x : starts (quote x).
Proof. apply starts_lit; unfold is_ws; lia. Qed.
Lemma starts_null : starts (bs "null").
Proof. exists 110, (bs "ull"). split; [reflexivity|]. unfold is_ws. repeat (split; [lia|]). reflexivity. Qed.
Lemma array_starts t ts : array_text t ts -> starts t.
Proof. intros []; apply starts_lit; unfold is_ws; lia. Qed.
Lemma object_starts t ts : object_text t ts -> starts t.
Proof. intros []; apply starts_lit; unfold is_ws; lia. Qed.
Lemma decodes_starts T o old t v : decodes T o old t v -> starts t.
Proof.
  induction 1; auto using starts_num, starts_quote, starts_null; eauto using starts_value, array_starts, object_starts;
    try solve [apply starts_num; eapply int_text_number; eauto]; try solve [apply starts_lit; unfold is_ws; lia].
  - apply (starts_lit 116 (bs "rue")); unfold is_ws; lia.
  - apply (starts_lit 102 (bs "alse")); unfold is_ws; lia.
Qed.
Lemma key_starts k t kk : key_text C k t kk -> starts t.
Proof. induction 1; auto using starts_quote, starts_null. Qed.

(** ** Leaves *)
Definition compl (T : ty) (o : decOpts) (old : gval) (t : bytes) (v : gval) : Prop :=
  exists n0, forall n, (n0 <= n)%nat -> forall f w r, ws w -> ends t f r -> pd n T o old f (w ++ t ++ r) = POk v r.
Lemma next_lit c f w l A (k : Z -> P A) : ws w -> is_space c = false -> pbind p_nextToken k f (w ++ c :: l) = k c f (c :: l).
Proof. intros Hw Hc. apply next_run; auto. now apply is_space_nws. Qed.
Ltac deep := exists 1%nat; let n := fresh "n" in let H := fresh in intros n H; destruct n as [|n]; [lia|clear H]; cbn [p_decode].
Ltac null_tac := intros f w r Hw _; change (w ++ bs "null" ++ r) with (w ++ 110 :: bs "ull" ++ r);
  rewrite next_lit by auto; cbv iota beta;
  try exact (null_run F32 F64 C _ f r).
Lemma null_bool o old : compl TBool o old (bs "null") old.
Proof. deep. unfold p_boolDecoder. null_tac. Qed.
Lemma null_int s w0 o old : compl (TInt s w0) o old (bs "null") old.
Proof. deep. unfold p_intDecoder. null_tac. Qed.
Lemma null_float32 o old : compl TFloat32 o old (bs "null") old.
Proof. deep. unfold p_floatDecoder. null_tac. Qed.
Lemma null_float64 o old : compl TFloat64 o old (bs "null") old.
Proof. deep. unfold p_floatDecoder. null_tac. Qed.
Lemma null_string o old : compl TString o old (bs "null") old.
Proof. deep. unfold p_stringDecoder. null_tac. Qed.
Lemma null_number o old : compl TNumber o old (bs "null") old.
Proof. deep. unfold p_jsonNumberDecoder. null_tac. Qed.
Lemma null_text id o old : compl (TText id) o old (bs "null") old.
Proof. deep. unfold p_textUnmarshalerDecoder. null_tac. Qed.
Lemma null_array k T o old : compl (TArray k T) o old (bs "null") old.
Proof. deep. unfold p_arrayDecoder. null_tac. Qed.
Lemma null_struct l fs o old : compl (TStruct l fs) o old (bs "null") old.
Proof.
  deep. destruct fs as [|fd0 fs]; [unfold p_emptyObjectDecoder|unfold p_structDecoder]; null_tac.
Qed.
Lemma null_ptr T o old : compl (TPtr T) o old (bs "null") (VPtr None).
Proof. deep. unfold p_pointerDecoder. null_tac. Qed.
Lemma null_slice T o old : compl (TSlice T) o old (bs "null") (VSlice None).
Proof. deep. unfold p_sliceDecoder. null_tac. Qed.
Lemma decodable_some k : decodable_key k -> exists kp, p_keyDecoder F32 F64 C k = Some kp.
Proof. destruct k as [| |[] [] mar]; simpl; eauto; contradiction. Qed.
Lemma null_map k T o old : decodable_key k -> compl (TMap k T) o old (bs "null") (VMap None).
Proof. intros HR. deep. destruct (decodable_some k HR) as (kp & ->). unfold p_mapDecoder. null_tac. Qed.
Lemma null_iface o old : compl TIface o old (bs "null") (VIface None).
Proof. deep. unfold p_ifaceDecoder. null_tac. Qed.
Lemma null_all T o old : null_keeps T = true -> compl T o old (bs "null") old.
Proof.
  destruct T; try discriminate; intros _;
  auto using null_bool, null_int, null_float32, null_float64, null_string, null_number, null_text, null_array, null_struct.
Qed.

Lemma c_true o old : compl TBool o old (bs "true") (VBool true).
Proof.
  deep. intros f w r Hw _. unfold p_boolDecoder.
  change (w ++ bs "true" ++ r) with (w ++ 116 :: bs "rue" ++ r). rewrite next_lit by auto.
  cbv iota beta. change (116 =? c_n) with false. change (116 =? c_t) with true. cbv iota. rewrite inc_run. apply expect_spec; auto. discriminate.
Qed.
Lemma c_false o old : compl TBool o old (bs "false") (VBool false).
Proof.
  deep. intros f w r Hw _. unfold p_boolDecoder.
  change (w ++ bs "false" ++ r) with (w ++ 102 :: bs "alse" ++ r). rewrite next_lit by auto.
  cbv iota beta. change (102 =? c_n) with false. change (102 =? c_t) with false. change (102 =? c_f) with true. cbv iota.
  rewrite inc_run. apply expect_spec; auto. discriminate.
Qed.
Lemma c_quoted o old w0 c u v : o_quoted o = true -> ws w0 ->
  (c = 116 /\ u = bs "rue" /\ v = VBool true) \/ (c = 102 /\ u = bs "alse" /\ v = VBool false) \/ (c = 110 /\ u = bs "ull" /\ v = old) ->
  compl TBool o old (quote (w0 ++ c :: u)) v.
Proof.
  intros Ho H0 Hc. deep. intros f w r Hw _. unfold p_boolDecoder. rewrite quote_app.
  rewrite next_lit by auto. cbv iota beta. change (34 =? c_n) with false. change (34 =? c_t) with false. change (34 =? c_f) with false.
  change (34 =? cQUOTE) with true. rewrite Ho. cbv iota beta delta [negb]. rewrite inc_run.
  replace ((w0 ++ c :: u) ++ 34 :: r) with (w0 ++ c :: (u ++ [34]) ++ r) by app_eq.
  destruct Hc as [(-> & -> & ->)|[(-> & -> & ->)|(-> & -> & ->)]]; rewrite next_lit by auto; rewrite inc_run;
    (apply expect_spec; auto; discriminate).
Qed.
Lemma c_string o old x s : o_quoted o = false -> string_body x s -> compl TString o old (quote x) (VStr s).
Proof.
  intros Ho Hx. deep. intros f w r Hw _. unfold p_stringDecoder. rewrite quote_app.
  rewrite next_lit by auto. change (34 =? cQUOTE) with true. cbv iota beta. rewrite inc_run.
  assert (Hr : p_readStringAsSlice f (x ++ 34 :: r) = POk s r) by (apply readString_spec; eauto).
  rewrite (pbind_run _ _ _ _ s r Hr). now rewrite Ho.
Qed.
Lemma quote_ends_nth x : nth 0 (quote x) 0 = 34 /\ nth (length (quote x) - 1) (quote x) 0 = 34.
Proof. split; auto. unfold quote. change (34 :: x ++ [34]) with ((34 :: x) ++ [34]). apply nth_last. Qed.
Lemma c_quoted_string o old x x' s : o_quoted o = true -> string_body x (quote x') -> string_body x' s ->
  compl TString o old (quote x) (VStr s).
Proof.
  intros Ho Hx Hs. deep. intros f w r Hw _. unfold p_stringDecoder. rewrite quote_app.
  rewrite next_lit by auto. change (34 =? cQUOTE) with true. cbv iota beta. rewrite inc_run.
  assert (Hr : p_readStringAsSlice f (x ++ 34 :: r) = POk (quote x') r) by (apply readString_spec; eauto).
  rewrite (pbind_run _ _ _ _ _ r Hr). rewrite Ho. cbv iota beta delta [negb].
  destruct (quote_ends_nth x') as [H0 H1]. rewrite H0, H1.
  assert (Hq : p_readQuoted (quote x') = Some s) by (apply readQuoted_spec; eauto). rewrite Hq.
  assert (Hl : (length (quote x') <? 2)%nat = false).
  { apply Nat.ltb_ge. unfold quote. simpl. rewrite app_length. simpl. lia. }
  rewrite Hl. reflexivity.
Qed.
Lemma c_quoted_string_null o old x : o_quoted o = true -> string_body x (bs "null") -> compl TString o old (quote x) old.
Proof.
  intros Ho Hx. deep. intros f w r Hw _. unfold p_stringDecoder. rewrite quote_app.
  rewrite next_lit by auto. change (34 =? cQUOTE) with true. cbv iota beta. rewrite inc_run.
  assert (Hr : p_readStringAsSlice f (x ++ 34 :: r) = POk (bs "null") r) by (apply readString_spec; eauto).
  rewrite (pbind_run _ _ _ _ _ r Hr). now rewrite Ho.
Qed.
Lemma digit_not_n c : c = 45 \/ is_digit c -> (c =? c_n) = false.
Proof. intros H. apply Z.eqb_neq. unfold is_digit in H. lia. Qed.
Lemma c_int s w0 o old t z : o_quoted o = false -> o_mapKey o = false -> int_text s t z -> in_range s w0 z ->
  compl (TInt s w0) o old t (VInt z).
Proof.
  intros Ho Hm Ht Hz. deep. intros f w r Hw He. unfold p_intDecoder.
  destruct (int_text_first _ _ _ Ht) as (c & t' & -> & Hc). simpl app. rewrite next_run by (auto using digit_nows).
  rewrite (digit_not_n c Hc), Ho, Hm. simpl orb. cbv iota. rewrite (pbind_run _ _ _ _ c (c :: t' ++ r)) by reflexivity.
  rewrite inc_run. rewrite (pbind_run _ _ _ _ z r); auto. apply intOf_complete; auto. apply He. eapply int_text_number; eauto.
Qed.
Lemma c_quoted_int s w0 o old t z : o_quoted o = true \/ o_mapKey o = true -> int_text s t z -> in_range s w0 z ->
  compl (TInt s w0) o old (quote t) (VInt z).
Proof.
  intros Ho Ht Hz. deep. intros f w r Hw _. unfold p_intDecoder. rewrite quote_app.
  destruct (int_text_first _ _ _ Ht) as (c & t' & -> & Hc). simpl app. rewrite next_lit by auto.
  change (34 =? c_n) with false. cbv iota. apply orb_true_iff in Ho. rewrite Ho.
  change (negb (34 =? cQUOTE)) with false. cbv iota. rewrite (pbind_run _ _ _ _ c (c :: t' ++ 34 :: r)) by (now rewrite inc_run).
  rewrite inc_run. rewrite (pbind_run _ _ _ _ z (34 :: r)).
  2:{ apply intOf_complete; auto. apply quote_ends. }
  rewrite (pbind_run _ _ _ _ 34 (34 :: r)) by reflexivity. change (negb (34 =? cQUOTE)) with false. cbv iota. now rewrite inc_run.
Qed.
Lemma c_float F (sane : float_sane F) inj T o old t x : (forall n, pd (S n) T = p_floatDecoder F32 F64 C F inj) ->
  number t -> fl_parse F t = inl x -> compl T o old t (inj x).
Proof.
  intros HT Hn Hx. exists 1%nat; intros n Hm; destruct n as [|n]; [lia|]; rewrite HT. intros f w r Hw He. unfold p_floatDecoder.
  destruct (number_first _ Hn) as (c & t' & -> & Hc). simpl app. rewrite next_run by (auto using digit_nows).
  rewrite (digit_not_n c Hc). apply bind_ret. exists x. split; auto. apply ReadFloat_spec; auto.
  exists [], (c :: t'). split; auto. split; [apply ws_nil|]. auto.
Qed.
Lemma c_number o old t : number t -> compl TNumber o old t (VStr t).
Proof.
  intros Hn. deep. intros f w r Hw He. unfold p_jsonNumberDecoder.
  destruct (number_first _ Hn) as (c & t' & -> & Hc). simpl app. rewrite next_run by (auto using digit_nows).
  rewrite (digit_isNumber c Hc). rewrite inc_run. apply bind_ret. exists (c :: t'). split; auto.
  apply capturedNumber; auto. exists t'. auto.
Qed.
Lemma c_number_string o old t : number t -> compl TNumber o old (quote t) (VStr t).
Proof.
  intros Hn. deep. intros f w r Hw _. unfold p_jsonNumberDecoder. rewrite quote_app.
  destruct (number_first _ Hn) as (c & t' & -> & Hc). rewrite next_lit by auto. change (valueTypeMap 34) with StringValue. cbv iota.
  rewrite inc_run. rewrite (pbind_run _ _ _ _ c ((c :: t') ++ 34 :: r)) by reflexivity.
  rewrite (digit_isNumber c Hc). change (negb (isNumberValue NumberValue)) with false. cbv iota. simpl app. rewrite inc_run.
  rewrite (pbind_run _ _ _ _ (c :: t') (34 :: r)).
  2:{ apply capturedNumber; auto. exists t'. split; auto. split; auto. split; auto. apply quote_ends. }
  rewrite (pbind_run _ _ _ _ 34 (34 :: r)) by reflexivity. change (negb (34 =? cQUOTE)) with false. cbv iota. now rewrite inc_run.
Qed.
Lemma c_raw o old t j : value t j -> compl TRaw o old t (VRaw (Some t)).
Proof.
  intros Hj. deep. intros f w r Hw He. unfold p_jsonRawMessageDecoder.
  apply bind_ret. exists t. split; auto. apply AppendRaw_spec. exists w, j. repeat split; auto. now apply ends_vends.
Qed.
Lemma c_json id o x t j x' : value t j -> cu_json C id x t = inl x' -> compl (TJson id) o (VObj x) t (VObj x').
Proof.
  intros Hj Hx. deep. intros f w r Hw He. unfold p_jsonUnmarshalerDecoder.
  rewrite (pbind_run _ _ _ _ t r); [simpl; now rewrite Hx|].
  apply SkipRaw_spec. exists w, j. repeat split; auto. now apply ends_vends.
Qed.
Lemma c_text id o x y s x' : string_body y s -> cu_text C id x s = inl x' -> compl (TText id) o (VObj x) (quote y) (VObj x').
Proof.
  intros Hy Hx. deep. intros f w r Hw He. unfold p_textUnmarshalerDecoder. rewrite quote_app.
  rewrite next_lit by auto. change (34 =? cQUOTE) with true. cbv iota. rewrite inc_run.
  rewrite (pbind_run _ _ _ _ s r); [simpl; now rewrite Hx|]. apply readString_spec. eauto.
Qed.

(** ** Composite types *)
Lemma starts_next t f w r A (k : Z -> P A) : starts t -> ws w -> exists c t', t = c :: t' /\ ~ is_ws c /\ c <> 93 /\ c <> 125 /\ c <> 44 /\
  (c = 110 -> t = bs "null") /\ pbind p_nextToken k f (w ++ t ++ r) = k c f (t ++ r).
Proof.
  intros (c & t' & -> & Hc & H1 & H2 & H3 & H4) Hw. exists c, t'. repeat (split; auto). simpl app. now apply next_run.
Qed.
Lemma not_n c t : (c = 110 -> t = bs "null") -> t <> bs "null" -> (c =? c_n) = false.
Proof. intros H Hn. apply Z.eqb_neq. tauto. Qed.
Lemma c_ptr T o q t v : t <> bs "null" -> starts t ->
  compl T o (match q with Some x => x | None => zero T end) t v -> compl (TPtr T) o (VPtr q) t (VPtr (Some v)).
Proof.
  intros Hn Hs (n0 & IH). exists (S n0). intros n Hl f w r Hw He. destruct n as [|n]; [lia|]. cbn [p_decode]. unfold p_pointerDecoder.
  edestruct (starts_next t f w r gval) as (c & t' & -> & Hc & _ & _ & _ & H4 & ->); auto.
  rewrite (not_n _ _ H4 Hn). apply bind_ret. exists v. split; auto. apply (IH n ltac:(lia) f [] r); auto. apply ws_nil.
Qed.
Lemma c_eface_held o P T x t v : under P = TPtr T -> t <> bs "null" -> starts t -> compl T noOpts x t v ->
  compl TEface o (VIface (Some (P, VPtr (Some x)))) t (VIface (Some (P, VPtr (Some v)))).
Proof.
  intros HP Hn Hs (n0 & IH). exists (S n0). intros n Hl f w r Hw He. destruct n as [|n]; [lia|]. cbn [p_decode]. unfold p_efaceDecoder.
  cbn [heldPtr]. rewrite HP.
  edestruct (starts_next t f w r gval) as (c & t' & -> & Hc & _ & _ & _ & H4 & ->); auto.
  rewrite (not_n _ _ H4 Hn). apply bind_ret. exists v. split; auto. apply (IH n ltac:(lia) f [] r); auto. apply ws_nil.
Qed.
Lemma c_iface_held o P T x t v : under P = TPtr T -> t <> bs "null" -> starts t -> compl T noOpts x t v ->
  compl TIface o (VIface (Some (P, VPtr (Some x)))) t (VIface (Some (P, VPtr (Some v)))).
Proof.
  intros HP Hn Hs (n0 & IH). exists (S n0). intros n Hl f w r Hw He. destruct n as [|n]; [lia|]. cbn [p_decode]. unfold p_ifaceDecoder.
  edestruct (starts_next t f w r gval) as (c & t' & -> & Hc & _ & _ & _ & H4 & ->); auto.
  rewrite (not_n _ _ H4 Hn), HP. apply bind_ret. exists v. split; auto. apply (IH n ltac:(lia) f [] r); auto. apply ws_nil.
Qed.
Lemma c_eface o x t j v : (forall P T y, x = Some (P, VPtr (Some y)) -> under P <> TPtr T) ->
  value t j -> iface_of F32 F64 C b j = Some v -> compl TEface o (VIface x) t v.
Proof.
  intros Hx Hj Hv. deep. intros f w r Hw He. unfold p_efaceDecoder.
  assert (Hh : heldPtr F32 F64 C E x = None).
  { destruct (heldPtr F32 F64 C E x) as [[T y]|] eqn:Eh; auto. apply heldPtr_some in Eh. destruct Eh as (P & -> & HP).
    exfalso. eapply Hx; eauto. }
  rewrite Hh. rewrite iface_gconv in Hv. destruct (gconv F64 b j) as [g|] eqn:Eg; [|discriminate]. injection Hv as <-.
  apply bind_ret. exists g. split; auto. apply Read_conv; auto. exists w, t, j. repeat split; auto. now apply ends_vends.
Qed.
Lemma c_eface_null o P T x : under P = TPtr T -> (forall T', under T <> TPtr T') ->
  compl TEface o (VIface (Some (P, VPtr (Some x)))) (bs "null") (VIface None).
Proof.
  intros HP HT. deep. unfold p_efaceDecoder. cbn [heldPtr]. rewrite HP.
  replace (isPtr F32 F64 C E T) with false by (unfold isPtr; destruct (under T) eqn:Eu; auto; exfalso; eapply HT; eauto).
  null_tac.
Qed.
Lemma c_eface_null_ptr o P T T' x : under P = TPtr T -> under T = TPtr T' ->
  compl TEface o (VIface (Some (P, VPtr (Some x)))) (bs "null") (VIface (Some (TPtr T, VPtr (Some (VPtr None))))).
Proof.
  intros HP HT. deep. unfold p_efaceDecoder. cbn [heldPtr]. rewrite HP.
  replace (isPtr F32 F64 C E T) with true by (unfold isPtr; now rewrite HT). null_tac.
Qed.
Lemma c_ref m o old t v : compl (te_type _ _ _ E m) o old t v -> compl (TRef m) o old t v.
Proof. intros (n0 & IH). exists (S n0). intros n Hl. destruct n as [|n]; [lia|]. apply (IH n). lia. Qed.
Lemma c_bytes T o old x s data : under T = TInt false W8 -> string_body x s -> base64_lax data x ->
  compl (TSlice T) o old (quote x) (VSlice (Some (map VInt data))).
Proof.
  intros HT Hx Hd. deep. intros f w r Hw _. unfold p_sliceDecoder. rewrite quote_app, next_lit by auto.
  change (34 =? c_n) with false. change (34 =? cQUOTE) with true. rewrite HT. change (negb true) with false. cbv iota.
  unfold p_readBase64. rewrite inc_run. rewrite (pbind_run _ _ _ _ x r) by (apply body_spec; eauto).
  assert (Hb : b64decode x = Some data) by (apply b64decode_spec; now rewrite (body_no_breaks _ _ Hx)). now rewrite Hb.
Qed.

(** the loops *)
Definition complE (T : ty) (ts : list bytes) (vs : list gval) : Prop :=
  exists n0, forall n, (n0 <= n)%nat -> forall body m acc f r, items body ts -> lt (length (body ++ 93 :: r)) m ->
  p_sliceLoop F32 F64 C m (zero T) (pd n T) acc f (body ++ 93 :: r) = POk (acc ++ vs) r.
Definition complO (T : ty) (a : list gval) (ts : list bytes) (vs : list gval) : Prop :=
  exists n0, forall n, (n0 <= n)%nat -> forall a1 body m f r, items body ts -> lt (length (body ++ 93 :: r)) m ->
  exists st, p_arrayLoop F32 F64 C m (pd n T) (length a1) (a1 ++ a) f (body ++ 93 :: r) = POk st r /\
    firstn (fst st) (snd st) ++ repeat (zero T) (length (a1 ++ a) - fst st) = a1 ++ vs.
Definition complN (k : kty) (T : ty) (mm : list (key * gval)) (ps : list (bytes * bytes)) (mm' : list (key * gval)) : Prop :=
  forall kp, p_keyDecoder F32 F64 C k = Some kp -> exists n0, forall n, (n0 <= n)%nat -> forall body m f r, pairs body ps -> lt (length (body ++ 125 :: r)) m ->
  p_mapLoop F32 F64 C m k kp (zero T) (pd n T) mm f (body ++ 125 :: r) = POk mm' r.
Definition complM (fs : list (field ty)) (v : gval) (ps : list (bytes * bytes)) (v' : gval) : Prop :=
  exists n0, forall n, (n0 <= n)%nat -> forall body f r, pairs body ps ->
  exists w0 l0, body = w0 ++ 34 :: l0 /\ ws w0 /\ forall m, lt (length (l0 ++ 125 :: r)) m ->
    p_structLoop F32 F64 C E d m (lookup (map f_name fs)) (infos F32 F64 C (pd n) fs) v f (l0 ++ 125 :: r) = POk v' r.
Definition complP (path : list (hop ty)) (T : ty) (o : decOpts) (v : gval) (t : bytes) (v' : gval) : Prop :=
  exists n0, forall n, (n0 <= n)%nat -> forall f w r, ws w -> ends t f r ->
  p_follow F32 F64 C E path (pd n T o) v f (w ++ t ++ r) = POk v' r.

Ltac seps := match goal with |- ends _ _ (?w ++ ?c :: ?r) => apply sep_ends, ws_sep; auto end.
Lemma cE_next T t ts v vs : compl T noOpts (zero T) t v -> elems T ts vs -> complE T ts vs -> complE T (t :: ts) (v :: vs).
Proof.
  intros (n1 & H1) Hel (n2 & H2). exists (Nat.max n1 n2). intros n Hn body m acc f r Hb Hm.
  destruct m as [|m]; [lia|]. cbn [p_sliceLoop]. inversion Hb as [w1 t0 w2 Hw1 Hw2|w1 t0 w2 b2 ts0 Hw1 Hw2 Hb2]; subst.
  - replace ((w1 ++ t ++ w2) ++ 93 :: r) with (w1 ++ t ++ w2 ++ 93 :: r) by app_eq.
    rewrite (pbind_run _ _ _ _ v (w2 ++ 93 :: r)).
    2:{ apply (H1 n); auto; [lia|seps]. }
    rewrite next_lit by auto. rewrite inc_run. inversion Hel; subst. reflexivity.
  - replace ((w1 ++ t ++ w2 ++ 44 :: b2) ++ 93 :: r) with (w1 ++ t ++ w2 ++ 44 :: b2 ++ 93 :: r) in * by app_eq.
    rewrite (pbind_run _ _ _ _ v (w2 ++ 44 :: b2 ++ 93 :: r)).
    2:{ apply (H1 n); auto; [lia|seps]. }
    rewrite next_lit by auto. rewrite inc_run. change (44 =? cRBRACK) with false. change (negb (44 =? cCOMMA)) with false. cbv iota.
    rewrite (H2 n); auto; [|lia|]. 2:{ rewrite !app_length in Hm. cbn [length] in Hm. lia. }
    now rewrite <- app_assoc.
Qed.
Lemma cE_nil T : complE T [] [].
Proof. exists 0%nat. intros n _ body m acc f r Hb. inversion Hb. Qed.
Lemma cO_zero T a : complO T a [] (repeat (zero T) (length a)).
Proof. exists 0%nat. intros n _ a1 body m f r Hb. inversion Hb. Qed.
Lemma cO_skip T ts : Forall (fun t => exists j, value t j) ts -> complO T [] ts [].
Proof.
  intros Hts. exists 0%nat. intros n _ a1 body m f r Hb Hm. exists (length a1, a1 ++ []).
  split; [|simpl; rewrite app_nil_r, Nat.sub_diag, firstn_all; now rewrite app_nil_r].
  revert body m Hb Hm. induction Hts as [|t ts (j & Hj) _ IH]; intros body m Hb Hm; [inversion Hb|].
  destruct m as [|m]; [lia|]. cbn [p_arrayLoop].
  replace (nth_error (a1 ++ []) (length a1)) with (@None gval)
      by (symmetry; apply nth_error_None; rewrite app_nil_r; lia).
  inversion Hb as [w1 t0 w2 Hw1 Hw2|w1 t0 w2 b2 ts0 Hw1 Hw2 Hb2]; subst.
  - replace ((w1 ++ t ++ w2) ++ 93 :: r) with (w1 ++ t ++ w2 ++ 93 :: r) by app_eq.
    rewrite (pbind_run _ _ _ _ (length a1, a1 ++ []) (w2 ++ 93 :: r)).
    2:{ apply bind_ret. exists tt. split; auto. apply Skip_spec. exists w1, t, j. repeat split; auto. apply ends_vends; auto. seps. }
    rewrite next_lit by auto. rewrite inc_run. reflexivity.
  - replace ((w1 ++ t ++ w2 ++ 44 :: b2) ++ 93 :: r) with (w1 ++ t ++ w2 ++ 44 :: b2 ++ 93 :: r) in * by app_eq.
    rewrite (pbind_run _ _ _ _ (length a1, a1 ++ []) (w2 ++ 44 :: b2 ++ 93 :: r)).
    2:{ apply bind_ret. exists tt. split; auto. apply Skip_spec. exists w1, t, j. repeat split; auto. apply ends_vends; auto. seps. }
    rewrite next_lit by auto. rewrite inc_run. change (44 =? cRBRACK) with false. change (negb (44 =? cCOMMA)) with false. cbv iota.
    apply IH; auto. rewrite !app_length in Hm. cbn [length] in Hm. lia.
Qed.
Lemma cO_next T a l t ts v vs : compl T noOpts a t v -> overwrite T l ts vs -> complO T l ts vs -> complO T (a :: l) (t :: ts) (v :: vs).
Proof.
  intros (n1 & H1) Hov (n2 & H2). exists (Nat.max n1 n2). intros n Hn a1 body m f r Hb Hm.
  destruct m as [|m]; [lia|]. cbn [p_arrayLoop]. rewrite nth_error_mid.
  inversion Hb as [w1 t0 w2 Hw1 Hw2|w1 t0 w2 b2 ts0 Hw1 Hw2 Hb2]; subst.
  - replace ((w1 ++ t ++ w2) ++ 93 :: r) with (w1 ++ t ++ w2 ++ 93 :: r) by app_eq.
    rewrite (pbind_run _ _ _ _ (S (length a1), a1 ++ v :: l) (w2 ++ 93 :: r)).
    2:{ apply bind_ret. exists v. rewrite upd_app. split; auto. apply (H1 n); auto; [lia|seps]. }
    rewrite next_lit by auto. rewrite inc_run. eexists. split; [reflexivity|]. cbv beta iota delta [fst snd].
    assert (Ev : vs = repeat (zero T) (length l)) by (inversion Hov; subst; auto). subst vs.
    rewrite (app_cons_assoc a1 v l). replace (S (length a1)) with (length (a1 ++ [v])) by (rewrite app_length; simpl; lia).
    rewrite firstn_app_len, <- app_assoc.
    replace (length (a1 ++ a :: l) - length (a1 ++ [v]))%nat with (length l) by (rewrite !app_length; simpl; lia). reflexivity.
  - replace ((w1 ++ t ++ w2 ++ 44 :: b2) ++ 93 :: r) with (w1 ++ t ++ w2 ++ 44 :: b2 ++ 93 :: r) in * by app_eq.
    rewrite (pbind_run _ _ _ _ (S (length a1), a1 ++ v :: l) (w2 ++ 44 :: b2 ++ 93 :: r)).
    2:{ apply bind_ret. exists v. rewrite upd_app. split; auto. apply (H1 n); auto; [lia|seps]. }
    rewrite next_lit by auto. rewrite inc_run. change (44 =? cRBRACK) with false. change (negb (44 =? cCOMMA)) with false. cbv beta iota delta [fst snd].
    destruct (H2 n ltac:(lia) (a1 ++ [v]) b2 m f r) as (st & Hst & Hv); auto.
    { rewrite !app_length in Hm. cbn [length] in Hm. lia. }
    rewrite app_length in Hst. cbn [length] in Hst. rewrite Nat.add_1_r in Hst.
    rewrite (app_cons_assoc a1 v l), Hst. exists st. split; auto. rewrite (app_cons_assoc a1 v vs), <- Hv.
    replace (length (a1 ++ a :: l)) with (length ((a1 ++ [v]) ++ l)) by (rewrite !app_length; simpl; lia). reflexivity.
Qed.
Lemma items_head body t ts : items body (t :: ts) -> starts t ->
  exists w1 c l, body = w1 ++ c :: l /\ ws w1 /\ ~ is_ws c /\ c <> 93 /\ items (c :: l) (t :: ts).
Proof.
  intros H (c & t' & -> & Hc & Hn & _). inversion H as [w1 t0 w2 Hw1 Hw2|w1 t0 w2 b2 ts0 Hw1 Hw2 Hb2]; subst; exists w1, c.
  - exists (t' ++ w2). split; auto. repeat (split; auto). exact (items_one [] (c :: t') w2 ws_nil Hw2).
  - exists (t' ++ w2 ++ 44 :: b2). split; auto. repeat (split; auto). exact (items_cons [] (c :: t') w2 b2 ts ws_nil Hw2 Hb2).
Qed.
Lemma pairs_head body k t ps : pairs body ((k, t) :: ps) -> starts k ->
  exists w1 c l, body = w1 ++ c :: l /\ ws w1 /\ ~ is_ws c /\ c <> 125 /\ pairs (c :: l) ((k, t) :: ps).
Proof.
  intros H (c & k' & -> & Hc & _ & Hn & _).
  inversion H as [w1 k0 w2 w3 t0 w4 Hw1 Hw2 Hw3 Hw4|w1 k0 w2 w3 t0 w4 r ps0 Hw1 Hw2 Hw3 Hw4 Hp]; subst; exists w1, c.
  - exists (k' ++ w2 ++ 58 :: w3 ++ t ++ w4). split; auto. repeat (split; auto).
    exact (pairs_one [] (c :: k') w2 w3 t w4 ws_nil Hw2 Hw3 Hw4).
  - exists (k' ++ w2 ++ 58 :: w3 ++ t ++ w4 ++ 44 :: r). split; auto. repeat (split; auto).
    exact (pairs_cons [] (c :: k') w2 w3 t w4 r ps ws_nil Hw2 Hw3 Hw4 Hp).
Qed.
Lemma items_nonempty body ts : items body ts -> exists t ts', ts = t :: ts'.
Proof. intros []; eauto. Qed.
Lemma pairs_nonempty body ps : pairs body ps -> exists p ps', ps = p :: ps'.
Proof. intros []; eauto. Qed.
Lemma c_slice T o old t ts vs : array_text t ts -> elems T ts vs -> complE T ts vs -> compl (TSlice T) o old t (VSlice (Some vs)).
Proof.
  intros Ht Hel (n0 & IH). exists (S n0). intros n Hn f w r Hw _. destruct n as [|n]; [lia|]. cbn [p_decode]. unfold p_sliceDecoder.
  destruct Ht as [w2 Hw2|body ts Hb].
  - replace (w ++ (91 :: w2 ++ [93]) ++ r) with (w ++ 91 :: w2 ++ 93 :: r) by app_eq. rewrite next_lit by auto.
    change (91 =? c_n) with false. change (91 =? cQUOTE) with false. change (negb (91 =? cLBRACK)) with false. cbv iota.
    rewrite inc_run, next_lit by auto. apply bind_ret. exists []. inversion Hel; subst. split; auto.
  - replace (w ++ (91 :: body ++ [93]) ++ r) with (w ++ 91 :: body ++ 93 :: r) by app_eq. rewrite next_lit by auto.
    change (91 =? c_n) with false. change (91 =? cQUOTE) with false. change (negb (91 =? cLBRACK)) with false. cbv iota.
    rewrite inc_run. destruct (items_nonempty _ _ Hb) as (t1 & ts' & ->).
    assert (Hst : starts t1) by (inversion Hel; subst; eapply decodes_starts; eauto).
    destruct (items_head _ _ _ Hb Hst) as (w1 & c & l & -> & Hw1 & Hc & Hc93 & Hi).
    rewrite <- app_assoc. simpl app. rewrite next_run by auto. apply bind_ret. exists vs. split; auto.
    apply Z.eqb_neq in Hc93. rewrite Hc93, fuel_eq. apply (IH n ltac:(lia) (c :: l) _ [] f r Hi). simpl. lia.
Qed.
Lemma c_array k T o a t ts vs : array_text t ts -> overwrite T a ts vs -> complO T a ts vs ->
  compl (TArray k T) o (VArr a) t (VArr vs).
Proof.
  intros Ht Hel (n0 & IH). exists (S n0). intros n Hn f w r Hw _. destruct n as [|n]; [lia|]. cbn [p_decode]. unfold p_arrayDecoder.
  destruct Ht as [w2 Hw2|body ts Hb].
  - replace (w ++ (91 :: w2 ++ [93]) ++ r) with (w ++ 91 :: w2 ++ 93 :: r) by app_eq. rewrite next_lit by auto.
    change (91 =? c_n) with false. change (negb (91 =? cLBRACK)) with false. cbv iota.
    rewrite inc_run, next_lit by auto. apply bind_ret. exists (0%nat, a). split; auto.
    cbn [fst snd firstn app]. rewrite Nat.sub_0_r. inversion Hel; subst; auto.
  - replace (w ++ (91 :: body ++ [93]) ++ r) with (w ++ 91 :: body ++ 93 :: r) by app_eq. rewrite next_lit by auto.
    change (91 =? c_n) with false. change (negb (91 =? cLBRACK)) with false. cbv iota.
    rewrite inc_run. destruct (items_nonempty _ _ Hb) as (t1 & ts' & ->).
    assert (Hst : starts t1).
    { inversion Hel as [? ? Hf| |]; subst; [|eapply decodes_starts; eauto].
      inversion Hf as [|? ? (j & Hj) _]; subst. eapply starts_value; eauto. }
    destruct (items_head _ _ _ Hb Hst) as (w1 & c & l & -> & Hw1 & Hc & Hc93 & Hi).
    rewrite <- app_assoc. simpl app. rewrite next_run by auto.
    destruct (IH n ltac:(lia) [] (c :: l) (S (length (c :: l ++ 93 :: r))) f r Hi) as (st & H1 & H2); [simpl; lia|].
    apply bind_ret. exists st. split; [|simpl app in H2; now rewrite H2].
    apply Z.eqb_neq in Hc93. rewrite Hc93, fuel_eq. exact H1.
Qed.

(** ** Maps *)
Lemma c_key k kp t kk : p_keyDecoder F32 F64 C k = Some kp -> key_text C k t kk -> exists v, toKey F32 F64 C k v = Some kk /\
  forall f w r, ws w -> kp (mkOpts true false) (keyZero F32 F64 C k) f (w ++ t ++ r) = POk v r.
Proof.
  assert (HC : forall T o old t v (p : pdecoder), compl T o old t v -> ~ number t -> (forall n, pd (S n) T = p) ->
    forall f w r, ws w -> p o old f (w ++ t ++ r) = POk v r).
  { intros T o old t0 v p (n0 & H) Ht Hp f w r Hw. rewrite <- (Hp n0). apply H; auto. intros Hn. tauto. }
  assert (Hq : forall x, ~ number (quote x)).
  { intros x H. destruct (number_first _ H) as (c & t' & [= <- _] & Hc). unfold is_digit in Hc. lia. }
  assert (Hz : ~ number (bs "null")).
  { intros H. destruct (number_first _ H) as (c & t' & [= <- _] & Hc). unfold is_digit in Hc. lia. }
  assert (KSt : forall t kk, key_text C KString t kk -> exists s, kk = KS s /\
    forall f w r, ws w -> p_stringDecoder F32 F64 C (mkOpts true false) (VStr []) f (w ++ t ++ r) = POk (VStr s) r).
  { intros t0 kk0 H. inversion H as [x s Hx| | | | | | |]; subst; eexists; (split; [reflexivity|]).
    - eapply (HC TString); [now apply c_string|auto|reflexivity].
    - eapply (HC TString); [now apply null_string|auto|reflexivity]. }
  assert (KIn : forall sg w0 t kk, key_text C (KInt sg w0) t kk -> exists z, kk = KI z /\
    forall f w r, ws w -> p_intDecoder F32 F64 C sg w0 (mkOpts true false) (VInt 0) f (w ++ t ++ r) = POk (VInt z) r).
  { intros sg w0 t0 kk0 H. inversion H; subst; eexists; (split; [reflexivity|]).
    - eapply (HC (TInt sg w0)); [apply c_quoted_int; auto|auto|reflexivity].
    - eapply (HC (TInt sg w0)); [now apply null_int|auto|reflexivity]. }
  intros HK Hkt. destruct k as [|sg w0|kd [id|] mar]; simpl in HK.
  - injection HK as <-. destruct (KSt _ _ Hkt) as (s & -> & H). exists (VStr s). auto.
  - injection HK as <-. destruct (KIn _ _ _ _ Hkt) as (s & -> & H). exists (VInt s). auto.
  - injection HK as <-. replace (keyZero F32 F64 C (KUser kd (Some id) mar)) with (@VObj F32 F64 C (cu_zero C id)) by now destruct kd.
    inversion Hkt as [| | | | | |kd' id' mar' b0 s x Hb Hx|kd' id' mar']; subst.
    + exists (VObj x). split; [reflexivity|]. eapply (HC (TText id)); [eapply c_text; eauto|auto|reflexivity].
    + exists (VObj (cu_zero C id)). split; [reflexivity|]. eapply (HC (TText id)); [now apply null_text|auto|reflexivity].
  - inversion Hkt as [| | | |mar' t' k' Ht|sg w0 mar' t' k' Ht| |]; subst; simpl in HK; injection HK as <-.
    + destruct (KSt _ _ Ht) as (s & -> & H). exists (VStr s). auto.
    + destruct (KIn _ _ _ _ Ht) as (s & -> & H). exists (VInt s). auto.
Qed.
Lemma cN_nil k T m : complN k T m [] m.
Proof. intros kp HK. exists 0%nat. intros n _ body m0 f r Hb. inversion Hb. Qed.
Lemma cN_next k T m kt kk t v ps m' : key_text C k kt kk -> compl T noOpts (zero T) t v ->
  entries k T (put F32 F64 C m kk v) ps m' -> complN k T (put F32 F64 C m kk v) ps m' -> complN k T m ((kt, t) :: ps) m'.
Proof.
  intros Hk (n1 & H1) Hen HN kp HK. destruct (HN kp HK) as (n2 & H2). exists (Nat.max n1 n2). intros n Hn body m0 f r Hb Hm.
  destruct m0 as [|m0]; [lia|]. cbn [p_mapLoop]. destruct (c_key _ _ _ _ HK Hk) as (kv0 & Hkv & Hrun).
  inversion Hb as [w1 k0 w2 w3 t0 w4 Hw1 Hw2 Hw3 Hw4|w1 k0 w2 w3 t0 w4 b2 ps0 Hw1 Hw2 Hw3 Hw4 Hp]; subst.
  - replace ((w1 ++ kt ++ w2 ++ 58 :: w3 ++ t ++ w4) ++ 125 :: r) with (w1 ++ kt ++ w2 ++ 58 :: w3 ++ t ++ w4 ++ 125 :: r) by app_eq.
    rewrite (pbind_run _ _ _ _ kv0 _ (Hrun f w1 (w2 ++ 58 :: w3 ++ t ++ w4 ++ 125 :: r) Hw1)). rewrite next_lit by auto.
    change (negb (58 =? cCOLON)) with false. cbv iota. rewrite inc_run.
    rewrite (pbind_run _ _ _ _ v (w4 ++ 125 :: r)).
    2:{ apply (H1 n); auto; [lia|seps]. }
    rewrite Hkv, next_lit by auto. change (125 =? cRBRACE) with true. cbv iota. rewrite inc_run, mapassign_put.
    inversion Hen; subst. reflexivity.
  - replace ((w1 ++ kt ++ w2 ++ 58 :: w3 ++ t ++ w4 ++ 44 :: b2) ++ 125 :: r)
      with (w1 ++ kt ++ w2 ++ 58 :: w3 ++ t ++ w4 ++ 44 :: b2 ++ 125 :: r) in * by app_eq.
    rewrite (pbind_run _ _ _ _ kv0 _ (Hrun f w1 (w2 ++ 58 :: w3 ++ t ++ w4 ++ 44 :: b2 ++ 125 :: r) Hw1)). rewrite next_lit by auto.
    change (negb (58 =? cCOLON)) with false. cbv iota. rewrite inc_run.
    rewrite (pbind_run _ _ _ _ v (w4 ++ 44 :: b2 ++ 125 :: r)).
    2:{ apply (H1 n); auto; [lia|seps]. }
    rewrite Hkv, next_lit by auto. change (44 =? cRBRACE) with false. change (44 =? cCOMMA) with true. cbv iota.
    rewrite inc_run, mapassign_put. apply (H2 n); auto; [lia|].
    rewrite !app_length in Hm. cbn [length] in Hm. rewrite !app_length in Hm. cbn [length] in Hm. rewrite !app_length in Hm. cbn [length] in Hm.
    rewrite app_length. cbn [length]. lia.
Qed.
Lemma c_map k T o q t ps m : decodable_key k -> object_text t ps -> entries k T (match q with Some m0 => m0 | None => [] end) ps m ->
  complN k T (match q with Some m0 => m0 | None => [] end) ps m -> compl (TMap k T) o (VMap q) t (VMap (Some m)).
Proof.
  intros HR Ht Hen HN. destruct (decodable_some k HR) as (kp & HK). destruct (HN kp HK) as (n0 & IH).
  exists (S n0). intros n Hn f w r Hw _. destruct n as [|n]; [lia|]. cbn [p_decode]. rewrite HK. unfold p_mapDecoder.
  destruct Ht as [w2 Hw2|body ps Hb].
  - replace (w ++ (123 :: w2 ++ [125]) ++ r) with (w ++ 123 :: w2 ++ 125 :: r) by app_eq. rewrite next_lit by auto.
    change (123 =? c_n) with false. change (negb (123 =? cLBRACE)) with false. cbv iota.
    rewrite inc_run, next_lit by auto. apply bind_ret. exists m. split; auto. inversion Hen; subst. reflexivity.
  - replace (w ++ (123 :: body ++ [125]) ++ r) with (w ++ 123 :: body ++ 125 :: r) by app_eq. rewrite next_lit by auto.
    change (123 =? c_n) with false. change (negb (123 =? cLBRACE)) with false. cbv iota.
    rewrite inc_run. destruct (pairs_nonempty _ _ Hb) as ([k1 t1] & ps' & ->).
    assert (Hst : starts k1) by (inversion Hen; subst; eapply key_starts; eauto).
    destruct (pairs_head _ _ _ _ Hb Hst) as (w1 & c & l & -> & Hw1 & Hc & Hc93 & Hi).
    rewrite <- app_assoc. simpl app. rewrite next_run by auto. apply bind_ret. exists m. split; auto.
    apply Z.eqb_neq in Hc93. rewrite Hc93, fuel_eq. apply (IH n ltac:(lia) (c :: l) _ f r Hi). simpl. lia.
Qed.

(** ** Structs *)
Lemma cM_nil fs v : complM fs v [] v.
Proof. exists 0%nat. intros n _ body f r Hb. inversion Hb. Qed.
Lemma cM_next fs v x name t v1 ps v2 : string_body x name ->
  (exists n1, forall n, (n1 <= n)%nat -> forall f w r, ws w -> ends t f r ->
    (match lookup (map f_name fs) name with
     | Some i => match nth_error (infos F32 F64 C (pd n) fs) i with
                 | None => pfail errType
                 | Some fi => p_follow F32 F64 C E (pf_path _ _ _ fi) (pf_decoder _ _ _ fi (mkOpts false (pf_quoted _ _ _ fi))) v
                 end
     | None => if d then pfail (EUnknownField name) else pbind p_Skip (fun _ => pret v)
     end) f (w ++ t ++ r) = POk v1 r) ->
  members fs v1 ps v2 -> complM fs v1 ps v2 -> complM fs v ((quote x, t) :: ps) v2.
Proof.
  intros Hx (n1 & H1) Hms (n2 & H2). exists (Nat.max n1 n2). intros n Hn body f r Hb.
  assert (Hf : forall w2 l, ws w2 -> p_readObjectField f (x ++ 34 :: w2 ++ 58 :: l) = POk name l).
  { intros w2 l Hw2. apply field_spec. eauto. }
  inversion Hb as [w1 k0 w2 w3 t0 w4 Hw1 Hw2 Hw3 Hw4|w1 k0 w2 w3 t0 w4 b2 ps0 Hw1 Hw2 Hw3 Hw4 Hp]; subst.
  - exists w1, (x ++ 34 :: w2 ++ 58 :: w3 ++ t ++ w4). split; [unfold quote; app_eq|]. split; auto.
    intros m Hm. destruct m as [|m]; [lia|]. cbn [p_structLoop].
    replace ((x ++ 34 :: w2 ++ 58 :: w3 ++ t ++ w4) ++ 125 :: r) with (x ++ 34 :: w2 ++ 58 :: w3 ++ t ++ w4 ++ 125 :: r) by app_eq.
    rewrite (pbind_run _ _ _ _ name _ (Hf w2 (w3 ++ t ++ w4 ++ 125 :: r) Hw2)).
    rewrite (pbind_run _ _ _ _ v1 (w4 ++ 125 :: r)).
    2:{ apply (H1 n); auto; [lia|seps]. }
    rewrite next_lit by auto. change (125 =? cRBRACE) with true. cbv iota. rewrite inc_run. inversion Hms; subst. reflexivity.
  - exists w1, (x ++ 34 :: w2 ++ 58 :: w3 ++ t ++ w4 ++ 44 :: b2). split; [unfold quote; app_eq|]. split; auto.
    intros m Hm. destruct m as [|m]; [lia|]. cbn [p_structLoop].
    replace ((x ++ 34 :: w2 ++ 58 :: w3 ++ t ++ w4 ++ 44 :: b2) ++ 125 :: r)
      with (x ++ 34 :: w2 ++ 58 :: w3 ++ t ++ w4 ++ 44 :: b2 ++ 125 :: r) in * by app_eq.
    rewrite (pbind_run _ _ _ _ name _ (Hf w2 (w3 ++ t ++ w4 ++ 44 :: b2 ++ 125 :: r) Hw2)).
    rewrite (pbind_run _ _ _ _ v1 (w4 ++ 44 :: b2 ++ 125 :: r)).
    2:{ apply (H1 n); auto; [lia|seps]. }
    rewrite next_lit by auto. change (44 =? cRBRACE) with false. change (44 =? cCOMMA) with true. cbv iota. rewrite inc_run.
    destruct (H2 n ltac:(lia) b2 f r Hp) as (w0 & l0 & -> & Hw0 & Hl0).
    rewrite <- app_assoc. simpl app. rewrite next_lit by auto. change (negb (34 =? cQUOTE)) with false. cbv iota. rewrite inc_run.
    apply Hl0. revert Hm. repeat (rewrite app_length; cbn [length app]). lia.
Qed.
Lemma cM_field fs v x name i fd t v1 ps v2 : string_body x name -> lookup (map f_name fs) name = Some i ->
  nth_error fs i = Some fd -> complP (f_path fd) (f_type fd) (mkOpts false (f_quoted fd)) v t v1 ->
  members fs v1 ps v2 -> complM fs v1 ps v2 -> complM fs v ((quote x, t) :: ps) v2.
Proof.
  intros Hx Hl Hi (n0 & H0) Hm HM. eapply cM_next; eauto. exists n0. intros n Hn f w r Hw He. rewrite Hl.
  unfold infos. rewrite nth_error_map, Hi. simpl. now apply H0.
Qed.
Lemma cM_unknown fs v x name t j ps v2 : string_body x name -> lookup (map f_name fs) name = None -> d = false ->
  value t j -> members fs v ps v2 -> complM fs v ps v2 -> complM fs v ((quote x, t) :: ps) v2.
Proof.
  intros Hx Hl Hd Hj Hm HM. eapply cM_next; eauto. exists 0%nat. intros n Hn f w r Hw He. rewrite Hl, Hd.
  apply bind_ret. exists tt. split; auto. apply Skip_spec. exists w, t, j. repeat split; auto. now apply ends_vends.
Qed.
Lemma empty_members ps v v' : members [] v ps v' -> v' = v /\ (ps = [] \/ d = false) /\
  Forall (fun p => exists x name j, fst p = quote x /\ string_body x name /\ value (snd p) j) ps.
Proof.
  remember (@nil (field ty)) as fs eqn:Ef. intros H. revert Ef.
  induction H as [|fs v x name i fd t v1 ps v2 Hx Hl Hi Hp Hm IH|fs v x name t j ps v2 Hx Hl Hd Hj Hm IH]; intros ->.
  - split; auto. 
  - destruct i; discriminate.
  - destruct (IH eq_refl) as (-> & _ & Hf). split; auto. split; auto. constructor; auto. exists x, name, j. auto.
Qed.
Lemma pairs_members body ps : pairs body ps ->
  Forall (fun p => exists x name j, fst p = quote x /\ string_body x name /\ value (snd p) j) ps ->
  exists ms, Spec.members body ms.
Proof.
  induction 1 as [w1 k w2 w3 t w4 Hw1 Hw2 Hw3 Hw4|w1 k w2 w3 t w4 r ps Hw1 Hw2 Hw3 Hw4 Hp IH]; intros Hf;
    inversion Hf as [|? ? (x & name & j & Hk & Hx & Hj) Hf2]; subst; simpl in Hk, Hj; subst k.
  - exists [(name, j)]. replace (w1 ++ quote x ++ w2 ++ 58 :: w3 ++ t ++ w4) with (w1 ++ 34 :: x ++ 34 :: w2 ++ 58 :: w3 ++ t ++ w4) by (unfold quote; app_eq).
    now constructor.
  - destruct (IH Hf2) as (ms & Hms). exists ((name, j) :: ms).
    replace (w1 ++ quote x ++ w2 ++ 58 :: w3 ++ t ++ w4 ++ 44 :: r) with (w1 ++ 34 :: x ++ 34 :: w2 ++ 58 :: w3 ++ t ++ w4 ++ 44 :: r) by (unfold quote; app_eq).
    now constructor.
Qed.
Lemma c_struct layout fs o old t ps new : object_text t ps -> members fs old ps new -> complM fs old ps new ->
  compl (TStruct layout fs) o old t new.
Proof.
  intros Ht Hms (n0 & IH). exists (S n0). intros n Hn f w r Hw _. destruct n as [|n]; [lia|]. cbn [p_decode].
  destruct fs as [|fd fs].
  - unfold p_emptyObjectDecoder. destruct (empty_members _ _ _ Hms) as (-> & Hd & Hf).
    destruct Ht as [w2 Hw2|body ps Hb].
    + replace (w ++ (123 :: w2 ++ [125]) ++ r) with (w ++ 123 :: w2 ++ 125 :: r) by app_eq. rewrite next_lit by auto.
      rewrite inc_run. change (123 =? c_n) with false. change (123 =? cLBRACE) with true. cbv iota.
      destruct d; [rewrite next_lit by auto; now rewrite inc_run|].
      apply bind_ret. exists tt. split; auto. apply skipValue_spec. exists (w2 ++ [125]), (JObj []). split; [app_eq|]. split; [now constructor|exact I].
    + destruct (pairs_members _ _ Hb Hf) as (ms & Hms2).
      replace (w ++ (123 :: body ++ [125]) ++ r) with (w ++ 123 :: body ++ 125 :: r) by app_eq. rewrite next_lit by auto.
      rewrite inc_run. change (123 =? c_n) with false. change (123 =? cLBRACE) with true. cbv iota.
      destruct Hd as [->| ->]; [inversion Hb|].
      apply bind_ret. exists tt. split; auto. apply skipValue_spec. exists (body ++ [125]), (JObj ms). split; [app_eq|]. split; [now constructor|exact I].
  - change (map (fun fd0 => pInfo F32 F64 C (f_path fd0) (f_quoted fd0) (pd n (f_type fd0))) (fd :: fs)) with (infos F32 F64 C (pd n) (fd :: fs)).
    remember (fd :: fs) as fs' eqn:Ef. unfold p_structDecoder.
    destruct Ht as [w2 Hw2|body ps Hb].
    + replace (w ++ (123 :: w2 ++ [125]) ++ r) with (w ++ 123 :: w2 ++ 125 :: r) by app_eq. rewrite next_lit by auto.
      change (123 =? c_n) with false. change (negb (123 =? cLBRACE)) with false. cbv iota.
      rewrite inc_run, next_lit by auto. change (125 =? cRBRACE) with true. cbv iota. rewrite inc_run. inversion Hms; subst. reflexivity.
    + replace (w ++ (123 :: body ++ [125]) ++ r) with (w ++ 123 :: body ++ 125 :: r) by app_eq. rewrite next_lit by auto.
      change (123 =? c_n) with false. change (negb (123 =? cLBRACE)) with false. cbv iota.
      rewrite inc_run. 
      destruct (IH n ltac:(lia) body f r Hb) as (w0 & l0 & -> & Hw0 & Hl0).
      rewrite <- app_assoc. simpl app. rewrite next_lit by auto. change (34 =? cRBRACE) with false. change (negb (34 =? cQUOTE)) with false. cbv iota.
      rewrite inc_run, fuel_eq. apply Hl0. lia.
Qed.

(** ** Paths *)
Lemma cP_here T o old t v : compl T o old t v -> complP [] T o old t v.
Proof. intros (n0 & H). exists n0. exact H. Qed.
Lemma cP_field path T o l1 x l2 t y : complP path T o x t y ->
  complP (HField (length l1) :: path) T o (VStruct (l1 ++ x :: l2)) t (VStruct (l1 ++ y :: l2)).
Proof.
  intros (n0 & H). exists n0. intros n Hn f w r Hw He. simpl. rewrite nth_error_mid. apply bind_ret. exists y.
  rewrite upd_app. split; auto.
Qed.
Lemma cP_ptr path T o alloc x t y : complP path T o x t y -> complP (HPtr alloc :: path) T o (VPtr (Some x)) t (VPtr (Some y)).
Proof. intros (n0 & H). exists n0. intros n Hn f w r Hw He. simpl. apply bind_ret. exists y. auto. Qed.
Lemma cP_alloc path T o T' t y : complP path T o (zero T') t y -> complP (HPtr (Some T') :: path) T o (VPtr None) t (VPtr (Some y)).
Proof. intros (n0 & H). exists n0. intros n Hn f w r Hw He. simpl. apply bind_ret. exists y. auto. Qed.

Theorem decode_complete :
  (forall T o old t v, decodes T o old t v -> compl T o old t v) /\
  (forall T ts vs, elems T ts vs -> complE T ts vs) /\
  (forall T a ts vs, overwrite T a ts vs -> complO T a ts vs) /\
  (forall k T m ps m', entries k T m ps m' -> complN k T m ps m') /\
  (forall fs v ps v', members fs v ps v' -> complM fs v ps v') /\
  (forall path T o v t v', at_path path T o v t v' -> complP path T o v t v').
Proof.
  apply decodes_mutind; intros.
  - now apply null_all.
  - apply null_ptr.
  - apply null_slice.
  - now apply null_map.
  - apply null_iface.
  - apply c_true.
  - apply c_false.
  - apply c_quoted; auto.
  - apply c_quoted; auto.
  - apply c_quoted; auto.
  - now apply c_int.
  - now apply c_quoted_int.
  - now apply (c_float F32 sane32 VFloat32 TFloat32).
  - now apply (c_float F64 sane64 VFloat64 TFloat64).
  - now apply c_string.
  - eapply c_quoted_string; eauto.
  - now apply c_quoted_string_null.
  - now apply c_number.
  - now apply c_number_string.
  - eapply c_raw; eauto.
  - eapply c_json; eauto.
  - eapply c_text; eauto.
  - apply (c_ptr T o None); auto. eapply decodes_starts; eauto.
  - apply (c_ptr T o (Some x)); auto. eapply decodes_starts; eauto.
  - eapply c_slice; eauto.
  - eapply c_bytes; eauto.
  - eapply c_array; eauto.
  - eapply c_map; eauto.
  - eapply c_struct; eauto.
  - eapply c_eface; eauto.
  - eapply c_eface_held; eauto. eapply decodes_starts; eauto.
  - eapply c_eface_null; eauto.
  - eapply c_eface_null_ptr; eauto.
  - eapply c_iface_held; eauto. eapply decodes_starts; eauto.
  - now apply c_ref.
  - apply cE_nil.
  - now apply cE_next.
  - now apply cO_skip.
  - now apply cO_next.
  - apply cO_zero.
  - apply cN_nil.
  - eapply cN_next; eauto.
  - apply cM_nil.
  - eapply cM_field; eauto.
  - eapply cM_unknown; eauto.
  - now apply cP_here.
  - now apply cP_field.
  - now apply cP_ptr.
  - now apply cP_alloc.
Qed.
End Dec.
