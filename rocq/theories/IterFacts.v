(** From the pure functions back to iterators: what each method does on a concrete iterator. *)
From Coq Require Import String ZArith List Bool Lia Arith.
From Verif Require Import Base ModelIter ModelStack ModelSkip ModelStr ModelInt ModelFloat ModelRead ModelIterate ModelOps
  Spec SpecRead Sim SimLib SimSkip SimRaw SimStr SimInt SimFloat SimRead SimIterate SimOps
  NumFacts StrFacts MachineFacts FloatFacts GrammarFacts IntFacts IterateFacts.
Import ListNotations.
Local Open Scope Z_scope.

(** the method returns [a] without error and leaves [rest] unread *)
Definition yields {A} (m : M A) (it : iter) (a : A) (rest : bytes) : Prop :=
  fst (m it) = Ok a /\ stream (snd (m it)) = rest.

Section Transfer.
Context {A : Type}.
Variables (Pre : iter -> Prop) (m : M A) (p : P A).
Hypothesis H : simR Pre m p eqR.
Lemma yields_pure it a r : wf it -> Pre it -> yields m it a r -> p (fin it) (stream it) = POk a r.
Proof.
  intros W Pr [Y1 Y2]. specialize (H it W Pr). destruct (m it) as [x it']. simpl in *. subst x.
  destruct H as (_ & _ & [K|[_ ?]]); [|discriminate].
  destruct (p (fin it) (stream it)) as [b rest|e]; [|discriminate].
  destruct K as (a0 & [= <-] & <- & ->). now subst.
Qed.
Lemma pure_yields it a r : wf it -> Pre it -> ~ dirty it -> p (fin it) (stream it) = POk a r -> yields m it a r.
Proof.
  intros W Pr D E. specialize (H it W Pr). unfold yields. destruct (m it) as [x it']. simpl in *.
  destruct H as (_ & _ & [K|[? _]]); [|tauto]. rewrite E in K. destruct K as (a0 & -> & <- & ->). auto.
Qed.
Lemma yields_iff it a r : wf it -> Pre it -> ~ dirty it -> (yields m it a r <-> p (fin it) (stream it) = POk a r).
Proof. intros. split; [now apply yields_pure|now apply pure_yields]. Qed.
Lemma pure_fails it e : wf it -> Pre it -> ~ dirty it -> p (fin it) (stream it) = PErr e -> fst (m it) = Err e.
Proof.
  intros W Pr D E. specialize (H it W Pr). destruct (m it) as [x it']. simpl in *.
  destruct H as (_ & _ & [K|[? _]]); [|tauto]. now rewrite E in K.
Qed.
End Transfer.

(** ** Valid *)
Lemma ws_vends t j w : ws w -> vends t j EEOF w.
Proof.
  intros Hw. destruct j; simpl; auto. destruct w as [|c w].
  - split; [discriminate|auto].
  - apply num_ends_sep. inversion Hw; subst. unfold is_ws, is_digit, is_e in *. lia.
Qed.
Lemma nextToken_eof_inv f l : p_nextToken f l = PErr EEOF -> f = EEOF /\ ws l.
Proof.
  intros H. induction l as [|c l IH]; rewrite p_nextToken_eq in H.
  - injection H as ->. split; auto. constructor.
  - destruct (is_space c) eqn:E; [|discriminate]. destruct (IH H). split; auto. constructor; auto.
    now apply is_space_ws.
Qed.
Lemma nextToken_no_other f l e : p_nextToken f l = PErr e -> e = f.
Proof.
  induction l as [|c l IH]; rewrite p_nextToken_eq; [now intros [= <-]|].
  destruct (is_space c); [auto|discriminate].
Qed.
Theorem Valid_spec data it : wf it -> (fst (Valid data it) = true <-> exists j, json_text data j).
Proof.
  intros W. unfold Valid. assert (W1 := wf_ResetBytes data it W).
  assert (D := clean_ResetBytes data it).
  assert (H := sim_Skip _ W1 I). assert (HS := Skip_spec EEOF data).
  destruct (Skip (ResetBytes data it)) as [r it1]. destruct H as (W2 & S2 & [H|[? _]]); [|tauto].
  change (fin (ResetBytes data it)) with EEOF in H. rewrite stream_ResetBytes in H.
  destruct (p_Skip EEOF data) as [[] rest|e].
  - destruct H as ([] & -> & Es & _). assert (D1 : ~ dirty it1).
    { destruct S2 as [u M2]. intros K. apply D. exact (mv_dirty _ _ _ M2 K). }
    assert (F1 : fin it1 = EEOF) by (destruct S2 as [u M2]; exact (mv_fin _ _ _ M2)).
    assert (H2 := sim_nextToken _ W2 I). destruct (nextToken it1) as [r2 it2].
    destruct H2 as (_ & _ & [H2|[? _]]); [|tauto]. rewrite F1, Es in H2.
    destruct (proj1 (HS rest) eq_refl) as (w & t & j & -> & Hw & Hv & He).
    destruct (p_nextToken EEOF rest) as [c l|e] eqn:E.
    + destruct H2 as (a & -> & _). split; [discriminate|]. intros (j' & w1 & t1 & w2 & Ed & Hw1 & Hv1 & Hw2).
      exfalso.
      assert (K := proj2 (HS w2) (ex_intro _ w1 (ex_intro _ t1 (ex_intro _ j' (conj Ed (conj Hw1 (conj Hv1 (ws_vends _ _ _ Hw2)))))))).
      injection K as ->. rewrite nextToken_end in E by auto. discriminate.
    + subst r2. apply nextToken_no_other in E as Ee. subst e. apply nextToken_eof_inv in E. destruct E as [_ Hr].
      split; [|reflexivity]. intros _. exists j, w, t, rest. auto.
  - subst r. split; [discriminate|]. intros (j' & w1 & t1 & w2 & Ed & Hw1 & Hv1 & Hw2). exfalso.
    assert (K := proj2 (HS w2) (ex_intro _ w1 (ex_intro _ t1 (ex_intro _ j' (conj Ed (conj Hw1 (conj Hv1 (ws_vends _ _ _ Hw2)))))))).
    discriminate.
Qed.

(** ** Skip and the raw methods *)
Theorem Skip_yields it r : wf it -> ~ dirty it ->
  (yields Skip it tt r <->
   exists w t j, stream it = w ++ t ++ r /\ ws w /\ value t j /\ vends t j (fin it) r).
Proof. intros W D. rewrite (yields_iff _ _ _ sim_Skip) by (auto; exact I). apply Skip_spec. Qed.

Lemma ws_split w c l2 : ws w -> ~ is_ws c ->
  forall t j x r', ws x -> value t j -> w ++ c :: l2 = x ++ t ++ r' -> w = x /\ c :: l2 = t ++ r'.
Proof.
  intros Hw Hc t j x r' Hx Hv Ee. destruct (value_first _ _ Hv) as (c' & t' & -> & Hc' & _). simpl in Ee.
  revert x Hx Ee. induction Hw as [|y w Hy Hw IH]; intros x Hx Ee.
  - destruct x as [|z x]; [auto|]. injection Ee as -> _. inversion Hx; subst. tauto.
  - destruct x as [|z x]; [injection Ee as -> _; tauto|]. injection Ee as -> Ee. inversion Hx; subst.
    destruct (IH x); auto. subst. auto.
Qed.
Lemma SkipRaw_spec f l v r : p_SkipRaw f l = POk v r <->
  exists w j, l = w ++ v ++ r /\ ws w /\ value v j /\ vends v j f r.
Proof.
  assert (HS := Skip_spec f l). unfold p_SkipRaw, p_captured.
  unfold p_Skip, p_takeToken in HS. rewrite !(pbind_eq p_nextToken) in *.
  destruct (p_nextToken f l) as [c l1|e] eqn:E.
  2:{ split; [discriminate|]. intros (w & j & -> & Hw & Hv & _).
      destruct (value_first _ _ Hv) as (c & t & -> & Hc & _). simpl app in E. rewrite nextToken_run in E by auto. discriminate. }
  apply nextToken_inv in E. destruct E as (w & l2 & -> & -> & Hw & Hc).
  unfold pbind, p_inc, pret in *. rewrite (nextToken_run f w c l2 Hw Hc) in HS. cbn [tl] in *.
  assert (Key := ws_split w c l2 Hw Hc).
  destruct (p_skipFunctions c f l2) as [[] r0|e].
  - split.
    + intros Ep. apply POk_inj in Ep. destruct Ep as [<- <-]. destruct (proj1 (HS r0) eq_refl) as (x & t & j & Ee & Hx & Hv & He).
      destruct (Key _ _ _ _ Hx Hv Ee) as [-> Ec]. exists x, j.
      assert (Et : firstn (length (c :: l2) - length r0) (c :: l2) = t).
      { rewrite Ec, app_length. replace (length t + length r0 - length r0)%nat with (length t) by lia.
        now rewrite firstn_app, Nat.sub_diag, firstn_all, app_nil_r. }
      cbn [app]. rewrite Et. auto.
    + intros (x & j & Ee & Hx & Hv & He). assert (K := proj2 (HS r) (ex_intro _ x (ex_intro _ v (ex_intro _ j (conj Ee (conj Hx (conj Hv He))))))).
      injection K as ->. destruct (Key _ _ _ _ Hx Hv Ee) as [-> Ec]. f_equal. cbn [app].
      rewrite Ec, app_length. replace (length v + length r - length r)%nat with (length v) by lia.
      simpl. now rewrite firstn_app, Nat.sub_diag, firstn_all, app_nil_r.
  - split; [discriminate|]. intros (x & j & Ee & Hx & Hv & He).
    assert (K := proj2 (HS r) (ex_intro _ x (ex_intro _ v (ex_intro _ j (conj Ee (conj Hx (conj Hv He))))))). discriminate.
Qed.
Theorem SkipRaw_yields it v r : wf it -> ~ dirty it ->
  (yields SkipRaw it v r <->
   exists w j, stream it = w ++ v ++ r /\ ws w /\ value v j /\ vends v j (fin it) r).
Proof. intros W D. rewrite (yields_iff _ _ _ sim_SkipRaw) by (auto; exact I). apply SkipRaw_spec. Qed.
Theorem AppendRaw_yields b it v r : wf it -> ~ dirty it ->
  (yields (AppendRaw b) it v r <->
   exists w t j, v = b ++ t /\ stream it = w ++ t ++ r /\ ws w /\ value t j /\ vends t j (fin it) r).
Proof.
  intros W D. rewrite (yields_iff _ _ _ (sim_AppendRaw b)) by (auto; exact I). unfold p_AppendRaw. rewrite bind_ret.
  split.
  - intros (t & Ht & ->). apply SkipRaw_spec in Ht. destruct Ht as (w & j & ? & ? & ? & ?). exists w, t, j. auto.
  - intros (w & t & j & -> & ? & ? & ? & ?). exists t. split; auto. apply SkipRaw_spec. eauto 8.
Qed.
Lemma ReadNumber_spec f l v r : p_ReadNumber f l = POk v r <->
  exists w, l = w ++ v ++ r /\ ws w /\ number v /\ num_ends v f r.
Proof.
  unfold p_ReadNumber. split.
  - intros H. apply next_inv in H. destruct H as (w & c & l' & -> & Hw & Hc & H).
    destruct (isNumberValue (valueTypeMap c)) eqn:E; [|discriminate]. cbn [negb] in H. rewrite inc_run in H.
    assert (Hd : c = 45 \/ is_digit c).
    { unfold valueTypeMap, isNumberValue, is_digit in *.
      repeat match type of E with context [if ?x then _ else _] => destruct x eqn:? end; try discriminate. lia. }
    apply capturedNumber in H; auto. destruct H as (t & Hn & -> & He & ->). exists w. auto.
  - intros (w & -> & Hw & Hn & He). destruct (number_first _ Hn) as (c & t & -> & Hc). simpl app.
    rewrite next_run; [|auto|unfold is_ws, is_digit in *; lia].
    replace (isNumberValue (valueTypeMap c)) with true.
    + cbn [negb]. rewrite inc_run. apply capturedNumber; eauto.
    + unfold valueTypeMap, is_digit in *.
      repeat match goal with |- context [if ?x then _ else _] => destruct x eqn:? end; try reflexivity; lia.
Qed.
Theorem ReadNumber_yields it v r : wf it -> ~ dirty it ->
  (yields ReadNumber it v r <->
   exists w, stream it = w ++ v ++ r /\ ws w /\ number v /\ num_ends v (fin it) r).
Proof. intros W D. rewrite (yields_iff _ _ _ sim_ReadNumber) by (auto; exact I). apply ReadNumber_spec. Qed.

(** ** Read *)
Section ReadF.
Variable F : floatOps.
Hypothesis sane : float_sane F.
Lemma Read_pure it : simR (num (it_useNumber it)) (Read F) (p_Read F (it_useNumber it)) eqR.
Proof. apply sim_Read. Qed.
Theorem Read_yields_sound it v r : wf it -> yields (Read F) it v r ->
  exists w t j, stream it = w ++ t ++ r /\ ws w /\ value t j /\ go_value F (it_useNumber it) j v /\ vends t j (fin it) r.
Proof.
  intros W Y. apply (yields_pure _ _ _ (Read_pure it) _ _ _ W eq_refl) in Y.
  now apply (Read_sound F (it_useNumber it) sane) in Y.
Qed.
Theorem Read_yields_complete it w t j r : wf it -> ~ dirty it ->
  stream it = w ++ t ++ r -> ws w -> value t j -> nums_ok F (it_useNumber it) j -> vends t j (fin it) r ->
  exists v, yields (Read F) it v r /\ go_value F (it_useNumber it) j v.
Proof.
  intros W D E Hw Hv Hn He.
  destruct (Read_complete F (it_useNumber it) sane (fin it) w t j r Hw Hv Hn He) as (v & Hp & Hg).
  exists v. split; auto. apply (pure_yields _ _ _ (Read_pure it)); auto; [reflexivity|]. now rewrite E.
Qed.
(** the value consumed is determined by the input *)
Lemma value_unique f l w t j r w' t' j' r' :
  l = w ++ t ++ r -> ws w -> value t j -> vends t j f r ->
  l = w' ++ t' ++ r' -> ws w' -> value t' j' -> vends t' j' f r' -> r = r'.
Proof.
  intros E1 W1 V1 N1 E2 W2 V2 N2.
  assert (K1 := proj2 (Skip_spec f l r) (ex_intro _ w (ex_intro _ t (ex_intro _ j (conj E1 (conj W1 (conj V1 N1))))))).
  assert (K2 := proj2 (Skip_spec f l r') (ex_intro _ w' (ex_intro _ t' (ex_intro _ j' (conj E2 (conj W2 (conj V2 N2))))))).
  congruence.
Qed.
Theorem Read_then_Skip it v r : wf it -> ~ dirty it -> yields (Read F) it v r -> yields Skip it tt r.
Proof.
  intros W D Y. apply Read_yields_sound in Y; auto. destruct Y as (w & t & j & E & Hw & Hv & _ & He).
  apply Skip_yields; eauto 8.
Qed.
Theorem Skip_then_Read it r : wf it -> ~ dirty it -> yields Skip it tt r ->
  (forall w t j, stream it = w ++ t ++ r -> ws w -> value t j -> nums_ok F (it_useNumber it) j) ->
  exists v, yields (Read F) it v r.
Proof.
  intros W D Y Hn. apply Skip_yields in Y; auto. destruct Y as (w & t & j & E & Hw & Hv & He).
  destruct (Read_yields_complete it w t j r W D E Hw Hv (Hn _ _ _ E Hw Hv) He) as (v & Y & _). eauto.
Qed.

(** ** ReadFloat *)
Lemma ReadFloat_spec f l v r : p_ReadFloat F f l = POk v r <->
  exists w t, l = w ++ t ++ r /\ ws w /\ number t /\ num_ends t f r /\ fl_parse F t = inl v.
Proof.
  unfold p_ReadFloat. split.
  - intros H. apply pbind_ok in H. destruct H as (c & l1 & E & H). apply takeToken_inv in E.
    destruct E as (w & -> & Hw & Hc). assert (Hd : c = 45 \/ is_digit c).
    { destruct (Z.eq_dec c 45); auto. destruct (is_digit_dec c) as [|Hn]; auto. exfalso.
      unfold p_readFloat in H. destruct (Z.eqb_spec c cMINUS); [congruence|]. rewrite positive_nodigit in H by auto. discriminate. }
    apply readFloat_spec in H; auto. destruct H as (t & Hn & -> & He & Hx). exists w, (c :: t). auto.
  - intros (w & t & -> & Hw & Hn & He & Hx). destruct (number_first _ Hn) as (c & t' & -> & Hc). simpl app.
    erewrite pbind_run by (apply takeToken_run; auto; unfold is_ws, is_digit in *; lia).
    apply readFloat_spec; eauto.
Qed.
Theorem ReadFloat_yields it v r : wf it -> ~ dirty it ->
  (yields (ReadFloat F) it v r <->
   exists w t, stream it = w ++ t ++ r /\ ws w /\ number t /\ num_ends t (fin it) r /\ fl_parse F t = inl v).
Proof. intros W D. rewrite (yields_iff _ _ _ (sim_ReadFloat F)) by (auto; exact I). apply ReadFloat_spec. Qed.
End ReadF.

(** ** Strings *)
Lemma ReadString_spec f l s r : p_ReadString f l = POk s r <->
  exists w b, l = w ++ 34 :: b ++ 34 :: r /\ ws w /\ string_body b s.
Proof.
  unfold p_ReadString, p_expectQuote. split.
  - intros H. apply pbind_ok in H. destruct H as ([] & l1 & E & H). apply next_inv in E.
    destruct E as (w & c & l' & -> & Hw & Hc & E). destruct (Z.eqb_spec c cQUOTE) as [->|]; [|discriminate].
    injection E as <-. apply readString_spec in H. destruct H as (b & Hb & Hs). cbn [tl] in Hb. subst. eauto 8.
  - intros (w & b & -> & Hw & Hb). rewrite (pbind_run _ _ _ _ tt (b ++ 34 :: r)).
    + apply readString_spec. eauto.
    + rewrite next_run by (auto; unfold is_ws; lia). reflexivity.
Qed.
Theorem ReadString_yields it s r : wf it -> ~ dirty it ->
  (yields ReadString it s r <->
   exists w b, stream it = w ++ 34 :: b ++ 34 :: r /\ ws w /\ string_body b s).
Proof. intros W D. rewrite (yields_iff _ _ _ sim_ReadString) by (auto; exact I). apply ReadString_spec. Qed.

(** ** Integers *)
Lemma sim_uint w : sim (readUintOp w) (p_ReadU (wbits w)).
Proof. destruct w; [apply sim_ReadUint8|apply sim_ReadUint16|apply sim_ReadUint32|apply sim_ReadUint64]. Qed.
Lemma sim_int w : sim (readIntOp w) (p_ReadI (wbits w)).
Proof. destruct w; [apply sim_ReadInt8|apply sim_ReadInt16|apply sim_ReadInt32|apply sim_ReadInt64]. Qed.
Lemma wide w : w <> W8 -> wbits w = 16 \/ wbits w = 32 \/ wbits w = 64.
Proof. destruct w; simpl; auto; congruence. Qed.
Theorem ReadUint_yields w it v r : w <> W8 -> wf it -> ~ dirty it ->
  (yields (readUintOp w) it v r <->
   exists s t, stream it = s ++ t ++ r /\ ws s /\ uint_token t r (fin it) /\ v = dec t /\ v < 2 ^ wbits w).
Proof.
  intros Hw W D. rewrite (yields_iff _ _ _ (sim_uint w)) by (auto; exact I).
  rewrite (ReadU_spec _ _ _ _ _ (wide w Hw)). split; intros (s & t & ? & ? & ? & ? & ?); exists s, t; auto 8.
Qed.
Theorem ReadUint_overflow w it s t r : w <> W8 -> wf it -> ~ dirty it ->
  stream it = s ++ t ++ r -> ws s -> uint_token t r (fin it) -> 2 ^ wbits w <= dec t ->
  fst (readUintOp w it) = Err EIntOverflow.
Proof.
  intros Hw W D E Hs Ht Hd. apply (pure_fails _ _ _ (sim_uint w)); auto; [exact I|]. rewrite E.
  apply ReadU_overflow; auto. now apply wide.
Qed.
Theorem ReadInt_yields w it v r : w <> W8 -> wf it -> ~ dirty it ->
  (yields (readIntOp w) it v r <->
   exists s t, stream it = s ++ t ++ r /\ ws s /\ int_token t v r (fin it) /\ - 2 ^ (wbits w - 1) <= v < 2 ^ (wbits w - 1)).
Proof.
  intros Hw W D. rewrite (yields_iff _ _ _ (sim_int w)) by (auto; exact I). apply ReadI_spec. now apply wide.
Qed.
Theorem ReadInt_overflow w it s t v r : w <> W8 -> wf it -> ~ dirty it ->
  stream it = s ++ t ++ r -> ws s -> int_token t v r (fin it) -> v < - 2 ^ (wbits w - 1) \/ 2 ^ (wbits w - 1) <= v ->
  fst (readIntOp w it) = Err EIntOverflow.
Proof.
  intros Hw W D E Hs Ht Hd. apply (pure_fails _ _ _ (sim_int w)); auto; [exact I|]. rewrite E.
  eapply ReadI_overflow; eauto. now apply wide.
Qed.
(** width 8: exact when the token has at most three digits *)
Theorem ReadUint8_short it s t r : wf it -> ~ dirty it -> stream it = s ++ t ++ r -> ws s ->
  uint_token t r (fin it) -> (length t <= 3)%nat -> dec t < 256 -> yields ReadUint8 it (dec t) r.
Proof.
  intros W D E Hs Ht Hl Hd. apply (pure_yields _ _ _ sim_ReadUint8); auto; [exact I|]. rewrite E.
  apply ReadU8_spec. exists s, t. repeat split; auto. now apply token_cut.
Qed.
Theorem ReadUint8_range it v r : wf it -> yields ReadUint8 it v r ->
  exists s t, stream it = s ++ t ++ r /\ ws s /\ digits t /\ v = dec t /\ 0 <= v < 256.
Proof.
  intros W Y. apply (yields_pure _ _ _ sim_ReadUint8) in Y; auto; [|exact I]. apply ReadU8_spec in Y.
  destruct Y as (s & t & E & Hs & Ht & Hd & Hv). exists s, t. split; auto. split; auto.
  assert (0 <= dec t) by (eapply cut_nonneg; eauto). repeat split; auto; try lia.
  destruct Ht as [[[->|(d & l & -> & Hd' & Hl & _)] _]|(a & b & c & -> & Ha & Hb & Hc)].
  - repeat constructor; unfold is_digit; lia.
  - constructor; auto. unfold is_digit; lia.
  - repeat constructor; auto; unfold is_digit in *; lia.
Qed.

(** ** NextValueType *)
Inductive starts_type : Z -> ValueType -> Prop :=
| st_string : starts_type 34 StringValue
| st_minus : starts_type 45 NumberValue
| st_digit c : is_digit c -> starts_type c NumberValue
| st_object : starts_type 123 ObjectValue
| st_array : starts_type 91 ArrayValue
| st_true : starts_type 116 BoolValue
| st_false : starts_type 102 BoolValue
| st_null : starts_type 110 NullValue
| st_other c : ~ is_ws c -> ~ In c [34; 45; 123; 91; 116; 102; 110] -> ~ is_digit c -> starts_type c InvalidValue.
Lemma starts_type_map c : ~ is_ws c -> starts_type c (valueTypeMap c).
Proof.
  intros Hw. unfold valueTypeMap.
  destruct (_ || _) eqn:E1 at 1. { unfold is_ws in Hw. lia. }
  destruct (Z.eqb_spec c cQUOTE) as [->|]; [constructor|].
  destruct ((c =? cMINUS) || _) eqn:E2.
  { destruct (Z.eq_dec c 45) as [->|]; [constructor|]. apply st_digit. unfold is_digit. lia. }
  destruct (Z.eqb_spec c cLBRACE) as [->|]; [constructor|].
  destruct (Z.eqb_spec c cLBRACK) as [->|]; [constructor|].
  destruct ((c =? c_t) || (c =? c_f)) eqn:E3.
  { destruct (Z.eq_dec c 116) as [->|]; [constructor|]. replace c with 102 by lia. constructor. }
  destruct (Z.eqb_spec c c_n) as [->|]; [constructor|].
  apply st_other; auto; [|unfold is_digit; lia]. simpl. lia.
Qed.
Theorem NextValueType_yields it ty r : wf it -> ~ dirty it ->
  (yields NextValueType it ty r -> exists w c l, stream it = w ++ c :: l /\ ws w /\ ~ is_ws c /\ r = c :: l /\ starts_type c ty).
Proof.
  intros W D Y. assert (H : sim NextValueType (pbind p_nextToken (fun c => pret (valueTypeMap c)))).
  { eapply sim_bind_eq; [apply sim_nextToken_eq|]. intros; apply sim_ret_eq. }
  apply (yields_pure _ _ _ H) in Y; auto; [|exact I]. apply next_inv in Y.
  destruct Y as (w & c & l & E & Hw & Hc & Y). injection Y as <- <-. exists w, c, l. split; auto. split; auto.
  split; auto. split; auto. now apply starts_type_map.
Qed.
Lemma outcome_fst {A} (it1 it1' it2 it2' : iter) (r1 r2 : res A) (p1 p2 : pres A) :
  ~ dirty it1 -> ~ dirty it2 -> outcome it1 it1' r1 p1 eqR -> outcome it2 it2' r2 p2 eqR -> p1 = p2 ->
  r1 = r2 /\ (forall a, r1 = Ok a -> stream it1' = stream it2').
Proof.
  intros D1 D2 [H1|[? _]] [H2|[? _]] E; try tauto. subst p2. destruct p1 as [b r|e].
  - destruct H1 as (a1 & -> & S1 & ->). destruct H2 as (a2 & -> & S2 & ->). split; auto. intros; congruence.
  - subst. split; [congruence|discriminate].
Qed.
Theorem NextValueType_then F32 F64 o it : wf it -> ~ dirty it ->
  let it1 := snd (NextValueType it) in
  fst (exec F32 F64 o it1) = fst (exec F32 F64 o it) /\
  (forall a, fst (exec F32 F64 o it) = Ok a -> stream (snd (exec F32 F64 o it1)) = stream (snd (exec F32 F64 o it))).
Proof.
  intros W D it1. assert (H : sim NextValueType (pbind p_nextToken (fun c => pret (valueTypeMap c)))).
  { eapply sim_bind_eq; [apply sim_nextToken_eq|]. intros; apply sim_ret_eq. }
  specialize (H it W I). unfold it1. destruct (NextValueType it) as [r it'] eqn:EN. simpl.
  destruct H as (W' & (u & M) & H). assert (D' : ~ dirty it') by (intros K; apply D; exact (mv_dirty _ _ _ M K)).
  assert (E : p_exec F32 F64 (it_useNumber it) o (fin it) (stream it) =
              p_exec F32 F64 (it_useNumber it') o (fin it') (stream it')).
  { rewrite (mv_num _ _ _ M), (mv_fin _ _ _ M).
    destruct H as [H|[? _]]; [|tauto]. rewrite pbind_eq in H.
    destruct (nextToken_cases (fin it) (stream it)) as [[Hw En]|(w & c & l & El & Hw & Hc & En)]; rewrite En in H.
    - assert (Hws : ws (stream it')).
      { rewrite (mv_stream _ _ _ M) in Hw. unfold ws in Hw. apply Forall_app in Hw. apply Hw. }
      rewrite <- (app_nil_r (stream it)), <- (app_nil_r (stream it')). now rewrite !exec_skip.
    - destruct H as (a & _ & Es & _). rewrite Es, El. now apply exec_skip. }
  assert (H1 := sim_exec F32 F64 (it_useNumber it) o it W eq_refl).
  assert (H2 := sim_exec F32 F64 (it_useNumber it') o it' W' eq_refl).
  destruct (exec F32 F64 o it) as [r1 i1]. destruct (exec F32 F64 o it') as [r2 i2]. simpl.
  destruct H1 as (_ & _ & H1). destruct H2 as (_ & _ & H2).
  destruct (outcome_fst _ _ _ _ _ _ _ _ D D' H1 H2 E) as [-> Hs]. split; auto. intros a K. symmetry. eauto.
Qed.

(** ** Error locations *)
Lemma errorLocation_ok it : wf it -> exists b, errorLocation it = Some b /\ (length b <= 40)%nat /\
  exists p s, it_buffer it = p ++ b ++ s /\ (length p <= it_head it)%nat /\ (it_head it <= length p + length b)%nat.
Proof.
  intros []. unfold errorLocation, errWidth.
  set (h := if (20 <? it_head it)%nat then (it_head it - 20)%nat else 0%nat).
  set (t := if (it_tail it - it_head it <? 20)%nat then it_tail it else (it_head it + 20)%nat).
  assert (Hh : (h <= it_head it /\ it_head it <= h + 20)%nat).
  { unfold h. destruct (Nat.ltb_spec 20 (it_head it)); lia. }
  assert (Ht : (it_head it <= t /\ t <= it_tail it /\ t <= it_head it + 20)%nat).
  { unfold t. destruct (Nat.ltb_spec (it_tail it - it_head it) 20); lia. }
  exists (sl (it_buffer it) h t). rewrite slice_sl by lia. split; auto.
  assert (L : length (sl (it_buffer it) h t) = (t - h)%nat) by (apply sl_length; lia).
  split; [lia|]. exists (firstn h (it_buffer it)), (skipn t (it_buffer it)).
  assert (Lf : length (firstn h (it_buffer it)) = h) by (rewrite firstn_length; lia).
  rewrite Lf, L. split; [|lia]. rewrite app_assoc, <- firstn_sl by lia. symmetry. apply firstn_skipn.
Qed.

(** ** NextValueType, both directions *)
Lemma starts_type_fun c ty : starts_type c ty -> valueTypeMap c = ty.
Proof.
  intros H. destruct H as [| |c Hc| | | | | |c Hw Hn Hd]; try reflexivity.
  - unfold valueTypeMap, is_digit in *.
    repeat match goal with |- context [if ?x then _ else _] => destruct x eqn:? end; try reflexivity; lia.
  - unfold valueTypeMap, is_digit, is_ws in *. simpl in Hn.
    repeat match goal with |- context [if ?x then _ else _] => destruct x eqn:? end; try reflexivity; exfalso; lia.
Qed.
Theorem NextValueType_spec it ty r : wf it -> ~ dirty it ->
  (yields NextValueType it ty r <->
   exists w c l, stream it = w ++ c :: l /\ ws w /\ ~ is_ws c /\ r = c :: l /\ starts_type c ty).
Proof.
  intros W D. split; [now apply NextValueType_yields|]. intros (w & c & l & E & Hw & Hc & -> & Ht).
  assert (H : sim NextValueType (pbind p_nextToken (fun c => pret (valueTypeMap c)))).
  { eapply sim_bind_eq; [apply sim_nextToken_eq|]. intros; apply sim_ret_eq. }
  apply (pure_yields _ _ _ H); auto; [exact I|]. rewrite E, next_run by auto. unfold pret.
  now rewrite (starts_type_fun _ _ Ht).
Qed.

(** ** Programs *)
Section Prog.
Variables F32 F64 : floatOps.
Notation prog := (prog F32 F64).

(** every input can be attached to an iterator *)
Definition attach (b : bool) (f : err) (l : bytes) : iter :=
  Reset (mkReader l [] f) (newIter b false (mkStack [] 0)).
Lemma attach_ok b f l : reachable F32 F64 (attach b f l) /\ ~ dirty (attach b f l) /\
  stream (attach b f l) = l /\ fin (attach b f l) = f /\ it_useNumber (attach b f l) = b.
Proof.
  split; [apply re_Reset, re_new|]. split; [|auto]. apply clean_Reset. intros [_ H]. inversion H.
Qed.

Lemma skipn_inj {A} (a b : nat) (l : list A) : (a <= length l)%nat -> (b <= length l)%nat -> skipn a l = skipn b l -> a = b.
Proof. intros Ha Hb E. apply (f_equal (@length A)) in E. rewrite !skipn_length in E. lia. Qed.

Theorem run_history {S} (p : prog S) a c : wf a -> wf c -> ~ dirty a -> ~ dirty c -> same_input a c ->
  InputOffset a = 0%nat -> InputOffset c = 0%nat ->
  fst (run p a) = fst (run p c) /\
  (forall s, fst (run p a) = Ok s ->
     stream (snd (run p a)) = stream (snd (run p c)) /\ InputOffset (snd (run p a)) = InputOffset (snd (run p c))).
Proof.
  intros Wa Wc Da Dc Hs Oa Oc. destruct (run_same F32 F64 p a c Wa Wc Da Dc Hs) as [E H]. split; auto.
  intros s Es. destruct (H s Es) as (S1 & _ & _). split; auto.
  destruct (run_offset F32 F64 p a Wa Oa) as [A1 A2]. destruct (run_offset F32 F64 p c Wc Oc) as [C1 C2].
  destruct Hs as (S0 & _ & _). rewrite S0 in *. apply (skipn_inj _ _ (stream c)); auto. congruence.
Qed.

(** with a reader that may deliver data together with an error *)
Theorem run_dirty {S} (p : prog S) a c : wf a -> wf c -> ~ dirty c -> same_input a c ->
  fst (run p a) = fst (run p c) \/ fst (run p a) = Err (fin a).
Proof.
  intros Wa Wc Dc (Es & Ef & En).
  destruct (run_outcome F32 F64 p a Wa) as (_ & _ & [Ha|[_ Ha]]); [|auto].
  destruct (run_outcome F32 F64 p c Wc) as (_ & _ & [Hc|[? _]]); [|tauto]. left.
  rewrite <- Es, <- Ef, <- En in Hc. destruct (p_run F32 F64 (it_useNumber a) p (fin a) (stream a)) as [s r|e].
  - destruct Ha as (x & -> & _ & ->). destruct Hc as (y & -> & _ & ->). auto.
  - congruence.
Qed.

(** ** Iteration with callbacks *)
Section Visit.
Context {S : Type}.
Variable b : bool.
(** a callback that reads exactly one value and changes the client's state as [G] says *)
Definition handles (p : prog S) (G : jval -> S -> Prop) : Prop :=
  forall it s r, reachable F32 F64 it -> ~ dirty it -> it_useNumber it = b ->
  (yields (run p) it s r <->
   exists w t j, stream it = w ++ t ++ r /\ ws w /\ value t j /\ vends t j (fin it) r /\ G j s).

Lemma handles_pure p G : handles p G -> sound (p_run F32 F64 b p) G /\ complete (p_run F32 F64 b p) G.
Proof.
  intros H. split.
  - intros f l a r E. destruct (attach_ok b f l) as (Re & D & Es & Ef & Eu).
    destruct (proj1 (H (attach b f l) a r Re D Eu)) as (w & t & j & ? & ? & ? & ? & ?).
    + apply (pure_yields _ _ _ (sim_run F32 F64 b p)); auto. now apply (reachable_wf F32 F64).
    + exists w, t, j. rewrite Es, Ef in *. auto.
  - intros f w t j a r Hw Hv HG He. destruct (attach_ok b f (w ++ t ++ r)) as (Re & D & Es & Ef & Eu).
    assert (Y : yields (run p) (attach b f (w ++ t ++ r)) a r).
    { apply H; auto. exists w, t, j. rewrite Es, Ef. auto. }
    apply (yields_pure _ _ _ (sim_run F32 F64 b p)) in Y; auto. now apply (reachable_wf F32 F64).
Qed.

Lemma vends_arr t js f r : vends t (JArr js) f r.
Proof. exact I. Qed.
Lemma iff_of_sound_complete (m : M S) (p : P S) (G : jval -> S -> Prop) :
  simR (num b) m p eqR -> sound p G -> complete p G ->
  forall it s r, wf it -> ~ dirty it -> it_useNumber it = b ->
  (yields m it s r <->
   exists w t j, stream it = w ++ t ++ r /\ ws w /\ value t j /\ vends t j (fin it) r /\ G j s).
Proof.
  intros Hs So Co it s r W D Eu. rewrite (yields_iff _ _ _ Hs) by auto. split.
  - intros E. destruct (So _ _ _ _ E) as (w & t & j & ? & ? & ? & ? & ?). exists w, t, j. auto.
  - intros (w & t & j & E & Hw & Hv & He & HG). rewrite E. now apply Co with j.
Qed.

Variable cb : S -> prog S.
Variable G : S -> jval -> S -> Prop.
Hypothesis Hcb : forall s, handles (cb s) (G s).
Theorem ReadArrayCB_visits it s s' r : wf it -> ~ dirty it -> it_useNumber it = b ->
  (yields (ReadArrayCB (fun x => run (cb x)) s) it s' r <->
   exists w t js, stream it = w ++ t ++ r /\ ws w /\ value t (JArr js) /\ foldG G s js s').
Proof.
  intros W D Eu.
  rewrite (iff_of_sound_complete _ (p_ArrayCB (fun x => p_run F32 F64 b (cb x)) s) (fun j s' => exists js, j = JArr js /\ foldG G s js s')); auto.
  - split; [intros (w & t & j & ? & ? & ? & _ & js & -> & ?)|intros (w & t & js & ? & ? & ? & ?)]; [exists w, t, js; auto|].
    exists w, t, (JArr js). repeat (split; auto); try exact I. exists js. auto.
  - apply sim_ReadArrayCB; [apply stable_num|]. intros x. apply sim_run.
  - apply ArrayCB_sound. intros x. apply handles_pure, Hcb.
  - apply ArrayCB_complete. intros x. apply handles_pure, Hcb.
Qed.
Theorem arrayClient_visits it s s' r : wf it -> ~ dirty it -> it_useNumber it = b ->
  (yields (arrayClient (fun x => run (cb x)) s) it s' r <->
   exists w t js, stream it = w ++ t ++ r /\ ws w /\ value t (JArr js) /\ foldG G s js s').
Proof.
  intros W D Eu. rewrite <- ReadArrayCB_visits by auto.
  rewrite (yields_iff (num b) _ (p_arrayClient (fun x => p_run F32 F64 b (cb x)) s)); auto.
  2:{ apply sim_arrayClient; [apply stable_num|]. intros x. apply sim_run. }
  rewrite (yields_iff (num b) _ (p_ArrayCB (fun x => p_run F32 F64 b (cb x)) s)); auto.
  2:{ apply sim_ReadArrayCB; [apply stable_num|]. intros x. apply sim_run. }
  rewrite arrayClient_eq; [tauto|]. intros x. eapply sound_shrinks. apply handles_pure, Hcb.
Qed.

Variable cbo : S -> bytes -> prog S.
Variable K : S -> bytes -> jval -> S -> Prop.
Hypothesis Hcbo : forall s k, handles (cbo s k) (K s k).
Theorem ReadObjectCB_visits it s s' r : wf it -> ~ dirty it -> it_useNumber it = b ->
  (yields (ReadObjectCB (fun x k => run (cbo x k)) s) it s' r <->
   exists w t ms, stream it = w ++ t ++ r /\ ws w /\ value t (JObj ms) /\ foldK K s ms s').
Proof.
  intros W D Eu.
  rewrite (iff_of_sound_complete _ (p_ObjectCB (fun x k => p_run F32 F64 b (cbo x k)) s) (fun j s' => exists ms, j = JObj ms /\ foldK K s ms s')); auto.
  - split; [intros (w & t & j & ? & ? & ? & _ & js & -> & ?)|intros (w & t & js & ? & ? & ? & ?)]; [exists w, t, js; auto|].
    exists w, t, (JObj js). repeat (split; auto); try exact I. exists js. auto.
  - apply sim_ReadObjectCB; [apply stable_num|]. intros x k. apply sim_run.
  - apply ObjectCB_sound. intros x k. apply handles_pure, Hcbo.
  - apply ObjectCB_complete. intros x k. apply handles_pure, Hcbo.
Qed.
Theorem objectClient_visits it s s' r : wf it -> ~ dirty it -> it_useNumber it = b ->
  (yields (objectClient (fun x k => run (cbo x k)) s) it s' r <->
   exists w t ms, stream it = w ++ t ++ r /\ ws w /\ value t (JObj ms) /\ foldK K s ms s').
Proof.
  intros W D Eu. rewrite <- ReadObjectCB_visits by auto.
  rewrite (yields_iff (num b) _ (p_objectClient (fun x k => p_run F32 F64 b (cbo x k)) s)); auto.
  2:{ apply sim_objectClient; [apply stable_num|]. intros x k. apply sim_run. }
  rewrite (yields_iff (num b) _ (p_ObjectCB (fun x k => p_run F32 F64 b (cbo x k)) s)); auto.
  2:{ apply sim_ReadObjectCB; [apply stable_num|]. intros x k. apply sim_run. }
  rewrite objectClient_ok; [tauto|]. intros x k. apply (sound_shrinks _ (K x k)). apply handles_pure, Hcbo.
Qed.
End Visit.

(** callbacks that skip the value handle every value *)
Lemma handles_skip {S} b (s : S) : handles b (Do OSkip (fun _ => Done s)) (fun _ s' => s' = s).
Proof.
  intros it s' r Re D Eu. assert (W := reachable_wf F32 F64 it Re).
  rewrite (yields_iff _ _ _ (sim_run F32 F64 b _)) by auto. cbn [p_run p_exec]. unfold p_out, pbind, pret.
  assert (H := Skip_spec (fin it) (stream it)).
  destruct (p_Skip (fin it) (stream it)) as [[] r0|e].
  - split.
    + intros E. apply POk_inj in E. destruct E as [<- <-]. destruct (proj1 (H r0) eq_refl) as (w & t & j & ? & ? & ? & ?).
      exists w, t, j. auto.
    + intros (w & t & j & E & Hw & Hv & He & ->).
      assert (K := proj2 (H r) (ex_intro _ w (ex_intro _ t (ex_intro _ j (conj E (conj Hw (conj Hv He))))))). congruence.
  - split; [discriminate|]. intros (w & t & j & E & Hw & Hv & He & ->).
    assert (K := proj2 (H r) (ex_intro _ w (ex_intro _ t (ex_intro _ j (conj E (conj Hw (conj Hv He))))))). discriminate.
Qed.
Lemma foldG_count n js n' : foldG (fun (s : nat) (_ : jval) s' => s' = S s) n js n' <-> n' = (n + length js)%nat.
Proof.
  revert n. induction js as [|j js IH]; intros n; simpl; split.
  - intros H. inversion H; subst. lia.
  - intros ->. rewrite Nat.add_0_r. constructor.
  - intros H. inversion H; subst. rewrite IH in H5. lia.
  - intros ->. econstructor; eauto. rewrite IH. lia.
Qed.
Lemma foldK_keys ks ms ks' : foldK (fun (s : list bytes) k (_ : jval) s' => s' = s ++ [k]) ks ms ks' <-> ks' = ks ++ map fst ms.
Proof.
  revert ks. induction ms as [|[k j] ms IH]; intros ks; simpl; split.
  - intros H. inversion H; subst. now rewrite app_nil_r.
  - intros ->. rewrite app_nil_r. constructor.
  - intros H. inversion H; subst. rewrite IH in H6. subst. now rewrite <- app_assoc.
  - intros ->. econstructor; eauto. rewrite IH. now rewrite <- app_assoc.
Qed.
End Prog.

Theorem ReadRaw_yields it v r : wf it -> ~ dirty it ->
  (yields ReadRaw it v r <->
   exists w j, stream it = w ++ v ++ r /\ ws w /\ value v j /\ vends v j (fin it) r).
Proof.
  intros W D. unfold ReadRaw. rewrite AppendRaw_yields by auto. simpl. split.
  - intros (w & t & j & -> & ?). eauto.
  - intros (w & j & ?). exists w, v, j. auto.
Qed.

Fixpoint nums_ok_number F j : nums_ok F true j.
Proof.
  destruct j as [|b|t|s|js|ms]; try (constructor; auto).
  - induction js as [|j js IH]; constructor; auto.
  - induction ms as [|m ms IH]; constructor; auto.
Qed.

Theorem ReadFloat_sign F it v r : float_sane F -> wf it -> ~ dirty it ->
  (yields (ReadFloat F) it v r <->
   exists w t, stream it = w ++ t ++ r /\ ws w /\ number t /\ num_ends t (fin it) r /\
     match t with
     | 45 :: u => exists x, fl_parse F u = inl x /\ v = fl_neg F x
     | _ => fl_parse F t = inl v
     end).
Proof.
  intros Sa W D. rewrite ReadFloat_yields by auto.
  assert (K : forall t, number t -> fl_parse F t = inl v <->
     match t with
     | 45 :: u => exists x, fl_parse F u = inl x /\ v = fl_neg F x
     | _ => fl_parse F t = inl v
     end).
  { intros t Hn. destruct (number_first _ Hn) as (c & u & -> & Hc). destruct (Z.eq_dec c 45) as [->|Hne].
    - rewrite (fs_neg _ Sa) by now apply number_minus. destruct (fl_parse F u) as [x|e]; simpl.
      + split; [intros [= <-]; eauto|intros (y & [= <-] & ->); auto].
      + split; [discriminate|]. intros (x & ? & _). discriminate.
    - clear Hn Hc. destruct c as [|p|p]; try tauto. repeat (destruct p as [p|p|]; try tauto; try congruence). }
  split; intros (w & t & E & Hw & Hn & He & Hx); exists w, t; repeat (split; auto); now apply K.
Qed.

Lemma Buffer_window it : wf it -> Buffer it = Some (window it).
Proof. intros []. unfold Buffer, window. now rewrite slice_sl by lia. Qed.
