(** The typed decoders: the error of the end of the input means that the text is cut off there. *)
From Coq Require Import String ZArith List Bool Lia Arith.
From Verif Require Import Base ModelIter ModelStack ModelSkip ModelStr ModelInt ModelFloat ModelRead ModelIterate ModelOps
  ModelFold ModelBase64 Sim SimLib StackFacts Machine SimSkip SimRaw SimStr SimInt SimFloat SimRead SimIterate SimOps SimVal
  NumFacts StrFacts MachineFacts FloatFacts GrammarFacts IterFacts ModelVal SpecVal DecFacts DecSound Spec SpecCut SpecEnd CutFacts CutMachine CutRead CutTyped.
Import ListNotations.
Local Open Scope Z_scope.

Section CutVal.
Variables F32 F64 : floatOps.
Variable C : custom.
Notation gval := (gval F32 F64 C).
Notation pdecoder := (pdecoder F32 F64 C).
Variable E : env F32 F64 C.
Notation zero := (zero F32 F64 C E).
Notation under := (under F32 F64 C E).
Variables b d : bool.
Variable sf : Z -> Z.
Variable cs : bool.
Variable f : err.
Hypothesis En : ending f.
Hypothesis named : forall n, tame (te_zero F32 F64 C E n).

(** ** Values *)
Lemma tame_list (l : list gval) : fold_right (fun x p => tame x /\ p) True l <-> Forall tame l.
Proof. induction l as [|x l IH]; cbn; [split; constructor|]. rewrite IH. split; [intros []; now constructor|]. inversion 1; auto. Qed.
Lemma tame_arr l : @tame F32 F64 C (VArr l) <-> Forall tame l.
Proof. apply tame_list. Qed.
Lemma tame_struct l : @tame F32 F64 C (VStruct l) <-> Forall tame l.
Proof. apply tame_list. Qed.
Lemma tame_zero : forall t, tame (zero t).
Proof.
  fix IH 1. intros t. destruct t; cbn [ModelVal.zero tame]; auto.
  - apply tame_list, Forall_forall. intros x Hx. apply repeat_spec in Hx. subst. apply IH.
  - induction layout as [|t l IHl]; cbn; auto.
Qed.
Lemma tame_upd l i (x : gval) : Forall tame l -> tame x -> Forall tame (upd l i x).
Proof. revert i. induction l as [|y l IH]; intros [|i] H Hx; cbn; auto; inversion H; subst; constructor; auto. Qed.
Lemma tame_nth l i (x : gval) : Forall tame l -> nth_error l i = Some x -> tame x.
Proof. intros H K. apply nth_error_In in K. rewrite Forall_forall in H. auto. Qed.
Lemma tame_read g : tame (of_read F32 F64 C g).
Proof. destruct g; exact I. Qed.

(** ** Decoders *)
Notation told := (told f).
(** the decoder [p] under the option string if [q] *)
Definition clear (q : bool) (p : pdecoder) : Prop := forall o old l, o_mapKey o = false -> o_quoted o = q -> tame old -> told tame (p o old f l) l.
Lemma pure_null (v : gval) r : tame v -> told tame (p_readNull F32 F64 C v f (110 :: r)) (110 :: r).
Proof. intros H. apply (told_null f En tame (pret v)). exact H. Qed.
Lemma keep_ret {A} (T T' : A -> Prop) (g : A -> gval) : (forall a, T a -> tame (g a)) ->
  forall a r, T a -> match pret (g a) f r with POk v r' => tame v /\ r' = r | PErr e => e <> f end.
Proof. intros H a r Ha. split; auto. Qed.
Lemma clear_bool : clear false (p_boolDecoder F32 F64 C).
Proof.
  intros o old l Hk Hq Ho. unfold p_boolDecoder. apply told_token; auto. intros c r Hc. rewrite Hq.
  destruct (Z.eqb_spec c c_n) as [->|N]; [now apply pure_null|].
  destruct (Z.eqb_spec c c_t) as [->|N2].
  { apply told_skip; auto. rewrite skip_at by (unfold is_ws; lia). change (p_skipFunctions 116 f r) with (p_expectBytes (bs "rue") f r).
    unfold pbind, p_inc, pret. cbn [tl]. destruct (p_expectBytes (bs "rue") f r) as [[] r'|e]; [split; [exact I|auto]|]. now intros ->. }
  destruct (Z.eqb_spec c c_f) as [->|N3].
  { apply told_skip; auto. rewrite skip_at by (unfold is_ws; lia). change (p_skipFunctions 102 f r) with (p_expectBytes (bs "alse") f r).
    unfold pbind, p_inc, pret. cbn [tl]. destruct (p_expectBytes (bs "alse") f r) as [[] r'|e]; [split; [exact I|auto]|]. now intros ->. }
  cbn [negb]. destruct (c =? cQUOTE); apply told_fail; now apply no_byte.
Qed.
Lemma clear_string q : clear q (p_stringDecoder F32 F64 C).
Proof.
  intros o old l Hk Hq Ho. unfold p_stringDecoder. apply told_token; auto. intros c r Hc.
  destruct (Z.eqb_spec c cQUOTE) as [->|N].
  - apply (told_str f En (fun _ => True)); auto. intros s x. assert (N := no_other f En 6). fold BadQuotedStringError in N.
    destruct (negb (o_quoted o)); [split; [exact I|reflexivity]|]. destruct (_ <? _)%nat; [exact N|].
    destruct (_ =? c_n). { destruct (negb _); [exact N|]. split; auto. }
    destruct (_ =? cQUOTE); [|exact N]. destruct (negb _); [exact N|]. destruct (p_readQuoted s); [|exact N]. split; [exact I|reflexivity].
  - destruct (Z.eqb_spec c c_n) as [->|N2]; [now apply pure_null|]. apply told_fail; now apply no_byte.
Qed.
Lemma clear_int q s w : clear q (p_intDecoder F32 F64 C s w).
Proof.
  intros o old l Hk Hq Ho. unfold p_intDecoder. apply told_token; auto. intros c r Hc.
  destruct (Z.eqb_spec c c_n) as [->|N]; [now apply pure_null|]. rewrite Hk, Hq, orb_false_r. destruct q.
  - destruct (Z.eqb_spec c cQUOTE) as [->|Nq]; cbn [negb]; [|apply told_fail; now apply no_byte].
    rewrite pbind_assoc. rewrite (pbind_run _ _ _ _ tt r) by reflexivity.
    destruct r as [|c' r]; [intros _; apply (plain_cut f En []); constructor|].
    rewrite (pbind_run _ _ _ _ c' (c' :: r)) by reflexivity. rewrite (pbind_run _ _ _ _ tt r) by reflexivity.
    unfold pbind at 1. destruct (p_readIntOf s w c' f r) as [i r'|e] eqn:Ei.
    + apply intOf_sound in Ei. destruct Ei as (t & -> & Ht & _). apply int_text_number, number_plain in Ht.
      destruct r' as [|x r']; [intros _; rewrite app_nil_r; now apply plain_cut|].
      rewrite (pbind_run _ _ _ _ x (x :: r')) by reflexivity. destruct (Z.eqb_spec x cQUOTE) as [->|Nx]; cbn [negb]; [|apply told_fail; now apply no_byte].
      split; [exact I|]. exact (plain_front (c' :: t) r' Ht).
    + intros ->. apply intOf_end in Ei; auto. destruct Ei as [Hd Ei]. apply plain_cut; auto.
      apply (number_cut_plain f); auto. apply skip_cut; auto. now rewrite skipNumber_at.
  - rewrite (pbind_run _ _ _ _ c (c :: r)) by reflexivity. rewrite (pbind_run _ _ _ _ tt r) by reflexivity.
    unfold pbind at 1. destruct (p_readIntOf s w c f r) as [i r'|e] eqn:Ei.
    + apply intOf_sound in Ei. destruct Ei as (t & -> & Ht & _). apply int_text_number in Ht. split; [exact I|].
      exists [], (c :: t), (JNum (c :: t)). split; auto. split; [constructor|now constructor].
    + intros ->. apply intOf_end in Ei; auto. destruct Ei as [Hd Ei]. apply skip_cut; auto. now rewrite skipNumber_at.
Qed.
Lemma told_float {A} (T : A -> Prop) F (g : fl F -> A) c r : (forall x, T (g x)) -> ~ is_ws c ->
  told T (pbind (p_ReadFloat F) (fun x => pret (g x)) f (c :: r)) (c :: r).
Proof.
  intros HT Hc. unfold p_ReadFloat. rewrite pbind_assoc. rewrite (pbind_run _ _ _ _ c r) by exact (takeToken_run f [] c r ws_nil Hc).
  assert (D : (c = 45 \/ is_digit c) \/ ~ (c = 45 \/ is_digit c)). { destruct (Z.eq_dec c 45), (is_digit_dec c); tauto. }
  destruct D as [D|D].
  - apply (told_echo f En _ false).
    + rewrite skipNumber_at by auto. apply (echo_left _ _ _ (fun x => pret (g x))); [now apply float_echo|]. intros; apply echo_ok.
    + intros v r' H. unfold pbind in H. destruct (p_readFloat F c f r); [|discriminate]. injection H as <- <-. apply HT.
  - unfold pbind, p_readFloat. destruct (Z.eqb_spec c cMINUS); [tauto|]. unfold p_readPositiveFloat.
    assert (N : intDigits c =? invalidDigit = true) by (apply intDigits_nodigit; tauto). rewrite N. apply told_fail. now apply no_byte.
Qed.
Lemma clear_float q F (inj : fl F -> gval) : (forall x, tame (inj x)) -> clear q (p_floatDecoder F32 F64 C F inj).
Proof.
  intros HT o old l Hk Hq Ho. unfold p_floatDecoder. apply told_token; auto. intros c r Hc.
  destruct (Z.eqb_spec c c_n) as [->|N]; [now apply pure_null|]. now apply told_float.
Qed.
Lemma clear_number q : clear q (p_jsonNumberDecoder F32 F64 C).
Proof.
  intros o old l Hk Hq Ho. unfold p_jsonNumberDecoder. apply told_token; auto. intros c r Hc.
  assert (Hst := starts_type_map c Hc). destruct (valueTypeMap c) eqn:Ev; try (apply told_fail; now apply no_byte).
  - assert (c = 34) as -> by (inversion Hst; auto). rewrite (pbind_run _ _ _ _ tt r) by reflexivity.
    destruct r as [|x r]; [intros _; apply (plain_cut f En []); constructor|].
    rewrite (pbind_run _ _ _ _ x (x :: r)) by reflexivity. destruct (isNumberValue (valueTypeMap x)) eqn:Ex; cbn [negb]; [|apply told_fail; now apply no_byte].
    apply (isNumber_digit sf) in Ex. rewrite (pbind_run _ _ _ _ tt r) by reflexivity. unfold pbind at 1, p_readNumberAsString, p_captured.
    destruct (p_skipNumber x f r) as [[] r'|e] eqn:Es.
    + apply skipNumber_spec in Es; auto. destruct Es as (t & Hn & -> & _). apply number_plain in Hn.
      destruct r' as [|y r']; [intros _; rewrite app_nil_r; now apply plain_cut|].
      rewrite (pbind_run _ _ _ _ y (y :: r')) by reflexivity. destruct (Z.eqb_spec y cQUOTE) as [->|Ny]; cbn [negb]; [|apply told_fail; now apply no_byte].
      split; [exact I|]. exact (plain_front (x :: t) r' Hn).
    + intros ->. apply plain_cut; auto. apply (number_cut_plain f); auto. apply skip_cut; auto. now rewrite skipNumber_at.
  - assert (Hd : c = 45 \/ is_digit c) by (apply (isNumber_digit sf); now rewrite Ev). rewrite (pbind_run _ _ _ _ tt r) by reflexivity.
    apply told_skip; auto. rewrite skipNumber_at by auto. unfold pbind, p_readNumberAsString, p_captured.
    destruct (p_skipNumber c f r) as [[] r'|e]; [split; [exact I|reflexivity]|now intros ->].
  - assert (c = 110) as -> by (inversion Hst; auto). now apply pure_null.
Qed.
Lemma told_raw l : told (fun _ => True) (p_SkipRaw f l) l.
Proof.
  apply told_skip; auto. unfold p_SkipRaw, p_Skip, p_takeToken, p_captured, pbind. destruct (p_nextToken f l) as [c r|e]; [|now intros ->].
  unfold p_inc, pret. destruct (p_skipFunctions c f (tl r)) as [[] r'|e]; [auto|now intros ->].
Qed.
Lemma clear_raw q : clear q (p_jsonRawMessageDecoder F32 F64 C).
Proof.
  intros o old l Hk Hq Ho. unfold p_jsonRawMessageDecoder, p_AppendRaw. rewrite pbind_assoc.
  apply (told_bind f (fun _ => True)); [apply told_raw|]. intros a r _. split; [exact I|reflexivity].
Qed.
Lemma method_told (m : cu_state C -> bytes -> cu_state C + err) old x r : (forall s x e, m s x = inr e -> ~ ending e) ->
  match p_method F32 F64 C m old x f r with POk v r' => tame v /\ r' = r | PErr e => e <> f end.
Proof.
  intros H. unfold p_method. destruct old; try exact (no_other f En (-4)). destruct (m _ x) as [s'|e] eqn:Em; [split; [exact I|reflexivity]|].
  intros ->. now apply H in Em.
Qed.
Lemma clear_json q id : (forall s x e, cu_json C id s x = inr e -> ~ ending e) -> clear q (p_jsonUnmarshalerDecoder F32 F64 C id).
Proof.
  intros H o old l Hk Hq Ho. apply (told_bind f (fun _ => True)); [apply told_raw|]. intros a r _. now apply method_told.
Qed.
Lemma clear_text q id : (forall s x e, cu_text C id s x = inr e -> ~ ending e) -> clear q (p_textUnmarshalerDecoder F32 F64 C id).
Proof.
  intros H o old l Hk Hq Ho. unfold p_textUnmarshalerDecoder. apply told_token; auto. intros c r Hc.
  destruct (Z.eqb_spec c cQUOTE) as [->|N].
  - apply (told_str f En (fun _ => True)); auto. intros s x. now apply method_told.
  - destruct (Z.eqb_spec c c_n) as [->|N2]; [now apply pure_null|]. apply told_fail; now apply no_byte.
Qed.
Lemma clear_pointer q z p : tame z -> clear q p -> clear q (p_pointerDecoder F32 F64 C z p).
Proof.
  intros Hz Hp o old l Hk Hq Ho. unfold p_pointerDecoder. apply told_token; auto. intros c r Hc.
  destruct (Z.eqb_spec c c_n) as [->|N]; [now apply pure_null|]. destruct old; try (apply told_fail; apply no_other; auto).
  apply (told_bind f tame); [apply Hp; auto; destruct o0; auto|]. intros a x Ha. split; auto.
Qed.
Lemma clear_array q z p : tame z -> clear false p -> clear q (p_arrayDecoder F32 F64 C z p).
Proof.
  intros Hz Hp o old l Hk Hq Ho. unfold p_arrayDecoder. apply told_token; auto. intros c r Hc.
  destruct (Z.eqb_spec c c_n) as [->|N]; [now apply pure_null|].
  destruct (Z.eqb_spec c cLBRACK) as [->|N2]; cbn [negb]; [|apply told_fail; now apply no_byte].
  destruct old; try (apply told_fail; apply no_other; auto). apply tame_arr in Ho.
  refine (array_told f En (fun n (s : nat * list gval) => p_arrayLoop F32 F64 C n p (fst s) (snd s))
    (fun s => match nth_error (snd s) (fst s) with
       | Some v => pbind (p noOpts v) (fun v' => pret (S (fst s), upd (snd s) (fst s) v'))
       | None => pbind p_Skip (fun _ => pret (fst s, snd s)) end)
    (fun _ st => st) (fun _ st => st) (fun s => Forall tame (snd s)) (fun s => Forall tame (snd s)) _ _ _ tame (O, l0) (O, l0)
    (fun st => VArr (firstn (fst st) (snd st) ++ repeat z (length l0 - fst st))) r Ho Ho _).
  - reflexivity.
  - reflexivity.
  - intros [n a] x Ha. cbn [fst snd] in *. destruct (nth_error a n) as [v|] eqn:Ev.
    + apply (told_bind f tame); [apply Hp; auto; eapply tame_nth; eauto|]. intros v' y Hv'. cbn. split; auto. split; now apply tame_upd.
    + apply (told_bind f (fun _ => True)).
      * apply told_skip; auto. destruct (p_Skip f x) as [[] y|e]; [auto|now intros ->].
      * intros v y _. cbn. auto.
  - intros [n a] Ha. cbn [fst snd] in *. apply tame_arr. apply Forall_app. split.
    + apply Forall_forall. intros y Hy. rewrite Forall_forall in Ha. apply Ha. rewrite <- (firstn_skipn n a). apply in_or_app. now left.
    + apply Forall_forall. intros y Hy. apply repeat_spec in Hy. now subst.
Qed.
Lemma clear_slice q isByte z p : tame z -> clear false p -> clear q (p_sliceDecoder F32 F64 C isByte z p).
Proof.
  intros Hz Hp o old l Hk Hq Ho. unfold p_sliceDecoder. apply told_token; auto. intros c r Hc.
  destruct (Z.eqb_spec c c_n) as [->|N]; [now apply pure_null|].
  destruct (Z.eqb_spec c cQUOTE) as [->|N1].
  { destruct isByte; cbn [negb]; [|apply told_fail; now apply no_byte]. unfold p_readBase64. rewrite (pbind_run _ _ _ _ tt r) by reflexivity.
    assert (B : told (fun _ => True) (p_body f r) (34 :: r)).
    { apply told_skip; auto. rewrite skip_at by auto. change (p_skipFunctions 34 f r) with (p_skipString f r). unfold p_body, p_captured.
      destruct (p_skipString f r) as [[] r'|e]; [auto|now intros ->]. }
    unfold pbind. destruct (p_body f r) as [x r'|e]; [|exact B]. destruct B as [_ B].
    destruct (b64decode x); [split; [exact I|exact B]|]. apply told_fail. apply no_other; auto. }
  destruct (Z.eqb_spec c cLBRACK) as [->|N2]; cbn [negb]; [|apply told_fail; now apply no_byte].
  refine (array_told f En (fun n (s : list gval) => p_sliceLoop F32 F64 C n z p s) (fun _ => p noOpts z)
    (fun s v => s ++ [v]) (fun s v => s ++ [v]) (fun _ => True) (fun _ => True) _ _ _ tame [] [] (fun l => VSlice (Some l)) r I I _).
  - reflexivity.
  - reflexivity.
  - intros s x _. assert (K := Hp noOpts z x eq_refl eq_refl Hz). destruct (p noOpts z f x); [|exact K]. destruct K as [_ K]. split; [auto|exact K].
  - intros x _. exact I.
Qed.
Lemma follow_told path p l : (forall v, tame v -> told tame (p v f l) l) -> forall v, tame v ->
  told tame (p_follow F32 F64 C E path p v f l) l.
Proof.
  intros Hp. induction path as [|h path IH]; intros v Hv; [now apply Hp|]. cbn [p_follow]. destruct h as [i|al].
  - destruct v; try (apply told_fail; apply no_other; auto). apply tame_struct in Hv. destruct (nth_error _ i) as [x|] eqn:Ex; [|apply told_fail; apply no_other; auto].
    apply (told_bind f tame); [apply IH; eapply tame_nth; eauto|]. intros y r Hy. split; auto. apply tame_struct. now apply tame_upd.
  - destruct v as [| | | | | | |[x|]| | | | |]; try (apply told_fail; apply no_other; auto).
    + apply (told_bind f tame); [now apply IH|]. intros y r Hy. split; auto.
    + destruct al as [t|]; [|apply told_fail; apply no_other; auto]. apply (told_bind f tame); [apply IH, tame_zero|]. intros y r Hy. split; auto.
Qed.
Lemma told_skipped (v : gval) l : tame v -> told tame (pbind p_Skip (fun _ => pret v) f l) l.
Proof. intros H. apply told_skip; auto. unfold pbind. destruct (p_Skip f l) as [[] y|e]; [split; auto|now intros ->]. Qed.
Lemma clear_struct q find fields : Forall (fun fi => clear (pf_quoted F32 F64 C fi) (pf_decoder F32 F64 C fi)) fields ->
  clear q (p_structDecoder F32 F64 C E d find fields).
Proof.
  intros Hf o old l Hk Hq Ho. unfold p_structDecoder. apply told_token; auto. intros c r Hc.
  destruct (Z.eqb_spec c c_n) as [->|N]; [now apply pure_null|].
  destruct (Z.eqb_spec c cLBRACE) as [->|N2]; cbn [negb]; [|apply told_fail; now apply no_byte].
  refine (object_told f En (fun n s => p_structLoop F32 F64 C E d n find fields s)
    (fun name s => match find name with
             | Some i =>
                 match nth_error fields i with
                 | None => pfail errType
                 | Some fi => p_follow F32 F64 C E (pf_path F32 F64 C fi) (pf_decoder F32 F64 C fi (mkOpts false (pf_quoted F32 F64 C fi))) s
                 end
             | None => if d then pfail (EUnknownField name) else pbind p_Skip (fun _ => pret s)
             end) tame _ _ _ old r Ho).
  - reflexivity.
  - reflexivity.
  - intros name s x Hs. destruct (find name) as [i|].
    + destruct (nth_error fields i) as [fi|] eqn:Ei; [|apply told_fail; apply no_other; auto]. apply follow_told; auto. intros v Hv.
      apply nth_error_In in Ei. rewrite Forall_forall in Hf. apply (Hf fi Ei); auto.
    + destruct d; [|now apply told_skipped]. apply told_fail. intros K. destruct En as [|[m ?]]; congruence.
Qed.
Lemma clear_empty q : clear q (p_emptyObjectDecoder F32 F64 C d).
Proof.
  intros o old l Hk Hq Ho. unfold p_emptyObjectDecoder. apply told_token; auto. intros c r Hc.
  destruct (Z.eqb_spec c c_n) as [->|N]; [now apply pure_null|]. rewrite (pbind_run _ _ _ _ tt r) by reflexivity.
  destruct (Z.eqb_spec c cLBRACE) as [->|N2]; [|apply told_fail; now apply no_byte]. destruct d.
  - unfold pbind at 1. destruct (nextToken_cases f r) as [[Hw ->]|(w & x & r2 & -> & Hw & Hx & ->)].
    + intros _. apply (other_cut f _ [125] [] (123 :: r ++ [125]) (JObj [])); [reflexivity|discriminate|constructor|now constructor|discriminate].
    + rewrite (pbind_run _ _ _ _ tt r2) by reflexivity. destruct (Z.eqb_spec x cRBRACE) as [->|Nx]; cbn [negb]; [|apply told_fail; now apply no_byte].
      split; auto. exists [], (123 :: w ++ [125]), (JObj []). split; [cbn [app]; now rewrite <- app_assoc|]. split; [constructor|now constructor].
  - apply told_skip; auto. rewrite skip_at by auto. unfold pbind. destruct (p_skipFunctions 123 f r) as [[] r'|e]; [split; auto|now intros ->].
Qed.
Lemma clear_eface q dec : clear q (p_efaceDecoder F32 F64 C E b dec).
Proof.
  intros o old l Hk Hq Ho. unfold p_efaceDecoder. destruct old as [| | | | | | | | | | | |i]; try (apply told_fail; apply no_other; auto).
  assert (H : heldPtr F32 F64 C E i = None).
  { destruct i as [[t v]|]; [|reflexivity]. cbn in *. destruct v as [| | | | | | |[x|]| | | | |]; try reflexivity. contradiction. }
  rewrite H. apply (told_echo f En _ b).
  - apply (echo_left _ _ _ (fun g => pret (of_read F32 F64 C g))); [apply Read_echo|intros; apply echo_ok].
  - intros v r K. unfold pbind in K. destruct (p_Read F64 b f l); [|discriminate]. injection K as <- <-. apply tame_read.
Qed.
Lemma clear_iface q dec : clear q (p_ifaceDecoder F32 F64 C E dec).
Proof.
  intros o old l Hk Hq Ho. unfold p_ifaceDecoder. apply told_token; auto. intros c r Hc.
  destruct (Z.eqb_spec c c_n) as [->|N]; [now apply pure_null|].
  destruct old as [| | | | | | | | | | | |i]; try (apply told_fail; apply no_other; auto).
  destruct i as [[t v]|]; [|apply told_fail; apply no_other; auto].
  destruct v as [| | | | | | |[x|]| | | | |]; try (cbn in Ho; contradiction).
  all: destruct (under t); apply told_fail; try (destruct (nilWord _ _ _ _)); apply no_other; auto.
Qed.

(** ** All types *)
Variable P : bool -> ty -> Prop.
Hypothesis closed : forall q t, P q t -> meant E P q t.
Theorem clear_decode n : forall q t, P q t -> clear q (p_decode F32 F64 C E b d sf cs n t).
Proof.
  induction n as [|n IH]; intros q t Ht; [intros o old l _ _ _; apply told_fail; apply no_other; auto|].
  apply closed in Ht. cbn [p_decode]. destruct t; cbn [meant] in Ht.
  - subst q. apply clear_bool.
  - apply clear_int.
  - now apply clear_float.
  - now apply clear_float.
  - apply clear_string.
  - apply clear_number.
  - apply clear_raw.
  - now apply clear_json.
  - now apply clear_text.
  - apply clear_pointer; [apply tame_zero|auto].
  - apply clear_array; [apply tame_zero|auto].
  - apply clear_slice; [apply tame_zero|auto].
  - contradiction.
  - destruct fields as [|fd fields]; [apply clear_empty|]. apply clear_struct. apply Forall_map.
    eapply Forall_impl; [|exact Ht]. intros x Hx. cbn. auto.
  - apply clear_eface.
  - apply clear_iface.
  - auto.
  - intros o old l _ _ _. apply told_fail. apply no_other; auto.
Qed.
End CutVal.
