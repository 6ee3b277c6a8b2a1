(** The typed decoders do not see the spelling. *)
From Coq Require Import String ZArith List Bool Lia Arith.
From Verif Require Import Base ModelIter ModelStack ModelSkip ModelStr ModelInt ModelFloat ModelRead ModelIterate ModelOps
  ModelFold ModelBase64 Sim SimLib StackFacts Machine SimSkip SimRaw SimStr SimInt SimFloat SimRead SimIterate SimOps SimVal
  NumFacts StrFacts MachineFacts FloatFacts GrammarFacts IntFacts IterateFacts IterFacts ModelVal SpecVal DecFacts DecSound DecComplete Spec TreeFacts SpecSpell SpellFacts.
Import ListNotations.
Local Open Scope Z_scope.

Section SpellVal.
Variables F32 F64 : floatOps.
Variable C : custom.
Notation gval := (gval F32 F64 C).
Notation pdecoder := (pdecoder F32 F64 C).
Variable E : env F32 F64 C.
Notation zero := (zero F32 F64 C E).
Notation under := (under F32 F64 C E).
Variables b d : bool.
Variable sf : Z -> Z.
Variable cs : bool.
Hypothesis sane32 : float_sane F32.
Hypothesis sane64 : float_sane F64.
Variable loose : bool.
Variable P : bool -> ty -> Prop.
Hypothesis closed : forall q t, P q t -> blind E loose P q t.
Notation held := (held E P).
Hypothesis named : forall n, held (te_zero F32 F64 C E n).
Notation agree := (agree loose).
Notation view := (view loose).

(** ** Values *)
Lemma held_list (l : list gval) : fold_right (fun x p => held x /\ p) True l <-> Forall held l.
Proof. induction l as [|x l IH]; cbn; [split; constructor|]. rewrite IH. split; [intros []; now constructor|]. inversion 1; auto. Qed.
Lemma held_arr l : held (VArr l) <-> Forall held l.
Proof. apply held_list. Qed.
Lemma held_struct l : held (VStruct l) <-> Forall held l.
Proof. apply held_list. Qed.
Lemma held_zero : forall t, held (zero t).
Proof.
  fix IH 1. intros t. destruct t; cbn [ModelVal.zero SpecSpell.held]; auto.
  - apply held_list, Forall_forall. intros x Hx. apply repeat_spec in Hx. subst. apply IH.
  - induction layout as [|t l IHl]; cbn; auto.
Qed.
Lemma held_upd l i (x : gval) : Forall held l -> held x -> Forall held (upd l i x).
Proof. revert i. induction l as [|y l IH]; intros [|i] H Hx; cbn; auto; inversion H; subst; constructor; auto. Qed.
Lemma held_nth l i (x : gval) : Forall held l -> nth_error l i = Some x -> held x.
Proof. intros H K. apply nth_error_In in K. rewrite Forall_forall in H. auto. Qed.
Lemma held_read g : held (of_read F32 F64 C g).
Proof. destruct g; exact I. Qed.

(** ** Strings in quotes *)
Lemma body_first c l s : string_body (c :: l) s -> c <> 34.
Proof. intros (us & H & _). inversion H; subst; auto; discriminate. Qed.
Lemma body_tail c l s : c <> 92 -> string_body (c :: l) s -> exists s', string_body l s'.
Proof. intros N (us & H & _). inversion H; subst; try congruence. eexists; eexists; eauto. Qed.
Definition clean (c : Z) : Prop := c <> 34 /\ c <> 92.
Lemma body_plain y : Forall clean y -> forall bd s r x, string_body bd s -> bd ++ 34 :: r = y ++ 34 :: x -> bd = y /\ r = x.
Proof.
  induction 1 as [|c y [Hc Hc'] _ IH]; intros bd s r x Hb E0.
  - destruct bd as [|z bd]; cbn in E0; [injection E0 as ->; auto|]. injection E0 as -> _. now apply body_first in Hb.
  - destruct bd as [|z bd]; cbn in E0; injection E0 as E1 E2; [congruence|]. subst z. apply body_tail in Hb; auto. destruct Hb as (s' & Hb).
    destruct (IH _ _ _ _ Hb E2) as [-> ->]. auto.
Qed.
Lemma ws_clean w : ws w -> Forall clean w.
Proof. apply Forall_impl. unfold is_ws, clean. lia. Qed.
Lemma num_clean t : number t -> Forall clean t.
Proof. intros H. apply number_chars in H. eapply Forall_impl; [|exact H]. unfold numchar, clean. intros a0. lia. Qed.
Lemma view_num c tl tl' : c = 45 \/ is_digit c -> view c tl tl' -> number (c :: tl) /\ tl' = tl.
Proof. intros D [?|?|?|? ? ?|? ? ?|? ? ?|? ? ?|? ? ?|? ? ?]; auto; unfold is_digit in D; lia. Qed.
Lemma strict_str tl tl' : loose = false -> view 34 tl tl' -> tl' = tl /\ exists bd s, tl = bd ++ [34] /\ string_body bd s.
Proof. intros L V. destruct (view_str _ _ _ V) as (bd & b' & (s & H & H' & K) & -> & ->). rewrite <- (K L). eauto 6. Qed.
(** a decoder that reads the clean bytes [y] between quotes *)
Lemma at_quoted {A} (T : A -> Prop) (p : Sim.P A) tl tl' : loose = false -> view 34 tl tl' ->
  (forall f l v x, p f (34 :: l) = POk v x -> T v /\ exists y, Forall clean y /\ l = y ++ 34 :: x /\ forall f' r', p f' (34 :: y ++ 34 :: r') = POk v r') ->
  at_agree T p (34 :: tl) (34 :: tl').
Proof.
  intros L V H. destruct (strict_str _ _ L V) as (-> & bd & s & -> & Hs). apply at_whole. intros f f' r r' v x _ _ K.
  cbn [app] in *. rewrite <- app_assoc in *. cbn [app] in *. destruct (H _ _ _ _ K) as (Tv & y & Hy & Ey & K').
  destruct (body_plain y Hy _ _ _ _ Hs Ey) as [-> ->]. auto.
Qed.

(** ** Decoders *)
Definition spell (q : bool) (p : pdecoder) : Prop := forall o old, o_mapKey o = false -> o_quoted o = q -> held old -> agree held (p o old).
Lemma spell_bool q : (loose = true -> q = false) -> spell q (p_boolDecoder F32 F64 C).
Proof.
  intros Lq o old Hk Hq Ho. unfold p_boolDecoder. apply agree_token. intros c tl tl' Hc V.
  destruct (Z.eqb_spec c c_n) as [->|N]; [now apply (at_null loose)|].
  destruct (Z.eqb_spec c c_t) as [->|N2].
  { destruct V as [?|_ -> ->|?|[|D]|? ? ?|? ? ?|? ? ?|? ? ?|? ? ?]; try discriminate; [|unfold is_digit in D; lia]. apply at_lit; [discriminate|exact I]. }
  destruct (Z.eqb_spec c c_f) as [->|N3].
  { destruct V as [?|?|_ -> ->|[|D]|? ? ?|? ? ?|? ? ?|? ? ?|? ? ?]; try discriminate; [|unfold is_digit in D; lia]. apply at_lit; [discriminate|exact I]. }
  destruct (Z.eqb_spec c cQUOTE) as [->|N4]; [|apply at_fail]. rewrite Hq. destruct q; cbn [negb]; [|apply at_fail].
  assert (L : loose = false) by (destruct loose; auto; discriminate Lq; auto).
  apply at_quoted; auto. intros f l v x K. rewrite inc_run in K. apply next_inv in K. destruct K as (w & c & l1 & -> & Hw & Hc1 & K). rewrite inc_run in K.
  assert (G : forall lit v0, lit <> [] -> Forall clean lit -> pbind (p_expectBytes (lit ++ [cQUOTE])) (fun _ => pret v0) f l1 = POk v x -> v = v0 /\ l1 = lit ++ 34 :: x).
  { intros lit v0 Nl _ Q. apply expect_spec in Q; [|now destruct lit]. destruct Q as [-> ->]. rewrite <- app_assoc. auto. }
  assert (G' : forall lit (v0 : gval) f' r', lit <> [] -> pbind (p_expectBytes (lit ++ [cQUOTE])) (fun _ => pret v0) f' (lit ++ 34 :: r') = POk v0 r').
  { intros lit v0 f' r' Nl. apply expect_spec; [now destruct lit|]. rewrite <- app_assoc. auto. }
  assert (Cl : Forall clean (bs "rue") /\ Forall clean (bs "alse") /\ Forall clean (bs "ull")).
  { repeat split; apply Forall_forall; intros z Hz; vm_compute in Hz; unfold clean; intuition lia. } destruct Cl as (C1 & C2 & C3).
  destruct (Z.eqb_spec c c_t) as [->|M1]; [|destruct (Z.eqb_spec c c_f) as [->|M2]; [|destruct (Z.eqb_spec c c_n) as [->|M3]; [|discriminate]]].
  - apply (G (bs "rue")) in K; [|discriminate|auto]. destruct K as [-> ->]. split; [exact I|]. exists (w ++ 116 :: bs "rue"). split.
    { apply Forall_app. split; [now apply ws_clean|]. constructor; auto. unfold clean; lia. }
    split; [now rewrite <- app_assoc|]. intros f' r'. rewrite <- app_assoc. cbn [app]. rewrite inc_run.
    rewrite (pbind_run _ _ _ _ 116 (116 :: bs "rue" ++ 34 :: r')) by (apply nextToken_run; auto). rewrite inc_run. apply G'. discriminate.
  - apply (G (bs "alse")) in K; [|discriminate|auto]. destruct K as [-> ->]. split; [exact I|]. exists (w ++ 102 :: bs "alse"). split.
    { apply Forall_app. split; [now apply ws_clean|]. constructor; auto. unfold clean; lia. }
    split; [now rewrite <- app_assoc|]. intros f' r'. rewrite <- app_assoc. cbn [app]. rewrite inc_run.
    rewrite (pbind_run _ _ _ _ 102 (102 :: bs "alse" ++ 34 :: r')) by (apply nextToken_run; auto). rewrite inc_run. apply G'. discriminate.
  - apply (G (bs "ull")) in K; [|discriminate|auto]. destruct K as [-> ->]. split; [exact Ho|]. exists (w ++ 110 :: bs "ull"). split.
    { apply Forall_app. split; [now apply ws_clean|]. constructor; auto. unfold clean; lia. }
    split; [now rewrite <- app_assoc|]. intros f' r'. rewrite <- app_assoc. cbn [app]. rewrite inc_run.
    rewrite (pbind_run _ _ _ _ 110 (110 :: bs "ull" ++ 34 :: r')) by (apply nextToken_run; auto). rewrite inc_run. apply G'. discriminate.
Qed.
Lemma str_ok o (old : gval) (s : bytes) f r v x : held old -> (
    if negb (o_quoted o) then pret (VStr s)
    else if (length s <? 2)%nat then pfail BadQuotedStringError
    else
      if nth 0 s 0 =? c_n then
        if negb (bytes_eqb s (bs "null")) then pfail BadQuotedStringError else pret old
      else if nth 0 s 0 =? cQUOTE then
        if negb (nth (length s - 1) s 0 =? cQUOTE) then pfail BadQuotedStringError
        else
          match p_readQuoted s with None => pfail BadQuotedStringError | Some sub => pret (VStr sub) end
      else pfail BadQuotedStringError) f r = POk v x -> held v /\ x = r /\ forall f' r', (
    if negb (o_quoted o) then pret (VStr s)
    else if (length s <? 2)%nat then pfail BadQuotedStringError
    else
      if nth 0 s 0 =? c_n then
        if negb (bytes_eqb s (bs "null")) then pfail BadQuotedStringError else pret old
      else if nth 0 s 0 =? cQUOTE then
        if negb (nth (length s - 1) s 0 =? cQUOTE) then pfail BadQuotedStringError
        else
          match p_readQuoted s with None => pfail BadQuotedStringError | Some sub => pret (VStr sub) end
      else pfail BadQuotedStringError) f' r' = POk v r'.
Proof.
  intros Ho. destruct (negb (o_quoted o)); [intros [= <- <-]; split; [exact I|auto]|]. destruct (_ <? _)%nat; [discriminate|].
  destruct (_ =? c_n). { destruct (negb _); [discriminate|]. intros [= <- <-]. auto. }
  destruct (_ =? cQUOTE); [|discriminate]. destruct (negb _); [discriminate|]. destruct (p_readQuoted s); [|discriminate]. intros [= <- <-]. split; [exact I|auto].
Qed.
Lemma spell_string q : spell q (p_stringDecoder F32 F64 C).
Proof.
  intros o old Hk Hq Ho. unfold p_stringDecoder. apply agree_token. intros c tl tl' Hc V.
  destruct (Z.eqb_spec c cQUOTE) as [->|N].
  - apply (at_str loose); auto. intros s f r v x K. exact (str_ok o old s f r v x Ho K).
  - destruct (Z.eqb_spec c c_n) as [->|N2]; [now apply (at_null loose)|]. apply at_fail.
Qed.
Lemma int_quoted {A} s w (g : Z -> A) f l v x : pbind (pbind p_inc (fun _ => p_peek)) (fun c' => pbind p_inc (fun _ => pbind (p_readIntOf s w c') (fun i =>
    pbind p_peek (fun d => if negb (d =? cQUOTE) then pfail (EUnexpectedByte d cQUOTE 0) else pbind p_inc (fun _ => pret (g i)))))) f (34 :: l) = POk v x ->
  (exists i, v = g i) /\ exists y, Forall clean y /\ l = y ++ 34 :: x /\ forall f' r', pbind (pbind p_inc (fun _ => p_peek)) (fun c' => pbind p_inc (fun _ => pbind (p_readIntOf s w c') (fun i =>
    pbind p_peek (fun d => if negb (d =? cQUOTE) then pfail (EUnexpectedByte d cQUOTE 0) else pbind p_inc (fun _ => pret (g i)))))) f' (34 :: y ++ 34 :: r') = POk v r'.
Proof.
  intros K. rewrite pbind_assoc in K. rewrite inc_run in K. destruct l as [|c l]; [discriminate|].
  rewrite (pbind_run _ _ _ _ c (c :: l)) in K by reflexivity. rewrite inc_run in K.
  apply pbind_ok in K. destruct K as (i & l2 & Hi & K). apply intOf_sound in Hi. destruct Hi as (t & -> & Ht & Hr).
  destruct l2 as [|y l2]; [discriminate|]. rewrite (pbind_run _ _ _ _ y (y :: l2)) in K by reflexivity.
  destruct (Z.eqb_spec y cQUOTE) as [->|]; [|discriminate]. cbn [negb] in K. rewrite inc_run in K.
  apply POk_inj in K. destruct K as [<- <-]. split; [eauto|]. exists (c :: t). split; [eapply num_clean, int_text_number; eauto|]. split; auto.
  intros f' r'. rewrite pbind_assoc, inc_run. cbn [app]. rewrite (pbind_run _ _ _ _ c (c :: t ++ 34 :: r')) by reflexivity. rewrite inc_run.
  rewrite (pbind_run _ _ _ _ i (34 :: r')) by (apply intOf_complete; auto; apply quote_ends). reflexivity.
Qed.
Lemma spell_int q s w : (loose = true -> q = false) -> spell q (p_intDecoder F32 F64 C s w).
Proof.
  intros Lq o old Hk Hq Ho. unfold p_intDecoder. apply agree_token. intros c tl tl' Hc V.
  destruct (Z.eqb_spec c c_n) as [->|N]; [now apply (at_null loose)|]. rewrite Hk, Hq, orb_false_r. destruct q.
  - destruct (Z.eqb_spec c cQUOTE) as [->|Nq]; cbn [negb]; [|intros f f' r r' v x _ _ K; discriminate].
    apply at_quoted; auto; [destruct loose; auto; discriminate Lq; auto|]. intros f l v x K.
    apply int_quoted in K. destruct K as ((i & ->) & K). split; [exact I|exact K].
  - intros f f' r r' v x He He' K. cbn [app] in *. rewrite (pbind_run _ _ _ _ c (c :: tl ++ r)) in K by reflexivity. rewrite inc_run in K.
    rewrite (pbind_run _ _ _ _ c (c :: tl' ++ r')) by reflexivity. rewrite inc_run. apply bind_ret in K. destruct K as (i & K & ->).
    destruct (view_num c tl tl') as (Hn & ->); auto; [eapply intOf_ws; eauto|].
    destruct (intOf_agree s w c tl f f' r r' i x Hn (He Hn) (He' Hn) K) as (u & -> & Hu & K'). split; [exact I|]. exists u. split; auto. split; auto.
    apply bind_ret. eauto.
Qed.
Lemma number_det f t1 r1 t2 r2 : number t1 -> num_ends t1 f r1 -> number t2 -> num_ends t2 f r2 -> t1 ++ r1 = t2 ++ r2 -> t1 = t2 /\ r1 = r2.
Proof.
  intros H1 [N1 _] H2 [N2 _] K. apply app_eq_app in K. destruct K as ([|c u] & [[E1 E2]|[E1 E2]]); subst; try (rewrite app_nil_r; auto); exfalso.
  - now apply (N2 c (u ++ r1) u eq_refl).
  - now apply (N1 c (u ++ r2) u eq_refl).
Qed.
Lemma at_float {A} (T : A -> Prop) F (sane : float_sane F) (g : fl F -> A) c tl tl' : (forall x, T (g x)) -> ~ is_ws c -> view c tl tl' ->
  at_agree T (pbind (p_ReadFloat F) (fun x => pret (g x))) (c :: tl) (c :: tl').
Proof.
  intros HT Hc V. apply at_whole. intros f f' r r' v x He He' K. apply bind_ret in K. destruct K as (y & K & ->). apply ReadFloat_spec in K; auto.
  destruct K as (w & t & E0 & Hw & Hn & Ht & Hp). destruct (app_ws_cons _ _ _ _ _ E0 Hw Hc) as [-> E1].
  destruct (number_first _ Hn) as (c0 & t0 & -> & Hd). injection E1 as E1 E2. subst c0. destruct (view_num c tl tl' Hd V) as (Hv & ->).
  destruct (number_det f (c :: tl) r (c :: t0) x Hv (He Hv) Hn Ht) as [[= <-] <-]; [exact E0|]. split; auto. split; auto.
  apply bind_ret. exists y. split; auto. apply ReadFloat_spec; auto. exists [], (c :: tl). repeat split; auto; first [apply (He' Hv)|constructor].
Qed.
Lemma spell_float q F (sane : float_sane F) (inj : fl F -> gval) : (forall x, held (inj x)) -> spell q (p_floatDecoder F32 F64 C F inj).
Proof.
  intros HT o old Hk Hq Ho. unfold p_floatDecoder. apply agree_token. intros c tl tl' Hc V.
  destruct (Z.eqb_spec c c_n) as [->|N]; [now apply (at_null loose)|]. now apply at_float.
Qed.
Lemma spell_number q : loose = false -> spell q (p_jsonNumberDecoder F32 F64 C).
Proof.
  intros L o old Hk Hq Ho. unfold p_jsonNumberDecoder. apply agree_token. intros c tl tl' Hc V.
  assert (Hst := starts_type_map c Hc). destruct (valueTypeMap c) eqn:Ev; try apply at_fail.
  - assert (c = 34) as -> by (inversion Hst; auto). apply at_quoted; auto. intros f l v x K. rewrite inc_run in K.
    destruct l as [|y l]; [discriminate|]. rewrite (pbind_run _ _ _ _ y (y :: l)) in K by reflexivity.
    destruct (isNumberValue (valueTypeMap y)) eqn:Ex; [|discriminate]. cbn [negb] in K.
    assert (Hd := isNumber_digit sf _ Ex). rewrite inc_run in K. apply pbind_ok in K. destruct K as (s & l2 & Hs & K).
    apply capturedNumber in Hs; auto. destruct Hs as (t & Hn & -> & _ & ->).
    destruct l2 as [|z l2]; [discriminate|]. rewrite (pbind_run _ _ _ _ z (z :: l2)) in K by reflexivity.
    destruct (Z.eqb_spec z cQUOTE) as [->|]; [|discriminate]. cbn [negb] in K. rewrite inc_run in K.
    apply POk_inj in K. destruct K as [<- <-]. split; [exact I|]. exists (y :: t). split; [now apply num_clean|]. split; auto.
    intros f' r'. rewrite inc_run. cbn [app]. rewrite (pbind_run _ _ _ _ y (y :: t ++ 34 :: r')) by reflexivity. rewrite Ex. cbn [negb]. rewrite inc_run.
    rewrite (pbind_run _ _ _ _ (y :: t) (34 :: r')); [reflexivity|]. apply capturedNumber; auto. exists t. split; auto. split; auto. split; auto. apply quote_ends.
  - assert (Hd : c = 45 \/ is_digit c) by (apply (isNumber_digit sf); now rewrite Ev). destruct (view_num c tl tl' Hd V) as (Hn & ->).
    apply at_whole. intros f f' r r' v x He He' K. cbn [app] in *. rewrite inc_run in *. apply bind_ret in K. destruct K as (s & K & ->).
    assert (K0 : forall f r, num_ends (c :: tl) f r -> p_readNumberAsString c f (tl ++ r) = POk (c :: tl) r) by (intros; apply capturedNumber; eauto).
    rewrite K0 in K by auto. injection K as <- <-. split; [exact I|]. split; auto. apply bind_ret. exists (c :: tl). split; auto.
  - assert (c = 110) as -> by (inversion Hst; auto). now apply (at_null loose).
Qed.
Lemma method_ok (m : cu_state C -> bytes -> cu_state C + err) old x f r v y : p_method F32 F64 C m old x f r = POk v y ->
  held v /\ y = r /\ forall f' r', p_method F32 F64 C m old x f' r' = POk v r'.
Proof. unfold p_method. destruct old; try discriminate. destruct (m _ x); [|discriminate]. intros [= <- <-]. split; [exact I|auto]. Qed.
Lemma spell_text q id : spell q (p_textUnmarshalerDecoder F32 F64 C id).
Proof.
  intros o old Hk Hq Ho. unfold p_textUnmarshalerDecoder. apply agree_token. intros c tl tl' Hc V.
  destruct (Z.eqb_spec c cQUOTE) as [->|N].
  - apply (at_str loose); auto. intros s f r v x. apply method_ok.
  - destruct (Z.eqb_spec c c_n) as [->|N2]; [now apply (at_null loose)|]. apply at_fail.
Qed.
Lemma agree_map {A B} (T : A -> Prop) (T' : B -> Prop) (p : Sim.P A) (g : A -> B) : agree T p -> (forall a, T a -> T' (g a)) -> agree T' (pbind p (fun a => pret (g a))).
Proof. intros H Hg. eapply agree_bind; [exact H|]. now apply ret_ok. Qed.
Lemma agree_failed {A} (T : A -> Prop) e : agree T (pfail e).
Proof. intros w w' t t' _ _ _ f f' r r' v x _ _ K. discriminate. Qed.
Lemma spell_pointer q z p : held z -> spell q p -> spell q (p_pointerDecoder F32 F64 C z p).
Proof.
  intros Hz Hp o old Hk Hq Ho. unfold p_pointerDecoder. apply agree_token. intros c tl tl' Hc V.
  destruct (Z.eqb_spec c c_n) as [->|N]; [now apply (at_null loose)|]. destruct old; try apply at_fail.
  apply (agree_at loose); auto. apply (agree_map held); [apply Hp; auto; destruct o0; auto|]. auto.
Qed.
Lemma spell_array q z p : held z -> spell false p -> spell q (p_arrayDecoder F32 F64 C z p).
Proof.
  intros Hz Hp o old Hk Hq Ho. unfold p_arrayDecoder. apply agree_token. intros c tl tl' Hc V.
  destruct (Z.eqb_spec c c_n) as [->|N]; [now apply (at_null loose)|].
  destruct (Z.eqb_spec c cLBRACK) as [->|N2]; cbn [negb]; [|apply at_fail].
  destruct old; try apply at_fail. apply held_arr in Ho.
  refine (at_array loose (fun n (s : nat * list gval) => p_arrayLoop F32 F64 C n p (fst s) (snd s))
    (fun s => match nth_error (snd s) (fst s) with
       | Some v => pbind (p noOpts v) (fun v' => pret (S (fst s), upd (snd s) (fst s) v'))
       | None => pbind p_Skip (fun _ => pret (fst s, snd s)) end)
    (fun _ st => st) (fun _ st => st) (fun s => Forall held (snd s)) (fun s => Forall held (snd s)) _ _ _ held (O, l) (O, l)
    (fun st => VArr (firstn (fst st) (snd st) ++ repeat z (length l - fst st))) tl tl' V Ho Ho _).
  - reflexivity.
  - reflexivity.
  - intros [n a] Ha. cbn [fst snd] in *. destruct (nth_error a n) as [v|] eqn:Ev.
    + apply (agree_map held); [apply Hp; auto; eapply held_nth; eauto|]. intros v' Hv'. cbn. split; now apply held_upd.
    + apply (agree_map (fun _ => True)); [apply agree_skip|]. intros _ _. cbn. auto.
  - intros [n a] Ha. cbn [fst snd] in *. apply held_arr. apply Forall_app. split.
    + apply Forall_forall. intros y Hy. rewrite Forall_forall in Ha. apply Ha. rewrite <- (firstn_skipn n a). apply in_or_app. now left.
    + apply Forall_forall. intros y Hy. apply repeat_spec in Hy. now subst.
Qed.
Lemma spell_slice q isByte z p : (loose = true -> isByte = false) -> held z -> spell false p -> spell q (p_sliceDecoder F32 F64 C isByte z p).
Proof.
  intros Lb Hz Hp o old Hk Hq Ho. unfold p_sliceDecoder. apply agree_token. intros c tl tl' Hc V.
  destruct (Z.eqb_spec c c_n) as [->|N]; [now apply (at_null loose)|].
  destruct (Z.eqb_spec c cQUOTE) as [->|N1].
  { destruct isByte; cbn [negb]; [|apply at_fail]. assert (L : loose = false) by (destruct loose; auto; discriminate Lb; auto).
    destruct (strict_str _ _ L V) as (-> & bd & s & -> & Hs). apply at_whole. intros f f' r r' v x _ _ K. cbn [app] in *. rewrite <- app_assoc in *. cbn [app] in *.
    unfold p_readBase64 in *. rewrite inc_run in *. assert (B : forall f r, p_body f (bd ++ 34 :: r) = POk bd r) by (intros; apply body_spec; eauto).
    rewrite (pbind_run _ _ _ _ bd r) in K by auto. rewrite (pbind_run _ _ _ _ bd r') by auto.
    destruct (b64decode bd); [|discriminate]. injection K as <- <-. split; [exact I|auto]. }
  destruct (Z.eqb_spec c cLBRACK) as [->|N2]; cbn [negb]; [|apply at_fail].
  refine (at_array loose (fun n (s : list gval) => p_sliceLoop F32 F64 C n z p s) (fun _ => p noOpts z)
    (fun s v => s ++ [v]) (fun s v => s ++ [v]) (fun _ => True) (fun _ => True) _ _ _ held [] [] (fun l => VSlice (Some l)) tl tl' V I I _).
  - reflexivity.
  - reflexivity.
  - intros s _ w w' t t' Hw Hw' A0 f f' r r' v x He He' K.
    destruct (Hp noOpts z eq_refl eq_refl Hz w w' t t' Hw Hw' A0 f f' r r' v x He He' K) as (_ & K'). auto.
  - intros x _. exact I.
Qed.
(** keys of maps *)
Lemma agree_follow p path : (forall v, held v -> agree held (p v)) -> forall v, held v -> agree held (p_follow F32 F64 C E path p v).
Proof.
  intros Hp. induction path as [|h path IH]; intros v Hv; [now apply Hp|]. cbn [p_follow]. destruct h as [i|al].
  - destruct v; try apply agree_failed. apply held_struct in Hv. destruct (nth_error _ i) as [x|] eqn:Ex; [|apply agree_failed].
    apply (agree_map held); [apply IH; eapply held_nth; eauto|]. intros y Hy. apply held_struct. now apply held_upd.
  - destruct v as [| | | | | | |[x|]| | | | |]; try apply agree_failed.
    + apply (agree_map held); [now apply IH|]. auto.
    + destruct al as [t|]; [|apply agree_failed]. apply (agree_map held); [apply IH, held_zero|]. auto.
Qed.
Lemma enter_assoc {A B} (e : Z -> err) (p : Sim.P A) (k : A -> Sim.P B) f l :
  pbind (pbind p_nextToken (fun c => if negb (c =? cQUOTE) then pfail (e c) else pbind p_inc (fun _ => p))) k f l =
  pbind p_nextToken (fun c => if negb (c =? cQUOTE) then pfail (e c) else pbind p_inc (fun _ => pbind p k)) f l.
Proof. unfold pbind. destruct (p_nextToken f l) as [c r|]; auto. now destruct (negb (c =? cQUOTE)). Qed.
Lemma colon_assoc {A B} (q : Sim.P A) (k : A -> Sim.P B) f l :
  pbind (pbind q (fun kv => pbind p_nextToken (fun c => if negb (c =? cCOLON) then pfail (EUnexpectedByte c cCOLON 0) else pbind p_inc (fun _ => pret kv)))) k f l =
  pbind q (fun kv => pbind p_nextToken (fun c => if negb (c =? cCOLON) then pfail (EUnexpectedByte c cCOLON 0) else pbind p_inc (fun _ => k kv))) f l.
Proof. unfold pbind. destruct (q f l) as [kv r|]; auto. destruct (p_nextToken f r) as [c r2|]; auto. now destruct (negb (c =? cCOLON)). Qed.
Lemma spell_struct q find fields : Forall (fun fi => spell (pf_quoted F32 F64 C fi) (pf_decoder F32 F64 C fi)) fields ->
  spell q (p_structDecoder F32 F64 C E d find fields).
Proof.
  intros Hf o old Hk Hq Ho. unfold p_structDecoder. apply agree_token. intros c tl tl' Hc V.
  destruct (Z.eqb_spec c c_n) as [->|N]; [now apply (at_null loose)|].
  destruct (Z.eqb_spec c cLBRACE) as [->|N2]; cbn [negb]; [|apply at_fail].
  refine (at_object loose (fun n s => pbind p_nextToken (fun c2 => if negb (c2 =? cQUOTE) then pfail (EUnexpectedByte c2 cQUOTE 0)
        else pbind p_inc (fun _ => p_structLoop F32 F64 C E d n find fields s)))
    (pbind p_nextToken (fun c2 => if negb (c2 =? cQUOTE) then pfail (EUnexpectedByte c2 cQUOTE 0) else pbind p_inc (fun _ => p_readObjectField)))
    (fun name s => match find name with
             | Some i =>
                 match nth_error fields i with
                 | None => pfail errType
                 | Some fi => p_follow F32 F64 C E (pf_path F32 F64 C fi) (pf_decoder F32 F64 C fi (mkOpts false (pf_quoted F32 F64 C fi))) s
                 end
             | None => if d then pfail (EUnknownField name) else pbind p_Skip (fun _ => pret s)
             end) held _ _ _ _ held old _ (fun s => s) tl tl' V Ho _ _ _).
  - intros n s f l. rewrite enter_assoc. reflexivity.
  - intros s f l v x K. unfold pbind in K. destruct (p_nextToken f l) as [c2 l2|]; [|discriminate]. destruct (negb (c2 =? cQUOTE)); discriminate.
  - intros w w' bd b' w2 w2' f f' r r' k x Hw Hw' Hw2 Hw2' (s & Hs & Hs' & _) K.
    assert (R : forall f w bd w2 r, ws w -> ws w2 -> string_body bd s -> pbind p_nextToken (fun c2 => if negb (c2 =? cQUOTE) then pfail (EUnexpectedByte c2 cQUOTE 0)
      else pbind p_inc (fun _ => p_readObjectField)) f (w ++ 34 :: bd ++ 34 :: w2 ++ 58 :: r) = POk s r).
    { clear. intros f w bd w2 r Hw Hw2 Hs. rewrite (pbind_run _ _ _ _ 34 (34 :: bd ++ 34 :: w2 ++ 58 :: r)) by (apply nextToken_run; auto; unfold is_ws; lia).
      change (negb (34 =? cQUOTE)) with false. cbv iota. rewrite inc_run. apply tfield_ok. exists bd, s, w2. auto. }
    rewrite R in K by auto. injection K as <- <-. auto.
  - intros name s Hs. destruct (find name) as [i|].
    + destruct (nth_error fields i) as [fi|] eqn:Ei; [|apply agree_failed]. apply agree_follow; auto. intros v Hv.
      apply nth_error_In in Ei. rewrite Forall_forall in Hf. apply (Hf fi Ei); auto.
    + destruct d; [apply agree_failed|]. apply (agree_map (fun _ => True)); [apply agree_skip|auto].
  - auto.
  - intros f w r Hw. rewrite inc_run. rewrite (pbind_run _ _ _ _ 125 (125 :: r)) by (apply nextToken_run; auto; unfold is_ws; lia). reflexivity.
  - intros f w y Hw. exists (S (length y)). split; [lia|]. rewrite inc_run. rewrite (pbind_run _ _ _ _ 34 (34 :: y)) by (apply nextToken_run; auto; unfold is_ws; lia).
    rewrite (pbind_run _ _ _ _ 34 (34 :: y)) by (apply (nextToken_run _ []); [constructor|unfold is_ws; lia]).
    change (34 =? cRBRACE) with false. change (negb (34 =? cQUOTE)) with false. cbv iota. rewrite !inc_run. unfold p_fuel. now destruct (p_structLoop _ _ _ _ _ _ _ _ _ f y).
Qed.
Lemma spell_map q k kd z p : p_keyDecoder F32 F64 C k = Some kd -> (loose = true -> match k with KInt _ _ | KUser (KKInt _ _) None _ => False | _ => True end) -> held z -> spell false p ->
  spell q (p_mapDecoder F32 F64 C k kd z p).
Proof.
  intros Ek Lk Hz Hp o old Hk Hq Ho. unfold p_mapDecoder. apply agree_token. intros c tl tl' Hc V.
  destruct (Z.eqb_spec c c_n) as [->|N]; [now apply (at_null loose)|].
  destruct (Z.eqb_spec c cLBRACE) as [->|N2]; cbn [negb]; [|apply at_fail]. destruct old as [| | | | | | | | | |m0| |]; try apply at_fail.
  set (m1 := match m0 with Some m => m | None => [] end).
  refine (at_object loose (fun n s => p_mapLoop F32 F64 C n k kd z p s)
    (pbind (kd (mkOpts true false) (keyZero F32 F64 C k)) (fun kv => pbind p_nextToken (fun c => if negb (c =? cCOLON) then pfail (EUnexpectedByte c cCOLON 0) else pbind p_inc (fun _ => pret kv))))
    (fun kv s => pbind (p noOpts z) (fun v => match toKey F32 F64 C k kv with None => pfail errType | Some kk => pret (mapassign F32 F64 C s kk v) end))
    (fun _ => True) _ _ _ _ held m1 _ (fun m => VMap (Some m)) tl tl' V I _ _ _).
  - intros n s f l. cbn [p_mapLoop]. rewrite colon_assoc. unfold pbind, p_inc, pret. destruct (kd _ _ f l) as [kv l1|]; auto.
    destruct (p_nextToken f l1) as [c l2|]; auto. destruct (negb (c =? cCOLON)); [reflexivity|].
    destruct (p noOpts z f (List.tl l2)) as [v l3|]; auto. destruct (toKey F32 F64 C k kv); reflexivity.
  - discriminate.
  - intros w w' bd b' w2 w2' f f' r r' kv x Hw Hw' Hw2 Hw2' Hb K.
    apply pbind_ok in K. destruct K as (kv0 & l1 & K1 & K).
    assert (G : l1 = w2 ++ 58 :: r /\ kd (mkOpts true false) (keyZero F32 F64 C k) f' (w' ++ 34 :: b' ++ 34 :: w2' ++ 58 :: r') = POk kv0 (w2' ++ 58 :: r')).
    { clear K. assert (St : forall (q0 : bytes -> Sim.P gval) (dflt : Z -> Sim.P gval), (forall s f r v x, q0 s f r = POk v x -> x = r /\ forall f' r', q0 s f' r' = POk v r') ->
        kd (mkOpts true false) (keyZero F32 F64 C k) = pbind p_nextToken (fun c => if c =? cQUOTE then pbind p_inc (fun _ => pbind p_readStringAsSlice q0) else dflt c) ->
        l1 = w2 ++ 58 :: r /\ kd (mkOpts true false) (keyZero F32 F64 C k) f' (w' ++ 34 :: b' ++ 34 :: w2' ++ 58 :: r') = POk kv0 (w2' ++ 58 :: r')).
      { intros q0 dflt Hq0 Ekd. rewrite Ekd in *. destruct Hb as (s & Hs & Hs' & _).
        rewrite (pbind_run _ _ _ _ 34 (34 :: bd ++ 34 :: w2 ++ 58 :: r)) in K1 by (apply nextToken_run; auto; unfold is_ws; lia).
        rewrite (pbind_run _ _ _ _ 34 (34 :: b' ++ 34 :: w2' ++ 58 :: r')) by (apply nextToken_run; auto; unfold is_ws; lia).
        change (34 =? cQUOTE) with true in *. cbv iota in *. rewrite inc_run in *. rewrite (pbind_run _ _ _ _ s (w2 ++ 58 :: r)) in K1 by (now apply str_run).
        rewrite (pbind_run _ _ _ _ s (w2' ++ 58 :: r')) by (now apply str_run). destruct (Hq0 _ _ _ _ _ K1) as (-> & H). auto. }
      assert (It : forall s0 w0, kd = p_intDecoder F32 F64 C s0 w0 -> loose = false ->
        l1 = w2 ++ 58 :: r /\ kd (mkOpts true false) (keyZero F32 F64 C k) f' (w' ++ 34 :: b' ++ 34 :: w2' ++ 58 :: r') = POk kv0 (w2' ++ 58 :: r')).
      { intros s0 w0 -> L. destruct Hb as (s & Hs & Hs' & Eb). rewrite <- (Eb L). unfold p_intDecoder in *.
        rewrite (pbind_run _ _ _ _ 34 (34 :: bd ++ 34 :: w2 ++ 58 :: r)) in K1 by (apply nextToken_run; auto; unfold is_ws; lia).
        rewrite (pbind_run _ _ _ _ 34 (34 :: bd ++ 34 :: w2' ++ 58 :: r')) by (apply nextToken_run; auto; unfold is_ws; lia).
        change (34 =? c_n) with false in *. change (o_quoted (mkOpts true false) || o_mapKey (mkOpts true false)) with true in *.
        change (negb (34 =? cQUOTE)) with false in *. cbv iota in *. apply (int_quoted s0 w0 VInt) in K1. destruct K1 as (_ & y & Hy & Ey & K1).
        destruct (body_plain y Hy _ _ _ _ Hs Ey) as [-> ->]. split; auto. }
      assert (Ss : kd = p_stringDecoder F32 F64 C -> l1 = w2 ++ 58 :: r /\ kd (mkOpts true false) (keyZero F32 F64 C k) f' (w' ++ 34 :: b' ++ 34 :: w2' ++ 58 :: r') = POk kv0 (w2' ++ 58 :: r')).
      { intros ->. eapply (St (fun s => pret (VStr s))); [|reflexivity]. intros s f0 r0 v y [= <- <-]. auto. }
      destruct k as [|s0 w0|[|s0 w0|] [id|] mar]; cbn in Ek; try discriminate; injection Ek as <-; auto.
      1,4: eapply It; [reflexivity|]; destruct loose; auto; contradiction Lk; auto.
      all: eapply St; [|reflexivity]; intros s f0 r0 v y Q; apply method_ok in Q; tauto. }
    destruct G as (-> & G). rewrite (pbind_run _ _ _ _ 58 (58 :: r)) in K by (apply nextToken_run; auto; unfold is_ws; lia).
    cbn in K. injection K as <- <-. split; auto. rewrite (pbind_run _ _ _ _ _ _ G). rewrite (pbind_run _ _ _ _ 58 (58 :: r')) by (apply nextToken_run; auto; unfold is_ws; lia). reflexivity.
  - intros kv s _. eapply agree_bind; [apply Hp; auto|]. intros v f r v' x _ K. destruct (toKey F32 F64 C k kv); [|discriminate]. injection K as <- <-. auto.
  - intros s _. exact I.
  - intros f w r Hw. rewrite inc_run. rewrite (pbind_run _ _ _ _ 125 (125 :: r)) by (apply nextToken_run; auto; unfold is_ws; lia). reflexivity.
  - intros f w y Hw. exists (S (length (34 :: y))). split; [cbn [length]; lia|]. rewrite inc_run. rewrite (pbind_run _ _ _ _ 34 (34 :: y)) by (apply nextToken_run; auto; unfold is_ws; lia).
    change (34 =? cRBRACE) with false. cbv iota. unfold pbind, p_fuel. fold m1. now destruct (p_mapLoop _ _ _ _ _ _ _ _ _ f (34 :: y)).
Qed.
Lemma spell_empty q : spell q (p_emptyObjectDecoder F32 F64 C d).
Proof.
  intros o old Hk Hq Ho. unfold p_emptyObjectDecoder. apply agree_token. intros c tl tl' Hc V.
  destruct (Z.eqb_spec c c_n) as [->|N]; [now apply (at_null loose)|].
  destruct (Z.eqb_spec c cLBRACE) as [->|N2]; [|intros f f' r r' v x _ _ K; discriminate]. destruct d.
  - apply at_whole. intros f f' r r' v x _ _ K. cbn [app] in *. rewrite inc_run in *. apply next_inv in K. destruct K as (w & c2 & l1 & E0 & Hw & Hc2 & K).
    rewrite inc_run in K. destruct (Z.eqb_spec c2 cRBRACE) as [->|]; [|discriminate]. injection K as <- <-.
    destruct V as [?|?|?|[|D]|? ? ?|? ? ?|? ? ?|w1 w' _ Hw1 Hw' -> ->|m m' _ Hm -> ->]; try discriminate.
    + unfold is_digit in D. lia.
    + rewrite <- app_assoc in *. cbn [app] in *. assert (K1 := nextToken_run f w1 125 r Hw1 ltac:(unfold is_ws; lia)). rewrite E0 in K1.
      rewrite nextToken_run in K1 by auto. injection K1 as <-. split; auto. split; auto.
      rewrite (pbind_run _ _ _ _ 125 (125 :: r')) by (apply nextToken_run; auto; unfold is_ws; lia). reflexivity.
    + exfalso. destruct (members_strip _ _ _ Hm) as (w1 & w1' & y & y' & -> & -> & Hw1 & Hw1' & _). repeat (rewrite <- app_assoc in E0; cbn [app] in E0).
      assert (K1 := nextToken_run f w1 34 (y ++ 125 :: r) Hw1 ltac:(unfold is_ws; lia)). rewrite E0 in K1. rewrite nextToken_run in K1 by auto. discriminate.
  - apply at_whole. intros f f' r r' v x He He' K. cbn [app] in *. rewrite inc_run in *. apply view_alike in V. destruct (proj1 (alike_value loose) _ _ V) as (j & Hj & Hj').
    assert (R : forall f tl r, value (123 :: tl) j -> ends (123 :: tl) f r -> p_skipFunctions 123 f (tl ++ r) = POk tt r).
    { intros f0 tl0 r0 H0 H1. apply skipValue_spec. exists tl0, j. split; auto. split; auto. now apply ends_vends. }
    rewrite (pbind_run _ _ _ _ tt r) in K by (now apply R). rewrite (pbind_run _ _ _ _ tt r') by (now apply R). injection K as <- <-. auto.
Qed.
Lemma agree_read : agree (fun _ => True) (p_Read F64 b).
Proof.
  intros w w' t t' Hw Hw' A0 f f' r r' v x He He' K. destruct (proj1 (alike_value loose) _ _ A0) as (j & Hj & Hj').
  apply Read_conv in K; auto. destruct K as (w0 & t0 & j0 & E0 & Hw0 & Hj0 & Hg & Hv0).
  assert (K0 : p_tree f (w ++ t ++ r) = POk j r) by (apply tree_spec; exists w, t; repeat split; auto; now apply ends_vends).
  assert (K1 : p_tree f (w ++ t ++ r) = POk j0 x) by (rewrite E0; apply tree_spec; exists w0, t0; auto).
  rewrite K0 in K1. injection K1 as <- <-. split; auto. exists []. split; auto. split; [constructor|]. apply Read_conv; auto.
  exists w', t', j. repeat split; auto. now apply ends_vends.
Qed.
Lemma spell_eface q dec : (forall t, P false t -> spell false (dec t)) -> spell q (p_efaceDecoder F32 F64 C E b dec).
Proof.
  intros Hd o old Hk Hq Ho. unfold p_efaceDecoder. destruct old as [| | | | | | | | | | | |i]; try apply agree_failed.
  destruct (heldPtr F32 F64 C E i) as [[t v]|] eqn:Eh; [|apply (agree_map (fun _ => True)); [apply agree_read|intros; apply held_read]].
  destruct (heldPtr_some _ _ _ _ _ _ _ Eh) as (T & -> & HT). cbn in Ho. destruct Ho as (Pt & Hv). apply agree_token. intros c tl tl' Hc V.
  destruct (Z.eqb_spec c c_n) as [->|N].
  - apply (at_null loose); auto. unfold isPtr. destruct (under t) eqn:Et; try exact I. cbn. split; [|exact I]. intros t' [= <-]. now apply Pt.
  - apply (agree_at loose); auto. apply (agree_map held); [apply Hd; auto|]. intros v' Hv'. cbn. auto.
Qed.
Lemma spell_iface q dec : (forall t, P false t -> spell false (dec t)) -> spell q (p_ifaceDecoder F32 F64 C E dec).
Proof.
  intros Hd o old Hk Hq Ho. unfold p_ifaceDecoder. apply agree_token. intros c tl tl' Hc V.
  destruct (Z.eqb_spec c c_n) as [->|N]; [now apply (at_null loose)|].
  destruct old as [| | | | | | | | | | | |i]; try apply at_fail.
  destruct i as [[t v]|]; [|apply at_fail].
  destruct v as [| | | | | | |[x|]| | | | |].
  8:{ cbn in Ho. destruct Ho as (Pt & Hx). destruct (under t) eqn:Et; try apply at_fail. apply (agree_at loose); auto.
      apply (agree_map held); [apply Hd; auto|]. intros x' Hx'. cbn. rewrite Et. auto. }
  all: destruct (under t); apply at_fail.
Qed.

(** ** All types *)
Theorem spell_decode n : forall q t, P q t -> spell q (p_decode F32 F64 C E b d sf cs n t).
Proof.
  induction n as [|n IH]; intros q t Ht; [intros o old _ _ _; apply agree_failed|].
  apply closed in Ht. cbn [p_decode]. destruct t; cbn [blind] in Ht; try contradiction.
  - now apply spell_bool.
  - now apply spell_int.
  - apply spell_float; auto.
  - apply spell_float; auto.
  - apply spell_string.
  - now apply spell_number.
  - apply spell_text.
  - apply spell_pointer; [apply held_zero|auto].
  - apply spell_array; [apply held_zero|auto].
  - destruct Ht as [Ht Lt]. apply spell_slice; [|apply held_zero|auto]. intros L. specialize (Lt L). destruct (under t) as [|[] []| | | | | | | | | | | | | | | |]; auto. congruence.
  - destruct Ht as [Ht Lt]. destruct (p_keyDecoder F32 F64 C k) as [kd|] eqn:Ek; [|intros o old _ _ _; apply agree_failed].
    apply spell_map; auto. apply held_zero.
  - destruct fields as [|fd fields]; [apply spell_empty|]. apply spell_struct. apply Forall_map.
    eapply Forall_impl; [|exact Ht]. intros x Hx. cbn. auto.
  - apply spell_eface. auto.
  - apply spell_iface. auto.
  - auto.
  - intros o old _ _ _. apply agree_failed.
Qed.
End SpellVal.
