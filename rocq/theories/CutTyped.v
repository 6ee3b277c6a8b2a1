(** The typed decoders at the end of the input: when the error of the end comes out of them, the text is cut off there. *)
From Coq Require Import String ZArith List Bool Lia Arith.
From Verif Require Import Base ModelIter ModelStack ModelSkip ModelStr ModelInt ModelFloat ModelRead ModelIterate ModelOps
  ModelFold ModelBase64 Sim SimLib StackFacts Machine SimSkip SimRaw SimStr SimInt SimFloat SimRead SimIterate SimOps SimVal
  NumFacts StrFacts MachineFacts FloatFacts GrammarFacts IterFacts ModelVal SpecVal DecFacts DecSound Spec SpecCut CutFacts CutMachine CutRead.
Import ListNotations.
Local Open Scope Z_scope.

(** ** Texts *)
Lemma value_head t j : value t j -> exists c t', t = c :: t' /\ ~ is_ws c /\ ((c = 45 \/ is_digit c) -> exists x, j = JNum x).
Proof.
  intros H. destruct H as [| | |t Hn| | | | |].
  1: exists 110, (bs "ull"). 2: exists 116, (bs "rue"). 3: exists 102, (bs "alse").
  1-3: split; [reflexivity|]; unfold is_ws, is_digit; split; [lia|intros K; lia].
  { destruct (number_first _ Hn) as (c & t' & -> & Hc). exists c, t'. split; auto. split; [|eauto]. unfold is_ws, is_digit in *. lia. }
  all: eexists _, _; split; [reflexivity|]; unfold is_ws, is_digit; split; [lia|intros K; lia].
Qed.
Lemma ws_split w c l w' c' l' : ws w -> ws w' -> ~ is_ws c -> ~ is_ws c' -> w ++ c :: l = w' ++ c' :: l' -> w = w' /\ c = c' /\ l = l'.
Proof.
  intros H. revert w'. induction H as [|x w Hx _ IH]; intros w' H' N N' E.
  - destruct w' as [|y w']; [injection E as -> ->; auto|]. injection E as -> _. inversion H'; subst. contradiction.
  - destruct w' as [|y w']; [injection E as -> _; contradiction|]. injection E as -> E. inversion H'; subst.
    destruct (IH w') as (-> & -> & ->); auto.
Qed.
(** a text that is completed to a value other than a number is cut off *)
Lemma other_cut f l s w t j : l ++ s = w ++ t -> s <> [] -> ws w -> value t j -> (forall x, j <> JNum x) -> cut f l.
Proof.
  intros E Hs Hw Hv Nj. split.
  - intros (w' & t' & j' & rest & -> & Hw' & Hv' & He).
    destruct (value_head _ _ Hv) as (c & x & -> & Nc & Cj). destruct (value_head _ _ Hv') as (c' & x' & -> & Nc' & Cj').
    rewrite <- !app_assoc in E. destruct (ws_split w' c' (x' ++ rest ++ s) w c x) as (-> & -> & Ex); auto.
    assert (K : p_Skip EEOF (w ++ (c :: x') ++ rest ++ s) = POk tt (rest ++ s)).
    { apply Skip_spec. exists w, (c :: x'), j'. repeat split; auto. destruct j'; simpl; auto. exfalso.
      destruct Cj as [y Ey]; [|now apply (Nj y)]. inversion Hv'; subst.
      match goal with H : number _ |- _ => apply number_first in H; destruct H as (? & ? & [= <- _] & H); exact H end. }
    assert (K' : p_Skip EEOF (w ++ (c :: x') ++ rest ++ s) = POk tt []).
    { cbn [app] in *. rewrite E. apply Skip_spec. exists w, (c :: x), j. rewrite app_nil_r. repeat split; auto. apply ws_vends. constructor. }
    rewrite K in K'. injection K' as K'. apply app_eq_nil in K'. tauto.
  - exists s, j, w, t, []. rewrite app_nil_r. repeat split; auto. constructor.
Qed.
Lemma skip_ws f w l : ws w -> p_Skip f (w ++ l) = p_Skip f l.
Proof.
  intros Hw. unfold p_Skip, p_takeToken, pbind. replace (p_nextToken f (w ++ l)) with (p_nextToken f l); [reflexivity|].
  induction Hw as [|x w Hx _ IH]; [reflexivity|]. rewrite IH. cbn [app]. rewrite (p_nextToken_eq f (x :: w ++ l)).
  apply is_space_ws in Hx. now rewrite Hx.
Qed.
Lemma skip_at f c l : ~ is_ws c -> p_Skip f (c :: l) = p_skipFunctions c f l.
Proof. intros H. unfold p_Skip. rewrite (pbind_run _ _ _ _ c l); auto. exact (takeToken_run f [] c l ws_nil H). Qed.
Lemma cut_ws f w l : ending f -> ws w -> cut f l -> cut f (w ++ l).
Proof. intros En Hw H. apply skip_cut; auto. rewrite skip_ws by auto. now apply skip_cut. Qed.

(** a value stands at the start of [l], before [r], but may be continued *)
Definition front (l r : bytes) : Prop := exists w t j, l = w ++ t ++ r /\ ws w /\ value t j.
Lemma front_ws w l r : ws w -> front l r -> front (w ++ l) r.
Proof.
  intros Hw (w' & t & j & -> & Hw' & Hv). exists (w ++ w'), t, j. split; [now rewrite app_assoc|]. split; auto. now apply Forall_app.
Qed.
Lemma skip_front f l r : p_Skip f l = POk tt r -> front l r.
Proof. intros H. apply Skip_spec in H. destruct H as (w & t & j & -> & Hw & Hv & _). exists w, t, j. auto. Qed.

Section End.
Variable f : err.
Hypothesis En : ending f.
Lemma no_byte e : byteOf e <> None -> e <> f.
Proof. intros H ->. destruct En as [->|[n ->]]; now apply H. Qed.
Lemma no_other n : EOther n <> f.
Proof. destruct En as [->|[m ->]]; discriminate. Qed.
(** the result [x] on the input [l] *)
Definition told {A} (T : A -> Prop) (x : pres A) (l : bytes) : Prop :=
  match x with POk v r => T v /\ front l r | PErr e => e = f -> cut f l end.
Lemma told_skip {A} (T : A -> Prop) (x : pres A) l :
  match x with POk v r => T v /\ p_Skip f l = POk tt r | PErr e => e = f -> p_Skip f l = PErr f end -> told T x l.
Proof.
  destruct x as [v r|e]; cbn.
  - intros [H K]. split; auto. now apply (skip_front f).
  - intros H ->. apply skip_cut; auto.
Qed.
Lemma told_echo {A} (T : A -> Prop) b (x : pres A) l : echo b x (p_Skip f l) -> (forall v r, x = POk v r -> T v) -> told T x l.
Proof.
  intros H K. apply told_skip. destruct H as [[_ [n ->]]|H].
  - intros <-. destruct En as [|[m ?]]; discriminate.
  - destruct x as [v r|e], (p_Skip f l) as [[] r'|e']; try contradiction; [subst; split; eauto|]. intros ->.
    destruct H as [<-|(c & H & _)]; auto. exfalso. apply (no_byte f); congruence.
Qed.
Lemma told_fail {A} (T : A -> Prop) e l : e <> f -> told T (PErr e) l.
Proof. intros N H. contradiction. Qed.
Lemma told_ws {A} (T : A -> Prop) x w l : ws w -> told T x l -> told T x (w ++ l).
Proof.
  intros Hw. unfold told. destruct x as [v r|e].
  - intros [H K]. split; auto. now apply front_ws.
  - intros H E. apply cut_ws; auto.
Qed.
(** an empty text *)
Lemma blank_cut w : ws w -> cut f w.
Proof. intros Hw. rewrite <- (app_nil_r w). apply cut_ws; auto. apply skip_cut; auto. Qed.
Lemma told_token {A} (T : A -> Prop) (q : Z -> P A) l :
  (forall c r, ~ is_ws c -> told T (q c f (c :: r)) (c :: r)) -> told T (pbind p_nextToken q f l) l.
Proof.
  intros H. unfold pbind. destruct (nextToken_cases f l) as [[Hw ->]|(w & c & r & -> & Hw & Hc & ->)].
  - intros _. now apply blank_cut.
  - apply told_ws; auto.
Qed.
Lemma told_bind {A B} (T : A -> Prop) (T' : B -> Prop) (p : P A) (q : A -> P B) l :
  told T (p f l) l -> (forall a r, T a -> match q a f r with POk b r' => T' b /\ r' = r | PErr e => e <> f end) -> told T' (pbind p q f l) l.
Proof.
  intros H K. unfold pbind. destruct (p f l) as [a r|e]; [|exact H]. destruct H as [H1 H2]. specialize (K a r H1).
  destruct (q a f r) as [b r'|e]; [|now apply told_fail]. destruct K as [K ->]. split; auto.
Qed.

(** ** Literals, strings, numbers *)
Lemma told_null {A} (T : A -> Prop) (p : P A) (v : A) r : T v ->
  told T (pbind p_inc (fun _ => pbind (p_expectBytes (bs "ull")) (fun _ => pret v)) f (110 :: r)) (110 :: r).
Proof.
  intros H. apply told_skip. rewrite skip_at by (unfold is_ws; lia). change (p_skipFunctions 110 f r) with (p_expectBytes (bs "ull") f r).
  unfold pbind, p_inc, pret. cbn [tl]. destruct (p_expectBytes (bs "ull") f r) as [[] r'|e]; auto. now intros ->.
Qed.
Lemma told_str {A} (T : bytes -> Prop) (T' : A -> Prop) (q : bytes -> P A) r : (forall s, T s) ->
  (forall s l, match q s f l with POk b l' => T' b /\ l' = l | PErr e => e <> f end) ->
  told T' (pbind p_inc (fun _ => pbind p_readStringAsSlice q) f (34 :: r)) (34 :: r).
Proof.
  intros HT H. rewrite (pbind_run _ _ _ _ tt r) by reflexivity.
  assert (S : told T (p_readStringAsSlice f r) (34 :: r)).
  { apply (told_echo _ true); auto. rewrite skip_at by (unfold is_ws; lia). apply str_echo. }
  unfold pbind. destruct (p_readStringAsSlice f r) as [s r'|e]; [|exact S]. destruct S as [_ S]. specialize (H s r').
  destruct (q s f r') as [b l'|e]; [|now apply told_fail]. destruct H as [H ->]. split; auto.
Qed.
(** bytes that stand for themselves in a string *)
Definition plain (c : Z) : Prop := 32 <= c /\ c <> 34 /\ c <> 92.
Lemma plain_skip u l : Forall plain u -> p_skipString f (u ++ l) = p_skipString f l.
Proof.
  induction 1 as [|c u (H1 & H2 & H3) _ IH]; [reflexivity|]. cbn [app]. rewrite skipString_eq.
  destruct (Z.eqb_spec c cQUOTE); [lia|]. destruct (Z.eqb_spec c cBSLASH); [lia|]. destruct (Z.ltb_spec c cSPACE); [lia|]. exact IH.
Qed.
Lemma plain_cut u : Forall plain u -> cut f (34 :: u).
Proof.
  intros H. apply skip_cut; auto. rewrite skip_at by (unfold is_ws; lia). change (p_skipFunctions 34 f u) with (p_skipString f u).
  rewrite <- (app_nil_r u), plain_skip by auto. reflexivity.
Qed.
Lemma plain_items u : Forall plain u -> string_items u (map UByte u).
Proof. induction 1 as [|c u (H1 & H2 & H3) _ IH]; constructor; auto. Qed.
Lemma plain_front u r : Forall plain u -> front (34 :: u ++ 34 :: r) r.
Proof.
  intros H. exists [], (34 :: u ++ [34]), (JStr (denote (map UByte u))). split; [cbn [app]; now rewrite <- app_assoc|]. split; [constructor|].
  constructor. eexists. split; [|reflexivity]. now apply plain_items.
Qed.
Lemma number_plain t : number t -> Forall plain t.
Proof.
  assert (D : forall c, is_digit c -> plain c) by (unfold is_digit, plain; lia).
  assert (Ds : forall l, digits l -> Forall plain l) by (intros l H; eapply Forall_impl; [exact D|exact H]).
  assert (U : forall t, unsigned_number t -> Forall plain t).
  { intros _ [i fr e Hi Hf He]. apply Forall_app. split; [|apply Forall_app; split].
    - destruct Hi as [|d l Hd Hl]; (constructor; [unfold plain; lia|auto]).
    - destruct Hf as [|l [_ Hl]]; constructor; auto. unfold plain; lia.
    - destruct He as [|e l He [_ Hl]|e s l He Hs [_ Hl]]; [constructor| |]; repeat (constructor; [unfold plain; lia|]); auto. }
  intros [u H|u H]; auto. constructor; auto. unfold plain. lia.
Qed.
(** a number that is cut off *)
Lemma number_cut_plain c l : c = 45 \/ is_digit c -> cut f (c :: l) -> Forall plain (c :: l).
Proof.
  intros Hc [Ns (s & j & w & t & w2 & E & Hw & Hv & Hw2)].
  destruct (value_head _ _ Hv) as (c' & t' & -> & Nc & Cj).
  assert (Nc' : ~ is_ws c) by (unfold is_ws, is_digit in *; lia).
  destruct (ws_split [] c (l ++ s) w c' (t' ++ w2)) as (<- & <- & E'); auto; [constructor|].
  destruct (Cj Hc) as [x ->]. inversion Hv as [| | |u Hn| | | | |]; subst. clear E.
  destruct (app_eq_app _ _ _ _ E') as (m & [[-> ->]|[-> ->]]).
  - destruct m as [|y m]; [rewrite app_nil_r; now apply number_plain|]. exfalso. apply Ns.
    exists [], (c :: t'), (JNum (c :: t')), (y :: m). split; [reflexivity|]. split; [constructor|]. split; auto. simpl.
    apply num_ends_sep. inversion Hw2; subst. unfold is_ws, is_digit, is_e in *. lia.
  - apply number_plain in Hn. inversion Hn; subst. constructor; auto. now apply Forall_app in H2.
Qed.
Lemma skipNumber_at c l : c = 45 \/ is_digit c -> p_Skip f (c :: l) = p_skipNumber c f l.
Proof.
  intros Hc. rewrite skip_at by (unfold is_ws, is_digit in *; lia). unfold p_skipFunctions, p_value. unfold is_digit in Hc.
  destruct (Z.eqb_spec c cLBRACK); [lia|]. destruct (Z.eqb_spec c cLBRACE); [lia|]. cbn [leaf skipAlg]. unfold p_skipLeaf.
  destruct (Z.eqb_spec c cQUOTE); [lia|]. destruct (Z.eqb_spec c c_n); [lia|]. destruct (Z.eqb_spec c c_t); [lia|]. destruct (Z.eqb_spec c c_f); [lia|].
  replace ((c =? cMINUS) || ((cZERO <=? c) && (c <=? cNINE))) with true by lia. reflexivity.
Qed.
Lemma uintLoop_end w nd l : forall st, p_uintLoop w nd st f l = PErr f -> digits l /\ f <> EEOF.
Proof.
  induction l as [|c l IH]; intros st H; unfold p_uintLoop in *.
  - rewrite p_scan_nil in H. unfold p_eofReturn in H. split; [constructor|]. intros ->. discriminate.
  - rewrite p_scan_cons in H by apply presume_uint. destruct st as [n v]. cbn [pb_uint] in H.
    destruct (is_digit_dec c) as [D|D]; [|rewrite intDigits_nodigit in H by auto; discriminate].
    rewrite (proj2 (intDigits_digit c D)) in H. destruct (_ && _) in H.
    + injection H as H. exfalso. destruct En as [|[m ?]]; congruence.
    + apply IH in H. destruct H. split; auto. now constructor.
Qed.
Lemma readU_end w c l : p_readU w c f l = PErr f -> is_digit c /\ c <> 48 /\ digits l /\ f <> EEOF.
Proof.
  intros H. assert (D : is_digit c).
  { destruct (is_digit_dec c) as [|N]; auto. exfalso. apply intDigits_nodigit in N. assert (N0 : intDigits c =? 0 = false) by (apply Z.eqb_eq in N; rewrite N; reflexivity).
    assert (K : (p_readUint8 c f l = PErr (EInvalidDigit c)) /\ forall a b, p_readUintN a b c f l = PErr (EInvalidDigit c)).
    { unfold p_readUint8, p_readUintN. rewrite N0, N. auto. }
    destruct K as [K1 K2]. unfold p_readU in H. destruct (w =? 8); [|destruct (w =? 16); [|destruct (w =? 32)]]; rewrite ?K1, ?K2 in H;
      injection H as H; eapply (no_byte (EInvalidDigit c)); try exact H; discriminate. }
  split; auto. destruct (intDigits_digit c D) as [D1 D2].
  assert (KN : forall a b, p_readUintN a b c f l = PErr f -> c <> 48 /\ digits l /\ f <> EEOF).
  { intros a b K. unfold p_readUintN in K. rewrite D2 in K. destruct (Z.eqb_spec (intDigits c) 0) as [|N]; [discriminate|]. split; [lia|]. now apply uintLoop_end in K. }
  assert (K8 : p_readUint8 c f l = PErr f -> c <> 48 /\ digits l /\ f <> EEOF).
  { intros K. unfold p_readUint8 in K. rewrite D2 in K. destruct (Z.eqb_spec (intDigits c) 0) as [|N]; [discriminate|]. split; [lia|].
    unfold pbind, p_peekOrEOF, p_inc in K. destruct l as [|c2 l].
    - split; [constructor|]. intros ->. discriminate.
    - destruct (is_digit_dec c2) as [E2|E2]; [|rewrite intDigits_nodigit in K by auto; discriminate].
      rewrite (proj2 (intDigits_digit _ E2)) in K. cbn [tl] in K. destruct l as [|c3 l].
      + split; [repeat constructor; apply E2|]. intros ->. discriminate.
      + destruct (is_digit_dec c3) as [E3|E3]; [|rewrite intDigits_nodigit in K by auto; discriminate].
        rewrite (proj2 (intDigits_digit _ E3)) in K. destruct (_ || _) in K; [|discriminate].
        injection K as K. exfalso. destruct En as [|[m ?]]; congruence. }
  unfold p_readU in H. destruct (w =? 8); auto. destruct (w =? 16); [|destruct (w =? 32)]; eauto.
Qed.
Lemma unsigned_end c l : is_digit c -> c <> 48 -> digits l -> f <> EEOF -> p_unsigned c f l = PErr f.
Proof.
  intros D N H Nf. unfold p_unsigned. destruct (Z.eqb_spec c cZERO); [congruence|]. induction H as [|x l Hx _ IH]; rewrite intLoop_eq.
  - unfold p_ret0, p_eofReturn. destruct f; try reflexivity. congruence.
  - destruct (fd_digit x Hx) as (-> & _). exact IH.
Qed.
Lemma intOf_end s w c l : p_readIntOf s w c f l = PErr f -> (c = 45 \/ is_digit c) /\ p_skipNumber c f l = PErr f.
Proof.
  intros H. assert (U : forall c l, p_readU (wbits w) c f l = PErr f -> is_digit c /\ p_unsigned c f l = PErr f).
  { intros x y K. apply readU_end in K. destruct K as (K1 & K2 & K3 & K4). split; auto. now apply unsigned_end. }
  unfold p_readIntOf in H. destruct s.
  - unfold p_readIntN in H. destruct (Z.eqb_spec c cMINUS) as [->|N].
    + split; auto. rewrite skipNumber_minus. destruct l as [|d l]; auto. unfold pbind, p_peek, p_inc in H. cbn [tl] in H.
      destruct (p_readU (wbits w) d f l) as [v r|e] eqn:K.
      * destruct (_ <? _) in H; [|discriminate]. injection H as H. exfalso. destruct En as [|[m ?]]; congruence.
      * injection H as ->. apply U in K. destruct K as [K1 K2]. rewrite (proj2 (intDigits_digit _ K1)). exact K2.
    + unfold pbind in H. destruct (p_readU (wbits w) c f l) as [v r|e] eqn:K.
      * destruct (_ <? _) in H; [|discriminate]. injection H as H. exfalso. destruct En as [|[m ?]]; congruence.
      * injection H as ->. apply U in K. destruct K as [K1 K2]. split; auto. now rewrite skipNumber_unsigned.
  - apply U in H. destruct H as [K1 K2]. split; auto. now rewrite skipNumber_unsigned.
Qed.
Lemma int_number s t v : int_text s t v -> number t.
Proof. apply int_text_number. Qed.

(** ** Arrays *)
Definition inArray (pre : bytes) : Prop := forall e vs, elements e vs -> exists vs', elements (pre ++ e) vs'.
Lemma inArray_ws w : ws w -> inArray w.
Proof.
  intros Hw e vs H. destruct H as [w1 t v w2 H1 H2 H3|w1 t v w2 r vs H1 H2 H3 H4]; eexists; rewrite app_assoc.
  - apply el_one; [now apply Forall_app|exact H2|auto].
  - eapply el_cons; eauto. now apply Forall_app.
Qed.
Lemma inArray_more pre w t j w2 : inArray pre -> ws w -> value t j -> ws w2 -> inArray (pre ++ w ++ t ++ w2 ++ [44]).
Proof.
  intros H Hw Hv Hw2 e vs He. rewrite <- !app_assoc. cbn [app]. eapply H. now apply el_cons; eauto.
Qed.
Section Elems.
Context {St B R : Type}.
Variable loop : nat -> St -> P R.
Variable body : St -> P B.
Variables (stop : St -> B -> R) (next : St -> B -> St) (TS : St -> Prop) (TR : R -> Prop).
Hypothesis loop_eq : forall n s l, loop (S n) s f l = pbind (body s) (fun b =>
  pbind p_nextToken (fun c => pbind p_inc (fun _ =>
  if c =? cRBRACK then pret (stop s b) else if negb (c =? cCOMMA) then pfail (EUnexpectedByte c cRBRACK cCOMMA) else loop n (next s b)))) f l.
Hypothesis loop_0 : forall s l, loop 0 s f l = PErr (EOther (-2)).
Hypothesis body_told : forall s l, TS s -> told (fun b => TS (next s b) /\ TR (stop s b)) (body s f l) l.
Lemma elems_told n : forall s l pre, TS s -> inArray pre ->
  match loop n s f l with
  | POk x r => TR x /\ exists e vs, l = e ++ 93 :: r /\ elements (pre ++ e) vs
  | PErr e => e = f -> exists x vs, elements (pre ++ l ++ x) vs
  end.
Proof.
  induction n as [|n IH]; intros s l pre Hs Hp; [rewrite loop_0; intros K; now apply no_other in K|].
  rewrite loop_eq. assert (Hb := body_told s l Hs). unfold pbind at 1. destruct (body s f l) as [b r1|e].
  - destruct Hb as [[Hn Ht] (w & t & j & -> & Hw & Hv)]. unfold pbind at 1.
    destruct (nextToken_cases f r1) as [[Hw2 ->]|(w2 & c & r2 & -> & Hw2 & Hc & ->)].
    + intros _. exists []. rewrite app_nil_r. eapply Hp. now apply el_one; eauto.
    + rewrite (pbind_run _ _ _ _ tt r2) by reflexivity. destruct (Z.eqb_spec c cRBRACK) as [->|N1].
      * split; auto. exists (w ++ t ++ w2). destruct (Hp (w ++ t ++ w2) [j]) as [vs V]; [now apply el_one|]. exists vs. split; auto.
        now rewrite <- !app_assoc.
      * destruct (Z.eqb_spec c cCOMMA) as [->|N2]; cbn [negb]; [|intros K; exfalso; revert K; now apply no_byte].
        specialize (IH (next s b) r2 _ Hn (inArray_more pre w t j w2 Hp Hw Hv Hw2)).
        destruct (loop n (next s b) f r2) as [x r|e].
        -- destruct IH as (Hx & e & vs & -> & V). split; auto. exists (w ++ t ++ w2 ++ 44 :: e), vs. split; [now rewrite <- !app_assoc|].
           rewrite <- !app_assoc in V. exact V.
        -- intros K. destruct (IH K) as (x & vs & V). exists x, vs. rewrite <- !app_assoc in *. exact V.
  - intros ->. destruct (Hb eq_refl) as [_ (x & j & w & t & w2 & E & Hw & Hv & Hw2)]. exists x. rewrite E. eapply Hp. now apply el_one; eauto.
Qed.
Lemma array_told {A} (T : A -> Prop) (s0 : St) (empty : R) (g : R -> A) r : TS s0 -> TR empty -> (forall x, TR x -> T (g x)) ->
  told T (pbind p_inc (fun _ => pbind p_nextToken (fun c =>
     pbind (if c =? cRBRACK then pbind p_inc (fun _ => pret empty) else p_fuel (fun n => loop n s0)) (fun x => pret (g x)))) f (91 :: r)) (91 :: r).
Proof.
  intros H0 He Hg. rewrite (pbind_run _ _ _ _ tt r) by reflexivity. unfold pbind at 1.
  destruct (nextToken_cases f r) as [[Hw ->]|(w & c & r2 & -> & Hw & Hc & ->)].
  - intros _. apply (other_cut f _ [93] [] (91 :: r ++ [93]) (JArr [])); [reflexivity|discriminate|constructor|now constructor|discriminate].
  - destruct (Z.eqb_spec c cRBRACK) as [->|N].
    + split; [now apply Hg|]. exists [], (91 :: w ++ [93]), (JArr []). split; [cbn [app]; now rewrite <- app_assoc|]. split; [constructor|now constructor].
    + unfold p_fuel. assert (K := elems_told (S (length (c :: r2))) s0 (c :: r2) w H0 (inArray_ws w Hw)). unfold pbind.
      destruct (loop (S (length (c :: r2))) s0 f (c :: r2)) as [x r'|e].
      * destruct K as (Hx & e & vs & -> & V). split; [now apply Hg|]. exists [], (91 :: (w ++ e) ++ [93]), (JArr vs).
        split; [cbn [app]; now rewrite <- !app_assoc|]. split; [constructor|]. now constructor.
      * intros K'. destruct (K K') as (x & vs & V). apply (other_cut f _ (x ++ [93]) [] (91 :: (w ++ (c :: r2) ++ x) ++ [93]) (JArr vs)).
        -- cbn [app]. rewrite <- !app_assoc. cbn [app]. rewrite <- ?app_assoc. reflexivity.
        -- now destruct x.
        -- constructor.
        -- now constructor.
        -- discriminate.
Qed.
End Elems.

(** ** Objects *)
Definition inObject (pre : bytes) : Prop := forall e ms, members e ms -> exists ms', members (pre ++ e) ms'.
Lemma inObject_ws w : ws w -> inObject w.
Proof.
  intros Hw e vs H. destruct H; eexists; rewrite app_assoc; [eapply mb_one|eapply mb_cons]; eauto; now apply Forall_app.
Qed.
Lemma inObject_more pre b k w2 w3 t j w4 : inObject pre -> string_body b k -> ws w2 -> ws w3 -> value t j -> ws w4 ->
  inObject (pre ++ 34 :: b ++ 34 :: w2 ++ 58 :: w3 ++ t ++ w4 ++ [44]).
Proof.
  intros H H1 H2 H3 H4 H5 e ms He. rewrite <- app_assoc. cbn [app]. rewrite <- app_assoc. cbn [app]. rewrite <- app_assoc. cbn [app]. rewrite <- !app_assoc.
  eapply H. apply (mb_cons [] b k w2 w3 t j w4 e ms); auto. constructor.
Qed.
Lemma zero_value : value [48] (JNum [48]).
Proof. apply v_num. apply int_part_number. constructor. Qed.
Lemma member0 b k w : string_body b k -> ws w -> members (34 :: b ++ 34 :: w ++ [58; 48]) [(k, JNum [48])].
Proof. intros H H2. apply (mb_one [] b k w [] [48] (JNum [48]) []); first [apply zero_value|constructor|auto]. Qed.
Section Members.
Context {St : Type}.
Variable loop : nat -> St -> P St.
Variable body : bytes -> St -> P St.
Variable TS : St -> Prop.
Hypothesis loop_eq : forall n s l, loop (S n) s f l = pbind p_readObjectField (fun name => pbind (body name s) (fun b =>
  pbind p_nextToken (fun c =>
  if c =? cRBRACE then pbind p_inc (fun _ => pret b)
  else if c =? cCOMMA then
    pbind p_inc (fun _ => pbind p_nextToken (fun c2 =>
    if negb (c2 =? cQUOTE) then pfail (EUnexpectedByte c2 cQUOTE 0) else pbind p_inc (fun _ => loop n b)))
  else pfail (EUnexpectedByte c cRBRACE cCOMMA)))) f l.
Hypothesis loop_0 : forall s l, loop 0 s f l = PErr (EOther (-2)).
Hypothesis body_told : forall name s l, TS s -> told TS (body name s f l) l.
Lemma members_told n : forall s l pre, TS s -> inObject pre ->
  match loop n s f l with
  | POk x r => TS x /\ exists e ms, 34 :: l = e ++ 125 :: r /\ members (pre ++ e) ms
  | PErr e => e = f -> exists x ms, members (pre ++ 34 :: l ++ x) ms
  end.
Proof.
  induction n as [|n IH]; intros s l pre Hs Hp; [rewrite loop_0; intros K; now apply no_other in K|].
  rewrite loop_eq. unfold p_readObjectField. rewrite !pbind_assoc.
  assert (Hk : told (fun _ => True) (p_readStringAsSlice f l) (34 :: l)).
  { apply (told_echo _ true); auto. rewrite skip_at by (unfold is_ws; lia). apply str_echo. }
  unfold pbind at 1. destruct (p_readStringAsSlice f l) as [name r1|e] eqn:Ek.
  2:{ intros ->. destruct (Hk eq_refl) as [_ (x & j & w & t & w2 & E & Hw & Hv & Hw2)].
      destruct (value_head _ _ Hv) as (c & t' & -> & Nc & _).
      destruct (ws_split [] 34 (l ++ x) w c (t' ++ w2)) as (<- & <- & E'); auto; [constructor|unfold is_ws; lia|].
      inversion Hv; subst. { apply number_first in H. destruct H as (? & ? & [= <- _] & H). unfold is_digit in H. lia. }
      rewrite <- app_assoc in E'. cbn [app] in E'. exists (x ++ [58; 48]). eapply Hp. rewrite app_assoc, E'. rewrite <- app_assoc. cbn [app].
      now apply member0; eauto. }
  clear Hk. apply readString_spec in Ek. destruct Ek as (b & -> & Hb). rewrite !pbind_assoc. unfold pbind at 1.
  destruct (nextToken_cases f r1) as [[Hw2 ->]|(w2 & c & r2 & -> & Hw2 & Hc & ->)].
  { intros _. exists [58; 48]. eapply Hp. rewrite <- app_assoc. cbn [app]. now apply member0; eauto. }
  destruct (Z.eqb_spec c cCOLON) as [->|N]; cbn [negb]; [|intros K; exfalso; revert K; now apply no_byte].
  rewrite !pbind_assoc. rewrite (pbind_run _ _ _ _ tt r2) by reflexivity. change (pbind (pret name) ?q f r2) with (q name f r2). cbv beta.
  assert (Hb2 := body_told name s r2 Hs). unfold pbind at 1. destruct (body name s f r2) as [s2 r3|e].
  2:{ intros ->. destruct (Hb2 eq_refl) as [_ (x & j & w & t & w4 & E & Hw & Hv & Hw4)]. exists x.
      rewrite <- app_assoc. cbn [app]. rewrite <- app_assoc. cbn [app]. rewrite E. eapply Hp. now apply (mb_one [] b name w2 w t j w4); auto; constructor. }
  destruct Hb2 as [Hs2 (w3 & t & j & -> & Hw3 & Hv)]. unfold pbind at 1.
  destruct (nextToken_cases f r3) as [[Hw4 ->]|(w4 & c & r4 & -> & Hw4 & Hc4 & ->)].
  { intros _. exists []. rewrite app_nil_r. eapply Hp. now apply (mb_one [] b name w2 w3 t j r3); auto; constructor. }
  destruct (Z.eqb_spec c cRBRACE) as [->|N1].
  { split; auto. exists (34 :: b ++ 34 :: w2 ++ 58 :: w3 ++ t ++ w4).
    destruct (Hp (34 :: b ++ 34 :: w2 ++ 58 :: w3 ++ t ++ w4) [(name, j)]) as [ms M]; [now apply (mb_one [] b name w2 w3 t j w4); auto; constructor|].
    exists ms. split; auto. repeat (cbn [app]; rewrite <- ?app_assoc). reflexivity. }
  destruct (Z.eqb_spec c cCOMMA) as [->|N2]; [|intros K; exfalso; revert K; now apply no_byte].
  rewrite (pbind_run _ _ _ _ tt r4) by reflexivity. unfold pbind at 1.
  assert (Hmore := inObject_more pre b name w2 w3 t j w4 Hp Hb Hw2 Hw3 Hv Hw4).
  destruct (nextToken_cases f r4) as [[Hw5 ->]|(w5 & c & r5 & -> & Hw5 & Hc5 & ->)].
  { intros _. exists [34; 34; 58; 48]. destruct (Hmore (r4 ++ [34; 34; 58; 48]) [([], JNum [48])]) as [ms M].
    - apply (mb_one r4 [] [] [] [] [48] (JNum [48]) []); first [apply zero_value|exact Hw5|exists []; split; constructor|constructor].
    - exists ms. revert M. repeat (cbn [app]; rewrite <- ?app_assoc). auto. }
  destruct (Z.eqb_spec c cQUOTE) as [->|N3]; cbn [negb]; [|intros K; exfalso; revert K; now apply no_byte].
  rewrite (pbind_run _ _ _ _ tt r5) by reflexivity.
  assert (Hmore' : inObject ((pre ++ 34 :: b ++ 34 :: w2 ++ 58 :: w3 ++ t ++ w4 ++ [44]) ++ w5)).
  { intros e ms M. rewrite <- app_assoc. destruct (inObject_ws w5 Hw5 e ms M) as [ms' M']. exact (Hmore _ _ M'). }
  specialize (IH s2 r5 _ Hs2 Hmore'). destruct (loop n s2 f r5) as [x r|e].
  - destruct IH as (Hx & e & ms & E & M). split; auto. exists (34 :: b ++ 34 :: w2 ++ 58 :: w3 ++ t ++ w4 ++ 44 :: w5 ++ e), ms.
    split; [|revert M; repeat (cbn [app]; rewrite <- ?app_assoc); auto].
    repeat (cbn [app]; rewrite <- ?app_assoc). rewrite E. reflexivity.
  - intros K. destruct (IH K) as (x & ms & M). exists x, ms. revert M. repeat (cbn [app]; rewrite <- ?app_assoc). auto.
Qed.
Lemma object_told (s0 : St) r : TS s0 ->
  told TS (pbind p_inc (fun _ => pbind p_nextToken (fun c =>
    if c =? cRBRACE then pbind p_inc (fun _ => pret s0)
    else if negb (c =? cQUOTE) then pfail (EUnexpectedByte c cRBRACE cQUOTE)
    else pbind p_inc (fun _ => p_fuel (fun n => loop n s0)))) f (123 :: r)) (123 :: r).
Proof.
  intros H0. rewrite (pbind_run _ _ _ _ tt r) by reflexivity. unfold pbind at 1.
  destruct (nextToken_cases f r) as [[Hw ->]|(w & c & r2 & -> & Hw & Hc & ->)].
  - intros _. apply (other_cut f _ [125] [] (123 :: r ++ [125]) (JObj [])); [reflexivity|discriminate|constructor|now constructor|discriminate].
  - destruct (Z.eqb_spec c cRBRACE) as [->|N].
    + split; [exact H0|]. exists [], (123 :: w ++ [125]), (JObj []). split; [cbn [app]; now rewrite <- app_assoc|]. split; [constructor|now constructor].
    + destruct (Z.eqb_spec c cQUOTE) as [->|N2]; cbn [negb]; [|apply told_fail; now apply no_byte].
      rewrite (pbind_run _ _ _ _ tt r2) by reflexivity. unfold p_fuel.
      assert (K := members_told (S (length r2)) s0 r2 w H0 (inObject_ws w Hw)). destruct (loop (S (length r2)) s0 f r2) as [x r'|e].
      * destruct K as (Hx & e & ms & E & M). split; auto. rewrite E. exists [], (123 :: (w ++ e) ++ [125]), (JObj ms).
        split; [cbn [app]; now rewrite <- !app_assoc|]. split; [constructor|]. now constructor.
      * intros K'. destruct (K K') as (x & ms & M). apply (other_cut f _ (x ++ [125]) [] (123 :: (w ++ 34 :: r2 ++ x) ++ [125]) (JObj ms)).
        -- repeat (cbn [app]; rewrite <- ?app_assoc). reflexivity.
        -- now destruct x.
        -- constructor.
        -- now constructor.
        -- discriminate.
Qed.
End Members.
End End.
