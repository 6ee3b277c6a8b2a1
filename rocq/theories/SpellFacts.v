(** What two texts that differ in their spelling have in common. *)
From Coq Require Import String ZArith List Bool Lia Arith.
From Verif Require Import Base ModelIter ModelStack ModelSkip ModelStr ModelInt ModelFloat ModelRead ModelIterate ModelOps
  Sim SimLib StackFacts Machine SimSkip SimRaw SimStr SimInt SimFloat SimRead SimOps SimVal
  NumFacts StrFacts MachineFacts FloatFacts GrammarFacts IterFacts ModelVal IntFacts SpecVal DecFacts DecSound DecComplete Spec SpecSpell.
Import ListNotations.
Local Open Scope Z_scope.

Section Spell.
Variable loose : bool.
Notation alike := (alike loose).
Notation alike_elements := (alike_elements loose).
Notation alike_members := (alike_members loose).
Notation same_string := (same_string loose).
Lemma same_sym b b' : same_string b b' -> same_string b' b.
Proof. intros (s & H & H' & K). exists s. split; auto. split; auto. intros L. symmetry. auto. Qed.
Lemma alike_sym : (forall t t', alike t t' -> alike t' t) /\ (forall t t', alike_elements t t' -> alike_elements t' t) /\
  (forall t t', alike_members t t' -> alike_members t' t).
Proof. apply alike_mutind; intros; constructor; auto; now apply same_sym. Qed.
Lemma alike_value : (forall t t', alike t t' -> exists j, value t j /\ value t' j) /\
  (forall t t', alike_elements t t' -> exists l, elements t l /\ elements t' l) /\
  (forall t t', alike_members t t' -> exists l, members t l /\ members t' l).
Proof.
  apply alike_mutind.
  - eexists; split; apply v_null.
  - eexists; split; apply v_true.
  - eexists; split; apply v_false.
  - intros t H. eexists; split; now apply v_num.
  - intros b b' (s & H & H' & _). exists (JStr s). split; now constructor.
  - intros w w' H H'. exists (JArr []). split; now constructor.
  - intros t t' _ (l & H & H'). exists (JArr l). split; now constructor.
  - intros w w' H H'. exists (JObj []). split; now constructor.
  - intros t t' _ (l & H & H'). exists (JObj l). split; now constructor.
  - intros w1 t w2 w1' t' w2' H1 H2 H3 H4 _ (j & H & H'). exists [j]. split; now constructor.
  - intros w1 t w2 r w1' t' w2' r' H1 H2 H3 H4 _ (j & H & H') _ (l & K & K'). exists (j :: l). split; now constructor.
  - intros w1 b w2 w3 t w4 w1' b' w2' w3' t' w4' H1 H2 H3 H4 H5 H6 H7 H8 (s & S & S' & _) _ (j & H & H'). exists [(s, j)]. split; now constructor.
  - intros w1 b w2 w3 t w4 r w1' b' w2' w3' t' w4' r' H1 H2 H3 H4 H5 H6 H7 H8 (s & S & S' & _) _ (j & H & H') _ (l & K & K').
    exists ((s, j) :: l). split; now constructor.
Qed.
Lemma value_alike : loose = true -> (forall t j, value t j -> forall t', value t' j -> alike t t') /\
  (forall t l, elements t l -> forall t', elements t' l -> alike_elements t t') /\
  (forall t l, members t l -> forall t', members t' l -> alike_members t t').
Proof.
  intros L. assert (S : forall b b' s, string_body b s -> string_body b' s -> same_string b b') by (intros b b' s H H'; exists s; split; auto; split; auto; congruence).
  apply value_mutind.
  - intros t' H. inversion H; subst. constructor.
  - intros t' H. inversion H; subst. constructor.
  - intros t' H. inversion H; subst. constructor.
  - intros t Ht t' H. inversion H; subst. now constructor.
  - intros b s Hs t' H. inversion H; subst. constructor. eauto.
  - intros w Hw t' H. inversion H as [| | | | | |e vs He| |]; subst; [now constructor|]. inversion He.
  - intros e vs He IH t' H. inversion H as [| | | | | |e' vs' He'| |]; subst; [inversion He|]. apply ak_arr. auto.
  - intros w Hw t' H. inversion H as [| | | | | | | |e vs He]; subst; [now constructor|]. inversion He.
  - intros e vs He IH t' H. inversion H as [| | | | | | | |e' vs' He']; subst; [inversion He|]. apply ak_obj. auto.
  - intros w1 t v w2 H1 Hv IH H2 t' H. inversion H as [? ? ? ? ? K|? ? ? ? ? ? ? ? ? K]; subst; [solve [constructor; auto]|]. inversion K.
  - intros w1 t v w2 r vs H1 Hv IH H2 Hr IHr t' H. inversion H as [|? ? ? ? ? ? ? ? ? ?]; subst; [inversion Hr|]. solve [constructor; auto].
  - intros w1 b k w2 w3 t v w4 H1 Hb H2 H3 Hv IH H4 t' H. inversion H as [|? ? ? ? ? ? ? ? ? ? ? ? ? ? ? ? K]; subst; [solve [constructor; eauto]|]. inversion K.
  - intros w1 b k w2 w3 t v w4 r ms H1 Hb H2 H3 Hv IH H4 Hr IHr t' H. inversion H; subst; [inversion Hr|]. solve [constructor; eauto].
Qed.
(** the first byte *)
Inductive view (c : Z) (tl tl' : bytes) : Prop :=
| vw_null : c = 110 -> tl = bs "ull" -> tl' = bs "ull" -> view c tl tl'
| vw_true : c = 116 -> tl = bs "rue" -> tl' = bs "rue" -> view c tl tl'
| vw_false : c = 102 -> tl = bs "alse" -> tl' = bs "alse" -> view c tl tl'
| vw_num : c = 45 \/ is_digit c -> number (c :: tl) -> tl' = tl -> view c tl tl'
| vw_str b b' : c = 34 -> same_string b b' -> tl = b ++ [34] -> tl' = b' ++ [34] -> view c tl tl'
| vw_arr0 w w' : c = 91 -> ws w -> ws w' -> tl = w ++ [93] -> tl' = w' ++ [93] -> view c tl tl'
| vw_arr t t' : c = 91 -> alike_elements t t' -> tl = t ++ [93] -> tl' = t' ++ [93] -> view c tl tl'
| vw_obj0 w w' : c = 123 -> ws w -> ws w' -> tl = w ++ [125] -> tl' = w' ++ [125] -> view c tl tl'
| vw_obj t t' : c = 123 -> alike_members t t' -> tl = t ++ [125] -> tl' = t' ++ [125] -> view c tl tl'.
Lemma alike_view t t' : alike t t' -> exists c tl tl', t = c :: tl /\ t' = c :: tl' /\ ~ is_ws c /\ view c tl tl'.
Proof.
  intros [| | |x Hx|b b' Hb|w w' Hw Hw'|e e' He|w w' Hw Hw'|e e' He].
  4:{ destruct (number_first _ Hx) as (c & tl & -> & Hc). exists c, tl, tl. split; auto. split; auto. split; [unfold is_ws, is_digit in *; lia|]. now apply vw_num. }
  - exists 110, (bs "ull"), (bs "ull"). repeat (split; [reflexivity|]). split; [unfold is_ws; lia|now apply vw_null].
  - exists 116, (bs "rue"), (bs "rue"). repeat (split; [reflexivity|]). split; [unfold is_ws; lia|now apply vw_true].
  - exists 102, (bs "alse"), (bs "alse"). repeat (split; [reflexivity|]). split; [unfold is_ws; lia|now apply vw_false].
  - exists 34, (b ++ [34]), (b' ++ [34]). repeat (split; [reflexivity|]). split; [unfold is_ws; lia|now apply (vw_str _ _ _ b b')].
  - exists 91, (w ++ [93]), (w' ++ [93]). repeat (split; [reflexivity|]). split; [unfold is_ws; lia|now apply (vw_arr0 _ _ _ w w')].
  - exists 91, (e ++ [93]), (e' ++ [93]). repeat (split; [reflexivity|]). split; [unfold is_ws; lia|now apply (vw_arr _ _ _ e e')].
  - exists 123, (w ++ [125]), (w' ++ [125]). repeat (split; [reflexivity|]). split; [unfold is_ws; lia|now apply (vw_obj0 _ _ _ w w')].
  - exists 123, (e ++ [125]), (e' ++ [125]). repeat (split; [reflexivity|]). split; [unfold is_ws; lia|now apply (vw_obj _ _ _ e e')].
Qed.
Lemma view_alike c tl tl' : view c tl tl' -> alike (c :: tl) (c :: tl').
Proof. intros [-> -> ->| -> -> ->| -> -> ->|H1 H2 ->|b b' -> H -> ->|w w' -> H H' -> ->|e e' -> H -> ->|w w' -> H H' -> ->|e e' -> H -> ->]; now constructor. Qed.

(** the bytes of numbers *)
Lemma number_chars t : number t -> Forall numchar t.
Proof.
  assert (D : forall c, is_digit c -> numchar c) by (unfold is_digit, numchar; lia).
  assert (Ds : forall l, digits l -> Forall numchar l) by (intros l H; eapply Forall_impl; [exact D|exact H]).
  assert (U : forall t, unsigned_number t -> Forall numchar t).
  { intros _ [i fr e Hi Hf He]. apply Forall_app. split; [|apply Forall_app; split].
    - destruct Hi as [|d l Hd Hl]; (constructor; [unfold numchar; lia|auto]).
    - destruct Hf as [|l [_ Hl]]; constructor; auto. unfold numchar; lia.
    - destruct He as [|e l He [_ Hl]|e s l He Hs [_ Hl]]; [constructor| |]; repeat (constructor; [unfold numchar, is_e in *; lia|]); auto. }
  intros [u H|u H]; auto. constructor; auto. unfold numchar. lia.
Qed.

(** ** What a function does with both *)
(** [p] gives the same value for both texts and consumes them, or leaves a part [u] of the same number *)
Definition at_agree {A} (T : A -> Prop) (p : P A) (t t' : bytes) : Prop := forall f f' r r' v x, ends t f r -> ends t' f' r' -> p f (t ++ r) = POk v x ->
  T v /\ exists u, x = u ++ r /\ Forall numchar u /\ p f' (t' ++ r') = POk v (u ++ r').
Definition agree {A} (T : A -> Prop) (p : P A) : Prop := forall w w' t t', ws w -> ws w' -> alike t t' ->
  forall f f' r r' v x, ends t f r -> ends t' f' r' -> p f (w ++ t ++ r) = POk v x ->
  T v /\ exists u, x = u ++ r /\ Forall numchar u /\ p f' (w' ++ t' ++ r') = POk v (u ++ r').
Lemma agree_token {A} (T : A -> Prop) (q : Z -> P A) :
  (forall c tl tl', ~ is_ws c -> view c tl tl' -> at_agree T (q c) (c :: tl) (c :: tl')) -> agree T (pbind p_nextToken q).
Proof.
  intros H w w' t t' Hw Hw' A0 f f' r r' v x He He' K. destruct (alike_view _ _ A0) as (c & tl & tl' & -> & -> & Hc & V).
  cbn [app] in *. unfold pbind in *. rewrite nextToken_run in K by auto. rewrite nextToken_run by auto.
  exact (H c tl tl' Hc V f f' r r' v x He He' K).
Qed.
Lemma at_fail {A} (T : A -> Prop) e t t' : at_agree T (pfail e) t t'.
Proof. intros f f' r r' v x _ _ K. discriminate. Qed.
Lemma agree_bind {A B} (T : A -> Prop) (T' : B -> Prop) (p : P A) (q : A -> P B) : agree T p ->
  (forall a f r v x, T a -> q a f r = POk v x -> T' v /\ x = r /\ forall f' r', q a f' r' = POk v r') -> agree T' (pbind p q).
Proof.
  intros Hp Hq w w' t t' Hw Hw' A0 f f' r r' v x He He' K. unfold pbind in *. destruct (p f (w ++ t ++ r)) as [a y|e] eqn:Ep; [|discriminate].
  destruct (Hp w w' t t' Hw Hw' A0 f f' r r' a y He He' Ep) as (Ta & u & -> & Hu & ->). destruct (Hq _ _ _ _ _ Ta K) as (Tv & -> & Hq'). eauto 6.
Qed.
Lemma ret_ok {A B} (T : A -> Prop) (T' : B -> Prop) (g : A -> B) : (forall a, T a -> T' (g a)) ->
  forall a f (r : bytes) v x, T a -> pret (g a) f r = POk v x -> T' v /\ x = r /\ forall f' r', pret (g a) f' r' = POk v r'.
Proof. intros H a f r v x Ta [= <- <-]. auto. Qed.
(** in the place of a token the function may look at it once more *)
Lemma agree_at {A} (T : A -> Prop) p c tl tl' : view c tl tl' -> agree T p -> at_agree T p (c :: tl) (c :: tl').
Proof. intros V H f f' r r' v x He He' K. exact (H [] [] _ _ ws_nil ws_nil (view_alike _ _ _ V) f f' r r' v x He He' K). Qed.
Lemma at_whole {A} (T : A -> Prop) (p : P A) t t' : (forall f f' r r' v x, ends t f r -> ends t' f' r' -> p f (t ++ r) = POk v x -> T v /\ x = r /\ p f' (t' ++ r') = POk v r') ->
  at_agree T p t t'.
Proof. intros H f f' r r' v x He He' K. destruct (H f f' r r' v x He He' K) as (Tv & -> & K'). split; auto. exists []. auto. Qed.
Lemma at_lit {A} (T : A -> Prop) (v : A) c s : s <> [] -> T v -> at_agree T (pbind p_inc (fun _ => pbind (p_expectBytes s) (fun _ => pret v))) (c :: s) (c :: s).
Proof.
  intros Ns Tv. apply at_whole. intros f f' r r' v' x _ _ K. unfold pbind, p_inc, pret in *. cbn [tl app] in *.
  assert (X : forall f r, p_expectBytes s f (s ++ r) = POk tt r) by (intros; now apply expect_ok).
  rewrite X in *. injection K as <- <-. auto.
Qed.
Lemma at_null {A} (T : A -> Prop) (v : A) tl tl' : view 110 tl tl' -> T v ->
  at_agree T (pbind p_inc (fun _ => pbind (p_expectBytes (bs "ull")) (fun _ => pret v))) (110 :: tl) (110 :: tl').
Proof. intros [_ -> ->|?|?|[|D]|? ? ?|? ? ?|? ? ?|? ? ?|? ? ?] Tv; try discriminate; [now apply at_lit|]. unfold is_digit in D. lia. Qed.
Lemma str_run f b s r : string_body b s -> p_readStringAsSlice f (b ++ 34 :: r) = POk s r.
Proof. intros H. apply readString_spec. eauto. Qed.
Lemma view_str tl tl' : view 34 tl tl' -> exists b b', same_string b b' /\ tl = b ++ [34] /\ tl' = b' ++ [34].
Proof. intros [?|?|?|[|D]|b b' _ H -> ->|? ? ?|? ? ?|? ? ?|? ? ?]; try discriminate; eauto 6. unfold is_digit in D. lia. Qed.
Lemma at_str {A} (T : A -> Prop) (q : bytes -> P A) tl tl' : view 34 tl tl' ->
  (forall s f r v x, q s f r = POk v x -> T v /\ x = r /\ forall f' r', q s f' r' = POk v r') ->
  at_agree T (pbind p_inc (fun _ => pbind p_readStringAsSlice q)) (34 :: tl) (34 :: tl').
Proof.
  intros V H. destruct (view_str _ _ V) as (b & b' & (s & Hb & Hb' & _) & -> & ->). apply at_whole. intros f f' r r' v x _ _ K.
  cbn [app] in *. rewrite <- app_assoc in *. unfold pbind, p_inc in *. cbn [List.tl app] in *. rewrite (str_run _ _ s) in K by auto. rewrite (str_run _ _ s) by auto.
  destruct (H _ _ _ _ _ K) as (Tv & -> & K'). auto.
Qed.
Lemma skip_run f w t j r : ws w -> value t j -> ends t f r -> p_Skip f (w ++ t ++ r) = POk tt r.
Proof. intros Hw Hv He. apply Skip_spec. exists w, t, j. repeat split; auto. now apply ends_vends. Qed.
Lemma agree_skip : agree (fun _ => True) p_Skip.
Proof.
  intros w w' t t' Hw Hw' A0 f f' r r' v x He He' K. destruct (proj1 alike_value _ _ A0) as (j & Hj & Hj').
  rewrite (skip_run _ _ _ j) in K by auto. injection K as <- <-. split; auto. exists []. split; auto. split; [constructor|]. now apply (skip_run _ _ _ j).
Qed.

(** ** Arrays *)
Lemma num_not u c l r : Forall numchar u -> u ++ l = c :: r -> c = 44 \/ c = 93 \/ c = 125 \/ c = 58 \/ is_ws c -> u = [].
Proof. intros [|x y Hx _] E Hc; auto. cbn in E. injection E as -> _. unfold numchar, is_ws in *. lia. Qed.
Lemma num_token {A} u l (q : Z -> P A) f v x : Forall numchar u -> (forall c f l, numchar c -> q c f l <> POk v x) -> pbind p_nextToken q f (u ++ l) = POk v x -> u = [].
Proof.
  intros [|c u' Hc _] H K; auto. exfalso. cbn [app] in K. unfold pbind in K. change (c :: u' ++ l) with ([] ++ c :: u' ++ l) in K.
  rewrite nextToken_run in K; [|constructor|unfold numchar, is_ws in *; lia]. now apply H in K.
Qed.
Lemma elements_strip e e' : alike_elements e e' -> exists w w' c y y', e = w ++ c :: y /\ e' = w' ++ c :: y' /\ ws w /\ ws w' /\ ~ is_ws c /\ c <> 93 /\
  alike_elements (c :: y) (c :: y').
Proof.
  assert (N : forall c tl tl', view c tl tl' -> c <> 93).
  { intros c tl tl' [->| ->| ->|H|? ? ->|? ? ->|? ? ->|? ? ->|? ? ->]; try lia. unfold is_digit in H. lia. }
  intros [w1 t w2 w1' t' w2' H1 H2 H3 H4 A0|w1 t w2 x w1' t' w2' x' H1 H2 H3 H4 A0 He]; destruct (alike_view _ _ A0) as (c & tl & tl' & -> & -> & Hc & V).
  - exists w1, w1', c, (tl ++ w2), (tl' ++ w2'). repeat (split; [auto; fail|]). split; [eauto|]. exact (ae_one _ [] _ _ [] _ _ ws_nil H2 ws_nil H4 A0).
  - exists w1, w1', c, (tl ++ w2 ++ 44 :: x), (tl' ++ w2' ++ 44 :: x'). repeat (split; [auto; fail|]). split; [eauto|].
    exact (ae_cons _ [] _ _ _ [] _ _ _ ws_nil H2 ws_nil H4 A0 He).
Qed.
Section Elems.
Context {St B R : Type}.
Variable loop : nat -> St -> P R.
Variable body : St -> P B.
Variables (stop : St -> B -> R) (next : St -> B -> St) (TS : St -> Prop) (TR : R -> Prop).
Hypothesis loop_eq : forall n s f l, loop (S n) s f l = pbind (body s) (fun b =>
  pbind p_nextToken (fun c => pbind p_inc (fun _ =>
  if c =? cRBRACK then pret (stop s b) else if negb (c =? cCOMMA) then pfail (EUnexpectedByte c cRBRACK cCOMMA) else loop n (next s b)))) f l.
Hypothesis loop_0 : forall s f l, loop 0 s f l = PErr (EOther (-2)).
Hypothesis body_agree : forall s, TS s -> agree (fun b => TS (next s b) /\ TR (stop s b)) (body s).
Lemma elems_agree e e' : alike_elements e e' -> forall s n n' f f' r r' v x, TS s -> (length e' < n')%nat ->
  loop n s f (e ++ 93 :: r) = POk v x -> TR v /\ x = r /\ loop n' s f' (e' ++ 93 :: r') = POk v r'.
Proof.
  intros H. induction H as [w1 t w2 w1' t' w2' H1 H2 H3 H4 A0|w1 t w2 e w1' t' w2' e' H1 H2 H3 H4 A0 He IH]; intros s n n' f f' r r' v x Ts Hn K;
    (destruct n as [|n]; [rewrite loop_0 in K; discriminate|]); (destruct n' as [|n']; [lia|]); rewrite loop_eq in *; unfold pbind at 1 in K; unfold pbind at 1.
  - rewrite <- !app_assoc in *.
    destruct (body s f (w1 ++ t ++ w2 ++ 93 :: r)) as [b y|e] eqn:Eb; [|discriminate].
    destruct (body_agree s Ts w1 w1' t t' H1 H3 A0 f f' (w2 ++ 93 :: r) (w2' ++ 93 :: r') b y) as ((Tn & Tr) & u & -> & Hu & ->);
      [apply sep_ends, ws_sep; auto|apply sep_ends, ws_sep; auto|exact Eb|].
    assert (u = []) as ->.
    { eapply num_token; [exact Hu| |exact K]. intros c f0 l Hc. unfold pbind, p_inc. cbn [tl].
      destruct (Z.eqb_spec c cRBRACK); [unfold numchar in Hc; lia|]. destruct (Z.eqb_spec c cCOMMA); [unfold numchar in Hc; lia|]. discriminate. }
    cbn [app] in *. unfold pbind in *. rewrite nextToken_run in K by (auto; unfold is_ws; lia). rewrite nextToken_run by (auto; unfold is_ws; lia).
    cbn in K. injection K as <- <-. cbn. auto.
  - repeat (rewrite <- app_assoc in K; cbn [app] in K). repeat (rewrite <- app_assoc; cbn [app]).
    destruct (body s f (w1 ++ t ++ w2 ++ 44 :: e ++ 93 :: r)) as [b y|er] eqn:Eb; [|discriminate].
    destruct (body_agree s Ts w1 w1' t t' H1 H3 A0 f f' (w2 ++ 44 :: e ++ 93 :: r) (w2' ++ 44 :: e' ++ 93 :: r') b y) as ((Tn & Tr) & u & -> & Hu & ->);
      [apply sep_ends, ws_sep; auto|apply sep_ends, ws_sep; auto|exact Eb|].
    assert (u = []) as ->.
    { eapply num_token; [exact Hu| |exact K]. intros c f0 l Hc. unfold pbind, p_inc. cbn [tl].
      destruct (Z.eqb_spec c cRBRACK); [unfold numchar in Hc; lia|]. destruct (Z.eqb_spec c cCOMMA); [unfold numchar in Hc; lia|]. discriminate. }
    cbn [app] in *. unfold pbind in *. rewrite nextToken_run in K by (auto; unfold is_ws; lia). rewrite nextToken_run by (auto; unfold is_ws; lia).
    cbn [p_inc tl] in *. change (44 =? cRBRACK) with false in *. change (negb (44 =? cCOMMA)) with false in *. cbv iota in *.
    eapply IH; [exact Tn| |exact K]. rewrite !app_length in Hn. cbn [length] in Hn. lia.
Qed.
Lemma at_array {A} (T : A -> Prop) (s0 : St) (empty : R) (g : R -> A) tl tl' : view 91 tl tl' -> TS s0 -> TR empty -> (forall x, TR x -> T (g x)) ->
  at_agree T (pbind p_inc (fun _ => pbind p_nextToken (fun c =>
    pbind (if c =? cRBRACK then pbind p_inc (fun _ => pret empty) else p_fuel (fun n => loop n s0)) (fun x => pret (g x))))) (91 :: tl) (91 :: tl').
Proof.
  intros V Ts Te Tg. apply at_whole. intros f f' r r' v x _ _ K. cbn [app] in *. rewrite (pbind_run _ _ _ _ tt (tl ++ r)) in K by reflexivity.
  rewrite (pbind_run _ _ _ _ tt (tl' ++ r')) by reflexivity.
  destruct V as [?|?|?|[|D]|? ? ?|w w' _ Hw Hw' -> ->|e e' _ He -> ->|? ? ?|? ? ?]; try discriminate.
  - unfold is_digit in D. lia.
  - rewrite <- app_assoc in *. cbn [app] in *. unfold pbind in *. rewrite nextToken_run in K by (auto; unfold is_ws; lia). rewrite nextToken_run by (auto; unfold is_ws; lia).
    cbn in *. injection K as <- <-. auto.
  - rewrite <- app_assoc in *. cbn [app] in *.
    destruct (elements_strip _ _ He) as (w & w' & c & y & y' & -> & -> & Hw & Hw' & Hc & Nc & He1).
    rewrite <- !app_assoc in *. cbn [app] in *. unfold pbind in *. rewrite nextToken_run in K by auto. rewrite nextToken_run by auto.
    destruct (Z.eqb_spec c cRBRACK); [congruence|]. unfold p_fuel in *.
    destruct (loop (S (length (c :: y ++ 93 :: r))) s0 f (c :: y ++ 93 :: r)) as [z x'|] eqn:El; [|discriminate]. injection K as <- <-.
    destruct (elems_agree _ _ He1 s0 (S (length (c :: y ++ 93 :: r))) (S (length (c :: y' ++ 93 :: r'))) f f' r r' z x' Ts) as (Tz & -> & K'); [cbn [length]; rewrite app_length; cbn [length]; lia|exact El|].
    change (c :: y' ++ 93 :: r') with ((c :: y') ++ 93 :: r') at 2. rewrite K'. auto.
Qed.
End Elems.

(** ** Objects *)
Lemma members_strip m m' : alike_members m m' -> exists w w' y y', m = w ++ 34 :: y /\ m' = w' ++ 34 :: y' /\ ws w /\ ws w' /\ alike_members (34 :: y) (34 :: y').
Proof.
  intros [w1 b w2 w3 t w4 w1' b' w2' w3' t' w4' H1 H2 H3 H4 H5 H6 H7 H8 S A0|w1 b w2 w3 t w4 x w1' b' w2' w3' t' w4' x' H1 H2 H3 H4 H5 H6 H7 H8 S A0 K].
  - do 4 eexists. split; [reflexivity|]. split; [reflexivity|]. split; auto. split; auto.
    exact (am_one _ [] _ _ _ _ _ [] _ _ _ _ _ ws_nil H2 H3 H4 ws_nil H6 H7 H8 S A0).
  - do 4 eexists. split; [reflexivity|]. split; [reflexivity|]. split; auto. split; auto.
    exact (am_cons _ [] _ _ _ _ _ _ [] _ _ _ _ _ _ ws_nil H2 H3 H4 ws_nil H6 H7 H8 S A0 K).
Qed.
Section Members.
Context {St N : Type}.
Variable enter : nat -> St -> P St.
Variable keyStep : P N.
Variable body : N -> St -> P St.
Variable TS : St -> Prop.
Hypothesis enter_eq : forall n s f l, enter (S n) s f l = pbind keyStep (fun k => pbind (body k s) (fun s' =>
  pbind p_nextToken (fun c =>
  if c =? cRBRACE then pbind p_inc (fun _ => pret s')
  else if c =? cCOMMA then pbind p_inc (fun _ => enter n s')
  else pfail (EUnexpectedByte c cRBRACE cCOMMA)))) f l.
Hypothesis enter_0 : forall s f l v x, enter 0 s f l <> POk v x.
Hypothesis key_agree : forall w w' b b' w2 w2' f f' r r' k x, ws w -> ws w' -> ws w2 -> ws w2' -> same_string b b' ->
  keyStep f (w ++ 34 :: b ++ 34 :: w2 ++ 58 :: r) = POk k x -> x = r /\ keyStep f' (w' ++ 34 :: b' ++ 34 :: w2' ++ 58 :: r') = POk k r'.
Hypothesis body_agree : forall k s, TS s -> agree TS (body k s).
Lemma members_agree m m' : alike_members m m' -> forall s n n' f f' r r' v x, TS s -> (length m' < n')%nat ->
  enter n s f (m ++ 125 :: r) = POk v x -> TS v /\ x = r /\ enter n' s f' (m' ++ 125 :: r') = POk v r'.
Proof.
  intros H. induction H as [w1 b w2 w3 t w4 w1' b' w2' w3' t' w4' H1 H2 H3 H4 H5 H6 H7 H8 S A0|w1 b w2 w3 t w4 m w1' b' w2' w3' t' w4' m' H1 H2 H3 H4 H5 H6 H7 H8 S A0 Hm IH];
    intros s n n' f f' r r' v x Ts Hn K;
    (destruct n as [|n]; [now apply enter_0 in K|]); (destruct n' as [|n']; [lia|]); rewrite enter_eq in *;
    repeat (rewrite <- app_assoc in K; cbn [app] in K); repeat (rewrite <- app_assoc; cbn [app]); unfold pbind at 1 in K; unfold pbind at 1.
  - destruct (keyStep f _) as [k z|] eqn:Ek; [|discriminate].
    destruct (key_agree w1 w1' b b' w2 w2' f f' _ (w3' ++ t' ++ w4' ++ 125 :: r') _ _ H1 H5 H2 H6 S Ek) as (-> & ->).
    unfold pbind at 1 in K; unfold pbind at 1.
    destruct (body k s f _) as [s' y|e] eqn:Eb; [|discriminate].
    destruct (body_agree k s Ts w3 w3' t t' H3 H7 A0 f f' (w4 ++ 125 :: r) (w4' ++ 125 :: r') s' y) as (Tn & u & -> & Hu & ->);
      [apply sep_ends, ws_sep; auto|apply sep_ends, ws_sep; auto|exact Eb|].
    assert (u = []) as ->.
    { refine (num_token _ _ _ _ _ _ Hu _ K). intros c f0 l Hc.
      destruct (Z.eqb_spec c cRBRACE); [unfold numchar in Hc; lia|]. destruct (Z.eqb_spec c cCOMMA); [unfold numchar in Hc; lia|]. discriminate. }
    cbn [app] in *. unfold pbind in *. rewrite nextToken_run in K by (auto; unfold is_ws; lia). rewrite nextToken_run by (auto; unfold is_ws; lia).
    cbn in K. injection K as <- <-. cbn. auto.
  - destruct (keyStep f _) as [k z|] eqn:Ek; [|discriminate].
    destruct (key_agree w1 w1' b b' w2 w2' f f' _ (w3' ++ t' ++ w4' ++ 44 :: m' ++ 125 :: r') _ _ H1 H5 H2 H6 S Ek) as (-> & ->).
    unfold pbind at 1 in K; unfold pbind at 1.
    destruct (body k s f _) as [s' y|e] eqn:Eb; [|discriminate].
    destruct (body_agree k s Ts w3 w3' t t' H3 H7 A0 f f' (w4 ++ 44 :: m ++ 125 :: r) (w4' ++ 44 :: m' ++ 125 :: r') s' y) as (Tn & u & -> & Hu & ->);
      [apply sep_ends, ws_sep; auto|apply sep_ends, ws_sep; auto|exact Eb|].
    assert (u = []) as ->.
    { refine (num_token _ _ _ _ _ _ Hu _ K). intros c f0 l Hc.
      destruct (Z.eqb_spec c cRBRACE); [unfold numchar in Hc; lia|]. destruct (Z.eqb_spec c cCOMMA); [unfold numchar in Hc; lia|]. discriminate. }
    cbn [app] in *. unfold pbind in *. rewrite nextToken_run in K by (auto; unfold is_ws; lia). rewrite nextToken_run by (auto; unfold is_ws; lia).
    cbn [p_inc tl] in *. change (44 =? cRBRACE) with false in *. change (44 =? cCOMMA) with true in *. cbv iota in *.
    eapply IH; [exact Tn| |exact K]. repeat (rewrite app_length in Hn; cbn [length] in Hn). lia.
Qed.
Lemma at_object {A} (T : A -> Prop) (s0 : St) (open : P A) (g : St -> A) tl tl' : view 123 tl tl' -> TS s0 -> (forall s, TS s -> T (g s)) ->
  (forall f w r, ws w -> open f (123 :: w ++ 125 :: r) = POk (g s0) r) ->
  (forall f w y, ws w -> exists n, (length y < n)%nat /\ open f (123 :: w ++ 34 :: y) = match enter n s0 f (34 :: y) with POk s r => POk (g s) r | PErr e => PErr e end) ->
  at_agree T open (123 :: tl) (123 :: tl').
Proof.
  intros V Ts Tg O1 O2. apply at_whole. intros f f' r r' v x _ _ K. cbn [app] in *.
  destruct V as [?|?|?|[|D]|? ? ?|? ? ?|? ? ?|w w' _ Hw Hw' -> ->|m m' _ Hm -> ->]; try discriminate.
  - unfold is_digit in D. lia.
  - rewrite <- app_assoc in *. cbn [app] in *. rewrite O1 in K by auto. rewrite O1 by auto. injection K as <- <-. auto.
  - destruct (members_strip _ _ Hm) as (w & w' & y & y' & -> & -> & Hw & Hw' & Hm1).
    repeat (rewrite <- app_assoc in *; cbn [app] in *).
    destruct (O2 f w (y ++ 125 :: r) Hw) as (n & Hn & O). rewrite O in K. destruct (O2 f' w' (y' ++ 125 :: r') Hw') as (n' & Hn' & O'). rewrite O'.
    destruct (enter n s0 f (34 :: y ++ 125 :: r)) as [s z|] eqn:Es; [|discriminate]. injection K as <- <-.
    destruct (members_agree _ _ Hm1 s0 n n' f f' r r' s z Ts) as (Tz & -> & K'); [cbn [length]; rewrite app_length in Hn'; cbn [length] in Hn'; lia|exact Es|].
    change (34 :: y' ++ 125 :: r') with ((34 :: y') ++ 125 :: r'). rewrite K'. auto.
Qed.
End Members.

(** ** Integers *)
Lemma intOf_local s w c f f' t x y y' v : p_readIntOf s w c f (t ++ x :: y) = POk v (x :: y) -> p_readIntOf s w c f' (t ++ x :: y') = POk v (x :: y').
Proof.
  intros H. assert (D := intOf_ws _ _ _ _ _ _ _ H). assert (Hc := digit_nows c D). rewrite intOf_take in * by auto.
  assert (Hw : wbits w = 8 \/ wbits w = 16 \/ wbits w = 32 \/ wbits w = 64) by (destruct w; auto).
  assert (U : forall t, uint_token t (x :: y) f -> uint_token t (x :: y') f') by (intros t0 [->|(d & l & -> & ? & ? & ?)]; [now left|right; exists d, l; auto]).
  assert (I : forall t v, int_token t v (x :: y) f -> int_token t v (x :: y') f').
  { intros t0 v0 K. remember (x :: y) as z eqn:Ez. destruct K; subst; constructor; auto. }
  assert (Q : forall t, cut_token t (x :: y) f -> cut_token t (x :: y') f').
  { intros t0 [[K L]|K]; [left|right]; auto. }
  assert (J : forall t v, cut_int t v (x :: y) f -> cut_int t v (x :: y') f').
  { intros t0 v0 K. remember (x :: y) as z eqn:Ez. destruct K; subst; constructor; auto. }
  assert (G : forall s0 t0, c :: t ++ x :: y = s0 ++ t0 ++ x :: y -> ws s0 -> t0 = c :: t).
  { intros s0 t0 E0 H0. destruct (app_ws_cons _ _ _ _ _ E0 H0 Hc) as [_ E1]. change (c :: t ++ x :: y) with ((c :: t) ++ x :: y) in E1. now apply app_inv_tail in E1. }
  destruct s; destruct Hw as [Hw|Hw].
  - rewrite Hw in *. apply ReadI8_spec in H. destruct H as (s0 & t0 & E0 & H0 & Ht & Hv). rewrite (G _ _ E0 H0) in Ht.
    apply ReadI8_spec. exists [], (c :: t). split; [reflexivity|]. split; [constructor|]. auto.
  - apply ReadI_spec in H; auto. destruct H as (s0 & t0 & E0 & H0 & Ht & Hv). rewrite (G _ _ E0 H0) in Ht.
    apply ReadI_spec; auto. exists [], (c :: t). split; [reflexivity|]. split; [constructor|]. auto.
  - rewrite Hw in *. apply ReadU8_spec in H. destruct H as (s0 & t0 & E0 & H0 & Ht & Hv). rewrite (G _ _ E0 H0) in *.
    apply ReadU8_spec. exists [], (c :: t). split; [reflexivity|]. split; [constructor|]. auto.
  - apply ReadU_spec in H; auto. destruct H as (s0 & t0 & E0 & H0 & Ht & Hv). rewrite (G _ _ E0 H0) in *.
    apply ReadU_spec; auto. exists [], (c :: t). split; [reflexivity|]. split; [constructor|]. auto.
Qed.
Lemma intOf_agree s w c t f f' r r' v x : number (c :: t) -> num_ends (c :: t) f r -> num_ends (c :: t) f' r' -> p_readIntOf s w c f (t ++ r) = POk v x ->
  exists u, x = u ++ r /\ Forall numchar u /\ p_readIntOf s w c f' (t ++ r') = POk v (u ++ r').
Proof.
  intros Hn He He' K. destruct (intOf_sound _ _ _ _ _ _ _ K) as (t0 & E & Ht & Hv). apply app_eq_app in E. destruct E as (u & [[-> ->]|[-> ->]]).
  - destruct u as [|y u].
    + exists []. split; auto. split; [constructor|]. rewrite app_nil_r in *. eapply intOf_complete; eauto.
    + exists (y :: u). split; auto. split. { change (c :: t0 ++ y :: u) with ((c :: t0) ++ y :: u) in Hn. apply number_chars, Forall_app in Hn. tauto. }
      rewrite <- app_assoc in *. cbn [app] in *. eapply intOf_local; eauto.
  - destruct u as [|y u].
    + exists []. split; auto. split; [constructor|]. rewrite app_nil_r in *. eapply intOf_complete; eauto.
    + exfalso. apply int_text_number in Ht. apply (proj1 He y (u ++ x) u eq_refl). exact Ht.
Qed.
End Spell.
