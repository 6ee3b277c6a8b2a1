(** The container machine accepts exactly the JSON values, for any algebra whose leaves and
    keys are read correctly. *)
From Coq Require Import String ZArith List Bool Lia Arith.
From Verif Require Import Base ModelIter ModelStack ModelSkip Sim SimLib StackFacts Machine Spec NumFacts StrFacts.
Import ListNotations.
Local Open Scope Z_scope.

(** ** What is left of an array or object after its first elements *)
Inductive atail : bool -> bytes -> list jval -> Prop :=
| at_end first w : ws w -> atail first (w ++ [93]) []
| at_first w t v r vs : ws w -> value t v -> atail false r vs -> atail true (w ++ t ++ r) (v :: vs)
| at_next w w' t v r vs : ws w -> ws w' -> value t v -> atail false r vs ->
    atail false (w ++ 44 :: w' ++ t ++ r) (v :: vs).
Definition mtext (b w2 w3 t : bytes) : bytes := 34 :: b ++ 34 :: w2 ++ 58 :: w3 ++ t.
Inductive otail : bool -> bytes -> list (bytes * jval) -> Prop :=
| ot_end first w : ws w -> otail first (w ++ [125]) []
| ot_first w b k w2 w3 t v r ms : ws w -> string_body b k -> ws w2 -> ws w3 -> value t v ->
    otail false r ms -> otail true (w ++ mtext b w2 w3 t ++ r) ((k, v) :: ms)
| ot_next w w' b k w2 w3 t v r ms : ws w -> ws w' -> string_body b k -> ws w2 -> ws w3 -> value t v ->
    otail false r ms -> otail false (w ++ 44 :: w' ++ mtext b w2 w3 t ++ r) ((k, v) :: ms).

Lemma ws_nil : ws [].
Proof. constructor. Qed.
Lemma ws_app a b : ws a -> ws b -> ws (a ++ b).
Proof. unfold ws. rewrite Forall_app. auto. Qed.
Local Hint Resolve ws_nil ws_app : core.

Lemma atail_comma x vs w : atail true x vs -> vs <> [] -> ws w -> atail false (w ++ 44 :: x) vs.
Proof.
  intros H Hn Hw. inversion H as [|w1 t v r vs0 H1 H2 H3|]; subst; [congruence|]. now apply at_next.
Qed.
Lemma elements_atail t vs : elements t vs -> atail true (t ++ [93]) vs /\ vs <> [].
Proof.
  induction 1 as [w1 t v w2 H1 Hv H2|w1 t v w2 r vs H1 Hv H2 Hr [IH Hn]]; (split; [|discriminate]).
  - rewrite <- !app_assoc. apply at_first; auto. now apply at_end.
  - rewrite <- !app_assoc. apply at_first; auto. simpl. now apply atail_comma.
Qed.
Lemma atail_elements first x vs : atail first x vs ->
  (vs = [] /\ exists w, ws w /\ x = w ++ [93]) \/
  exists t, elements t vs /\ (if first then x = t ++ [93] else exists w, ws w /\ x = w ++ 44 :: t ++ [93]).
Proof.
  induction 1 as [first w Hw|w t v r vs Hw Hv Hr IH|w w' t v r vs Hw Hw' Hv Hr IH]; [left; eauto| |]; right.
  - destruct IH as [[-> (w2 & Hw2 & ->)]|(t' & He & (w2 & Hw2 & ->))].
    + exists (w ++ t ++ w2). split; [now constructor|]. now rewrite <- !app_assoc.
    + exists (w ++ t ++ w2 ++ 44 :: t'). split; [now constructor|]. now rewrite <- !app_assoc.
  - destruct IH as [[-> (w2 & Hw2 & ->)]|(t' & He & (w2 & Hw2 & ->))].
    + exists (w' ++ t ++ w2). split; [now constructor|]. exists w. split; auto. now rewrite <- !app_assoc.
    + exists (w' ++ t ++ w2 ++ 44 :: t'). split; [now constructor|]. exists w. split; auto. now rewrite <- !app_assoc.
Qed.
Lemma otail_comma x ms w : otail true x ms -> ms <> [] -> ws w -> otail false (w ++ 44 :: x) ms.
Proof.
  intros H Hn Hw. inversion H; subst; [congruence|]. now apply ot_next.
Qed.
Lemma members_otail t ms : members t ms -> otail true (t ++ [125]) ms /\ ms <> [].
Proof.
  induction 1 as [w1 b k w2 w3 t v w4 H1 Hb H2 H3 Hv H4|w1 b k w2 w3 t v w4 r ms H1 Hb H2 H3 Hv H4 Hr [IH Hn]];
    (split; [|discriminate]).
  - assert (H := ot_first w1 b k w2 w3 t v _ _ H1 Hb H2 H3 Hv (ot_end false w4 H4)).
    unfold mtext in H. repeat (rewrite <- ?app_assoc in *; simpl in * ). exact H.
  - assert (H := ot_first w1 b k w2 w3 t v _ _ H1 Hb H2 H3 Hv (otail_comma _ _ w4 IH Hn H4)).
    unfold mtext in H. repeat (rewrite <- ?app_assoc in *; simpl in * ). exact H.
Qed.
Lemma otail_members first x ms : otail first x ms ->
  (ms = [] /\ exists w, ws w /\ x = w ++ [125]) \/
  exists t, members t ms /\ (if first then x = t ++ [125] else exists w, ws w /\ x = w ++ 44 :: t ++ [125]).
Proof.
  induction 1 as [first w Hw|w b k w2 w3 t v r ms Hw Hb Hw2 Hw3 Hv Hr IH
                 |w w' b k w2 w3 t v r ms Hw Hw' Hb Hw2 Hw3 Hv Hr IH]; [left; eauto| |]; right.
  - destruct IH as [[-> (w4 & Hw4 & ->)]|(t' & He & (w4 & Hw4 & ->))].
    + eexists; split; [apply (mb_one w b k w2 w3 t v w4); auto|]. unfold mtext.
      repeat (rewrite <- ?app_assoc; simpl). reflexivity.
    + eexists; split; [apply (mb_cons w b k w2 w3 t v w4 t'); eauto|]. unfold mtext.
      repeat (rewrite <- ?app_assoc; simpl). reflexivity.
  - destruct IH as [[-> (w4 & Hw4 & ->)]|(t' & He & (w4 & Hw4 & ->))].
    + eexists; split; [apply (mb_one w' b k w2 w3 t v w4); auto|]. exists w. split; auto. unfold mtext.
      repeat (rewrite <- ?app_assoc; simpl). reflexivity.
    + eexists; split; [apply (mb_cons w' b k w2 w3 t v w4 t'); eauto|]. exists w. split; auto. unfold mtext.
      repeat (rewrite <- ?app_assoc; simpl). reflexivity.
Qed.

(** first bytes of values *)
Lemma value_first t j : value t j ->
  exists c t', t = c :: t' /\ ~ is_ws c /\ c <> 93 /\ c <> 125 /\ c <> 44 /\
    (c = 91 -> exists vs, j = JArr vs) /\ (c = 123 -> exists ms, j = JObj ms) /\
    (c <> 91 -> c <> 123 -> match j with JArr _ | JObj _ => False | _ => True end).
Proof.
  assert (Hlit : forall c t' j, (forall vs, j <> JArr vs) -> (forall ms, j <> JObj ms) ->
    (c = 110 \/ c = 116 \/ c = 102 \/ c = 45 \/ is_digit c \/ c = 34) ->
    exists c0 t0, c :: t' = c0 :: t0 /\ ~ is_ws c0 /\ c0 <> 93 /\ c0 <> 125 /\ c0 <> 44 /\
    (c0 = 91 -> exists vs, j = JArr vs) /\ (c0 = 123 -> exists ms, j = JObj ms) /\
    (c0 <> 91 -> c0 <> 123 -> match j with JArr _ | JObj _ => False | _ => True end)).
  { intros c t' j0 Ha Ho Hc. exists c, t'. split; auto. unfold is_ws, is_digit in *. repeat (split; [lia|]).
    intros _ _. destruct j0; auto; [eapply Ha|eapply Ho]; reflexivity. }
  intros H. destruct H as [| | |t Hn|b s Hb|w Hw|t vs He|w Hw|t ms Hm];
    try (apply Hlit; [discriminate|discriminate|tauto]).
  - destruct (number_first _ Hn) as (c & t' & E & Hc). 
    subst t. apply Hlit; [discriminate|discriminate|tauto].
  - eexists _, _; split; [reflexivity|]. unfold is_ws. repeat (split; [lia|]). split; eauto. split; [lia|]. lia.
  - eexists _, _; split; [reflexivity|]. unfold is_ws. repeat (split; [lia|]). split; eauto. split; [lia|]. lia.
  - eexists _, _; split; [reflexivity|]. unfold is_ws. repeat (split; [lia|]). split; eauto.
  - eexists _, _; split; [reflexivity|]. unfold is_ws. repeat (split; [lia|]). split; eauto.
Qed.
Lemma value_arr t j : value (91 :: t) j <-> exists vs, j = JArr vs /\ atail true t vs.
Proof.
  split.
  - intros H. destruct (value_first _ _ H) as (c & t' & [= <- <-] & _ & _ & _ & _ & Ha & _). destruct (Ha eq_refl) as [vs ->].
    exists vs. split; auto. inversion H; subst.
    + now apply at_end.
    + match goal with H : elements _ _ |- _ => apply elements_atail in H; tauto end.
  - intros (vs & -> & H). destruct (atail_elements _ _ _ H) as [[-> (w & Hw & ->)]|(t0 & He & ->)]; now constructor.
Qed.
Lemma value_obj t j : value (123 :: t) j <-> exists ms, j = JObj ms /\ otail true t ms.
Proof.
  split.
  - intros H. destruct (value_first _ _ H) as (c & t' & [= <- <-] & _ & _ & _ & _ & _ & Ho & _). destruct (Ho eq_refl) as [vs ->].
    exists vs. split; auto. inversion H; subst.
    + now apply ot_end.
    + match goal with H : members _ _ |- _ => apply members_otail in H; tauto end.
  - intros (vs & -> & H). destruct (otail_members _ _ _ H) as [[-> (w & Hw & ->)]|(t0 & He & ->)]; now constructor.
Qed.
(** what follows an element can not continue a number *)
Definition sep (r : bytes) : Prop := exists c r', r = c :: r' /\ (is_ws c \/ c = 44 \/ c = 93 \/ c = 125).
Lemma ws_sep w c r : ws w -> c = 44 \/ c = 93 \/ c = 125 -> sep (w ++ c :: r).
Proof. intros [|x w' Hx Hw] Hc; simpl; eexists _, _; split; eauto. Qed.
Lemma atail_sep r vs x : atail false r vs -> sep (r ++ x).
Proof.
  intros H. inversion H; subst; rewrite <- app_assoc; simpl; apply ws_sep; auto.
Qed.
Lemma otail_sep r vs x : otail false r vs -> sep (r ++ x).
Proof.
  intros H. inversion H; subst; rewrite <- app_assoc; simpl; apply ws_sep; auto.
Qed.
(** the end of a value in a longer input *)
Lemma sep_vends t j f r : sep r -> vends t j f r.
Proof.
  intros (c & r' & -> & Hc). destruct j; simpl; auto. apply num_ends_sep. unfold is_ws, is_digit, is_e in *. lia.
Qed.

(** ** conversions *)
Section MapM.
Context {A B : Type}.
Fixpoint mapM (g : A -> option B) (l : list A) : option (list B) :=
  match l with
  | [] => Some []
  | x :: r => match g x, mapM g r with Some y, Some ys => Some (y :: ys) | _, _ => None end
  end.
Lemma mapM_cons g x r ys : mapM g (x :: r) = Some ys ->
  exists y ys', g x = Some y /\ mapM g r = Some ys' /\ ys = y :: ys'.
Proof. simpl. destruct (g x), (mapM g r); intros [= <-]; eauto. Qed.
End MapM.

Section Grammar.
Context {V K SA SO : Type}.
Variable X : alg V K SA SO.
Variable conv : jval -> option V.
Variable kconv : bytes -> K.
Definition mconv (m : bytes * jval) : option (K * V) :=
  match conv (snd m) with Some v => Some (kconv (fst m), v) | None => None end.
Hypothesis conv_arr : forall vs,
  conv (JArr vs) = option_map (fun xs => finA X (fold_left (addA X) xs (emptyA X))) (mapM conv vs).
Hypothesis conv_obj : forall ms,
  conv (JObj ms) = option_map (fun xs => finO X (fold_left (fun s kv => addO X s (fst kv) (snd kv)) xs (emptyO X))) (mapM mconv ms).
Hypothesis leaf_ok : forall c f l v r, c <> 91 -> c <> 123 ->
  (leaf X c f l = POk v r <->
   exists t j, value (c :: t) j /\ l = t ++ r /\ conv j = Some v /\ vends (c :: t) j f r).
Hypothesis field_ok : forall f l k r,
  (field X f l = POk k r <->
   exists b s w, string_body b s /\ ws w /\ l = b ++ 34 :: w ++ 58 :: r /\ k = kconv s).

Notation frame := (acc SA SO).
Notation loop := (p_loop X).

(** text [t] takes the accumulator from [a] to [a'] and closes the container *)
Definition ctail (first : bool) (a : frame) (t : bytes) (a' : frame) : Prop :=
  match a with
  | AArr s => exists vs xs, atail first t vs /\ mapM conv vs = Some xs /\ a' = AArr (fold_left (addA X) xs s)
  | AObj s => exists ms xs, otail first t ms /\ mapM mconv ms = Some xs /\
                a' = AObj (fold_left (fun s kv => addO X s (fst kv) (snd kv)) xs s)
  end.
Inductive stail : bool -> frame -> list (K * frame) -> bytes -> V -> Prop :=
| st_nil first a t a' : ctail first a t a' -> stail first a [] t (finish X a')
| st_cons first a k b stk t1 t2 a' v : ctail first a t1 a' -> stail false (add X b k (finish X a')) stk t2 v ->
    stail first a ((k, b) :: stk) (t1 ++ t2) v.

Lemma ctail_arr_close first s w : ws w -> ctail first (AArr s) (w ++ [93]) (AArr s).
Proof. intros Hw. exists [], []. split; [now apply at_end|]. auto. Qed.
Lemma ctail_obj_close first s w : ws w -> ctail first (AObj s) (w ++ [125]) (AObj s).
Proof. intros Hw. exists [], []. split; [now apply ot_end|]. auto. Qed.
Lemma ctail_value_arr t a' : ctail true (AArr (emptyA X)) t a' ->
  exists j, value (91 :: t) j /\ conv j = Some (finish X a').
Proof.
  intros (vs & xs & Ht & Hx & ->). exists (JArr vs). split; [apply value_arr; eauto|].
  rewrite conv_arr, Hx. reflexivity.
Qed.
Lemma ctail_value_obj t a' : ctail true (AObj (emptyO X)) t a' ->
  exists j, value (123 :: t) j /\ conv j = Some (finish X a').
Proof.
  intros (vs & xs & Ht & Hx & ->). exists (JObj vs). split; [apply value_obj; eauto|].
  rewrite conv_obj, Hx. reflexivity.
Qed.
(** the separator read before an element *)
Inductive pre_elem : bool -> bytes -> Prop :=
| pe_first w : ws w -> pre_elem true w
| pe_next w w' : ws w -> ws w' -> pre_elem false (w ++ 44 :: w').
Lemma ctail_arr_elem first s p t j v r a' : pre_elem first p -> value t j -> conv j = Some v ->
  ctail false (AArr (addA X s v)) r a' -> ctail first (AArr s) (p ++ t ++ r) a'.
Proof.
  intros Hp Hv Hc (vs & xs & Hr & Hx & ->). exists (j :: vs), (v :: xs). split.
  - destruct Hp as [w Hw|w w' Hw Hw']; [now apply at_first|].
    rewrite <- app_assoc. simpl. now apply at_next.
  - simpl. rewrite Hc, Hx. auto.
Qed.
Lemma ctail_obj_elem first s p b k w2 w3 t j v r a' : pre_elem first p -> string_body b k -> ws w2 -> ws w3 ->
  value t j -> conv j = Some v ->
  ctail false (AObj (addO X s (kconv k) v)) r a' -> ctail first (AObj s) (p ++ mtext b w2 w3 t ++ r) a'.
Proof.
  intros Hp Hb H2 H3 Hv Hc (vs & xs & Hr & Hx & ->). exists ((k, j) :: vs), ((kconv k, v) :: xs). split.
  - destruct Hp as [w Hw|w w' Hw Hw']; [now apply ot_first|].
    rewrite <- app_assoc. simpl. now apply ot_next.
  - simpl. unfold mconv at 1. simpl. rewrite Hc, Hx. auto.
Qed.
Lemma stail_elem first a a2 stk p r v :
  (forall r1 a', ctail false a2 r1 a' -> ctail first a (p ++ r1) a') ->
  stail false a2 stk r v -> stail first a stk (p ++ r) v.
Proof.
  intros H Hs. inversion Hs; subst.
  - constructor. auto.
  - rewrite app_assoc. econstructor; eauto.
Qed.

(** ** Soundness *)
Lemma sepread first f l c r :
  (exists c0 l1, p_takeToken f l = POk c0 l1 /\
   pbind p_takeToken (fun c0 => if negb first then
                     if negb (c0 =? cCOMMA) then pfail (EUnexpectedByte c0 cCOMMA 0) else p_takeToken
                   else pret c0) f l = POk c r) ->
  exists p, pre_elem first p /\ l = p ++ c :: r /\ ~ is_ws c.
Proof.
  intros (c0 & l1 & E & H). unfold pbind in H. rewrite E in H. apply takeToken_inv in E. destruct E as (w & -> & Hw & Hc).
  destruct first; simpl in H.
  - injection H as <- <-. exists w. split; [now constructor|]. auto.
  - destruct (Z.eqb_spec c0 cCOMMA) as [->|]; [|discriminate]. simpl in H. apply takeToken_inv in H.
    destruct H as (w' & -> & Hw' & Hc'). exists (w ++ 44 :: w'). split; [now constructor|]. split; auto.
    now rewrite <- app_assoc.
Qed.
Lemma pbind_ok {A B} (p : P A) (q : A -> P B) f l x r :
  pbind p q f l = POk x r -> exists a l', p f l = POk a l' /\ q a f l' = POk x r.
Proof. unfold pbind. destruct (p f l) as [a l'|]; [|discriminate]. eauto. Qed.

Lemma loop_sound n : forall first a stk f l v r,
  loop n first a stk f l = POk v r -> exists t, l = t ++ r /\ stail first a stk t v.
Proof.
  induction n as [|n IH]; intros first a stk f l v r H; [discriminate|]. cbn [p_loop] in H.
  apply pbind_ok in H. destruct H as (c0 & l1 & E0 & H).
  assert (Sep : forall c l2,
    (if negb first then if negb (c0 =? cCOMMA) then pfail (EUnexpectedByte c0 cCOMMA 0) else p_takeToken
     else pret c0) f l1 = POk c l2 -> exists p, pre_elem first p /\ l = p ++ c :: l2 /\ ~ is_ws c).
  { intros c l2 Hs. eapply sepread. exists c0, l1. split; eauto. unfold pbind. now rewrite E0. }
  apply takeToken_inv in E0. destruct E0 as (w & El & Hw & Hc0).
  destruct a as [s|s].
  - destruct (Z.eqb_spec c0 cRBRACK) as [->|Hne].
    + destruct stk as [|(k, b) stk].
      * injection H as <- <-. exists (w ++ [93]). split; [now rewrite <- app_assoc|].
        apply (st_nil _ _ _ (AArr s)). now apply ctail_arr_close.
      * apply IH in H. destruct H as (t & -> & Ht). exists ((w ++ [93]) ++ t). split; [subst; now rewrite <- !app_assoc|].
        eapply st_cons; eauto. now apply ctail_arr_close.
    + apply pbind_ok in H. destruct H as (c & l2 & Hs & H). destruct (Sep _ _ Hs) as (p & Hp & -> & Hc).
      destruct (Z.eqb_spec c cLBRACK) as [->|Hc1]; [|destruct (Z.eqb_spec c cLBRACE) as [->|Hc2]].
      * apply IH in H. destruct H as (t & -> & Ht). inversion Ht as [|? ? k b stk' t1 t2 a' v' Hct Hst]; subst.
        apply ctail_value_arr in Hct. destruct Hct as (j & Hv & Hj).
        exists ((p ++ 91 :: t1) ++ t2). split; [now rewrite <- !app_assoc|].
        eapply stail_elem; [|exact Hst]. intros r1 a0 Hr. rewrite <- app_assoc. eapply ctail_arr_elem; eauto.
      * apply IH in H. destruct H as (t & -> & Ht). inversion Ht as [|? ? k b stk' t1 t2 a' v' Hct Hst]; subst.
        apply ctail_value_obj in Hct. destruct Hct as (j & Hv & Hj).
        exists ((p ++ 123 :: t1) ++ t2). split; [now rewrite <- !app_assoc|].
        eapply stail_elem; [|exact Hst]. intros r1 a0 Hr. rewrite <- app_assoc. eapply ctail_arr_elem; eauto.
      * apply pbind_ok in H. destruct H as (x & l3 & Hl & H). apply leaf_ok in Hl; auto.
        destruct Hl as (t & j & Hv & -> & Hj & _). apply IH in H. destruct H as (t2 & -> & Ht).
        exists ((p ++ c :: t) ++ t2). split; [now rewrite <- !app_assoc|].
        eapply stail_elem; [|exact Ht]. intros r1 a0 Hr. rewrite <- app_assoc. eapply ctail_arr_elem; eauto.
  - destruct (Z.eqb_spec c0 cRBRACE) as [->|Hne].
    + destruct stk as [|(k, b) stk].
      * injection H as <- <-. exists (w ++ [125]). split; [now rewrite <- app_assoc|].
        apply (st_nil _ _ _ (AObj s)). now apply ctail_obj_close.
      * apply IH in H. destruct H as (t & -> & Ht). exists ((w ++ [125]) ++ t). split; [subst; now rewrite <- !app_assoc|].
        eapply st_cons; eauto. now apply ctail_obj_close.
    + apply pbind_ok in H. destruct H as (c & l2 & Hs & H). destruct (Sep _ _ Hs) as (p & Hp & -> & Hc).
      destruct (Z.eqb_spec c cQUOTE) as [->|]; [|discriminate]. cbn [negb] in H.
      apply pbind_ok in H. destruct H as (k & l3 & Hf & H). apply field_ok in Hf.
      destruct Hf as (b & ks & w2 & Hb & Hw2 & -> & ->).
      apply pbind_ok in H. destruct H as (d & l4 & Hd & H). apply takeToken_inv in Hd.
      destruct Hd as (w3 & -> & Hw3 & Hd).
      destruct (Z.eqb_spec d cLBRACK) as [->|Hc1]; [|destruct (Z.eqb_spec d cLBRACE) as [->|Hc2]].
      * apply IH in H. destruct H as (t & -> & Ht). inversion Ht as [|? ? k' b' stk' t1 t2 a' v' Hct Hst]; subst.
        apply ctail_value_arr in Hct. destruct Hct as (j & Hv & Hj).
        exists ((p ++ mtext b w2 w3 (91 :: t1)) ++ t2). split.
        { unfold mtext. repeat (rewrite <- ?app_assoc; simpl). reflexivity. }
        eapply stail_elem; [|exact Hst]. intros r1 a0 Hr. rewrite <- app_assoc. eapply ctail_obj_elem; eauto.
      * apply IH in H. destruct H as (t & -> & Ht). inversion Ht as [|? ? k' b' stk' t1 t2 a' v' Hct Hst]; subst.
        apply ctail_value_obj in Hct. destruct Hct as (j & Hv & Hj).
        exists ((p ++ mtext b w2 w3 (123 :: t1)) ++ t2). split.
        { unfold mtext. repeat (rewrite <- ?app_assoc; simpl). reflexivity. }
        eapply stail_elem; [|exact Hst]. intros r1 a0 Hr. rewrite <- app_assoc. eapply ctail_obj_elem; eauto.
      * apply pbind_ok in H. destruct H as (x & l5 & Hl & H). apply leaf_ok in Hl; auto.
        destruct Hl as (t & j & Hv & -> & Hj & _). apply IH in H. destruct H as (t2 & -> & Ht).
        exists ((p ++ mtext b w2 w3 (d :: t)) ++ t2). split.
        { unfold mtext. repeat (rewrite <- ?app_assoc; simpl). reflexivity. }
        eapply stail_elem; [|exact Ht]. intros r1 a0 Hr. rewrite <- app_assoc. eapply ctail_obj_elem; eauto.
Qed.

(** ** Fuel *)
Lemma takeToken_lt f l c r : p_takeToken f l = POk c r -> (length r < length l)%nat.
Proof. intros H. apply takeToken_inv in H. destruct H as (w & -> & _). rewrite app_length. simpl. lia. Qed.
Lemma field_lt f l k r : field X f l = POk k r -> (length r < length l)%nat.
Proof.
  intros H. apply field_ok in H. destruct H as (b & s & w & _ & _ & -> & _).
  rewrite !app_length. simpl. rewrite app_length. simpl. lia.
Qed.
Lemma leaf_le c f l v r : c <> 91 -> c <> 123 -> leaf X c f l = POk v r -> (length r <= length l)%nat.
Proof. intros H1 H2 H. apply leaf_ok in H; auto. destruct H as (t & j & _ & -> & _). rewrite app_length. lia. Qed.
Lemma pbind_ext {A B} (p : P A) (q q' : A -> P B) f l :
  (forall a r, p f l = POk a r -> q a f r = q' a f r) -> pbind p q f l = pbind p q' f l.
Proof. intros H. unfold pbind. destruct (p f l); auto. Qed.
Lemma loop_fuel n : forall m first a stk f l, (length l < n)%nat -> (length l < m)%nat ->
  loop n first a stk f l = loop m first a stk f l.
Proof.
  induction n as [|n IH]; intros m first a stk f l Hn Hm; [lia|]. destruct m as [|m]; [lia|]. cbn [p_loop].
  apply pbind_ext. intros c0 l1 E0. apply takeToken_lt in E0.
  assert (Sep : forall c l2, (if negb first then if negb (c0 =? cCOMMA) then pfail (EUnexpectedByte c0 cCOMMA 0) else p_takeToken
     else pret c0) f l1 = POk c l2 -> (length l2 <= length l1)%nat).
  { intros c l2 H. destruct first; simpl in H; [injection H as <- <-; lia|].
    destruct (c0 =? cCOMMA); simpl in H; [|discriminate]. apply takeToken_lt in H. lia. }
  destruct a as [s|s].
  - destruct (c0 =? cRBRACK). { destruct stk as [|(k, b) stk]; [reflexivity|]. apply IH; lia. }
    apply pbind_ext. intros c l2 E. apply Sep in E.
    destruct (Z.eqb_spec c cLBRACK); [apply IH; lia|]. destruct (Z.eqb_spec c cLBRACE); [apply IH; lia|].
    apply pbind_ext. intros v l3 El. apply leaf_le in El; auto. apply IH; lia.
  - destruct (c0 =? cRBRACE). { destruct stk as [|(k, b) stk]; [reflexivity|]. apply IH; lia. }
    apply pbind_ext. intros c l2 E. apply Sep in E. destruct (negb (c =? cQUOTE)); [reflexivity|].
    apply pbind_ext. intros k l3 Ef. apply field_lt in Ef.
    apply pbind_ext. intros d l4 Ed. apply takeToken_lt in Ed.
    destruct (Z.eqb_spec d cLBRACK); [apply IH; lia|]. destruct (Z.eqb_spec d cLBRACE); [apply IH; lia|].
    apply pbind_ext. intros v l5 El. apply leaf_le in El; auto. apply IH; lia.
Qed.

(** the loop without fuel *)
Definition L (first : bool) (a : frame) (stk : list (K * frame)) : P V :=
  p_fuel (fun n => loop n first a stk).
Definition elem (a : frame) (k : K) (stk : list (K * frame)) (c : Z) : P V :=
  if c =? cLBRACK then L true (AArr (emptyA X)) ((k, a) :: stk)
  else if c =? cLBRACE then L true (AObj (emptyO X)) ((k, a) :: stk)
  else pbind (leaf X c) (fun v => L false (add X a k v) stk).
Definition close (a : frame) (stk : list (K * frame)) : P V :=
  match stk with [] => pret (finish X a) | (k, b) :: stk' => L false (add X b k (finish X a)) stk' end.
Definition sepThen (first : bool) (c0 : Z) : P Z :=
  if negb first then if negb (c0 =? cCOMMA) then pfail (EUnexpectedByte c0 cCOMMA 0) else p_takeToken
  else pret c0.
Definition elemO (s : SO) (stk : list (K * frame)) (c : Z) : P V :=
  if negb (c =? cQUOTE) then pfail (EUnexpectedByte c cQUOTE 0)
  else pbind (field X) (fun k => pbind p_takeToken (fun d => elem (AObj s) k stk d)).
Lemma loop_L n first a stk f l : (length l < n)%nat -> loop n first a stk f l = L first a stk f l.
Proof. intros H. unfold L, p_fuel. apply loop_fuel; lia. Qed.
Lemma elem_fuel n a k stk c f l : (length l < n)%nat ->
  (if c =? cLBRACK then loop n true (AArr (emptyA X)) ((k, a) :: stk)
   else if c =? cLBRACE then loop n true (AObj (emptyO X)) ((k, a) :: stk)
   else pbind (leaf X c) (fun v => loop n false (add X a k v) stk)) f l = elem a k stk c f l.
Proof.
  intros H. unfold elem. destruct (Z.eqb_spec c cLBRACK); [now apply loop_L|].
  destruct (Z.eqb_spec c cLBRACE); [now apply loop_L|]. apply pbind_ext. intros v r E.
  apply leaf_le in E; auto. apply loop_L. lia.
Qed.
Lemma L_eq first a stk f l : L first a stk f l =
  pbind p_takeToken (fun c0 =>
  match a with
  | AArr s => if c0 =? cRBRACK then close a stk
              else pbind (sepThen first c0) (fun c => elem a (k0 X) stk c)
  | AObj s => if c0 =? cRBRACE then close a stk
              else pbind (sepThen first c0) (fun c => elemO s stk c)
  end) f l.
Proof.
  unfold L at 1, p_fuel. cbn [p_loop]. apply pbind_ext. intros c0 l1 E0. apply takeToken_lt in E0.
  assert (Sep : forall c l2, sepThen first c0 f l1 = POk c l2 -> (length l2 <= length l1)%nat).
  { intros c l2 H. unfold sepThen in H. destruct first; simpl in H; [injection H as <- <-; lia|].
    destruct (c0 =? cCOMMA); simpl in H; [|discriminate]. apply takeToken_lt in H. lia. }
  destruct a as [s|s].
  - destruct (c0 =? cRBRACK). { unfold close. destruct stk as [|(k, b) stk]; [reflexivity|]. apply loop_L. lia. }
    apply pbind_ext. intros c l2 E. apply Sep in E. apply (elem_fuel _ (AArr s)). lia.
  - destruct (c0 =? cRBRACE). { unfold close. destruct stk as [|(k, b) stk]; [reflexivity|]. apply loop_L. lia. }
    apply pbind_ext. intros c l2 E. apply Sep in E. unfold elemO. destruct (negb (c =? cQUOTE)); [reflexivity|].
    apply pbind_ext. intros k l3 Ef. apply field_lt in Ef.
    apply pbind_ext. intros d l4 Ed. apply takeToken_lt in Ed. apply (elem_fuel _ (AObj s)). lia.
Qed.

(** ** Completeness *)
Lemma pbind_run {A B} (p : P A) (q : A -> P B) f l a r : p f l = POk a r -> pbind p q f l = q a f r.
Proof. intros H. unfold pbind. now rewrite H. Qed.
Lemma L_close_arr first s stk f w r : ws w -> L first (AArr s) stk f (w ++ 93 :: r) = close (AArr s) stk f r.
Proof.
  intros Hw. rewrite L_eq. erewrite pbind_run by (apply takeToken_run; auto; unfold is_ws; lia). reflexivity.
Qed.
Lemma L_close_obj first s stk f w r : ws w -> L first (AObj s) stk f (w ++ 125 :: r) = close (AObj s) stk f r.
Proof.
  intros Hw. rewrite L_eq. erewrite pbind_run by (apply takeToken_run; auto; unfold is_ws; lia). reflexivity.
Qed.
Lemma L_elem_arr first s stk f p c l : pre_elem first p -> ~ is_ws c -> c <> 93 ->
  L first (AArr s) stk f (p ++ c :: l) = elem (AArr s) (k0 X) stk c f l.
Proof.
  intros Hp Hc H93. rewrite L_eq. destruct Hp as [w Hw|w w' Hw Hw'].
  - erewrite pbind_run by (apply takeToken_run; auto). replace (c =? cRBRACK) with false by lia. reflexivity.
  - rewrite <- app_assoc. simpl app. erewrite pbind_run by (apply takeToken_run; auto; unfold is_ws; lia).
    cbv beta. change (44 =? cRBRACK) with false. cbv iota. unfold sepThen. cbn [negb Z.eqb Pos.eqb].
    erewrite pbind_run by (apply takeToken_run; auto). reflexivity.
Qed.
Lemma L_elem_obj first s stk f p l : pre_elem first p ->
  L first (AObj s) stk f (p ++ 34 :: l) = elemO s stk 34 f l.
Proof.
  intros Hp. rewrite L_eq. destruct Hp as [w Hw|w w' Hw Hw'].
  - erewrite pbind_run by (apply takeToken_run; auto; unfold is_ws; lia). reflexivity.
  - rewrite <- app_assoc. simpl app. erewrite pbind_run by (apply takeToken_run; auto; unfold is_ws; lia).
    cbv beta. change (44 =? cRBRACE) with false. cbv iota. unfold sepThen. cbn [negb Z.eqb Pos.eqb].
    erewrite pbind_run by (apply takeToken_run; auto; unfold is_ws; lia). reflexivity.
Qed.
Lemma elemO_run s stk f b k w2 w3 c l : string_body b k -> ws w2 -> ws w3 -> ~ is_ws c ->
  elemO s stk 34 f (b ++ 34 :: w2 ++ 58 :: w3 ++ c :: l) = elem (AObj s) (kconv k) stk c f l.
Proof.
  intros Hb H2 H3 Hc. unfold elemO. cbn [negb Z.eqb Pos.eqb].
  erewrite pbind_run; [|apply field_ok; exists b, k, w2; eauto].
  erewrite pbind_run by (apply takeToken_run; auto). reflexivity.
Qed.

Definition Val (t : bytes) : Prop := forall c t' j v a k stk f r,
  t = c :: t' -> value t j -> conv j = Some v -> sep r ->
  elem a k stk c f (t' ++ r) = L false (add X a k v) stk f r.
Definition Tail (t : bytes) : Prop := forall first a a' stk f r,
  ctail first a t a' -> L first a stk f (t ++ r) = close a' stk f r.
Lemma complete n : forall t, (length t < n)%nat -> Val t /\ Tail t.
Proof.
  induction n as [|n IH]; intros t Ht; [lia|]. split.
  - intros c t' j v a k stk f r -> Hv Hj Hs. unfold elem.
    destruct (Z.eqb_spec c cLBRACK) as [->|H1]; [|destruct (Z.eqb_spec c cLBRACE) as [->|H2]].
    + apply value_arr in Hv. destruct Hv as (vs & -> & Hv). rewrite conv_arr in Hj.
      destruct (mapM conv vs) as [xs|] eqn:Ex; [|discriminate]. injection Hj as <-.
      rewrite (proj2 (IH t' ltac:(simpl in Ht; lia)) true _ (AArr (fold_left (addA X) xs (emptyA X)))); [reflexivity|].
      exists vs, xs. auto.
    + apply value_obj in Hv. destruct Hv as (vs & -> & Hv). rewrite conv_obj in Hj.
      destruct (mapM mconv vs) as [xs|] eqn:Ex; [|discriminate]. injection Hj as <-.
      rewrite (proj2 (IH t' ltac:(simpl in Ht; lia)) true _
        (AObj (fold_left (fun s kv => addO X s (fst kv) (snd kv)) xs (emptyO X)))); [reflexivity|].
      exists vs, xs. auto.
    + erewrite pbind_run; [reflexivity|]. apply leaf_ok; auto. exists t', j. split; auto. split; auto. split; auto.
      now apply sep_vends.
  - intros first a a' stk f r Hc. destruct a as [s|s].
    + destruct Hc as (vs & xs & Ha & Hx & ->).
      assert (Step : forall p t0 v r0 vs, t = p ++ t0 ++ r0 -> pre_elem first p -> value t0 v -> atail false r0 vs ->
        mapM conv (v :: vs) = Some xs ->
        L first (AArr s) stk f (t ++ r) = close (AArr (fold_left (addA X) xs s)) stk f r).
      { intros p t0 v r0 vs0 -> Hp Hv Hr Hx0. apply mapM_cons in Hx0. destruct Hx0 as (y & ys & Hy & Hys & ->).
        destruct (value_first _ _ Hv) as (c & t' & -> & Hcw & H93 & _).
        rewrite <- !app_assoc. simpl app. rewrite L_elem_arr by auto.
        assert (Len : (length (c :: t') < n)%nat /\ (length r0 < n)%nat).
        { rewrite !app_length in Ht. simpl in *.
          assert (r0 <> []) by (inversion Hr; subst; destruct w; discriminate). destruct r0; [congruence|]. simpl in *. lia. }
        rewrite (proj1 (IH _ (proj1 Len)) c t' v y); auto; [|now apply atail_sep with vs0].
        rewrite (proj2 (IH r0 (proj2 Len)) false _ (AArr (fold_left (addA X) ys (addA X s y)))); [reflexivity|].
        exists vs0, ys. auto. }
      inversion Ha; subst.
      * injection Hx as <-. rewrite <- app_assoc. simpl app. now rewrite L_close_arr.
      * eapply Step; eauto. now constructor.
      * eapply (Step (w ++ 44 :: w')); eauto; [now rewrite <- app_assoc|]. now constructor.
    + destruct Hc as (ms & xs & Ha & Hx & ->).
      assert (Step : forall p b k w2 w3 t0 v r0 ms, t = p ++ mtext b w2 w3 t0 ++ r0 -> pre_elem first p ->
        string_body b k -> ws w2 -> ws w3 -> value t0 v -> otail false r0 ms ->
        mapM mconv ((k, v) :: ms) = Some xs ->
        L first (AObj s) stk f (t ++ r) =
        close (AObj (fold_left (fun s kv => addO X s (fst kv) (snd kv)) xs s)) stk f r).
      { intros p b k w2 w3 t0 v r0 vs0 -> Hp Hb H2 H3 Hv Hr Hx0. apply mapM_cons in Hx0.
        destruct Hx0 as (y & ys & Hy & Hys & ->).
        unfold mconv in Hy. simpl in Hy. destruct (conv v) as [y'|] eqn:Ey; [|discriminate]. injection Hy as <-.
        destruct (value_first _ _ Hv) as (c & t' & -> & Hcw & _).
        unfold mtext in *.
        assert (Len : (length (c :: t') < n)%nat /\ (length r0 < n)%nat).
        { repeat (rewrite app_length in Ht; simpl in Ht). simpl. lia. }
        rewrite <- !app_assoc. simpl app. rewrite L_elem_obj by auto.
        repeat (rewrite <- !app_assoc; simpl app). rewrite (elemO_run s stk f b k w2 w3 c) by auto.
        rewrite (proj1 (IH _ (proj1 Len)) c t' v y'); auto; [|now apply otail_sep with vs0].
        rewrite (proj2 (IH r0 (proj2 Len)) false _
          (AObj (fold_left (fun s kv => addO X s (fst kv) (snd kv)) ys (addO X s (kconv k) y')))); [reflexivity|].
        exists vs0, ys. auto. }
      inversion Ha as [f0 w0 Hw0|w0 b k w2 w3 t0 v r0 ms0 Hw0 Hb H2 H3 Hv Hr
                      |w0 w' b k w2 w3 t0 v r0 ms0 Hw0 Hw' Hb H2 H3 Hv Hr]; subst.
      * injection Hx as <-. rewrite <- app_assoc. simpl app. now rewrite L_close_obj.
      * apply (Step w0 b k w2 w3 t0 v r0 ms0); auto. now constructor.
      * apply (Step (w0 ++ 44 :: w') b k w2 w3 t0 v r0 ms0); auto; [now rewrite <- app_assoc|now constructor].
Qed.

Lemma L_spec first a f l v r :
  L first a [] f l = POk v r <-> exists t a', l = t ++ r /\ ctail first a t a' /\ v = finish X a'.
Proof.
  split.
  - unfold L, p_fuel. intros H. apply loop_sound in H. destruct H as (t & -> & Ht). inversion Ht; subst. eauto.
  - intros (t & a' & -> & Hc & ->). rewrite (proj2 (complete (S (length t)) t (le_n _)) _ _ _ _ _ _ Hc). reflexivity.
Qed.

(** ** The specialised first loops *)
Definition same {A} (x y : pres A) : Prop := forall v r, x = POk v r <-> y = POk v r.
Lemma same_refl {A} (x : pres A) : same x x.
Proof. now intros v r. Qed.
Lemma same_bind {A B} (p : P A) (q q' : A -> P B) f l :
  (forall a r, p f l = POk a r -> same (q a f r) (q' a f r)) -> same (pbind p q f l) (pbind p q' f l).
Proof. intros H v r. unfold pbind. destruct (p f l) as [a l'|]; [now apply H|]. tauto. Qed.
Lemma same_err {A} e e' : same (A := A) (PErr e) (PErr e').
Proof. intros v r. split; discriminate. Qed.
Lemma pbind_assoc {A B C} (p : P A) (q : A -> P B) (h : B -> P C) f l :
  pbind (pbind p q) h f l = pbind p (fun a => pbind (q a) h) f l.
Proof. unfold pbind. destruct (p f l); auto. Qed.
Lemma arrLoop_same n : forall c s f l, (length l < n)%nat ->
  same (p_arrLoop X n c s f l) (elem (AArr s) (k0 X) [] c f l).
Proof.
  induction n as [|n IH]; intros c s f l Hn; [lia|]. cbn [p_arrLoop]. unfold elem.
  destruct (Z.eqb_spec c cLBRACE) as [->|H2]; [apply same_refl|].
  destruct (Z.eqb_spec c cLBRACK) as [->|H1]; [apply same_refl|].
  apply same_bind. intros v l1 E1. apply leaf_le in E1; auto. rewrite L_eq.
  apply same_bind. intros d l2 E2. apply takeToken_lt in E2. simpl add.
  destruct (d =? cRBRACK); [apply same_refl|]. unfold sepThen. simpl negb. cbv iota.
  destruct (d =? cCOMMA); simpl negb; cbv iota; [|apply same_err].
  apply same_bind. intros c' l3 E3. apply takeToken_lt in E3. apply IH. lia.
Qed.
Lemma array_same f l : same (p_array X f l) (L true (AArr (emptyA X)) [] f l).
Proof.
  unfold p_array. rewrite L_eq. apply same_bind. intros c l1 E1. destruct (c =? cRBRACK); [apply same_refl|].
  unfold sepThen. simpl negb. cbv iota. unfold p_fuel. apply arrLoop_same. lia.
Qed.
Lemma nextToken_take f l c r : p_nextToken f l = POk c r -> r = c :: tl r /\ p_takeToken f l = POk c (tl r) /\
  (length r <= length l)%nat.
Proof.
  intros H. destruct (nextToken_inv _ _ _ _ H) as (w & r' & -> & -> & _). split; auto. split.
  - unfold p_takeToken, pbind. rewrite H. reflexivity.
  - rewrite app_length. lia.
Qed.
Lemma same_take {B} (q q' : Z -> P B) f l :
  (forall c r, (length (c :: r) <= length l)%nat -> same (q c f (c :: r)) (q' c f r)) ->
  same (pbind p_nextToken q f l) (pbind p_takeToken q' f l).
Proof.
  intros H v r. unfold pbind. destruct (p_nextToken f l) as [c l1|e] eqn:E.
  - destruct (nextToken_take _ _ _ _ E) as (El & -> & Hlen). rewrite El in *. apply H. auto.
  - unfold p_takeToken, pbind. rewrite E. tauto.
Qed.
Lemma objLoop_same n : forall c s f l, (length l < n)%nat ->
  same (p_objLoop X n c s f (c :: l)) (elemO s [] c f l).
Proof.
  induction n as [|n IH]; intros c s f l Hn; [lia|]. cbn [p_objLoop]. unfold elemO.
  destruct (negb (c =? cQUOTE)); [apply same_err|].
  rewrite (pbind_run _ _ _ _ tt l) by reflexivity.
  apply same_bind. intros k l1 E1. apply field_lt in E1. apply same_bind. intros d l2 E2. apply takeToken_lt in E2.
  unfold elem. destruct (Z.eqb_spec d cLBRACE) as [->|H2]; [apply same_refl|].
  destruct (Z.eqb_spec d cLBRACK) as [->|H1]; [apply same_refl|].
  apply same_bind. intros v l3 E3. apply leaf_le in E3; auto. rewrite L_eq. simpl add.
  apply same_bind. intros e l4 E4. apply takeToken_lt in E4.
  destruct (e =? cRBRACE); [apply same_refl|]. unfold sepThen. simpl negb. cbv iota.
  destruct (e =? cCOMMA); simpl negb; cbv iota; [|apply same_err].
  apply same_take. intros c' l5 Hlen. apply IH. simpl in Hlen. lia.
Qed.
Lemma object_same f l : same (p_object X f l) (L true (AObj (emptyO X)) [] f l).
Proof.
  unfold p_object. rewrite L_eq. apply same_take. intros c l1 Hlen.
  destruct (c =? cRBRACE); [apply same_refl|]. unfold sepThen. simpl negb. cbv iota. unfold p_fuel.
  apply objLoop_same. simpl. lia.
Qed.

(** ** Values *)
Theorem array_spec f l v r : p_array X f l = POk v r <->
  exists t vs, l = t ++ r /\ value (91 :: t) (JArr vs) /\ conv (JArr vs) = Some v.
Proof.
  rewrite (array_same f l v r), L_spec. split.
  - intros (t & a' & -> & (vs & xs & Ht & Hx & ->) & ->). exists t, vs. split; auto. split; [apply value_arr; eauto|].
    rewrite conv_arr, Hx. reflexivity.
  - intros (t & vs & -> & Hv & Hc). apply value_arr in Hv. destruct Hv as (vs' & [= <-] & Ht). rewrite conv_arr in Hc.
    destruct (mapM conv vs) as [xs|] eqn:Ex; [|discriminate]. injection Hc as <-.
    exists t, (AArr (fold_left (addA X) xs (emptyA X))). split; auto. split; auto. exists vs, xs. auto.
Qed.
Theorem object_spec f l v r : p_object X f l = POk v r <->
  exists t ms, l = t ++ r /\ value (123 :: t) (JObj ms) /\ conv (JObj ms) = Some v.
Proof.
  rewrite (object_same f l v r), L_spec. split.
  - intros (t & a' & -> & (vs & xs & Ht & Hx & ->) & ->). exists t, vs. split; auto. split; [apply value_obj; eauto|].
    rewrite conv_obj, Hx. reflexivity.
  - intros (t & vs & -> & Hv & Hc). apply value_obj in Hv. destruct Hv as (vs' & [= <-] & Ht). rewrite conv_obj in Hc.
    destruct (mapM mconv vs) as [xs|] eqn:Ex; [|discriminate]. injection Hc as <-.
    eexists t, (AObj _). split; auto. split; [exists vs, xs; auto|]. reflexivity.
Qed.
Theorem pvalue_spec c f l v r : p_value X c f l = POk v r <->
  exists t j, l = t ++ r /\ value (c :: t) j /\ conv j = Some v /\ vends (c :: t) j f r.
Proof.
  unfold p_value. destruct (Z.eqb_spec c cLBRACK) as [->|H1]; [|destruct (Z.eqb_spec c cLBRACE) as [->|H2]].
  - rewrite array_spec. split.
    + intros (t & vs & -> & Hv & Hc). exists t, (JArr vs). repeat split; auto.
    + intros (t & j & -> & Hv & Hc & _). assert (H := Hv). apply value_arr in H. destruct H as (vs & -> & _). eauto.
  - rewrite object_spec. split.
    + intros (t & vs & -> & Hv & Hc). exists t, (JObj vs). repeat split; auto.
    + intros (t & j & -> & Hv & Hc & _). assert (H := Hv). apply value_obj in H. destruct H as (vs & -> & _). eauto.
  - rewrite leaf_ok by auto. split; intros (t & j & H); exists t, j; tauto.
Qed.
Theorem read_value_spec f l v r : pbind p_takeToken (p_value X) f l = POk v r <->
  exists w t j, l = w ++ t ++ r /\ ws w /\ value t j /\ conv j = Some v /\ vends t j f r.
Proof.
  split.
  - intros H. apply pbind_ok in H. destruct H as (c & l1 & E & H). apply takeToken_inv in E.
    destruct E as (w & -> & Hw & Hc). apply pvalue_spec in H. destruct H as (t & j & -> & Hv & Hj & He).
    exists w, (c :: t), j. auto.
  - intros (w & t & j & -> & Hw & Hv & Hj & He). destruct (value_first _ _ Hv) as (c & t' & -> & Hc & _).
    simpl app. erewrite pbind_run by (apply takeToken_run; auto). apply pvalue_spec. exists t', j. auto.
Qed.
End Grammar.
