(** Skip, Read and Valid against the grammar. *)
From Coq Require Import String ZArith List Bool Lia Arith.
From Verif Require Import Base ModelIter ModelStack ModelSkip ModelStr ModelFloat ModelRead
  Sim SimLib StackFacts Machine SimSkip SimRaw SimStr SimFloat SimRead Spec SpecRead NumFacts StrFacts FloatFacts MachineFacts.
Import ListNotations.
Local Open Scope Z_scope.

(** ** Leaves by their first byte *)
Lemma value_leaf c t j : c <> 91 -> c <> 123 -> value (c :: t) j ->
  (c = 34 /\ exists b s, t = b ++ [34] /\ string_body b s /\ j = JStr s) \/
  (c = 110 /\ t = bs "ull" /\ j = JNull) \/
  (c = 116 /\ t = bs "rue" /\ j = JBool true) \/
  (c = 102 /\ t = bs "alse" /\ j = JBool false) \/
  ((c = 45 \/ is_digit c) /\ number (c :: t) /\ j = JNum (c :: t)).
Proof.
  intros H1 H2 H. inversion H; subst; try congruence; try tauto.
  - right. right. right. right. split; auto.
    match goal with H : number _ |- _ => destruct (number_first _ H) as (c' & t' & [= <- <-] & Hc); auto end.
  - left. split; auto. eauto.
Qed.
Lemma value_str b s : string_body b s -> value (34 :: b ++ [34]) (JStr s).
Proof. now constructor. Qed.
Lemma expect_ok s f l r : s <> [] -> (p_expectBytes s f l = POk tt r <-> l = s ++ r).
Proof. apply p_expectBytes_ok. Qed.

Ltac leaf_contra :=
  repeat match goal with
  | H : _ \/ _ |- _ => destruct H
  | H : _ /\ _ |- _ => destruct H
  end; try (unfold is_digit in *; lia).
Lemma expect_spec {A} (a : A) s f l v r : s <> [] ->
  (pbind (p_expectBytes s) (fun _ => pret a) f l = POk v r <-> l = s ++ r /\ v = a).
Proof.
  intros Hs. unfold pbind, pret. destruct (p_expectBytes s f l) as [[] r0|e] eqn:E.
  - apply expect_ok in E; auto. split.
    + intros [= <- <-]. auto.
    + intros [-> ->]. apply app_inv_head in E. now subst.
  - split; [discriminate|]. intros [-> ->].
    assert (p_expectBytes s f (s ++ r) = POk tt r) by now apply expect_ok. congruence.
Qed.

(** generic leaf statement from its parts *)
Section Leaf.
Context {V : Type}.
Variables (str : P V) (num : Z -> P V) (lit : bytes -> V -> P V) (conv : jval -> option V).
Variables (vnull vtrue vfalse : V).
Hypothesis Hstr : forall f l v r, str f l = POk v r <->
  exists b s, l = b ++ 34 :: r /\ string_body b s /\ conv (JStr s) = Some v.
Hypothesis Hnum : forall c f l v r, c = 45 \/ is_digit c ->
  (num c f l = POk v r <-> exists t, number (c :: t) /\ l = t ++ r /\ num_ends (c :: t) f r /\ conv (JNum (c :: t)) = Some v).
Hypothesis Hlit : forall s a f l v r, s <> [] -> (lit s a f l = POk v r <-> l = s ++ r /\ v = a).
Hypothesis Hnull : conv JNull = Some vnull.
Hypothesis Htrue : conv (JBool true) = Some vtrue.
Hypothesis Hfalse : conv (JBool false) = Some vfalse.
Definition gleaf (c : Z) : P V :=
  if c =? cQUOTE then str
  else if c =? c_n then lit (bs "ull") vnull
  else if c =? c_t then lit (bs "rue") vtrue
  else if c =? c_f then lit (bs "alse") vfalse
  else if (c =? cMINUS) || ((cZERO <=? c) && (c <=? cNINE)) then num c
  else pfail (EUnexpectedByte c 0 0).
Lemma gleaf_ok c f l v r : c <> 91 -> c <> 123 ->
  (gleaf c f l = POk v r <->
   exists t j, value (c :: t) j /\ l = t ++ r /\ conv j = Some v /\ vends (c :: t) j f r).
Proof.
  intros H1 H2. unfold gleaf.
  destruct (Z.eqb_spec c cQUOTE) as [->|N1].
  { rewrite Hstr. split.
    - intros (b & s & -> & Hb & Hc). exists (b ++ [34]), (JStr s). split; [now constructor|].
      split; [now rewrite <- app_assoc|]. split; auto. exact I.
    - intros (t & j & Hv & -> & Hc & _). apply value_leaf in Hv; auto. leaf_contra.
      destruct H0 as (b & s & -> & Hb & ->). exists b, s. split; auto. now rewrite <- app_assoc. }
  destruct (Z.eqb_spec c c_n) as [->|N2].
  { rewrite Hlit by discriminate. split.
    - intros [-> ->]. exists (bs "ull"), JNull. split; [constructor|]. split; auto. split; auto. exact I.
    - intros (t & j & Hv & -> & Hc & _). apply value_leaf in Hv; auto. leaf_contra. subst. rewrite Hnull in Hc.
      injection Hc as <-. auto. }
  destruct (Z.eqb_spec c c_t) as [->|N3].
  { rewrite Hlit by discriminate. split.
    - intros [-> ->]. exists (bs "rue"), (JBool true). split; [constructor|]. split; auto. split; auto. exact I.
    - intros (t & j & Hv & -> & Hc & _). apply value_leaf in Hv; auto. leaf_contra. subst. rewrite Htrue in Hc.
      injection Hc as <-. auto. }
  destruct (Z.eqb_spec c c_f) as [->|N4].
  { rewrite Hlit by discriminate. split.
    - intros [-> ->]. exists (bs "alse"), (JBool false). split; [constructor|]. split; auto. split; auto. exact I.
    - intros (t & j & Hv & -> & Hc & _). apply value_leaf in Hv; auto. leaf_contra. subst. rewrite Hfalse in Hc.
      injection Hc as <-. auto. }
  destruct ((c =? cMINUS) || ((cZERO <=? c) && (c <=? cNINE))) eqn:E.
  { rewrite Hnum by (unfold is_digit; lia). split.
    - intros (t & Hn & -> & He & Hc). exists t, (JNum (c :: t)). split; [now constructor|]. auto.
    - intros (t & j & Hv & -> & Hc & He). apply value_leaf in Hv; auto. leaf_contra; subst; exists t; auto. }
  split; [discriminate|]. intros (t & j & Hv & _). apply value_leaf in Hv; auto. leaf_contra.
Qed.
End Leaf.

(** ** Keys *)
Section Field.
Context {K : Type}.
Variables (str : P K) (kconv : bytes -> K).
Hypothesis Hstr : forall f l k r, str f l = POk k r <-> exists b s, l = b ++ 34 :: r /\ string_body b s /\ k = kconv s.
Definition gfield : P K :=
  pbind str (fun k =>
  pbind p_nextToken (fun c =>
  if negb (c =? cCOLON) then pfail (EUnexpectedByte c cCOLON 0) else pbind p_inc (fun _ => pret k))).
Lemma gfield_ok f l k r : gfield f l = POk k r <->
  exists b s w, string_body b s /\ ws w /\ l = b ++ 34 :: w ++ 58 :: r /\ k = kconv s.
Proof.
  unfold gfield. split.
  - intros H. apply pbind_ok in H. destruct H as (k' & l1 & E1 & H). apply Hstr in E1.
    destruct E1 as (b & s & -> & Hb & ->). apply pbind_ok in H. destruct H as (c & l2 & E2 & H).
    apply nextToken_inv in E2. destruct E2 as (w & r' & -> & -> & Hw & _).
    destruct (Z.eqb_spec c cCOLON) as [->|]; [|discriminate]. cbn in H. injection H as <- <-.
    exists b, s, w. auto.
  - intros (b & s & w & Hb & Hw & -> & ->). rewrite (pbind_run _ _ _ _ (kconv s) (w ++ 58 :: r)); [|apply Hstr; eauto].
    erewrite pbind_run by (apply nextToken_run; auto; unfold is_ws; lia). reflexivity.
Qed.
End Field.

(** ** Skip *)
Definition sconv (_ : jval) : option unit := Some tt.
Lemma mapM_some {A B} (g : A -> option B) l : (forall x, In x l -> g x <> None) -> exists ys, mapM g l = Some ys.
Proof.
  induction l as [|x l IH]; intros H; simpl; [eauto|].
  destruct (g x) eqn:E; [|exfalso; apply (H x); auto; now left].
  destruct IH as [ys ->]; [|eauto]. intros y Hy. apply H. now right.
Qed.
Lemma sconv_arr vs : sconv (JArr vs) =
  option_map (fun xs => finA skipAlg (fold_left (addA skipAlg) xs (emptyA skipAlg))) (mapM sconv vs).
Proof. destruct (mapM_some sconv vs) as [ys ->]; [discriminate|reflexivity]. Qed.
Lemma sconv_obj ms : sconv (JObj ms) =
  option_map (fun xs => finO skipAlg (fold_left (fun s kv => addO skipAlg s (fst kv) (snd kv)) xs (emptyO skipAlg)))
    (mapM (mconv sconv (fun _ => tt)) ms).
Proof. destruct (mapM_some (mconv sconv (fun _ => tt)) ms) as [ys ->]; [discriminate|reflexivity]. Qed.
Lemma sleaf_ok c f l v r : c <> 91 -> c <> 123 ->
  (leaf skipAlg c f l = POk v r <->
   exists t j, value (c :: t) j /\ l = t ++ r /\ sconv j = Some v /\ vends (c :: t) j f r).
Proof.
  intros H1 H2.
  apply (gleaf_ok p_skipString p_skipNumber (fun s _ => p_expectBytes s) sconv tt tt tt); auto.
  - intros f0 l0 [] r0. rewrite skipString_body. split; intros (b & s & H); exists b, s; [|tauto].
    destruct H; auto.
  - intros c0 f0 l0 [] r0 Hc. rewrite skipNumber_spec by auto. split; intros (t & H); exists t; unfold sconv; tauto.
  - intros s [] f0 l0 [] r0 Hs. rewrite expect_ok by auto. tauto.
Qed.
Lemma eq_ok {A} (x y : pres A) v : x = y -> (x = v <-> y = v).
Proof. intros ->. tauto. Qed.
Lemma sfield_ok f l k r : field skipAlg f l = POk k r <->
  exists b s w, string_body b s /\ ws w /\ l = b ++ 34 :: w ++ 58 :: r /\ k = (fun _ => tt) s.
Proof.
  rewrite <- (fun H => gfield_ok p_skipString (fun _ => tt) H f).
  - destruct k. apply eq_ok. simpl field. unfold p_skipObjectField, gfield, pbind, p_inc, pret.
    destruct (p_skipString f l) as [[] l1|]; auto.
  - intros f0 l0 [] r0. rewrite skipString_body. split; intros (b & s & H); exists b, s; tauto.
Qed.
Lemma skipValue_spec c f l v r : p_skipFunctions c f l = POk v r <->
  exists t j, l = t ++ r /\ value (c :: t) j /\ vends (c :: t) j f r.
Proof.
  unfold p_skipFunctions. rewrite (pvalue_spec skipAlg sconv (fun _ => tt) sconv_arr sconv_obj sleaf_ok sfield_ok).
  unfold sconv. destruct v. split; intros (t & j & H); exists t, j; tauto.
Qed.
Theorem Skip_spec f l r : p_Skip f l = POk tt r <->
  exists w t j, l = w ++ t ++ r /\ ws w /\ value t j /\ vends t j f r.
Proof.
  unfold p_Skip, p_skipFunctions.
  rewrite (read_value_spec skipAlg sconv (fun _ => tt) sconv_arr sconv_obj sleaf_ok sfield_ok).
  unfold sconv. split; intros (w & t & j & H); exists w, t, j; tauto.
Qed.

(** ** Read *)
Section Read.
Variable F : floatOps.
Variable useNumber : bool.
Hypothesis sane : float_sane F.
Notation gval := (gval F).

Section MapSec.
Context {A B : Type} (g : A -> option B).
Fixpoint mapS (l : list A) : option (list B) :=
  match l with
  | [] => Some []
  | x :: r => match g x, mapS r with Some y, Some ys => Some (y :: ys) | _, _ => None end
  end.
Lemma mapS_mapM l : mapS l = mapM g l.
Proof. induction l as [|x l IH]; simpl; auto. now rewrite IH. Qed.
End MapSec.
Definition mkmap (xs : list (bytes * gval)) : list (bytes * gval) :=
  fold_left (fun s kv => map_set F s (fst kv) (snd kv)) xs [].
Fixpoint gconv (j : jval) : option gval :=
  match j with
  | JNull => Some GNil
  | JBool b => Some (GBool b)
  | JNum t => if useNumber then Some (GNumber t)
              else match fl_parse F t with inl x => Some (GFloat x) | inr _ => None end
  | JStr s => Some (GString s)
  | JArr js => option_map (fun xs => GSlice xs) (mapS gconv js)
  | JObj ms => option_map (fun xs => GMap (mkmap xs))
      (mapS (fun m => match m with (k, j') => match gconv j' with Some v => Some (k, v) | None => None end end) ms)
  end.
Lemma fold_snoc (xs acc : list gval) : fold_left (fun l v => l ++ [v]) xs acc = acc ++ xs.
Proof.
  revert acc. induction xs as [|x xs IH]; intros acc; simpl; [now rewrite app_nil_r|].
  rewrite IH. now rewrite <- app_assoc.
Qed.
Lemma gconv_arr vs : gconv (JArr vs) =
  option_map (fun xs => finA (readAlg F useNumber) (fold_left (addA (readAlg F useNumber)) xs (emptyA (readAlg F useNumber)))) (mapM gconv vs).
Proof.
  simpl. rewrite mapS_mapM. destruct (mapM gconv vs); auto. simpl. now rewrite fold_snoc.
Qed.
Lemma mapM_ext {A B} (g h : A -> option B) l : (forall x, g x = h x) -> mapM g l = mapM h l.
Proof. intros H. induction l as [|x l IH]; simpl; auto. now rewrite H, IH. Qed.
Lemma gconv_obj ms : gconv (JObj ms) =
  option_map (fun xs => finO (readAlg F useNumber) (fold_left (fun s kv => addO (readAlg F useNumber) s (fst kv) (snd kv)) xs (emptyO (readAlg F useNumber))))
    (mapM (mconv gconv (fun k => k)) ms).
Proof.
  simpl. rewrite mapS_mapM. erewrite (mapM_ext _ (mconv gconv (fun k => k))); [|now intros [k j]].
  destruct (mapM _ ms); reflexivity.
Qed.
Lemma capturedNumber c f l v r : c = 45 \/ is_digit c ->
  (p_readNumberAsString c f l = POk v r <->
   exists t, number (c :: t) /\ l = t ++ r /\ num_ends (c :: t) f r /\ v = c :: t).
Proof.
  intros Hc. assert (HS := fun r => skipNumber_spec f c l r Hc). unfold p_readNumberAsString, p_captured.
  destruct (p_skipNumber c f l) as [[] r0|e].
  - split.
    + intros [= <- <-]. destruct (proj1 (HS r0) eq_refl) as (t & Hn & -> & He). exists t. split; auto. split; auto.
      split; auto. rewrite app_length. simpl. f_equal.
      replace (length t + length r0 - length r0)%nat with (length t) by lia.
      now rewrite firstn_app, Nat.sub_diag, firstn_all, app_nil_r.
    + intros (t & Hn & El & He & ->). assert (H := proj2 (HS r) (ex_intro _ t (conj Hn (conj El He)))).
      injection H as ->. rewrite El, app_length. f_equal. simpl. f_equal.
      replace (length t + length r - length r)%nat with (length t) by lia.
      now rewrite firstn_app, Nat.sub_diag, firstn_all, app_nil_r.
  - split; [discriminate|]. intros (t & Hn & El & He & _).
    assert (H := proj2 (HS r) (ex_intro _ t (conj Hn (conj El He)))). discriminate.
Qed.
Lemma bind_ret {A B} (p : P A) (g : A -> B) f l v r :
  pbind p (fun a => pret (g a)) f l = POk v r <-> exists a, p f l = POk a r /\ v = g a.
Proof.
  unfold pbind, pret. destruct (p f l) as [a r0|e]; split.
  - intros [= <- <-]. eauto.
  - intros (a' & [= <- <-] & ->). auto.
  - discriminate.
  - intros (a' & ? & _). discriminate.
Qed.
Lemma rleaf_ok c f l v r : c <> 91 -> c <> 123 ->
  (leaf (readAlg F useNumber) c f l = POk v r <->
   exists t j, value (c :: t) j /\ l = t ++ r /\ gconv j = Some v /\ vends (c :: t) j f r).
Proof.
  intros H1 H2.
  apply (gleaf_ok (pbind p_readStringAsSlice (fun s => pret (GString s))) (p_readNumberValue F useNumber)
           (fun s a => pbind (p_expectBytes s) (fun _ => pret a)) gconv GNil (GBool true) (GBool false)); auto.
  - intros f0 l0 v0 r0. rewrite bind_ret. split.
    + intros (s & Hs & ->). apply readString_spec in Hs. destruct Hs as (b & -> & Hb). exists b, s. auto.
    + intros (b & s & -> & Hb & [= <-]). exists s. split; auto. apply readString_spec. eauto.
  - intros c0 f0 l0 v0 r0 Hc. unfold p_readNumberValue. simpl gconv. destruct useNumber; rewrite bind_ret.
    + split.
      * intros (s & Hs & ->). apply capturedNumber in Hs; auto. destruct Hs as (t & Hn & -> & He & ->). exists t. auto.
      * intros (t & Hn & -> & He & [= <-]). exists (c0 :: t). split; auto. apply capturedNumber; eauto.
    + split.
      * intros (x & Hs & ->). apply readFloat_spec in Hs; auto. destruct Hs as (t & Hn & -> & He & Hx). exists t.
        rewrite Hx. auto.
      * intros (t & Hn & -> & He & Hx). destruct (fl_parse F (c0 :: t)) as [x|] eqn:Ex; [|discriminate].
        injection Hx as <-. exists x. split; auto. apply readFloat_spec; eauto.
  - intros s a f0 l0 v0 r0 Hs. now apply expect_spec.
Qed.
Lemma rfield_ok f l k r : field (readAlg F useNumber) f l = POk k r <->
  exists b s w, string_body b s /\ ws w /\ l = b ++ 34 :: w ++ 58 :: r /\ k = (fun x => x) s.
Proof.
  apply (gfield_ok p_readStringAsSlice (fun x => x)). intros f0 l0 k0 r0. rewrite readString_spec. split.
  - intros (b & -> & Hb). eauto.
  - intros (b & s & -> & Hb & ->). eauto.
Qed.
Theorem Read_conv f l v r : p_Read F useNumber f l = POk v r <->
  exists w t j, l = w ++ t ++ r /\ ws w /\ value t j /\ gconv j = Some v /\ vends t j f r.
Proof.
  apply (read_value_spec (readAlg F useNumber) gconv (fun x => x) gconv_arr gconv_obj rleaf_ok rfield_ok).
Qed.
Theorem readValue_conv c f l v r : p_value (readAlg F useNumber) c f l = POk v r <->
  exists t j, l = t ++ r /\ value (c :: t) j /\ gconv j = Some v /\ vends (c :: t) j f r.
Proof.
  apply (pvalue_spec (readAlg F useNumber) gconv (fun x => x) gconv_arr gconv_obj rleaf_ok rfield_ok).
Qed.

(** *** maps *)
Lemma bytes_eqb_spec a b : reflect (a = b) (bytes_eqb a b).
Proof.
  revert b. induction a as [|x a IH]; intros [|y b]; simpl; try (constructor; congruence).
  destruct (Z.eqb_spec x y) as [->|]; simpl; [|constructor; congruence].
  destruct (IH b); constructor; congruence.
Qed.
Lemma map_set_keys m k v : forall x, In x (map fst (map_set F m k v)) <-> x = k \/ In x (map fst m).
Proof.
  induction m as [|(k', v') m IH]; intros x; simpl; [intuition congruence|].
  destruct (bytes_eqb_spec k' k) as [->|]; simpl; [intuition congruence|]. rewrite IH. intuition congruence.
Qed.
Lemma map_set_nodup m k v : NoDup (map fst m) -> NoDup (map fst (map_set F m k v)).
Proof.
  induction m as [|(k', v') m IH]; simpl; intros H; [repeat constructor; auto|].
  inversion H; subst. destruct (bytes_eqb_spec k' k) as [->|]; simpl; constructor; auto.
  rewrite map_set_keys. intuition congruence.
Qed.
Lemma map_set_in m k v x y : NoDup (map fst m) ->
  (In (x, y) (map_set F m k v) <-> (x = k /\ y = v) \/ (x <> k /\ In (x, y) m)).
Proof.
  induction m as [|(k', v') m IH]; simpl; intros H.
  - split; [intros [[= <- <-]|[]]; auto|intros [[-> ->]|[_ []]]; auto].
  - inversion H as [|? ? Hn Hd]; subst. destruct (bytes_eqb_spec k' k) as [->|Hne]; simpl.
    + split.
      * intros [[= <- <-]|Hi]; auto. right. split; auto. intros ->. apply Hn. apply in_map_iff. exists (k, y). auto.
      * intros [[-> ->]|[Hx [[= -> ->]|Hi]]]; auto. congruence.
    + rewrite IH by auto. split.
      * intros [[= <- <-]|[[-> ->]|[Hx Hi]]]; auto.
      * intros [[-> ->]|[Hx [[= <- <-]|Hi]]]; auto.
Qed.
Fixpoint last_of (k : bytes) (xs : list (bytes * gval)) : option gval :=
  match xs with
  | [] => None
  | (k', v) :: r => match last_of k r with Some x => Some x
                    | None => if list_eq_dec Z.eq_dec k' k then Some v else None end
  end.
Lemma fold_map_set xs : forall m, NoDup (map fst m) ->
  let m' := fold_left (fun s kv => map_set F s (fst kv) (snd kv)) xs m in
  NoDup (map fst m') /\
  (forall k, In k (map fst m') <-> In k (map fst m) \/ In k (map fst xs)) /\
  (forall k v, In (k, v) m' -> last_of k xs = Some v \/ (last_of k xs = None /\ In (k, v) m)).
Proof.
  induction xs as [|(k0, v0) xs IH]; intros m Hm; simpl.
  - split; auto. split; [tauto|]. auto.
  - destruct (IH (map_set F m k0 v0) (map_set_nodup _ _ _ Hm)) as (H1 & H2 & H3). split; auto. split.
    + intros k. rewrite H2, map_set_keys. intuition congruence.
    + intros k v Hi. destruct (H3 k v Hi) as [->|[-> Hi']]; auto.
      apply map_set_in in Hi'; auto. destruct Hi' as [[-> ->]|[Hne Hi']].
      * left. destruct (list_eq_dec Z.eq_dec k0 k0); congruence.
      * right. split; auto. destruct (list_eq_dec Z.eq_dec k0 k); congruence.
Qed.

(** induction on JSON values with their lists *)
Lemma jval_ind2 (Q : jval -> Prop) :
  Q JNull -> (forall b, Q (JBool b)) -> (forall t, Q (JNum t)) -> (forall s, Q (JStr s)) ->
  (forall l, Forall Q l -> Q (JArr l)) -> (forall ms, Forall (fun m => Q (snd m)) ms -> Q (JObj ms)) ->
  forall j, Q j.
Proof.
  intros Hn Hb Ht Hs Ha Ho. fix IH 1. intros [|b|t|s|l|ms]; [exact Hn|apply Hb|apply Ht|apply Hs|apply Ha|apply Ho].
  - induction l as [|x l IHl]; constructor; [apply IH|exact IHl].
  - induction ms as [|[k x] ms IHl]; constructor; [apply IH|exact IHl].
Qed.
Lemma mapM_Forall2 {A B} (g : A -> option B) l ys : mapM g l = Some ys -> Forall2 (fun x y => g x = Some y) l ys.
Proof.
  revert ys. induction l as [|x l IH]; intros ys H; [injection H as <-; constructor|].
  apply mapM_cons in H. destruct H as (y & ys' & Hx & Hl & ->). constructor; auto.
Qed.
Lemma gconv_sound j : forall v, gconv j = Some v -> go_value F useNumber j v.
Proof.
  induction j as [|b|t|s|l IH|ms IH] using jval_ind2; intros v H; simpl in H.
  - injection H as <-. constructor.
  - injection H as <-. constructor.
  - destruct useNumber eqn:E; [injection H as <-; now constructor|].
    destruct (fl_parse F t) eqn:Ep; [|discriminate]. injection H as <-. now constructor.
  - injection H as <-. constructor.
  - rewrite mapS_mapM in H. destruct (mapM gconv l) as [vs|] eqn:E; [|discriminate]. injection H as <-.
    constructor. apply mapM_Forall2 in E. induction E; constructor; inversion IH; subst; auto.
  - rewrite mapS_mapM in H.
    destruct (mapM _ ms) as [xs|] eqn:E; [|discriminate]. injection H as <-.
    apply mapM_Forall2 in E.
    destruct (fold_map_set xs [] (NoDup_nil _)) as (H1 & H2 & H3). fold (mkmap xs) in *.
    assert (Hk : map fst xs = map fst ms).
    { clear - E. induction E as [|[k j] [k' v'] ms xs Hx _ IHE]; simpl; auto.
      destruct (gconv j); [|discriminate]. injection Hx as <- <-. now f_equal. }
    assert (Hl : forall k,
      match last_of k xs, last_binding k ms with
      | Some v, Some j => go_value F useNumber j v
      | None, None => True
      | _, _ => False
      end).
    { clear - E IH. intros k. induction E as [|[k1 j] [k' v'] ms xs Hx _ IHE]; simpl; auto.
      inversion IH as [|? ? Hj Hms]; subst. simpl in Hj. specialize (IHE Hms).
      destruct (gconv j) as [y|] eqn:Ej; [|discriminate]. injection Hx as <- <-.
      destruct (last_of k xs) as [z|], (last_binding k ms) as [j'|]; auto; try contradiction.
      destruct (list_eq_dec Z.eq_dec k1 k); auto. }
    constructor; auto.
    + intros k. rewrite H2, Hk. simpl. tauto.
    + intros k v Hi. destruct (H3 k v Hi) as [Hv|[_ []]]. specialize (Hl k). rewrite Hv in Hl.
      destruct (last_binding k ms) as [j|]; [eauto|contradiction].
Qed.
Lemma mapM_none {A B} (g : A -> option B) l : mapM g l <> None <-> Forall (fun x => g x <> None) l.
Proof.
  induction l as [|x l IH]; simpl; [split; auto; discriminate|].
  split.
  - intros H. destruct (g x) eqn:E; [|congruence]. destruct (mapM g l); [|congruence].
    constructor; [congruence|]. apply IH. discriminate.
  - intros H. inversion H; subst. destruct (g x); [|congruence]. destruct (mapM g l); [discriminate|]. tauto.
Qed.
Lemma gconv_nums j : nums_ok F useNumber j <-> gconv j <> None.
Proof.
  induction j as [|b|t|s|l IH|ms IH] using jval_ind2; simpl; try (split; [discriminate|constructor]).
  - split.
    + intros H. inversion H as [| |? [->|[x E]]| | |]; subst; [discriminate|]. rewrite E. now destruct useNumber.
    + intros H. constructor. destruct useNumber; auto. right. destruct (fl_parse F t); [eauto|congruence].
  - rewrite mapS_mapM. transitivity (mapM gconv l <> None); [|destruct (mapM gconv l); simpl; split; congruence].
    rewrite mapM_none. split.
    + intros H. inversion H as [| | | |? Hf|]; subst. clear H.
      induction Hf; constructor; inversion IH; subst; auto. now apply H2.
    + intros H. constructor. induction H; constructor; inversion IH; subst; auto. now apply H3.
  - rewrite mapS_mapM.
    match goal with |- context [mapM ?g ms] => transitivity (mapM g ms <> None); [|destruct (mapM g ms); simpl; split; congruence] end.
    rewrite mapM_none. split.
    + intros H. inversion H as [| | | | |? Hf]; subst. clear H.
      induction Hf as [|[k j] ms Hj _ IHf]; constructor; inversion IH; subst; auto.
      simpl in *. apply H1 in Hj. destruct (gconv j); congruence.
    + intros H. constructor. induction H as [|[k j] ms Hj _ IHf]; constructor; inversion IH; subst; auto.
      simpl in *. apply H1. destruct (gconv j); congruence.
Qed.
(** Read returns a value of the text it consumes, ... *)
Theorem Read_sound f l v r : p_Read F useNumber f l = POk v r ->
  exists w t j, l = w ++ t ++ r /\ ws w /\ value t j /\ go_value F useNumber j v /\ vends t j f r.
Proof.
  intros H. apply Read_conv in H. destruct H as (w & t & j & E & Hw & Hv & Hc & He).
  exists w, t, j. apply gconv_sound in Hc. auto 10.
Qed.
(** ... and reads every value whose numbers can be converted *)
Theorem Read_complete f w t j r : ws w -> value t j -> nums_ok F useNumber j -> vends t j f r ->
  exists v, p_Read F useNumber f (w ++ t ++ r) = POk v r /\ go_value F useNumber j v.
Proof.
  intros Hw Hv Hn He. apply gconv_nums in Hn. destruct (gconv j) as [v|] eqn:E; [|congruence].
  exists v. split; [|now apply gconv_sound]. apply Read_conv. eauto 8.
Qed.
End Read.
