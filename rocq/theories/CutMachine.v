(** The machine of containers, and Skip: where they refuse and how a cut input can be completed. *)
From Coq Require Import String ZArith List Bool Lia Arith.
From Verif Require Import Base ModelIter ModelStack ModelSkip Sim SimLib StackFacts Machine SimSkip Spec SpecCut NumFacts StrFacts MachineFacts GrammarFacts IterFacts SimRaw CutFacts.
Import ListNotations.
Local Open Scope Z_scope.

Section Cut.
Context {V K SA SO : Type}.
Variable X : alg V K SA SO.
Notation frame := (acc SA SO).
Notation L := (L X).
Notation elem := (elem X).
Notation elemO := (elemO X).
Notation close := (close X).
Hypothesis L_eq : forall first a stk f l, L first a stk f l =
  pbind p_takeToken (fun c0 =>
  match a with
  | AArr s => if c0 =? cRBRACK then close a stk else pbind (sepThen first c0) (fun c => elem a (k0 X) stk c)
  | AObj s => if c0 =? cRBRACE then close a stk else pbind (sepThen first c0) (fun c => elemO s stk c)
  end) f l.
Hypothesis leaf_le : forall c f l v r, c <> 91 -> c <> 123 -> leaf X c f l = POk v r -> (length r <= length l)%nat.
Hypothesis field_lt : forall f l k r, field X f l = POk k r -> (length r < length l)%nat.
Hypothesis leaf_gd : forall c, c <> 91 -> c <> 123 -> (forall f s, bad c (leaf X c f s)) \/ good (leaf X c).
Hypothesis leaf_cp : forall c l, c <> 91 -> c <> 123 -> cp sep (leaf X c) l.
Hypothesis field_gd : good (field X).
Hypothesis field_cp : forall l, cp anyR (field X) l.
Hypothesis field_end : forall l a, field X F0 l = PErr F0 -> field X EEOF l = POk a [] -> False.
Hypothesis arr_err : forall c, byteOf (arrErr X c) = Some c.

Lemma L_end first a stk : L first a stk EEOF [] = PErr EEOF.
Proof. rewrite L_eq. reflexivity. Qed.

Section Step.
Variable n : nat.
Hypothesis IH : forall l first a stk, (length l < n)%nat -> gd (L first a stk) l.
Lemma gd_elem a k stk c l : (length l < n)%nat -> (forall f s, bad c (elem a k stk c f s)) \/ gd (elem a k stk c) l.
Proof.
  intros H. unfold MachineFacts.elem. destruct (Z.eqb_spec c cLBRACK); [right; apply IH; auto|].
  destruct (Z.eqb_spec c cLBRACE); [right; apply IH; auto|]. destruct (leaf_gd c) as [B|G]; auto.
  - left. intros f s. destruct (B f s) as (e & E & E'). exists e. unfold pbind. now rewrite E.
  - right. apply gd_bind; [exact G| |].
    + intros v r E. apply leaf_le in E; auto. apply IH. lia.
    + intros v _ _. left. apply L_end.
Qed.
Lemma gd_elemO s stk c l : (length l < n)%nat -> (forall f x, bad c (elemO s stk c f x)) \/ gd (elemO s stk c) l.
Proof.
  intros H. unfold MachineFacts.elemO. destruct (negb (c =? cQUOTE)); [left; apply bad_fail|]. right.
  apply gd_bind; [exact field_gd| |].
  - intros k r E. apply field_lt in E. apply gd_takeq. intros d r' T. apply takeToken_lt in T. apply gd_elem. lia.
  - intros k E E'. destruct (field_end _ _ E E').
Qed.
Lemma gd_close a stk l : (length l < n)%nat -> gd (close a stk) l.
Proof. intros H. unfold MachineFacts.close. destruct stk as [|[k b] stk]; [apply gd_pret|now apply IH]. Qed.
Lemma gd_sep (q : Z -> P V) first c0 l : (length l < n)%nat ->
  (forall c r, (length r < n)%nat -> (forall f s, bad c (q c f s)) \/ gd (q c) r) ->
  (forall f s, bad c0 (pbind (sepThen first c0) q f s)) \/ gd (pbind (sepThen first c0) q) l.
Proof.
  intros H Q. unfold sepThen. destruct first; simpl negb; cbv iota.
  - destruct (Q c0 l H) as [B|G]; [left; exact B|right]. exact G.
  - destruct (c0 =? cCOMMA); simpl negb; cbv iota; [|left; apply bad_fail]. right. apply gd_takeq.
    intros c r T. apply takeToken_lt in T. apply Q. lia.
Qed.
End Step.
Lemma gd_L n : forall l first a stk, (length l < n)%nat -> gd (L first a stk) l.
Proof.
  induction n as [|n IH]; intros l first a stk H; [lia|].
  eapply gd_ext; [intros; apply L_eq|]. apply gd_takeq. intros c r T. apply takeToken_lt in T.
  destruct a as [s|s].
  - destruct (c =? cRBRACK); [right; apply (gd_close n); auto; lia|]. apply (gd_sep n); [lia|].
    intros d r' Hr. now apply (gd_elem n).
  - destruct (c =? cRBRACE); [right; apply (gd_close n); auto; lia|]. apply (gd_sep n); [lia|].
    intros d r' Hr. now apply (gd_elemO n).
Qed.
Lemma good_L first a stk : good (L first a stk).
Proof. intros l. apply (gd_L (S (length l))). lia. Qed.

(** closing the open containers *)
Lemma cl_L stk : forall first a, exists s b, forall rest, sep (s ++ rest) /\ L first a stk F0 (s ++ rest) = POk b rest.
Proof.
  assert (N : ~ is_ws 93 /\ ~ is_ws 125) by (unfold is_ws; lia).
  induction stk as [|[k b] stk IH]; intros first a.
  - destruct a as [x|x].
    + exists [93], (finish X (AArr x)). intros rest. split; [exists 93, rest; auto|]. rewrite L_eq.
      erewrite pbind_run by (apply (takeToken_run F0 []); [constructor|tauto]). reflexivity.
    + exists [125], (finish X (AObj x)). intros rest. split; [exists 125, rest; auto 6|]. rewrite L_eq.
      erewrite pbind_run by (apply (takeToken_run F0 []); [constructor|tauto]). reflexivity.
  - destruct (IH false (add X b k (finish X a))) as (s & v & H). destruct a as [x|x].
    + exists (93 :: s), v. intros rest. split; [eexists 93, _; split; [reflexivity|auto]|]. rewrite L_eq.
      erewrite pbind_run by (apply (takeToken_run F0 []); [constructor|tauto]). apply H.
    + exists (125 :: s), v. intros rest. split; [eexists 125, _; split; [reflexivity|auto 6]|]. rewrite L_eq.
      erewrite pbind_run by (apply (takeToken_run F0 []); [constructor|tauto]). apply H.
Qed.
Lemma cl_elem a k stk : exists s b, forall rest, elem a k stk 91 F0 (s ++ rest) = POk b rest.
Proof. destruct (cl_L ((k, a) :: stk) true (AArr (emptyA X))) as (s & b & H). exists s, b. intros rest. apply H. Qed.
Lemma cl_close a stk : exists s b, forall rest, close a stk F0 (s ++ rest) = POk b rest.
Proof.
  destruct stk as [|[k b] stk]; simpl.
  - exists [], (finish X a). reflexivity.
  - destruct (cl_L stk false (add X b k (finish X a))) as (s & v & H). exists s, v. intros rest. apply H.
Qed.
Section StepC.
Variable n : nat.
Hypothesis IH : forall l first a stk, (length l < n)%nat -> cp sep (L first a stk) l.
Lemma cp_elem a k stk c l : (length l < n)%nat -> cp sep (elem a k stk c) l.
Proof.
  intros H. unfold MachineFacts.elem. destruct (Z.eqb_spec c cLBRACK); [apply IH; auto|].
  destruct (Z.eqb_spec c cLBRACE); [apply IH; auto|]. destruct (leaf_gd c) as [B|G]; auto.
  - apply cp_not. unfold pbind. destruct (B F0 l) as (e & -> & E'). intros [= ->]. discriminate.
  - apply cp_bind; auto.
    + intros v r E. apply leaf_le in E; auto. apply IH. lia.
    + intros E. destruct (leaf_cp c l n0 n1 E) as (s & v & S). destruct (cl_L stk false (add X a k v)) as (s2 & b & S2).
      exists s, v, s2, b. intros rest _. destruct (S2 rest) as [S3 S4]. split; auto.
Qed.
Lemma cp_elemO s stk c l : (length l < n)%nat -> cp sep (elemO s stk c) l.
Proof.
  intros H. unfold MachineFacts.elemO. destruct (negb (c =? cQUOTE)); [apply cp_not; discriminate|].
  apply cp_bind; auto.
  - intros k r E. apply field_lt in E. apply cp_takeq.
    + intros d r' T. apply takeToken_lt in T. apply cp_elem. lia.
    + destruct (cl_elem (AObj s) k stk) as (s2 & b & S2). exists 91, s2, b. split; [unfold is_ws; lia|auto].
  - intros E. destruct (field_cp l E) as (s1 & k & S1). destruct (cl_elem (AObj s) k stk) as (s2 & b & S2).
    exists s1, k, (91 :: s2), b. intros rest _. split; [apply S1; exact I|].
    simpl app. erewrite pbind_run by (apply (takeToken_run F0 []); [constructor|unfold is_ws; lia]). auto.
Qed.
Lemma cp_close a stk l : (length l < n)%nat -> cp sep (close a stk) l.
Proof. intros H. unfold MachineFacts.close. destruct stk as [|[k b] stk]; [apply cp_not; discriminate|now apply IH]. Qed.
Lemma cp_sep (q : Z -> P V) first c0 l : (length l < n)%nat -> (forall c r, (length r < n)%nat -> cp sep (q c) r) ->
  (exists c s b, ~ is_ws c /\ forall rest, sep rest -> q c F0 (s ++ rest) = POk b rest) ->
  cp sep (pbind (sepThen first c0) q) l.
Proof.
  intros H Q N. unfold sepThen. destruct first; simpl negb; cbv iota.
  - apply (cp_ext _ _ (q c0)); auto.
  - destruct (c0 =? cCOMMA); simpl negb; cbv iota; [|apply cp_not; discriminate]. apply cp_takeq; auto.
    intros c r T. apply takeToken_lt in T. apply Q. lia.
Qed.
End StepC.
Lemma cl_elemO s stk : exists s2 b, forall rest, elemO s stk 34 F0 (s2 ++ rest) = POk b rest.
Proof.
  unfold MachineFacts.elemO. change (negb (34 =? cQUOTE)) with false. cbv iota. assert (E : field X F0 [] = PErr F0).
  { assert (G := field_gd []). unfold gd in G. destruct (field X F0 []) as [k r|e] eqn:E.
    - apply field_lt in E. simpl in E. lia.
    - destruct G as [[-> _]|(u & c & r & H & _)]; auto. destruct u; discriminate. }
  destruct (field_cp [] E) as (s1 & k & S1). destruct (cl_elem (AObj s) k stk) as (s2 & b & S2).
  exists (s1 ++ 91 :: s2), b. intros rest. rewrite <- app_assoc. erewrite pbind_run by (apply S1; exact I). simpl app.
  erewrite pbind_run by (apply (takeToken_run F0 []); [constructor|unfold is_ws; lia]). auto.
Qed.
Lemma cp_L n : forall l first a stk, (length l < n)%nat -> cp sep (L first a stk) l.
Proof.
  induction n as [|n IH]; intros l first a stk H; [lia|].
  eapply cp_ext; [intros; apply L_eq|]. apply cp_takeq.
  - intros c r T. apply takeToken_lt in T. destruct a as [s|s].
    + destruct (c =? cRBRACK); [apply (cp_close n); auto; lia|]. apply (cp_sep n); [lia|intros; now apply (cp_elem n)|].
      destruct (cl_elem (AArr s) (k0 X) stk) as (s2 & b & S2). exists 91, s2, b. split; [unfold is_ws; lia|auto].
    + destruct (c =? cRBRACE); [apply (cp_close n); auto; lia|]. apply (cp_sep n); [lia|intros; now apply (cp_elemO n)|].
      destruct (cl_elemO s stk) as (s2 & b & S2). exists 34, s2, b. split; [unfold is_ws; lia|auto].
  - destruct (cl_close a stk) as (s2 & b & S2). destruct a as [s|s]; [exists 93, s2, b|exists 125, s2, b]; (split; [unfold is_ws; lia|intros; apply S2]).
Qed.

(** ** The loops used as long as only leaves have been met differ in the bytes they say they expect *)
Definition near {A} (x y : pres A) : Prop := x = y \/ exists c, bad c x /\ bad c y.
Lemma near_refl {A} (x : pres A) : near x x.
Proof. now left. Qed.
Lemma near_bind {A B} (p : P A) (q q' : A -> P B) f l :
  (forall a r, p f l = POk a r -> near (q a f r) (q' a f r)) -> near (pbind p q f l) (pbind p q' f l).
Proof. intros H. unfold pbind. destruct (p f l) as [a l'|]; [now apply H|apply near_refl]. Qed.
Lemma near_bad {A} c (e e' : err) : byteOf e = Some c -> byteOf e' = Some c -> near (@PErr A e) (PErr e').
Proof. intros H H'. right. exists c. split; [exists e|exists e']; auto. Qed.
Lemma arrLoop_near n : forall c s f l, (length l < n)%nat -> near (p_arrLoop X n c s f l) (elem (AArr s) (k0 X) [] c f l).
Proof.
  induction n as [|n IH]; intros c s f l Hn; [lia|]. cbn [p_arrLoop]. unfold MachineFacts.elem.
  destruct (Z.eqb_spec c cLBRACE) as [->|H2]; [apply near_refl|].
  destruct (Z.eqb_spec c cLBRACK) as [->|H1]; [apply near_refl|].
  apply near_bind. intros v l1 E1. apply leaf_le in E1; auto. rewrite L_eq.
  apply near_bind. intros d l2 E2. apply takeToken_lt in E2. simpl add.
  destruct (d =? cRBRACK); [apply near_refl|]. unfold sepThen. simpl negb. cbv iota.
  destruct (d =? cCOMMA); simpl negb; cbv iota; [|now apply (near_bad d)].
  apply near_bind. intros c' l3 E3. apply takeToken_lt in E3. apply IH. lia.
Qed.
Lemma array_near f l : near (p_array X f l) (L true (AArr (emptyA X)) [] f l).
Proof.
  unfold p_array. rewrite L_eq. apply near_bind. intros c l1 E1. destruct (c =? cRBRACK); [apply near_refl|].
  unfold sepThen. simpl negb. cbv iota. unfold p_fuel. apply arrLoop_near. lia.
Qed.
Lemma near_take {B} (q q' : Z -> P B) f l :
  (forall c r, (length (c :: r) <= length l)%nat -> near (q c f (c :: r)) (q' c f r)) ->
  near (pbind p_nextToken q f l) (pbind p_takeToken q' f l).
Proof.
  intros H. unfold pbind. destruct (p_nextToken f l) as [c l1|e] eqn:E.
  - destruct (nextToken_take _ _ _ _ E) as (El & -> & Hlen). rewrite El in *. apply H. auto.
  - unfold p_takeToken, pbind. rewrite E. apply near_refl.
Qed.
Lemma objLoop_near n : forall c s f l, (length l < n)%nat -> near (p_objLoop X n c s f (c :: l)) (elemO s [] c f l).
Proof.
  induction n as [|n IH]; intros c s f l Hn; [lia|]. cbn [p_objLoop]. unfold MachineFacts.elemO.
  destruct (negb (c =? cQUOTE)); [apply near_refl|].
  rewrite (pbind_run _ _ _ _ tt l) by reflexivity.
  apply near_bind. intros k l1 E1. apply field_lt in E1. apply near_bind. intros d l2 E2. apply takeToken_lt in E2.
  unfold MachineFacts.elem. destruct (Z.eqb_spec d cLBRACE) as [->|H2]; [apply near_refl|].
  destruct (Z.eqb_spec d cLBRACK) as [->|H1]; [apply near_refl|].
  apply near_bind. intros v l3 E3. apply leaf_le in E3; auto. rewrite L_eq. simpl add.
  apply near_bind. intros e l4 E4. apply takeToken_lt in E4.
  destruct (e =? cRBRACE); [apply near_refl|]. unfold sepThen. simpl negb. cbv iota.
  destruct (e =? cCOMMA); simpl negb; cbv iota; [|now apply (near_bad e)].
  apply near_take. intros c' l5 Hlen. apply IH. simpl in Hlen. lia.
Qed.
Lemma object_near f l : near (p_object X f l) (L true (AObj (emptyO X)) [] f l).
Proof.
  unfold p_object. rewrite L_eq. apply near_take. intros c l1 Hlen.
  destruct (c =? cRBRACE); [apply near_refl|]. unfold sepThen. simpl negb. cbv iota. unfold p_fuel.
  apply objLoop_near. simpl. lia.
Qed.
Lemma near_ok {A} (x y : pres A) a r : near x y -> y = POk a r -> x = POk a r.
Proof. intros [->|(c & _ & (e & -> & _))]; auto. discriminate. Qed.
Lemma near_sym {A} (x y : pres A) : near x y -> near y x.
Proof. intros [->|(c & H & H')]; [apply near_refl|right; eauto]. Qed.
Lemma near_err {A} (x y : pres A) e : near x y -> byteOf e = None -> y = PErr e -> x = PErr e.
Proof. intros [->|(c & _ & (e' & -> & E))]; auto. intros N [= ->]. congruence. Qed.
Lemma near_nak {A} (x y : pres A) c : near x y -> bad c y -> bad c x.
Proof. intros [->|(d & H & (e & -> & E))]; auto. intros (e' & [= <-] & E'). rewrite E in E'. now injection E' as ->. Qed.
Lemma gd_near {A} (p q : P A) l : (forall f x, near (p f x) (q f x)) -> gd q l -> gd p l.
Proof.
  intros N G. unfold gd in G. destruct (q F0 l) as [a r|e] eqn:E.
  - unfold gd. rewrite (near_ok _ _ _ _ (N F0 l) E). destruct G as (u & -> & G). exists u. split; auto. intros f x Hx.
    apply (near_ok _ _ _ _ (N f _)). auto.
  - destruct G as [(-> & Gn & G)|(u & c & r & -> & H & G)].
    + unfold gd. rewrite (near_err _ _ F0 (N F0 l) eq_refl E). left. split; auto.
      split; [intros n; now apply (near_err _ _ (EIO n) (N (EIO n) l))|]. destruct G as [G|[a G]].
      * left. now apply (near_err _ _ _ (N EEOF l)).
      * right. exists a. now apply (near_ok _ _ _ _ (N EEOF l)).
    + assert (B : forall f s, bad c (p f (u ++ c :: s))) by (intros f s; apply (near_nak _ _ _ (N f _)); auto).
      unfold gd. destruct (B F0 r) as (e' & -> & _). right. exists u, c, r. split; auto. split; auto. now apply (near_err _ _ _ (N F0 u)).
Qed.
Lemma cp_near {A} R (p q : P A) l : (forall f x, near (p f x) (q f x)) -> cp R q l -> cp R p l.
Proof.
  intros N C H. apply (near_err _ _ _ (near_sym _ _ (N F0 l))) in H; auto. destruct (C H) as (s & a & G). exists s, a.
  intros rest HR. apply (near_ok _ _ _ _ (N F0 _)). auto.
Qed.

Lemma gd_value c l : (forall f s, bad c (p_value X c f s)) \/ gd (p_value X c) l.
Proof.
  unfold p_value. destruct (Z.eqb_spec c cLBRACK); [right; apply (gd_near _ _ _ array_near), good_L|].
  destruct (Z.eqb_spec c cLBRACE); [right; apply (gd_near _ _ _ object_near), good_L|].
  destruct (leaf_gd c) as [B|G]; auto.
Qed.
Lemma cp_value c l : cp sep (p_value X c) l.
Proof.
  unfold p_value. destruct (Z.eqb_spec c cLBRACK); [apply (cp_near _ _ _ _ array_near), (cp_L (S (length l))); lia|].
  destruct (Z.eqb_spec c cLBRACE); [apply (cp_near _ _ _ _ object_near), (cp_L (S (length l))); lia|]. now apply leaf_cp.
Qed.
Definition p_any : P V := pbind p_takeToken (p_value X).
Lemma good_any : good p_any.
Proof. intros l. apply gd_takeq. intros c r _. apply gd_value. Qed.
Lemma cp_any_value l : cp sep p_any l.
Proof.
  apply cp_takeq; [intros; apply cp_value|]. destruct (cl_L [] true (AArr (emptyA X))) as (s & b & S).
  exists 91, s, b. split; [unfold is_ws; lia|]. intros rest _. unfold p_value. simpl (91 =? _). cbv iota.
  apply (near_ok _ _ _ _ (array_near F0 _)). apply S.
Qed.
End Cut.

(** ** Skip *)
Lemma sL_eq first a stk f l : L skipAlg first a stk f l =
  pbind p_takeToken (fun c0 =>
  match a with
  | AArr s => if c0 =? cRBRACK then close skipAlg a stk else pbind (sepThen first c0) (fun c => elem skipAlg a (k0 skipAlg) stk c)
  | AObj s => if c0 =? cRBRACE then close skipAlg a stk else pbind (sepThen first c0) (fun c => elemO skipAlg s stk c)
  end) f l.
Proof. apply (L_eq skipAlg sconv (fun _ => tt) sleaf_ok sfield_ok). Qed.
Lemma sfield_end l a : field skipAlg F0 l = PErr F0 -> field skipAlg EEOF l = POk a [] -> False.
Proof.
  intros H K. apply sfield_ok in K. assert (E : field skipAlg F0 l = POk a []) by now apply sfield_ok. congruence.
Qed.
Lemma good_Skip : good p_Skip.
Proof.
  apply (good_any skipAlg sL_eq).
  - exact (MachineFacts.leaf_le skipAlg sconv sleaf_ok).
  - exact (MachineFacts.field_lt skipAlg (fun _ => tt) sfield_ok).
  - exact good_leaf.
  - exact good_field.
  - exact sfield_end.
  - reflexivity.
Qed.
Lemma cp_Skip l : cp sep p_Skip l.
Proof.
  apply (cp_any_value skipAlg sL_eq).
  - exact (MachineFacts.leaf_le skipAlg sconv sleaf_ok).
  - exact (MachineFacts.field_lt skipAlg (fun _ => tt) sfield_ok).
  - exact good_leaf.
  - exact (fun c l => cp_leaf c l).
  - exact good_field.
  - exact cp_field.
  - reflexivity.
Qed.

(** ** The three kinds of texts *)
Lemma starts_spec f l : starts f l <-> exists r, p_Skip f l = POk tt r.
Proof.
  split.
  - intros (w & t & j & rest & H). exists rest. apply Skip_spec. eauto.
  - intros (r & H). apply Skip_spec in H. destruct H as (w & t & j & H). exists w, t, j, r. auto.
Qed.
Lemma text_starts l j : json_text l j -> starts EEOF l.
Proof. intros (w & t & w2 & -> & H1 & H2 & H3). exists w, t, j, w2. repeat split; auto. now apply IterFacts.ws_vends. Qed.
Lemma extends_starts l : extends l -> exists s, starts EEOF (l ++ s).
Proof. intros (s & j & H). exists s. now apply (text_starts _ j). Qed.
Lemma starts_eof f l : starts f l -> starts EEOF l.
Proof.
  intros (w & t & j & rest & H1 & H2 & H3 & H4). exists w, t, j, rest. repeat split; auto.
  destruct j; simpl in *; auto. destruct H4 as [H4 _]. split; auto.
Qed.
Lemma incomplete_extends l : p_Skip F0 l = PErr F0 -> extends l.
Proof.
  intros H. destruct (cp_Skip l H) as (s & [] & K). specialize (K [32]). rewrite Skip_spec in K.
  destruct K as (w & t & j & E & Hw & Hv & _). { exists 32, []. split; auto. left. left. reflexivity. }
  exists (s ++ [32]), j, w, t, [32]. repeat split; auto. constructor; [left; reflexivity|constructor].
Qed.
(** a value that stands at the start of [u] still does so after another byte, or the text goes on as a number *)
Lemma starts_more u c : starts EEOF u -> ~ forall s, ~ starts EEOF (u ++ c :: s).
Proof.
  intros (w & t & j & rest & -> & Hw & Hv & He) N.
  assert (D : forall r, vends t j EEOF (rest ++ c :: r) -> False).
  { intros r Hr. apply (N r). exists w, t, j, (rest ++ c :: r). split; [now rewrite <- !app_assoc|]. auto. }
  destruct j; try (apply (D []); exact I). destruct rest as [|d rest].
  - apply (D []). split; [|discriminate]. intros c' r' x [= <- <-] Hx. apply (N x).
    exists w, (t ++ c :: x), (JNum (t ++ c :: x)), []. split; [now rewrite !app_nil_r, <- app_assoc|]. split; auto.
    split; [now constructor|]. split; [discriminate|auto].
  - apply (D []). destruct He as [He _]. split; [|discriminate]. intros c' r' x [= <- <-]. now apply (He d rest x).
Qed.
Lemma skip_wrong u c : p_Skip F0 u = PErr F0 -> (forall f s, bad c (p_Skip f (u ++ c :: s))) -> wrong u c.
Proof.
  intros H B. assert (N : forall s, ~ starts EEOF (u ++ c :: s)).
  { intros s K. apply starts_spec in K. destruct K as (r & K). destruct (B EEOF s) as (e & E & _). congruence. }
  split; [split|]; auto.
  - intros S. exact (starts_more u c S N).
  - now apply incomplete_extends.
Qed.
Lemma wrong_unique u c r u' c' r' : wrong u c -> wrong u' c' -> u ++ c :: r = u' ++ c' :: r' -> u = u' /\ c = c' /\ r = r'.
Proof.
  assert (Shape : forall u c r u' c' r', wrong u c -> wrong u' c' -> u ++ c :: r = u' ++ c' :: r' -> (length u <= length u')%nat -> u = u' /\ c = c' /\ r = r').
  { clear. intros u c r u' c' r' W W' E Hl.
    assert (Eu : u' = u ++ skipn (length u) u').
    { rewrite <- (firstn_skipn (length u) u') at 1. f_equal. apply (f_equal (firstn (length u))) in E.
      rewrite !firstn_app, firstn_all, Nat.sub_diag, app_nil_r in E.
      replace (length u - length u')%nat with 0%nat in E by lia. rewrite app_nil_r in E. congruence. }
    rewrite Eu in E. rewrite <- app_assoc in E. apply app_inv_head in E. destruct (skipn (length u) u') as [|d x].
    - rewrite app_nil_r in Eu. injection E as -> ->. auto.
    - injection E as <- _. exfalso. destruct W' as [[_ X] _]. rewrite Eu in X. apply extends_starts in X. destruct X as (s & X).
      rewrite <- app_assoc in X. exact (proj2 W _ X). }
  intros W W' E. destruct (le_ge_dec (length u) (length u')) as [Hl|Hl].
  - now apply Shape.
  - destruct (Shape u' c' r' u c r W' W (eq_sym E) Hl) as (-> & -> & ->). auto.
Qed.

Lemma skip_kinds f l : ending f ->
  (exists r, p_Skip f l = POk tt r) \/ (p_Skip f l = PErr f /\ extends l) \/
  exists u c r, l = u ++ c :: r /\ wrong u c /\ forall f s, bad c (p_Skip f (u ++ c :: s)).
Proof.
  intros En. assert (G := good_Skip l). unfold gd in G. destruct (p_Skip F0 l) as [[] r|e] eqn:E.
  - left. destruct G as (u & -> & G). exists r. apply G, agrees_refl.
  - destruct G as [(-> & G1 & G2)|(u & c & r & -> & H & K)].
    + apply incomplete_extends in E. destruct En as [->|[n ->]]; [|auto]. destruct G2 as [G2|[[] G2]]; eauto.
    + right. right. exists u, c, r. split; auto. split; auto. now apply skip_wrong.
Qed.
Lemma skip_cut f l : ending f -> (p_Skip f l = PErr f <-> cut f l).
Proof.
  intros En. assert (B : byteOf f = None) by (destruct En as [->|[n ->]]; reflexivity). split.
  - intros H. destruct (skip_kinds f l En) as [[r K]|[[_ K]|(u & c & r & -> & _ & K)]].
    + congruence.
    + split; auto. intros S. apply starts_spec in S. destruct S as [r S]. congruence.
    + destruct (K f r) as (e & E & E'). congruence.
  - intros [N X]. destruct (skip_kinds f l En) as [K|[[K _]|(u & c & r & -> & [_ W] & _)]]; auto.
    + exfalso. apply N. now apply starts_spec.
    + exfalso. apply extends_starts in X. destruct X as (s & X). rewrite <- app_assoc in X. exact (W _ X).
Qed.
Lemma skip_bad f l c : ending f -> (bad c (p_Skip f l) <-> exists u r, l = u ++ c :: r /\ wrong u c).
Proof.
  intros En. assert (B : byteOf f = None) by (destruct En as [->|[n ->]]; reflexivity). split.
  - intros (e & H & H'). destruct (skip_kinds f l En) as [[r K]|[[K _]|(u & d & r & -> & W & K)]].
    + congruence.
    + congruence.
    + destruct (K f r) as (e' & E & E'). rewrite E in H. injection H as ->. rewrite H' in E'. injection E' as ->. eauto.
  - intros (u & r & -> & W). destruct (skip_kinds f (u ++ c :: r) En) as [K|[[_ X]|(u' & d & r' & E & W' & K)]].
    + exfalso. apply starts_spec, starts_eof in K. exact (proj2 W _ K).
    + exfalso. apply extends_starts in X. destruct X as (s & X). rewrite <- app_assoc in X. exact (proj2 W _ X).
    + destruct (wrong_unique _ _ _ _ _ _ W W' E) as (-> & -> & ->). apply K.
Qed.
Lemma skip_other f l e : ending f -> p_Skip f l = PErr e -> e <> f -> exists c, byteOf e = Some c.
Proof.
  intros En H N. destruct (skip_kinds f l En) as [[r K]|[[K _]|(u & d & r & -> & W & K)]]; try congruence.
  destruct (K f r) as (e' & E & E'). rewrite E in H. injection H as ->. eauto.
Qed.
Lemma raw_same f l e : p_SkipRaw f l = PErr e <-> p_Skip f l = PErr e.
Proof.
  unfold p_SkipRaw, p_Skip, p_takeToken, p_captured, pbind. destruct (p_nextToken f l) as [c r|e']; [|split; intros [= ->]; reflexivity].
  unfold p_inc, pret. destruct (p_skipFunctions c f (tl r)) as [v r'|e']; [|split; intros [= ->]; reflexivity]. split; discriminate.
Qed.
