(** Encoding ends, with a text or an error, if no part of the value is a hazard (for C51). *)
From Coq Require Import String ZArith List Bool Lia Arith Wellfounded.
From Verif Require Import Spec SpecStream SpecBase64 StreamIntFacts StreamStrFacts StreamFacts Base64Facts.
From Verif Require Import Base ModelInt ModelFloat ModelOps ModelBase64 ModelStream ModelVal ModelEnc SpecVal SpecEnc SpecTyped EncFacts SpecHazard TidyFacts.
Import ListNotations.
Local Open Scope Z_scope.

(** with enough nesting fuel the step always has the same result, which is not a panic *)
Definition ends (f : nat -> stm -> sres) (s : stm) : Prop := exists n s', forall m, (n <= m)%nat -> f m s = SOk s'.
Lemma en_const (f : stm -> sres) s s' : f s = SOk s' -> ends (fun _ => f) s.
Proof. intros H. exists O, s'. auto. Qed.
Lemma en_ext f g s : (forall m, f m s = g m s) -> ends g s -> ends f s.
Proof. intros H (n & s' & K). exists n, s'. intros m Hm. rewrite H. auto. Qed.
Lemma en_S f g s : (forall m, f (S m) s = g m s) -> ends g s -> ends f s.
Proof. intros H (n & s' & K). exists (S n), s'. intros [|m] Hm; [lia|]. rewrite H. apply K. lia. Qed.
Lemma en_bind f g s : ends f s -> (forall s1, ends g s1) -> ends (fun m s => f m s >>> g m) s.
Proof.
  intros (n & s1 & H) K. destruct (K s1) as (n2 & s2 & H2). exists (Nat.max n n2), s2. intros m Hm. rewrite H by lia. simpl. apply H2. lia.
Qed.
Lemma en_all {A} (f : nat -> A -> stm -> sres) l s : (forall x s1, In x l -> ends (fun m => f m x) s1) -> ends (fun m => encodeAll (f m) l) s.
Proof.
  revert s. induction l as [|x l IH]; intros s H; [now apply (en_const SOk s s)|]. simpl.
  apply (en_bind (fun m => f m x)); [apply H; now left|]. intros s1. destruct (sm_error s1) eqn:E.
  - exists O, s1. intros m _. now rewrite E.
  - destruct (IH s1) as (n & s' & K); [intros; apply H; now right|]. exists n, s'. intros m Hm. rewrite E. auto.
Qed.
Lemma en_ok f s : ends f s -> ends (fun m => ifNoError (f m)) s.
Proof. intros (n & s' & K). unfold ifNoError. destruct (sm_error s) eqn:X; [exists O, s|exists n, s']; intros m Hm; rewrite X; auto. Qed.

(** sizes *)
Fixpoint tsize (t : ty) : nat :=
  S match t with
    | TPtr t | TArray _ t | TSlice t | TMap _ t => tsize t
    | TStruct _ fs => (fix go l := match l with [] => O | mkField _ _ _ _ t :: r => tsize t + go r end) fs
    | _ => O
    end%nat.
Lemma tsize_field layout fs fd : In fd fs -> (tsize (f_type fd) < tsize (TStruct layout fs))%nat.
Proof.
  intros H. simpl. apply Nat.lt_succ_r. induction fs as [|[nm p q o t] fs IH]; [destruct H|]. destruct H as [<-|H]; simpl; [lia|]. apply IH in H. lia.
Qed.

Lemma forall2_len {A B} (R : A -> B -> Prop) l m : Forall2 R l m -> length l = length m.
Proof. intros H. induction H; simpl; congruence. Qed.

Section Ends.
Variables F32 F64 : floatOps.
Variable C : custom.
Notation gval := (gval F32 F64 C).
Variable E : env F32 F64 C.
Notation under := (under F32 F64 C E).
Variable U : marshalers F32 F64 C.
Variables G32 G64 : floatFmt.
Variables (S32 : fmt_sane G32) (S64 : fmt_sane G64).
Variable e32 : fl F32 -> ff G32.
Variable e64 : fl F64 -> ff G64.
Variable cfgHTML : bool.
Notation encoder := (encoder F32 F64 C).
Notation docall := (docall G32 G64).
Notation special := (special F32 F64 C E U G32 G64).
Notation preferPtrEncoder := (preferPtrEncoder F32 F64 C E U G32 G64).
Notation encode := (encode F32 F64 C E U G32 G64 e32 e64 cfgHTML).
Notation sound := (sound F32 F64 C E).
Notation typed := (typed F32 F64 C E).
Notation route := (route F32 F64 C E).
Notation hazard := (hazard F32 F64 C E U).
Notation within := (within F32 F64 C).
Notation leads := (leads F32 F64 C).
Hypothesis NO : names_ok F32 F64 C E U.
Hypothesis SE : sound_env F32 F64 C E.
Hypothesis SU : sound_users F32 F64 C E U.
Hypothesis NC : no_cycles F32 F64 C U.

Fixpoint vsize (v : gval) : nat :=
  S match v with
    | VPtr (Some v) => vsize v
    | VArr l | VSlice (Some l) | VStruct l => (fix go l := match l with [] => O | x :: r => vsize x + go r end) l
    | VMap (Some m) => (fix go l := match l with [] => O | (_, x) :: r => vsize x + go r end) m
    | VIface (Some (_, v)) => vsize v
    | _ => O
    end%nat.
Lemma size_list (l : list gval) x : In x l -> (vsize x <= (fix go l := match l with [] => O | x :: r => vsize x + go r end) l)%nat.
Proof. induction l as [|y l IH]; intros H; [destruct H|]. destruct H as [<-|H]; [lia|]. apply IH in H. lia. Qed.
Lemma size_map (l : list (key * gval)) k x : In (k, x) l -> (vsize x <= (fix go l := match l with [] => O | (_, x) :: r => vsize x + go r end) l)%nat.
Proof. induction l as [|[k' y] l IH]; intros H; [destruct H|]. destruct H as [[= <- <-]|H]; [lia|]. apply IH in H. lia. Qed.
Lemma size_leads path v x : leads path v x -> (vsize x <= vsize v)%nat /\ (path <> [] -> (vsize x < vsize v)%nat) /\ (forall y, within x y -> within v y).
Proof.
  intros H. induction H as [v|a path v x H (A & B & D)|i path l v x Hn H (A & B & D)].
  - split; [lia|]. split; [congruence|auto].
  - simpl. split; [lia|]. split; [lia|]. intros y Hy. apply wi_ptr. auto.
  - apply nth_error_In in Hn. pose proof (size_list l v Hn). simpl. split; [lia|]. split; [lia|]. intros y Hy. eapply wi_struct; eauto.
Qed.
Lemma path_some layout fs fd : sound (TStruct layout fs) -> In fd fs -> f_path fd <> [] /\ is_bytes (f_name fd) /\ route (TStruct layout fs) (f_path fd) (f_type fd).
Proof.
  intros H Hf. inversion H as [? K| | | | |? ? _ K]; subst; [destruct K|]. destruct (K fd Hf) as (B & R). split; [|auto]. intros P. rewrite P in R.
  assert (Q : f_type fd = TStruct layout fs) by (inversion R; reflexivity).
  pose proof (tsize_field layout fs fd Hf) as L. rewrite Q in L. lia.
Qed.
Lemma route_reach T path T' : route T path T' -> forall v, typed T v -> exists o, reach F32 F64 C path v = Some o.
Proof.
  intros H. induction H as [T|T layout fs i Ti path T' Hu Hn H IH|T T1 alloc path T' Hu Ha H IH]; intros v Hv; simpl.
  - eauto.
  - apply (typed_under F32 F64 C E) in Hv. rewrite Hu in Hv. inversion Hv as [| | | | | | | | | | | | | | | | |? ? l Hl|? A|? ? ? A| |]; subst; try (destruct A; discriminate).
    assert (Q : exists x, nth_error l i = Some x).
    { destruct (nth_error l i) eqn:X; eauto. apply nth_error_None in X. apply forall2_len in Hl.
      assert (nth_error layout i <> None) as Y by congruence. apply nth_error_Some in Y. lia. }
    destruct Q as (x & Q). rewrite Q. apply IH. eapply forall2_nth; eauto.
  - apply (typed_under F32 F64 C E) in Hv. rewrite Hu in Hv. inversion Hv as [| | | | | | | | | | | | | | | | | |? A|? ? ? A| |]; subst; try (destruct A; discriminate); eauto.
Qed.

(** ** Steps *)
Lemma docall_ok c s : StreamFacts.typed c -> exists s', docall c s = SOk s'.
Proof.
  intros H. destruct s as [w b e p h]. destruct (call_effect S32 S64 c e p h H) as (t & e' & p' & h' & K). unfold ModelEnc.docall. rewrite K. eauto.
Qed.
Lemma en_call c s : StreamFacts.typed c -> ends (fun _ => docall c) s.
Proof. intros H. destruct (docall_ok c s H) as (s' & K). now apply en_const with s'. Qed.
Lemma en_json (r : bytes + serr) s : ends (fun _ => putJSON G32 G64 r) s.
Proof. destruct r as [t|e]; [apply en_call; exact I|]. now apply en_const with (set_error (Some e) s). Qed.
Lemma en_text (r : bytes + serr) s : (forall t, r = inl t -> is_bytes t) -> ends (fun _ => putText G32 G64 r) s.
Proof. intros H. destruct r as [t|e]; [apply en_call; simpl; auto|]. now apply en_const with (set_error (Some e) s). Qed.

Definition runs (e : nat -> encoder) (ptr : option gval) : Prop := forall q s, ends (fun m => en_Encode _ _ _ (e m) ptr q) s.
Lemma ru_S (e e' : nat -> encoder) ptr : (forall m, e (S m) = e' m) -> runs e' ptr -> runs e ptr.
Proof. intros H K q s. apply (en_S _ (fun m => en_Encode _ _ _ (e' m) ptr q)); [intros m; now rewrite H|apply K]. Qed.
Lemma ru_null (f : nat -> gval -> bool -> stm -> sres) (g : nat -> gval -> option bool) : runs (fun m => mkEnc F32 F64 C (g m) (orNull F32 F64 C G32 G64 (f m))) None.
Proof. intros q s. apply en_call. exact I. Qed.
Lemma ru_nullok (f : nat -> gval -> bool -> stm -> sres) (g : nat -> gval -> option bool) :
  runs (fun m => mkEnc F32 F64 C (g m) (fun ptr q => ifNoError (orNull F32 F64 C G32 G64 (f m) ptr q))) None.
Proof. intros q s. apply (en_ok (fun m => orNull F32 F64 C G32 G64 (f m) None q)). apply en_call. exact I. Qed.
Lemma ru_bad ptr : runs (fun _ => notSupportedEncoder F32 F64 C G32 G64) ptr.
Proof. intros q s. apply en_call. exact I. Qed.
Lemma special_null T p : special T = Some p -> runs (fun _ => p) None /\ runs (fun _ => p) (Some (VPtr None)).
Proof.
  unfold ModelEnc.special. destruct (userOf _ _ _ _ T) as [id|]; [|discriminate]. intros H.
  assert (K : p = pointerJSONMarshalerEncoder F32 F64 C U G32 G64 id \/ p = pointerTextMarshalerEncoder F32 F64 C U G32 G64 id).
  { destruct (ma_json _ _ _ U id), (ma_text _ _ _ U id); try discriminate; injection H as <-; auto. }
  destruct K as [-> | ->]; (split; [apply (ru_nullok (fun _ => _) (fun _ => _))|]); intros q s; apply (en_ok (fun _ s => docall SNull s)); apply en_call; exact I.
Qed.
(** the types with names, and others *)
Definition bare (T : ty) : Prop := match T with TRef _ | TJson _ | TText _ => False | _ => True end.
Lemma under_bare id : bare (ma_under _ _ _ U id).
Proof.
  destruct (ma_under _ _ _ U id) eqn:X; simpl; auto; exfalso; destruct (nk_under _ _ _ _ _ NO id n) as (A & B & D) || destruct (nk_under _ _ _ _ _ NO id id0) as (A & B & D); auto.
Qed.
Lemma nil_bare T : bare T -> runs (fun m => encode m T) None.
Proof.
  intros B. destruct T as [| | | | | | |id|id|t|n t|t|k t|l fs| | |n|]; try contradiction B;
    try (refine (ru_S _ _ _ (fun m => eq_refl) _); first [apply (ru_null (fun _ => _) (fun _ => _))|apply (ru_nullok (fun _ => _) (fun _ => _))]; fail).
  - destruct (special t) as [p|] eqn:X.
    + apply (ru_S _ (fun _ => p)); [intros m; simpl; now rewrite X|]. now apply special_null in X.
    + apply (ru_S _ (fun m => pointerEncoder F32 F64 C G32 G64 (encode m t))); [intros m; simpl; now rewrite X|]. apply ru_null.
  - destruct n; refine (ru_S _ _ _ (fun m => eq_refl) _); [apply (ru_null (fun _ => _) (fun _ => _))|]. apply ru_null.
  - destruct (under t) as [| [] []| | | | | | | | | | | | | | | |] eqn:X;
      try (apply (ru_S _ (fun m => sliceEncoder F32 F64 C G32 G64 (preferPtrEncoder t (encode m t)))); [intros m; simpl; now rewrite X|apply ru_nullok]).
    apply (ru_S _ (fun m => base64Encoder F32 F64 C G32 G64)); [intros m; simpl; now rewrite X|]. apply (ru_nullok (fun _ => _) (fun _ => _)).
  - destruct (newKeyEncoder F32 F64 C U G32 G64 k) as [ke|] eqn:X.
    + apply (ru_S _ (fun m => mapEncoder F32 F64 C G32 G64 ke (encode m t))); [intros m; simpl; now rewrite X|]. apply ru_nullok.
    + apply (ru_S _ (fun m => notSupportedEncoder F32 F64 C G32 G64)); [intros m; simpl; now rewrite X|]. apply ru_bad.
  - destruct fs; refine (ru_S _ _ _ (fun m => eq_refl) _); [apply (ru_null (fun _ => _) (fun _ => _))|]. apply ru_nullok.
  - refine (ru_S _ _ _ (fun m => eq_refl) _). apply ru_bad.
Qed.
Lemma nil_user T id : SpecEnc.user T id -> runs (fun m => encode m T) None.
Proof.
  intros Hu.
  assert (H : runs (fun m => match ma_json _ _ _ U id, ma_text _ _ _ U id with
     | RValue, _ => jsonMarshalerEncoder F32 F64 C E U G32 G64 e32 e64 id | _, RValue => textMarshalerEncoder F32 F64 C E U G32 G64 e32 e64 id
     | _, _ => byKind F32 F64 C U id (encode m (ma_under _ _ _ U id)) end) None).
  { destruct (ma_json _ _ _ U id), (ma_text _ _ _ U id); try apply (ru_nullok (fun _ => _) (fun _ => _)); exact (nil_bare _ (under_bare id)). }
  destruct Hu as [-> | ->]; (refine (ru_S _ _ _ (fun m => eq_refl) _)); exact H.
Qed.
Lemma nil_runs T : (forall n, T = TRef n -> ma_dyn _ _ _ U n <> Some DText) -> runs (fun m => encode m T) None.
Proof.
  intros H. assert (D : bare T \/ (exists id, SpecEnc.user T id) \/ exists n, T = TRef n).
  { unfold SpecEnc.user. destruct T; simpl; eauto. }
  destruct D as [D|[(id & D)|(n & ->)]]; [now apply nil_bare|now apply nil_user with id|].
  destruct (ma_dyn _ _ _ U n) as [[]|] eqn:X.
  - apply (ru_S _ (fun m => dynamicJSONMarshalerEncoder F32 F64 C E U G32 G64)); [intros m; simpl; now rewrite X|]. apply (ru_nullok (fun _ => _) (fun _ => _)).
  - now apply (H n eq_refl) in X.
  - apply (ru_S _ (fun m => packedMarshalerEncoder F32 F64 C G32 G64)); [intros m; simpl; now rewrite X|]. apply (ru_nullok (fun _ => _) (fun _ => _)).
  - apply (ru_S _ (fun m => packedMarshalerEncoder F32 F64 C G32 G64)); [intros m; simpl; now rewrite X|]. apply (ru_nullok (fun _ => _) (fun _ => _)).
  - destruct (te_type _ _ _ E n) as [| | | | | | |id|id|t| | | | | | |k|] eqn:Y;
      try (apply (ru_S _ (fun m => encode m (te_type _ _ _ E n))); [intros m; simpl; now rewrite X, Y|]; rewrite Y;
           first [apply nil_bare; exact I|apply nil_user with id; (now left) || (now right)]).
    + apply (ru_S _ (fun m => pointerEncoder F32 F64 C G32 G64 (encode m t))); [intros m; simpl; now rewrite X, Y|]. apply ru_null.
    + exfalso. now apply (nk_ref _ _ _ _ _ NO n k).
Qed.

(** ** Keys *)
Lemma en_key k ke key s : newKeyEncoder F32 F64 C U G32 G64 k = Some ke -> typed_key k key ->
  (forall kd u id, k = KUser kd u (Some (id, KIface)) -> kd = KKString) -> exists s', ke key s = SOk s'.
Proof.
  intros H Ty Hz.
  assert (Q : forall b s1, is_bytes b -> exists s', putKey G32 G64 b s1 = SOk s').
  { intros b s1 Hb. unfold putKey. destruct (docall_ok (SString b) s1 Hb) as (s2 & ->). simpl. eauto. }
  assert (KT : forall id s1, exists s', putKeyText G32 G64 (ma_keyText _ _ _ U id key) s1 = SOk s').
  { intros id s1. destruct (ma_keyText _ _ _ U id key) as [b|e] eqn:X; simpl; eauto. apply Q. eapply (su_keys _ _ _ _ _ SU); eauto. }
  assert (KK : forall kd e, kindKeyEncoder G32 G64 kd = Some e ->
    match kd, key with KKString, KS s => is_bytes s | KKInt signed w, KI z => in_range signed w z | _, _ => False end -> exists s', e key s = SOk s').
  { intros [|sg w|] e He Hk; simpl in He; try discriminate; injection He as <-; destruct key as [str|z|z]; try contradiction.
    - apply docall_ok. exact Hk.
    - unfold ifNoError. destruct (sm_error s); [eauto|]. pose proof (range_int G32 G64 sg w z Hk) as R. destruct sg.
      + destruct (appendInt_numeral (toI w) z R) as (t & _ & A). rewrite A. apply docall_ok. exact I.
      + destruct (appendUint_numeral (toI w) z R) as (t & _ & A). rewrite A. apply docall_ok. exact I. }
  destruct k as [|sg w|kd u [[id sh]|]]; simpl in H.
  - now apply (KK KKString).
  - now apply (KK (KKInt sg w)).
  - destruct kd as [|sg w|]; [apply (KK KKString); auto; destruct sh; exact H| |];
      (destruct sh; [| | |now specialize (Hz _ _ _ eq_refl)]); injection H as <-; unfold textMarshalerKeyEncoder, directTextMarshalerKeyEncoder, ifNoError;
      destruct (sm_error s); eauto; destruct (ma_keyNil _ _ _ U id key); auto; apply Q; constructor.
  - destruct kd as [|sg w|]; [apply (KK KKString)|apply (KK (KKInt sg w))|discriminate]; auto.
Qed.

(** ** Emptiness *)
Definition tests (e : nat -> encoder) (x : gval) : Prop := exists n b, forall m, (n <= m)%nat -> en_isEmpty _ _ _ (e m) x = Some b.
Lemma ts_S (e : nat -> encoder) x b : (forall m, en_isEmpty _ _ _ (e (S m)) x = Some b) -> tests e x.
Proof. intros H. exists 1%nat, b. intros [|m] Hm; [lia|apply H]. Qed.
Ltac shape Ty := inversion Ty; subst; try (match goal with A : _ = TEface \/ _ = TIface |- _ => destruct A; discriminate end).
Lemma special_tests T p v : special T = Some p -> exists b, en_isEmpty _ _ _ p (VPtr v) = Some b.
Proof.
  unfold ModelEnc.special. destruct (userOf _ _ _ _ T) as [id|]; [|discriminate]. intros H.
  destruct (ma_json _ _ _ U id), (ma_text _ _ _ U id); try discriminate; injection H as <-; simpl; eauto.
Qed.
Lemma tests_bare T x : bare T -> typed T x -> tests (fun m => encode m T) x.
Proof.
  intros B Ty. destruct T as [| | | | | | |id|id|t|n t|t|k t|l fs| | |n|]; try contradiction B.
  - shape Ty. eapply ts_S. reflexivity.
  - shape Ty. eapply ts_S. reflexivity.
  - shape Ty. eapply ts_S. reflexivity.
  - shape Ty. eapply ts_S. reflexivity.
  - shape Ty. destruct s; eapply ts_S; reflexivity.
  - shape Ty. destruct s; eapply ts_S; reflexivity.
  - shape Ty; [|destruct s]; eapply ts_S; reflexivity.
  - assert (V : exists o, x = VPtr o) by (shape Ty; eauto). destruct V as (o & ->). destruct (special t) as [p|] eqn:X.
    + destruct (special_tests t p o X) as (b & Hb). apply ts_S with b. intros m. simpl. now rewrite X.
    + eapply ts_S. intros m. simpl. rewrite X. reflexivity.
  - destruct n; eapply ts_S; reflexivity.
  - assert (V : exists o, x = VSlice o) by (shape Ty; eauto). destruct V as (o & ->).
    eapply ts_S. intros m. simpl. destruct (under t) as [| [] []| | | | | | | | | | | | | | | |]; reflexivity.
  - assert (V : exists o, x = VMap o) by (shape Ty; eauto). destruct V as (o & ->). destruct (newKeyEncoder F32 F64 C U G32 G64 k) as [ke|] eqn:X;
      eapply ts_S; intros m; simpl; rewrite X; reflexivity.
  - destruct fs; eapply ts_S; reflexivity.
  - assert (V : exists o, x = VIface o) by (inversion Ty; subst; eauto). destruct V as (o & ->). eapply ts_S. reflexivity.
  - assert (V : exists o, x = VIface o) by (inversion Ty; subst; eauto). destruct V as (o & ->). eapply ts_S. reflexivity.
  - eapply ts_S. reflexivity.
Qed.
Lemma kind_tests id x : match under (ma_under _ _ _ U id) with
    | TBool | TInt _ _ | TFloat32 | TFloat64 | TArray _ _ | TMap _ _ | TSlice _ | TStruct _ _ => True | _ => False end ->
  exists b, callEmpty F32 F64 C E U G32 G64 e32 e64 id (VObj x) = Some b.
Proof.
  intros H. unfold callEmpty, isEmptyFunctions. pose proof (su_repr _ _ _ _ _ SU id x) as Ty. apply (typed_under F32 F64 C E) in Ty.
  destruct (under (ma_under _ _ _ U id)) as [| | | | | | | | | | | | | | | | |]; try contradiction; try (shape Ty; simpl; eauto; fail); eauto.
Qed.
Lemma user_inv T id x : SpecEnc.user (under T) id -> typed T x -> exists y, x = VObj y.
Proof. intros Hu Ty. apply (typed_under F32 F64 C E) in Ty. destruct Hu as [Hu|Hu]; rewrite Hu in Ty; shape Ty; eauto. Qed.
Lemma tests_user T id x : SpecEnc.user T id -> typed T x -> ~ untestable F32 F64 C E U T -> tests (fun m => preferPtrEncoder T (encode m T)) x.
Proof.
  intros Hu Ty HN. assert (Un : under T = T) by (destruct Hu as [-> | ->]; reflexivity). assert (Hu' := Hu). rewrite <- Un in Hu'.
  destruct (user_inv T id x Hu' Ty) as (y & ->).
  destruct (special T) as [p|] eqn:X.
  { destruct (special_tests T p (Some (VObj y)) X) as (b & Hb). exists O, b. intros m _. unfold ModelEnc.preferPtrEncoder. rewrite X. exact Hb. }
  assert (Hs : match ma_json _ _ _ U id, ma_text _ _ _ U id with RPtr, _ => False | RNone, RPtr => False | _, _ => True end).
  { unfold ModelEnc.special, userOf in X. destruct Hu as [-> | ->]; simpl in X; destruct (ma_json _ _ _ U id), (ma_text _ _ _ U id); auto; discriminate. }
  assert (Ht : uses_json F32 F64 C U false id \/ (~ uses_json F32 F64 C U true id /\ uses_text F32 F64 C U false id) ->
    exists b, callEmpty F32 F64 C E U G32 G64 e32 e64 id (VObj y) = Some b).
  { intros K. apply kind_tests. destruct (under (ma_under _ _ _ U id)) eqn:Y; auto; apply HN; right; exists id; rewrite Y; auto. }
  assert (R : forall m, exists e, encode (S m) T = e /\ e = match ma_json _ _ _ U id, ma_text _ _ _ U id with
     | RValue, _ => jsonMarshalerEncoder F32 F64 C E U G32 G64 e32 e64 id | _, RValue => textMarshalerEncoder F32 F64 C E U G32 G64 e32 e64 id
     | _, _ => byKind F32 F64 C U id (encode m (ma_under _ _ _ U id)) end).
  { intros m. destruct Hu as [-> | ->]; eexists; split; reflexivity. }
  assert (Q : forall m, preferPtrEncoder T (encode m T) = encode m T) by (intros m; unfold ModelEnc.preferPtrEncoder; now rewrite X).
  assert (N1 : forall r a, SpecEnc.has r a -> (r = RNone -> False)) by (intros r a [->|[-> _]] K; discriminate).
  destruct (ma_json _ _ _ U id) eqn:J; [destruct (ma_text _ _ _ U id) eqn:X2| |]; try contradiction.
  - destruct (tests_bare (ma_under _ _ _ U id) (ma_repr _ _ _ U id y) (under_bare id) (su_repr _ _ _ _ _ SU id y)) as (n & b & K). exists (S n), b. intros [|m] Hm; [lia|].
    rewrite Q. destruct (R m) as (e & -> & ->). simpl. apply K. lia.
  - destruct Ht as (b & Hb).
    { right. unfold SpecEnc.uses_json, SpecEnc.uses_text, SpecEnc.uses_json, SpecEnc.has. rewrite J, X2.
      split; [intros [?|[? _]]; discriminate|]. split; [intros [?|[? _]]; discriminate|]. now left. }
    apply ts_S with b. intros m. rewrite Q. destruct (R m) as (e & -> & ->). exact Hb.
  - destruct Ht as (b & Hb); [left; left; exact J|].
    apply ts_S with b. intros m. rewrite Q. destruct (R m) as (e & -> & ->). exact Hb.
Qed.
Lemma special_under T : special T = special (under T).
Proof.
  destruct T; try reflexivity. unfold ModelEnc.special, userOf. simpl. destruct (te_type _ _ _ E n) eqn:X; auto. exfalso. now apply (nk_ref _ _ _ _ _ NO n n0).
Qed.
Lemma special_bare T : bare T -> special T = None.
Proof. destruct T; simpl; intros B; try contradiction; reflexivity. Qed.
Lemma kinds T : bare T \/ (exists id, SpecEnc.user T id) \/ exists n, T = TRef n.
Proof. unfold SpecEnc.user. destruct T; simpl; eauto. Qed.
Lemma tests_field T x : typed T x -> ~ untestable F32 F64 C E U T -> tests (fun m => preferPtrEncoder T (encode m T)) x.
Proof.
  intros Ty HN. destruct (kinds T) as [B|[(id & Hu)|(n & ->)]].
  - destruct (tests_bare T x B Ty) as (n & b & H). exists n, b. intros m Hm. unfold ModelEnc.preferPtrEncoder. rewrite special_bare by auto. auto.
  - now apply tests_user with id.
  - assert (Ty2 : typed (te_type _ _ _ E n) x) by (apply (typed_under F32 F64 C E) in Ty; exact Ty).
    destruct (ma_dyn _ _ _ U n) as [dy|] eqn:D.
    + assert (Y := nk_dyn _ _ _ _ _ NO n ltac:(congruence)). rewrite Y in Ty2. assert (V : exists o, x = VIface o) by (inversion Ty2; subst; eauto).
      destruct V as (o & ->). eapply ts_S. intros m. unfold ModelEnc.preferPtrEncoder. rewrite special_under. simpl under. rewrite Y. simpl. rewrite D.
      destruct dy; try reflexivity; exfalso; apply HN; left; first [apply pk_json; exact D|apply pk_text; exact D].
    + assert (HN2 : ~ untestable F32 F64 C E U (te_type _ _ _ E n)).
      { intros [K|(id & K & K2)]; [inversion K as [k Hk|k Hk]; now apply (nk_ref _ _ _ _ _ NO n k)|]. apply HN. right. exists id. split; auto. simpl.
        destruct (te_type _ _ _ E n) eqn:Y; auto. exfalso. now apply (nk_ref _ _ _ _ _ NO n n0). }
      assert (Q : tests (fun m => preferPtrEncoder (te_type _ _ _ E n) (encode m (te_type _ _ _ E n))) x).
      { destruct (kinds (te_type _ _ _ E n)) as [B|[(id & Hu)|(k & K)]]; [|now apply tests_user with id|now apply (nk_ref _ _ _ _ _ NO n k) in K].
        destruct (tests_bare _ x B Ty2) as (k & b & H). exists k, b. intros m Hm. unfold ModelEnc.preferPtrEncoder. rewrite special_bare by auto. auto. }
      destruct (te_type _ _ _ E n) as [| | | | | | | | |t| | | | | | |k|] eqn:Y; try (exfalso; exact (nk_ref _ _ _ _ _ NO n k Y)); try (destruct Q as (k0 & b & Q); exists (S k0), b; intros [|m] Hm; [lia|];
        specialize (Q m ltac:(lia)); unfold ModelEnc.preferPtrEncoder in *; rewrite special_under; simpl under; rewrite Y; simpl encode; rewrite D, Y; exact Q).
      assert (V : exists o, x = VPtr o) by (shape Ty2; eauto). destruct V as (o & ->). eapply ts_S. intros m.
      unfold ModelEnc.preferPtrEncoder. rewrite special_under. simpl under. rewrite Y. simpl. rewrite D, Y. reflexivity.
Qed.

(** ** All values *)
Notation storedNil := (storedNil F32 F64 C E U).
Definition snil (T : ty) (v : gval) : Prop := exists n b, forall m, (n <= m)%nat -> storedNil m T v = Some b.
Definition pref (a : bool) (T : ty) (m : nat) : encoder := if a then preferPtrEncoder T (encode m T) else encode m T.
Definition taken (y : cu_state C) : Prop := forall id, snil (ma_under _ _ _ U id) (ma_repr _ _ _ U id y) /\
  (~ hazard false (ma_under _ _ _ U id) (ma_repr _ _ _ U id y) -> runs (fun m => encode m (ma_under _ _ _ U id)) (Some (ma_repr _ _ _ U id y))).
Definition good (v : gval) : Prop := forall y, within v y -> taken y.
Lemma sn_S T T' v v' : (forall m, storedNil (S m) T v = storedNil m T' v') -> snil T' v' -> snil T v.
Proof. intros H (n & b & K). exists (S n), b. intros [|m] Hm; [lia|]. rewrite H. apply K. lia. Qed.
Lemma sn_now T v b : (forall m, storedNil (S m) T v = Some b) -> snil T v.
Proof. intros H. exists 1%nat, b. intros [|m] Hm; [lia|apply H]. Qed.
Lemma sn_step v : (forall v', (vsize v' < vsize v)%nat -> good v' -> forall T, snil T v') -> good v -> forall T, snil T v.
Proof.
  intros IH G. assert (B : forall T, (forall n, T <> TRef n) -> snil T v).
  { intros T NR. destruct T as [| | | | | | |id|id|t|n t|t|k t|l fs| | |n|]; try (eapply sn_now; reflexivity).
    - destruct v as [| | | | | |y| | | | | |] eqn:V; try (eapply sn_now; reflexivity). eapply sn_S; [reflexivity|]. destruct (G y (wi_obj _ _ _ _) id). auto.
    - destruct v as [| | | | | |y| | | | | |] eqn:V; try (eapply sn_now; reflexivity). eapply sn_S; [reflexivity|]. destruct (G y (wi_obj _ _ _ _) id). auto.
    - destruct v as [| | | | | | |[x|]| | | | |]; eapply sn_now; reflexivity.
    - destruct n as [|[|n]]; try (destruct v; eapply sn_now; reflexivity). destruct v as [| | | | | | | |[|x [|z l]]| | | |] eqn:V; try (eapply sn_now; reflexivity).
      eapply sn_S; [reflexivity|]. apply IH; [simpl; lia|]. intros y Hy. apply G. eapply wi_array; eauto. now left.
    - destruct v as [| | | | | | | | | |[x|]| |]; eapply sn_now; reflexivity.
    - destruct l as [|t [|t2 l]]; try (destruct v; eapply sn_now; reflexivity). destruct v as [| | | | | | | | | | |[|x [|z l]]|] eqn:V; try (eapply sn_now; reflexivity).
      eapply sn_S; [reflexivity|]. apply IH; [simpl; lia|]. intros y Hy. apply G. eapply wi_struct; eauto. now left.
    - now destruct (NR n). }
  intros T. destruct T as [| | | | | | | | | | | | | | | |n|]; try (apply B; discriminate). eapply sn_S; [intros m; destruct v; reflexivity|].
  apply B. apply (nk_ref _ _ _ _ _ NO).
Qed.
Lemma sn_all n : forall v, (vsize v < n)%nat -> good v -> forall T, snil T v.
Proof. induction n as [|n IH]; intros v L G; [lia|]. apply sn_step; auto. intros v' L'. apply IH. lia. Qed.
Lemma all_map {A B} (f : B -> stm -> sres) (g : A -> B) l s : encodeAll f (map g l) s = encodeAll (fun x => f (g x)) l s.
Proof. revert s. induction l as [|x l IH]; intros s; [reflexivity|]. simpl. destruct (f (g x) s) as [s1| |]; auto. simpl. destruct (sm_error s1); auto. Qed.
Lemma en_list e l : (forall x, In x l -> runs e (Some x)) ->
  forall s, ends (fun m s => docall SArrayStart s >>> encodeAll (fun x => en_Encode _ _ _ (e m) (Some x) false) l >>> docall SArrayEnd) s.
Proof.
  intros H s. apply (en_bind (fun m s => docall SArrayStart s >>> encodeAll (fun x => en_Encode _ _ _ (e m) (Some x) false) l)); [|intros; apply en_call; exact I].
  apply (en_bind (fun _ => docall SArrayStart)); [apply en_call; exact I|]. intros s1. apply en_all. intros x s2 Hx. now apply H.
Qed.
Lemma pref_plain a T m : special T = None -> pref a T m = encode m T.
Proof. intros X. unfold pref, ModelEnc.preferPtrEncoder. rewrite X. now destruct a. Qed.
Lemma special_user T p : special T = Some p -> exists id, SpecEnc.user (under T) id /\
  (p = pointerJSONMarshalerEncoder F32 F64 C U G32 G64 id \/ p = pointerTextMarshalerEncoder F32 F64 C U G32 G64 id).
Proof.
  unfold ModelEnc.special, userOf, SpecEnc.user. destruct (under T) as [| | | | | | |id|id| | | | | | | | |]; try discriminate; intros H; exists id; (split; [auto|]);
    destruct (ma_json _ _ _ U id), (ma_text _ _ _ U id); try discriminate; injection H as <-; auto.
Qed.
Lemma special_runs T p v : special T = Some p -> typed T v -> runs (fun _ => p) (Some (VPtr (Some v))).
Proof.
  intros H Ty. destruct (special_user T p H) as (id & Hu & K). destruct (user_inv T id v Hu Ty) as (y & ->).
  destruct K as [-> | ->]; intros q s.
  - apply (en_ok (fun _ => putJSON G32 G64 (ma_MarshalJSON _ _ _ U id y))). apply en_json.
  - apply (en_ok (fun _ => putText G32 G64 (ma_MarshalText _ _ _ U id y))). apply en_text. intros t. apply (su_text _ _ _ _ _ SU).
Qed.
Lemma ru_ext (e e' : nat -> encoder) ptr : (forall m, e m = e' m) -> runs e' ptr -> runs e ptr.
Proof. intros H K q s. apply (en_ext _ (fun m => en_Encode _ _ _ (e' m) ptr q)); [intros m; now rewrite H|apply K]. Qed.

Lemma run_user a T id y : SpecEnc.user T id -> taken y -> ~ hazard a T (VObj y) -> runs (pref a T) (Some (VObj y)).
Proof.
  intros Hu Tk HN.
  assert (Sp : special T = match ma_json _ _ _ U id, ma_text _ _ _ U id with RPtr, _ => Some (pointerJSONMarshalerEncoder F32 F64 C U G32 G64 id)
     | RNone, RPtr => Some (pointerTextMarshalerEncoder F32 F64 C U G32 G64 id) | _, _ => None end) by (destruct Hu as [-> | ->]; reflexivity).
  assert (Ty : typed T (VObj y)) by (destruct Hu as [-> | ->]; constructor).
  destruct (special T) as [p|] eqn:X; [destruct a|].
  - apply (ru_ext _ (fun _ => directEncoder F32 F64 C p)); [intros m; unfold pref, ModelEnc.preferPtrEncoder; now rewrite X|].
    intros q s. apply (special_runs T p (VObj y) X Ty).
  - unfold pref. eapply ru_S with (e' := fun m => match ma_json _ _ _ U id, ma_text _ _ _ U id with
     | RValue, _ => jsonMarshalerEncoder F32 F64 C E U G32 G64 e32 e64 id | _, RValue => textMarshalerEncoder F32 F64 C E U G32 G64 e32 e64 id
     | _, _ => byKind F32 F64 C U id (encode m (ma_under _ _ _ U id)) end); [intros m; destruct Hu as [-> | ->]; reflexivity|].
    assert (K : ma_json _ _ _ U id <> RValue -> ma_text _ _ _ U id <> RValue -> runs (fun m => byKind F32 F64 C U id (encode m (ma_under _ _ _ U id))) (Some (VObj y))).
    { intros A1 A2. intros q s. apply (proj2 (Tk id)). intros Hz. apply HN. apply hz_user with id; auto.
      - intros [K|[_ K]]; [auto|discriminate].
      - intros [_ [K|[_ K]]]; [auto|discriminate]. }
    destruct (ma_json _ _ _ U id) eqn:J, (ma_text _ _ _ U id) eqn:X2; try discriminate; try (apply K; discriminate); clear K.
    intros q s. apply (en_ok (fun _ => putText G32 G64 (ma_MarshalText _ _ _ U id y))). apply en_text. intros t. apply (su_text _ _ _ _ _ SU).
  - apply (ru_ext _ (fun m => encode m T)); [intros m; now apply pref_plain|].
    eapply ru_S with (e' := fun m => match ma_json _ _ _ U id, ma_text _ _ _ U id with
     | RValue, _ => jsonMarshalerEncoder F32 F64 C E U G32 G64 e32 e64 id | _, RValue => textMarshalerEncoder F32 F64 C E U G32 G64 e32 e64 id
     | _, _ => byKind F32 F64 C U id (encode m (ma_under _ _ _ U id)) end); [intros m; destruct Hu as [-> | ->]; reflexivity|].
    destruct (ma_json _ _ _ U id) eqn:J; [destruct (ma_text _ _ _ U id) eqn:X2| |]; try discriminate.
    + intros q s. apply (proj2 (Tk id)). intros Hz. apply HN. apply hz_user with id; auto; unfold SpecEnc.uses_json, SpecEnc.uses_text, SpecEnc.has; rewrite ?J, ?X2.
      * intros [K|[K _]]; discriminate.
      * intros [_ [K|[K _]]]; discriminate.
    + intros q s. apply (en_ok (fun _ => putText G32 G64 (ma_MarshalText _ _ _ U id y))). apply en_text. intros t. apply (su_text _ _ _ _ _ SU).
    + intros q s. apply (en_ok (fun _ => putJSON G32 G64 (ma_MarshalJSON _ _ _ U id y))). apply en_json.
Qed.

Lemma methodCall_none m0 (mm : nat -> cu_state C -> bytes + serr) T v : methodCall F32 F64 C E m0 mm T v = None -> forall id x, ~ method F32 F64 C E m0 T v id x.
Proof.
  intros H id x K. unfold methodCall, userOf in H. destruct K as [T id x Hu Hm|T id x Hu Hm].
  - destruct Hu as [Hu|Hu]; rewrite Hu, Hm in H; discriminate.
  - simpl in H. destruct Hu as [Hu|Hu]; rewrite Hu in H; destruct (m0 id); try discriminate; congruence.
Qed.
Lemma methodCall_some m0 (mm : nat -> cu_state C -> bytes + serr) T v r : methodCall F32 F64 C E m0 mm T v = Some r -> exists id x, r = mm id x.
Proof.
  unfold methodCall, userOf. intros H.
  repeat match goal with K : context [match ?x with _ => _ end] |- _ => destruct x; try discriminate end; injection H as <-; eauto.
Qed.

Lemma run_value v T q s : snil T v -> runs (fun m => encode m T) (Some v) ->
  ends (fun m => encValue F32 F64 C E U G32 G64 m (encode m) (Some (T, v)) q) s.
Proof.
  intros (n & b & Sn) R. unfold encValue.
  apply (en_ok (fun m s => match (if isEmptyStruct F32 F64 C E U T then storedNil m T v else Some false) with
     | None => SBad | Some true => en_Encode _ _ _ (encode m T) None q s | Some false => en_Encode _ _ _ (encode m T) (Some v) q s end)).
  destruct (isEmptyStruct F32 F64 C E U T) eqn:X; [|apply R]. destruct b.
  - assert (ND : forall n, T = TRef n -> ma_dyn _ _ _ U n <> Some DText).
    { intros k -> D. unfold isEmptyStruct in X. simpl in X. rewrite (nk_dyn _ _ _ _ _ NO k ltac:(congruence)) in X. discriminate. }
    destruct (nil_runs T ND q s) as (n2 & s' & K). exists (Nat.max n n2), s'. intros m Hm. rewrite Sn by lia. apply K. lia.
  - destruct (R q s) as (n2 & s' & K). exists (Nat.max n n2), s'. intros m Hm. rewrite Sn by lia. apply K. lia.
Qed.
Lemma run_iface v (G : good v) (IH : forall v', (vsize v' < vsize v)%nat -> good v' -> forall T a, sound T -> typed T v' -> ~ hazard a T v' -> runs (pref a T) (Some v')) T :
  T = TEface \/ T = TIface -> typed T v -> ~ hazard false T v -> runs (fun m => interfaceEncoder F32 F64 C E U G32 G64 m (encode m)) (Some v).
Proof.
  intros HT Ty HN q s. assert (V : v = VIface None \/ exists T' x, v = VIface (Some (T', x)) /\ sound T' /\ typed T' x).
  { destruct HT as [-> | ->]; inversion Ty; subst; eauto 6. }
  destruct V as [->|(T' & x & -> & HS & Tx)].
  - cbn [en_Encode interfaceEncoder orNull]. unfold encValue. apply (en_ok (fun _ s => docall SNull s)). apply en_call. exact I.
  - cbn [en_Encode interfaceEncoder orNull]. assert (Gx : good x) by (intros y Hy; apply G; now apply wi_iface).
    assert (HNx : ~ hazard false T' x) by (intros K; apply HN; now apply hz_iface).
    apply run_value; auto.
    + apply (sn_all (S (vsize x))); [lia|exact Gx].
    + exact (IH x ltac:(simpl; lia) Gx T' false HS Tx HNx).
Qed.
Lemma run_string str : is_bytes str -> runs (fun _ => stringEncoder F32 F64 C G32 G64 cfgHTML) (Some (VStr str)).
Proof.
  intros Hb q s. destruct q; [|now apply en_call].
  destruct (docall_ok (SString str) (newStm cfgHTML) Hb) as (sub & Hs).
  assert (K : exists s', match sm_error sub with Some e => SOk (set_error (Some e) s) | None => docall (SString (sm_buffer sub)) s end = SOk s').
  { destruct (sm_error sub) as [e|]; [eauto|]. apply docall_ok. destruct (string_grows G32 G64 S32 S64 str _ _ Hb Hs) as (out & X1 & (rs & X2 & X3) & _).
    simpl. rewrite X1, X2. simpl. clear - X3. induction X3 as [|r rs (Hr & _) X3 IH]; [constructor|]. simpl. apply Forall_app. split; auto. now apply utf8_bytes. }
  destruct K as (s' & K). exists O, s'. intros m _. rewrite <- K.
  transitivity (docall (SString str) (newStm cfgHTML) >>> fun sub => match sm_error sub with Some e => SOk (set_error (Some e) s) | None => docall (SString (sm_buffer sub)) s end);
    [reflexivity|]. now rewrite Hs.
Qed.
Lemma run_bare v (G : good v) (IH : forall v', (vsize v' < vsize v)%nat -> good v' -> forall T a, sound T -> typed T v' -> ~ hazard a T v' -> runs (pref a T) (Some v')) T :
  bare T -> sound T -> typed T v -> ~ hazard false T v -> runs (fun m => encode m T) (Some v).
Proof.
  intros B HS Ty HN. destruct T as [|sg w| | | | | |id|id|t|n t|t|k t|lay fs| | |n|]; try contradiction B.
  - shape Ty. refine (ru_S _ _ _ (fun m => eq_refl) _). intros q s. destruct q; [destruct b|]; apply en_call; try exact I; apply bytes_dec; reflexivity.
  - shape Ty. refine (ru_S _ _ _ (fun m => eq_refl) _). intros q s. apply en_call. match goal with K : in_range _ _ _ |- _ => pose proof (range_int G32 G64 _ _ _ K) as R end. destruct sg, q; exact R.
  - shape Ty. refine (ru_S _ _ _ (fun m => eq_refl) _). intros q s. apply en_call. exact I.
  - shape Ty. refine (ru_S _ _ _ (fun m => eq_refl) _). intros q s. apply en_call. exact I.
  - inversion Ty as [| | | |str Hb| | | | | | | | | | | | | |? A|? ? ? A| |]; subst; try (destruct A; discriminate).
    refine (ru_S _ _ _ (fun m => eq_refl) _). now apply run_string.
  - shape Ty. refine (ru_S _ _ _ (fun m => eq_refl) _). intros q st. apply en_call. exact I.
  - assert (V : exists o, v = VRaw o) by (shape Ty; eauto). destruct V as (o & ->). refine (ru_S _ _ _ (fun m => eq_refl) _). intros q s. apply en_call. exact I.
  - assert (HSt : sound t) by (inversion HS as [? K| | | | |]; subst; [destruct K|auto]).
    inversion Ty as [| | | | | | | | | | |? x Tx| | | | | | |? A|? ? ? A| |]; subst; try (destruct A; discriminate).
    + destruct (special t) as [p|] eqn:X.
      * apply (ru_S _ (fun _ => p)); [intros m; simpl; now rewrite X|]. now apply special_null in X.
      * apply (ru_S _ (fun m => pointerEncoder F32 F64 C G32 G64 (encode m t))); [intros m; simpl; now rewrite X|].
        intros q s. apply nil_runs. intros n -> D. apply HN. now apply hz_nil.
    + destruct (special t) as [p|] eqn:X.
      * apply (ru_S _ (fun _ => p)); [intros m; simpl; now rewrite X|]. now apply (special_runs t).
      * apply (ru_S _ (fun m => pointerEncoder F32 F64 C G32 G64 (encode m t))); [intros m; simpl; now rewrite X|].
        intros q s. assert (R : runs (pref true t) (Some x)).
        { apply IH; auto; [intros y Hy; apply G; now apply wi_ptr|]. intros K. apply HN. now apply hz_ptr. }
        apply (en_ext _ (fun m => en_Encode _ _ _ (pref true t m) (Some x) q)); [|apply R]. intros m. now rewrite pref_plain.
  - assert (HSt : sound t) by (inversion HS as [? K| | | | |]; subst; [destruct K|auto]). destruct n as [|n].
    + refine (ru_S _ _ _ (fun m => eq_refl) _). intros q s. apply en_call. exact I.
    + assert (V : exists l, v = VArr l /\ Forall (typed t) l) by (shape Ty; eauto). destruct V as (l & -> & Hl).
      apply (ru_S _ (fun m => arrayEncoder F32 F64 C G32 G64 (pref true t m))); [reflexivity|]. intros q s. apply (en_list (pref true t)). intros x Hx. rewrite Forall_forall in Hl.
      pose proof (size_list l x Hx). apply IH; auto; [simpl; lia|intros y Hy; apply G; eapply wi_array; eauto|]. intros K. apply HN. eapply hz_array; eauto.
  - assert (HSt : sound t) by (inversion HS as [? K| | | | |]; subst; [destruct K|auto]).
    assert (V : v = VSlice None \/ exists l, v = VSlice (Some l) /\ Forall (typed t) l) by (shape Ty; eauto).
    assert (Dec : under t = TInt false W8 \/ forall m, encode (S m) (TSlice t) = sliceEncoder F32 F64 C G32 G64 (pref true t m)).
    { simpl. destruct (under t) as [| [] []| | | | | | | | | | | | | | | |]; auto. }
    destruct Dec as [D|D].
    + apply (ru_S _ (fun m => base64Encoder F32 F64 C G32 G64)); [intros m; simpl; now rewrite D|]. intros q s.
      destruct V as [->|(l & -> & Hl)]; [apply (en_ok (fun _ s => docall SNull s)); apply en_call; exact I|].
      assert (Bs : exists b, bytesOf F32 F64 C l = Some b).
      { clear - Hl D. induction Hl as [|x l Hx Hl IHl]; [simpl; eauto|]. destruct IHl as (b & Hb). apply (typed_under F32 F64 C E) in Hx. rewrite D in Hx.
        shape Hx. simpl. rewrite Hb. eauto. }
      destruct Bs as (src & Hb).
      apply (en_ok (fun _ s => match bytesOf F32 F64 C l with None => SBad
         | Some src => SOk (ModelStream.put [34] (ModelStream.put (match src with [] => [] | _ => b64encode src end) (ModelStream.put [34] (onVal s)))) end)).
      eexists O, _. intros m _. rewrite Hb. reflexivity.
    + apply (ru_S _ (fun m => sliceEncoder F32 F64 C G32 G64 (pref true t m))); [exact D|]. intros q s.
      destruct V as [->|(l & -> & Hl)]; [apply (en_ok (fun _ s => docall SNull s)); apply en_call; exact I|].
      destruct l as [|x0 l0]; [apply (en_ok (fun _ s => docall (SRaw (bs "[]")) s)); apply en_call; exact I|].
      apply (en_ok (fun m s => docall SArrayStart s >>> encodeAll (fun x => en_Encode _ _ _ (pref true t m) (Some x) false) (x0 :: l0) >>> docall SArrayEnd)).
      apply en_list. intros x Hx. rewrite Forall_forall in Hl. pose proof (size_list (x0 :: l0) x Hx) as L.
      apply IH; auto; [apply Nat.lt_succ_r; exact L|intros y Hy; apply G; eapply wi_slice; eauto|]. intros K. apply HN. eapply hz_slice; eauto.
  - assert (HSt : sound t) by (inversion HS as [? K| | | | |]; subst; [destruct K|auto]).
    assert (V : v = VMap None \/ exists m, v = VMap (Some m) /\ Forall (typed_key k) (map fst m) /\ Forall (typed t) (map snd m)) by (shape Ty; eauto).
    destruct (newKeyEncoder F32 F64 C U G32 G64 k) as [ke|] eqn:X.
    2:{ apply (ru_S _ (fun m => notSupportedEncoder F32 F64 C G32 G64)); [intros m; simpl; now rewrite X|]. apply ru_bad. }
    apply (ru_S _ (fun m => mapEncoder F32 F64 C G32 G64 ke (encode m t))); [intros m; simpl; now rewrite X|]. intros q s.
    destruct V as [->|(mp & -> & Hk & Hv)]; [apply (en_ok (fun _ s => docall SNull s)); apply en_call; exact I|].
    apply (en_ok (fun m s => docall SObjectStart s >>>
         encodeAll (fun p s => ke (fst p) s >>> fun s' =>
                      match sm_error s' with Some _ => SOk s' | None => en_Encode _ _ _ (encode m t) (Some (snd p)) false s' end) mp >>>
         docall SObjectEnd)).
    apply (en_bind (fun m s => docall SObjectStart s >>>
         encodeAll (fun p s => ke (fst p) s >>> fun s' =>
                      match sm_error s' with Some _ => SOk s' | None => en_Encode _ _ _ (encode m t) (Some (snd p)) false s' end) mp)); [|intros; apply en_call; exact I].
    apply (en_bind (fun _ => docall SObjectStart)); [apply en_call; exact I|]. intros s1.
    apply (en_all (fun m p s => ke (fst p) s >>> fun s' =>
                      match sm_error s' with Some _ => SOk s' | None => en_Encode _ _ _ (encode m t) (Some (snd p)) false s' end)).
    intros [key x] s2 Hp. rewrite Forall_forall in Hk, Hv.
    apply (en_bind (fun _ => ke key)).
    + destruct (en_key k ke key s2 X) as (s3 & K3).
      * apply Hk. apply in_map_iff. exists (key, x). auto.
      * intros kd u id ->. destruct kd as [| |]; auto; exfalso; apply HN; apply hz_key; try discriminate; intros ->; destruct Hp.
      * now apply en_const with s3.
    + intros s3. apply (en_ok (fun m => en_Encode _ _ _ (encode m t) (Some x) false)). pose proof (size_map mp key x Hp).
      apply (IH x ltac:(cbn [vsize]; lia)) with (a := false) (T := t); auto.
      * intros y Hy. apply G. eapply wi_map; eauto.
      * apply Hv. apply in_map_iff. exists (key, x). auto.
      * intros K. apply HN. eapply hz_map; eauto.
  - destruct fs as [|fd0 fs0]; [refine (ru_S _ _ _ (fun m => eq_refl) _); intros q s; apply en_call; exact I|].
    set (fs := fd0 :: fs0) in *.
    apply (ru_S _ (fun m => structEncoder F32 F64 C G32 G64 (map (fun fd => addField F32 F64 C fd (pref true (f_type fd) m)) fs))); [reflexivity|].
    intros q s.
    apply (en_ok (fun m s => docall SObjectStart s >>> encodeAll (encodeField F32 F64 C G32 G64 v) (map (fun fd => addField F32 F64 C fd (pref true (f_type fd) m)) fs) >>> docall SObjectEnd)).
    apply (en_bind (fun m s => docall SObjectStart s >>> encodeAll (encodeField F32 F64 C G32 G64 v) (map (fun fd => addField F32 F64 C fd (pref true (f_type fd) m)) fs)));
      [|intros; apply en_call; exact I].
    apply (en_bind (fun _ => docall SObjectStart)); [apply en_call; exact I|]. intros s1.
    apply (en_ext _ (fun m => encodeAll (fun fd => encodeField F32 F64 C G32 G64 v (addField F32 F64 C fd (pref true (f_type fd) m))) fs)); [intros m; apply all_map|].
    apply (en_all (fun m fd => encodeField F32 F64 C G32 G64 v (addField F32 F64 C fd (pref true (f_type fd) m)))). intros fd s2 Hf.
    destruct (path_some lay fs fd HS Hf) as (P & Bn & R). destruct (route_reach _ _ _ R v Ty) as (o & Ho). unfold encodeField.
    destruct o as [x|]; [|exists O, s2; intros m _; cbn [ModelEnc.ef_path addField]; now rewrite Ho].
    destruct (route_typed F32 F64 C E _ _ _ R v x Ty Ho) as (Tx & Lx). destruct (size_leads _ _ _ Lx) as (_ & Lt & Wi).
    assert (Rx : runs (pref true (f_type fd)) (Some x)).
    { apply IH; auto; [intros y Hy; apply G; auto|apply (route_sound F32 F64 C E SE _ _ _ R HS)|]. intros K. apply HN. eapply hz_struct; eauto. }
    assert (Te : exists n b, forall m, (n <= m)%nat -> (if f_omitEmpty fd then en_isEmpty _ _ _ (pref true (f_type fd) m) x else Some false) = Some b).
    { destruct (f_omitEmpty fd) eqn:Om; [|exists O, false; auto]. apply tests_field; auto. intros K. apply HN. eapply hz_omit; eauto. }
    destruct Te as (n & b & Te). destruct b.
    { exists n, s2. intros m Hm. cbn [ModelEnc.ef_path ModelEnc.ef_omit ModelEnc.ef_enc addField]. rewrite Ho, Te by auto. reflexivity. }
    assert (Nm : forall h, exists name, encodeString [] (f_name fd) h = Some name).
    { intros h. destruct (encodeString_eff (f_name fd) h Bn) as (body & H & _). rewrite H. eauto. }
    destruct (Nm false) as (n1 & N1). destruct (Nm true) as (n2 & N2).
    destruct (docall_ok (SRawField (if sm_html s2 then n2 else n1)) s2 I) as (s3 & K3). destruct (Rx (f_quoted fd) s3) as (k & s4 & K4).
    exists (Nat.max n k), s4. intros m Hm. cbn [ModelEnc.ef_path ModelEnc.ef_omit ModelEnc.ef_enc ModelEnc.ef_raw ModelEnc.ef_safe ModelEnc.ef_quoted addField]. rewrite Ho, Te, N1, N2 by lia.
    destruct (sm_html s2); rewrite K3; simpl; apply K4; lia.
  - refine (ru_S _ _ _ (fun m => eq_refl) _). apply (run_iface v G IH TEface); auto.
  - refine (ru_S _ _ _ (fun m => eq_refl) _). apply (run_iface v G IH TIface); auto.
  - refine (ru_S _ _ _ (fun m => eq_refl) _). apply ru_bad.
Qed.
Lemma hz_addr a T v : bare T -> hazard false T v -> hazard a T v.
Proof.
  intros B H. inversion H; subst; try contradiction B.
  - now apply hz_packed.
  - now apply hz_nil.
  - now apply hz_key.
  - eapply hz_omit; eauto.
  - match goal with K : SpecEnc.user _ _ |- _ => destruct K as [-> | ->]; contradiction B end.
  - now apply hz_ptr.
  - eapply hz_array; eauto.
  - eapply hz_slice; eauto.
  - eapply hz_map; eauto.
  - eapply hz_struct; eauto.
  - now apply hz_iface.
Qed.
Lemma run_ref v (G : good v) (IH : forall v', (vsize v' < vsize v)%nat -> good v' -> forall T a, sound T -> typed T v' -> ~ hazard a T v' -> runs (pref a T) (Some v')) n a :
  typed (TRef n) v -> ~ hazard a (TRef n) v -> runs (pref a (TRef n)) (Some v).
Proof.
  intros Ty HN. assert (Ty2 : typed (te_type _ _ _ E n) v) by (apply (typed_under F32 F64 C E) in Ty; exact Ty).
  destruct (ma_dyn _ _ _ U n) as [dy|] eqn:D.
  - assert (Y := nk_dyn _ _ _ _ _ NO n ltac:(congruence)). rewrite Y in Ty2.
    assert (X : special (TRef n) = None) by (rewrite special_under; simpl; now rewrite Y).
    apply (ru_ext _ (fun m => encode m (TRef n))); [intros m; now apply pref_plain|].
    assert (V : v = VIface None \/ exists T' x, v = VIface (Some (T', x))) by (inversion Ty2; subst; eauto).
    destruct dy.
    + apply (ru_S _ (fun m => dynamicJSONMarshalerEncoder F32 F64 C E U G32 G64)); [intros m; simpl; now rewrite D|]. intros q s.
      destruct V as [->|(T' & x & ->)].
      * apply (en_ok (fun _ => docall SNull)). apply en_call. exact I.
      * destruct (methodCall F32 F64 C E (ma_json _ _ _ U) (ma_MarshalJSON _ _ _ U) T' x) as [r|] eqn:M.
        -- apply (en_ext _ (fun _ => ifNoError (putJSON G32 G64 r))); [intros m; unfold dynamicJSONMarshalerEncoder, ifNoError, orNull; cbn [en_Encode]; now rewrite M|].
           apply (en_ok (fun _ => putJSON G32 G64 r)). apply en_json.
        -- exfalso. apply HN. apply hz_json; auto. eapply methodCall_none; eauto.
    + apply (ru_S _ (fun m => dynamicTextMarshalerEncoder F32 F64 C E U G32 G64)); [intros m; simpl; now rewrite D|]. intros q s.
      destruct V as [->|(T' & x & ->)].
      * apply (en_ok (fun _ => docall SNull)). apply en_call. exact I.
      * destruct (methodCall F32 F64 C E (ma_text _ _ _ U) (ma_MarshalText _ _ _ U) T' x) as [r|] eqn:M.
        -- apply (en_ext _ (fun _ => ifNoError (putText G32 G64 r))); [intros m; unfold dynamicTextMarshalerEncoder, ifNoError, orNull; cbn [en_Encode]; now rewrite M|].
           apply (en_ok (fun _ => putText G32 G64 r)). apply en_text. intros t ->. apply methodCall_some in M. destruct M as (id & y & M). symmetry in M.
           eapply (su_text _ _ _ _ _ SU); eauto.
        -- exfalso. apply HN. apply hz_text; auto. eapply methodCall_none; eauto.
    + exfalso. apply HN. apply hz_packed. now apply pk_json.
    + exfalso. apply HN. apply hz_packed. now apply pk_text.
  - assert (HS : sound (te_type _ _ _ E n)) by apply SE.
    assert (Pt : (exists t, te_type _ _ _ E n = TPtr t) \/ forall m, pref a (TRef n) (S m) = pref a (te_type _ _ _ E n) m).
    { destruct (te_type _ _ _ E n) as [| | | | | | | | |t| | | | | | |k|] eqn:Y; try (exfalso; exact (nk_ref _ _ _ _ _ NO n k Y)); eauto; right; intros m;
        unfold pref, ModelEnc.preferPtrEncoder; rewrite special_under; simpl under; rewrite Y; cbn [ModelEnc.encode]; rewrite D, Y; reflexivity. }
    destruct Pt as [(t & Y)|Pt].
    + rewrite Y in *. assert (X : special (TRef n) = None) by (rewrite special_under; simpl; now rewrite Y).
      apply (ru_ext _ (fun m => encode m (TRef n))); [intros m; now apply pref_plain|].
      apply (ru_S _ (fun m => pointerEncoder F32 F64 C G32 G64 (encode m t))); [intros m; simpl; now rewrite D, Y|]. intros q s.
      assert (HSt : sound t) by (inversion HS as [? K| | | | |]; subst; [destruct K|auto]).
      assert (V : v = VPtr None \/ exists x, v = VPtr (Some x) /\ typed t x) by (shape Ty2; eauto). destruct V as [->|(x & -> & Tx)].
      * apply nil_runs. intros k -> Dk. apply HN. apply hz_ref; auto. rewrite Y. now apply hz_nil.
      * refine (IH x ltac:(simpl; lia) _ t false HSt Tx _ q s); [intros y Hy; apply G; now apply wi_ptr|]. intros K. apply HN. apply hz_ref_ptr with t; auto.
    + apply (ru_S _ (pref a (te_type _ _ _ E n)) _ Pt). assert (HN2 : ~ hazard a (te_type _ _ _ E n) v) by (intros K; apply HN; now apply hz_ref).
      destruct (kinds (te_type _ _ _ E n)) as [B|[(id & Hu)|(k & K)]].
      * apply (ru_ext _ (fun m => encode m (te_type _ _ _ E n))); [intros m; apply pref_plain; now apply special_bare|].
        apply run_bare; auto. intros K. apply HN2. now apply hz_addr.
      * assert (Hu' : SpecEnc.user (under (te_type _ _ _ E n)) id) by (destruct Hu as [-> | ->]; [now left|now right]).
        destruct (user_inv _ id v Hu' Ty2) as (y & ->). apply run_user with id; auto. apply G. apply wi_obj.
      * now apply (nk_ref _ _ _ _ _ NO n k) in K.
Qed.
Lemma run_all n : forall v, (vsize v < n)%nat -> good v -> forall T a, sound T -> typed T v -> ~ hazard a T v -> runs (pref a T) (Some v).
Proof.
  induction n as [|n IH0]; intros v L G T a HS Ty HN; [lia|].
  assert (IH : forall v', (vsize v' < vsize v)%nat -> good v' -> forall T a, sound T -> typed T v' -> ~ hazard a T v' -> runs (pref a T) (Some v')) by (intros; apply IH0; auto; lia).
  destruct (kinds T) as [B|[(id & Hu)|(k & ->)]].
  - apply (ru_ext _ (fun m => encode m T)); [intros m; apply pref_plain; now apply special_bare|].
    apply run_bare; auto. intros K. apply HN. now apply hz_addr.
  - assert (Hu' : SpecEnc.user (under T) id) by (destruct Hu as [-> | ->]; [now left|now right]).
    destruct (user_inv _ id v Hu' Ty) as (y & ->). apply run_user with id; auto. apply G. apply wi_obj.
  - now apply run_ref.
Qed.
Lemma all_taken y : taken y.
Proof.
  induction y as [y IH] using (well_founded_induction NC). intros id.
  assert (G : good (ma_repr _ _ _ U id y)) by (intros z Hz; apply IH; eauto). split.
  - apply (sn_all (S (vsize (ma_repr _ _ _ U id y)))); auto.
  - intros HN. refine (run_all (S (vsize (ma_repr _ _ _ U id y))) _ (Nat.lt_succ_diag_r _) G (ma_under _ _ _ U id) false _ _ HN); [apply (su_type _ _ _ _ _ SU)|apply (su_repr _ _ _ _ _ SU)].
Qed.
Theorem value_ends T v q s : sound T -> typed T v -> ~ hazard false T v ->
  ends (fun m => encValue F32 F64 C E U G32 G64 m (encode m) (Some (T, v)) q) s.
Proof.
  intros HS Ty HN. assert (G : good v) by (intros y _; apply all_taken). apply run_value.
  - apply (sn_all (S (vsize v))); auto.
  - exact (run_all (S (vsize v)) v (Nat.lt_succ_diag_r _) G T false HS Ty HN).
Qed.
End Ends.
