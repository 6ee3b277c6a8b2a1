(** Facts about the encoders: what each of them writes. *)
From Coq Require Import String ZArith List Bool Lia.
From Verif Require Import Spec SpecStream SpecBase64 StreamIntFacts StreamStrFacts StreamFacts StreamTree Base64Facts.
From Verif Require Import Base ModelInt ModelFloat ModelOps ModelBase64 ModelStream ModelVal ModelEnc SpecVal SpecEnc.
Import ListNotations.
Local Open Scope Z_scope.

Section EncFacts.
Variables F32 F64 : floatOps.
Variable C : custom.
Notation gval := (gval F32 F64 C).
Variable E : env F32 F64 C.
Notation under := (under F32 F64 C E).
Variable U : marshalers F32 F64 C.
Variables G32 G64 : floatFmt.
Variables (S32 : fmt_sane G32) (S64 : fmt_sane G64).
Variable e32 : fl F32 -> ff G32.
Variable e64 : fl F64 -> ff G64.
Variable cfgHTML : bool.
Notation encoder := (encoder F32 F64 C).
Notation docall := (docall G32 G64).
Notation special := (special F32 F64 C E U G32 G64).
Notation preferPtrEncoder := (preferPtrEncoder F32 F64 C E U G32 G64).
Notation encode := (encode F32 F64 C E U G32 G64 e32 e64 cfgHTML).
Notation Value := (Value F32 F64 C E U G32 G64 e32 e64 cfgHTML).
Notation Marshal := (Marshal F32 F64 C E U G32 G64 e32 e64 cfgHTML).
Notation uses_json := (uses_json F32 F64 C U).
Notation uses_text := (uses_text F32 F64 C U).
Notation no_fields := (no_fields F32 F64 C E U).
Notation nil_word := (nil_word F32 F64 C E U).
Notation set_word := (set_word F32 F64 C E U).
Notation nil_ok := (nil_ok F32 F64 C E U).
Notation empty := (empty F32 F64 C E U G32 G64 e32 e64).
Notation shaped := (shaped F32 F64 C E).
Notation tested := (tested F32 F64 C E U).
Variable quirks : Prop.
Notation encodes := (encodes F32 F64 C E U G32 G64 e32 e64 quirks).
Notation encodes_list := (encodes_list F32 F64 C E U G32 G64 e32 e64 quirks).
Notation encodes_map := (encodes_map F32 F64 C E U G32 G64 e32 e64 quirks).
Notation encodes_fields := (encodes_fields F32 F64 C E U G32 G64 e32 e64 quirks).

(** ** The environment of named types *)
Hypothesis NO : names_ok F32 F64 C E U.

Lemma under_idem n : under (te_type _ _ _ E n) = te_type _ _ _ E n.
Proof using NO. destruct (te_type _ _ _ E n) eqn:X; simpl; try reflexivity. exfalso. exact (nk_ref _ _ _ _ _ NO _ _ X). Qed.
Lemma special_ref n : special (TRef n) = special (te_type _ _ _ E n).
Proof using NO. unfold ModelEnc.special, userOf. rewrite under_idem. reflexivity. Qed.
Lemma special_not_user T : (forall id, ~ user (under T) id) -> special T = None.
Proof.
  intros H. unfold ModelEnc.special, userOf.
  destruct (under T) eqn:X; try reflexivity; exfalso; eapply H; [now left|now right].
Qed.
Lemma special_dyn n : ma_dyn _ _ _ U n <> None -> special (TRef n) = None.
Proof using NO. intros H. apply special_not_user. simpl. rewrite (nk_dyn _ _ _ _ _ NO _ H). intros id [X|X]; discriminate. Qed.

(** the encoder that an array, slice, struct or pointer uses for a part, and the one for other values *)
Definition pref (n : nat) (a : bool) (T : ty) : encoder := if a then preferPtrEncoder T (encode n T) else encode n T.
Lemma pref_plain n a T : special T = None -> pref n a T = encode n T.
Proof. intros H. unfold pref, ModelEnc.preferPtrEncoder. rewrite H. now destruct a. Qed.
Notation pointer_methods := (pointer_methods F32 F64 C E U).
Lemma special_methods T : special T <> None <-> pointer_methods (TPtr T).
Proof.
  unfold ModelEnc.special, userOf. split.
  - intros H. destruct (under T) eqn:X; try congruence.
    all: destruct (ma_json _ _ _ U id) eqn:J; [destruct (ma_text _ _ _ U id) eqn:Y; try congruence|idtac|congruence].
    1,3: (apply pm_text with id; auto; rewrite X; (now left) || (now right)). all: apply pm_json with id; auto; rewrite X; (now left) || (now right).
  - intros H. inversion H as [T' id Hu J|T' id Hu J Y]; subst; destruct Hu as [-> | ->]; rewrite J; try rewrite Y; discriminate.
Qed.
(** the fuel that a type with the name [k] leaves to its definition *)
Definition rest (n k : nat) : nat := match te_type _ _ _ E k with TPtr _ => S n | _ => n end.
Lemma rest_le n k : (n <= rest n k)%nat.
Proof. unfold rest. destruct (te_type _ _ _ E k); lia. Qed.
Lemma encode_ref n k : ma_dyn _ _ _ U k = None -> ~ pointer_methods (te_type _ _ _ E k) -> encode (S n) (TRef k) = encode (rest n k) (te_type _ _ _ E k).
Proof.
  intros H P. unfold rest. simpl. rewrite H. destruct (te_type _ _ _ E k) eqn:X; try reflexivity.
  cbn [ModelEnc.encode]. destruct (special t) eqn:Z; [|reflexivity]. exfalso. apply P, special_methods. congruence.
Qed.
Lemma pref_ref n a k : ma_dyn _ _ _ U k = None -> ~ pointer_methods (te_type _ _ _ E k) -> pref (S n) a (TRef k) = pref (rest n k) a (te_type _ _ _ E k).
Proof using NO. intros H P. unfold pref, ModelEnc.preferPtrEncoder. now rewrite special_ref, encode_ref. Qed.

(** ** What is written *)
Variable h : bool.
(** a step that writes one value *)
Definition puts (f : stm -> sres) (t : bytes) : Prop :=
  forall p w b, f (mkStm w b None p h) = SOk (mkStm w (b ++ comma p ++ t) None true h).
Definition emits (a : bool) (T : ty) (q : bool) (v : gval) (t : bytes) : Prop :=
  exists n0, forall n, (n0 <= n)%nat -> puts (en_Encode _ _ _ (pref n a T) (Some v) q) t.
Lemma docall_eff c p p' t w b : effect (F32 := G32) (F64 := G64) c None p h t None p' h ->
  docall c (mkStm w b None p h) = SOk (mkStm w (b ++ t) None p' h).
Proof. intros H. unfold ModelEnc.docall. now rewrite H. Qed.
Lemma puts_call c t : (forall p, effect (F32 := G32) (F64 := G64) c None p h (comma p ++ t) None true h) -> puts (docall c) t.
Proof. intros H p w b. now apply docall_eff. Qed.
Lemma puts_ext f g t : (forall w b p, f (mkStm w b None p h) = g (mkStm w b None p h)) -> puts g t -> puts f t.
Proof. intros H P p w b. now rewrite H. Qed.
Lemma puts_null : puts (docall SNull) (bs "null").
Proof. apply puts_call. intros. apply eff_null. Qed.
Lemma puts_raw t : puts (docall (SRaw t)) t.
Proof. apply puts_call. intros. apply eff_raw. Qed.
Lemma puts_string s : is_bytes s -> exists b s', puts (docall (SString s)) (quote b) /\ sanitized s s' /\ string_body b s'.
Proof.
  intros B. destruct (encodeString_eff s h B) as (body & EE & us & I & _ & Z). exists body, (denote us).
  split; [|split; auto; now exists us]. apply puts_call. intros. now apply eff_string.
Qed.

(** several steps, of which some write nothing *)
Inductive steps {A} (f : A -> stm -> sres) : list A -> list bytes -> Prop :=
| st_nil : steps f [] []
| st_quiet x l ts : (forall p w b, f x (mkStm w b None p h) = SOk (mkStm w b None p h)) -> steps f l ts -> steps f (x :: l) ts
| st_put x l t ts : puts (f x) t -> steps f l ts -> steps f (x :: l) (t :: ts).
Lemma encodeAll_steps {A} (f : A -> stm -> sres) l ts : steps f l ts -> forall p w b, exists p',
  encodeAll f l (mkStm w b None p h) = SOk (mkStm w (b ++ sepText p ts) None p' h).
Proof.
  intros H. induction H as [|x l ts Q H IH|x l t ts Q H IH]; intros p w b.
  - exists p. simpl. now rewrite app_nil_r.
  - destruct (IH p w b) as (p' & R). exists p'. cbn [encodeAll]. rewrite Q. simpl. exact R.
  - destruct (IH true w (b ++ comma p ++ t)) as (p' & R). exists p'. cbn [encodeAll]. rewrite Q. simpl. rewrite R.
    now rewrite <- !app_assoc.
Qed.
Lemma puts_list {A} (f : A -> stm -> sres) l ts : steps f l ts ->
  puts (fun s => docall SArrayStart s >>> encodeAll f l >>> docall SArrayEnd) (91 :: sepText false ts ++ [93]).
Proof.
  intros H p w b. rewrite (docall_eff _ _ _ _ _ _ (eff_arrayStart p h)). cbn [sbind].
  destruct (encodeAll_steps f l ts H false w (b ++ comma p ++ [91])) as (p' & R). rewrite R. cbn [sbind].
  rewrite (docall_eff _ _ _ _ _ _ (eff_arrayEnd p' h)). do 2 f_equal. now rewrite <- !app_assoc.
Qed.
Lemma puts_object {A} (f : A -> stm -> sres) l ts : steps f l ts ->
  puts (fun s => docall SObjectStart s >>> encodeAll f l >>> docall SObjectEnd) (123 :: sepText false ts ++ [125]).
Proof.
  intros H p w b. rewrite (docall_eff _ _ _ _ _ _ (eff_objectStart p h)). cbn [sbind].
  destruct (encodeAll_steps f l ts H false w (b ++ comma p ++ [123])) as (p' & R). rewrite R. cbn [sbind].
  rewrite (docall_eff _ _ _ _ _ _ (eff_objectEnd p' h)). do 2 f_equal. now rewrite <- !app_assoc.
Qed.
(** the text with commas is an array or object *)
Lemma sep_items ts : ts <> [] -> items (sepText false ts) ts.
Proof.
  induction ts as [|t ts IH]; intros N; [congruence|]. destruct ts as [|t2 ts].
  - simpl. rewrite app_nil_r. replace t with ([] ++ t ++ []) at 1 by (simpl; apply app_nil_r). constructor; constructor.
  - change (sepText false (t :: t2 :: ts)) with ([] ++ t ++ [] ++ 44 :: sepText false (t2 :: ts)).
    constructor; try constructor. apply IH. discriminate.
Qed.
Lemma sep_array_text ts : array_text (91 :: sepText false ts ++ [93]) ts.
Proof. destruct ts; [apply (array_empty [])|apply array_items, sep_items]; constructor || discriminate. Qed.
Definition pairText (x : bytes * bytes) : bytes := fst x ++ 58 :: snd x.
Lemma sep_pairs ps : ps <> [] -> pairs (sepText false (map pairText ps)) ps.
Proof.
  induction ps as [|[k t] ps IH]; intros N; [congruence|]. destruct ps as [|p2 ps].
  - simpl. rewrite app_nil_r. unfold pairText; simpl.
    replace (k ++ 58 :: t) with ([] ++ k ++ [] ++ 58 :: [] ++ t ++ []) by (simpl; now rewrite app_nil_r). constructor; constructor.
  - assert (X : sepText false (map pairText ((k, t) :: p2 :: ps)) = [] ++ k ++ [] ++ 58 :: [] ++ t ++ [] ++ 44 :: sepText false (map pairText (p2 :: ps))).
    { simpl. unfold pairText at 1; simpl. now rewrite <- app_assoc. }
    rewrite X. constructor; try constructor. apply IH. discriminate.
Qed.
Lemma sep_object_text ps : object_text (123 :: sepText false (map pairText ps) ++ [125]) ps.
Proof. destruct ps; [apply (object_empty [])|apply object_pairs, sep_pairs]; constructor || discriminate. Qed.
(** the same without the flag *)
Lemma sep_commas ts : sepText false ts = commas ts.
Proof.
  assert (X : forall ts t, t ++ sepText true ts = commas (t :: ts)).
  { clear. induction ts as [|u ts IH]; intros t; [cbn; apply app_nil_r|]. change (commas (t :: u :: ts)) with (t ++ 44 :: commas (u :: ts)). now rewrite <- IH. }
  destruct ts as [|t ts]; [reflexivity|apply X].
Qed.
Lemma sep_array_of ts : 91 :: sepText false ts ++ [93] = array_of ts.
Proof. unfold array_of. now rewrite sep_commas. Qed.
Lemma sep_object_of ps : 123 :: sepText false (map pairText ps) ++ [125] = object_of ps.
Proof. unfold object_of. now rewrite sep_commas. Qed.
Lemma array_of_text t ts : t = array_of ts -> array_text t ts.
Proof. intros ->. rewrite <- sep_array_of. apply sep_array_text. Qed.
Lemma object_of_text t ps : t = object_of ps -> object_text t ps.
Proof. intros ->. rewrite <- sep_object_of. apply sep_object_text. Qed.

(** ** User-defined types *)
Lemma recv_json a id : uses_json a id <-> ma_json _ _ _ U id = RValue \/ (ma_json _ _ _ U id = RPtr /\ a = true).
Proof. reflexivity. Qed.
Lemma user_cases T id : user T id ->
  (special T = match ma_json _ _ _ U id, ma_text _ _ _ U id with
               | RPtr, _ => Some (pointerJSONMarshalerEncoder _ _ _ U G32 G64 id)
               | RNone, RPtr => Some (pointerTextMarshalerEncoder _ _ _ U G32 G64 id)
               | _, _ => None
               end) /\
  forall n, encode (S n) T = match ma_json _ _ _ U id, ma_text _ _ _ U id with
          | RValue, _ => jsonMarshalerEncoder _ _ _ E U G32 G64 e32 e64 id
          | _, RValue => textMarshalerEncoder _ _ _ E U G32 G64 e32 e64 id
          | _, _ => byKind _ _ _ U id (encode n (ma_under _ _ _ U id))
          end.
Proof. intros [-> | ->]; split; reflexivity. Qed.
Lemma special_under id : special (ma_under _ _ _ U id) = None.
Proof using NO.
  apply special_not_user. intros id'. destruct (nk_under _ _ _ _ _ NO id id') as (_ & A & B).
  destruct (ma_under _ _ _ U id) eqn:X; simpl; try (intros [Y|Y]; discriminate || congruence).
  exfalso. exact (proj1 (nk_under _ _ _ _ _ NO id n) X).
Qed.
Lemma user_json a T id n x q : user T id -> uses_json a id ->
  forall w b p, en_Encode _ _ _ (pref (S n) a T) (Some (VObj x)) q (mkStm w b None p h) =
    putJSON G32 G64 (ma_MarshalJSON _ _ _ U id x) (mkStm w b None p h).
Proof.
  intros Hu Hj w b p. destruct (user_cases T id Hu) as [Hs He]. unfold pref, ModelEnc.preferPtrEncoder. rewrite Hs, He.
  destruct Hj as [Hj|[Hj ->]]; rewrite Hj; [|reflexivity]. now destruct a.
Qed.
Lemma user_text a T id n x q : user T id -> uses_text a id ->
  forall w b p, en_Encode _ _ _ (pref (S n) a T) (Some (VObj x)) q (mkStm w b None p h) =
    putText G32 G64 (ma_MarshalText _ _ _ U id x) (mkStm w b None p h).
Proof.
  intros Hu [Hj Ht] w b p. destruct (user_cases T id Hu) as [Hs He]. unfold pref, ModelEnc.preferPtrEncoder. rewrite Hs, He.
  unfold SpecEnc.uses_json, has in *. destruct Ht as [Ht|[Ht ->]]; rewrite Ht in *; destruct (ma_json _ _ _ U id) eqn:X; try (exfalso; tauto); try reflexivity;
    destruct a; reflexivity || (exfalso; tauto).
Qed.
Lemma user_plain a T id n x q : user T id -> ~ uses_json a id -> ~ uses_text a id ->
  en_Encode _ _ _ (pref (S n) a T) (Some (VObj x)) q = en_Encode _ _ _ (encode n (ma_under _ _ _ U id)) (Some (ma_repr _ _ _ U id x)) q.
Proof.
  intros Hu Hj Ht. destruct (user_cases T id Hu) as [Hs He]. unfold pref, ModelEnc.preferPtrEncoder. rewrite Hs, He.
  unfold SpecEnc.uses_text, SpecEnc.uses_json, has in *. destruct (ma_json _ _ _ U id) eqn:X, (ma_text _ _ _ U id) eqn:Y; try (exfalso; tauto); destruct a;
    reflexivity || (exfalso; intuition congruence).
Qed.

Lemma encodable_some k : encodable_key k -> exists ke, newKeyEncoder F32 F64 C U G32 G64 k = Some ke.
Proof. destruct k as [|s w|[|s w|] u [[id []]|]]; simpl; intros H; eauto; contradiction. Qed.
Lemma encodable_none k : ~ encodable_key k -> newKeyEncoder F32 F64 C U G32 G64 k = None.
Proof. destruct k as [|s w|[|s w|] u [[id []]|]]; simpl; intros H; tauto. Qed.
Lemma encodable_dec k : encodable_key k \/ ~ encodable_key k.
Proof. destruct k as [|s w|[|s w|] u [[id []]|]]; simpl; tauto. Qed.

(** ** nil pointers *)
Lemma nil_emits T : nil_ok T -> special T = None ->
  exists n0, forall n q, (n0 <= n)%nat -> puts (en_Encode _ _ _ (encode n T) None q) (bs "null").
Proof using NO.
  intros H. induction H as [k Hd H IH|T id Hu H IH|T Hb Hbm Hr Hu]; intros Sp.
  - destruct (ma_dyn _ _ _ U k) as [[]|] eqn:X; [|congruence| | |].
    1,2,3: exists 1%nat; intros [|n] q Hn; [lia|]; simpl; rewrite X; eapply puts_ext; [|apply puts_null]; reflexivity.
    rewrite special_ref in Sp. destruct (IH eq_refl Sp) as (n0 & R). exists (S n0). intros [|n] q Hn; [lia|].
    destruct (te_type _ _ _ E k) eqn:Y; simpl; rewrite X, Y; try (apply R; lia).
    eapply puts_ext; [|apply puts_null]. reflexivity.
  - destruct (user_cases T id Hu) as [Hs He]. rewrite Hs in Sp.
    unfold SpecEnc.uses_text, SpecEnc.uses_json, has in *. 
    destruct (ma_json _ _ _ U id) eqn:X, (ma_text _ _ _ U id) eqn:Y; try discriminate.
    2,3,4,5: exists 1%nat; intros [|n] q Hn; [lia|]; rewrite He; eapply puts_ext; [|apply puts_null]; reflexivity.
    destruct IH as (n0 & R); [intuition congruence|intuition congruence|apply special_under|].
    exists (S n0). intros [|n] q Hn; [lia|]. rewrite He. simpl. apply R. lia.
  - exists 1%nat. intros [|n] q Hn; [lia|].
    destruct T as [|s0 w0| | | | | |i|i|t|m t|t|k t|lay fds| | |i|]; try congruence; try (exfalso; eapply Hr; reflexivity);
      try (exfalso; eapply Hu; (now left) || (now right)); try (eapply puts_ext; [|apply puts_null]; reflexivity).
    + simpl. destruct (ModelEnc.special _ _ _ _ _ _ _ t) as [sp|] eqn:Z; [|eapply puts_ext; [|apply puts_null]; reflexivity].
      unfold ModelEnc.special in Z. destruct (userOf _ _ _ _ t) as [i|]; [|discriminate].
      destruct (ma_json _ _ _ U i), (ma_text _ _ _ U i); try discriminate; injection Z as <-; eapply puts_ext; try apply puts_null; reflexivity.
    + simpl. destruct m; eapply puts_ext; try apply puts_null; reflexivity.
    + simpl. destruct (ModelVal.under _ _ _ _ t) as [|[] []| | | | | | | | | | | | | | | |]; eapply puts_ext; try apply puts_null; reflexivity.
    + destruct (encodable_some k (Hbm k t eq_refl)) as (ke & Hke). simpl. rewrite Hke. eapply puts_ext; [|apply puts_null]; reflexivity.
    + simpl. destruct fds; eapply puts_ext; try apply puts_null; reflexivity.
Qed.

(** ** Emptiness *)
Ltac yes := split; [reflexivity|split; [intros _; (constructor; auto; fail) || (econstructor; eauto)|reflexivity]].
Ltac no := split; [reflexivity|split; [discriminate|let K := fresh in intros K; inversion K; subst; try discriminate; try congruence; fail]].
Lemma kind_empty T v : (forall n, T <> TRef n) -> (forall id, ~ user T id) -> (forall l, T <> TStruct l []) -> (forall k T', T = TMap k T' -> encodable_key k) -> shaped T v ->
  exists b, (forall n, en_isEmpty _ _ _ (encode (S n) T) v = Some b) /\ (b = true <-> empty T v).
Proof.
  intros Hr Hu Hs Hbm H. destruct H as [b|sg w z|x|x|s|s|o|T o|n T l L|T o|k T o|lay fs v|o|o|v|n v|id x|id x].
  - exists (negb b). split; [reflexivity|]. destruct b; split; intros K; try discriminate; try reflexivity; [inversion K|constructor].
  - exists (z =? 0). split; [reflexivity|]. rewrite Z.eqb_eq. split; [intros ->; constructor|intros K; now inversion K].
  - exists (ff_zero G32 (e32 x)). split; [reflexivity|]. split; [now constructor|intros K; now inversion K].
  - exists (ff_zero G64 (e64 x)). split; [reflexivity|]. split; [now constructor|intros K; now inversion K].
  - exists (match s with [] => true | _ => false end). split; [destruct s; reflexivity|].
    destruct s; split; intros K; try discriminate; try reflexivity; [constructor|inversion K].
  - exists (match s with [] => true | _ => false end). split; [destruct s; reflexivity|].
    destruct s; split; intros K; try discriminate; try reflexivity; [constructor|inversion K].
  - exists (match o with Some (_ :: _) => false | _ => true end). split; [now destruct o as [[|]|]|].
    destruct o as [[|c l]|]; split; intros K; try discriminate; try reflexivity; try constructor. inversion K.
  - exists (match o with None => true | _ => false end). split.
    + intros n. simpl. destruct (ModelEnc.special _ _ _ _ _ _ _ T) as [sp|] eqn:Z; [|now destruct o].
      unfold ModelEnc.special in Z. destruct (userOf _ _ _ _ T) as [i|]; [|discriminate].
      destruct (ma_json _ _ _ U i), (ma_text _ _ _ U i); try discriminate; injection Z as <-; now destruct o.
    + destruct o; split; intros K; try discriminate; try reflexivity; [inversion K|constructor].
  - exists (match n with O => true | _ => false end). split; [now destruct n|].
    destruct n; split; intros K; try discriminate; try reflexivity.
    + destruct l; [constructor|discriminate].
    + inversion K.
  - exists (match o with Some (_ :: _) => false | _ => true end). split.
    + intros n. simpl. destruct (ModelVal.under _ _ _ _ T) as [|[] []| | | | | | | | | | | | | | | |]; reflexivity.
    + destruct o as [[|c l]|]; split; intros K; try discriminate; try reflexivity; try constructor. inversion K.
  - exists (match o with Some (_ :: _) => false | _ => true end).
    split; [destruct (encodable_some k (Hbm k T eq_refl)) as (ke & Hke); intros n; simpl; now rewrite Hke|].
    destruct o as [[|c l]|]; split; intros K; try discriminate; try reflexivity; try constructor. inversion K.
  - exists false. split; [intros n; destruct fs; [exfalso; now apply (Hs lay)|reflexivity]|].
    split; [discriminate|]. intros K. inversion K; subst; destruct H; discriminate.
  - exists (match o with None => true | _ => false end). split; [reflexivity|].
    destruct o; split; intros K; try discriminate; try reflexivity; [inversion K; subst; destruct H; discriminate|constructor; auto].
  - exists (match o with None => true | _ => false end). split; [reflexivity|].
    destruct o; split; intros K; try discriminate; try reflexivity; [inversion K; subst; destruct H; discriminate|constructor; auto].
  - exists false. split; [reflexivity|]. split; [discriminate|]. intros K. inversion K; subst; destruct H; discriminate.
  - exfalso. now apply (Hr n).
  - exfalso. apply (Hu id). now left.
  - exfalso. apply (Hu id). now right.
Qed.
Lemma under_ref T : (exists n, T = TRef n /\ under T = te_type _ _ _ E n) \/ ((forall n, T <> TRef n) /\ under T = T).
Proof. destruct T; try (right; split; [intros; discriminate|reflexivity]). left. now exists n. Qed.
Lemma ma_under_plain id : (forall n, ma_under _ _ _ U id <> TRef n) /\ (forall i, ~ user (ma_under _ _ _ U id) i) /\
  under (ma_under _ _ _ U id) = ma_under _ _ _ U id.
Proof using NO.
  pose proof (nk_under _ _ _ _ _ NO id) as H. split; [intros n; apply H|]. split.
  - intros i [X|X]; destruct (H i) as (_ & H1 & H2); contradiction.
  - destruct (ma_under _ _ _ U id) eqn:X; try reflexivity. exfalso. destruct (H n) as (H1 & _). congruence.
Qed.
(** the emptiness test of the code *)
Definition tests (T : ty) (v : gval) (b : bool) : Prop := exists n0, forall n, (n0 <= n)%nat -> en_isEmpty _ _ _ (pref n true T) v = Some b.
Lemma user_empty T id x : user T id -> tested T -> exists b, tests T (VObj x) b /\ (b = true <-> empty T (VObj x)).
Proof using NO.
  intros Hu Ht. destruct (user_cases T id Hu) as [Hs He]. destruct (ma_under_plain id) as (P1 & P2 & P3).
  pose proof (nk_repr _ _ _ _ _ NO id x) as Sh.
  assert (Ui : forall i, user (under T) i -> i = id).
  { intros i. destruct Hu as [-> | ->]; intros [X|X]; simpl in X; congruence. }
  assert (Em : empty T (VObj x) <-> empty (ma_under _ _ _ U id) (ma_repr _ _ _ U id x)).
  { split; [|now apply em_user]. intros K.
    destruct Hu as [-> | ->]; inversion K as [| | | | | | | | |T' D| | | | | |n0 v0|T' id' x' Hu' K']; try (destruct D; discriminate);
      destruct Hu' as [Hu'|Hu']; try discriminate; now injection Hu' as ->. }
  setoid_rewrite Em. unfold tests, pref, ModelEnc.preferPtrEncoder. rewrite Hs.
  destruct Ht as [T Hn _|T i Hi Hj Hx Hf Hbm|T i Hi Hm Hk].
  - exfalso. apply (Hn id). destruct Hu as [-> | ->]; [left|right]; reflexivity.
  - apply Ui in Hi as ->.
    assert (X : ma_json _ _ _ U id = RNone /\ ma_text _ _ _ U id = RNone).
    { unfold SpecEnc.uses_text, SpecEnc.uses_json, has in *. destruct (ma_json _ _ _ U id), (ma_text _ _ _ U id); intuition congruence. }
    destruct X as [Xj Xt]. rewrite Xj, Xt.
    destruct (kind_empty (ma_under _ _ _ U id) (ma_repr _ _ _ U id x) P1 P2) as (b & R & I); auto.
    { intros l X. apply Hf. apply (nf_user _ _ _ _ _ _ _ id l); auto; [destruct Hu as [-> | ->]; [left|right]; reflexivity|]. now rewrite P3. }
    { intros k T' X. destruct (encodable_dec k) as [D|D]; auto. exfalso. apply Hbm.
      apply (bm_user _ _ _ _ _ _ id k T'); auto; [destruct Hu as [-> | ->]; [left|right]; reflexivity|]. now rewrite P3. }
    exists b. split; auto. exists 2%nat. intros [|[|n]] Hn; try lia. rewrite He, Xj, Xt. simpl. exact (R n).
  - apply Ui in Hi as ->. rewrite P3 in Hk.
    assert (X : match ma_json _ _ _ U id, ma_text _ _ _ U id with RValue, _ | RNone, RValue => True | _, _ => False end).
    { unfold SpecEnc.uses_text, SpecEnc.uses_json, has in *. destruct (ma_json _ _ _ U id), (ma_text _ _ _ U id); intuition congruence. }
    assert (Y : forall n v, en_isEmpty _ _ _ (match match ma_json _ _ _ U id with
        | RNone => match ma_text _ _ _ U id with RPtr => Some (pointerTextMarshalerEncoder _ _ _ U G32 G64 id) | _ => None end
        | RPtr => Some (pointerJSONMarshalerEncoder _ _ _ U G32 G64 id) | RValue => None end with
        | Some p => directEncoder _ _ _ p | None => encode (S n) T end) v = callEmpty _ _ _ E U G32 G64 e32 e64 id v).
    { intros n v. rewrite He. destruct (ma_json _ _ _ U id), (ma_text _ _ _ U id); reflexivity || contradiction. }
    assert (Z : exists b, callEmpty _ _ _ E U G32 G64 e32 e64 id (VObj x) = Some b /\ (b = true <-> empty (ma_under _ _ _ U id) (ma_repr _ _ _ U id x))).
    { unfold callEmpty, isEmptyFunctions. rewrite P3.
      assert (D : (exists l fs, ma_under _ _ _ U id = TStruct l fs) \/ (forall l fs, ma_under _ _ _ U id <> TStruct l fs)).
      { destruct (ma_under _ _ _ U id); try (right; intros; discriminate). left. now exists layout, fields. }
      assert (Dm : (exists k T', ma_under _ _ _ U id = TMap k T') \/ (forall k T', ma_under _ _ _ U id <> TMap k T')).
      { destruct (ma_under _ _ _ U id); try (right; intros; discriminate). left. now exists k, t. }
      destruct D as [(l & fs & D)|D]; [|destruct Dm as [(k & T' & Dm)|Dm]].
      - exists false. rewrite D. split; auto. split; [discriminate|]. intros K.
        inversion K as [| | | | | | | | |T' D'| | | | | |n0 v0|T' id' x' Hu' K']; [destruct D'|destruct Hu']; discriminate.
      - rewrite Dm in *. inversion Sh as [| | | | | | | | | |k' T2 o E1 E2| | | | | | |]; subst.
        exists (match o with Some (_ :: _) => false | _ => true end). split; [reflexivity|].
        destruct o as [[|c l]|]; split; intros K; try discriminate; try reflexivity; try constructor. inversion K.
      - destruct (kind_empty (ma_under _ _ _ U id) (ma_repr _ _ _ U id x) P1 P2) as (b & R & I); auto.
        { intros k T0 X0. exfalso. exact (Dm k T0 X0). }
        exists b. split; auto. rewrite <- (R O). destruct (ma_under _ _ _ U id) eqn:K; try contradiction; try reflexivity.
        + simpl. destruct (ModelVal.under _ _ _ _ t) as [|[] []| | | | | | | | | | | | | | | |]; reflexivity.
        + exfalso. now apply (Dm k t).
        + exfalso. now apply (D layout fields). }
    destruct Z as (b & Z & I). exists b. split; auto. exists 1%nat. intros [|n] Hn; [lia|]. now rewrite Y.
Qed.
Lemma tests_ref k v b : ma_dyn _ _ _ U k = None -> tests (te_type _ _ _ E k) v b -> tests (TRef k) v b.
Proof using NO.
  intros H (n0 & R). exists (S n0). intros [|n] Hn; [lia|].
  assert (X : en_isEmpty _ _ _ (pref (S n) true (TRef k)) v = en_isEmpty _ _ _ (pref (rest n k) true (te_type _ _ _ E k)) v).
  { unfold pref, ModelEnc.preferPtrEncoder, rest. rewrite special_ref. cbn [ModelEnc.encode]. rewrite H.
    destruct (te_type _ _ _ E k) eqn:Y; try reflexivity. change (special (TPtr t)) with (@None encoder). cbn [ModelEnc.encode].
    destruct (special t) as [sp|] eqn:Z; [|reflexivity]. unfold ModelEnc.special in Z. destruct (userOf _ _ _ _ t) as [i|]; [|discriminate].
    destruct (ma_json _ _ _ U i), (ma_text _ _ _ U i); try discriminate; now injection Z as <-. }
  rewrite X. apply R. pose proof (rest_le n k). lia.
Qed.
Lemma isEmpty_ok T v : tested T -> shaped T v -> exists b, tests T v b /\ (b = true <-> empty T v).
Proof using NO.
  intros Ht Sh.
  assert (D : (exists id, user T id) \/ forall id, ~ user T id).
  { destruct T; try (right; intros i [X|X]; discriminate); left; exists id; [now left|now right]. }
  destruct D as [[id Hu]|Hu].
  - assert (X : exists x, v = VObj x) by (destruct Hu as [-> | ->]; inversion Sh; eauto). destruct X as (x & ->). now apply user_empty with id.
  - destruct (under_ref T) as [(k & -> & Hk)|[Hr Hk]].
    + inversion Sh as [| | | | | | | | | | | | | | |k' v' Sk| |]; subst.
      assert (Em : empty (TRef k) v <-> empty (te_type _ _ _ E k) v).
      { split; [|now constructor]. intros K. inversion K as [| | | | | | | | |T' D'| | | | | |n0 v0|T' id' x' Hu' K']; auto; [destruct D'|destruct Hu']; discriminate. }
      setoid_rewrite Em.
      assert (Tk : tested (te_type _ _ _ E k)).
      { assert (Bm : bad_map F32 F64 C E U (te_type _ _ _ E k) -> bad_map F32 F64 C E U (TRef k)).
        { intros K. inversion K as [T ky T' X B|T i ky T' Ui X1 X2 X3 B]; subst; rewrite under_idem in *;
            [now apply (bm_map _ _ _ _ _ _ ky T')|now apply (bm_user _ _ _ _ _ _ i ky T')]. }
        inversion Ht as [T Hn Hf Hbm Hp|T i Hi Hj Hx Hf Hbm|T i Hi Hm Hkk]; subst.
        - apply te_plain; [now rewrite under_idem| |tauto|intros K; inversion K as [m _ X|m _ X]; exact (nk_ref _ _ _ _ _ NO _ _ (eq_sym X))]. intros K. apply Hf.
          inversion K as [T l X|T i l Ui X1 X2 X3]; subst; rewrite under_idem in *; [now apply (nf_struct _ _ _ _ _ _ _ l)|].
          now apply (nf_user _ _ _ _ _ _ _ i l).
        - apply te_user with i; auto; [now rewrite under_idem|]. intros K. apply Hf.
          inversion K as [T l X|T i' l Ui X1 X2 X3]; subst; rewrite under_idem in *; [now apply (nf_struct _ _ _ _ _ _ _ l)|].
          now apply (nf_user _ _ _ _ _ _ _ i' l).
        - apply te_method with i; auto. now rewrite under_idem. }
      assert (R : forall b, tests (te_type _ _ _ E k) v b -> tests (TRef k) v b).
      { intros b B. destruct (ma_dyn _ _ _ U k) as [d|] eqn:X; [|now apply tests_ref].
        destruct B as (n0 & R).
        - assert (X' : ma_dyn _ _ _ U k <> None) by congruence. pose proof (nk_dyn _ _ _ _ _ NO k X') as Y.
          exists (S n0). intros n Hn. specialize (R n ltac:(lia)). rewrite Y in *. destruct n as [|n]; [lia|].
          rewrite pref_plain in * by (reflexivity || now apply special_dyn). simpl in *. rewrite X. inversion Sk; subst.
          destruct d; try exact R; exfalso; (inversion Ht as [T Hn' Hf Hbm Hp|T i Hi Hj Hx Hf Hbm|T i Hi Hm Hkk]; subst;
            [apply Hp; (now apply pk_json) || (now apply pk_text)| |]; simpl in Hi; rewrite Y in Hi; destruct Hi; discriminate). }
      assert (D : (exists id, user (te_type _ _ _ E k) id) \/ forall id, ~ user (te_type _ _ _ E k) id).
      { destruct (te_type _ _ _ E k); try (right; intros i [X|X]; discriminate); left; exists id; [now left|now right]. }
      destruct D as [[id Hu']|Hu'].
      * assert (X : exists x, v = VObj x) by (destruct Hu' as [X|X]; rewrite X in Sk; inversion Sk; eauto).
        destruct X as (x & ->). destruct (user_empty _ id x Hu' Tk) as (b & B & I). exists b. split; auto.
      * destruct (kind_empty (te_type _ _ _ E k) v) as (b & B & I); auto.
        -- intros n X. exact (nk_ref _ _ _ _ _ NO _ _ X).
        -- intros l X. inversion Tk as [T Hn Hf _ _|T i Hi _ _ _ _|T i Hi _ _]; subst; rewrite under_idem in *.
           ++ apply Hf. apply (nf_struct _ _ _ _ _ _ _ l). now rewrite under_idem.
           ++ now apply (Hu' i).
           ++ now apply (Hu' i).
        -- intros ky T' X. destruct (encodable_dec ky) as [D|D]; auto. exfalso.
           inversion Tk as [T Hn _ Hbm _|T i Hi _ _ _ _|T i Hi _ _]; subst; rewrite under_idem in *.
           ++ apply Hbm. apply (bm_map _ _ _ _ _ _ ky T'); auto. now rewrite under_idem.
           ++ now apply (Hu' i).
           ++ now apply (Hu' i).
        -- exists b. split; auto. apply R. exists 1%nat. intros [|n] Hn; [lia|]. rewrite pref_plain; auto.
           apply special_not_user. now rewrite under_idem.
    + destruct (kind_empty T v) as (b & B & I); auto.
      * intros l ->. inversion Ht as [T Hn Hf _ _|T i Hi _ _ _ _|T i Hi _ _]; subst.
        -- apply Hf. now apply (nf_struct _ _ _ _ _ _ _ l).
        -- now apply (Hu i).
        -- now apply (Hu i).
      * intros ky T' ->. destruct (encodable_dec ky) as [D|D]; auto. exfalso. inversion Ht as [T Hn _ Hbm _|T i Hi _ _ _ _|T i Hi _ _]; subst.
        -- apply Hbm. now apply (bm_map _ _ _ _ _ _ ky T').
        -- now apply (Hu i).
        -- now apply (Hu i).
      * exists b. split; auto. exists 1%nat. intros [|n] Hn; [lia|]. rewrite pref_plain; auto.
        apply special_not_user. now rewrite Hk.
Qed.
(** the emptiness test of the other types *)
Lemma ref_cases (P : ty -> Prop) T : P T -> (forall k, T <> TRef k) \/
  exists k, T = TRef k /\ (ma_dyn _ _ _ U k = None \/ te_type _ _ _ E k = TIface).
Proof using NO.
  intros _. destruct T; try (left; intros; discriminate). right. exists n. split; auto.
  destruct (ma_dyn _ _ _ U n) eqn:X; auto. right. apply (nk_dyn _ _ _ _ _ NO). congruence.
Qed.
Lemma under_not_ref T : (forall k, T <> TRef k) -> under T = T.
Proof. intros H. destruct T; try reflexivity. now exfalso; apply (H n). Qed.
Lemma no_fields_ref k a : no_fields a (TRef k) -> no_fields a (te_type _ _ _ E k).
Proof using NO.
  intros H. inversion H as [T l X|T i l Ui X1 X2 X3]; subst; [apply (nf_struct _ _ _ _ _ _ _ l)|apply (nf_user _ _ _ _ _ _ _ i l); auto]; now rewrite under_idem.
Qed.
Lemma no_fields_kind T a : no_fields a T -> (forall k, T <> TRef k) ->
  (exists l, T = TStruct l []) \/ exists id l, user T id /\ ~ uses_json a id /\ ~ uses_text a id /\ ma_under _ _ _ U id = TStruct l [].
Proof using NO.
  intros H N. inversion H as [T' l X|T' i l Ui X1 X2 X3]; subst; rewrite under_not_ref in * by auto; eauto.
  right. exists i, l. repeat split; auto. destruct (ma_under_plain i) as (_ & _ & P). now rewrite P in X3.
Qed.
Lemma quirk_empty T x : no_fields true T -> shaped T x -> tests T x true.
Proof using NO.
  assert (K : forall T x, (forall k, T <> TRef k) -> no_fields true T -> shaped T x -> tests T x true).
  { clear T x. intros T x N H Sh. destruct (no_fields_kind _ _ H N) as [(l & ->)|(id & l & Hu & Hj & Ht & Hl)].
    - exists 1%nat. intros [|n] Hn; [lia|]. reflexivity.
    - destruct (user_cases T id Hu) as [Hs He]. exists 2%nat. intros [|[|n]] Hn; try lia.
      unfold pref, ModelEnc.preferPtrEncoder. rewrite Hs, He.
      assert (X : exists y, x = VObj y) by (destruct Hu as [-> | ->]; inversion Sh; eauto). destruct X as (y & ->).
      unfold SpecEnc.uses_text, SpecEnc.uses_json, has in *. destruct (ma_json _ _ _ U id), (ma_text _ _ _ U id); try (exfalso; intuition congruence).
      simpl. now rewrite Hl. }
  intros H Sh. destruct (ref_cases (no_fields true) T H) as [N|(k & -> & [X|X])]; auto.
  - apply tests_ref; auto. inversion Sh; subst. apply K; auto; [intros m; apply (nk_ref _ _ _ _ _ NO)|now apply no_fields_ref].
  - exfalso. apply no_fields_ref in H. rewrite X in H. apply no_fields_kind in H; [|discriminate].
    destruct H as [(l & H)|(id & l & [H|H] & _)]; discriminate.
Qed.
Lemma never_empty T x : never_omitted F32 F64 C E U T -> shaped T x -> tests T x false.
Proof using NO.
  assert (K : forall T x, (forall k, T <> TRef k) -> never_omitted F32 F64 C E U T -> shaped T x -> tests T x false).
  { clear T x. intros T x N [B|(id & Hu & D)] Sh.
    { inversion B as [T' ky T2 X Nk|T' id ky T2 Hu Hj Ht X Nk]; subst; rewrite under_not_ref in * by auto.
      - subst T. exists 1%nat. intros [|n] Hn; [lia|]. rewrite pref_plain by reflexivity. simpl. now rewrite (encodable_none _ Nk).
      - destruct (user_cases T id Hu) as [Hs He]. exists 2%nat. intros [|[|n]] Hn; try lia.
        unfold pref, ModelEnc.preferPtrEncoder. rewrite Hs, He.
        assert (Y : exists y, x = VObj y) by (destruct Hu as [-> | ->]; inversion Sh; eauto). destruct Y as (y & ->).
        destruct (ma_under_plain id) as (_ & _ & P3). rewrite P3 in X.
        unfold SpecEnc.uses_text, SpecEnc.uses_json, has in *. destruct (ma_json _ _ _ U id), (ma_text _ _ _ U id); try (exfalso; intuition congruence).
        simpl. rewrite X. now rewrite (encodable_none _ Nk). }
    rewrite under_not_ref in Hu by auto.
    assert (X : exists y, x = VObj y) by (destruct Hu as [-> | ->]; inversion Sh; eauto). destruct X as (y & ->).
    destruct (user_cases T id Hu) as [Hs He]. exists 1%nat. intros [|n] Hn; try lia.
    unfold pref, ModelEnc.preferPtrEncoder. rewrite Hs, He.
    unfold SpecEnc.uses_text, SpecEnc.uses_json, has in *. destruct D as [D|[D|[D (m & T' & A)]]].
    - destruct (ma_json _ _ _ U id); try (exfalso; intuition congruence). reflexivity.
    - destruct (ma_json _ _ _ U id), (ma_text _ _ _ U id); try (exfalso; intuition congruence). reflexivity.
    - assert (Z : callEmpty _ _ _ E U G32 G64 e32 e64 id (VObj y) = Some false) by (unfold callEmpty, isEmptyFunctions; now rewrite A).
      destruct (ma_json _ _ _ U id), (ma_text _ _ _ U id); try (exfalso; intuition congruence); exact Z. }
  intros H Sh. destruct (ref_cases (never_omitted F32 F64 C E U) T H) as [N|(k & -> & [X|X])]; auto.
  - apply tests_ref; auto. inversion Sh; subst. apply K; auto; [intros m; apply (nk_ref _ _ _ _ _ NO)|].
    destruct H as [B|(id & Hu & D)]; [left|right; exists id; split; auto; now rewrite under_idem].
    inversion B as [T ky T' Y Nk|T i ky T' Ui X1 X2 X3 Nk]; subst; simpl in *;
      [apply (bm_map _ _ _ _ _ _ ky T')|apply (bm_user _ _ _ _ _ _ i ky T')]; auto; now rewrite under_idem.
  - exfalso. destruct H as [B|(id & Hu & _)].
    + inversion B as [T ky T' Y Nk|T i ky T' Ui X1 X2 X3 Nk]; subst; simpl in *; rewrite X in *; [discriminate|destruct Ui; discriminate].
    + simpl in Hu. rewrite X in Hu. destruct Hu; discriminate.
Qed.
Lemma empty_shaped T v : empty T v -> shaped T v.
Proof.
  intros H. induction H; try constructor; auto.
  - destruct H as [-> | ->]; constructor.
  - destruct H as [-> | ->]; constructor.
Qed.
Lemma encodes_shaped a T q v t : encodes a T q v t -> shaped T v.
Proof using NO.
  intros H. induction H; try constructor; auto; try (destruct H as [-> | ->]; constructor).
  1: rewrite H1; constructor.
  all: rewrite (nk_dyn _ _ _ _ _ NO n) by congruence; constructor.
Qed.

(** ** Fields *)
Lemma cut_reach path v : cut F32 F64 C path v -> reach _ _ _ path v = Some None.
Proof. intros H. induction H as [| |i path l v Hn H IH]; simpl; auto. now rewrite Hn. Qed.
Lemma leads_reach path v x : leads F32 F64 C path v x -> reach _ _ _ path v = Some (Some x).
Proof. intros H. induction H as [| |i path l v x Hn H IH]; simpl; auto. now rewrite Hn. Qed.

(** ** Interfaces *)
Lemma isEmptyStruct_ok T : isEmptyStruct _ _ _ E U T = true <-> no_fields false T.
Proof.
  unfold isEmptyStruct. split.
  - destruct (ModelVal.under _ _ _ _ T) eqn:X; try discriminate.
    1,2: intros H; apply andb_prop in H as [Hp H]; destruct (ModelVal.under _ _ _ _ (ma_under _ _ _ U id)) as [| | | | | | | | | | | | |l [|]| | | |] eqn:Y; try discriminate;
      unfold plainUser in Hp; apply (nf_user _ _ _ _ _ _ _ id l); auto; [rewrite X; (now left) || (now right)| |];
      unfold SpecEnc.uses_text, SpecEnc.uses_json, has; destruct (ma_json _ _ _ U id), (ma_text _ _ _ U id); try discriminate; intuition congruence.
    destruct fields; [|discriminate]. intros _. now apply (nf_struct _ _ _ _ _ _ _ layout).
  - intros H. inversion H as [T' l X|T' i l Ui X1 X2 X3]; subst; [now rewrite X|].
    assert (P : plainUser _ _ _ U i = true).
    { unfold plainUser. unfold SpecEnc.uses_text, SpecEnc.uses_json, has in *. destruct (ma_json _ _ _ U i), (ma_text _ _ _ U i); auto; exfalso; intuition congruence. }
    destruct Ui as [-> | ->]; now rewrite P, X3.
Qed.
Lemma nil_word_stored T v : nil_word T v -> exists n0, forall n, (n0 <= n)%nat -> storedNil _ _ _ E U n T v = Some true.
Proof.
  intros H. induction H as [T|k T|T fs v H (n0 & IH)|T v H (n0 & IH)|k v H (n0 & IH)|T id x Hu H (n0 & IH)].
  1,2: exists 1%nat; intros [|n] Hn; [lia|reflexivity].
  all: exists (S n0); intros [|n] Hn; [lia|]; try (simpl; apply IH; lia).
  destruct Hu as [-> | ->]; simpl; apply IH; lia.
Qed.
Lemma set_word_stored T v : set_word T v -> exists n0, forall n, (n0 <= n)%nat -> storedNil _ _ _ E U n T v = Some false.
Proof.
  intros H. induction H as [T v H|T v|k T m|T fs v H (n0 & IH)|T v H (n0 & IH)|k v H (n0 & IH)|T id x Hu H (n0 & IH)].
  1: exists 1%nat; intros [|n] Hn; [lia|]; destruct T as [| | | | | | | | | |[|[|]]| | |[|? [|]]| | | |]; simpl in H |- *; try contradiction; auto;
    destruct v; reflexivity.
  1,2: exists 1%nat; intros [|n] Hn; [lia|reflexivity].
  all: exists (S n0); intros [|n] Hn; [lia|]; try (simpl; apply IH; lia).
  destruct Hu as [-> | ->]; simpl; apply IH; lia.
Qed.

(** ** The parts *)
Lemma int_range_text signed w z : in_range signed w z -> exists t, numeral z t /\
  forall b, (if signed then appendInt (toI w) b z else appendUint (toI w) b z) = Some (b ++ t).
Proof.
  intros H. destruct signed.
  - apply appendInt_numeral. destruct w; exact H.
  - apply appendUint_numeral. destruct w; exact H.
Qed.
Lemma emits_one a T q v t : special T = None -> (forall n, puts (en_Encode _ _ _ (encode (S n) T) (Some v) q) t) -> emits a T q v t.
Proof. intros Sp H. exists 1%nat. intros [|n] Hn; [lia|]. rewrite pref_plain by auto. apply H. Qed.
Lemma emits_int a signed w z : in_range signed w z -> exists t, numeral z t /\
  emits a (TInt signed w) false (VInt z) t /\ emits a (TInt signed w) true (VInt z) (quote t).
Proof.
  intros H. destruct (int_range_text _ _ _ H) as (t & N & R). exists t. split; auto.
  split; apply emits_one; try reflexivity; intros n; simpl; destruct signed; apply puts_call; intros p;
    [apply eff_int|apply eff_uint|apply eff_qint|apply eff_quint]; auto.
Qed.
Lemma bytes_quote b : is_bytes b -> is_bytes (quote b).
Proof.
  intros H. unfold quote. constructor; [unfold is_byte; lia|]. apply Forall_app. split; auto. constructor; [unfold is_byte; lia|constructor].
Qed.
Lemma utf8_bytes r : scalar r -> is_bytes (utf8 r).
Proof.
  intros H. destruct (utf8_cases r H) as [[R ->]|[[R ->]|[[R ->]|[R ->]]]]; repeat constructor; unfold is_byte; euc.
Qed.
Lemma points_text html b : points html b -> utf8_text b /\ is_bytes b.
Proof.
  intros (rs & -> & H). induction H as [|r rs (Hr & _) H [IH1 IH2]]; [repeat constructor|].
  cbn [flat_map]. split; [now constructor|]. apply Forall_app. split; auto. now apply utf8_bytes.
Qed.
Lemma utf8_snoc b : utf8_text b -> utf8_text (b ++ [34]).
Proof.
  intros H. induction H as [|r l Hr H IH].
  - rewrite <- (utf8_ascii 34) by lia. replace ([] ++ utf8 34) with (utf8 34 ++ []) by now rewrite app_nil_r.
    constructor; [left; lia|constructor].
  - rewrite <- app_assoc. now constructor.
Qed.
Lemma utf8_quote b : utf8_text b -> utf8_text (quote b).
Proof.
  intros H. unfold quote. change (34 :: b ++ [34]) with ([34] ++ b ++ [34]). rewrite <- (utf8_ascii 34) at 1 by lia.
  constructor; [left; lia|now apply utf8_snoc].
Qed.
Lemma emits_quoted_string a s : is_bytes s -> exists b b' s', emits a TString true (VStr s) (quote b) /\
  sanitized s s' /\ string_body b' s' /\ string_body b (quote b').
Proof.
  intros B. destruct (encodeString_eff s cfgHTML B) as (body & EE & us & I & Ub & Z).
  destruct (points_text _ _ Ub) as [Tb Bb].
  destruct (puts_string (quote body) (bytes_quote _ Bb)) as (b & q' & Pb & Sb & Hb).
  assert (q' = quote body) as -> by (eapply sanitized_valid; [eassumption|now apply utf8_quote]).
  exists b, body, (denote us). split; [|split; auto; split; auto; now exists us].
  apply emits_one; auto. intros n. eapply puts_ext; [|exact Pb]. intros w b0 p.
  cbn [ModelEnc.encode en_Encode stringEncoder orNull negb].
  assert (X : docall (SString s) (newStm cfgHTML) = SOk (mkStm None (quote body) None true cfgHTML)).
  { unfold ModelEnc.docall, newStm. now rewrite (eff_string s body false cfgHTML EE). }
  rewrite X. reflexivity.
Qed.
Lemma emits_fun a T q v t n0 : (forall n, (n0 <= n)%nat -> puts (en_Encode _ _ _ (pref n a T) (Some v) q) t) -> emits a T q v t.
Proof. intros H. now exists n0. Qed.
Lemma puts_text r s : r = inl s -> is_bytes s -> exists b s', puts (putText G32 G64 r) (quote b) /\ sanitized s s' /\ string_body b s'.
Proof. intros -> B. apply (puts_string s B). Qed.
Lemma method_call has m T v id x : method F32 F64 C E has T v id x ->
  methodCall _ _ _ E has m T v = Some (m id x).
Proof.
  intros H. unfold methodCall, userOf. destruct H as [T id x [-> | ->] Hm|T id x [Hu|Hu] Hm].
  1,2: now rewrite Hm.
  all: simpl; rewrite Hu; destruct (has id); congruence.
Qed.
Lemma bytesOf_map data : bytesOf F32 F64 C (map VInt data) = Some data.
Proof. induction data as [|z l IH]; simpl; [reflexivity|now rewrite IH]. Qed.
Lemma emits_ref a k q v t : ma_dyn _ _ _ U k = None -> ~ pointer_methods (te_type _ _ _ E k) -> emits a (te_type _ _ _ E k) q v t -> emits a (TRef k) q v t.
Proof using NO. intros H P (n0 & R). exists (S n0). intros [|n] Hn; [lia|]. rewrite pref_ref by auto. apply R. pose proof (rest_le n k). lia. Qed.

Lemma encode_plain s hh : is_bytes s -> encodeString [] s hh = Some (quote s) -> forall b, encodeString b s hh = Some (b ++ 34 :: s ++ [34]).
Proof.
  intros B H b. destruct (encodeString_eff s hh B) as (body & EE & _). rewrite (EE []) in H. unfold quote in H.
  injection H as H. apply app_inv_tail in H as ->. apply EE.
Qed.
Lemma bytes_dec l : forallb (fun c => (0 <=? c) && (c <? 256)) l = true -> is_bytes l.
Proof. intros H. apply Forall_forall. intros c I. rewrite forallb_forall in H. specialize (H c I). unfold is_byte. lia. Qed.
Lemma number_some : ~ number [].
Proof. intros N. inversion N as [t Hu|]; subst. inversion Hu as [i f e Hi Hf He X]. destruct Hi; discriminate. Qed.
Lemma emits_eface a T q v t : T = TEface \/ T = TIface -> emits a TEface q v t -> emits a T q v t.
Proof. intros [-> | ->] H; auto. destruct H as (n0 & R). exists (S n0). intros [|n] Hn; [lia|]. exact (R (S n) ltac:(lia)). Qed.
Lemma no_fields_nil T : no_fields false T -> exists n0, forall n q, (n0 <= n)%nat -> puts (en_Encode _ _ _ (encode n T) None q) (bs "null").
Proof using NO.
  assert (K : forall T, (forall k, T <> TRef k) -> no_fields false T -> exists n0, forall n q, (n0 <= n)%nat -> puts (en_Encode _ _ _ (encode n T) None q) (bs "null")).
  { clear T. intros T N H. exists 2%nat. intros [|[|n]] q Hn; try lia.
    eapply puts_ext; [|apply puts_null]. intros w b p.
    destruct (no_fields_kind _ _ H N) as [(l & ->)|(id & l & Hu & Hj & Ht & Hl)]; [reflexivity|].
    destruct (user_cases T id Hu) as [_ He]. rewrite He.
    unfold SpecEnc.uses_text, SpecEnc.uses_json, has in *. destruct (ma_json _ _ _ U id), (ma_text _ _ _ U id); try (exfalso; intuition congruence);
      simpl; now rewrite Hl. }
  intros H. destruct (ref_cases (no_fields false) T H) as [N|(k & -> & [X|X])]; auto.
  - destruct (K (te_type _ _ _ E k)) as (n0 & R); [intros m; apply (nk_ref _ _ _ _ _ NO)|now apply no_fields_ref|].
    exists (S n0). intros [|n] q Hn; [lia|]. rewrite encode_ref; [apply R; pose proof (rest_le n k); lia|auto|].
    intros P. apply no_fields_ref in H. inversion P as [T' id Hu _ Z|T' id Hu _ _ Z]; rewrite <- Z in H; apply no_fields_kind in H; try discriminate;
      destruct H as [(l & H)|(i & l & [H|H] & _)]; discriminate.
  - exfalso. apply no_fields_ref in H. rewrite X in H. apply no_fields_kind in H; [|discriminate].
    destruct H as [(l & H)|(id & l & [H|H] & _)]; discriminate.
Qed.
Definition P_list (T : ty) (l : list gval) (ts : list bytes) : Prop :=
  exists n0, forall n, (n0 <= n)%nat -> steps (fun x => en_Encode _ _ _ (pref n true T) (Some x) false) l ts.
Definition entryStep (ke : keyEncoder) (enc : encoder) (p : key * gval) (s : stm) : sres :=
  ke (fst p) s >>> fun s' =>
    match sm_error s' with Some _ => SOk s' | None => en_Encode _ _ _ enc (Some (snd p)) false s' end.
Definition P_map (k : kty) (T : ty) (m : list (key * gval)) (ps : list (bytes * bytes)) : Prop :=
  forall ke, newKeyEncoder F32 F64 C U G32 G64 k = Some ke -> exists n0, forall n, (n0 <= n)%nat -> steps (entryStep ke (encode n T)) m (map pairText ps).
(** the keys of maps *)
Definition names (ke : keyEncoder) (key : key) (q : bytes) : Prop :=
  forall p w b, ke key (mkStm w b None p h) = SOk (mkStm w (b ++ comma p ++ q ++ [58]) None false h).
Lemma names_field s : is_bytes s -> exists b s', names (fun _ => docall (SField s)) (KS s) (quote b) /\ sanitized s s' /\ string_body b s'.
Proof.
  intros B. destruct (encodeString_eff s h B) as (body & EE & us & I & _ & Z2). exists body, (denote us). split; [|split; auto; now exists us].
  intros p w b0. rewrite (docall_eff _ _ _ _ _ _ (eff_field s body p h EE)). do 2 f_equal. unfold quote. simpl. now rewrite <- app_assoc.
Qed.
Lemma names_int sg w z : in_range sg w z -> exists u, numeral z u /\ exists ke, kindKeyEncoder G32 G64 (KKInt sg w) = Some ke /\ names ke (KI z) (quote u).
Proof.
  intros Hr. destruct (int_range_text _ _ _ Hr) as (u & N' & RR). exists u. split; auto. eexists. split; [reflexivity|].
  intros p w0 b0. unfold ifNoError. cbn [sm_error].
  replace (if sg then appendInt (toI w) [34] z else appendUint (toI w) [34] z) with (Some ([34] ++ u)) by (symmetry; destruct sg; apply RR).
  change (([34] ++ u) ++ [34]) with (quote u). apply (docall_eff _ _ _ _ _ _ (eff_rawField (quote u) p h)).
Qed.
Lemma names_put s : is_bytes s -> exists b s', (forall key, names (fun _ => putKey G32 G64 s) key (quote b)) /\ sanitized s s' /\ string_body b s'.
Proof.
  intros B. destruct (puts_string s B) as (b & s' & H1 & H2 & H3). exists b, s'. split; auto. intros key p w b0.
  unfold putKey. rewrite H1. cbn [sbind]. unfold set_poped, ModelStream.put, set_buffer. cbn [sm_writer sm_buffer sm_error sm_poped sm_html].
  do 2 f_equal. now rewrite <- !app_assoc.
Qed.
Lemma string_keys k : (k = KString \/ exists u m, k = KUser KKString u m) -> newKeyEncoder F32 F64 C U G32 G64 k = kindKeyEncoder G32 G64 KKString.
Proof. intros [-> |(u & m & ->)]; reflexivity. Qed.
Lemma text_keys kd u id sh key : kd <> KKString -> sh <> KIface -> (sh <> KIndir -> ma_keyNil _ _ _ U id key = false) ->
  exists ke, newKeyEncoder F32 F64 C U G32 G64 (KUser kd u (Some (id, sh))) = Some ke /\
    forall p w b, ke key (mkStm w b None p h) = putKeyText G32 G64 (ma_keyText _ _ _ U id key) (mkStm w b None p h).
Proof.
  intros N I W. destruct sh; try congruence.
  - exists (textMarshalerKeyEncoder F32 F64 C U G32 G64 id). split; [destruct kd; reflexivity || congruence|reflexivity].
  - exists (directTextMarshalerKeyEncoder F32 F64 C U G32 G64 id). split; [destruct kd; reflexivity || congruence|].
    intros p w b. unfold directTextMarshalerKeyEncoder, ifNoError. cbn [sm_error]. now rewrite W by discriminate.
  - exists (directTextMarshalerKeyEncoder F32 F64 C U G32 G64 id). split; [destruct kd; reflexivity || congruence|].
    intros p w b. unfold directTextMarshalerKeyEncoder, ifNoError. cbn [sm_error]. now rewrite W by discriminate.
Qed.
Lemma key_ok k key : fits_key F32 F64 C U k key -> exists q ke, encodes_key F32 F64 C U k key q /\
  newKeyEncoder F32 F64 C U G32 G64 k = Some ke /\ names ke key q.
Proof.
  intros H. destruct H as [s B|sg w z R|u m s B|sg w u z R|kd u id key N Hn|kd u id sh key s N Hi Hw M B].
  - destruct (names_field s B) as (b & s' & H1 & H2 & H3). exists (quote b). eexists. split; [now apply ek_str with s'|]. split; [reflexivity|exact H1].
  - destruct (names_int _ _ _ R) as (t & N & ke & K & H). exists (quote t), ke. split; [now constructor|]. split; [exact K|exact H].
  - destruct (names_field s B) as (b & s' & H1 & H2 & H3). exists (quote b). eexists. split; [now apply ek_user_str with s'|]. split; [reflexivity|exact H1].
  - destruct (names_int _ _ _ R) as (t & N & ke & K & H). exists (quote t), ke. split; [now constructor|]. split; [exact K|exact H].
  - destruct (names_put [] ltac:(constructor)) as (b & s' & H1 & H2 & H3).
    assert (s' = []) as -> by (eapply sanitized_valid; [exact H2|constructor]).
    exists (quote b), (directTextMarshalerKeyEncoder F32 F64 C U G32 G64 id). split; [now constructor|]. split; [destruct kd; reflexivity || congruence|].
    intros p w b0. unfold directTextMarshalerKeyEncoder, ifNoError. cbn [sm_error]. rewrite Hn. apply (H1 key).
  - destruct (names_put s B) as (b & s' & H1 & H2 & H3). destruct (text_keys kd u id sh key N Hi Hw) as (ke & K & Hk).
    exists (quote b), ke. split; [now apply ek_text with s s'|]. split; auto.
    intros p w b0. rewrite Hk, M. apply (H1 key).
Qed.
Lemma encodes_fits_key k key q : encodes_key F32 F64 C U k key q -> fits_key F32 F64 C U k key.
Proof. intros H. destruct H; econstructor; eauto. Qed.
Definition P_fields (fs : list (field ty)) (v : gval) (ps : list (bytes * bytes)) : Prop :=
  exists n0, forall n, (n0 <= n)%nat ->
    steps (encodeField _ _ _ G32 G64 v) (map (fun fd => addField _ _ _ fd (pref n true (f_type fd))) fs) (map pairText ps).
Lemma puts_member f g k t : (forall p w b, f (mkStm w b None p h) = SOk (mkStm w (b ++ comma p ++ k ++ [58]) None false h)) ->
  puts g t -> puts (fun s => f s >>> g) (pairText (k, t)).
Proof.
  intros Hf Hg p w b. rewrite Hf. cbn [sbind]. rewrite Hg. do 2 f_equal. unfold pairText. cbn [fst snd comma].
  rewrite app_nil_l. rewrite <- !app_assoc. reflexivity.
Qed.

(** The encoders write the texts of the specification *)
Theorem encode_ok :
  (forall a T q v t, encodes a T q v t -> exists t', encodes a T q v t' /\ emits a T q v t') /\
  (forall T l ts, encodes_list T l ts -> exists ts', encodes_list T l ts' /\ P_list T l ts') /\
  (forall k T m ps, encodes_map k T m ps -> exists ps', encodes_map k T m ps' /\ P_map k T m ps') /\
  (forall fs v ps, encodes_fields fs v ps -> exists ps', encodes_fields fs v ps' /\ P_fields fs v ps').
Proof using NO S32 S64.
  apply encodes_mutind.
  - intros a. exists (bs "true"). split; [constructor|]. apply emits_one; auto. intros n. apply puts_call. intros p. apply (eff_bool true).
  - intros a. exists (bs "false"). split; [constructor|]. apply emits_one; auto. intros n. apply puts_call. intros p. apply (eff_bool false).
  - intros a. exists (quote (bs "true")). split; [constructor|]. apply emits_one; auto. intros n. apply puts_call. intros p. apply eff_string.
    apply encode_plain; [now apply bytes_dec|destruct h; reflexivity].
  - intros a. exists (quote (bs "false")). split; [constructor|]. apply emits_one; auto. intros n. apply puts_call. intros p. apply eff_string.
    apply encode_plain; [now apply bytes_dec|destruct h; reflexivity].
  - intros a sg w z t R N. destruct (emits_int a sg w z R) as (t' & N' & H & _). exists t'. split; auto. now constructor.
  - intros a sg w z t R N. destruct (emits_int a sg w z R) as (t' & N' & _ & H). exists (quote t'). split; auto. now constructor.
  - intros a q x t Hi Hn Ht. destruct (appendFloat_ok G32 S32 (e32 x) Hi Hn) as (t' & N & R). exists t'. split; [now constructor|].
    apply emits_one; auto. intros n. apply puts_call. intros p. now apply eff_float32.
  - intros a q x t Hi Hn Ht. destruct (appendFloat_ok G64 S64 (e64 x) Hi Hn) as (t' & N & R). exists t'. split; [now constructor|].
    apply emits_one; auto. intros n. apply puts_call. intros p. now apply eff_float64.
  - intros a s s' b B Z Hb. destruct (puts_string s B) as (b' & s2 & H1 & H2 & H3). exists (quote b'). split; [now constructor 9 with s2|].
    apply emits_one; auto.
  - intros a s s' b b' B Z Hb' Hb. destruct (emits_quoted_string a s B) as (c & c' & s2 & H1 & H2 & H3 & H4). exists (quote c).
    split; auto. now apply e_quoted_string with s2 c'.
  - intros a q t N. exists t. split; [now constructor|]. apply emits_one; auto. intros n. simpl.
    destruct t as [|c t]; [|apply puts_raw]. exfalso. now apply number_some.
  - intros a q. exists (bs "0"). split; [now constructor|]. apply emits_one; auto. intros n. apply puts_raw.
  - intros a q t j V. exists t. split; [now apply e_raw with j|]. apply emits_one; auto. intros n. apply puts_raw.
  - intros a T id q x t j Hu Hj M V. exists t. split; [now apply e_json with id j|]. exists 1%nat. intros [|n] Hn; [lia|].
    eapply puts_ext; [now apply (user_json a T id)|]. rewrite M. apply puts_raw.
  - intros a T id q x s s' b Hu Ht M B Z Hb. destruct (puts_text _ s M B) as (b' & s2 & H1 & H2 & H3). exists (quote b').
    split; [now apply e_text with id s s2|]. exists 1%nat. intros [|n] Hn; [lia|]. eapply puts_ext; [now apply (user_text a T id)|]. exact H1.
  - intros a T id q x t Hu Hj Ht _ (t' & H & n0 & R). exists t'. split; [now apply e_user with id|].
    exists (S n0). intros [|n] Hn; [lia|]. rewrite (user_plain _ _ id) by auto. apply (R n). lia.
  - intros a T q Hn. exists (bs "null"). split; [now constructor|].
    destruct (special T) as [sp|] eqn:Sp.
    + apply emits_one; auto. intros n. simpl. rewrite Sp. unfold ModelEnc.special in Sp. destruct (userOf _ _ _ _ T) as [i|]; [|discriminate].
      destruct (ma_json _ _ _ U i), (ma_text _ _ _ U i); try discriminate; injection Sp as <-; eapply puts_ext; try apply puts_null; reflexivity.
    + destruct (nil_emits T Hn Sp) as (n0 & R). exists (S n0). intros [|n] Hm; [lia|]. rewrite pref_plain by reflexivity. simpl. rewrite Sp. apply R. lia.
  - intros a T q v t _ (t' & H & n0 & R). exists t'. split; [now constructor|]. exists (S n0). intros [|n] Hn; [lia|].
    rewrite pref_plain by reflexivity. specialize (R n ltac:(lia)). unfold pref, ModelEnc.preferPtrEncoder in R. simpl. destruct (special T); exact R.
  - intros a n T q l t ts L A _ (ts' & H & n0 & R). exists (91 :: sepText false ts' ++ [93]).
    split; [apply e_array with ts'; auto; apply sep_array_of|]. exists (S n0). intros [|m] Hn; [lia|]. rewrite pref_plain by reflexivity.
    destruct n as [|n].
    + destruct l; [|discriminate]. inversion H; subst. apply puts_raw.
    + simpl. apply (puts_list _ l ts' (R m ltac:(lia))).
  - intros a T q. exists (bs "null"). split; [now constructor|]. apply emits_one; auto. intros n. simpl.
    destruct (ModelVal.under _ _ _ _ T) as [|[] []| | | | | | | | | | | | | | | |]; eapply puts_ext; try apply puts_null; reflexivity.
  - intros a T q l t ts Hb A _ (ts' & H & n0 & R). exists (91 :: sepText false ts' ++ [93]).
    split; [apply e_slice with ts'; auto; apply sep_array_of|]. exists (S n0). intros [|m] Hn; [lia|]. rewrite pref_plain by reflexivity.
    assert (X : encode (S m) (TSlice T) = sliceEncoder _ _ _ G32 G64 (pref m true T)).
    { simpl. destruct (ModelVal.under _ _ _ _ T) as [|[] []| | | | | | | | | | | | | | | |]; try reflexivity. now exfalso. }
    rewrite X. destruct l as [|x l].
    + inversion H; subst. eapply puts_ext; [|apply (puts_raw (bs "[]"))]. reflexivity.
    + eapply puts_ext; [|apply (puts_list _ (x :: l) ts' (R m ltac:(lia)))]. reflexivity.
  - intros a T q data text Hb B D. exists (quote text). split; [now constructor|].
    assert (Z : match data with [] => [] | _ => b64encode data end = text).
    { destruct data; [now inversion D|]. eapply base64_fun; [|exact D]. now apply b64encode_spec. }
    apply emits_one; auto. intros n p w b. simpl. rewrite Hb. cbn [en_Encode base64Encoder ifNoError sm_error orNull].
    rewrite bytesOf_map. destruct data; rewrite ?Z, <- ?Z, onVal_eq; unfold ModelStream.put, quote, set_buffer;
      cbn [sm_writer sm_buffer sm_error sm_poped sm_html]; do 2 f_equal; rewrite <- !app_assoc; reflexivity.
  - intros a k T q Hk. exists (bs "null"). split; [now constructor|]. destruct (encodable_some k Hk) as (ke & Hke).
    apply emits_one; auto. intros n. simpl. rewrite Hke. eapply puts_ext; [|apply puts_null]; reflexivity.
  - intros a k T q m t ps Hk O _ (ps' & H & R0). exists (123 :: sepText false (map pairText ps') ++ [125]).
    split; [apply e_map with ps'; auto; apply sep_object_of|]. destruct (encodable_some k Hk) as (ke & Hke). destruct (R0 ke Hke) as (n0 & R).
    exists (S n0). intros [|n] Hn; [lia|]. rewrite pref_plain by reflexivity. simpl. rewrite Hke.
    eapply puts_ext; [|apply (puts_object _ m _ (R n ltac:(lia)))]. reflexivity.
  - intros a lay fs q v t ps O _ (ps' & H & n0 & R). exists (123 :: sepText false (map pairText ps') ++ [125]).
    split; [apply e_struct with ps'; auto; apply sep_object_of|]. exists (S n0). intros [|n] Hn; [lia|]. rewrite pref_plain by reflexivity.
    destruct fs as [|fd fs].
    + inversion H; subst. apply puts_raw.
    + eapply puts_ext; [|apply (puts_object _ _ _ (R n ltac:(lia)))]. reflexivity.
  - intros a T q D. exists (bs "null"). split; [now constructor|].
    destruct D as [-> | ->]; apply emits_one; auto; intros n; eapply puts_ext; try apply puts_null; reflexivity.
  - intros a T q T' v t D Nw _ (t' & H & n0 & R). exists t'. split; [now constructor|].
    assert (X : emits a TEface q (VIface (Some (T', v))) t').
    { assert (W : exists n1, forall n, (n1 <= n)%nat -> (if isEmptyStruct _ _ _ E U T' then storedNil _ _ _ E U n T' v else Some false) = Some false).
      { destruct (isEmptyStruct _ _ _ E U T') eqn:X1; [|now exists 0%nat]. apply set_word_stored, Nw. now apply isEmptyStruct_ok. }
      destruct W as (n1 & W). exists (S (Nat.max n0 n1)). intros [|n] Hn; [lia|]. rewrite pref_plain by reflexivity. eapply puts_ext; [|apply (R n ltac:(lia))].
      intros w b p. cbn [ModelEnc.encode en_Encode interfaceEncoder orNull]. unfold encValue, ifNoError. cbn [sm_error pref].
      now rewrite (W n) by lia. }
    now apply emits_eface.
  - intros a T q T' v D Q Nf Nw. exists (bs "null"). split; [now constructor|].
    assert (X : emits a TEface q (VIface (Some (T', v))) (bs "null")).
    { destruct (nil_word_stored _ _ Nw) as (n0 & R). destruct (no_fields_nil _ Nf) as (n1 & R1).
      exists (S (Nat.max n0 n1)). intros [|n] Hn; [lia|]. rewrite pref_plain by reflexivity. eapply puts_ext; [|apply (R1 n q); lia].
      intros w b p. cbn [ModelEnc.encode en_Encode interfaceEncoder orNull]. unfold encValue, ifNoError. cbn [sm_error].
      rewrite (R n) by lia. apply isEmptyStruct_ok in Nf. now rewrite Nf. }
    now apply emits_eface.
  - intros a k q v t Hd Hp _ (t' & H & R). exists t'. split; [now constructor|]. now apply emits_ref.
  - intros a k q T v t Hd Q Hk Hp _ (t' & H & n0 & R). exists t'. split; [now apply e_ref_quirk with T|]. exists (S n0). intros [|n] Hn; [lia|].
    assert (Sp : special (TRef k) = None) by (apply special_not_user; simpl; rewrite Hk; intros i [X|X]; discriminate).
    rewrite pref_plain by exact Sp. cbn [ModelEnc.encode]. rewrite Hd, Hk. exact (R n ltac:(lia)).
  - intros a k q d Hdd Hd. exists (bs "null"). split; [now apply e_dyn_nil with d|].
    assert (N : ma_dyn _ _ _ U k <> None) by congruence. pose proof (special_dyn k N) as Sp.
    apply emits_one; auto. intros n. simpl. rewrite Hd. destruct Hdd as [-> | ->]; eapply puts_ext; try apply puts_null; reflexivity.
  - intros a k q T v id x t j Hd Hm M V. exists t. split; [now apply e_dyn_json with id x j|].
    assert (N : ma_dyn _ _ _ U k <> None) by congruence. pose proof (special_dyn k N) as Sp.
    apply emits_one; auto. intros n. simpl. rewrite Hd. eapply puts_ext; [|apply puts_raw]. intros w b p.
    cbn [en_Encode dynamicJSONMarshalerEncoder ifNoError sm_error orNull]. rewrite (method_call _ _ _ _ _ _ Hm), M. reflexivity.
  - intros a k q T v id x s s' b Hd Hm M B Z Hb. destruct (puts_text _ s M B) as (b' & s2 & H1 & H2 & H3). exists (quote b').
    split; [now apply e_dyn_text with id x s s2|].
    assert (N : ma_dyn _ _ _ U k <> None) by congruence. pose proof (special_dyn k N) as Sp.
    apply emits_one; auto. intros n. simpl. rewrite Hd. eapply puts_ext; [|exact H1]. intros w b0 p.
    cbn [en_Encode dynamicTextMarshalerEncoder ifNoError sm_error orNull]. rewrite (method_call _ _ _ _ _ _ Hm). reflexivity.
  - intros T. exists []. split; [constructor|]. exists O. intros. constructor.
  - intros T v l t ts _ (t' & H & n0 & R) _ (ts' & Hs & n1 & Rs). exists (t' :: ts'). split; [now constructor|].
    exists (Nat.max n0 n1). intros n Hn. constructor; [apply R; lia|apply Rs; lia].
  - intros k T. exists []. split; [constructor|]. intros ke _. exists O. intros. constructor.
  - intros k T key q v t m ps Hq _ (t' & H & n0 & R) _ (ps' & Hs & R1).
    destruct (key_ok k key (encodes_fits_key _ _ _ Hq)) as (q' & ke & Hq' & Hke & Hn).
    exists ((q', t') :: ps'). split; [now constructor|]. intros ke' Hke'. assert (ke' = ke) by congruence. subst ke'.
    destruct (R1 ke Hke) as (n1 & Rs).
    exists (Nat.max n0 n1). intros n Hm. cbn [map]. constructor; [|apply Rs; lia].
    eapply puts_ext; [|apply (puts_member (ke key)); [|apply (R n ltac:(lia))]].
    + intros w b0 p. unfold entryStep. cbn [fst snd]. rewrite Hn. reflexivity.
    + exact Hn.
  - intros v. exists []. split; [constructor|]. exists O. intros. constructor.
  - intros fd fs v ps Hc _ (ps' & Hs & n1 & Rs). exists ps'. split; [now apply ef_cut|].
    exists n1. intros n Hn. cbn [map]. apply st_quiet; [|now apply Rs]. intros p w b. unfold encodeField. cbn [ef_path addField]. now rewrite (cut_reach _ _ Hc).
  - intros fd fs v x ps Hl Ho Ht He _ (ps' & Hs & n1 & Rs). exists ps'. split; [now apply ef_omit with x|].
    destruct (isEmpty_ok _ _ Ht (empty_shaped _ _ He)) as (b & (n2 & B) & I). apply I in He as ->.
    exists (Nat.max n1 n2). intros n Hn. cbn [map]. apply st_quiet; [|apply Rs; lia]. intros p w b. unfold encodeField. cbn [ef_path addField ModelEnc.ef_omit ef_enc].
    rewrite (leads_reach _ _ _ Hl), Ho. now rewrite B by lia.
  - intros fd fs v x ps Hl Ho Q Hf Sh _ (ps' & Hs & n1 & Rs). exists ps'. split; [now apply ef_omit_quirk with x|].
    destruct (quirk_empty _ _ Hf Sh) as (n2 & B).
    exists (Nat.max n1 n2). intros n Hn. cbn [map]. apply st_quiet; [|apply Rs; lia]. intros p w b. unfold encodeField. cbn [ef_path addField ModelEnc.ef_omit ef_enc].
    rewrite (leads_reach _ _ _ Hl), Ho. now rewrite B by lia.
  - intros fd fs v x b name t ps Hl Ho Hb Z Sb He (t' & H & n0 & R) _ (ps' & Hs & n1 & Rs).
    destruct (encodeString_eff (f_name fd) h Hb) as (body & EE & us & I & _ & Z2).
    exists ((quote body, t') :: ps'). split; [apply ef_put with x (denote us); auto; now exists us|].
    assert (Te : f_omitEmpty fd = true -> tests (f_type fd) x false).
    { intros O. specialize (Ho O). pose proof (encodes_shaped _ _ _ _ _ He) as Sh. destruct Ho as [[Ht Hn]|[_ Hn]].
      - destruct (isEmpty_ok _ _ Ht Sh) as ([] & B & J); auto. exfalso. apply Hn. now apply J.
      - now apply never_empty. }
    assert (X : exists n2, forall n, (n2 <= n)%nat -> (if f_omitEmpty fd then en_isEmpty _ _ _ (pref n true (f_type fd)) x else Some false) = Some false).
    { destruct (f_omitEmpty fd); [exact (Te eq_refl)|]. now exists O. }
    destruct X as (n2 & X).
    exists (Nat.max n0 (Nat.max n1 n2)). intros n Hn. cbn [map]. constructor; [|apply Rs; lia].
    eapply puts_ext; [|apply puts_member; [|apply (R n ltac:(lia))]].
    + intros w b0 p. unfold encodeField. cbn [ef_path addField ModelEnc.ef_omit ef_enc ef_safe ef_raw ef_quoted sm_html].
      rewrite (leads_reach _ _ _ Hl), X by lia.
      replace (if h then encodeString [] (f_name fd) true else encodeString [] (f_name fd) false) with (Some (quote body)) by (symmetry; destruct h; apply EE).
      instantiate (1 := docall (SRawField (quote body))). reflexivity.
    + intros p w b0. apply (docall_eff _ _ _ _ _ _ (eff_rawField (quote body) p h)).
Qed.
End EncFacts.
