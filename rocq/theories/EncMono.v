(** More nesting fuel does not change what an encoder writes (for C51). *)
From Coq Require Import String ZArith List Bool Lia Arith.
From Verif Require Import Base ModelInt ModelFloat ModelOps ModelBase64 ModelStream ModelVal ModelEnc.
Import ListNotations.
Local Open Scope Z_scope.

(** what the first step writes, the second one writes, too *)
Definition below (f g : stm -> sres) : Prop := forall s s', f s = SOk s' -> g s = SOk s'.
Lemma be_refl f : below f f.
Proof. intros s s' H. exact H. Qed.
Lemma be_ok f g : below f g -> below (ifNoError f) (ifNoError g).
Proof. intros B s s'. unfold ifNoError. destruct (sm_error s); auto. Qed.
Lemma be_bind (f f' g g' : stm -> sres) : below f f' -> below g g' -> below (fun s => f s >>> g) (fun s => f' s >>> g').
Proof. intros B D s s' H. destruct (f s) as [s1| |] eqn:X; try discriminate. rewrite (B s s1 X). simpl in *. auto. Qed.
Lemma be_all {A} (f g : A -> stm -> sres) l : (forall x, below (f x) (g x)) -> below (encodeAll f l) (encodeAll g l).
Proof.
  intros B. induction l as [|x l IH]; intros s s' H; simpl in *; auto. destruct (f x s) as [s1| |] eqn:X; try discriminate. rewrite (B x s s1 X). simpl in *.
  destruct (sm_error s1); auto.
Qed.

Section Mono.
Variables F32 F64 : floatOps.
Variable C : custom.
Notation gval := (gval F32 F64 C).
Variable E : env F32 F64 C.
Variable U : marshalers F32 F64 C.
Variables G32 G64 : floatFmt.
Variable e32 : fl F32 -> ff G32.
Variable e64 : fl F64 -> ff G64.
Variable cfgHTML : bool.
Notation encoder := (encoder F32 F64 C).
Notation docall := (docall G32 G64).
Notation preferPtrEncoder := (preferPtrEncoder F32 F64 C E U G32 G64).
Notation encode := (encode F32 F64 C E U G32 G64 e32 e64 cfgHTML).
Notation storedNil := (storedNil F32 F64 C E U).

Definition le (e e' : encoder) : Prop := (forall ptr q, below (en_Encode _ _ _ e ptr q) (en_Encode _ _ _ e' ptr q)) /\
  (forall x b, en_isEmpty _ _ _ e x = Some b -> en_isEmpty _ _ _ e' x = Some b).
Lemma le_refl e : le e e.
Proof. split; [intros ptr q; apply be_refl|auto]. Qed.
Lemma le_null ie (f g : gval -> bool -> stm -> sres) : (forall v q, below (f v q) (g v q)) ->
  le (mkEnc F32 F64 C ie (orNull F32 F64 C G32 G64 f)) (mkEnc F32 F64 C ie (orNull F32 F64 C G32 G64 g)).
Proof. intros B. split; [|auto]. intros [v|] q; [apply B|apply be_refl]. Qed.
Lemma le_nullok ie (f g : gval -> bool -> stm -> sres) : (forall v q, below (f v q) (g v q)) ->
  le (mkEnc F32 F64 C ie (fun ptr q => ifNoError (orNull F32 F64 C G32 G64 f ptr q))) (mkEnc F32 F64 C ie (fun ptr q => ifNoError (orNull F32 F64 C G32 G64 g ptr q))).
Proof. intros B. split; [|auto]. intros [v|] q; apply be_ok; [apply B|apply be_refl]. Qed.
Lemma be_list e e' l : le e e' -> below (fun s => docall SArrayStart s >>> encodeAll (fun x => en_Encode _ _ _ e (Some x) false) l >>> docall SArrayEnd)
  (fun s => docall SArrayStart s >>> encodeAll (fun x => en_Encode _ _ _ e' (Some x) false) l >>> docall SArrayEnd).
Proof.
  intros L. apply (be_bind (fun s => docall SArrayStart s >>> encodeAll (fun x => en_Encode _ _ _ e (Some x) false) l) _ (docall SArrayEnd)); [|apply be_refl].
  apply (be_bind (docall SArrayStart)); [apply be_refl|]. apply be_all. intros x. apply L.
Qed.
Lemma le_pointer e e' : le e e' -> le (pointerEncoder F32 F64 C G32 G64 e) (pointerEncoder F32 F64 C G32 G64 e').
Proof. intros L. apply le_null. intros [| | | | | | |o| | | | |] q; try apply be_refl. apply L. Qed.
Lemma le_array e e' : le e e' -> le (arrayEncoder F32 F64 C G32 G64 e) (arrayEncoder F32 F64 C G32 G64 e').
Proof. intros L. apply le_null. intros [| | | | | | | |l| | | |] q; try apply be_refl. now apply be_list. Qed.
Lemma le_slice e e' : le e e' -> le (sliceEncoder F32 F64 C G32 G64 e) (sliceEncoder F32 F64 C G32 G64 e').
Proof. intros L. apply le_nullok. intros [| | | | | | | | |[[|x l]|]| | |] q; try apply be_refl. now apply be_list. Qed.
Lemma le_map k e e' : le e e' -> le (mapEncoder F32 F64 C G32 G64 k e) (mapEncoder F32 F64 C G32 G64 k e').
Proof.
  intros L. apply le_nullok. intros [| | | | | | | | | |[m|]| |] q; try apply be_refl.
  apply (be_bind (fun s => docall SObjectStart s >>> encodeAll _ m) _ (docall SObjectEnd)); [|apply be_refl].
  apply (be_bind (docall SObjectStart)); [apply be_refl|]. apply be_all. intros p.
  apply (be_bind (k (fst p))); [apply be_refl|]. intros s s' H. destruct (sm_error s); auto. now apply L.
Qed.
Lemma le_field fd e e' v : le e e' -> below (encodeField F32 F64 C G32 G64 v (addField F32 F64 C fd e)) (encodeField F32 F64 C G32 G64 v (addField F32 F64 C fd e')).
Proof.
  intros L s s'. unfold encodeField. cbn [ModelEnc.ef_path ModelEnc.ef_omit ModelEnc.ef_enc ModelEnc.ef_raw ModelEnc.ef_safe ModelEnc.ef_quoted addField].
  destruct (reach F32 F64 C (f_path fd) v) as [[x|]|]; auto.
  destruct (if f_omitEmpty fd then en_isEmpty _ _ _ e x else Some false) as [b|] eqn:X; [|discriminate].
  assert (X' : (if f_omitEmpty fd then en_isEmpty _ _ _ e' x else Some false) = Some b) by (destruct (f_omitEmpty fd); auto; now apply L).
  rewrite X'. destruct b; auto.
  match goal with |- context [match ?n with Some _ => _ | None => SPanic end] => destruct n as [name|] end; [|discriminate].
  intros H. destruct (docall (SRawField name) s) as [s1| |]; try discriminate. simpl in *. now apply L.
Qed.
Lemma map_all {A B} (f : B -> stm -> sres) (g : A -> B) l s : encodeAll f (map g l) s = encodeAll (fun x => f (g x)) l s.
Proof. revert s. induction l as [|x l IH]; intros s; [reflexivity|]. simpl. destruct (f (g x) s) as [s1| |]; auto. simpl. destruct (sm_error s1); auto. Qed.
Lemma le_struct (e e' : ty -> encoder) fs : (forall T, le (e T) (e' T)) ->
  le (structEncoder F32 F64 C G32 G64 (map (fun fd => addField F32 F64 C fd (e (f_type fd))) fs))
     (structEncoder F32 F64 C G32 G64 (map (fun fd => addField F32 F64 C fd (e' (f_type fd))) fs)).
Proof.
  intros L. apply le_nullok. intros v q.
  apply (be_bind (fun s => docall SObjectStart s >>> encodeAll (encodeField F32 F64 C G32 G64 v) _) _ (docall SObjectEnd)); [|apply be_refl].
  apply (be_bind (docall SObjectStart)); [apply be_refl|]. intros s s'. rewrite !map_all. apply be_all. intros fd. now apply le_field.
Qed.
Lemma le_prefer T e e' : le e e' -> le (preferPtrEncoder T e) (preferPtrEncoder T e').
Proof. intros L. unfold ModelEnc.preferPtrEncoder. destruct (special _ _ _ _ _ _ _ T); auto. apply le_refl. Qed.
Lemma le_kind id e e' : le e e' -> le (byKind F32 F64 C U id e) (byKind F32 F64 C U id e').
Proof.
  intros L. split.
  - intros [[| | | | | |y| | | | | |]|] q; try apply be_refl; apply L.
  - intros x c. destruct x; simpl; auto. apply L.
Qed.
Lemma stored_mono n : forall T v b, storedNil n T v = Some b -> storedNil (S n) T v = Some b.
Proof.
  induction n as [|n IH]; intros T v b H; [discriminate|]. change (storedNil (S (S n)) T v) with (match T, v with
      | TPtr _, VPtr None => Some true
      | TMap _ _, VMap None => Some true
      | TStruct [t'] _, VStruct [v'] => storedNil (S n) t' v'
      | TArray 1 t', VArr [v'] => storedNil (S n) t' v'
      | TRef k, _ => storedNil (S n) (te_type _ _ _ E k) v
      | TJson id, VObj x | TText id, VObj x => storedNil (S n) (ma_under _ _ _ U id) (ma_repr _ _ _ U id x)
      | _, _ => Some false
      end).
  cbn [ModelEnc.storedNil] in H. repeat match goal with |- context [match ?x with _ => _ end] => destruct x; auto end.
Qed.
Lemma le_value n (e e' : ty -> encoder) o q : (forall T, le (e T) (e' T)) ->
  below (encValue F32 F64 C E U G32 G64 n e o q) (encValue F32 F64 C E U G32 G64 (S n) e' o q).
Proof.
  intros L. apply be_ok. destruct o as [[T v]|]; [|apply be_refl]. intros s s' H.
  destruct (if isEmptyStruct F32 F64 C E U T then storedNil n T v else Some false) as [b|] eqn:X; [|discriminate].
  assert (X' : (if isEmptyStruct F32 F64 C E U T then storedNil (S n) T v else Some false) = Some b).
  { destruct (isEmptyStruct F32 F64 C E U T); auto. now apply stored_mono. }
  rewrite X'. destruct b; now apply L.
Qed.
Lemma le_iface n (e e' : ty -> encoder) : (forall T, le (e T) (e' T)) ->
  le (interfaceEncoder F32 F64 C E U G32 G64 n e) (interfaceEncoder F32 F64 C E U G32 G64 (S n) e').
Proof. intros L. apply le_null. intros [| | | | | | | | | | | |o] q; try apply be_refl. now apply le_value. Qed.
Theorem encode_mono n : forall T, le (encode n T) (encode (S n) T).
Proof.
  induction n as [|n IH]; intros T; [split; [intros ptr q s s' H; discriminate H|intros x b H; discriminate H]|].
  destruct T as [| | | | | | |id|id|t|k t|t|k t|l fs| | |k|]; try apply le_refl.
  - change (le (match ma_json _ _ _ U id, ma_text _ _ _ U id with
          | RValue, _ => jsonMarshalerEncoder F32 F64 C E U G32 G64 e32 e64 id | _, RValue => textMarshalerEncoder F32 F64 C E U G32 G64 e32 e64 id
          | _, _ => byKind F32 F64 C U id (encode n (ma_under _ _ _ U id)) end)
       (match ma_json _ _ _ U id, ma_text _ _ _ U id with
          | RValue, _ => jsonMarshalerEncoder F32 F64 C E U G32 G64 e32 e64 id | _, RValue => textMarshalerEncoder F32 F64 C E U G32 G64 e32 e64 id
          | _, _ => byKind F32 F64 C U id (encode (S n) (ma_under _ _ _ U id)) end)).
    destruct (ma_json _ _ _ U id), (ma_text _ _ _ U id); try apply le_refl; apply le_kind, IH.
  - change (le (match ma_json _ _ _ U id, ma_text _ _ _ U id with
          | RValue, _ => jsonMarshalerEncoder F32 F64 C E U G32 G64 e32 e64 id | _, RValue => textMarshalerEncoder F32 F64 C E U G32 G64 e32 e64 id
          | _, _ => byKind F32 F64 C U id (encode n (ma_under _ _ _ U id)) end)
       (match ma_json _ _ _ U id, ma_text _ _ _ U id with
          | RValue, _ => jsonMarshalerEncoder F32 F64 C E U G32 G64 e32 e64 id | _, RValue => textMarshalerEncoder F32 F64 C E U G32 G64 e32 e64 id
          | _, _ => byKind F32 F64 C U id (encode (S n) (ma_under _ _ _ U id)) end)).
    destruct (ma_json _ _ _ U id), (ma_text _ _ _ U id); try apply le_refl; apply le_kind, IH.
  - change (le (match special F32 F64 C E U G32 G64 t with Some p => p | None => pointerEncoder F32 F64 C G32 G64 (encode n t) end)
       (match special F32 F64 C E U G32 G64 t with Some p => p | None => pointerEncoder F32 F64 C G32 G64 (encode (S n) t) end)).
    destruct (special F32 F64 C E U G32 G64 t); [apply le_refl|apply le_pointer, IH].
  - destruct k; [apply le_refl|]. apply (le_array (preferPtrEncoder t (encode n t)) (preferPtrEncoder t (encode (S n) t))), le_prefer, IH.
  - assert (D : le (sliceEncoder F32 F64 C G32 G64 (preferPtrEncoder t (encode n t))) (sliceEncoder F32 F64 C G32 G64 (preferPtrEncoder t (encode (S n) t))))
      by apply le_slice, le_prefer, IH.
    change (le (match under F32 F64 C E t with TInt false W8 => base64Encoder F32 F64 C G32 G64 | _ => sliceEncoder F32 F64 C G32 G64 (preferPtrEncoder t (encode n t)) end)
       (match under F32 F64 C E t with TInt false W8 => base64Encoder F32 F64 C G32 G64 | _ => sliceEncoder F32 F64 C G32 G64 (preferPtrEncoder t (encode (S n) t)) end)).
    destruct (under F32 F64 C E t) as [| [] []| | | | | | | | | | | | | | | |]; auto. apply le_refl.
  - change (le (match newKeyEncoder F32 F64 C U G32 G64 k with Some enc => mapEncoder F32 F64 C G32 G64 enc (encode n t) | None => notSupportedEncoder F32 F64 C G32 G64 end)
       (match newKeyEncoder F32 F64 C U G32 G64 k with Some enc => mapEncoder F32 F64 C G32 G64 enc (encode (S n) t) | None => notSupportedEncoder F32 F64 C G32 G64 end)).
    destruct (newKeyEncoder F32 F64 C U G32 G64 k); [apply le_map, IH|apply le_refl].
  - destruct fs as [|f fs]; [apply le_refl|].
    apply (le_struct (fun T => preferPtrEncoder T (encode n T)) (fun T => preferPtrEncoder T (encode (S n) T)) (f :: fs)). intros T. apply le_prefer, IH.
  - apply (le_iface n (encode n) (encode (S n))), IH.
  - apply (le_iface n (encode n) (encode (S n))), IH.
  - change (le (match ma_dyn _ _ _ U k with
          | Some DJson => dynamicJSONMarshalerEncoder F32 F64 C E U G32 G64
          | Some DText => dynamicTextMarshalerEncoder F32 F64 C E U G32 G64
          | Some (DJsonOther | DTextOther) => packedMarshalerEncoder F32 F64 C G32 G64
          | None => match te_type _ _ _ E k with TPtr t => pointerEncoder F32 F64 C G32 G64 (encode n t) | t => encode n t end
          end)
        (match ma_dyn _ _ _ U k with
          | Some DJson => dynamicJSONMarshalerEncoder F32 F64 C E U G32 G64
          | Some DText => dynamicTextMarshalerEncoder F32 F64 C E U G32 G64
          | Some (DJsonOther | DTextOther) => packedMarshalerEncoder F32 F64 C G32 G64
          | None => match te_type _ _ _ E k with TPtr t => pointerEncoder F32 F64 C G32 G64 (encode (S n) t) | t => encode (S n) t end
          end)).
    destruct (ma_dyn _ _ _ U k) as [[]|]; try apply le_refl. destruct (te_type _ _ _ E k); try apply IH. apply le_pointer, IH.
Qed.
Theorem value_mono n m o q : (n <= m)%nat -> below (encValue F32 F64 C E U G32 G64 n (encode n) o q) (encValue F32 F64 C E U G32 G64 m (encode m) o q).
Proof.
  intros H. induction H as [|m H IH]; [apply be_refl|]. intros s s' K. apply IH in K. revert K. apply le_value. apply encode_mono.
Qed.
End Mono.
