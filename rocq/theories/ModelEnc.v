(** Typed encoding: the encoders that Marshal runs.  Code: val_encoder*.go, is_empty.go, streamer_val.go,
    encoder_config.go (choice of the encoder, Marshal).

    Memory is a tree, as in ModelVal.v.  The argument [ptr] of an encoder is the variable it points to;
    [None] is a nil pointer.  Simplifications: custom encoders of an EncoderConfig
    are not modelled; a method called with a nil receiver is taken to panic;
    user-defined types of kind uint8 are not taken for bytes.  Maps are listed in their iteration order. *)
From Coq Require Import String ZArith List Bool.
From Verif Require Import Base ModelInt ModelFloat ModelOps ModelBase64 ModelStream ModelVal.
Import ListNotations.
Local Open Scope Z_scope.

(** val_encoder.go:131 and errors_decoder.go:114-119: TypeNotSupportedError *)
Definition ErrTypeNotSupported := SErr (-1).

(** The outcome of an encoder: the new state of the streamer, or a panic.  [SBad] is not an outcome of the
    code: the nesting fuel is used up or the value does not have the type. *)
Inductive sres := SOk (s : stm) | SPanic | SBad.
(** sequential composition *)
Definition sbind (r : sres) (k : stm -> sres) : sres := match r with SOk s => k s | x => x end.
Notation "r >>> k" := (sbind r k) (at level 50, left associativity).

(** how a method is defined for a named type: not at all, for *T, or for T (and *T) *)
Inductive recv := RNone | RPtr | RValue.
(** Interface types with a method that encoders use: json.Marshaler and encoding.TextMarshaler themselves, which have
    encoders of their own (val_encoder.go:47-48), and the others that include MarshalJSON, or MarshalText and not
    MarshalJSON *)
Inductive dyn := DJson | DText | DJsonOther | DTextOther.

Section Enc.
Variables F32 F64 : floatOps.
Variable C : custom.
Notation gval := (gval F32 F64 C).
Variable E : env F32 F64 C.
Notation under := (under F32 F64 C E).

(** What the encoder sees of the user-defined types [TJson id] and [TText id]: their methods, their
    underlying type and the value of this type that a state stands for; the named types that are
    interfaces with these methods; MarshalText of map keys, and the keys whose data word is nil *)
Record marshalers := mkMarshalers {
  ma_json : nat -> recv;
  ma_text : nat -> recv;
  ma_MarshalJSON : nat -> cu_state C -> bytes + serr;
  ma_MarshalText : nat -> cu_state C -> bytes + serr;
  ma_under : nat -> ty;
  ma_repr : nat -> cu_state C -> gval;
  ma_dyn : nat -> option dyn;
  ma_keyText : nat -> key -> bytes + serr;
  ma_keyNil : nat -> key -> bool
}.
Variable U : marshalers.
(** the streamer's view of the floats *)
Variables G32 G64 : floatFmt.
Variable e32 : fl F32 -> ff G32.
Variable e64 : fl F64 -> ff G64.
(** cfg.escapeHTML *)
Variable cfgHTML : bool.
Notation scall := (scall G32 G64).

(** one method call of the streamer *)
Definition docall (c : scall) (s : stm) : sres := match call c s with Some s' => SOk s' | None => SPanic end.

(** val_encoder.go:114-118: ValEncoder.  [None] of IsEmpty is a panic; EncOpts is the flag Quoted. *)
Record encoder := mkEnc {
  en_isEmpty : gval -> option bool;
  en_Encode : option gval -> bool -> stm -> sres
}.
(** "if ptr == nil { s.Null(); return }", before the rest of an encoder *)
Definition orNull (f : gval -> bool -> stm -> sres) (ptr : option gval) (quoted : bool) (s : stm) : sres :=
  match ptr with None => docall SNull s | Some v => f v quoted s end.
(** "if s.Error != nil { return }" *)
Definition ifNoError (f : stm -> sres) (s : stm) : sres := match sm_error s with Some _ => SOk s | None => f s end.

(** val_encoder_native.go:10-29 *)
Definition boolEncoder : encoder := mkEnc
  (fun v => match v with VBool b => Some (negb b) | _ => None end)
  (orNull (fun v quoted s =>
     match v with
     | VBool b => if negb quoted then docall (SBool b) s
                  else if b then docall (SString (bs "true")) s else docall (SString (bs "false")) s
     | _ => SBad
     end)).

(** val_encoder_native.go:34-56; the second streamer is a new one, with cfg's escapeHTML *)
Definition stringEncoder : encoder := mkEnc
  (fun v => match v with VStr [] => Some true | VStr _ => Some false | _ => None end)
  (orNull (fun v quoted s =>
     match v with
     | VStr str =>
         if negb quoted then docall (SString str) s
         else docall (SString str) (newStm cfgHTML) >>> fun sub =>
              match sm_error sub with
              | Some e => SOk (set_error (Some e) s)
              | None => docall (SString (sm_buffer sub)) s
              end
     | _ => SBad
     end)).

(** the integer methods of the streamer of a width *)
Definition toI (w : width) : iwidth := match w with W8 => I8 | W16 => I16 | W32 => I32 | W64 => I64 end.
(** val_encoder_native_int.go:8-81, val_encoder_native_uint.go:8-93 *)
Definition intEncoder (signed : bool) (w : width) : encoder := mkEnc
  (fun v => match v with VInt z => Some (z =? 0) | _ => None end)
  (orNull (fun v quoted s =>
     match v with
     | VInt z => docall (match signed, quoted with
                         | true, false => SInt (toI w) z | true, true => SQInt (toI w) z
                         | false, false => SUint (toI w) z | false, true => SQUint (toI w) z
                         end) s
     | _ => SBad
     end)).

(** val_encoder_native_float.go:8-20 *)
Definition float32Encoder : encoder := mkEnc
  (fun v => match v with VFloat32 x => Some (ff_zero G32 (e32 x)) | _ => None end)
  (orNull (fun v _ s => match v with VFloat32 x => docall (SFloat32 (e32 x)) s | _ => SBad end)).
(** val_encoder_native_float.go:23-35 *)
Definition float64Encoder : encoder := mkEnc
  (fun v => match v with VFloat64 x => Some (ff_zero G64 (e64 x)) | _ => None end)
  (orNull (fun v _ s => match v with VFloat64 x => docall (SFloat64 (e64 x)) s | _ => SBad end)).

(** val_encoder_json_number.go:7-25 *)
Definition jsonNumberEncoder : encoder := mkEnc
  (fun v => match v with VStr [] => Some true | VStr _ => Some false | _ => None end)
  (orNull (fun v _ s => match v with
                        | VStr str => docall (SRaw (match str with [] => bs "0" | _ => str end)) s
                        | _ => SBad end)).

(** val_encoder_json_rawmessage.go:7-21 *)
Definition jsonRawMessageEncoder : encoder := mkEnc
  (fun v => match v with VRaw (Some (_ :: _)) => Some false | VRaw _ => Some true | _ => None end)
  (orNull (fun v _ s => match v with
                        | VRaw o => docall (SRaw (match o with Some d => d | None => [] end)) s
                        | _ => SBad end)).

(** val_encoder.go:121-132 *)
Definition notSupportedEncoder : encoder := mkEnc
  (fun _ => Some false) (fun _ _ => docall (SSetError ErrTypeNotSupported)).

(** the rest of the marshaler encoders after the method call: "if err != nil { s.Error = err; return };
    s.Raw(b)" and the same with s.String *)
Definition putJSON (r : bytes + serr) (s : stm) : sres :=
  match r with inr e => SOk (set_error (Some e) s) | inl b => docall (SRaw b) s end.
(** val_encoder_text_marshaler.go:32-37: the result of MarshalText is written as a string *)
Definition putText (r : bytes + serr) (s : stm) : sres :=
  match r with inr e => SOk (set_error (Some e) s) | inl b => docall (SString b) s end.

(** is_empty.go:15-45: the functions of the table; [None] is a nil function *)
Definition isEmptyFunctions (t : ty) : option (gval -> option bool) :=
  match under t with
  | TBool => Some (en_isEmpty boolEncoder)
  | TInt s w => Some (en_isEmpty (intEncoder s w))
  | TFloat32 => Some (en_isEmpty float32Encoder)
  | TFloat64 => Some (en_isEmpty float64Encoder)
  | TArray _ _ => Some (fun _ => Some false)
  | TMap _ _ => Some (fun v => match v with VMap o => Some (match o with Some (_ :: _) => false | _ => true end) | _ => None end)
  | TSlice _ => Some (fun v => match v with VSlice o => Some (match o with Some (_ :: _) => false | _ => true end) | _ => None end)
  | TStruct _ _ => Some (fun _ => Some false)
  | _ => None
  end.
(** enc.isEmpty(ptr) of the marshaler encoders *)
Definition callEmpty (id : nat) (v : gval) : option bool :=
  match isEmptyFunctions (ma_under U id), v with
  | Some f, VObj x => f (ma_repr U id x)
  | _, _ => None
  end.
(** val_encoder_json_marshaler.go:18-38 and 45-65: the two differ in how the value is stored in memory *)
Definition jsonMarshalerEncoder (id : nat) : encoder := mkEnc (callEmpty id)
  (fun ptr q => ifNoError (orNull (fun v _ s =>
     match v with VObj x => putJSON (ma_MarshalJSON U id x) s | _ => SBad end) ptr q)).
(** val_encoder_text_marshaler.go:18-38 and 45-65 *)
Definition textMarshalerEncoder (id : nat) : encoder := mkEnc (callEmpty id)
  (fun ptr q => ifNoError (orNull (fun v _ s =>
     match v with VObj x => putText (ma_MarshalText U id x) s | _ => SBad end) ptr q)).
(** val_encoder_json_marshaler.go:69-94; the variable holds a pointer *)
Definition pointerJSONMarshalerEncoder (id : nat) : encoder := mkEnc
  (fun v => match v with VPtr o => Some (match o with None => true | _ => false end) | _ => None end)
  (fun ptr q => ifNoError (orNull (fun v _ s =>
     match v with
     | VPtr None => docall SNull s
     | VPtr (Some (VObj x)) => putJSON (ma_MarshalJSON U id x) s
     | _ => SBad
     end) ptr q)).
(** val_encoder_text_marshaler.go:69-94 *)
Definition pointerTextMarshalerEncoder (id : nat) : encoder := mkEnc
  (fun v => match v with VPtr o => Some (match o with None => true | _ => false end) | _ => None end)
  (fun ptr q => ifNoError (orNull (fun v _ s =>
     match v with
     | VPtr None => docall SNull s
     | VPtr (Some (VObj x)) => putText (ma_MarshalText U id x) s
     | _ => SBad
     end) ptr q)).

(** the user-defined type behind a type *)
Definition userOf (t : ty) : option nat := match under t with TJson id | TText id => Some id | _ => None end.
(** marshaler.MarshalJSON() on the contents of an interface; [None]: the value has no such method or
    the method is called on a nil pointer *)
Definition methodCall (has : nat -> recv) (m : nat -> cu_state C -> bytes + serr) (t : ty) (v : gval) : option (bytes + serr) :=
  match userOf t, v with
  | Some id, VObj x => match has id with RValue => Some (m id x) | _ => None end
  | _, VPtr (Some (VObj x)) =>
      match t with
      | TPtr t' => match userOf t' with
                   | Some id => match has id with RNone => None | _ => Some (m id x) end
                   | None => None
                   end
      | _ => None
      end
  | _, _ => None
  end.
(** val_encoder_json_marshaler.go:98-121 *)
Definition dynamicJSONMarshalerEncoder : encoder := mkEnc
  (fun v => match v with VIface o => Some (match o with None => true | _ => false end) | _ => None end)
  (fun ptr q => ifNoError (orNull (fun v _ s =>
     match v with
     | VIface None => docall SNull s
     | VIface (Some (t, x)) =>
         match methodCall (ma_json U) (ma_MarshalJSON U) t x with Some r => putJSON r s | None => SPanic end
     | _ => SBad
     end) ptr q)).
(** val_encoder_text_marshaler.go:98-117; there is no test for a nil ptr *)
Definition dynamicTextMarshalerEncoder : encoder := mkEnc
  (fun v => match v with VIface o => Some (match o with None => true | _ => false end) | _ => None end)
  (fun ptr q => ifNoError (fun s =>
     match ptr with
     | None => SPanic
     | Some (VIface None) => docall SNull s
     | Some (VIface (Some (t, x))) =>
         match methodCall (ma_text U) (ma_MarshalText U) t x with Some r => putText r s | None => SPanic end
     | Some _ => SBad
     end)).

(** encoder_config.go:151-160, 186-195 for interface types that include the method: jsonMarshalerEncoder and
    textMarshalerEncoder (val_encoder_json_marshaler.go:18-38, val_encoder_text_marshaler.go:18-38) make an interface{} whose
    dynamic type is the interface type.  The assertion to json.Marshaler or encoding.TextMarshaler panics, because the
    runtime finds no methods in the description of an interface type.  IsEmpty calls a nil function (is_empty.go:43). *)
Definition packedMarshalerEncoder : encoder := mkEnc
  (fun _ => None) (fun ptr q => ifNoError (orNull (fun _ _ _ => SPanic) ptr q)).

(** val_encoder_native_ptr.go:20-34 *)
Definition pointerEncoder (elem : encoder) : encoder := mkEnc
  (fun v => match v with VPtr o => Some (match o with None => true | _ => false end) | _ => None end)
  (orNull (fun v q s => match v with VPtr o => en_Encode elem o q s | _ => SBad end)).
(** val_encoder_direct.go:7-17: the encoder gets a variable that holds the pointer *)
Definition directEncoder (enc : encoder) : encoder := mkEnc
  (fun v => en_isEmpty enc (VPtr (Some v)))
  (fun ptr => en_Encode enc (Some (VPtr ptr))).

(** "enc.Encode(...); if s.Error != nil { return }" for each element.  After an error the calls of the
    streamer have no effect, so leaving the loop is as good as returning. *)
Fixpoint encodeAll {A} (f : A -> stm -> sres) (l : list A) (s : stm) : sres :=
  match l with
  | [] => SOk s
  | x :: r => f x s >>> fun s' => match sm_error s' with Some _ => SOk s' | None => encodeAll f r s' end
  end.

(** val_encoder_native_array.go:9-21 *)
Definition emptyArrayEncoder : encoder := mkEnc (fun _ => Some true) (orNull (fun _ _ => docall (SRaw (bs "[]")))).
(** val_encoder_native_array.go:41-70; the length is that of the value *)
Definition arrayEncoder (elem : encoder) : encoder := mkEnc (fun _ => Some false)
  (orNull (fun v _ s =>
     match v with
     | VArr l => docall SArrayStart s >>> encodeAll (fun x => en_Encode elem (Some x) false) l >>> docall SArrayEnd
     | _ => SBad
     end)).
(** val_encoder_native_slice.go:23-62 *)
Definition sliceEncoder (elem : encoder) : encoder := mkEnc
  (fun v => match v with VSlice o => Some (match o with Some (_ :: _) => false | _ => true end) | _ => None end)
  (fun ptr q => ifNoError (orNull (fun v _ s =>
     match v with
     | VSlice None => docall SNull s
     | VSlice (Some []) => docall (SRaw (bs "[]")) s
     | VSlice (Some l) =>
         docall SArrayStart s >>> encodeAll (fun x => en_Encode elem (Some x) false) l >>> docall SArrayEnd
     | _ => SBad
     end) ptr q)).
(** the bytes of a []byte *)
Fixpoint bytesOf (l : list gval) : option bytes :=
  match l with
  | [] => Some []
  | VInt z :: r => match bytesOf r with Some b => Some (z :: b) | None => None end
  | _ => None
  end.
(** val_encoder_native_base64.go:8-37 *)
Definition base64Encoder : encoder := mkEnc
  (fun v => match v with VSlice o => Some (match o with Some (_ :: _) => false | _ => true end) | _ => None end)
  (fun ptr q => ifNoError (orNull (fun v _ s =>
     match v with
     | VSlice None => docall SNull s
     | VSlice (Some l) =>
         match bytesOf l with
         | None => SBad
         | Some src => SOk (put [34] (put (match src with [] => [] | _ => b64encode src end) (put [34] (onVal s))))
         end
     | _ => SBad
     end) ptr q)).

(** val_encoder.go:110-112 *)
Definition keyEncoder := key -> stm -> sres.
(** val_encoder_native_map.go:105-216, val_encoder.go:78-99: the key encoder of a kind *)
Definition kindKeyEncoder (kd : kkind) : option keyEncoder :=
  match kd with
  | KKString => Some (fun key s => match key with KS str => docall (SField str) s | _ => SBad end)
  | KKInt signed w => Some (fun key s =>
      match key with
      | KI z => ifNoError (fun s =>
          match (if signed then appendInt (toI w) [34] z else appendUint (toI w) [34] z) with
          | Some b => docall (SRawField (b ++ [34])) s
          | None => SPanic
          end) s
      | _ => SBad
      end)
  | KKOther => None
  end.
(** "s.String(...); s.buffer = append(s.buffer, ':'); s.poped = false" (val_encoder_native_map.go:74-76) *)
Definition putKey (b : bytes) (s : stm) : sres := docall (SString b) s >>> fun s' => SOk (set_poped false (put [58] s')).
(** val_encoder_native_map.go:69-76: "b, err := marshaler.MarshalText(); if err != nil { s.Error = err; return }", and the key *)
Definition putKeyText (r : bytes + serr) (s : stm) : sres :=
  match r with inr e => SOk (set_error (Some e) s) | inl b => putKey b s end.
(** val_encoder_native_map.go:62-77 *)
Definition textMarshalerKeyEncoder (id : nat) : keyEncoder := fun key => ifNoError (putKeyText (ma_keyText U id key)).
(** val_encoder_native_map.go:81-103; a nil data word is the empty string *)
Definition directTextMarshalerKeyEncoder (id : nat) : keyEncoder := fun key =>
  ifNoError (fun s => if ma_keyNil U id key then putKey [] s else putKeyText (ma_keyText U id key) s).
(** val_encoder_native_map.go:62-77 for a key type that is an interface: the assertion panics, as in [packedMarshalerEncoder] *)
Definition packedKeyEncoder : keyEncoder := fun key => ifNoError (fun _ => SPanic).
(** val_encoder_native_map.go:14-34: the encoder of the keys; [None]: the map type has no encoder *)
Definition newKeyEncoder (k : kty) : option keyEncoder :=
  match k with
  | KString | KUser KKString _ _ => kindKeyEncoder KKString
  | KInt s w => kindKeyEncoder (KKInt s w)
  | KUser _ _ (Some (id, KIndir)) => Some (textMarshalerKeyEncoder id)
  | KUser _ _ (Some (id, KPointer)) | KUser _ _ (Some (id, KWord)) => Some (directTextMarshalerKeyEncoder id)
  | KUser _ _ (Some (_, KIface)) => Some packedKeyEncoder
  | KUser kd _ None => kindKeyEncoder kd
  end.
(** val_encoder_native_map.go:54-57, val_encoder_native_map_above_go118.go:9-37 *)
Definition mapEncoder (enc : keyEncoder) (elem : encoder) : encoder := mkEnc
  (fun v => match v with VMap o => Some (match o with Some (_ :: _) => false | _ => true end) | _ => None end)
  (fun ptr q => ifNoError (orNull (fun v _ s =>
     match v with
     | VMap None => docall SNull s
     | VMap (Some m) =>
         docall SObjectStart s >>>
         encodeAll (fun p s => enc (fst p) s >>> fun s' =>
                      match sm_error s' with Some _ => SOk s' | None => en_Encode elem (Some (snd p)) false s' end) m >>>
         docall SObjectEnd
     | _ => SBad
     end) ptr q)).

(** val_encoder_native_struct.go:80-89: the variable at the end of the offsets; the inner [None] is a nil
    embedded pointer, the outer one a value that does not have the type *)
Fixpoint reach (path : list (hop ty)) (v : gval) : option (option gval) :=
  match path with
  | [] => Some (Some v)
  | HField i :: r =>
      match v with
      | VStruct l => match nth_error l i with Some x => reach r x | None => None end
      | _ => None
      end
  | HPtr _ :: r =>
      match v with
      | VPtr None => Some None
      | VPtr (Some x) => reach r x
      | _ => None
      end
  end.
(** val_encoder_native_struct.go:25-32 *)
Record encField := mkEncField {
  ef_path : list (hop ty);
  ef_raw : option bytes;
  ef_safe : option bytes;
  ef_quoted : bool;
  ef_omit : bool;
  ef_enc : encoder
}.
(** val_encoder_native_struct.go:42-57 *)
Definition addField (f : field ty) (enc : encoder) : encField :=
  mkEncField (f_path f) (encodeString [] (f_name f) false) (encodeString [] (f_name f) true) (f_quoted f) (f_omitEmpty f) enc.
(** val_encoder_native_struct.go:79-106: one field *)
Definition encodeField (v : gval) (fi : encField) (s : stm) : sres :=
  match reach (ef_path fi) v with
  | None => SBad
  | Some None => SOk s
  | Some (Some x) =>
      match (if ef_omit fi then en_isEmpty (ef_enc fi) x else Some false) with
      | None => SPanic
      | Some true => SOk s
      | Some false =>
          match (if sm_html s then ef_safe fi else ef_raw fi) with
          | None => SPanic
          | Some name => docall (SRawField name) s >>> en_Encode (ef_enc fi) (Some x) (ef_quoted fi)
          end
      end
  end.
(** val_encoder_native_struct.go:64-109 *)
Definition structEncoder (fields : list encField) : encoder := mkEnc (fun _ => Some false)
  (fun ptr q => ifNoError (orNull (fun v _ s =>
     docall SObjectStart s >>> encodeAll (encodeField v) fields >>> docall SObjectEnd) ptr q)).
(** val_encoder_native_struct.go:112-124 *)
Definition emptyStructEncoder : encoder := mkEnc (fun _ => Some true) (orNull (fun _ _ => docall (SRaw (bs "{}")))).

(** The word that an interface stores for a value of a type with pointer shape (one pointer or map, or a
    struct or array with one such part) is a nil pointer.  [fuel] bounds the nesting of the type. *)
Fixpoint storedNil (fuel : nat) (t : ty) (v : gval) : option bool :=
  match fuel with
  | O => None
  | S f =>
      match t, v with
      | TPtr _, VPtr None => Some true
      | TMap _ _, VMap None => Some true
      | TStruct [t'] _, VStruct [v'] => storedNil f t' v'
      | TArray 1 t', VArr [v'] => storedNil f t' v'
      | TRef n, _ => storedNil f (te_type _ _ _ E n) v
      | TJson id, VObj x | TText id, VObj x => storedNil f (ma_under U id) (ma_repr U id x)
      | _, _ => Some false
      end
  end.
(** the user-defined type has no methods that its encoder uses for values *)
Definition plainUser (id : nat) : bool := match ma_json U id, ma_text U id with RValue, _ | _, RValue => false | _, _ => true end.
(** the encoder of the type is emptyStructEncoder *)
Definition isEmptyStruct (t : ty) : bool :=
  match under t with
  | TStruct _ [] => true
  | TJson id | TText id => plainUser id && match under (ma_under U id) with TStruct _ [] => true | _ => false end
  | _ => false
  end.
(** streamer_val.go:8-24 ("value").  The encoder found in the cache gets ef.data: for types with pointer shape that is
    the stored word itself.  encoder_config.go:313-372 puts an encoder into the cache that works on the word
    as the one of internalCache does on a variable: directEncoder, or for pointers the encoder of the
    element.  Only emptyStructEncoder (encoder_config.go:254-258) is used as it is. *)
Definition encValue (fuel : nat) (enc : ty -> encoder) (o : option (ty * gval)) (quoted : bool) (s : stm) : sres :=
  ifNoError (fun s =>
    match o with
    | None => docall SNull s
    | Some (t, v) =>
        match (if isEmptyStruct t then storedNil fuel t v else Some false) with
        | None => SBad
        | Some true => en_Encode (enc t) None quoted s
        | Some false => en_Encode (enc t) (Some v) quoted s
        end
    end) s.
(** val_encoder_native_interface.go:9-19, 23-36 *)
Definition interfaceEncoder (fuel : nat) (enc : ty -> encoder) : encoder := mkEnc
  (fun v => match v with VIface o => Some (match o with None => true | _ => false end) | _ => None end)
  (orNull (fun v q s => match v with VIface o => encValue fuel enc o q s | _ => SBad end)).

(** *t has an encoder of its own: t has methods for *t only (encoder_config.go:161-175, 196-210) *)
Definition special (t : ty) : option encoder :=
  match userOf t with
  | None => None
  | Some id =>
      match ma_json U id, ma_text U id with
      | RPtr, _ => Some (pointerJSONMarshalerEncoder id)
      | RNone, RPtr => Some (pointerTextMarshalerEncoder id)
      | _, _ => None
      end
  end.
(** encoder_config.go:33-41: the encoder of addressable variables of type [t]; [enc] is that of other values *)
Definition preferPtrEncoder (t : ty) (enc : encoder) : encoder :=
  match special t with Some p => directEncoder p | None => enc end.
(** the encoder of a user-defined type without methods: by its kind *)
Definition byKind (id : nat) (enc : encoder) : encoder := mkEnc
  (fun v => match v with VObj x => en_isEmpty enc (ma_repr U id x) | _ => None end)
  (fun ptr => match ptr with
              | None => en_Encode enc None
              | Some (VObj x) => en_Encode enc (Some (ma_repr U id x))
              | Some _ => fun _ _ => SBad
              end).

(** encoder_config.go:133-374: the encoder of a type in internalCache; [fuel] bounds the nesting.  A pointer type with a
    name has no methods. *)
Fixpoint encode (fuel : nat) (t : ty) : encoder :=
  match fuel with
  | O => mkEnc (fun _ => None) (fun _ _ _ => SBad)
  | S f =>
      match t with
      | TBool => boolEncoder
      | TInt s w => intEncoder s w
      | TFloat32 => float32Encoder
      | TFloat64 => float64Encoder
      | TString => stringEncoder
      | TNumber => jsonNumberEncoder
      | TRaw => jsonRawMessageEncoder
      | TJson id | TText id =>
          match ma_json U id, ma_text U id with
          | RValue, _ => jsonMarshalerEncoder id
          | _, RValue => textMarshalerEncoder id
          | _, _ => byKind id (encode f (ma_under U id))
          end
      | TPtr t => match special t with Some p => p | None => pointerEncoder (encode f t) end
      | TArray O _ => emptyArrayEncoder
      | TArray _ t => arrayEncoder (preferPtrEncoder t (encode f t))
      | TSlice t =>
          match under t with
          | TInt false W8 => base64Encoder
          | _ => sliceEncoder (preferPtrEncoder t (encode f t))
          end
      | TMap k t => match newKeyEncoder k with Some enc => mapEncoder enc (encode f t) | None => notSupportedEncoder end
      | TStruct _ [] => emptyStructEncoder
      | TStruct _ fields =>
          structEncoder (map (fun fd => addField fd (preferPtrEncoder (f_type fd) (encode f (f_type fd)))) fields)
      | TEface | TIface => interfaceEncoder f (encode f)
      | TRef n =>
          match ma_dyn U n with
          | Some DJson => dynamicJSONMarshalerEncoder
          | Some DText => dynamicTextMarshalerEncoder
          | Some (DJsonOther | DTextOther) => packedMarshalerEncoder
          | None => match te_type _ _ _ E n with TPtr t => pointerEncoder (encode f t) | t => encode f t end
          end
      | TBad => notSupportedEncoder
      end
  end.

(** streamer_val.go:27-29; the argument holds [v] of type [t] *)
Definition Value (fuel : nat) (o : option (ty * gval)) (s : stm) : sres := encValue fuel (encode fuel) o false s.
(** encoder_config.go:85-99 *)
Inductive mres := MOk (b : bytes) | MErr (e : serr) | MPanic | MBad.
(** encoder_config.go:85-99: the value is written to a new streamer, whose buffer is copied *)
Definition Marshal (fuel : nat) (o : option (ty * gval)) : mres :=
  match Value fuel o (newStm cfgHTML) with
  | SOk s => match sm_error s with Some e => MErr e | None => MOk (sm_buffer s) end
  | SPanic => MPanic
  | SBad => MBad
  end.
End Enc.
