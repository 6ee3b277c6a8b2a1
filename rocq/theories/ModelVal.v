(** Typed decoding: the decoders that ReadVal runs.  Code: val_decoder*.go, iterator_val.go,
    decoder_config.go (choice of the decoder), decoder.go, iterator.go (Unmarshal).

    Memory is a tree: a variable holds a value of type [gval], and decoding maps the old value of the
    target to its new value.  Simplifications: pointers inside one target do not alias; the contents of
    the target after a failed decode are in ModelPart.v; custom decoders of a DecoderConfig are not modelled; the loop check of efaceDecoder, which cannot fire on
    a tree, is modelled separately.  A named pointer type whose element has an unmarshal method, or is
    json.Number or json.RawMessage, is decoded by the method here and by the kind of the element in the code
    (decoder_config.go:146-176, 213-216); base64 is accepted for slices of uint8 and of named types without methods, in
    the code for all elements of kind uint8 (val_decoder_native_slice.go:54). *)
From Coq Require Import String ZArith List Bool.
From Verif Require Import Base ModelIter ModelStack ModelSkip ModelStr ModelInt ModelFloat ModelRead ModelIterate ModelOps
  ModelFold ModelGrow ModelBase64.
Import ListNotations.
Local Open Scope Z_scope.

(** One step on the way from a struct to one of its JSON fields (struct_field.go:12-15): into field [i] of
    the struct, or through an embedded pointer; [HPtr (Some t)] allocates a [t] if the pointer is nil,
    [HPtr None] is an unexported pointer (offset.rtype = 0).  In the code the fields of embedded structs
    are reached by adding offsets. *)
Inductive hop (T : Type) := HField (i : nat) | HPtr (alloc : option T).
Arguments HField {T} i.
Arguments HPtr {T} alloc.
(** struct_field.go:17-33: one JSON field of a struct *)
Record field (T : Type) := mkField {
  f_name : bytes;
  f_path : list (hop T);
  f_quoted : bool;
  f_omitEmpty : bool;
  f_type : T
}.
Arguments mkField {T}.
Arguments f_name {T}.
Arguments f_path {T}.
Arguments f_quoted {T}.
Arguments f_omitEmpty {T}.
Arguments f_type {T}.

(** The kinds of key types: string, the integers, and the rest, which have no key decoder or encoder (val_decoder.go:67-88,
    val_encoder.go:78-99) *)
Inductive kkind := KKString | KKInt (signed : bool) (w : width) | KKOther.
(** How a key type with MarshalText is stored in an interface{} (val_encoder_native_map.go:23-28, ifaceIndir in
    link_reflect.go:42): by address, as a pointer, as a word that is not a pointer type (a struct or array of one pointer); or it is
    an interface type *)
Inductive kshape := KIndir | KPointer | KWord | KIface.
(** The types of map keys: strings and integers without methods, and the types with methods, with their kind.  [unm]: the type
    whose UnmarshalText the pointer to the key has; [mar]: the type whose MarshalText the key has. *)
Inductive kty := KString | KInt (signed : bool) (w : width) | KUser (kd : kkind) (unm : option nat) (mar : option (nat * kshape)).

(** The types that a decoder is created for, by the cases of decoder_config.go:141-248.  A struct has the
    types of its Go fields ([layout]) and the JSON fields found by describeStruct.  [TJson] and [TText] are
    types that implement json.Unmarshaler or encoding.TextUnmarshaler, [TBad] all others.  [TRef] is a
    named type defined in an environment; types may be recursive. *)
Inductive ty :=
| TBool | TInt (signed : bool) (w : width) | TFloat32 | TFloat64 | TString
| TNumber                              (* json.Number *)
| TRaw                                 (* json.RawMessage *)
| TJson (id : nat) | TText (id : nat)
| TPtr (t : ty) | TArray (n : nat) (t : ty) | TSlice (t : ty) | TMap (k : kty) (t : ty)
| TStruct (layout : list ty) (fields : list (field ty))
| TEface | TIface
| TRef (n : nat)
| TBad.

(** Keys of maps.  The keys of types that are neither strings nor integers are numbered such that == is equality of the numbers
    (keys that are not equal to themselves, with NaN inside, are left out). *)
Inductive key := KS (s : bytes) | KI (z : Z) | KO (z : Z).
(** comparison of keys by mapassign *)
Definition key_eqb (a b : key) : bool :=
  match a, b with
  | KS s, KS t => bytes_eqb s t
  | KI x, KI y => x =? y
  | KO x, KO y => x =? y
  | _, _ => false
  end.

(** User-defined types with their own UnmarshalJSON and UnmarshalText: the state of a value, the zero
    value, and the methods, which return a new state or an error; [cu_key]: a value used as a map key *)
Record custom := mkCustom {
  cu_state : Type;
  cu_zero : nat -> cu_state;
  cu_json : nat -> cu_state -> bytes -> cu_state + err;
  cu_text : nat -> cu_state -> bytes -> cu_state + err;
  cu_key : nat -> cu_state -> key
}.

(** errors_decoder.go:22-32, 114-125 and base64.CorruptInputError *)
Definition ErrPointerReceiver := EOther 1.
(** errors_decoder.go:25-26 *)
Definition ErrNilPointerReceiver := EOther 2.
(** errors_decoder.go:28-29 *)
Definition ErrEmptyIFace := EOther 3.
(** errors_decoder.go:31-32 *)
Definition ErrNilEmbeddedPointer := EOther 4.
(** errors_decoder.go:114-119 *)
Definition TypeNotSupportedError := EOther 5.
(** errors_decoder.go:128-133 *)
Definition BadQuotedStringError := EOther 6.
(** encoding/base64 (standard library) *)
Definition CorruptInputError := EOther 7.
(** not errors of the code: the nesting fuel of [decode] is used up; a value does not have the type
    that is decoded (excluded by the theorems on well-typed values) *)
Definition errDepth := EOther (-3).
(** not an error of the code: the value does not have the type that is decoded *)
Definition errType := EOther (-4).

(** val_decoder.go:90-97: DecOpts, a nil pointer being [noOpts] *)
Record decOpts := mkOpts { o_mapKey : bool; o_quoted : bool }.
(** a nil *DecOpts *)
Definition noOpts := mkOpts false false.

(** replaces one element of a list (a store into memory) *)
Fixpoint upd {A} (l : list A) (i : nat) (x : A) : list A :=
  match l, i with
  | [], _ => []
  | _ :: r, O => x :: r
  | y :: r, S i => y :: upd r i x
  end.

Section Val.
Variables F32 F64 : floatOps.
Variable C : custom.

(** Go values *)
Inductive gval :=
| VBool (b : bool) | VInt (z : Z) | VFloat32 (x : fl F32) | VFloat64 (x : fl F64)
| VStr (s : bytes)                     (* string and json.Number *)
| VRaw (o : option bytes)              (* json.RawMessage, nil or bytes *)
| VObj (x : cu_state C)                (* user-defined types *)
| VPtr (o : option gval)
| VArr (l : list gval)
| VSlice (o : option (list gval))
| VMap (o : option (list (key * gval)))
| VStruct (l : list gval)
| VIface (o : option (ty * gval)).     (* nil, or dynamic type and value *)

(** m[k] = v (runtime mapassign) *)
Fixpoint mapassign (m : list (key * gval)) (k : key) (v : gval) : list (key * gval) :=
  match m with
  | [] => [(k, v)]
  | (k', v') :: r => if key_eqb k' k then (k, v) :: r else (k', v') :: mapassign r k v
  end.

(** The named types: their definitions and zero values *)
Record env := mkEnv { te_type : nat -> ty; te_zero : nat -> gval }.
Variable E : env.

(** runtime unsafe_New: zeroed memory *)
Fixpoint zero (t : ty) : gval :=
  match t with
  | TBool => VBool false
  | TInt _ _ => VInt 0
  | TFloat32 => VFloat32 (fl_zero F32)
  | TFloat64 => VFloat64 (fl_zero F64)
  | TString | TNumber => VStr []
  | TRaw => VRaw None
  | TJson id | TText id => VObj (cu_zero C id)
  | TPtr _ => VPtr None
  | TArray n t => VArr (repeat (zero t) n)
  | TSlice _ => VSlice None
  | TMap _ _ => VMap None
  | TStruct layout _ => VStruct (map zero layout)
  | TEface | TIface => VIface None
  | TRef n => te_zero E n
  | TBad => VBool false
  end.
(** reflect.Type of a named type; definitions of named types are not names themselves *)
Definition under (t : ty) : ty := match t with TRef n => te_type E n | _ => t end.

(** A decoder as a function of the options and the old value of the target *)
Definition decoder := decOpts -> gval -> M gval.

(** "it.head++; return it.expectBytes(..ull..)", then the target has the value [v] *)
Definition readNull (v : gval) : M gval := incHead ;; expectBytes (bs "ull") ;; ret v.

(** val_decoder_native.go:11-66 *)
Definition boolDecoder : decoder := fun o old =>
  do c <- nextToken;
  if c =? c_n then readNull old
  else if c =? c_t then incHead ;; expectBytes (bs "rue") ;; ret (VBool true)
  else if c =? c_f then incHead ;; expectBytes (bs "alse") ;; ret (VBool false)
  else if c =? cQUOTE then
    if negb (o_quoted o) then fail (EUnexpectedByte c 0 0)
    else
      incHead ;;
      do d <- nextToken;
      incHead ;;
      if d =? c_t then expectBytes (bs "rue" ++ [cQUOTE]) ;; ret (VBool true)
      else if d =? c_f then expectBytes (bs "alse" ++ [cQUOTE]) ;; ret (VBool false)
      else if d =? c_n then expectBytes (bs "ull" ++ [cQUOTE]) ;; ret old
      else fail (EUnexpectedByte d 0 0)
  else fail (EUnexpectedByte c 0 0).

(** val_decoder_native.go:104-117: reads the string again with a second iterator.  Its pool state is that
    of a new iterator; C14 shows that it does not matter.  [None] is BadQuotedStringError. *)
Definition readQuoted (s : bytes) : res (option bytes) :=
  match ReadString (ResetBytes s (newIter false false (mkStack [] 0))) with
  | (Ok sub, it) =>
      match nextToken it with
      | (Err e, _) => Ok (if err_eqb_eof e then Some sub else None)
      | (Ok _, _) => Ok None
      | (Panic, _) => Panic
      | (OutOfFuel, _) => OutOfFuel
      end
  | (Err _, _) => Ok None
  | (Panic, _) => Panic
  | (OutOfFuel, _) => OutOfFuel
  end.
(** a computation outside the iterator *)
Definition lift {A} (r : res A) : M A := fun it => (r, it).
(** val_decoder_native.go:71-126 *)
Definition stringDecoder : decoder := fun o old =>
  do c <- nextToken;
  if c =? cQUOTE then
    incHead ;;
    do s <- readString;
    if negb (o_quoted o) then ret (VStr s)
    else if (length s <? 2)%nat then fail BadQuotedStringError
    else
      let s0 := nth 0 s 0 in
      if s0 =? c_n then
        if negb (bytes_eqb s (bs "null")) then fail BadQuotedStringError else ret old
      else if s0 =? cQUOTE then
        if negb (nth (length s - 1) s 0 =? cQUOTE) then fail BadQuotedStringError
        else
          do q <- lift (readQuoted s);
          match q with None => fail BadQuotedStringError | Some sub => ret (VStr sub) end
      else fail BadQuotedStringError
  else if c =? c_n then readNull old
  else fail (EUnexpectedByte c cQUOTE c_n).

(** iterator_int8.go ... iterator_int64.go: the reading function of a width *)
Definition readIntOf (signed : bool) (w : width) : Z -> M Z :=
  match signed, w with
  | true, W8 => readInt8 | true, W16 => readInt16 | true, W32 => readInt32 | true, W64 => readInt64
  | false, W8 => readUint8 | false, W16 => readUint16 | false, W32 => readUint32 | false, W64 => readUint64
  end.
(** val_decoder_native_int.go:11-48, 54-91, 97-134, 140-177 and val_decoder_native_uint.go *)
Definition intDecoder (signed : bool) (w : width) : decoder := fun o old =>
  do c <- nextToken;
  if c =? c_n then readNull old
  else
    let quoted := o_quoted o || o_mapKey o in
    do c' <- (if quoted then
                if negb (c =? cQUOTE) then fail (EUnexpectedByte c cQUOTE 0)
                else incHead ;; nextByte
              else ret c);
    incHead ;;
    do i <- readIntOf signed w c';
    if quoted then
      do d <- nextByte;
      if negb (d =? cQUOTE) then fail (EUnexpectedByte d cQUOTE 0)
      else incHead ;; ret (VInt i)
    else ret (VInt i).

(** val_decoder_native_float.go:11-26, 32-47 *)
Definition floatDecoder (F : floatOps) (inj : fl F -> gval) : decoder := fun _ old =>
  do c <- nextToken;
  if c =? c_n then readNull old
  else do f <- ReadFloat F; ret (inj f).

(** val_decoder_json_number.go:9-55 *)
Definition jsonNumberDecoder : decoder := fun _ old =>
  do c <- nextToken;
  match valueTypeMap c with
  | StringValue =>
      incHead ;;
      do d <- nextByte;
      if negb (isNumberValue (valueTypeMap d)) then fail (EInvalidDigit d)
      else
        incHead ;;
        do s <- readNumberAsString d;
        do e <- nextByte;
        if negb (e =? cQUOTE) then fail (EUnexpectedByte e cQUOTE 0)
        else incHead ;; ret (VStr s)
  | NullValue => readNull old
  | NumberValue =>
      incHead ;;
      do s <- readNumberAsString c; ret (VStr s)
  | _ => fail (EUnexpectedByte c 0 0)
  end.

(** val_decoder_json_rawmessage.go:8-15 *)
Definition jsonRawMessageDecoder : decoder := fun _ _ =>
  do b <- AppendRaw []; ret (VRaw (Some b)).

(** val_decoder_json_unmarshaler.go:15-23 *)
Definition jsonUnmarshalerDecoder (id : nat) : decoder := fun _ old =>
  do b <- SkipRaw;
  match old with
  | VObj x => match cu_json C id x b with inl x' => ret (VObj x') | inr e => fail e end
  | _ => fail errType
  end.

(** val_decoder_text_unmarshaler.go:15-36 *)
Definition textUnmarshalerDecoder (id : nat) : decoder := fun _ old =>
  do c <- nextToken;
  if c =? cQUOTE then
    incHead ;;
    do b <- readStringAsSlice;
    match old with
    | VObj x => match cu_text C id x b with inl x' => ret (VObj x') | inr e => fail e end
    | _ => fail errType
    end
  else if c =? c_n then readNull old
  else fail (EUnexpectedByte c cQUOTE c_n).

(** val_decoder.go:105-109 *)
Definition notSupportedDecoder : decoder := fun _ _ => fail TypeNotSupportedError.

(** val_decoder_native_ptr.go:32-59 *)
Definition pointerDecoder (elemZero : gval) (elemDec : decoder) : decoder := fun o old =>
  do c <- nextToken;
  if c =? c_n then readNull (VPtr None)
  else
    match old with
    | VPtr p =>
        let tgt := match p with Some v => v | None => elemZero end in
        do v <- elemDec o tgt; ret (VPtr (Some v))
    | _ => fail errType
    end.

(** val_decoder_native_array.go:61-88, one round per unit of fuel; [count] elements are set *)
Fixpoint arrayLoop (fuel : nat) (elemDec : decoder) (count : nat) (a : list gval) : M (nat * list gval) :=
  match fuel with
  | O => outOfFuel
  | S f =>
      do st <- (match nth_error a count with
                | Some v => do v' <- elemDec noOpts v; ret (S count, upd a count v')
                | None => Skip ;; ret (count, a)
                end);
      do c <- nextToken;
      incHead ;;
      if c =? cRBRACK then ret st
      else if negb (c =? cCOMMA) then fail (EUnexpectedByte c cRBRACK cCOMMA)
      else arrayLoop f elemDec (fst st) (snd st)
  end.
(** val_decoder_native_array.go:41-97; dec.length is the length of the target; typedmemclrpartial zeroes the
    elements from [count] on *)
Definition arrayDecoder (elemZero : gval) (elemDec : decoder) : decoder := fun _ old =>
  do c <- nextToken;
  if c =? c_n then readNull old
  else if negb (c =? cLBRACK) then fail (EUnexpectedByte c cLBRACK c_n)
  else
    match old with
    | VArr a =>
        incHead ;;
        do c2 <- nextToken;
        do st <- (if c2 =? cRBRACK then incHead ;; ret (O, a)
                  else fun it => arrayLoop (S (left_total it)) elemDec O a it);
        ret (VArr (firstn (fst st) (snd st) ++ repeat elemZero (length a - fst st)))
    | _ => fail errType
    end.

(** val_decoder_native_slice.go:84-103, one round per unit of fuel; [n] elements are already there *)
Fixpoint sliceLoop (fuel : nat) (elemZero : gval) (elemDec : decoder) (n : nat) (sh : slice gval) : M (slice gval) :=
  match fuel with
  | O => outOfFuel
  | S f =>
      let sh1 := unsafeGrowSlice elemZero sh (S n) in
      match childGet sh1 n with
      | None => panic
      | Some v =>
          do v' <- elemDec noOpts v;
          let sh2 := childSet sh1 n v' in
          do c <- nextToken;
          incHead ;;
          if c =? cRBRACK then ret sh2
          else if negb (c =? cCOMMA) then fail (EUnexpectedByte c cRBRACK cCOMMA)
          else sliceLoop f elemZero elemDec (S n) sh2
      end
  end.
(** it.buffer[begin : it.head-1] *)
Definition sliceBody (begin : nat) : M bytes := fun it =>
  match Base.slice (it_buffer it) begin (it_head it - 1) with
  | Some b => (Ok b, it)
  | None => (Panic, it)
  end.
(** val_decoder_native_slice.go:60-65: unlike [withCapture], an error leaves the capture flag set *)
Definition startCapture {A} (m : M A) : M A := fun it =>
  match m (set_capture true it) with
  | (Ok a, it') => (Ok a, set_capture (it_capture it) it')
  | (r, it') => (r, it')
  end.
(** val_decoder_native_slice.go:54-74; the slice is taken before the flag is set back, which does not change it *)
Definition readBase64 : M gval :=
  incHead ;;
  (fun it =>
     (do buf <- startCapture (skipString ;; sliceBody (it_head it));
      match b64decode buf with
      | Some data => ret (VSlice (Some (map VInt data)))
      | None => fail CorruptInputError
      end) it).
(** val_decoder_native_slice.go:37-108; [isByte] is elemKind == reflect.Uint8 *)
Definition sliceDecoder (isByte : bool) (elemZero : gval) (elemDec : decoder) : decoder := fun _ _ =>
  do c <- nextToken;
  if c =? c_n then readNull (VSlice None)
  else if c =? cQUOTE then
    if negb isByte then fail (EUnexpectedByte c cLBRACK c_n) else readBase64
  else if negb (c =? cLBRACK) then fail (EUnexpectedByte c cLBRACK c_n)
  else
    incHead ;;
    do c2 <- nextToken;
    let newPtr := unsafeMakeSlice elemZero 0 0 in
    do sh <- (if c2 =? cRBRACK then incHead ;; ret newPtr
              else fun it => sliceLoop (S (left_total it)) elemZero elemDec O newPtr it);
    ret (VSlice (Some (firstn (sl_len sh) (sl_data sh)))).

(** val_decoder.go:63-88: the key decoder of a kind *)
Definition kindKeyDecoder (kd : kkind) : option decoder :=
  match kd with KKString => Some stringDecoder | KKInt s w => Some (intDecoder s w) | KKOther => None end.
(** val_decoder_native_map.go:13-35: the decoder of the keys; [None]: the map type has no decoder *)
Definition keyDecoder (k : kty) : option decoder :=
  match k with
  | KString => kindKeyDecoder KKString
  | KInt s w => kindKeyDecoder (KKInt s w)
  | KUser _ (Some id) _ => Some (textUnmarshalerDecoder id)
  | KUser kd None _ => kindKeyDecoder kd
  end.
(** val_decoder_native_map.go:93: a new key *)
Definition keyZero (k : kty) : gval :=
  match k with
  | KString | KUser KKString None _ => VStr []
  | KInt _ _ | KUser (KKInt _ _) None _ | KUser KKOther None _ => VInt 0
  | KUser _ (Some id) _ => VObj (cu_zero C id)
  end.
(** the key in memory as a map key *)
Definition toKey (k : kty) (v : gval) : option key :=
  match k, v with
  | KUser _ (Some id) _, VObj x => Some (cu_key C id x)
  | KUser _ (Some _) _, _ => None
  | _, VStr s => Some (KS s)
  | _, VInt z => Some (KI z)
  | _, _ => None
  end.
(** val_decoder_native_map.go:92-126, one round per unit of fuel *)
Fixpoint mapLoop (fuel : nat) (k : kty) (keyDec : decoder) (elemZero : gval) (elemDec : decoder) (m : list (key * gval)) : M (list (key * gval)) :=
  match fuel with
  | O => outOfFuel
  | S f =>
      do kv <- keyDec (mkOpts true false) (keyZero k);
      do c <- nextToken;
      if negb (c =? cCOLON) then fail (EUnexpectedByte c cCOLON 0)
      else
        incHead ;;
        do v <- elemDec noOpts elemZero;
        match toKey k kv with
        | None => fail errType
        | Some kk =>
            let m' := mapassign m kk v in
            do d <- nextToken;
            if d =? cRBRACE then incHead ;; ret m'
            else if d =? cCOMMA then incHead ;; mapLoop f k keyDec elemZero elemDec m'
            else fail (EUnexpectedByte d cRBRACE cCOMMA)
        end
  end.
(** val_decoder_native_map.go:61-127 *)
Definition mapDecoder (k : kty) (keyDec : decoder) (elemZero : gval) (elemDec : decoder) : decoder := fun _ old =>
  do c <- nextToken;
  if c =? c_n then readNull (VMap None)
  else if negb (c =? cLBRACE) then fail (EUnexpectedByte c cLBRACE c_n)
  else
    match old with
    | VMap p =>
        incHead ;;
        do c2 <- nextToken;
        let m := match p with Some m => m | None => [] end in
        do m' <- (if c2 =? cRBRACE then incHead ;; ret m
                  else fun it => mapLoop (S (left_total it)) k keyDec elemZero elemDec m it);
        ret (VMap (Some m'))
    | _ => fail errType
    end.

(** val_decoder_native_struct.go:133-150 (the same in the two other struct decoders): follows the offsets
    of a field, allocating embedded pointers, and decodes at the end *)
Fixpoint follow (path : list (hop ty)) (dec : gval -> M gval) (v : gval) : M gval :=
  match path with
  | [] => dec v
  | HField i :: r =>
      match v with
      | VStruct l =>
          match nth_error l i with
          | Some x => do x' <- follow r dec x; ret (VStruct (upd l i x'))
          | None => fail errType
          end
      | _ => fail errType
      end
  | HPtr alloc :: r =>
      match v with
      | VPtr (Some x) => do x' <- follow r dec x; ret (VPtr (Some x'))
      | VPtr None =>
          match alloc with
          | None => fail ErrNilEmbeddedPointer
          | Some t => do x' <- follow r dec (zero t); ret (VPtr (Some x'))
          end
      | _ => fail errType
      end
  end.

(** val_decoder_native_struct.go:28-34: decoderFieldInfo *)
Record fieldInfo := mkInfo { df_path : list (hop ty); df_quoted : bool; df_decoder : decoder }.
(** it.disallowUnknownFields *)
Definition getDisallow : M bool := fun it => (Ok (it_disallow it), it).
(** val_decoder_native_struct.go:122-180 (the same in the two other struct decoders), one round per unit of
    fuel *)
Fixpoint structLoop (fuel : nat) (find : bytes -> option nat) (fields : list fieldInfo) (v : gval) : M gval :=
  match fuel with
  | O => outOfFuel
  | S f =>
      do name <- readObjectFieldAsSlice;
      do v' <- (match find name with
                | Some i =>
                    match nth_error fields i with
                    | None => panic
                    | Some fi => follow (df_path fi) (df_decoder fi (mkOpts false (df_quoted fi))) v
                    end
                | None =>
                    do d <- getDisallow;
                    if (d : bool) then fail (EUnknownField name) else Skip ;; ret v
                end);
      do c <- nextToken;
      if c =? cRBRACE then incHead ;; ret v'
      else if c =? cCOMMA then
        incHead ;;
        do c2 <- nextToken;
        if negb (c2 =? cQUOTE) then fail (EUnexpectedByte c2 cQUOTE 0)
        else incHead ;; structLoop f find fields v'
      else fail (EUnexpectedByte c cRBRACE cCOMMA)
  end.
(** val_decoder_native_struct.go:99-181, val_decoder_native_struct_small.go:55-136,
    val_decoder_native_struct_one_field.go:36-116.  The assignment of it.tmpBuffer in the first one is not
    modelled (the contents of tmpBuffer are never read). *)
Definition structDecoder (find : bytes -> option nat) (fields : list fieldInfo) : decoder := fun _ old =>
  do c <- nextToken;
  if c =? c_n then readNull old
  else if negb (c =? cLBRACE) then fail (EUnexpectedByte c cLBRACE c_n)
  else
    incHead ;;
    do c2 <- nextToken;
    if c2 =? cRBRACE then incHead ;; ret old
    else if negb (c2 =? cQUOTE) then fail (EUnexpectedByte c2 cRBRACE cQUOTE)
    else incHead ;; fun it => structLoop (S (left_total it)) find fields old it.

(** val_decoder_skip.go:9-34 *)
Definition emptyObjectDecoder : decoder := fun _ old =>
  do c <- nextToken;
  incHead ;;
  if c =? c_n then expectBytes (bs "ull") ;; ret old
  else if c =? cLBRACE then
    do d <- getDisallow;
    if (d : bool) then
      do c2 <- nextToken;
      incHead ;;
      if negb (c2 =? cRBRACE) then fail (EUnexpectedByte c2 cRBRACE 0) else ret old
    else skipFunctions c ;; ret old
  else fail (EUnexpectedByte c cLBRACE c_n).

(** the Go value that Read stores into an interface{} (iterator_read.go): dynamic type and value *)
Fixpoint of_read (g : ModelRead.gval F64) : gval :=
  match g with
  | GNil => VIface None
  | GBool b => VIface (Some (TBool, VBool b))
  | GFloat x => VIface (Some (TFloat64, VFloat64 x))
  | GNumber t => VIface (Some (TNumber, VStr t))
  | GString s => VIface (Some (TString, VStr s))
  | GSlice l => VIface (Some (TSlice TEface, VSlice (Some (map of_read l))))
  | GMap m => VIface (Some (TMap KString TEface, VMap (Some (map (fun p => (KS (fst p), of_read (snd p))) m))))
  end.
(** the interface holds a pointer that is not nil: its element type and element *)
Definition heldPtr (o : option (ty * gval)) : option (ty * gval) :=
  match o with
  | Some (t, VPtr (Some v)) => match under t with TPtr t' => Some (t', v) | _ => None end
  | _ => None
  end.
(** typ.Kind() == reflect.Ptr *)
Definition isPtr (t : ty) : bool := match under t with TPtr _ => true | _ => false end.
(** val_decoder_native_interface.go:31-112; [dec t] is the decoder of *t that ReadVal finds *)
Definition efaceDecoder (dec : ty -> decoder) : decoder := fun _ old =>
  match old with
  | VIface o =>
      match heldPtr o with
      | None => do g <- Read F64; ret (of_read g)
      | Some (t, v) =>
          do c <- nextToken;
          if c =? c_n then
            readNull (if isPtr t then VIface (Some (TPtr t, VPtr (Some (VPtr None)))) else VIface None)
          else
            do v' <- dec t noOpts v;
            ret (VIface (option_map (fun p => (fst p, VPtr (Some v'))) o))
      end
  | _ => fail errType
  end.
(** iterator_val.go:11: the data word of an interface that holds the value is nil; a struct with one field and an
    array with one element are stored like the field or the element if this is a pointer or a map *)
Fixpoint nilWord (v : gval) : bool :=
  match v with
  | VPtr None | VMap None => true
  | VStruct [x] | VArr [x] => nilWord x
  | _ => false
  end.
(** val_decoder_native_interface.go:117-135 and iterator_val.go:9-23 *)
Definition ifaceDecoder (dec : ty -> decoder) : decoder := fun _ old =>
  do c <- nextToken;
  if c =? c_n then readNull (VIface None)
  else
    match old with
    | VIface None => fail ErrEmptyIFace
    | VIface (Some (t, v)) =>
        match under t, v with
        | TPtr _, VPtr None => fail ErrNilPointerReceiver
        | TPtr t', VPtr (Some x) => do x' <- dec t' noOpts x; ret (VIface (Some (t, VPtr (Some x'))))
        | _, _ => fail (if nilWord v then ErrNilPointerReceiver else ErrPointerReceiver)
        end
    | _ => fail errType
    end.

(** unicode.SimpleFold and cfg.caseSensitive *)
Variable sf : Z -> Z.
Variable caseSensitive : bool.
(** decoder_config.go:189-215: the field lookup used for a struct with the given JSON fields *)
Definition findField (names : list bytes) : bytes -> option nat :=
  match names with
  | [] => fun _ => None
  | [n] => fun k => findOne sf n k caseSensitive
  | _ => fun k => if (length names <=? 10)%nat then findSmall sf names k caseSensitive
                  else findLarge sf names k k caseSensitive
  end.

(** decoder_config.go:141-248: the decoder of a type.  A decoder of a composite type uses the decoders of
    its parts; [fuel] bounds the nesting. *)
Fixpoint decode (fuel : nat) (t : ty) : decoder :=
  match fuel with
  | O => fun _ _ => fail errDepth
  | S f =>
      match t with
      | TBool => boolDecoder
      | TInt s w => intDecoder s w
      | TFloat32 => floatDecoder F32 VFloat32
      | TFloat64 => floatDecoder F64 VFloat64
      | TString => stringDecoder
      | TNumber => jsonNumberDecoder
      | TRaw => jsonRawMessageDecoder
      | TJson id => jsonUnmarshalerDecoder id
      | TText id => textUnmarshalerDecoder id
      | TPtr t => pointerDecoder (zero t) (decode f t)
      | TArray _ t => arrayDecoder (zero t) (decode f t)
      | TSlice t =>
          sliceDecoder (match under t with TInt false W8 => true | _ => false end) (zero t) (decode f t)
      | TMap k t => match keyDecoder k with Some kd => mapDecoder k kd (zero t) (decode f t) | None => notSupportedDecoder end
      | TStruct _ [] => emptyObjectDecoder
      | TStruct _ fields =>
          structDecoder (findField (map f_name fields))
            (map (fun fd => mkInfo (f_path fd) (f_quoted fd) (decode f (f_type fd))) fields)
      | TEface => efaceDecoder (decode f)
      | TIface => ifaceDecoder (decode f)
      | TRef n => decode f (te_type E n)
      | TBad => notSupportedDecoder
      end
  end.

(** iterator_val.go:9-23: reads into the variable of type [t] that the argument points to *)
Definition ReadVal (fuel : nat) (t : ty) (old : gval) : M gval := decode fuel t noOpts old.

(** iterator.go:248-261 *)
Definition unmarshal (fuel : nat) (t : ty) (old : gval) : M gval :=
  do v <- ReadVal fuel t old;
  fun it =>
    match nextToken it with
    | (Ok _, it') => (Err EDataRemained, it')
    | (Err e, it') => (if err_eqb_eof e then Ok v else Err e, it')
    | (Panic, it') => (Panic, it')
    | (OutOfFuel, it') => (OutOfFuel, it')
    end.
(** iterator.go:264-267 *)
Definition Unmarshal (fuel : nat) (t : ty) (old : gval) (data : bytes) (it : iter) : res gval * iter :=
  unmarshal fuel t old (ResetBytes data it).
(** iterator.go:281-284 *)
Definition UnmarshalFromReader (fuel : nat) (t : ty) (old : gval) (r : reader) (it : iter) : res gval * iter :=
  unmarshal fuel t old (Reset r it).
End Val.
Arguments VBool {F32 F64 C}.
Arguments VInt {F32 F64 C}.
Arguments VFloat32 {F32 F64 C}.
Arguments VFloat64 {F32 F64 C}.
Arguments VStr {F32 F64 C}.
Arguments VRaw {F32 F64 C}.
Arguments VObj {F32 F64 C}.
Arguments VPtr {F32 F64 C}.
Arguments VArr {F32 F64 C}.
Arguments VSlice {F32 F64 C}.
Arguments VMap {F32 F64 C}.
Arguments VStruct {F32 F64 C}.
Arguments VIface {F32 F64 C}.
