(** The decoders as the cache holds them.  Code: decoder_config.go (the decoders that ModelCache.v builds), iterator_val.go.

    In ModelVal.v the decoder of a type is found by recursion on the type.  Here it is what the cache of ModelCache.v
    holds: structs that refer to each other.  ReadVal finds the decoders of the dynamic types of interfaces in the
    published cache. *)
From Coq Require Import String ZArith List Bool.
From Verif Require Import Base ModelIter ModelSkip ModelFloat ModelOps ModelFold ModelVal ModelCache.
Import ListNotations.

Section Link.
Variables F32 F64 : floatOps.
Variable C : custom.
Notation gval := (gval F32 F64 C).
Notation decoder := (decoder F32 F64 C).
Variable E : env F32 F64 C.
Notation under := (under F32 F64 C E).
Notation zero := (zero F32 F64 C E).
Variable sf : Z -> Z.
Variable caseSensitive : bool.
(** the pointer type with a code in ModelCache.v (rtype), and the code of a pointer type *)
Variable typ : nat -> ty.
Variable code : ty -> nat.
(** the decoders of the user *)
Variable userDec : nat -> decoder.
(** the decoder structs, and the published cache *)
Variable objs : nat -> dobj.
Variable root : nat -> option dval.

(** ptrType.Elem() (decoder_config.go:162) *)
Definition pointee (p : ty) : ty := match under p with TPtr t => t | _ => TBad end.
(** a call of a nil ValDecoder *)
Definition nilDec : decoder := fun _ _ => panic.
(** not an outcome of the code: the decoder does not belong to its type *)
Definition badDec : decoder := fun _ _ => fail errType.
(** val_decoder.go:41-64: the decoders of the kinds *)
Definition basicDec (n : nat) : decoder :=
  match n with
  | 0 => boolDecoder F32 F64 C | 1 => stringDecoder F32 F64 C
  | 2 => floatDecoder F32 F64 C F32 VFloat32 | 3 => floatDecoder F32 F64 C F64 VFloat64
  | 4 => intDecoder F32 F64 C true W8 | 5 => intDecoder F32 F64 C true W16
  | 6 => intDecoder F32 F64 C true W32 | 7 => intDecoder F32 F64 C true W64
  | 8 => intDecoder F32 F64 C false W8 | 9 => intDecoder F32 F64 C false W16
  | 10 => intDecoder F32 F64 C false W32 | 11 => intDecoder F32 F64 C false W64
  | _ => badDec
  end.
(** val_decoder.go:37-38 *)
Definition globalDec (n : nat) : decoder :=
  match n with 0 => jsonNumberDecoder F32 F64 C | 1 => jsonRawMessageDecoder F32 F64 C | _ => badDec end.
(** val_decoder_json_unmarshaler.go:15-23, val_decoder_text_unmarshaler.go:15-36: "obj := packEFace(rtype(dec), ptr)" and the
    assertion to the interface with the method *)
Definition methodDec (c : nat) : decoder :=
  match under (pointee (typ c)) with
  | TJson id => jsonUnmarshalerDecoder F32 F64 C id
  | TText id => textUnmarshalerDecoder F32 F64 C id
  | _ => badDec
  end.
(** iterator_val.go:9-23 for an argument of pointer type [p], which is not nil.  The decoder is in the published
    cache, or it is made and published (decoder_config.go:117-135). *)
Definition readVal (rec : dval -> decoder) (p : ty) : decoder :=
  match root (code p) with Some v => rec v | None => nilDec end.
(** the dynamic type of the interface that is decoded *)
Definition held (old : gval) : ty := match old with VIface (Some (t, _)) => t | _ => TBad end.
(** val_decoder_native_interface.go:31-112, 117-135: "it.ReadVal(obj)", "it.ReadVal(o)" with the dynamic type of the interface *)
Definition efaceDec (rec : dval -> decoder) : decoder := fun o old => efaceDecoder F32 F64 C E (fun _ => readVal rec (held old)) o old.
(** val_decoder_native_interface.go:117-135 *)
Definition ifaceDec (rec : dval -> decoder) : decoder := fun o old => ifaceDecoder F32 F64 C E (fun _ => readVal rec (held old)) o old.
(** the decoders without references *)
Definition leaf (rec : dval -> decoder) (l : dlabel) : decoder :=
  match l with
  | LCustom n => userDec n
  | LGlobal n => globalDec n
  | LJson c | LText c => methodDec c
  | LBasic n => basicDec n
  | LEface => efaceDec rec
  | LIface => ifaceDec rec
  | LEmptyObject => emptyObjectDecoder F32 F64 C
  | LNotSupported _ => notSupportedDecoder F32 F64 C
  end.
(** a reference in a decoder struct *)
Definition ref (rec : dval -> decoder) (v : option dval) : decoder := match v with Some v => rec v | None => nilDec end.
(** val_decoder_native_struct_one_field.go:67, val_decoder_native_struct_small.go:36-53, val_decoder_native_struct.go:68-93:
    the find methods of the three struct decoders *)
Definition finds (sh : dshape) (names : list bytes) (k : bytes) : option nat :=
  match sh, names with
  | SOne, [n] => findOne sf n k caseSensitive
  | SSmall, _ => findSmall sf names k caseSensitive
  | SMany, _ => findLarge sf names k k caseSensitive
  | _, _ => None
  end.
(** the fields of a struct decoder, with their decoders (val_decoder_native_struct.go:12-65,
    val_decoder_native_struct_small.go:13-30, val_decoder_native_struct_one_field.go:14-30) *)
Definition infos (rec : dval -> decoder) (fields : list (field ty)) (xs : list (option dval)) : list (fieldInfo F32 F64 C) :=
  map (fun p => mkInfo F32 F64 C (f_path (fst p)) (f_quoted (fst p)) (ref rec (snd p))) (combine fields xs).
(** decoder_config.go:185-240: a decoder struct, made for the type and with its references *)
Definition node (rec : dval -> decoder) (o : dobj) : decoder :=
  match do_refs o with
  | None => nilDec
  | Some xs =>
      match do_shape o, under (pointee (typ (do_type o))), xs with
      | SPtr, TPtr t, [x] => pointerDecoder F32 F64 C (zero t) (ref rec x)
      | SArray, TArray _ t, [x] => arrayDecoder F32 F64 C (zero t) (ref rec x)
      | SSlice, TSlice t, [x] =>
          sliceDecoder F32 F64 C (match under t with TInt false W8 => true | _ => false end) (zero t) (ref rec x)
      | SMap, TMap k t, [x] => match keyDecoder F32 F64 C k with Some kd => mapDecoder F32 F64 C k kd (zero t) (ref rec x) | None => badDec end
      | SOne, TStruct _ fields, _ | SSmall, TStruct _ fields, _ | SMany, TStruct _ fields, _ =>
          structDecoder F32 F64 C E (finds (do_shape o) (map f_name fields)) (infos rec fields xs)
      | _, _, _ => badDec
      end
  end.
(** a decoder; the fuel bounds the nesting *)
Fixpoint apply (fuel : nat) (v : dval) : decoder :=
  match fuel with
  | O => fun _ _ => fail errDepth
  | S f => match v with DLeaf l => leaf (apply f) l | DObj a => node (apply f) (objs a) end
  end.
(** iterator_val.go:9-23: reads into the variable that a pointer of type [p] points to *)
Definition ReadValIn (fuel : nat) (p : ty) (old : gval) : M gval := readVal (apply fuel) p noOpts old.
(** iterator.go:248-261 *)
Definition unmarshalIn (fuel : nat) (p : ty) (old : gval) : M gval :=
  do v <- ReadValIn fuel p old;
  fun it =>
    match nextToken it with
    | (Ok _, it') => (Err EDataRemained, it')
    | (Err e, it') => (if err_eqb_eof e then Ok v else Err e, it')
    | (Panic, it') => (Panic, it')
    | (OutOfFuel, it') => (OutOfFuel, it')
    end.
(** iterator.go:264-267 *)
Definition UnmarshalIn (fuel : nat) (p : ty) (old : gval) (data : bytes) (it : iter) : res gval * iter :=
  unmarshalIn fuel p old (ResetBytes data it).
(** iterator.go:281-284 *)
Definition UnmarshalFromReaderIn (fuel : nat) (p : ty) (old : gval) (r : reader) (it : iter) : res gval * iter :=
  unmarshalIn fuel p old (Reset r it).
End Link.
