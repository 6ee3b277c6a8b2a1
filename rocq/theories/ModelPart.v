(** Decoding in place: what the variable holds while and after it is decoded, also if decoding fails.  ModelVal gives the value of
    the variable after a successful decoding only; here every store into memory is a step of its own.
    Code: the Decode methods of val_decoder*.go, iterator_val.go, iterator.go (Unmarshal). *)
From Coq Require Import String ZArith List Bool.
From Verif Require Import Base ModelIter ModelSkip ModelStr ModelInt ModelFloat ModelRead ModelIterate ModelOps ModelGrow ModelVal.
Import ListNotations.
Local Open Scope Z_scope.

Section Part.
Variables F32 F64 : floatOps.
Variable C : custom.
Notation gval := (gval F32 F64 C).
Notation decoder := (decoder F32 F64 C).
Variable E : env F32 F64 C.
Notation zero := (zero F32 F64 C E).
Notation under := (under F32 F64 C E).

(** The state of a value of a user-defined type after its UnmarshalJSON (val_decoder_json_unmarshaler.go:22) or UnmarshalText
    (val_decoder_text_unmarshaler.go:29) returned an error *)
Record failures := mkFailures {
  fa_json : nat -> cu_state C -> bytes -> cu_state C;
  fa_text : nat -> cu_state C -> bytes -> cu_state C
}.
Variable R : failures.

(** A computation with an iterator and a variable in memory (the argument ptr of ValDecoder.Decode, val_decoder.go:101-103) *)
Definition V (A : Type) := gval -> iter -> (res A * iter) * gval.
(** "return nil" and sequencing with "if err != nil { return err }" (the pattern of all Decode methods, e.g.
    val_decoder_native_ptr.go:33-36) *)
Definition vret {A} (a : A) : V A := fun v it => ((Ok a, it), v).
(** see [vret] *)
Definition vbind {A B} (m : V A) (k : A -> V B) : V B := fun v it =>
  match m v it with
  | ((Ok a, it'), v') => k a v' it'
  | ((Err e, it'), v') => ((Err e, it'), v')
  | ((Panic, it'), v') => ((Panic, it'), v')
  | ((OutOfFuel, it'), v') => ((OutOfFuel, it'), v')
  end.
(** a computation of the iterator; the variable is not touched (e.g. it.nextToken, val_decoder_native_ptr.go:33) *)
Definition io {A} (m : M A) : V A := fun v it => (m it, v).
(** "return err" *)
Definition vfail {A} (e : err) : V A := io (fail e).
(** the memory that ptr points to (e.g. val_decoder_native_ptr.go:44) *)
Definition load : V gval := fun v it => ((Ok v, it), v).
(** a store of w there (e.g. val_decoder_native_ptr.go:42) *)
Definition store (w : gval) : V unit := fun _ it => ((Ok tt, it), w).
(** runs a computation on the part [x] of the variable; [put] is the variable with another part (a pointer into the variable, e.g.
    val_decoder_native_array.go:66, val_decoder_native_struct.go:133) *)
Definition inside {A} (put : gval -> gval) (x : gval) (m : V A) : V A := fun _ it =>
  match m x it with (q, x') => (q, put x') end.

(** ValDecoder.Decode (val_decoder.go:101-103) *)
Definition inplace := decOpts -> V unit.
(** Decodes into other memory, which is dropped if this fails: unsafe_New, then Decode (e.g. val_decoder_native_map.go:108-111) *)
Definition aside (d : inplace) : decoder := fun o old it =>
  match d o old it with
  | ((Ok _, it'), v) => (Ok v, it')
  | ((Err e, it'), _) => (Err e, it')
  | ((Panic, it'), _) => (Panic, it')
  | ((OutOfFuel, it'), _) => (OutOfFuel, it')
  end.
(** Decoders whose only store is their last step: val_decoder_native.go:11-66 (bool), 71-126 (string), val_decoder_native_int.go,
    val_decoder_native_uint.go, val_decoder_native_float.go, val_decoder_json_number.go:9-55, val_decoder_json_rawmessage.go:8-15,
    val_decoder_native_slice.go:37-108 (the new elements are in other memory), val_decoder_skip.go:9-34 and val_decoder.go:105-109
    (no store).  A store of the old value stands for no store. *)
Definition last (d : decoder) : inplace := fun o v it =>
  match d o v it with
  | (Ok w, it') => ((Ok tt, it'), w)
  | (Err e, it') => ((Err e, it'), v)
  | (Panic, it') => ((Panic, it'), v)
  | (OutOfFuel, it') => ((OutOfFuel, it'), v)
  end.

Notation "'vdo' x <- m ; k" := (vbind m (fun x => k)) (at level 200, x name, m at level 100, k at level 200).
Notation "m ;;; k" := (vbind m (fun _ => k)) (at level 100, right associativity).

(** "it.head++; it.expectBytes(..ull..)" *)
Definition ull : V unit := io (incHead ;; expectBytes (bs "ull")).

(** val_decoder_json_unmarshaler.go:15-23 *)
Definition jsonUnmarshalerIn (id : nat) : inplace := fun _ =>
  vdo b <- io SkipRaw;
  vdo v <- load;
  match v with
  | VObj x =>
      match cu_json C id x b with
      | inl x' => store (VObj x')
      | inr e => store (VObj (fa_json R id x b)) ;;; vfail e
      end
  | _ => vfail errType
  end.
(** val_decoder_text_unmarshaler.go:15-36 *)
Definition textUnmarshalerIn (id : nat) : inplace := fun _ =>
  vdo c <- io nextToken;
  if c =? cQUOTE then
    io incHead ;;;
    vdo b <- io readStringAsSlice;
    vdo v <- load;
    match v with
    | VObj x =>
        match cu_text C id x b with
        | inl x' => store (VObj x')
        | inr e => store (VObj (fa_text R id x b)) ;;; vfail e
        end
    | _ => vfail errType
    end
  else if c =? c_n then ull
  else vfail (EUnexpectedByte c cQUOTE c_n).

(** val_decoder_native_ptr.go:32-59: a new element is stored after it was decoded *)
Definition pointerIn (elemZero : gval) (elemDec : inplace) : inplace := fun o =>
  vdo c <- io nextToken;
  if c =? c_n then ull ;;; store (VPtr None)
  else
    vdo v <- load;
    match v with
    | VPtr None => vdo x <- io (aside elemDec o elemZero); store (VPtr (Some x))
    | VPtr (Some x) => inside (fun x' => VPtr (Some x')) x (elemDec o)
    | _ => vfail errType
    end.

(** val_decoder_native_array.go:61-88, one round per unit of fuel; [count] elements are set *)
Fixpoint arrayLoopIn (fuel : nat) (elemDec : inplace) (count : nat) : V nat :=
  match fuel with
  | O => io outOfFuel
  | S f =>
      vdo v <- load;
      match v with
      | VArr a =>
          vdo n <- (match nth_error a count with
                    | Some x => inside (fun x' => VArr (upd a count x')) x (elemDec noOpts) ;;; vret (S count)
                    | None => io Skip ;;; vret count
                    end);
          vdo c <- io nextToken;
          io incHead ;;;
          if c =? cRBRACK then vret n
          else if negb (c =? cCOMMA) then vfail (EUnexpectedByte c cRBRACK cCOMMA)
          else arrayLoopIn f elemDec n
      | _ => vfail errType
      end
  end.
(** val_decoder_native_array.go:41-97 *)
Definition arrayIn (elemZero : gval) (elemDec : inplace) : inplace := fun _ =>
  vdo c <- io nextToken;
  if c =? c_n then ull
  else if negb (c =? cLBRACK) then vfail (EUnexpectedByte c cLBRACK c_n)
  else
    vdo v <- load;
    match v with
    | VArr _ =>
        io incHead ;;;
        vdo c2 <- io nextToken;
        vdo n <- (if c2 =? cRBRACK then io incHead ;;; vret O
                  else fun v it => arrayLoopIn (S (left_total it)) elemDec O v it);
        vdo v' <- load;
        match v' with
        | VArr a => store (VArr (firstn n a ++ repeat elemZero (length a - n)))
        | _ => vfail errType
        end
    | _ => vfail errType
    end.

(** val_decoder_native_map.go:92-126, one round per unit of fuel; keys and values are decoded in new memory *)
Fixpoint mapLoopIn (fuel : nat) (k : kty) (keyDec : decoder) (elemZero : gval) (elemDec : inplace) : V unit :=
  match fuel with
  | O => io outOfFuel
  | S f =>
      vdo kv <- io (keyDec (mkOpts true false) (keyZero F32 F64 C k));
      vdo c <- io nextToken;
      if negb (c =? cCOLON) then vfail (EUnexpectedByte c cCOLON 0)
      else
        io incHead ;;;
        vdo x <- io (aside elemDec noOpts elemZero);
        vdo v <- load;
        match toKey F32 F64 C k kv, v with
        | Some kk, VMap (Some m) =>
            store (VMap (Some (mapassign F32 F64 C m kk x))) ;;;
            vdo d <- io nextToken;
            if d =? cRBRACE then io incHead
            else if d =? cCOMMA then io incHead ;;; mapLoopIn f k keyDec elemZero elemDec
            else vfail (EUnexpectedByte d cRBRACE cCOMMA)
        | _, _ => vfail errType
        end
  end.
(** val_decoder_native_map.go:61-127: a nil map is replaced as soon as the token after the brace is there *)
Definition mapIn (k : kty) (keyDec : decoder) (elemZero : gval) (elemDec : inplace) : inplace := fun _ =>
  vdo c <- io nextToken;
  if c =? c_n then ull ;;; store (VMap None)
  else if negb (c =? cLBRACE) then vfail (EUnexpectedByte c cLBRACE c_n)
  else
    vdo v <- load;
    match v with
    | VMap p =>
        io incHead ;;;
        vdo c2 <- io nextToken;
        let make := match p with None => store (VMap (Some [])) | Some _ => vret tt end in
        if c2 =? cRBRACE then io incHead ;;; make
        else make ;;; fun v it => mapLoopIn (S (left_total it)) k keyDec elemZero elemDec v it
    | _ => vfail errType
    end.

(** val_decoder_native_struct.go:133-150 (the same in the two other struct decoders): a new embedded struct is stored before the
    field in it is decoded *)
Fixpoint followIn (path : list (hop ty)) (dec : V unit) : V unit :=
  match path with
  | [] => dec
  | HField i :: r =>
      vdo v <- load;
      match v with
      | VStruct l =>
          match nth_error l i with
          | Some x => inside (fun x' => VStruct (upd l i x')) x (followIn r dec)
          | None => vfail errType
          end
      | _ => vfail errType
      end
  | HPtr alloc :: r =>
      vdo v <- load;
      match v with
      | VPtr (Some x) => inside (fun x' => VPtr (Some x')) x (followIn r dec)
      | VPtr None =>
          match alloc with
          | None => vfail ErrNilEmbeddedPointer
          | Some t => store (VPtr (Some (zero t))) ;;; inside (fun x' => VPtr (Some x')) (zero t) (followIn r dec)
          end
      | _ => vfail errType
      end
  end.

(** val_decoder_native_struct.go:28-34: decoderFieldInfo *)
Record infoIn := mkInfoIn { di_path : list (hop ty); di_quoted : bool; di_decoder : inplace }.
(** val_decoder_native_struct.go:122-180 (the same in the two other struct decoders), one round per unit of fuel *)
Fixpoint structLoopIn (fuel : nat) (find : bytes -> option nat) (fields : list infoIn) : V unit :=
  match fuel with
  | O => io outOfFuel
  | S f =>
      vdo name <- io readObjectFieldAsSlice;
      (match find name with
       | Some i =>
           match nth_error fields i with
           | None => io panic
           | Some fi => followIn (di_path fi) (di_decoder fi (mkOpts false (di_quoted fi)))
           end
       | None =>
           vdo d <- io getDisallow;
           if (d : bool) then vfail (EUnknownField name) else io Skip
       end) ;;;
      vdo c <- io nextToken;
      if c =? cRBRACE then io incHead
      else if c =? cCOMMA then
        io incHead ;;;
        vdo c2 <- io nextToken;
        if negb (c2 =? cQUOTE) then vfail (EUnexpectedByte c2 cQUOTE 0)
        else io incHead ;;; structLoopIn f find fields
      else vfail (EUnexpectedByte c cRBRACE cCOMMA)
  end.
(** val_decoder_native_struct.go:99-181, val_decoder_native_struct_small.go:55-136, val_decoder_native_struct_one_field.go:36-116 *)
Definition structIn (find : bytes -> option nat) (fields : list infoIn) : inplace := fun _ =>
  vdo c <- io nextToken;
  if c =? c_n then ull
  else if negb (c =? cLBRACE) then vfail (EUnexpectedByte c cLBRACE c_n)
  else
    io incHead ;;;
    vdo c2 <- io nextToken;
    if c2 =? cRBRACE then io incHead
    else if negb (c2 =? cQUOTE) then vfail (EUnexpectedByte c2 cRBRACE cQUOTE)
    else io incHead ;;; fun v it => structLoopIn (S (left_total it)) find fields v it.

(** val_decoder_native_interface.go:31-112; [dec t] is the decoder of *t that ReadVal finds *)
Definition efaceIn (dec : ty -> inplace) : inplace := fun _ =>
  vdo v <- load;
  match v with
  | VIface o =>
      match heldPtr F32 F64 C E o with
      | None => vdo g <- io (Read F64); store (of_read F32 F64 C g)
      | Some (t, x) =>
          vdo c <- io nextToken;
          if c =? c_n then
            ull ;;; store (if isPtr F32 F64 C E t then VIface (Some (TPtr t, VPtr (Some (VPtr None)))) else VIface None)
          else inside (fun x' => VIface (option_map (fun p => (fst p, VPtr (Some x'))) o)) x (dec t noOpts)
      end
  | _ => vfail errType
  end.
(** val_decoder_native_interface.go:117-135 and iterator_val.go:9-23 *)
Definition ifaceIn (dec : ty -> inplace) : inplace := fun _ =>
  vdo c <- io nextToken;
  if c =? c_n then ull ;;; store (VIface None)
  else
    vdo v <- load;
    match v with
    | VIface None => vfail ErrEmptyIFace
    | VIface (Some (t, x)) =>
        match under t, x with
        | TPtr _, VPtr None => vfail ErrNilPointerReceiver
        | TPtr t', VPtr (Some y) => inside (fun y' => VIface (Some (t, VPtr (Some y')))) y (dec t' noOpts)
        | _, _ => vfail (if nilWord F32 F64 C x then ErrNilPointerReceiver else ErrPointerReceiver)
        end
    | _ => vfail errType
    end.

(** unicode.SimpleFold and cfg.caseSensitive *)
Variable sf : Z -> Z.
Variable caseSensitive : bool.
(** decoder_config.go:141-248: the decoder of a type, as in [ModelVal.decode] *)
Fixpoint decodeIn (fuel : nat) (t : ty) : inplace :=
  match fuel with
  | O => fun _ => vfail errDepth
  | S f =>
      match t with
      | TBool => last (boolDecoder F32 F64 C)
      | TInt s w => last (intDecoder F32 F64 C s w)
      | TFloat32 => last (floatDecoder F32 F64 C F32 VFloat32)
      | TFloat64 => last (floatDecoder F32 F64 C F64 VFloat64)
      | TString => last (stringDecoder F32 F64 C)
      | TNumber => last (jsonNumberDecoder F32 F64 C)
      | TRaw => last (jsonRawMessageDecoder F32 F64 C)
      | TJson id => jsonUnmarshalerIn id
      | TText id => textUnmarshalerIn id
      | TPtr t => pointerIn (zero t) (decodeIn f t)
      | TArray _ t => arrayIn (zero t) (decodeIn f t)
      | TSlice t =>
          last (sliceDecoder F32 F64 C (match under t with TInt false W8 => true | _ => false end) (zero t) (aside (decodeIn f t)))
      | TMap k t =>
          match keyDecoder F32 F64 C k with
          | Some kd => mapIn k kd (zero t) (decodeIn f t)
          | None => last (notSupportedDecoder F32 F64 C)
          end
      | TStruct _ [] => last (emptyObjectDecoder F32 F64 C)
      | TStruct _ fields =>
          structIn (findField sf caseSensitive (map f_name fields))
            (map (fun fd => mkInfoIn (f_path fd) (f_quoted fd) (decodeIn f (f_type fd))) fields)
      | TEface => efaceIn (decodeIn f)
      | TIface => ifaceIn (decodeIn f)
      | TRef n => decodeIn f (te_type _ _ _ E n)
      | TBad => last (notSupportedDecoder F32 F64 C)
      end
  end.

(** iterator_val.go:9-23 *)
Definition ReadValIn (fuel : nat) (t : ty) : V unit := decodeIn fuel t noOpts.
(** iterator.go:248-261: data that remains is found after the variable has been set *)
Definition unmarshalIn (fuel : nat) (t : ty) : V unit :=
  ReadValIn fuel t ;;;
  io (fun it =>
        match nextToken it with
        | (Ok _, it') => (Err EDataRemained, it')
        | (Err e, it') => (if err_eqb_eof e then Ok tt else Err e, it')
        | (Panic, it') => (Panic, it')
        | (OutOfFuel, it') => (OutOfFuel, it')
        end).
(** iterator.go:264-267 *)
Definition UnmarshalIn (fuel : nat) (t : ty) (data : bytes) (it : iter) (old : gval) : (res unit * iter) * gval :=
  unmarshalIn fuel t old (ResetBytes data it).
(** iterator.go:281-284 *)
Definition UnmarshalFromReaderIn (fuel : nat) (t : ty) (r : reader) (it : iter) (old : gval) : (res unit * iter) * gval :=
  unmarshalIn fuel t old (Reset r it).
End Part.
