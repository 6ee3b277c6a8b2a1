(** The encoders as the caches hold them, applied to pointers.  Code: encoder_config.go (the encoders that
    ModelEncCache.v builds), streamer_val.go, val_encoder_direct.go.

    In ModelEnc.v the encoder of a type is found by recursion on the type.  Here it is what the caches of ModelEncCache.v
    hold: structs that refer to each other.  And the pointer an encoder gets from an interface is the data word of the
    interface, which for pointers, maps and structs and arrays of one such part is the value itself. *)
From Coq Require Import String ZArith List Bool.
From Verif Require Import Base ModelFloat ModelOps ModelStream ModelVal ModelEnc ModelEncCache.
Import ListNotations.
Local Open Scope Z_scope.

Section Word.
Variables F32 F64 : floatOps.
Variable C : custom.
Notation gval := (gval F32 F64 C).
Variable E : env F32 F64 C.
Notation under := (under F32 F64 C E).
Variable U : marshalers F32 F64 C.
Variables G32 G64 : floatFmt.
Variable e32 : fl F32 -> ff G32.
Variable e64 : fl F64 -> ff G64.
Variable cfgHTML : bool.
Notation docall := (docall G32 G64).
Notation encoder := (encoder F32 F64 C).
Notation mkEnc := (mkEnc F32 F64 C).
Notation en_isEmpty := (en_isEmpty F32 F64 C).
Notation en_Encode := (en_Encode F32 F64 C).
Notation userOf := (userOf F32 F64 C E).

(** unsafe.Pointer: nil, the address of a variable, the address of the header of a map *)
Inductive pword := PNil | PVar (v : gval) | PHmap (m : list (key * gval)).
(** val_encoder.go:114-118: ValEncoder, for any pointer *)
Record wenc := mkW { w_isEmpty : pword -> option bool; w_Encode : pword -> bool -> stm -> sres }.
(** the encoders of ModelEnc.v get the address of a variable or nil *)
Definition atVar (e : encoder) : wenc := mkW
  (fun p => match p with PVar v => en_isEmpty e v | _ => None end)
  (fun p => match p with PNil => en_Encode e None | PVar v => en_Encode e (Some v) | PHmap _ => fun _ _ => SBad end).
(** encoders that do not look at the variable (val_encoder_native_array.go:9-21, val_encoder_native_struct.go:112-124,
    val_encoder.go:121-132) *)
Definition anyVar (e : encoder) : wenc := mkW
  (fun _ => en_isEmpty e (VBool false))
  (fun p => en_Encode e (match p with PNil => None | _ => Some (VBool false) end)).
(** an encoder in another one, which calls it with addresses of variables or nil *)
Definition asVar (w : wenc) : encoder := mkEnc
  (fun v => w_isEmpty w (PVar v)) (fun o => w_Encode w (match o with None => PNil | Some v => PVar v end)).
(** a nil ValEncoder *)
Definition nilEnc : encoder := mkEnc (fun _ => None) (fun _ _ _ => SPanic).
(** not an outcome of the code: the fuel is used up, or the encoder does not belong to its type *)
Definition badEnc : encoder := mkEnc (fun _ => None) (fun _ _ _ => SBad).
(** not an outcome of the code, for encoders of words *)
Definition badW : wenc := mkW (fun _ => None) (fun _ _ _ => SBad).

(** the type with a code in ModelEncCache.v (rtype), and the code of a type *)
Variable typ : nat -> ty.
Variable code : ty -> nat.
(** reflect: ifaceIndir and the other facts about a type *)
Variable T : nat -> etype.
(** the value of a variable of a type, of which the memory is the given word *)
Variable load : ty -> pword -> gval.
(** the data word of an interface that holds a value of a type (eface.go:10-13); the memory of
    a variable of such a type if it has the shape of a pointer *)
Variable store : ty -> gval -> pword.
(** the encoders of the user *)
Variable userEnc : nat -> wenc.
(** the encoder structs, and the published cache *)
Variable objs : nat -> eobj.
Variable root : nat -> option eval.

(** the type of ef.data as a variable: the type itself if it has the shape of a pointer, else a pointer to it *)
Definition wordTy (t : ty) : ty := if et_indir (T (code t)) then TPtr t else t.
(** what a pointer of a type points to *)
Definition deref (w : ty) : option ty := match under w with TPtr t => Some t | _ => None end.
(** ModelEnc.v has states for the values of user-defined types; encoders that go by the kind see the value of the
    underlying type in memory *)
Definition viewed (t : option ty) (e : encoder) : encoder :=
  match t with
  | Some t => match userOf t with Some id => byKind F32 F64 C U id e | None => e end
  | None => e
  end.
(** the underlying type *)
Definition kindTy (t : ty) : ty := match userOf t with Some id => ma_under _ _ _ U id | None => under t end.
(** typ.Elem() *)
Definition elemTy (t : ty) : ty := match kindTy t with TPtr t | TArray _ t | TSlice t | TMap _ t => t | _ => TBad end.

(** val_encoder.go:52-79: the encoders of the kinds *)
Definition basicEnc (n : nat) : encoder :=
  match n with
  | 0 => boolEncoder F32 F64 C G32 G64 | 1 => stringEncoder F32 F64 C G32 G64 cfgHTML
  | 2 => float32Encoder F32 F64 C G32 G64 e32 | 3 => float64Encoder F32 F64 C G32 G64 e64
  | 4 => intEncoder F32 F64 C G32 G64 true W8 | 5 => intEncoder F32 F64 C G32 G64 true W16
  | 6 => intEncoder F32 F64 C G32 G64 true W32 | 7 => intEncoder F32 F64 C G32 G64 true W64
  | 8 => intEncoder F32 F64 C G32 G64 false W8 | 9 => intEncoder F32 F64 C G32 G64 false W16
  | 10 => intEncoder F32 F64 C G32 G64 false W32 | 11 => intEncoder F32 F64 C G32 G64 false W64
  | _ => badEnc
  end%nat.
(** val_encoder.go:44-49 *)
Definition globalEnc (n : nat) : encoder :=
  match n with
  | 0 => jsonNumberEncoder F32 F64 C G32 G64 | 1 => jsonRawMessageEncoder F32 F64 C G32 G64
  | 2 => dynamicJSONMarshalerEncoder F32 F64 C E U G32 G64 | 3 => dynamicTextMarshalerEncoder F32 F64 C E U G32 G64
  | _ => badEnc
  end%nat.
(** val_encoder_json_marshaler.go:18-38, val_encoder_text_marshaler.go:18-38: "obj := packEFace(enc.rtype, ptr)" with the rtype
    [c], and the assertion to the interface with the method *)
Definition methodEnc (e : nat -> encoder) (c : nat) : encoder :=
  match userOf (typ c) with Some id => e id | None => packedMarshalerEncoder F32 F64 C G32 G64 end.
(** packEFace (eface.go:15-21): what an interface with the type [c] and the data word [p] holds *)
Definition unpack (c : nat) (p : pword) : option gval :=
  if et_indir (T c) then match p with PVar v => Some v | _ => None end else Some (load (typ c) p).
(** the data word is the pointer of the encoder (val_encoder_json_marshaler.go:30, val_encoder_text_marshaler.go:30), or the
    word it points to (val_encoder_json_marshaler.go:57, val_encoder_text_marshaler.go:57) *)
Definition asGiven (c : nat) (p : pword) : option pword := Some p.
(** val_encoder_json_marshaler.go:57, val_encoder_text_marshaler.go:57 *)
Definition firstWord (c : nat) (p : pword) : option pword := match p with PVar v => Some (store (typ c) v) | _ => None end.
(** the encoder of a type with a method, applied to a word *)
Definition methodW (word : nat -> pword -> option pword) (e : nat -> encoder) (c : nat) : wenc := mkW
  (w_isEmpty (atVar (methodEnc e c)))
  (fun p => match p with
            | PNil => en_Encode (methodEnc e c) None
            | _ =>
                match match word c p with Some d => unpack c d | None => None end with
                | Some v => en_Encode (methodEnc e c) (Some v)
                | None => fun _ _ => SBad
                end
            end).
(** val_encoder_json_marshaler.go:69-94, val_encoder_text_marshaler.go:69-94: the same for the rtype of a pointer *)
Definition pointerMethodEnc (e : nat -> encoder) (c : nat) : encoder :=
  match typ c with TPtr t => match userOf t with Some id => e id | None => badEnc end | _ => badEnc end.
(** val_encoder_native_interface.go:9-19, 23-36 *)
Definition ifaceEnc (value : option (ty * gval) -> bool -> stm -> sres) : encoder := mkEnc
  (fun v => match v with VIface o => Some (match o with None => true | _ => false end) | _ => None end)
  (orNull F32 F64 C G32 G64 (fun v q s => match v with VIface o => value o q s | _ => SBad end)).
(** the encoders without references, called with a pointer of type [w] *)
Definition leaf (value : option (ty * gval) -> bool -> stm -> sres) (w : ty) (l : elabel) : wenc :=
  match l with
  | ELCustom n => userEnc n
  | ELGlobal n => atVar (globalEnc n)
  | ELJson c => methodW asGiven (jsonMarshalerEncoder F32 F64 C E U G32 G64 e32 e64) c
  | ELDirectJson c => methodW firstWord (jsonMarshalerEncoder F32 F64 C E U G32 G64 e32 e64) c
  | ELText c => methodW asGiven (textMarshalerEncoder F32 F64 C E U G32 G64 e32 e64) c
  | ELDirectText c => methodW firstWord (textMarshalerEncoder F32 F64 C E U G32 G64 e32 e64) c
  | ELPtrJson c => atVar (pointerMethodEnc (pointerJSONMarshalerEncoder F32 F64 C U G32 G64) c)
  | ELPtrText c => atVar (pointerMethodEnc (pointerTextMarshalerEncoder F32 F64 C U G32 G64) c)
  | ELBasic n => atVar (viewed (deref w) (basicEnc n))
  | ELBase64 => atVar (viewed (deref w) (base64Encoder F32 F64 C G32 G64))
  | ELEface | ELIface => atVar (viewed (deref w) (ifaceEnc value))
  | ELEmptyArray => anyVar (emptyArrayEncoder F32 F64 C G32 G64)
  | ELEmptyStruct => anyVar (emptyStructEncoder F32 F64 C G32 G64)
  | ELNotSupported _ => anyVar (notSupportedEncoder F32 F64 C G32 G64)
  end.
(** a reference to the encoder of variables of type [t]; [rec] applies an encoder to a pointer of a type *)
Definition ref (rec : ty -> eval -> wenc) (t : ty) (v : option eval) : encoder :=
  match v with Some v => asVar (rec (TPtr t) v) | None => nilEnc end.
(** val_encoder_native_ptr.go:20-34, val_encoder_native_array.go:41-70, val_encoder_native_slice.go:23-62,
    val_encoder_native_map.go:54-57, val_encoder_native_struct.go:64-109 with the references and the type of the struct *)
Definition node (rec : ty -> eval -> wenc) (o : eobj) : encoder :=
  let t := elemTy (typ (eo_type o)) in
  match eo_shape o, eo_refs o with
  | _, None => nilEnc
  | EPtr, Some [x] => pointerEncoder F32 F64 C G32 G64 (ref rec t x)
  | EArray, Some [x] => arrayEncoder F32 F64 C G32 G64 (ref rec t x)
  | ESlice, Some [x] => sliceEncoder F32 F64 C G32 G64 (ref rec t x)
  | EMap, Some [x] =>
      match kindTy (typ (eo_type o)) with
      | TMap k _ => match newKeyEncoder F32 F64 C U G32 G64 k with Some enc => mapEncoder F32 F64 C G32 G64 enc (ref rec t x) | None => badEnc end
      | _ => badEnc
      end
  | EStruct, Some xs =>
      match kindTy (typ (eo_type o)) with
      | TStruct _ fields => structEncoder F32 F64 C G32 G64
          (map (fun p => addField F32 F64 C (fst p) (ref rec (f_type (fst p)) (snd p))) (combine fields xs))
      | _ => badEnc
      end
  | _, _ => badEnc
  end.
(** streamer_val.go:8-24.  The encoder is in the published cache, or it is made and published (encoder_config.go:114-131). *)
Definition value (rec : ty -> eval -> wenc) (o : option (ty * gval)) (q : bool) (s : stm) : sres :=
  ifNoError (fun s =>
    match o with
    | None => docall SNull s
    | Some (t, v) =>
        match root (code t) with
        | Some e => w_Encode (rec (wordTy t) e) (store t v) q s
        | None => SPanic
        end
    end) s.
(** an encoder applied to a pointer of type [w]; the fuel bounds the nesting *)
Fixpoint apply (fuel : nat) : ty -> eval -> wenc :=
  match fuel with
  | O => fun _ _ => badW
  | S f =>
      fix go (w : ty) (v : eval) {struct v} : wenc :=
        match v with
        | ELeaf l => leaf (value (apply f)) w l
        | EDirect v' => mkW (fun p => w_isEmpty (go (TPtr w) v') (PVar (load w p)))
                            (fun p => w_Encode (go (TPtr w) v') (PVar (load w p)))
        | EObj a => atVar (viewed (deref w) (node (apply f) (objs a)))
        end
  end.
(** encoder_config.go:85-99 *)
Definition MarshalW (fuel : nat) (o : option (ty * gval)) : mres :=
  match value (apply fuel) o false (newStm cfgHTML) with
  | SOk s => match sm_error s with Some e => MErr e | None => MOk (sm_buffer s) end
  | SPanic => MPanic
  | SBad => MBad
  end.
End Word.
