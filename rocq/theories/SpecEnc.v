(** Specification of typed encoding: which JSON value represents a Go value.  From the model this uses the
    data types (Go types, Go values, methods of user-defined types), none of the encoders. *)
From Coq Require Import String ZArith List Bool.
From Verif Require Import Base ModelInt ModelFloat ModelOps ModelStream ModelVal ModelEnc Spec SpecStream SpecBase64 StreamFacts SpecVal.
Import ListNotations.
Local Open Scope Z_scope.

(** texts with commas between them, and nothing else; arrays and objects without white space *)
Fixpoint commas (ts : list bytes) : bytes :=
  match ts with [] => [] | [t] => t | t :: r => t ++ 44 :: commas r end.
Definition array_of (ts : list bytes) : bytes := 91 :: commas ts ++ [93].
Definition object_of (ps : list (bytes * bytes)) : bytes := 123 :: commas (map (fun p => fst p ++ 58 :: snd p) ps) ++ [125].

Section SpecEnc.
Variables F32 F64 : floatOps.
Variable C : custom.
Notation gval := (gval F32 F64 C).
Variable E : env F32 F64 C.
Notation under := (under F32 F64 C E).
Variable U : marshalers F32 F64 C.
Variables G32 G64 : floatFmt.
Variable e32 : fl F32 -> ff G32.
Variable e64 : fl F64 -> ff G64.

(** [shaped T v]: [v] is a value of type [T], looking at the outermost level only *)
Inductive shaped : ty -> gval -> Prop :=
| sh_bool b : shaped TBool (VBool b)
| sh_int signed w z : shaped (TInt signed w) (VInt z)
| sh_float32 x : shaped TFloat32 (VFloat32 x)
| sh_float64 x : shaped TFloat64 (VFloat64 x)
| sh_string s : shaped TString (VStr s)
| sh_number s : shaped TNumber (VStr s)
| sh_raw o : shaped TRaw (VRaw o)
| sh_ptr T o : shaped (TPtr T) (VPtr o)
| sh_array n T l : length l = n -> shaped (TArray n T) (VArr l)
| sh_slice T o : shaped (TSlice T) (VSlice o)
| sh_map k T o : shaped (TMap k T) (VMap o)
| sh_struct layout fs v : shaped (TStruct layout fs) v
| sh_eface o : shaped TEface (VIface o)
| sh_iface o : shaped TIface (VIface o)
| sh_bad v : shaped TBad v
| sh_ref n v : shaped (te_type _ _ _ E n) v -> shaped (TRef n) v
| sh_json id x : shaped (TJson id) (VObj x)
| sh_text id x : shaped (TText id) (VObj x).

(** Go's rules about named types: the definition of a named type is not a name, and neither is the underlying
    type of a user-defined type, which is not a pointer and whose values are values of the underlying type; the
    interface types are interfaces *)
Record names_ok : Prop := mkNames {
  nk_ref : forall n m, te_type _ _ _ E n <> TRef m;
  nk_dyn : forall n, ma_dyn _ _ _ U n <> None -> te_type _ _ _ E n = TIface;
  nk_under : forall id m, ma_under _ _ _ U id <> TRef m /\ ma_under _ _ _ U id <> TJson m /\ ma_under _ _ _ U id <> TText m;
  nk_pointer : forall id T, ma_under _ _ _ U id <> TPtr T;
  nk_repr : forall id x, shaped (ma_under _ _ _ U id) (ma_repr _ _ _ U id x)
}.

(** [user T id]: [T] is the user-defined type [id] *)
Definition user (T : ty) (id : nat) : Prop := T = TJson id \/ T = TText id.
(** the method that represents a value, which may be addressable: MarshalJSON before MarshalText, and
    methods of the pointer type count for addressable values *)
Definition has (r : recv) (addr : bool) : Prop := r = RValue \/ (r = RPtr /\ addr = true).
Definition uses_json (addr : bool) (id : nat) : Prop := has (ma_json _ _ _ U id) addr.
Definition uses_text (addr : bool) (id : nat) : Prop := ~ uses_json addr id /\ has (ma_text _ _ _ U id) addr.
(** an interface with contents of dynamic type [T] whose method set has the method [m] of [id] *)
Inductive method (m : nat -> recv) : ty -> gval -> nat -> cu_state C -> Prop :=
| me_value T id x : user (under T) id -> m id = RValue -> method m T (VObj x) id x
| me_ptr T id x : user (under T) id -> m id <> RNone -> method m (TPtr T) (VPtr (Some (VObj x))) id x.

(** encoding/json on omitempty: "The empty values are false, 0, any nil pointer or interface value, and any
    array, slice, map, or string of length zero" *)
Inductive empty : ty -> gval -> Prop :=
| em_bool : empty TBool (VBool false)
| em_int signed w : empty (TInt signed w) (VInt 0)
| em_float32 x : ff_zero G32 (e32 x) = true -> empty TFloat32 (VFloat32 x)
| em_float64 x : ff_zero G64 (e64 x) = true -> empty TFloat64 (VFloat64 x)
| em_string : empty TString (VStr [])
| em_number : empty TNumber (VStr [])
| em_raw : empty TRaw (VRaw (Some []))
| em_raw_nil : empty TRaw (VRaw None)
| em_ptr T : empty (TPtr T) (VPtr None)
| em_iface T : T = TEface \/ T = TIface -> empty T (VIface None)
| em_array T : empty (TArray 0 T) (VArr [])
| em_slice T : empty (TSlice T) (VSlice (Some []))
| em_slice_nil T : empty (TSlice T) (VSlice None)
| em_map k T : empty (TMap k T) (VMap (Some []))
| em_map_nil k T : empty (TMap k T) (VMap None)
| em_ref n v : empty (te_type _ _ _ E n) v -> empty (TRef n) v
| em_user T id x : user T id -> empty (ma_under _ _ _ U id) (ma_repr _ _ _ U id x) -> empty T (VObj x).

(** the key types that can be encoded *)
Definition encodable_key (k : kty) : Prop := match k with KUser KKOther _ None => False | _ => True end.
(** the types that a nil pointer may point to: not encoding.TextMarshaler, and not the types without encoder *)
Inductive nil_ok : ty -> Prop :=
| no_ref n : ma_dyn _ _ _ U n <> Some DText -> (ma_dyn _ _ _ U n = None -> nil_ok (te_type _ _ _ E n)) -> nil_ok (TRef n)
| no_user T id : user T id -> (~ uses_json true id -> ~ uses_text true id -> nil_ok (ma_under _ _ _ U id)) -> nil_ok T
| no_other T : T <> TBad -> (forall k T', T = TMap k T' -> encodable_key k) -> (forall n, T <> TRef n) -> (forall id, ~ user T id) -> nil_ok T.

(** structs without fields *)
Inductive no_fields (addr : bool) : ty -> Prop :=
| nf_struct T layout : under T = TStruct layout [] -> no_fields addr T
| nf_user T id layout : user (under T) id -> ~ uses_json addr id -> ~ uses_text addr id ->
    under (ma_under _ _ _ U id) = TStruct layout [] -> no_fields addr T.
(** maps whose key type has no encoder *)
Inductive bad_map : ty -> Prop :=
| bm_map T k T' : under T = TMap k T' -> ~ encodable_key k -> bad_map T
| bm_user T id k T' : user (under T) id -> ~ uses_json true id -> ~ uses_text true id ->
    under (ma_under _ _ _ U id) = TMap k T' -> ~ encodable_key k -> bad_map T.
(** values that consist of one nil pointer *)
Inductive nil_word : ty -> gval -> Prop :=
| nw_ptr T : nil_word (TPtr T) (VPtr None)
| nw_map k T : nil_word (TMap k T) (VMap None)
| nw_struct T fs v : nil_word T v -> nil_word (TStruct [T] fs) (VStruct [v])
| nw_array T v : nil_word T v -> nil_word (TArray 1 T) (VArr [v])
| nw_ref n v : nil_word (te_type _ _ _ E n) v -> nil_word (TRef n) v
| nw_user T id x : user T id -> nil_word (ma_under _ _ _ U id) (ma_repr _ _ _ U id x) -> nil_word T (VObj x).
(** values that do not: those of other types, and those whose only pointer is not nil *)
Inductive set_word : ty -> gval -> Prop :=
| sw_other T v : match T with TPtr _ | TMap _ _ | TStruct [_] _ | TArray 1 _ | TRef _ | TJson _ | TText _ => False | _ => True end ->
    set_word T v
| sw_ptr T v : set_word (TPtr T) (VPtr (Some v))
| sw_map k T m : set_word (TMap k T) (VMap (Some m))
| sw_struct T fs v : set_word T v -> set_word (TStruct [T] fs) (VStruct [v])
| sw_array T v : set_word T v -> set_word (TArray 1 T) (VArr [v])
| sw_ref n v : set_word (te_type _ _ _ E n) v -> set_word (TRef n) v
| sw_user T id x : user T id -> set_word (ma_under _ _ _ U id) (ma_repr _ _ _ U id x) -> set_word T (VObj x).

(** interface types that include MarshalJSON or MarshalText, other than json.Marshaler and encoding.TextMarshaler *)
Inductive packed : ty -> Prop :=
| pk_json n : ma_dyn _ _ _ U n = Some DJsonOther -> packed (TRef n)
| pk_text n : ma_dyn _ _ _ U n = Some DTextOther -> packed (TRef n).
(** field types for which the emptiness test of the code is right: not these interfaces, not the structs without fields, not the
    maps without encoder, not the user-defined types with methods of the pointer type, and of those with methods of the value type
    only the kinds bool, number, map, slice and struct *)
Inductive tested : ty -> Prop :=
| te_plain T : (forall id, ~ user (under T) id) -> ~ no_fields true T -> ~ bad_map T -> ~ packed T -> tested T
| te_user T id : user (under T) id -> ~ uses_json true id -> ~ uses_text true id ->
    ~ no_fields true T -> ~ bad_map T -> tested T
| te_method T id : user (under T) id -> uses_json false id \/ (~ uses_json true id /\ uses_text false id) ->
    match under (ma_under _ _ _ U id) with
    | TBool | TInt _ _ | TFloat32 | TFloat64 | TMap _ _ | TSlice _ | TStruct _ _ => True
    | _ => False
    end -> tested T.

(** a pointer to a type with methods of the pointer type that are not methods of the type itself *)
Inductive pointer_methods : ty -> Prop :=
| pm_json T id : user (under T) id -> ma_json _ _ _ U id = RPtr -> pointer_methods (TPtr T)
| pm_text T id : user (under T) id -> ma_json _ _ _ U id = RNone -> ma_text _ _ _ U id = RPtr -> pointer_methods (TPtr T).

(** the way from a struct to a field: through a nil pointer, or to a variable *)
Inductive cut : list (hop ty) -> gval -> Prop :=
| ct_nil a path : cut (HPtr a :: path) (VPtr None)
| ct_ptr a path v : cut path v -> cut (HPtr a :: path) (VPtr (Some v))
| ct_field i path l v : nth_error l i = Some v -> cut path v -> cut (HField i :: path) (VStruct l).
Inductive leads : list (hop ty) -> gval -> gval -> Prop :=
| le_here v : leads [] v v
| le_ptr a path v x : leads path v x -> leads (HPtr a :: path) (VPtr (Some v)) x
| le_field i path l v x : nth_error l i = Some v -> leads path v x -> leads (HField i :: path) (VStruct l) x.

(** Four oddities of the code, allowed if [quirks] holds: omitempty omits structs without fields; it keeps
    the types with methods of the pointer type, arrays of length zero with methods, and maps without encoder, although empty; a
    struct without fields that consists of one nil pointer is null if stored in an interface; the methods are not
    found for pointer types with a name. *)
Variable quirks : Prop.
Definition never_omitted (T : ty) : Prop :=
  bad_map T \/ exists id, user (under T) id /\
    ((uses_json true id /\ ~ uses_json false id) \/ (uses_text true id /\ ma_text _ _ _ U id = RPtr) \/
     ((uses_json false id \/ (~ uses_json true id /\ uses_text false id)) /\
      exists n T', under (ma_under _ _ _ U id) = TArray n T')).

(** [encodes_key k key q]: the name that represents the key of a map: a string stands for itself; other keys are represented by what
    their MarshalText returns, nil pointers by the empty string; integers without this method by the numeral.  Left out: the keys where
    the code is wrong, in interfaces, and the ones without pointer kind whose data word is nil *)
Inductive encodes_key : kty -> key -> bytes -> Prop :=
| ek_str s s' b : is_bytes s -> sanitized s s' -> string_body b s' -> encodes_key KString (KS s) (quote b)
| ek_num signed w z n : in_range signed w z -> numeral z n -> encodes_key (KInt signed w) (KI z) (quote n)
| ek_user_str u m s s' b : is_bytes s -> sanitized s s' -> string_body b s' -> encodes_key (KUser KKString u m) (KS s) (quote b)
| ek_user_num signed w u z n : in_range signed w z -> numeral z n -> encodes_key (KUser (KKInt signed w) u None) (KI z) (quote n)
| ek_nil kd u id key b : kd <> KKString -> ma_keyNil _ _ _ U id key = true -> string_body b [] ->
    encodes_key (KUser kd u (Some (id, KPointer))) key (quote b)
| ek_text kd u id sh key s s' b : kd <> KKString -> sh <> KIface -> (sh <> KIndir -> ma_keyNil _ _ _ U id key = false) ->
    ma_keyText _ _ _ U id key = inl s -> is_bytes s -> sanitized s s' -> string_body b s' ->
    encodes_key (KUser kd u (Some (id, sh))) key (quote b).
(** the keys that have a name *)
Inductive fits_key : kty -> key -> Prop :=
| fk_str s : is_bytes s -> fits_key KString (KS s)
| fk_num signed w z : in_range signed w z -> fits_key (KInt signed w) (KI z)
| fk_user_str u m s : is_bytes s -> fits_key (KUser KKString u m) (KS s)
| fk_user_num signed w u z : in_range signed w z -> fits_key (KUser (KKInt signed w) u None) (KI z)
| fk_nil kd u id key : kd <> KKString -> ma_keyNil _ _ _ U id key = true -> fits_key (KUser kd u (Some (id, KPointer))) key
| fk_text kd u id sh key s : kd <> KKString -> sh <> KIface -> (sh <> KIndir -> ma_keyNil _ _ _ U id key = false) ->
    ma_keyText _ _ _ U id key = inl s -> is_bytes s -> fits_key (KUser kd u (Some (id, sh))) key.
(** the keys that the decoder reads back: a string that UnmarshalText, if there is one, takes for itself, an integer, or a key whose
    text, from MarshalText, UnmarshalText makes into the key *)
Inductive keeps_key : kty -> key -> Prop :=
| kk_str s : utf8_text s -> keeps_key KString (KS s)
| kk_num signed w z : in_range signed w z -> keeps_key (KInt signed w) (KI z)
| kk_user_str m s : utf8_text s -> keeps_key (KUser KKString None m) (KS s)
| kk_user_num signed w z : in_range signed w z -> keeps_key (KUser (KKInt signed w) None None) (KI z)
| kk_str_text id m s x : utf8_text s -> cu_text C id (cu_zero C id) s = inl x -> cu_key C id x = KS s ->
    keeps_key (KUser KKString (Some id) m) (KS s)
| kk_text kd id id' sh key s x : kd <> KKString -> sh <> KIface -> (sh <> KIndir -> ma_keyNil _ _ _ U id' key = false) ->
    ma_keyText _ _ _ U id' key = inl s -> utf8_text s ->
    cu_text C id (cu_zero C id) s = inl x -> cu_key C id x = key ->
    keeps_key (KUser kd (Some id) (Some (id', sh))) key.

(** [encodes addr T quoted v t]: the value [v] of type [T], with or without the string option, is
    represented by the text [t]; [addr] tells whether the value is addressable *)
Inductive encodes : bool -> ty -> bool -> gval -> bytes -> Prop :=
| e_true a : encodes a TBool false (VBool true) (bs "true")
| e_false a : encodes a TBool false (VBool false) (bs "false")
| e_quoted_true a : encodes a TBool true (VBool true) (quote (bs "true"))
| e_quoted_false a : encodes a TBool true (VBool false) (quote (bs "false"))
| e_int a signed w z t : in_range signed w z -> numeral z t -> encodes a (TInt signed w) false (VInt z) t
| e_quoted_int a signed w z t : in_range signed w z -> numeral z t -> encodes a (TInt signed w) true (VInt z) (quote t)
| e_float32 a q x t : ff_inf G32 (e32 x) = false -> ff_nan G32 (e32 x) = false -> float_text G32 (e32 x) t ->
    encodes a TFloat32 q (VFloat32 x) t
| e_float64 a q x t : ff_inf G64 (e64 x) = false -> ff_nan G64 (e64 x) = false -> float_text G64 (e64 x) t ->
    encodes a TFloat64 q (VFloat64 x) t
| e_string a s s' b : is_bytes s -> sanitized s s' -> string_body b s' -> encodes a TString false (VStr s) (quote b)
| e_quoted_string a s s' b b' : is_bytes s -> sanitized s s' -> string_body b' s' -> string_body b (quote b') ->
    encodes a TString true (VStr s) (quote b)
| e_number a q t : number t -> encodes a TNumber q (VStr t) t
| e_number_empty a q : encodes a TNumber q (VStr []) (bs "0")
| e_raw a q t j : value t j -> encodes a TRaw q (VRaw (Some t)) t
| e_json a T id q x t j : user T id -> uses_json a id -> ma_MarshalJSON _ _ _ U id x = inl t -> value t j ->
    encodes a T q (VObj x) t
| e_text a T id q x s s' b : user T id -> uses_text a id -> ma_MarshalText _ _ _ U id x = inl s ->
    is_bytes s -> sanitized s s' -> string_body b s' -> encodes a T q (VObj x) (quote b)
| e_user a T id q x t : user T id -> ~ uses_json a id -> ~ uses_text a id ->
    encodes false (ma_under _ _ _ U id) q (ma_repr _ _ _ U id x) t -> encodes a T q (VObj x) t
| e_ptr_nil a T q : nil_ok T -> encodes a (TPtr T) q (VPtr None) (bs "null")
| e_ptr a T q v t : encodes true T q v t -> encodes a (TPtr T) q (VPtr (Some v)) t
| e_array a n T q l t ts : length l = n -> t = array_of ts -> encodes_list T l ts -> encodes a (TArray n T) q (VArr l) t
| e_slice_nil a T q : encodes a (TSlice T) q (VSlice None) (bs "null")
| e_slice a T q l t ts : under T <> TInt false W8 -> t = array_of ts -> encodes_list T l ts ->
    encodes a (TSlice T) q (VSlice (Some l)) t
| e_bytes a T q data text : under T = TInt false W8 -> is_bytes data -> base64 data text ->
    encodes a (TSlice T) q (VSlice (Some (map VInt data))) (quote text)
| e_map_nil a k T q : encodable_key k -> encodes a (TMap k T) q (VMap None) (bs "null")
| e_map a k T q m t ps : encodable_key k -> t = object_of ps -> encodes_map k T m ps -> encodes a (TMap k T) q (VMap (Some m)) t
| e_struct a layout fs q v t ps : t = object_of ps -> encodes_fields fs v ps -> encodes a (TStruct layout fs) q v t
| e_iface_nil a T q : T = TEface \/ T = TIface -> encodes a T q (VIface None) (bs "null")
| e_iface a T q T' v t : T = TEface \/ T = TIface -> (no_fields false T' -> set_word T' v) ->
    encodes false T' q v t -> encodes a T q (VIface (Some (T', v))) t
| e_iface_quirk a T q T' v : T = TEface \/ T = TIface -> quirks -> no_fields false T' -> nil_word T' v ->
    encodes a T q (VIface (Some (T', v))) (bs "null")
| e_ref a n q v t : ma_dyn _ _ _ U n = None -> ~ pointer_methods (te_type _ _ _ E n) -> encodes a (te_type _ _ _ E n) q v t -> encodes a (TRef n) q v t
| e_ref_quirk a n q T v t : ma_dyn _ _ _ U n = None -> quirks -> te_type _ _ _ E n = TPtr T -> pointer_methods (TPtr T) ->
    encodes false T q v t -> encodes a (TRef n) q (VPtr (Some v)) t
| e_dyn_nil a n q d : d = DJson \/ d = DText -> ma_dyn _ _ _ U n = Some d -> encodes a (TRef n) q (VIface None) (bs "null")
| e_dyn_json a n q T v id x t j : ma_dyn _ _ _ U n = Some DJson -> method (ma_json _ _ _ U) T v id x ->
    ma_MarshalJSON _ _ _ U id x = inl t -> value t j -> encodes a (TRef n) q (VIface (Some (T, v))) t
| e_dyn_text a n q T v id x s s' b : ma_dyn _ _ _ U n = Some DText -> method (ma_text _ _ _ U) T v id x ->
    ma_MarshalText _ _ _ U id x = inl s -> is_bytes s -> sanitized s s' -> string_body b s' ->
    encodes a (TRef n) q (VIface (Some (T, v))) (quote b)
(** the elements of an array or slice *)
with encodes_list : ty -> list gval -> list bytes -> Prop :=
| el_none T : encodes_list T [] []
| el_more T v l t ts : encodes true T false v t -> encodes_list T l ts -> encodes_list T (v :: l) (t :: ts)
(** the entries of a map *)
with encodes_map : kty -> ty -> list (key * gval) -> list (bytes * bytes) -> Prop :=
| em_none k T : encodes_map k T [] []
| em_more k T key q v t m ps : encodes_key k key q -> encodes false T false v t ->
    encodes_map k T m ps -> encodes_map k T ((key, v) :: m) ((q, t) :: ps)
(** the fields of a struct *)
with encodes_fields : list (field ty) -> gval -> list (bytes * bytes) -> Prop :=
| ef_none v : encodes_fields [] v []
| ef_cut fd fs v ps : cut (f_path fd) v -> encodes_fields fs v ps -> encodes_fields (fd :: fs) v ps
| ef_omit fd fs v x ps : leads (f_path fd) v x -> f_omitEmpty fd = true -> tested (f_type fd) -> empty (f_type fd) x ->
    encodes_fields fs v ps -> encodes_fields (fd :: fs) v ps
| ef_omit_quirk fd fs v x ps : leads (f_path fd) v x -> f_omitEmpty fd = true -> quirks ->
    no_fields true (f_type fd) -> shaped (f_type fd) x ->
    encodes_fields fs v ps -> encodes_fields (fd :: fs) v ps
| ef_put fd fs v x b name t ps : leads (f_path fd) v x ->
    (f_omitEmpty fd = true -> (tested (f_type fd) /\ ~ empty (f_type fd) x) \/ (quirks /\ never_omitted (f_type fd))) ->
    is_bytes (f_name fd) -> sanitized (f_name fd) name -> string_body b name ->
    encodes true (f_type fd) (f_quoted fd) x t ->
    encodes_fields fs v ps -> encodes_fields (fd :: fs) v ((quote b, t) :: ps).

Scheme encodes_ind4 := Minimality for encodes Sort Prop
  with encodes_list_ind4 := Minimality for encodes_list Sort Prop
  with encodes_map_ind4 := Minimality for encodes_map Sort Prop
  with encodes_fields_ind4 := Minimality for encodes_fields Sort Prop.
Combined Scheme encodes_mutind from encodes_ind4, encodes_list_ind4, encodes_map_ind4, encodes_fields_ind4.

(** ** Values that can be encoded *)
(** [fits addr T v]: [v] is a value of type [T] that has a JSON representation.  This leaves out infinities and
    NaN, strings of json.Number and json.RawMessage that are not JSON, methods that fail or return other
    texts, nil pointers to encoding.TextMarshaler, types without encoder, other interfaces with one of the methods, named pointer types
    whose methods are lost, and omitempty for the types that [tested] leaves out; if [quirks] holds, of the last two
    only those whose emptiness test is missing. *)
Inductive fits : bool -> ty -> gval -> Prop :=
| fi_bool a b : fits a TBool (VBool b)
| fi_int a signed w z : in_range signed w z -> fits a (TInt signed w) (VInt z)
| fi_float32 a x : ff_inf G32 (e32 x) = false -> ff_nan G32 (e32 x) = false -> fits a TFloat32 (VFloat32 x)
| fi_float64 a x : ff_inf G64 (e64 x) = false -> ff_nan G64 (e64 x) = false -> fits a TFloat64 (VFloat64 x)
| fi_string a s : is_bytes s -> fits a TString (VStr s)
| fi_number a t : number t \/ t = [] -> fits a TNumber (VStr t)
| fi_raw a t j : value t j -> fits a TRaw (VRaw (Some t))
| fi_json a T id x t j : user T id -> uses_json a id -> ma_MarshalJSON _ _ _ U id x = inl t -> value t j -> fits a T (VObj x)
| fi_text a T id x s : user T id -> uses_text a id -> ma_MarshalText _ _ _ U id x = inl s -> is_bytes s -> fits a T (VObj x)
| fi_user a T id x : user T id -> ~ uses_json a id -> ~ uses_text a id ->
    fits false (ma_under _ _ _ U id) (ma_repr _ _ _ U id x) -> fits a T (VObj x)
| fi_ptr_nil a T : nil_ok T -> fits a (TPtr T) (VPtr None)
| fi_ptr a T v : fits true T v -> fits a (TPtr T) (VPtr (Some v))
| fi_array a n T l : length l = n -> fits_list T l -> fits a (TArray n T) (VArr l)
| fi_slice_nil a T : fits a (TSlice T) (VSlice None)
| fi_slice a T l : under T <> TInt false W8 -> fits_list T l -> fits a (TSlice T) (VSlice (Some l))
| fi_bytes a T data : under T = TInt false W8 -> is_bytes data -> fits a (TSlice T) (VSlice (Some (map VInt data)))
| fi_map_nil a k T : encodable_key k -> fits a (TMap k T) (VMap None)
| fi_map a k T m : encodable_key k -> fits_map k T m -> fits a (TMap k T) (VMap (Some m))
| fi_struct a layout fs v : fits_fields fs v -> fits a (TStruct layout fs) v
| fi_iface_nil a T : T = TEface \/ T = TIface -> fits a T (VIface None)
| fi_iface a T T' v : T = TEface \/ T = TIface -> (~ no_fields false T' \/ set_word T' v) \/ (quirks /\ no_fields false T' /\ nil_word T' v) ->
    fits false T' v -> fits a T (VIface (Some (T', v)))
| fi_ref a n v : ma_dyn _ _ _ U n = None -> ~ pointer_methods (te_type _ _ _ E n) -> fits a (te_type _ _ _ E n) v -> fits a (TRef n) v
| fi_ref_quirk a n T v : ma_dyn _ _ _ U n = None -> quirks -> te_type _ _ _ E n = TPtr T -> pointer_methods (TPtr T) ->
    fits false T v -> fits a (TRef n) (VPtr (Some v))
| fi_dyn_nil a n d : d = DJson \/ d = DText -> ma_dyn _ _ _ U n = Some d -> fits a (TRef n) (VIface None)
| fi_dyn_json a n T v id x t j : ma_dyn _ _ _ U n = Some DJson -> method (ma_json _ _ _ U) T v id x ->
    ma_MarshalJSON _ _ _ U id x = inl t -> value t j -> fits a (TRef n) (VIface (Some (T, v)))
| fi_dyn_text a n T v id x s : ma_dyn _ _ _ U n = Some DText -> method (ma_text _ _ _ U) T v id x ->
    ma_MarshalText _ _ _ U id x = inl s -> is_bytes s -> fits a (TRef n) (VIface (Some (T, v)))
with fits_list : ty -> list gval -> Prop :=
| fl_none T : fits_list T []
| fl_more T v l : fits true T v -> fits_list T l -> fits_list T (v :: l)
with fits_map : kty -> ty -> list (key * gval) -> Prop :=
| fm_none k T : fits_map k T []
| fm_more k T key v m : fits_key k key -> fits false T v -> fits_map k T m -> fits_map k T ((key, v) :: m)
with fits_fields : list (field ty) -> gval -> Prop :=
| fd_none v : fits_fields [] v
| fd_cut fd fs v : cut (f_path fd) v -> fits_fields fs v -> fits_fields (fd :: fs) v
| fd_leads fd fs v x : leads (f_path fd) v x -> is_bytes (f_name fd) -> fits true (f_type fd) x ->
    (f_omitEmpty fd = true -> tested (f_type fd) \/ (quirks /\ (no_fields true (f_type fd) \/ never_omitted (f_type fd)))) ->
    fits_fields fs v -> fits_fields (fd :: fs) v.
Scheme fits_ind4 := Minimality for fits Sort Prop
  with fits_list_ind4 := Minimality for fits_list Sort Prop
  with fits_map_ind4 := Minimality for fits_map Sort Prop
  with fits_fields_ind4 := Minimality for fits_fields Sort Prop.
Combined Scheme fits_mutind from fits_ind4, fits_list_ind4, fits_map_ind4, fits_fields_ind4.

(** ** Values that survive encoding and decoding *)
(** [stores path old new v v']: the variable at the end of [path] holds [old] in [v], and [v'] is [v] with [new]
    instead; nil pointers on the way are set to new zero values *)
Inductive stores : list (hop ty) -> gval -> gval -> gval -> gval -> Prop :=
| so_here old new : stores [] old new old new
| so_field path old new l1 x l2 y : stores path old new x y ->
    stores (HField (length l1) :: path) old new (VStruct (l1 ++ x :: l2)) (VStruct (l1 ++ y :: l2))
| so_ptr path alloc old new x y : stores path old new x y -> stores (HPtr alloc :: path) old new (VPtr (Some x)) (VPtr (Some y))
| so_alloc path T old new y : stores path old new (zero F32 F64 C E T) y ->
    stores (HPtr (Some T) :: path) old new (VPtr None) (VPtr (Some y)).
(** the types that a decoder stores in an interface{} variable, with or without UseNumber *)
Variable useNumber : bool.
Definition generic (T : ty) : Prop :=
  T = TBool \/ T = TString \/ (T = TFloat64 /\ useNumber = false) \/ (T = TNumber /\ useNumber = true) \/
  T = TSlice TEface \/ T = TMap KString TEface.
(** [keeps addr T quoted v]: [v] can be encoded, its strings are valid UTF-8, its floats and user-defined values
    are read back by their own parsers, its pointers do not point to values represented by null, its
    maps have no key twice, its structs are determined by their JSON fields, and its interface{} values are
    of the types that decoders choose, and not nil slices or maps *)
Inductive keeps : bool -> ty -> bool -> gval -> Prop :=
| k_bool a q b : keeps a TBool q (VBool b)
| k_int a signed w q z : in_range signed w z -> keeps a (TInt signed w) q (VInt z)
| k_float32 a q x : ff_inf G32 (e32 x) = false -> ff_nan G32 (e32 x) = false ->
    (forall t, float_text G32 (e32 x) t -> fl_parse F32 t = inl x) -> keeps a TFloat32 q (VFloat32 x)
| k_float64 a q x : ff_inf G64 (e64 x) = false -> ff_nan G64 (e64 x) = false ->
    (forall t, float_text G64 (e64 x) t -> fl_parse F64 t = inl x) -> keeps a TFloat64 q (VFloat64 x)
| k_string a q s : utf8_text s -> keeps a TString q (VStr s)
| k_number a q t : number t -> keeps a TNumber q (VStr t)
| k_raw a q t j : value t j -> keeps a TRaw q (VRaw (Some t))
| k_json a id q x t j : uses_json a id -> ma_MarshalJSON _ _ _ U id x = inl t -> value t j ->
    cu_json C id (cu_zero C id) t = inl x -> keeps a (TJson id) q (VObj x)
| k_text a id q x s : uses_text a id -> ma_MarshalText _ _ _ U id x = inl s -> utf8_text s ->
    cu_text C id (cu_zero C id) s = inl x -> keeps a (TText id) q (VObj x)
| k_ptr_nil a T q : nil_ok T -> keeps a (TPtr T) q (VPtr None)
| k_ptr a T q v : keeps true T q v -> ~ encodes true T q v (bs "null") -> keeps a (TPtr T) q (VPtr (Some v))
| k_array a n T q l : length l = n -> keeps_list T l -> keeps a (TArray n T) q (VArr l)
| k_slice_nil a T q : keeps a (TSlice T) q (VSlice None)
| k_slice a T q l : under T <> TInt false W8 -> keeps_list T l -> keeps a (TSlice T) q (VSlice (Some l))
| k_bytes a T q data : under T = TInt false W8 -> is_bytes data -> keeps a (TSlice T) q (VSlice (Some (map VInt data)))
| k_map_nil a k T q : encodable_key k -> decodable_key k -> keeps a (TMap k T) q (VMap None)
| k_map a k T q m : encodable_key k -> decodable_key k -> NoDup (map fst m) -> keeps_map k T m -> keeps a (TMap k T) q (VMap (Some m))
| k_struct a layout fs q v : NoDup (map f_name fs) -> Forall is_bytes (map f_name fs) ->
    restores fs v (zero F32 F64 C E (TStruct layout fs)) v -> keeps a (TStruct layout fs) q v
| k_iface_nil a T q : T = TEface \/ T = TIface -> keeps a T q (VIface None)
| k_generic a T v : generic T -> v <> VSlice None -> v <> VMap None -> keeps false T false v ->
    keeps a TEface false (VIface (Some (T, v)))
| k_ref a n q v : ma_dyn _ _ _ U n = None -> ~ pointer_methods (te_type _ _ _ E n) -> keeps a (te_type _ _ _ E n) q v -> keeps a (TRef n) q v
with keeps_list : ty -> list gval -> Prop :=
| kl_none T : keeps_list T []
| kl_more T v l : keeps true T false v -> keeps_list T l -> keeps_list T (v :: l)
with keeps_map : kty -> ty -> list (key * gval) -> Prop :=
| km_none k T : keeps_map k T []
| km_more k T key v m : keeps_key k key -> keeps false T false v -> keeps_map k T m -> keeps_map k T ((key, v) :: m)
(** [restores fs v cur final]: storing the fields of [v] that are encoded, one after the other in variables that
    hold zero, turns [cur] into [final] *)
with restores : list (field ty) -> gval -> gval -> gval -> Prop :=
| rs_none v cur : restores [] v cur cur
| rs_cut fd fs v cur final : cut (f_path fd) v -> restores fs v cur final -> restores (fd :: fs) v cur final
| rs_omit fd fs v x cur final : leads (f_path fd) v x -> f_omitEmpty fd = true -> tested (f_type fd) -> empty (f_type fd) x ->
    restores fs v cur final -> restores (fd :: fs) v cur final
| rs_put fd fs v x cur next final : leads (f_path fd) v x -> (f_omitEmpty fd = true -> tested (f_type fd) /\ ~ empty (f_type fd) x) ->
    utf8_text (f_name fd) -> keeps true (f_type fd) (f_quoted fd) x ->
    stores (f_path fd) (zero F32 F64 C E (f_type fd)) x cur next -> restores fs v next final -> restores (fd :: fs) v cur final.
Scheme keeps_ind4 := Minimality for keeps Sort Prop
  with keeps_list_ind4 := Minimality for keeps_list Sort Prop
  with keeps_map_ind4 := Minimality for keeps_map Sort Prop
  with restores_ind4 := Minimality for restores Sort Prop.
Combined Scheme keeps_mutind from keeps_ind4, keeps_list_ind4, keeps_map_ind4, restores_ind4.
End SpecEnc.
