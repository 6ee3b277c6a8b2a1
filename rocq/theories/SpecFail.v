(** Specification of failing encodings: the error of the first part of a value that has no representation.
    From the model this uses the data types and the errors, none of the encoders. *)
From Coq Require Import String ZArith List Bool.
From Verif Require Import Base ModelInt ModelFloat ModelOps ModelStream ModelVal ModelEnc Spec SpecStream SpecBase64 StreamFacts SpecVal SpecEnc.
Import ListNotations.
Local Open Scope Z_scope.

Section SpecFail.
Variables F32 F64 : floatOps.
Variable C : custom.
Notation gval := (gval F32 F64 C).
Variable E : env F32 F64 C.
Notation under := (under F32 F64 C E).
Variable U : marshalers F32 F64 C.
Variables G32 G64 : floatFmt.
Variable e32 : fl F32 -> ff G32.
Variable e64 : fl F64 -> ff G64.
Variable quirks : Prop.
Notation uses_json := (uses_json F32 F64 C U).
Notation uses_text := (uses_text F32 F64 C U).
Notation method := (method F32 F64 C E).
Notation encodes := (encodes F32 F64 C E U G32 G64 e32 e64 quirks).
Notation leads := (leads F32 F64 C).
Notation cut := (cut F32 F64 C).
Notation tested := (tested F32 F64 C E U).
Notation empty := (empty F32 F64 C E U G32 G64 e32 e64).
Notation shaped := (shaped F32 F64 C E).
Notation fits_key := (fits_key F32 F64 C U).
Notation no_fields := (no_fields F32 F64 C E U).
Notation never_omitted := (never_omitted F32 F64 C E U).

(** types without encoder (chan, func, complex64, ..., maps with such keys), perhaps with a name *)
Inductive no_encoder : ty -> Prop :=
| ne_bad : no_encoder TBad
| ne_map k T : ~ encodable_key k -> no_encoder (TMap k T)
| ne_ref n : ma_dyn _ _ _ U n = None -> no_encoder (te_type _ _ _ E n) -> no_encoder (TRef n)
| ne_user T id : user T id -> ~ uses_json true id -> ~ uses_text true id ->
    no_encoder (ma_under _ _ _ U id) -> no_encoder T.

(** a field that is left out, or that is written *)
Definition skipped (fd : field ty) (v : gval) : Prop :=
  cut (f_path fd) v \/
  exists x, leads (f_path fd) v x /\ f_omitEmpty fd = true /\
    ((tested (f_type fd) /\ empty (f_type fd) x) \/ (quirks /\ no_fields true (f_type fd) /\ shaped (f_type fd) x)).
Definition written (fd : field ty) (v x : gval) : Prop :=
  leads (f_path fd) v x /\ is_bytes (f_name fd) /\
  (f_omitEmpty fd = true -> (tested (f_type fd) /\ ~ empty (f_type fd) x) \/ (quirks /\ never_omitted (f_type fd))).
(** the keys of maps that have no name: their MarshalText fails *)
Inductive fails_key : kty -> key -> serr -> Prop :=
| fk_err kd u id sh key e : kd <> KKString -> sh <> KIface -> (sh <> KIndir -> ma_keyNil _ _ _ U id key = false) ->
    ma_keyText _ _ _ U id key = inr e -> fails_key (KUser kd u (Some (id, sh))) key e.

(** [fails addr T quoted v e]: the first part of [v] that has no representation has the error [e]; the parts before
    it have representations *)
Inductive fails : bool -> ty -> bool -> gval -> serr -> Prop :=
| x_inf32 a q x : ff_inf G32 (e32 x) = true -> fails a TFloat32 q (VFloat32 x) ErrFloatIsInfinity
| x_nan32 a q x : ff_inf G32 (e32 x) = false -> ff_nan G32 (e32 x) = true -> fails a TFloat32 q (VFloat32 x) ErrFloatIsNan
| x_inf64 a q x : ff_inf G64 (e64 x) = true -> fails a TFloat64 q (VFloat64 x) ErrFloatIsInfinity
| x_nan64 a q x : ff_inf G64 (e64 x) = false -> ff_nan G64 (e64 x) = true -> fails a TFloat64 q (VFloat64 x) ErrFloatIsNan
| x_json a T id q x e : user T id -> uses_json a id -> ma_MarshalJSON _ _ _ U id x = inr e -> fails a T q (VObj x) e
| x_text a T id q x e : user T id -> uses_text a id -> ma_MarshalText _ _ _ U id x = inr e -> fails a T q (VObj x) e
| x_user a T id q x e : user T id -> ~ uses_json a id -> ~ uses_text a id ->
    fails false (ma_under _ _ _ U id) q (ma_repr _ _ _ U id x) e -> fails a T q (VObj x) e
| x_bad a q v : fails a TBad q v ErrTypeNotSupported
| x_bad_map a k T q o : ~ encodable_key k -> fails a (TMap k T) q (VMap o) ErrTypeNotSupported
| x_ptr_nil a T q : no_encoder T -> fails a (TPtr T) q (VPtr None) ErrTypeNotSupported
| x_ptr a T q v e : fails true T q v e -> fails a (TPtr T) q (VPtr (Some v)) e
| x_array a n T q l e : length l = n -> fails_list T l e -> fails a (TArray n T) q (VArr l) e
| x_slice a T q l e : under T <> TInt false W8 -> fails_list T l e -> fails a (TSlice T) q (VSlice (Some l)) e
| x_map a k T q m e : encodable_key k -> fails_map k T m e -> fails a (TMap k T) q (VMap (Some m)) e
| x_struct a layout fs q v e : fails_fields fs v e -> fails a (TStruct layout fs) q v e
| x_iface a T q T' v e : T = TEface \/ T = TIface -> fails false T' q v e -> fails a T q (VIface (Some (T', v))) e
| x_ref a n q v e : ma_dyn _ _ _ U n = None -> ~ pointer_methods F32 F64 C E U (te_type _ _ _ E n) -> fails a (te_type _ _ _ E n) q v e -> fails a (TRef n) q v e
| x_ref_quirk a n q T v e : ma_dyn _ _ _ U n = None -> quirks -> te_type _ _ _ E n = TPtr T -> pointer_methods F32 F64 C E U (TPtr T) ->
    fails false T q v e -> fails a (TRef n) q (VPtr (Some v)) e
| x_dyn_json a n q T v id x e : ma_dyn _ _ _ U n = Some DJson -> method (ma_json _ _ _ U) T v id x ->
    ma_MarshalJSON _ _ _ U id x = inr e -> fails a (TRef n) q (VIface (Some (T, v))) e
| x_dyn_text a n q T v id x e : ma_dyn _ _ _ U n = Some DText -> method (ma_text _ _ _ U) T v id x ->
    ma_MarshalText _ _ _ U id x = inr e -> fails a (TRef n) q (VIface (Some (T, v))) e
(** the elements of an array or slice *)
with fails_list : ty -> list gval -> serr -> Prop :=
| xl_here T v l e : fails true T false v e -> fails_list T (v :: l) e
| xl_later T v l t e : encodes true T false v t -> fails_list T l e -> fails_list T (v :: l) e
(** the entries of a map, in the order of the iteration *)
with fails_map : kty -> ty -> list (key * gval) -> serr -> Prop :=
| xm_key k T key v m e : fails_key k key e -> fails_map k T ((key, v) :: m) e
| xm_here k T key v m e : fits_key k key -> fails false T false v e -> fails_map k T ((key, v) :: m) e
| xm_later k T key v t m e : fits_key k key -> encodes false T false v t -> fails_map k T m e -> fails_map k T ((key, v) :: m) e
(** the fields of a struct *)
with fails_fields : list (field ty) -> gval -> serr -> Prop :=
| xf_here fd fs v x e : written fd v x -> fails true (f_type fd) (f_quoted fd) x e -> fails_fields (fd :: fs) v e
| xf_skip fd fs v e : skipped fd v -> fails_fields fs v e -> fails_fields (fd :: fs) v e
| xf_later fd fs v x t e : written fd v x -> encodes true (f_type fd) (f_quoted fd) x t ->
    fails_fields fs v e -> fails_fields (fd :: fs) v e.

Scheme fails_ind4 := Minimality for fails Sort Prop
  with fails_list_ind4 := Minimality for fails_list Sort Prop
  with fails_map_ind4 := Minimality for fails_map Sort Prop
  with fails_fields_ind4 := Minimality for fails_fields Sort Prop.
Combined Scheme fails_mutind from fails_ind4, fails_list_ind4, fails_map_ind4, fails_fields_ind4.
End SpecFail.
