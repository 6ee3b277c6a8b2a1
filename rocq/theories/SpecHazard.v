(** Specification of the values whose encoding may panic, and of user-defined types without cycles.  From the model this uses the data
    types (Go types, Go values, methods of user-defined types) only. *)
From Coq Require Import ZArith List Bool.
From Verif Require Import Base ModelInt ModelFloat ModelOps ModelVal ModelEnc SpecEnc.
Import ListNotations.
Local Open Scope Z_scope.

Section Hazard.
Variables F32 F64 : floatOps.
Variable C : custom.
Notation gval := (gval F32 F64 C).
Variable E : env F32 F64 C.
Notation under := (under F32 F64 C E).
Variable U : marshalers F32 F64 C.
Notation uses_json := (uses_json F32 F64 C U).
Notation uses_text := (uses_text F32 F64 C U).
Notation packed := (packed F32 F64 C U).
Notation leads := (leads F32 F64 C).

(** [within v y]: the state [y] of a user-defined type is in the value [v] *)
Inductive within : gval -> cu_state C -> Prop :=
| wi_obj y : within (VObj y) y
| wi_ptr v y : within v y -> within (VPtr (Some v)) y
| wi_array l v y : In v l -> within v y -> within (VArr l) y
| wi_slice l v y : In v l -> within v y -> within (VSlice (Some l)) y
| wi_map m k v y : In (k, v) m -> within v y -> within (VMap (Some m)) y
| wi_struct l v y : In v l -> within v y -> within (VStruct l) y
| wi_iface T v y : within v y -> within (VIface (Some (T, v))) y.
(** taking a value of a user-defined type apart comes to an end: no value is a part of itself *)
Definition no_cycles : Prop := well_founded (fun y x => exists id, within (ma_repr _ _ _ U id x) y).

(** types whose emptiness cannot be tested: the interface types with one of the methods, except json.Marshaler and
    encoding.TextMarshaler, and user-defined types with a method of the value type whose kind is string, pointer or interface *)
Definition untestable (T : ty) : Prop :=
  packed T \/ exists id, user (under T) id /\ (uses_json false id \/ (~ uses_json true id /\ uses_text false id)) /\
    match under (ma_under _ _ _ U id) with
    | TBool | TInt _ _ | TFloat32 | TFloat64 | TArray _ _ | TMap _ _ | TSlice _ | TStruct _ _ => False
    | _ => True
    end.

(** [hazard addr T v]: a part of [v] is of one of five kinds; [addr] as in [encodes] *)
Inductive hazard : bool -> ty -> gval -> Prop :=
(** 1. a variable of one of these interface types *)
| hz_packed a T v : packed T -> hazard a T v
(** 2. contents of json.Marshaler or encoding.TextMarshaler without the method, or nil pointers, whose methods may panic *)
| hz_json a n T v : ma_dyn _ _ _ U n = Some DJson -> (forall id x, ~ method F32 F64 C E (ma_json _ _ _ U) T v id x) ->
    hazard a (TRef n) (VIface (Some (T, v)))
| hz_text a n T v : ma_dyn _ _ _ U n = Some DText -> (forall id x, ~ method F32 F64 C E (ma_text _ _ _ U) T v id x) ->
    hazard a (TRef n) (VIface (Some (T, v)))
(** 3. a nil pointer to encoding.TextMarshaler *)
| hz_nil a n : ma_dyn _ _ _ U n = Some DText -> hazard a (TPtr (TRef n)) (VPtr None)
(** 4. a map whose keys are interfaces with MarshalText *)
| hz_key a kd u id T m : kd <> KKString -> m <> [] -> hazard a (TMap (KUser kd u (Some (id, KIface))) T) (VMap (Some m))
(** 5. a field with omitempty whose emptiness cannot be tested *)
| hz_omit a layout fs fd v x : In fd fs -> f_omitEmpty fd = true -> leads (f_path fd) v x -> untestable (f_type fd) ->
    hazard a (TStruct layout fs) v
(** the parts of values *)
| hz_user a T id x : user T id -> ~ uses_json a id -> ~ uses_text a id ->
    hazard false (ma_under _ _ _ U id) (ma_repr _ _ _ U id x) -> hazard a T (VObj x)
| hz_ptr a T v : hazard true T v -> hazard a (TPtr T) (VPtr (Some v))
| hz_array a n T l v : In v l -> hazard true T v -> hazard a (TArray n T) (VArr l)
| hz_slice a T l v : In v l -> hazard true T v -> hazard a (TSlice T) (VSlice (Some l))
| hz_map a k T m key v : In (key, v) m -> hazard false T v -> hazard a (TMap k T) (VMap (Some m))
| hz_struct a layout fs fd v x : In fd fs -> leads (f_path fd) v x -> hazard true (f_type fd) x -> hazard a (TStruct layout fs) v
| hz_iface a T T' v : T = TEface \/ T = TIface -> hazard false T' v -> hazard a T (VIface (Some (T', v)))
| hz_ref a n v : ma_dyn _ _ _ U n = None -> hazard a (te_type _ _ _ E n) v -> hazard a (TRef n) v
| hz_ref_ptr a n T v : ma_dyn _ _ _ U n = None -> te_type _ _ _ E n = TPtr T -> hazard false T v -> hazard a (TRef n) (VPtr (Some v)).
End Hazard.
