(** Specification of what a Go program can hold in a variable of a type, of the texts that a value carries, and of texts that are
    safe in HTML.  From the model this uses the data types (Go types, Go values, methods of user-defined types) only. *)
From Coq Require Import String ZArith List Bool.
From Verif Require Import Base ModelInt ModelFloat ModelOps ModelVal ModelEnc Spec SpecStream SpecVal.
From Verif Require SpecEnc.
Import ListNotations.
Local Open Scope Z_scope.

(** Unicode text, encoded as UTF-8, without the line separators that JavaScript does not have in strings, and if [html] is set without
    the characters that mean something in HTML *)
Definition tidy (html : bool) (t : bytes) : Prop :=
  utf8_text t /\ ~ occurs (utf8 8232) t /\ ~ occurs (utf8 8233) t /\ (html = true -> ~ In 60 t /\ ~ In 62 t /\ ~ In 38 t).

Section Typed.
Variables F32 F64 : floatOps.
Variable C : custom.
Notation gval := (gval F32 F64 C).
Variable E : env F32 F64 C.
Notation under := (under F32 F64 C E).

(** the keys of a map with the given key type *)
Definition typed_key (k : kty) (key : key) : Prop :=
  match k, key with
  | KString, KS s | KUser KKString _ _, KS s => is_bytes s
  | KInt signed w, KI z | KUser (KKInt signed w) _ _, KI z => in_range signed w z
  | KUser KKOther _ _, KO _ => True
  | _, _ => False
  end.

(** [route T path T']: the path leads from a variable of type [T] to one of type [T'], through fields of structs and pointers; if a
    pointer is nil and may be set, a variable of the type that it points to is made *)
Inductive route : ty -> list (hop ty) -> ty -> Prop :=
| ro_here T : route T [] T
| ro_field T layout fs i Ti path T' : under T = TStruct layout fs -> nth_error layout i = Some Ti -> route Ti path T' ->
    route T (HField i :: path) T'
| ro_ptr T T1 alloc path T' : under T = TPtr T1 -> alloc = None \/ alloc = Some T1 -> route T1 path T' -> route T (HPtr alloc :: path) T'.

(** The types of Go programs: the names of the fields of a struct are strings, and the way to each field leads to a variable of the
    type of the field; a key made by UnmarshalText is a key. *)
Inductive sound : ty -> Prop :=
| so_simple T : match T with TPtr _ | TArray _ _ | TSlice _ | TMap _ _ | TStruct _ _ => False | _ => True end -> sound T
| so_ptr T : sound T -> sound (TPtr T)
| so_array n T : sound T -> sound (TArray n T)
| so_slice T : sound T -> sound (TSlice T)
| so_map k T : (forall kd id m x, k = KUser kd (Some id) m -> typed_key k (cu_key C id x)) -> sound T -> sound (TMap k T)
| so_struct layout fs : (forall T, In T layout -> sound T) ->
    (forall fd, In fd fs -> is_bytes (f_name fd) /\ route (TStruct layout fs) (f_path fd) (f_type fd)) -> sound (TStruct layout fs).

(** [typed T v]: a variable of type [T] can hold [v] *)
Inductive typed : ty -> gval -> Prop :=
| ty_bool b : typed TBool (VBool b)
| ty_int signed w z : in_range signed w z -> typed (TInt signed w) (VInt z)
| ty_float32 x : typed TFloat32 (VFloat32 x)
| ty_float64 x : typed TFloat64 (VFloat64 x)
| ty_string s : is_bytes s -> typed TString (VStr s)
| ty_number s : is_bytes s -> typed TNumber (VStr s)
| ty_raw_nil : typed TRaw (VRaw None)
| ty_raw s : is_bytes s -> typed TRaw (VRaw (Some s))
| ty_json id x : typed (TJson id) (VObj x)
| ty_text id x : typed (TText id) (VObj x)
| ty_ptr_nil T : typed (TPtr T) (VPtr None)
| ty_ptr T v : typed T v -> typed (TPtr T) (VPtr (Some v))
| ty_array T l : Forall (typed T) l -> typed (TArray (length l) T) (VArr l)
| ty_slice_nil T : typed (TSlice T) (VSlice None)
| ty_slice T l : Forall (typed T) l -> typed (TSlice T) (VSlice (Some l))
| ty_map_nil k T : typed (TMap k T) (VMap None)
| ty_map k T m : NoDup (map fst m) -> Forall (typed_key k) (map fst m) -> Forall (typed T) (map snd m) -> typed (TMap k T) (VMap (Some m))
| ty_struct layout fs l : Forall2 typed layout l -> typed (TStruct layout fs) (VStruct l)
| ty_iface_nil T : T = TEface \/ T = TIface -> typed T (VIface None)
| ty_iface T T' v : T = TEface \/ T = TIface -> sound T' -> typed T' v -> typed T (VIface (Some (T', v)))
| ty_ref n v : typed (te_type _ _ _ E n) v -> typed (TRef n) v
| ty_bad v : typed TBad v.

(** the named types, with their zero values *)
Definition sound_env : Prop := forall n, sound (te_type _ _ _ E n) /\ typed (te_type _ _ _ E n) (te_zero _ _ _ E n).

(** the user-defined types: MarshalText and the keys' MarshalText return bytes; without methods, a value is one of the underlying type *)
Variable U : marshalers F32 F64 C.
Record sound_users : Prop := mkSoundUsers {
  su_type : forall id, sound (ma_under _ _ _ U id);
  su_repr : forall id x, typed (ma_under _ _ _ U id) (ma_repr _ _ _ U id x);
  su_text : forall id x s, ma_MarshalText _ _ _ U id x = inl s -> is_bytes s;
  su_keys : forall id key s, ma_keyText _ _ _ U id key = inl s -> is_bytes s
}.

(** [carries T v t]: [t] is a text in [v] that is JSON by itself: the text of a json.Number or json.RawMessage, or what a MarshalJSON
    method returns *)
Inductive carries : ty -> gval -> bytes -> Prop :=
| ca_number t : t <> [] -> carries TNumber (VStr t) t
| ca_raw t : carries TRaw (VRaw (Some t)) t
| ca_json T id x t : SpecEnc.user T id -> ma_json _ _ _ U id <> RNone -> ma_MarshalJSON _ _ _ U id x = inl t -> carries T (VObj x) t
| ca_user T id x t : SpecEnc.user T id -> carries (ma_under _ _ _ U id) (ma_repr _ _ _ U id x) t -> carries T (VObj x) t
| ca_ptr T v t : carries T v t -> carries (TPtr T) (VPtr (Some v)) t
| ca_array n T l v t : In v l -> carries T v t -> carries (TArray n T) (VArr l) t
| ca_slice T l v t : In v l -> carries T v t -> carries (TSlice T) (VSlice (Some l)) t
| ca_map k T m key v t : In (key, v) m -> carries T v t -> carries (TMap k T) (VMap (Some m)) t
| ca_struct layout fs fd v x t : In fd fs -> SpecEnc.leads F32 F64 C (f_path fd) v x -> carries (f_type fd) x t -> carries (TStruct layout fs) v t
| ca_iface T T' v t : T = TEface \/ T = TIface -> carries T' v t -> carries T (VIface (Some (T', v))) t
| ca_ref n v t : carries (te_type _ _ _ E n) v t -> carries (TRef n) v t.
End Typed.
