(** What reflect says about the pointer types that decoders are made for.  From the models this uses the types and
    values, not the decoders. *)
From Coq Require Import ZArith List Bool.
From Verif Require Import Base ModelFloat ModelOps ModelVal ModelCache SpecCache SpecWord.
From Verif Require SpecVal.
Import ListNotations.

Section Link.
Variables F32 F64 : floatOps.
Variable C : custom.
Notation gval := (gval F32 F64 C).
Variable E : env F32 F64 C.
Notation under := (under F32 F64 C E).
Variable typ : nat -> ty.
(** the kind of a type and the pointer types in it.  The decoder of a pointer variable refers to the decoder of the
    pointer type itself. *)
Inductive dkind_of : ty -> dkind -> Prop :=
| dk_basic t native e : basicOf t = Some e -> dkind_of t (KBasic native e)
| dk_eface : dkind_of TEface (KInterface false)
| dk_iface : dkind_of TIface (KInterface true)
| dk_struct layout fs cs : map typ cs = map (fun f => TPtr (f_type f)) fs -> dkind_of (TStruct layout fs) (KStruct cs)
| dk_ptr t t' e : under t = TPtr t' -> typ e = t -> dkind_of t (KPtr e)
| dk_array n t e : typ e = TPtr t -> dkind_of (TArray n t) (KArray e)
| dk_slice t e : typ e = TPtr t -> dkind_of (TSlice t) (KSlice e)
| dk_map k t e : SpecVal.decodable_key k -> typ e = TPtr t -> dkind_of (TMap k t) (KMap (Some e))
| dk_bad_key k t : ~ SpecVal.decodable_key k -> dkind_of (TMap k t) (KMap None)
| dk_bad : dkind_of TBad KOther
| dk_bad_map : dkind_of TBad (KMap None)
| dk_ref n k : (forall t, te_type _ _ _ E n <> TPtr t) -> dkind_of (te_type _ _ _ E n) k -> dkind_of (TRef n) k.
(** the types with a decoder in globalValDecoders *)
Definition dglobalOf (t : ty) : option nat :=
  match under t with TNumber => Some 0 | TRaw => Some 1 | _ => None end.
(** [ddescribes d p]: [d] is what reflect says about the pointer type [p].  Pointer types with a name have no methods. *)
Record ddescribes (d : dtype) (p : ty) : Prop := mkDDescribes {
  dd_global : dt_global d = match p with TPtr t => dglobalOf t | _ => None end;
  dd_json : dt_json d = true <-> exists t id, p = TPtr t /\ under t = TJson id;
  dd_text : dt_json d = false -> (dt_text d = true <-> exists t id, p = TPtr t /\ under t = TText id);
  dd_kind : dt_global d = None -> dt_json d = false -> dt_text d = false -> exists t, under p = TPtr t /\ dkind_of t (dt_kind d)
}.
(** the interfaces inside a value hold only pointers of the given types *)
Inductive dynamics (K : ty -> Prop) : gval -> Prop :=
| dy_bool b : dynamics K (VBool b)
| dy_int z : dynamics K (VInt z)
| dy_float32 x : dynamics K (VFloat32 x)
| dy_float64 x : dynamics K (VFloat64 x)
| dy_str s : dynamics K (VStr s)
| dy_raw o : dynamics K (VRaw o)
| dy_obj x : dynamics K (VObj x)
| dy_nil : dynamics K (VPtr None)
| dy_ptr v : dynamics K v -> dynamics K (VPtr (Some v))
| dy_arr l : Forall (dynamics K) l -> dynamics K (VArr l)
| dy_slice_nil : dynamics K (VSlice None)
| dy_slice l : Forall (dynamics K) l -> dynamics K (VSlice (Some l))
| dy_map_nil : dynamics K (VMap None)
| dy_map m : Forall (fun p => dynamics K (snd p)) m -> dynamics K (VMap (Some m))
| dy_struct l : Forall (dynamics K) l -> dynamics K (VStruct l)
| dy_iface_nil : dynamics K (VIface None)
| dy_iface t v : (forall t', under t = TPtr t' -> K t) -> dynamics K v -> dynamics K (VIface (Some (t, v))).
Variable T : nat -> dtype.
(** The program: [T] is what reflect says about the pointer types.  Excluded are pointer types with a name (type P *T) whose
    element has an UnmarshalJSON or UnmarshalText method, or is json.Number or json.RawMessage: their decoders
    go by the kind of the element, which ModelVal.v does not model.  Zero values hold no pointers in interfaces. *)
Record dprogram : Prop := mkDProgram {
  dp_types : forall c, ddescribes (T c) (typ c);
  dp_natives : natives_ok T;
  dp_names : forall n m, te_type _ _ _ E n <> TRef m;
  dp_pointers : forall n t, te_type _ _ _ E n = TPtr t ->
    match under t with TJson _ | TText _ | TNumber | TRaw => False | _ => True end;
  dp_zero : forall n, dynamics (fun _ => False) (te_zero _ _ _ E n)
}.
Variable code : ty -> nat.
(** a pointer type of the program that has a decoder in the published cache *)
Definition known (root : nat -> option dval) (p : ty) : Prop :=
  (exists t, under p = TPtr t) /\ typ (code p) = p /\ root (code p) <> None.
(** the same for the types that interfaces may hold: decoding null into a pointer to a pointer stores a new pointer *)
Definition dready (root : nat -> option dval) (v : gval) : Prop :=
  dynamics (fun p => known root p /\ forall t t', under p = TPtr t -> under t = TPtr t' -> known root (TPtr t)) v.
End Link.
