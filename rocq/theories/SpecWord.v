(** Types and memory: what reflect says about the types of ModelVal.v, and how values are laid out where that matters to
    encoders.  From the models this uses the types and values, not the encoders. *)
From Coq Require Import ZArith List Bool.
From Verif Require Import Base ModelFloat ModelOps ModelVal ModelEnc ModelEncCache SpecEncCache ModelWord.
From Verif Require SpecEnc.
Import ListNotations.

Section Words.
Variables F32 F64 : floatOps.
Variable C : custom.
Notation gval := (gval F32 F64 C).
Variable E : env F32 F64 C.
Notation under := (under F32 F64 C E).
Variable U : marshalers F32 F64 C.
Notation pword := (pword F32 F64 C).
Notation PNil := (PNil F32 F64 C).
Notation PVar := (PVar F32 F64 C).
Notation PHmap := (PHmap F32 F64 C).
Notation user T id := (T = TJson id \/ T = TText id).

(** types with the shape of a pointer: one pointer or map, or a struct or array with one such part *)
Inductive pshape : ty -> Prop :=
| ps_ptr t : pshape (TPtr t)
| ps_map k t : pshape (TMap k t)
| ps_struct t fs : pshape t -> pshape (TStruct [t] fs)
| ps_array t : pshape t -> pshape (TArray 1 t)
| ps_ref n : pshape (te_type _ _ _ E n) -> pshape (TRef n)
| ps_user t id : user t id -> pshape (ma_under _ _ _ U id) -> pshape t.
(** [holds t p v]: a variable of type [t] whose memory is the word [p] has the value [v] *)
Inductive holds : ty -> pword -> gval -> Prop :=
| ho_nil t : holds (TPtr t) PNil (VPtr None)
| ho_ptr t v : holds (TPtr t) (PVar v) (VPtr (Some v))
| ho_nomap k t : holds (TMap k t) PNil (VMap None)
| ho_map k t m : holds (TMap k t) (PHmap m) (VMap (Some m))
| ho_struct t fs p v : holds t p v -> holds (TStruct [t] fs) p (VStruct [v])
| ho_array t p v : holds t p v -> holds (TArray 1 t) p (VArr [v])
| ho_ref n p v : holds (te_type _ _ _ E n) p v -> holds (TRef n) p v
| ho_user t id p x : user t id -> holds (ma_under _ _ _ U id) p (ma_repr _ _ _ U id x) -> holds t p (VObj x).
(** the data word of an interface that holds a value *)
Inductive data_word (t : ty) : gval -> pword -> Prop :=
| dw_shape p v : pshape t -> holds t p v -> data_word t v p
| dw_address v : ~ pshape t -> data_word t v (PVar v).

(** [part x v]: [x] is [v], a component, what a pointer leads to, or what an interface holds, and so on *)
Inductive part (x : gval) : gval -> Prop :=
| pt_here : part x x
| pt_ptr v : part x v -> part x (VPtr (Some v))
| pt_arr v l : In v l -> part x v -> part x (VArr l)
| pt_slice v l : In v l -> part x v -> part x (VSlice (Some l))
| pt_map k v m : In (k, v) m -> part x v -> part x (VMap (Some m))
| pt_struct v l : In v l -> part x v -> part x (VStruct l)
| pt_iface t v : part x v -> part x (VIface (Some (t, v)))
| pt_obj id y : part x (ma_repr _ _ _ U id y) -> part x (VObj y).

(** ** What reflect says *)
Variable typ : nat -> ty.
Variables uint8 : nat.
(** the predeclared types and the numbers of their encoders *)
Definition basicOf (t : ty) : option nat :=
  match t with
  | TBool => Some 0 | TString => Some 1 | TFloat32 => Some 2 | TFloat64 => Some 3
  | TInt true W8 => Some 4 | TInt true W16 => Some 5 | TInt true W32 => Some 6 | TInt true W64 => Some 7
  | TInt false W8 => Some 8 | TInt false W16 => Some 9 | TInt false W32 => Some 10 | TInt false W64 => Some 11
  | _ => None
  end.
Definition uint8Enc : nat := 8.
(** the kind of a type and the types in it *)
Inductive kind_of : ty -> ekind -> Prop :=
| ko_basic t native e : basicOf t = Some e -> (native = uint8 <-> e = uint8Enc) -> kind_of t (EKBasic native e)
| ko_eface : kind_of TEface (EKInterface false)
| ko_iface : kind_of TIface (EKInterface true)
| ko_struct layout fs cs : map typ cs = map (@f_type ty) fs -> kind_of (TStruct layout fs) (EKStruct cs)
| ko_ptr e : kind_of (TPtr (typ e)) (EKPtr e)
| ko_array n e : kind_of (TArray n (typ e)) (EKArray (Nat.eqb n 0) e)
| ko_slice e : kind_of (TSlice (typ e)) (EKSlice e)
| ko_map k e : SpecEnc.encodable_key k -> kind_of (TMap k (typ e)) (EKMap (Some e))
| ko_bad : kind_of TBad EKOther
| ko_bad_map k t : ~ SpecEnc.encodable_key k -> kind_of (TMap k t) (EKMap None)
| ko_ref n k : kind_of (te_type _ _ _ E n) k -> kind_of (TRef n) k
| ko_user t id k : user t id -> kind_of (ma_under _ _ _ U id) k -> kind_of t k.
(** the types with an encoder in globalValEncoders *)
Definition globalOf (t : ty) : option nat :=
  match under t with
  | TNumber => Some 0
  | TRaw => Some 1
  | _ => match t with
         | TRef n => match ma_dyn _ _ _ U n with Some DJson => Some 2 | Some DText => Some 3 | _ => None end
         | _ => None
         end
  end.
(** the method sets: [m] tells how user-defined types define the method, [i] which interface types include it *)
Inductive has_method (m : nat -> recv) (i : dyn -> Prop) : ty -> Prop :=
| hm_value t id : user (under t) id -> m id = RValue -> has_method m i t
| hm_ptr t id : user (under t) id -> m id <> RNone -> has_method m i (TPtr t)
| hm_iface n d : ma_dyn _ _ _ U n = Some d -> i d -> has_method m i (TRef n).
Definition json_iface (d : dyn) : Prop := d = DJson \/ d = DJsonOther.
Definition text_iface (d : dyn) : Prop := d = DText \/ d = DTextOther.
(** [describes d t]: [d] is what reflect says about [t].  Whether channels and functions have the shape of a pointer does
    not matter, nor does MarshalText for types with MarshalJSON. *)
Record describes (d : etype) (t : ty) : Prop := mkDescribes {
  ds_global : et_global d = globalOf t;
  ds_json : et_json d = true <-> has_method (ma_json _ _ _ U) json_iface t;
  ds_text : et_json d = false -> (et_text d = true <-> has_method (ma_text _ _ _ U) text_iface t);
  ds_indir : under t <> TBad -> (et_indir d = false <-> pshape t);
  ds_kind : et_global d = None -> kind_of t (et_kind d)
}.
(** ** The program: its types, their codes and the memory *)
Variable code : ty -> nat.
Variable T : nat -> etype.
Variable ptrTo : nat -> nat.
Variable load : ty -> pword -> gval.
Variable store : ty -> gval -> pword.
(** [T] is what reflect says about the types; what a pointer-shaped word of memory means; and ModelEnc.v does not take
    user-defined types of kind uint8 without methods for bytes *)
Record program : Prop := mkProgram {
  pr_types : forall c, describes (T c) (typ c);
  pr_natives : enatives_ok T;
  pr_pointers : pointers_ok T ptrTo;
  pr_ptrTo : forall c, typ (ptrTo c) = TPtr (typ c);
  pr_load : forall t p v, holds t p v -> load t p = v;
  pr_user : forall t id x, user (under t) id -> pshape t -> holds t (store t (VObj x)) (VObj x);
  pr_bytes : forall id, ma_under _ _ _ U id = TInt false W8 -> ma_json _ _ _ U id <> RNone \/ ma_text _ _ _ U id <> RNone
}.
(** all interfaces in the value hold types that the program has, with the right data words, and there are encoders for
    these types *)
Definition ready (root : nat -> option eval) (v : gval) : Prop :=
  forall t x, part (VIface (Some (t, x))) v -> typ (code t) = t /\ data_word t x (store t x) /\ root (code t) <> None.
End Words.
