(** Specification of value streams, and the relaxed JSON grammar that the typed decoders accept. *)
From Coq Require Import String ZArith List Bool.
From Verif Require Import Base ModelInt ModelFloat ModelOps ModelVal ModelDecoder Spec SpecVal.
Import ListNotations.
Local Open Scope Z_scope.

(** the texts of a stream, separated by white space; each begins with something else *)
Inductive stream_of : bytes -> list bytes -> Prop :=
| so_end w : ws w -> stream_of w []
| so_next w t s ts : ws w -> (exists c t', t = c :: t' /\ ~ is_ws c) -> (s = [] \/ exists c s', s = c :: s' /\ is_ws c) -> stream_of s ts ->
    stream_of (w ++ t ++ s) (t :: ts).

(** JSON with two relaxations: [nk] allows unquoted null as the key of a member, [sp] allows raw white
    space before true, false and null in strings *)
Inductive lax (nk sp : Prop) : bytes -> Prop :=
| lax_value t j : value t j -> lax nk sp t
| lax_bool w t : sp -> ws w -> In t [bs "true"; bs "false"; bs "null"] -> lax nk sp (quote (w ++ t))
| lax_array t ts : array_text t ts -> Forall (lax nk sp) ts -> lax nk sp t
| lax_object t ps : object_text t ps ->
    Forall (fun p => (nk /\ fst p = bs "null") \/ exists b s, fst p = quote b /\ string_body b s) ps ->
    Forall (fun p => lax nk sp (snd p)) ps -> lax nk sp t.

Section Spec.
Variables F32 F64 : floatOps.
Variable C : custom.
Notation gval := (gval F32 F64 C).
Variable E : env F32 F64 C.
Variable lookup : list bytes -> bytes -> option nat.
Variables useNumber disallow : bool.
Notation decodes := (decodes F32 F64 C E lookup useNumber disallow).

(** what the calls of a Decoder return after an error *)
Definition failed (e : err) (o : dop F32 F64 C) : dout F32 F64 C :=
  match o with DDecode _ _ => RDecode (Err e) | DMore => RMore false end.
(** what the calls of a Decoder return if the given texts are still to come, and [fin] after them;
    each Decode has a target that the next text can be decoded into *)
Inductive session (fin : err) : list bytes -> list (dop F32 F64 C) -> list (dout F32 F64 C) -> Prop :=
| se_nil ts : session fin ts [] []
| se_more ts ops outs : session fin ts ops outs ->
    session fin ts (DMore :: ops) (RMore (match ts with [] => false | _ => true end) :: outs)
| se_decode t ts T old v ops outs : decodes T noOpts old t v -> session fin ts ops outs ->
    session fin (t :: ts) (DDecode T old :: ops) (RDecode (Ok v) :: outs)
| se_end T old t v ops : decodes T noOpts old t v ->
    session fin [] (DDecode T old :: ops) (RDecode (Err fin) :: map (failed fin) ops).

(** bool, pointers to bool, and so on *)
Inductive bool_type : ty -> Prop :=
| bt_bool : bool_type TBool
| bt_ptr T : bool_type T -> bool_type (TPtr T)
| bt_ref n : bool_type (te_type _ _ _ E n) -> bool_type (TRef n).
(** A set of types that is closed under taking parts; [nk] if it contains maps, [sp] if it contains
    fields of boolean type with the string option. *)
Definition closed (nk sp : Prop) (S : ty -> Prop) : Prop := forall T, S T ->
  match T with
  | TPtr T | TArray _ T | TSlice T => S T
  | TMap _ T => nk /\ S T
  | TStruct _ fs => Forall (fun fd => S (f_type fd) /\ (f_quoted fd = true -> bool_type (f_type fd) -> sp)) fs
  | TRef n => S (te_type _ _ _ E n)
  | _ => True
  end.
(** the interfaces inside a value hold no pointers to types outside of the set *)
Inductive holds_only (S : ty -> Prop) : gval -> Prop :=
| ho_bool b : holds_only S (VBool b)
| ho_int z : holds_only S (VInt z)
| ho_float32 x : holds_only S (VFloat32 x)
| ho_float64 x : holds_only S (VFloat64 x)
| ho_str s : holds_only S (VStr s)
| ho_raw o : holds_only S (VRaw o)
| ho_obj x : holds_only S (VObj x)
| ho_nil : holds_only S (VPtr None)
| ho_ptr v : holds_only S v -> holds_only S (VPtr (Some v))
| ho_arr l : Forall (holds_only S) l -> holds_only S (VArr l)
| ho_slice_nil : holds_only S (VSlice None)
| ho_slice l : Forall (holds_only S) l -> holds_only S (VSlice (Some l))
| ho_map_nil : holds_only S (VMap None)
| ho_map m : Forall (fun p => holds_only S (snd p)) m -> holds_only S (VMap (Some m))
| ho_struct l : Forall (holds_only S) l -> holds_only S (VStruct l)
| ho_iface_nil : holds_only S (VIface None)
| ho_iface T v : (forall T', under F32 F64 C E T = TPtr T' -> S T') -> holds_only S v -> holds_only S (VIface (Some (T, v))).
End Spec.
