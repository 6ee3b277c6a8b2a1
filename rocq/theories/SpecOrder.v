(** JSON values that differ in the order of the members of objects only, and Go values that are the same for a program (C60). *)
From Coq Require Import String ZArith List Bool.
From Verif Require Import Base ModelFloat ModelOps ModelVal SpecVal Spec SpecStream SpecSpell.
Import ListNotations.
Local Open Scope Z_scope.

Section Order.
(** the field that a name stands for, given the names of the fields *)
Variable lookup : list bytes -> bytes -> option nat.
(** two names that never stand for the same field, whatever the names of the fields are *)
Definition differ (k k' : bytes) : Prop :=
  k <> k' /\ forall names i, NoDup names -> Forall is_bytes names -> lookup names k = Some i -> lookup names k' <> Some i.
(** neighbours with such names change places, any number of times *)
Inductive reordered {A} : list (bytes * A) -> list (bytes * A) -> Prop :=
| ro_same l : reordered l l
| ro_swap l1 a c l2 l : differ (fst a) (fst c) -> reordered (l1 ++ c :: a :: l2) l -> reordered (l1 ++ a :: c :: l2) l.
(** a reordering of the members of any objects within a JSON value *)
Inductive shuffled : jval -> jval -> Prop :=
| sh_same j : shuffled j j
| sh_arr l l' : Forall2 shuffled l l' -> shuffled (JArr l) (JArr l')
| sh_obj ms ms1 ms' : Forall2 (fun p q => fst p = fst q /\ shuffled (snd p) (snd q)) ms ms1 -> reordered ms1 ms' -> shuffled (JObj ms) (JObj ms').
End Order.

(** Values of Go that a program cannot tell apart: maps are equal if they have the same entries. *)
Section Same.
Variables F32 F64 : floatOps.
Variable C : custom.
Notation gval := (gval F32 F64 C).
Fixpoint get (m : list (key * gval)) (k : key) : option gval :=
  match m with [] => None | (k', v) :: r => if key_eq_dec k' k then Some v else get r k end.
Inductive same : gval -> gval -> Prop :=
| sv_same v : same v v
| sv_ptr x y : same x y -> same (VPtr (Some x)) (VPtr (Some y))
| sv_arr l l' : Forall2 same l l' -> same (VArr l) (VArr l')
| sv_slice l l' : Forall2 same l l' -> same (VSlice (Some l)) (VSlice (Some l'))
| sv_struct l l' : Forall2 same l l' -> same (VStruct l) (VStruct l')
| sv_iface t x y : same x y -> same (VIface (Some (t, x))) (VIface (Some (t, y)))
| sv_map m m' : (forall k v, get m k = Some v -> exists v', get m' k = Some v' /\ same v v') -> (forall k, get m k = None -> get m' k = None) ->
    same (VMap (Some m)) (VMap (Some m')).
End Same.

(** The places of two fields are apart: their paths part at different fields of one struct. *)
Inductive apart : list (hop ty) -> list (hop ty) -> Prop :=
| ap_part i j p q : i <> j -> apart (HField i :: p) (HField j :: q)
| ap_next h p q : apart p q -> apart (h :: p) (h :: q).
(** The types it is claimed for, besides those that see the spelling of a text: the fields of a struct have different names
    and do not overlap, and the keys of maps are strings, so that different names are different keys. *)
Definition orderless {F32 F64 C} (E : env F32 F64 C) (P : bool -> ty -> Prop) (q : bool) (t : ty) : Prop :=
  blind E true P q t /\
  match t with
  | TMap k _ => match k with KString | KUser KKString None _ => True | _ => False end
  | TStruct _ fields => NoDup (map f_name fields) /\ Forall is_bytes (map f_name fields) /\
      forall i j fi fj, i <> j -> nth_error fields i = Some fi -> nth_error fields j = Some fj -> apart (f_path fi) (f_path fj)
  | _ => True
  end.
