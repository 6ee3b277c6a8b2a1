(** The way to a field, if it can be gone (C28). *)
From Coq Require Import ZArith List Bool.
From Verif Require Import Base ModelVal SpecVal.
Import ListNotations.

(** [reached E path v x]: the field at the end of the path holds [x]; nil pointers on the way stand for new structs *)
Inductive reached {F32 F64 C} (E : env F32 F64 C) : list (hop ty) -> gval F32 F64 C -> gval F32 F64 C -> Prop :=
| rc_here x : reached E [] x x
| rc_field path l1 x l2 y : reached E path x y -> reached E (HField (length l1) :: path) (VStruct (l1 ++ x :: l2)) y
| rc_ptr alloc path x y : reached E path x y -> reached E (HPtr alloc :: path) (VPtr (Some x)) y
| rc_alloc T path y : reached E path (zero F32 F64 C E T) y -> reached E (HPtr (Some T) :: path) (VPtr None) y.
