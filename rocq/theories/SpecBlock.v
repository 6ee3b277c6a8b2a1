(** Fields that cannot be reached (C28). *)
From Coq Require Import ZArith List Bool.
From Verif Require Import Base ModelVal SpecVal.
Import ListNotations.

(** the way to the field leads through a nil pointer that may not be set: an embedded pointer to a struct whose type is not exported *)
Inductive blocked {F32 F64 C} (E : env F32 F64 C) : list (hop ty) -> gval F32 F64 C -> Prop :=
| bl_here path : blocked E (HPtr None :: path) (VPtr None)
| bl_field path l1 x l2 : blocked E path x -> blocked E (HField (length l1) :: path) (VStruct (l1 ++ x :: l2))
| bl_ptr alloc path x : blocked E path x -> blocked E (HPtr alloc :: path) (VPtr (Some x))
| bl_alloc T path : blocked E path (zero F32 F64 C E T) -> blocked E (HPtr (Some T) :: path) (VPtr None).
