(** Members of an object in another order, as texts (C60). *)
From Coq Require Import String ZArith List Bool.
From Verif Require Import Base ModelVal SpecVal Spec SpecStream SpecOrder.
Import ListNotations.
Local Open Scope Z_scope.

(** neighbours whose names never stand for the same field change places, any number of times *)
Inductive moved (lookup : list bytes -> bytes -> option nat) : list (bytes * bytes) -> list (bytes * bytes) -> Prop :=
| mo_same ps : moved lookup ps ps
| mo_swap ps1 b a x c d y ps2 ps : string_body b a -> string_body c d -> differ lookup a d ->
    moved lookup (ps1 ++ (quote c, y) :: (quote b, x) :: ps2) ps -> moved lookup (ps1 ++ (quote b, x) :: (quote c, y) :: ps2) ps.
(** structs whose fields do not overlap, with fields of any types, and pointers to those, also through the names of types *)
Inductive recordT {F32 F64 C} (E : env F32 F64 C) : ty -> Prop :=
| re_struct layout fields : NoDup (map f_name fields) -> Forall is_bytes (map f_name fields) ->
    (forall i j fi fj, i <> j -> nth_error fields i = Some fi -> nth_error fields j = Some fj -> apart (f_path fi) (f_path fj)) -> recordT E (TStruct layout fields)
| re_ptr t : recordT E t -> recordT E (TPtr t)
| re_ref n : recordT E (te_type F32 F64 C E n) -> recordT E (TRef n).
