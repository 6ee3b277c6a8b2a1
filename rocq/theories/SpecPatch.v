(** Objects in two parts (C64). *)
From Coq Require Import String ZArith List Bool.
From Verif Require Import Base ModelVal SpecVal Spec.
Import ListNotations.
Local Open Scope Z_scope.

(** [data] is an object, with white space around it, whose members have the texts [ps] *)
Definition object_doc (data : bytes) (ps : list (bytes * bytes)) : Prop :=
  (exists w1 t w2, data = w1 ++ t ++ w2 /\ ws w1 /\ ws w2 /\ object_text t ps) /\
  Forall (fun p => (exists b s, fst p = quote b /\ string_body b s) /\ exists j, value (snd p) j) ps.
(** structs, maps, and pointers to those, also through the names of types *)
Inductive patched {F32 F64 C} (E : env F32 F64 C) : ty -> Prop :=
| pa_struct layout fields : patched E (TStruct layout fields)
| pa_map k t : patched E (TMap k t)
| pa_ptr t : patched E t -> patched E (TPtr t)
| pa_ref n : patched E (te_type F32 F64 C E n) -> patched E (TRef n).
