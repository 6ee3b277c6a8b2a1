(** Specification of the types whose values can be made: named types that are not pointers to themselves.  From the model this uses
    the data types (Go types) only. *)
From Coq Require Import ZArith List.
From Verif Require Import Base ModelFloat ModelVal.
Section Progress.
Variables F32 F64 : floatOps.
Variable C : custom.
Variable E : env F32 F64 C.

(** the names and pointers at the front of a type come to an end *)
Inductive grounded : ty -> Prop :=
| gr_other T : match T with TPtr _ | TRef _ => False | _ => True end -> grounded T
| gr_ptr T : grounded T -> grounded (TPtr T)
| gr_ref n : grounded (te_type _ _ _ E n) -> grounded (TRef n).
End Progress.
