(** Specification for the options of a decoder: how the values decoded with UseNumber differ from the values decoded
    without it, and the texts in which no number is out of range.  From the model this uses the data types (Go types,
    Go values), none of the decoders. *)
From Coq Require Import String ZArith List Bool.
From Verif Require Import Base ModelFloat ModelOps ModelVal Spec.
Import ListNotations.
Local Open Scope Z_scope.

Section SpecOption.
Variables F32 F64 : floatOps.
Variable C : custom.
Notation gval := (gval F32 F64 C).

(** the values are equal except for some contents of interfaces, which are related by [base] *)
Inductive alike (base : gval -> gval -> Prop) : gval -> gval -> Prop :=
| al_same v : alike base v v
| al_base v w : base v w -> alike base v w
| al_ptr v w : alike base v w -> alike base (VPtr (Some v)) (VPtr (Some w))
| al_arr l m : Forall2 (alike base) l m -> alike base (VArr l) (VArr m)
| al_slice l m : Forall2 (alike base) l m -> alike base (VSlice (Some l)) (VSlice (Some m))
| al_struct l m : Forall2 (alike base) l m -> alike base (VStruct l) (VStruct m)
| al_map l m : Forall2 (fun p q => fst p = fst q /\ alike base (snd p) (snd q)) l m -> alike base (VMap (Some l)) (VMap (Some m))
| al_iface T v w : alike base v w -> alike base (VIface (Some (T, v))) (VIface (Some (T, w))).

(** a float64 in an interface, and the json.Number in an interface whose text ParseFloat turns into this float64 *)
Inductive as_number : gval -> gval -> Prop :=
| an_intro t x : fl_parse F64 t = inl x ->
    as_number (VIface (Some (TFloat64, VFloat64 x))) (VIface (Some (TNumber, VStr t))).
(** the second value is the first with json.Numbers in the place of some of the float64s in interfaces *)
Definition renumbered : gval -> gval -> Prop := alike as_number.

(** every number somewhere in the text is one that ParseFloat accepts *)
Definition in_float_range (t : bytes) : Prop :=
  forall a n c, t = a ++ n ++ c -> number n -> exists x, fl_parse F64 n = inl x.
End SpecOption.
