(** Specification of what decoding into interface{} variables stores, and of floats whose texts are read back.  From the model this
    uses the data types only. *)
From Coq Require Import String ZArith List Bool.
From Verif Require Import Base ModelFloat ModelStream ModelVal Spec SpecStream StreamFacts.
Import ListNotations.

(** ** What decoding into an interface{} variable stores *)
Section Stored.
Variables F32 F64 : floatOps.
Variable C : custom.
Notation gval := (gval F32 F64 C).
Variable useNumber : bool.
Variable text : bytes -> Prop.           (* the strings and keys *)
Inductive stored : gval -> Prop :=
| st_nil : stored (VIface None)
| st_bool b : stored (VIface (Some (TBool, VBool b)))
| st_number t : useNumber = true -> number t -> stored (VIface (Some (TNumber, VStr t)))
| st_float t x : useNumber = false -> number t -> fl_parse F64 t = inl x -> stored (VIface (Some (TFloat64, VFloat64 x)))
| st_string s : text s -> stored (VIface (Some (TString, VStr s)))
| st_slice l : stored_list l -> stored (VIface (Some (TSlice TEface, VSlice (Some l))))
| st_map m : NoDup (map fst m) -> stored_map m -> stored (VIface (Some (TMap KString TEface, VMap (Some m))))
with stored_list : list gval -> Prop :=
| sl_none : stored_list []
| sl_more v l : stored v -> stored_list l -> stored_list (v :: l)
with stored_map : list (key * gval) -> Prop :=
| sm_none : stored_map []
| sm_more s v m : text s -> stored v -> stored_map m -> stored_map ((KS s, v) :: m).
Scheme stored_ind3 := Minimality for stored Sort Prop
  with stored_list_ind3 := Minimality for stored_list Sort Prop
  with stored_map_ind3 := Minimality for stored_map Sort Prop.
Combined Scheme stored_mutind from stored_ind3, stored_list_ind3, stored_map_ind3.
End Stored.
(** the numbers that ParseFloat reads are finite; ParseFloat reads the shortest and the plain decimal texts of a float as that float *)
Definition float_stable (F : floatOps) (G : floatFmt) (e : fl F -> ff G) : Prop :=
  forall t x, number t -> fl_parse F t = inl x ->
    ff_inf G (e x) = false /\ ff_nan G (e x) = false /\ forall t', float_text G (e x) t' -> fl_parse F t' = inl x.
