(** Which types of Go values keep the meaning of the error at the end of the input (C58). *)
From Coq Require Import String ZArith List Bool.
From Verif Require Import Base SpecCut ModelVal.
Import ListNotations.

(** No interface in [v] holds a pointer, so that no other type than the ones of the target is decoded into.  What
    slices and maps hold does not matter. *)
Fixpoint tame {F32 F64 C} (v : gval F32 F64 C) : Prop :=
  match v with
  | VPtr (Some x) => tame x
  | VArr l | VStruct l => fold_right (fun x p => tame x /\ p) True l
  | VIface (Some (_, VPtr (Some _))) => False
  | _ => True
  end.
(** The types, with [P q t] for "[t] may occur, below the option string if [q]": anything but maps and booleans below
    the option string; methods of user-defined types do not return the errors that ends of inputs have. *)
Definition meant {F32 F64 C} (E : env F32 F64 C) (P : bool -> ty -> Prop) (q : bool) (t : ty) : Prop :=
  match t with
  | TBool => q = false
  | TMap _ _ => False
  | TJson id => forall s x e, cu_json C id s x = inr e -> ~ ending e
  | TText id => forall s x e, cu_text C id s x = inr e -> ~ ending e
  | TPtr t => P q t
  | TArray _ t | TSlice t => P false t
  | TStruct _ fields => Forall (fun fd => P (f_quoted fd) (f_type fd)) fields
  | TRef n => P q (te_type F32 F64 C E n)
  | TInt _ _ | TFloat32 | TFloat64 | TString | TNumber | TRaw | TEface | TIface | TBad => True
  end.
