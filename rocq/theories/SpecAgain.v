(** JSON values in which no field is written twice, and the types of a program (C62). *)
From Coq Require Import String ZArith List Bool.
From Verif Require Import Base ModelVal Spec SpecStream SpecOrder.
Import ListNotations.

Section Again.
(** the field that a name stands for, given the names of the fields *)
Variable lookup : list bytes -> bytes -> option nat.
(** no two members of one object, however deep, have names that may stand for the same field *)
Inductive single : jval -> Prop :=
| si_null : single JNull
| si_bool b : single (JBool b)
| si_num t : single (JNum t)
| si_str s : single (JStr s)
| si_arr l : Forall single l -> single (JArr l)
| si_obj ms : ForallOrdPairs (fun a c => differ lookup (fst a) (fst c)) ms -> Forall (fun m => single (snd m)) ms -> single (JObj ms).
End Again.
(** The types of [P] are closed under their parts, and no two fields of a struct overlap or have the same name.  The flag says whether the
    value is that of a field with the string option. *)
Definition steady {F32 F64 C} (E : env F32 F64 C) (P : bool -> ty -> Prop) (q : bool) (t : ty) : Prop :=
  match t with
  | TPtr t => P q t
  | TArray _ t | TSlice t | TMap _ t => P false t
  | TStruct _ fields => Forall (fun fd => P (f_quoted fd) (f_type fd)) fields /\ NoDup (map f_name fields) /\ Forall is_bytes (map f_name fields) /\
      forall i j fi fj, i <> j -> nth_error fields i = Some fi -> nth_error fields j = Some fj -> apart (f_path fi) (f_path fj)
  | TRef n => P q (te_type F32 F64 C E n)
  | _ => True
  end.
