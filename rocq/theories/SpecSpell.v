(** Texts that differ in their spelling only (C59). *)
From Coq Require Import String ZArith List Bool.
From Verif Require Import Base ModelOps ModelVal Spec.
Import ListNotations.
Local Open Scope Z_scope.

(** [alike loose t t']: the same values in the same order, with different white space between the tokens; if [loose], also with different
    escape sequences in the strings. *)
Section Alike.
Variable loose : bool.
Definition same_string (b b' : bytes) : Prop := exists s, string_body b s /\ string_body b' s /\ (loose = false -> b = b').
Inductive alike : bytes -> bytes -> Prop :=
| ak_null : alike (bs "null") (bs "null")
| ak_true : alike (bs "true") (bs "true")
| ak_false : alike (bs "false") (bs "false")
| ak_num t : number t -> alike t t
| ak_str b b' : same_string b b' -> alike (34 :: b ++ [34]) (34 :: b' ++ [34])
| ak_arr0 w w' : ws w -> ws w' -> alike (91 :: w ++ [93]) (91 :: w' ++ [93])
| ak_arr t t' : alike_elements t t' -> alike (91 :: t ++ [93]) (91 :: t' ++ [93])
| ak_obj0 w w' : ws w -> ws w' -> alike (123 :: w ++ [125]) (123 :: w' ++ [125])
| ak_obj t t' : alike_members t t' -> alike (123 :: t ++ [125]) (123 :: t' ++ [125])
with alike_elements : bytes -> bytes -> Prop :=
| ae_one w1 t w2 w1' t' w2' : ws w1 -> ws w2 -> ws w1' -> ws w2' -> alike t t' -> alike_elements (w1 ++ t ++ w2) (w1' ++ t' ++ w2')
| ae_cons w1 t w2 r w1' t' w2' r' : ws w1 -> ws w2 -> ws w1' -> ws w2' -> alike t t' -> alike_elements r r' ->
    alike_elements (w1 ++ t ++ w2 ++ 44 :: r) (w1' ++ t' ++ w2' ++ 44 :: r')
with alike_members : bytes -> bytes -> Prop :=
| am_one w1 b w2 w3 t w4 w1' b' w2' w3' t' w4' : ws w1 -> ws w2 -> ws w3 -> ws w4 -> ws w1' -> ws w2' -> ws w3' -> ws w4' ->
    same_string b b' -> alike t t' ->
    alike_members (w1 ++ 34 :: b ++ 34 :: w2 ++ 58 :: w3 ++ t ++ w4) (w1' ++ 34 :: b' ++ 34 :: w2' ++ 58 :: w3' ++ t' ++ w4')
| am_cons w1 b w2 w3 t w4 r w1' b' w2' w3' t' w4' r' : ws w1 -> ws w2 -> ws w3 -> ws w4 -> ws w1' -> ws w2' -> ws w3' -> ws w4' ->
    same_string b b' -> alike t t' -> alike_members r r' ->
    alike_members (w1 ++ 34 :: b ++ 34 :: w2 ++ 58 :: w3 ++ t ++ w4 ++ 44 :: r) (w1' ++ 34 :: b' ++ 34 :: w2' ++ 58 :: w3' ++ t' ++ w4' ++ 44 :: r').
Scheme alike_ind3 := Minimality for alike Sort Prop
  with alike_elements_ind3 := Minimality for alike_elements Sort Prop
  with alike_members_ind3 := Minimality for alike_members Sort Prop.
Combined Scheme alike_mutind from alike_ind3, alike_elements_ind3, alike_members_ind3.
(** whole texts *)
Definition alike_texts (l l' : bytes) : Prop := exists w t w2 w' t' w2', l = w ++ t ++ w2 /\ l' = w' ++ t' ++ w2' /\ ws w /\ ws w2 /\ ws w' /\ ws w2' /\ alike t t'.
End Alike.

(** The types that do not see the spelling, with [P q t] for "[t] may occur, below the option string if [q]".  json.RawMessage and
    UnmarshalJSON get the text itself.  Escape sequences are seen where text between quotes is not taken as a string: by numbers
    and booleans in quotes and by []byte. *)
Definition blind {F32 F64 C} (E : env F32 F64 C) (loose : bool) (P : bool -> ty -> Prop) (q : bool) (t : ty) : Prop :=
  match t with
  | TRaw | TJson _ => False
  | TBool | TInt _ _ => loose = true -> q = false
  | TNumber => loose = false
  | TPtr t => P q t
  | TArray _ t => P false t
  | TSlice t => P false t /\ (loose = true -> under F32 F64 C E t <> TInt false W8)
  | TMap k t => P false t /\ (loose = true -> match k with KInt _ _ | KUser (KKInt _ _) None _ => False | _ => True end)
  | TStruct _ fields => Forall (fun fd => P (f_quoted fd) (f_type fd)) fields
  | TRef n => P q (te_type F32 F64 C E n)
  | TFloat32 | TFloat64 | TString | TText _ | TEface | TIface | TBad => True
  end.
(** the pointers that interfaces in [v] hold point to such types as well *)
Fixpoint held {F32 F64 C} (E : env F32 F64 C) (P : bool -> ty -> Prop) (v : gval F32 F64 C) : Prop :=
  match v with
  | VPtr (Some x) => held E P x
  | VArr l | VStruct l => fold_right (fun x p => held E P x /\ p) True l
  | VIface (Some (t, VPtr (Some x))) => (forall t', under F32 F64 C E t = TPtr t' -> P false t') /\ held E P x
  | _ => True
  end.
(** the characters of numbers *)
Definition numchar (c : Z) : Prop := 48 <= c <= 57 \/ c = 43 \/ c = 45 \/ c = 46 \/ c = 69 \/ c = 101.
