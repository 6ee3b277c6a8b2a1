(** Types that are read without keeping the bytes of the input. *)
From Coq Require Import ZArith List Bool.
From Verif Require Import Base ModelFloat ModelOps ModelVal.
Import ListNotations.

(** One step: the type is not json.RawMessage, json.Number, []byte, an interface, or a type with its own UnmarshalJSON, and the
    types inside it are in [P].  A set of types with [forall t, P t -> still E P t] contains no such type at any depth. *)
Definition still {F32 F64 C} (E : env F32 F64 C) (P : ty -> Prop) (t : ty) : Prop :=
  match t with
  | TBool | TInt _ _ | TFloat32 | TFloat64 | TString | TText _ | TBad => True
  | TNumber | TRaw | TJson _ | TEface | TIface => False
  | TPtr t | TArray _ t | TMap _ t => P t
  | TSlice t => under F32 F64 C E t <> TInt false W8 /\ P t
  | TStruct _ fields => Forall (fun fd => P (f_type fd)) fields
  | TRef n => P (te_type F32 F64 C E n)
  end.

(** Calls that never have to return a part of the input; [u]: numbers are returned by Read as text. *)
Definition calm (u : bool) (o : op) : bool :=
  match o with OSkipRaw | OReadRaw | OAppendRaw _ | OReadNumber => false | ORead => negb u | _ => true end.
(** clients with such calls only *)
Fixpoint calmly {F32 F64 S} (u : bool) (p : prog F32 F64 S) : Prop :=
  match p with
  | Done s => True
  | Throw e => True
  | Do o k => calm u o = true /\ forall a, calmly u (k a)
  | ForArray s cb k => (forall x, calmly u (cb x)) /\ forall x, calmly u (k x)
  | ForObject s cb k => (forall x f, calmly u (cb x f)) /\ forall x, calmly u (k x)
  end.
