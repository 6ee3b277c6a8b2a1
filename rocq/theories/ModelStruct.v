(** The description of a struct type.  Code: struct.go, struct_field.go.

    Types are numbered; what reflect tells about them is an argument.  Simplifications: nameBytes,
    nameBytesUpper and equalFold are functions of the name and are left out (ModelFold.v); rtypes are type
    numbers, [None] is the zero rtype; PtrTo(sf.Type) is represented by sf.Type.  The slices [current] and
    [next] take turns in using two arrays, and [out] overwrites the part of [fields] already read: no element
    is read after it is overwritten, so that they are plain lists here. *)
From Coq Require Import String ZArith List Bool Arith.
From Verif Require Import Base ModelRead ModelTag.
Import ListNotations.
Local Open Scope Z_scope.

(** reflect.Kind, as far as struct.go looks at it; [KiBasic]: Bool, the integers, Uintptr, Float32, Float64,
    String (struct.go:165-170) *)
Inductive rkind := KiStruct | KiPtr | KiBasic | KiOther.
(** reflect.StructField; [sf_exported]: PkgPath is empty; [sf_tag]: the result of Tag.Lookup(tagKey) *)
Record sfield := mkSfield {
  sf_name : bytes;
  sf_exported : bool;
  sf_anonymous : bool;
  sf_type : nat;
  sf_tag : option bytes;
  sf_offset : Z
}.
(** reflect.Type: Kind(), Name() <> "", Elem(), and Field(i) for i < NumField() *)
Record rtyp := mkRtyp { rt_kind : rkind; rt_named : bool; rt_elem : nat; rt_fields : list sfield }.

(** struct_field.go:12-33: offset and field *)
Record dfield := mkD {
  d_typ : nat;
  d_index : list nat;
  d_offsets : list (Z * option nat);
  d_name : bytes;
  d_tagged : bool;
  d_quoted : bool;
  d_omitEmpty : bool;
  d_ptrType : nat
}.

(** the order of Go strings *)
Fixpoint bytes_ltb (a b : bytes) : bool :=
  match a, b with
  | _, [] => false
  | [], _ => true
  | x :: a', y :: b' => if x =? y then bytes_ltb a' b' else x <? y
  end.
(** struct_field.go:44-54: byIndex.Less *)
Fixpoint indexLess (a b : list nat) : bool :=
  match a, b with
  | _, [] => false
  | [], _ => true
  | x :: a', y :: b' => if (x =? y)%nat then indexLess a' b' else (x <? y)%nat
  end.
(** byIndex on fields *)
Definition byIndex (x y : dfield) : bool := indexLess (d_index x) (d_index y).
(** struct.go:252-267: the order of the first sort *)
Definition byName (x y : dfield) : bool :=
  if negb (bytes_eqb (d_name x) (d_name y)) then bytes_ltb (d_name x) (d_name y)
  else if negb (length (d_index x) =? length (d_index y))%nat then (length (d_index x) <? length (d_index y))%nat
  else if negb (Bool.eqb (d_tagged x) (d_tagged y)) then d_tagged x
  else byIndex x y.

(** struct_field.go:56-64 *)
Definition dominantField (fields : list dfield) : option dfield :=
  match fields with
  | x :: y :: _ =>
      if (length (d_index x) =? length (d_index y))%nat && Bool.eqb (d_tagged x) (d_tagged y) then None else Some x
  | [x] => Some x
  | [] => None
  end.
(** struct.go:280-285: the fields after the first one that have its name *)
Fixpoint sameName (name : bytes) (l : list dfield) : list dfield :=
  match l with
  | fj :: r => if bytes_eqb (d_name fj) name then fj :: sameName name r else []
  | [] => []
  end.
(** struct.go:275-295; the fuel is the length of the list *)
Fixpoint dominants (fuel : nat) (l : list dfield) : list dfield :=
  match fuel, l with
  | S f, fi :: r =>
      let same := sameName (d_name fi) r in
      match same with
      | [] => [fi]
      | _ => match dominantField (fi :: same) with Some d => [d] | None => [] end
      end ++ dominants f (skipn (length same) r)
  | _, _ => []
  end.

Section Describe.
Variable R : nat -> rtyp.
Variables isLetter isDigit : Z -> bool.
Variable onlyTaggedField : bool.
(** sort.Slice and sort.Sort *)
Variable sort : (dfield -> dfield -> bool) -> list dfield -> list dfield.

(** Kind() == reflect.Struct *)
Definition isStruct (t : nat) : bool := match rt_kind (R t) with KiStruct => true | _ => false end.
(** Kind() == reflect.Ptr *)
Definition isPtr (t : nat) : bool := match rt_kind (R t) with KiPtr => true | _ => false end.
(** one of the kinds in struct.go:164-168 *)
Definition isBasic (t : nat) : bool := match rt_kind (R t) with KiBasic => true | _ => false end.

(** struct.go:64-87: the field is left out because it is not exported *)
Definition unexported (sf : sfield) : bool :=
  negb (sf_exported sf) &&
  negb (sf_anonymous sf && isStruct (if isPtr (sf_type sf) then rt_elem (R (sf_type sf)) else sf_type sf)).
(** struct.go:89-107: the name and the options of the tag; [None]: the field is left out *)
Definition tagOf (sf : sfield) : option (bytes * bytes) :=
  match sf_tag sf with
  | Some tag =>
      if bytes_eqb tag (bs "-") then None
      else let (name, opts) := parseTag tag in
           Some (if isValidTag isLetter isDigit name then name else [], opts)
  | None => if onlyTaggedField && negb (sf_anonymous sf) then None else Some ([], [])
  end.
(** struct.go:113-125: the type of the field or of what it points to *)
Definition fieldType (sf : sfield) : nat :=
  if negb (rt_named (R (sf_type sf))) && isPtr (sf_type sf) then rt_elem (R (sf_type sf)) else sf_type sf.
(** struct.go:127-130: the offset of the field is added to the last offset *)
Definition addOffset (offsets : list (Z * option nat)) (o : Z) : list (Z * option nat) :=
  match rev offsets with
  | (v, r) :: l => rev l ++ [(v + o, r)]
  | [] => []
  end.
(** struct.go:139-171: the field to record *)
Definition record (f : dfield) (i : nat) (sf : sfield) (name opts : bytes) : dfield :=
  mkD (fieldType sf) (d_index f ++ [i]) (addOffset (d_offsets f) (sf_offset sf))
    (match name with [] => sf_name sf | _ => name end)
    (match name with [] => false | _ => true end)
    (Contains opts (bs "string") && isBasic (fieldType sf))
    (Contains opts (bs "omitempty"))
    (sf_type sf).
(** struct.go:232-247: the struct to explore on the next level *)
Definition descend (f : dfield) (i : nat) (sf : sfield) : dfield :=
  mkD (fieldType sf) (d_index f ++ [i])
    (addOffset (d_offsets f) (sf_offset sf) ++
     (if isPtr (sf_type sf) then [(0, if sf_exported sf then Some (rt_elem (R (sf_type sf))) else None)] else []))
    [] false false false O.

(** the variables of the level loop: next, nextCount, visited, fields *)
Record lstate := mkL { l_next : list dfield; l_nextCount : nat -> nat; l_visited : nat -> bool; l_fields : list dfield }.
(** struct.go:62-248: one field; [multiple] is count[f.typ] > 1 *)
Definition exploreField (multiple : bool) (f : dfield) (i : nat) (sf : sfield) (s : lstate) : lstate :=
  if unexported sf then s
  else
    match tagOf sf with
    | None => s
    | Some (name, opts) =>
        if match name with [] => false | _ => true end || negb (sf_anonymous sf) || negb (isStruct (fieldType sf))
        then
          let field := record f i sf name opts in
          mkL (l_next s) (l_nextCount s) (l_visited s) (l_fields s ++ if multiple then [field; field] else [field])
        else
          let ft := fieldType sf in
          let count := fun t => if (t =? ft)%nat then S (l_nextCount s t) else l_nextCount s t in
          mkL (if (count ft =? 1)%nat then l_next s ++ [descend f i sf] else l_next s) count (l_visited s) (l_fields s)
    end.
(** struct.go:62: the loop over the fields of a struct *)
Fixpoint exploreFields (multiple : bool) (f : dfield) (i : nat) (l : list sfield) (s : lstate) : lstate :=
  match l with
  | [] => s
  | sf :: r => exploreFields multiple f (S i) r (exploreField multiple f i sf s)
  end.
(** struct.go:37-60: one struct of the level *)
Definition explore (count : nat -> nat) (s : lstate) (f : dfield) : lstate :=
  if l_visited s (d_typ f) then s
  else exploreFields (1 <? count (d_typ f))%nat f 0 (rt_fields (R (d_typ f)))
         (mkL (l_next s) (l_nextCount s) (fun t => if (t =? d_typ f)%nat then true else l_visited s t) (l_fields s)).
(** struct.go:32-250: the level loop; [None]: out of fuel *)
Fixpoint levels (fuel : nat) (next : list dfield) (nextCount : nat -> nat) (visited : nat -> bool) (fields : list dfield) :
  option (list dfield) :=
  match next with
  | [] => Some fields
  | _ =>
      match fuel with
      | O => None
      | S f =>
          let s := fold_left (explore nextCount) next (mkL [] (fun _ => O) visited fields) in
          levels f (l_next s) (l_nextCount s) (l_visited s) (l_fields s)
      end
  end.
(** struct.go:13-301 *)
Definition describeStruct (fuel : nat) (st : nat) : option (list dfield) :=
  match levels fuel [mkD st [] [(0, None)] [] false false false O] (fun _ => O) (fun _ => false) [] with
  | Some fields =>
      let sorted := sort byName fields in
      Some (sort byIndex (dominants (length sorted) sorted))
  | None => None
  end.
End Describe.
