(** Specification of the JSON fields of a struct, after the documentation of encoding/json: "Anonymous struct
    fields are usually marshaled as if their inner exported fields were fields in the outer struct, subject to
    the usual Go visibility rules" with the amendments for tags.  From the model this uses the data types only
    (what reflect tells about types, and the description of a field). *)
From Coq Require Import String ZArith List Bool Permutation Sorted.
From Verif Require Import Base Spec SpecStream SpecFold ModelStruct.
Import ListNotations.
Local Open Scope Z_scope.

Section SpecStruct.
Variable R : nat -> rtyp.
Variables isLetter isDigit : Z -> bool.
Variable onlyTaggedField : bool.

(** ** Struct fields *)
Definition valid_name (s : bytes) : Prop :=
  s <> [] /\ exists rs, code_points s rs /\ Forall (tag_char isLetter isDigit) rs.
Definition splits (tag name opts : bytes) : Prop :=
  ~ In 44 name /\ (tag = name ++ 44 :: opts \/ (tag = name /\ opts = [])).
(** [tagged sf label opts]: the field takes part, with the name [label] if its tag gives one, and options; fields with
    tag "-" do not take part, nor do fields without tag if only tagged ones are asked for, except embedded ones *)
Inductive tagged (sf : sfield) : option bytes -> bytes -> Prop :=
| tg_none : sf_tag sf = None -> onlyTaggedField = false \/ sf_anonymous sf = true -> tagged sf None []
| tg_name tag name opts : sf_tag sf = Some tag -> tag <> bs "-" -> splits tag name opts -> valid_name name ->
    tagged sf (Some name) opts
| tg_opts tag name opts : sf_tag sf = Some tag -> tag <> bs "-" -> splits tag name opts -> ~ valid_name name ->
    tagged sf None opts.
(** the type of a field, without the star of a pointer type *)
Inductive base (sf : sfield) : nat -> Prop :=
| ba_self : (rt_kind (R (sf_type sf)) = KiPtr -> rt_named (R (sf_type sf)) = true) -> base sf (sf_type sf)
| ba_ptr : rt_kind (R (sf_type sf)) = KiPtr -> rt_named (R (sf_type sf)) = false -> base sf (rt_elem (R (sf_type sf))).
(** exported fields and embedded structs are looked at *)
Definition visible (sf : sfield) : Prop :=
  sf_exported sf = true \/
  (sf_anonymous sf = true /\
   (rt_kind (R (sf_type sf)) = KiStruct \/
    (rt_kind (R (sf_type sf)) = KiPtr /\ rt_kind (R (rt_elem (R (sf_type sf)))) = KiStruct))).
(** [embeds sf u]: the fields of the struct [u] count as fields of the struct with the field [sf] *)
Definition embeds (sf : sfield) (u : nat) : Prop :=
  visible sf /\ sf_anonymous sf = true /\ (exists opts, tagged sf None opts) /\ base sf u /\ rt_kind (R u) = KiStruct.
(** [declares sf label opts]: the field is a JSON field itself *)
Definition declares (sf : sfield) (label : option bytes) (opts : bytes) : Prop :=
  visible sf /\ tagged sf label opts /\ ~ (exists u, embeds sf u).

(** ** Embedded structs *)
(** [route st p t offs]: the index sequence [p] leads from the struct [st] through embedded structs to a struct of
    type [t].  [offs] is the way in memory: add the first offset to the address of the struct; for every
    further one, follow the pointer found there (a nil pointer may be set to a new value of the given
    type, if the field is exported), and add the offset. *)
Inductive route (st : nat) : list nat -> nat -> list (Z * option nat) -> Prop :=
| ro_here : route st [] st [(0, None)]
| ro_value p t offs o r i sf u : route st p t (offs ++ [(o, r)]) -> nth_error (rt_fields (R t)) i = Some sf ->
    embeds sf u -> rt_kind (R (sf_type sf)) <> KiPtr -> route st (p ++ [i]) u (offs ++ [(o + sf_offset sf, r)])
| ro_ptr p t offs o r i sf u : route st p t (offs ++ [(o, r)]) -> nth_error (rt_fields (R t)) i = Some sf ->
    embeds sf u -> rt_kind (R (sf_type sf)) = KiPtr ->
    route st (p ++ [i]) u (offs ++ [(o + sf_offset sf, r); (0, if sf_exported sf then Some u else None)]).
(** [candidate st t i fd]: [fd] describes field [i] of the struct [t] embedded in [st] *)
Inductive candidate (st t i : nat) : dfield -> Prop :=
| ca_field p offs o r sf label opts u quoted omit :
    route st p t (offs ++ [(o, r)]) -> nth_error (rt_fields (R t)) i = Some sf -> declares sf label opts -> base sf u ->
    (quoted = true <-> item opts (bs "string") /\ rt_kind (R u) = KiBasic) ->
    (omit = true <-> item opts (bs "omitempty")) ->
    candidate st t i (mkD u (p ++ [i]) (offs ++ [(o + sf_offset sf, r)])
                        (match label with Some n => n | None => sf_name sf end)
                        (match label with Some _ => true | None => false end) quoted omit (sf_type sf)).
Definition is_candidate (st : nat) (fd : dfield) : Prop := exists t i, candidate st t i fd.

(** ** The selection *)
Definition depth (fd : dfield) : nat := length (d_index fd).
(** the fields considered for a name: those at the least depth, and only the tagged ones if there are some *)
Definition considered (st : nat) (fd : dfield) : Prop :=
  is_candidate st fd /\
  (forall g, is_candidate st g -> d_name g = d_name fd -> (depth fd <= depth g)%nat) /\
  (forall g, is_candidate st g -> d_name g = d_name fd -> depth g = depth fd -> d_tagged g = true -> d_tagged fd = true).
(** "If there is exactly one field (tagged or not according to the first rule), that is selected.  Otherwise
    there are multiple fields, and all are ignored" *)
Definition selected (st : nat) (fd : dfield) : Prop :=
  considered st fd /\ forall g, considered st g -> d_name g = d_name fd -> g = fd.

(** the same, as a comparison: less deep, or as deep and tagged while the other is not *)
Definition beats (x y : dfield) : Prop :=
  (depth x < depth y)%nat \/ (depth x = depth y /\ d_tagged x = true /\ d_tagged y = false).

(** the order by index sequence *)
Inductive index_lt : list nat -> list nat -> Prop :=
| il_nil y b : index_lt [] (y :: b)
| il_less x y a b : (x < y)%nat -> index_lt (x :: a) (y :: b)
| il_same x a b : index_lt a b -> index_lt (x :: a) (x :: b).
(** [twin st x y]: the struct [u] is embedded in [st] at two places, equally deep; [x] and [y] are the same field of
    the same struct embedded in [u], [x] by way of the first place *)
Definition twin (st : nat) (x y : dfield) : Prop :=
  exists q q' u o o' a i, route st q u o /\ route st q' u o' /\ length q = length q' /\ index_lt q q' /\
    d_index x = q ++ [a; i] /\ d_index y = q' ++ [a; i].
End SpecStruct.

(** What the Go documentation says about sort.Slice and sort.Sort: the elements are permuted, and no element is less
    than an earlier one if [less] is a strict weak ordering *)
Definition le_of {A} (less : A -> A -> bool) (x y : A) : Prop := less y x = false.
Definition strict_weak {A} (less : A -> A -> bool) : Prop :=
  (forall x y, less x y = true -> less y x = false) /\
  (forall x y z, le_of less x y -> le_of less y z -> le_of less x z).
Record sorts {A} (sort : (A -> A -> bool) -> list A -> list A) : Prop := mkSorts {
  so_perm : forall less l, Permutation l (sort less l);
  so_sorted : forall less l, strict_weak less -> StronglySorted (le_of less) (sort less l)
}.
