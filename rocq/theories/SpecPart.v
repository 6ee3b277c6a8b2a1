(** Specification of what a variable holds after a failed decoding: the parts that were read before the error are there, the part in
    which the error is may be changed in the same way, all others are as before.  From the model this uses the data types (Go types, Go
    values, zero values, what methods leave behind), none of the decoders. *)
From Coq Require Import String ZArith List Bool.
From Verif Require Import Base ModelInt ModelFloat ModelOps ModelVal ModelPart Spec SpecVal.
Import ListNotations.
Local Open Scope Z_scope.

(** the first byte of a text that is not a blank *)
Definition token (s : bytes) (c : Z) : Prop := exists w r, s = w ++ c :: r /\ ws w /\ ~ is_ws c.

Section SpecPart.
Variables F32 F64 : floatOps.
Variable C : custom.
Notation gval := (gval F32 F64 C).
Variable E : env F32 F64 C.
Notation zero := (zero F32 F64 C E).
Notation under := (under F32 F64 C E).
Variable R : failures C.
Variable lookup : list bytes -> bytes -> option nat.
Variables useNumber disallow : bool.
Notation decodes := (decodes F32 F64 C E lookup useNumber disallow).
Notation at_path := (at_path F32 F64 C E lookup useNumber disallow).
Notation put := (put F32 F64 C).
(** what comes after the end of the text: the end of the input, or an error of the reader *)
Variable fin : err.

(** [front t s r]: the text [s] is [t], perhaps after blanks, and [r]; if [t] is a number then it is all of it *)
Definition front (t s r : bytes) : Prop := exists w, s = w ++ t ++ r /\ ws w /\ (number t -> num_ends t fin r).
(** variables for integers of a width, and pointers that lead to them *)
Inductive integral : ty -> gval -> width -> Prop :=
| ig_int signed w v : integral (TInt signed w) v w
| ig_new T w : integral T (zero T) w -> integral (TPtr T) (VPtr None) w
| ig_ptr T x w : integral T x w -> integral (TPtr T) (VPtr (Some x)) w
| ig_held T P T' x w : T = TEface \/ T = TIface -> under P = TPtr T' -> integral T' x w ->
    integral T (VIface (Some (P, VPtr (Some x)))) w
| ig_ref n v w : integral (te_type _ _ _ E n) v w -> integral (TRef n) v w.
(** all digits of an integer; a leading zero is the only one; of an integer of eight bits there are three (finding B1) *)
Definition int_ends (w : width) (t r : bytes) : Prop :=
  t = [48] \/ t = [45; 48] \/
  (w = W8 /\ length (match t with 45 :: t' => t' | _ => t end) = 3%nat) \/
  match r with [] => fin = EEOF | c :: _ => ~ is_digit c end.
(** where a number ends that is read into a variable: a text for an integer ends with the digits *)
Definition stops (T : ty) (old : gval) (t r : bytes) : Prop :=
  number t -> (forall w, integral T old w -> int_ends w t r) /\ ((forall w, ~ integral T old w) -> num_ends t fin r).
(** [taken T o old s r v]: a text is read from the front of [s] into a variable of type [T], [r] remains *)
Definition taken (T : ty) (o : decOpts) (old : gval) (s r : bytes) (v : gval) : Prop :=
  exists w t, s = w ++ t ++ r /\ ws w /\ decodes T o old t v /\ stops T old t r.
(** the same for the field at the end of a path *)
Inductive integral_at : list (hop ty) -> ty -> gval -> width -> Prop :=
| ia_here T v w : integral T v w -> integral_at [] T v w
| ia_field path T l1 x l2 w : integral_at path T x w -> integral_at (HField (length l1) :: path) T (VStruct (l1 ++ x :: l2)) w
| ia_ptr path T alloc x w : integral_at path T x w -> integral_at (HPtr alloc :: path) T (VPtr (Some x)) w
| ia_alloc path T T' w : integral_at path T (zero T') w -> integral_at (HPtr (Some T') :: path) T (VPtr None) w.
Definition taken_at (path : list (hop ty)) (T : ty) (o : decOpts) (old : gval) (s r : bytes) (v : gval) : Prop :=
  exists w t, s = w ++ t ++ r /\ ws w /\ at_path path T o old t v /\
    (number t -> (forall n, integral_at path T old n -> int_ends n t r) /\ ((forall n, ~ integral_at path T old n) -> num_ends t fin r)).
(** [keyed k s key r]: the text [s] starts with a map key and a colon; [named s name r]: with a string and a colon *)
Definition keyed (k : kty) (s : bytes) (key : key) (r : bytes) : Prop :=
  exists w kt w', s = w ++ kt ++ w' ++ 58 :: r /\ ws w /\ ws w' /\ key_text C k kt key.
Definition named (s name r : bytes) : Prop := exists w b w', s = w ++ quote b ++ w' ++ 58 :: r /\ ws w /\ ws w' /\ string_body b name.

(** variables that only change if the whole text is accepted *)
Definition atomic (T : ty) (v : gval) : Prop :=
  match T with
  | TBool | TInt _ _ | TFloat32 | TFloat64 | TString | TNumber | TRaw | TSlice _ | TBad | TStruct _ [] => True
  | TMap k _ => ~ decodable_key k
  | TPtr _ => v = VPtr None
  | TEface | TIface => forall P T y, v = VIface (Some (P, VPtr (Some y))) -> under P <> TPtr T
  | _ => False
  end.
(** the first byte of the values that are read part by part *)
Definition opens (T : ty) : option Z :=
  match T with TArray _ _ => Some 91 | TMap _ _ | TStruct _ _ => Some 123 | _ => None end.

(** [leaves T o old s new]: the text [s] is not accepted for a variable of type [T] that holds [old]; trying to decode it leaves [new] *)
Inductive leaves : ty -> decOpts -> gval -> bytes -> gval -> Prop :=
| l_atomic T o v s : atomic T v -> leaves T o v s v
| l_other T o v s c : opens T = Some c -> ~ token s c -> leaves T o v s v
| l_json id o v s : (forall t r j, front t s r -> ~ value t j) -> leaves (TJson id) o v s v
| l_json_method id o x s t r j e : front t s r -> value t j -> cu_json C id x t = inr e ->
    leaves (TJson id) o (VObj x) s (VObj (fa_json C R id x t))
| l_text id o v s : (forall b r s', front (quote b) s r -> ~ string_body b s') -> leaves (TText id) o v s v
| l_text_method id o x s b r s' e : front (quote b) s r -> string_body b s' -> cu_text C id x s' = inr e ->
    leaves (TText id) o (VObj x) s (VObj (fa_text C R id x s'))
| l_null T o v s : T = TEface \/ T = TIface \/ (exists T', T = TPtr T') -> token s 110 \/ ws s -> leaves T o v s v
| l_ptr T o x s c y : token s c -> c <> 110 -> leaves T o x s y -> leaves (TPtr T) o (VPtr (Some x)) s (VPtr (Some y))
| l_held T o P T' x s c y : T = TEface \/ T = TIface -> under P = TPtr T' -> token s c -> c <> 110 -> leaves T' noOpts x s y ->
    leaves T o (VIface (Some (P, VPtr (Some x)))) s (VIface (Some (P, VPtr (Some y))))
| l_array n T o a w s a' : ws w -> leaves_elems T a s a' -> leaves (TArray n T) o (VArr a) (w ++ 91 :: s) (VArr a')
| l_map_end k T o v w s : decodable_key k -> ws w -> ws s -> leaves (TMap k T) o v (w ++ 123 :: s) v
| l_map k T o p w s m : decodable_key k -> ws w -> ~ ws s -> leaves_entries k T (match p with Some m0 => m0 | None => [] end) s m ->
    leaves (TMap k T) o (VMap p) (w ++ 123 :: s) (VMap (Some m))
| l_struct layout fs o v w s v' : fs <> [] -> ws w -> leaves_members fs v s v' -> leaves (TStruct layout fs) o v (w ++ 123 :: s) v'
| l_ref n o v s v' : leaves (te_type _ _ _ E n) o v s v' -> leaves (TRef n) o v s v'
(** the elements of an array: the elements before the error are decoded in place, those after it are as before *)
with leaves_elems : ty -> list gval -> bytes -> list gval -> Prop :=
| le_blank T l s : ws s -> leaves_elems T l s l
| le_full T s : leaves_elems T [] s []
| le_here T x l s y : (forall r v, ~ taken T noOpts x s r v) -> leaves T noOpts x s y -> leaves_elems T (x :: l) s (y :: l)
| le_last T x l s r y : taken T noOpts x s r y -> ~ token r 44 -> leaves_elems T (x :: l) s (y :: l)
| le_next T x l s w r y l' : taken T noOpts x s (w ++ 44 :: r) y -> ws w -> leaves_elems T l r l' -> leaves_elems T (x :: l) s (y :: l')
(** the entries of a map: those before the error are in the map, a later one with the same key replaces an earlier one *)
with leaves_entries : kty -> ty -> list (key * gval) -> bytes -> list (key * gval) -> Prop :=
| ln_here k T m s : (forall key s' r v, keyed k s key s' -> ~ taken T noOpts (zero T) s' r v) -> leaves_entries k T m s m
| ln_last k T m s key s' r v : keyed k s key s' -> taken T noOpts (zero T) s' r v -> ~ token r 44 -> leaves_entries k T m s (put m key v)
| ln_next k T m s key s' w r v m' : keyed k s key s' -> taken T noOpts (zero T) s' (w ++ 44 :: r) v -> ws w ->
    leaves_entries k T (put m key v) r m' -> leaves_entries k T m s m'
(** the members of an object applied to a struct one after the other *)
with leaves_members : list (field ty) -> gval -> bytes -> gval -> Prop :=
| lm_key fs v s : (forall name r, ~ named s name r) -> leaves_members fs v s v
| lm_unknown fs v s name r : named s name r -> lookup (map f_name fs) name = None ->
    (disallow = true \/ forall t r' j, front t r r' -> ~ value t j) -> leaves_members fs v s v
| lm_unknown_last fs v s name r t r' j : named s name r -> lookup (map f_name fs) name = None -> disallow = false ->
    front t r r' -> value t j -> ~ token r' 44 -> leaves_members fs v s v
| lm_unknown_next fs v s name r t w r' j v' : named s name r -> lookup (map f_name fs) name = None -> disallow = false ->
    front t r (w ++ 44 :: r') -> ws w -> value t j -> leaves_members fs v r' v' -> leaves_members fs v s v'
| lm_here fs v s name r i fd v' : named s name r -> lookup (map f_name fs) name = Some i -> nth_error fs i = Some fd ->
    (forall r' v1, ~ taken_at (f_path fd) (f_type fd) (mkOpts false (f_quoted fd)) v r r' v1) ->
    leaves_at (f_path fd) (f_type fd) (mkOpts false (f_quoted fd)) v r v' -> leaves_members fs v s v'
| lm_last fs v s name r i fd r' v1 : named s name r -> lookup (map f_name fs) name = Some i -> nth_error fs i = Some fd ->
    taken_at (f_path fd) (f_type fd) (mkOpts false (f_quoted fd)) v r r' v1 -> ~ token r' 44 -> leaves_members fs v s v1
| lm_next fs v s name r i fd w r' v1 v' : named s name r -> lookup (map f_name fs) name = Some i -> nth_error fs i = Some fd ->
    taken_at (f_path fd) (f_type fd) (mkOpts false (f_quoted fd)) v r (w ++ 44 :: r') v1 -> ws w ->
    leaves_members fs v1 r' v' -> leaves_members fs v s v'
(** the field at the end of a path; nil pointers to embedded structs are allocated even if the field is not accepted *)
with leaves_at : list (hop ty) -> ty -> decOpts -> gval -> bytes -> gval -> Prop :=
| la_here T o v s v' : leaves T o v s v' -> leaves_at [] T o v s v'
| la_field path T o l1 x l2 s y : leaves_at path T o x s y ->
    leaves_at (HField (length l1) :: path) T o (VStruct (l1 ++ x :: l2)) s (VStruct (l1 ++ y :: l2))
| la_ptr path T o alloc x s y : leaves_at path T o x s y -> leaves_at (HPtr alloc :: path) T o (VPtr (Some x)) s (VPtr (Some y))
| la_alloc path T o T' s y : leaves_at path T o (zero T') s y -> leaves_at (HPtr (Some T') :: path) T o (VPtr None) s (VPtr (Some y))
| la_unexported path T o s : leaves_at (HPtr None :: path) T o (VPtr None) s (VPtr None).

Scheme leaves_ind5 := Minimality for leaves Sort Prop
  with leaves_elems_ind5 := Minimality for leaves_elems Sort Prop
  with leaves_entries_ind5 := Minimality for leaves_entries Sort Prop
  with leaves_members_ind5 := Minimality for leaves_members Sort Prop
  with leaves_at_ind5 := Minimality for leaves_at Sort Prop.
Combined Scheme leaves_mutind from leaves_ind5, leaves_elems_ind5, leaves_entries_ind5, leaves_members_ind5, leaves_at_ind5.

(** [leftover T old s new]: what a variable of type [T] that held [old] holds after trying to decode the text [s]: the value, if there
    is one at the front of the text (whether or not more follows), or what was read of it *)
Definition leftover (T : ty) (old : gval) (s : bytes) (new : gval) : Prop :=
  (exists r, taken T noOpts old s r new) \/ ((forall r v, ~ taken T noOpts old s r v) /\ leaves T noOpts old s new).
End SpecPart.
