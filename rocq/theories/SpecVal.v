(** Specification of typed decoding: which texts are accepted for a variable of a given type, and what
    the variable holds afterwards.  From the model this uses the data types (Go types, Go values, zero
    values), none of the decoders. *)
From Coq Require Import String ZArith List Bool.
From Verif Require Import Base ModelInt ModelFloat ModelOps ModelVal Spec SpecBase64.
Import ListNotations.
Local Open Scope Z_scope.

(** a string literal with the given text between the quotes *)
Definition quote (b : bytes) : bytes := 34 :: b ++ [34].
(** the texts between the commas of a list *)
Inductive items : bytes -> list bytes -> Prop :=
| items_one w1 t w2 : ws w1 -> ws w2 -> items (w1 ++ t ++ w2) [t]
| items_cons w1 t w2 r ts : ws w1 -> ws w2 -> items r ts -> items (w1 ++ t ++ w2 ++ 44 :: r) (t :: ts).
Inductive array_text : bytes -> list bytes -> Prop :=
| array_empty w : ws w -> array_text (91 :: w ++ [93]) []
| array_items b ts : items b ts -> array_text (91 :: b ++ [93]) ts.
(** the texts on both sides of the colons of a list *)
Inductive pairs : bytes -> list (bytes * bytes) -> Prop :=
| pairs_one w1 k w2 w3 t w4 : ws w1 -> ws w2 -> ws w3 -> ws w4 ->
    pairs (w1 ++ k ++ w2 ++ 58 :: w3 ++ t ++ w4) [(k, t)]
| pairs_cons w1 k w2 w3 t w4 r ps : ws w1 -> ws w2 -> ws w3 -> ws w4 -> pairs r ps ->
    pairs (w1 ++ k ++ w2 ++ 58 :: w3 ++ t ++ w4 ++ 44 :: r) ((k, t) :: ps).
Inductive object_text : bytes -> list (bytes * bytes) -> Prop :=
| object_empty w : ws w -> object_text (123 :: w ++ [125]) []
| object_pairs b ps : pairs b ps -> object_text (123 :: b ++ [125]) ps.

(** integers in decimal, and the range of an integer type *)
Inductive int_text : bool -> bytes -> Z -> Prop :=
| it_plain signed t : int_part t -> int_text signed t (dec t)
| it_minus t : int_part t -> int_text true (45 :: t) (- dec t).
Definition bits (w : width) : Z := match w with W8 => 8 | W16 => 16 | W32 => 32 | W64 => 64 end.
Definition in_range (signed : bool) (w : width) (z : Z) : Prop :=
  if signed then - 2 ^ (bits w - 1) <= z < 2 ^ (bits w - 1) else 0 <= z < 2 ^ bits w.

(** types whose variables keep their value when null is decoded *)
Definition null_keeps (t : ty) : bool :=
  match t with
  | TBool | TInt _ _ | TFloat32 | TFloat64 | TString | TNumber | TText _ | TArray _ _ | TStruct _ _ => true
  | _ => false
  end.

Section SpecVal.
Variables F32 F64 : floatOps.
Variable C : custom.
Notation gval := (gval F32 F64 C).
Variable E : env F32 F64 C.
Notation zero := (zero F32 F64 C E).
Notation under := (under F32 F64 C E).
(** the field that an object key stands for, given the names of the fields; see C29 *)
Variable lookup : list bytes -> bytes -> option nat.
Variables useNumber disallow : bool.

(** the map with one more binding: a later binding of a key replaces the earlier one *)
Definition key_eq_dec (a b : key) : {a = b} + {a <> b}.
Proof. decide equality; [apply (list_eq_dec Z.eq_dec)|apply Z.eq_dec|apply Z.eq_dec]. Defined.
Fixpoint put (m : list (key * gval)) (k : key) (v : gval) : list (key * gval) :=
  match m with
  | [] => [(k, v)]
  | (k', v') :: r => if key_eq_dec k' k then (k, v) :: r else (k', v') :: put r k v
  end.

(** what an interface{} holds for a JSON value *)
Fixpoint iface_of (j : jval) : option gval :=
  match j with
  | JNull => Some (VIface None)
  | JBool b => Some (VIface (Some (TBool, VBool b)))
  | JNum t =>
      if useNumber then Some (VIface (Some (TNumber, VStr t)))
      else match fl_parse F64 t with inl x => Some (VIface (Some (TFloat64, VFloat64 x))) | inr _ => None end
  | JStr s => Some (VIface (Some (TString, VStr s)))
  | JArr l =>
      option_map (fun vs => VIface (Some (TSlice TEface, VSlice (Some vs))))
        ((fix go l := match l with
                      | [] => Some []
                      | j :: r => match iface_of j, go r with Some v, Some vs => Some (v :: vs) | _, _ => None end
                      end) l)
  | JObj ms =>
      option_map (fun m => VIface (Some (TMap KString TEface, VMap (Some m))))
        ((fix go m ms := match ms with
                         | [] => Some m
                         | (k, j) :: r => match iface_of j with Some v => go (put m (KS k) v) r | None => None end
                         end) [] ms)
  end.

(** The map key written by a key text; an unquoted null is accepted for the zero key.  UnmarshalText is called if there is one. *)
Inductive key_text : kty -> bytes -> key -> Prop :=
| kt_string b s : string_body b s -> key_text KString (quote b) (KS s)
| kt_int signed w t z : int_text signed t z -> in_range signed w z -> key_text (KInt signed w) (quote t) (KI z)
| kt_null_string : key_text KString (bs "null") (KS [])
| kt_null_int signed w : key_text (KInt signed w) (bs "null") (KI 0)
| kt_user_string mar t key : key_text KString t key -> key_text (KUser KKString None mar) t key
| kt_user_int signed w mar t key : key_text (KInt signed w) t key -> key_text (KUser (KKInt signed w) None mar) t key
| kt_text kd id mar b s x : string_body b s -> cu_text C id (cu_zero C id) s = inl x -> key_text (KUser kd (Some id) mar) (quote b) (cu_key C id x)
| kt_null_text kd id mar : key_text (KUser kd (Some id) mar) (bs "null") (cu_key C id (cu_zero C id)).
(** the key types that can be decoded *)
Definition decodable_key (k : kty) : Prop := match k with KUser KKOther None _ => False | _ => True end.

(** [decodes T o old t new]: decoding the text [t] into a variable of type [T] that holds [old], with
    options [o], leaves it holding [new] *)
Inductive decodes : ty -> decOpts -> gval -> bytes -> gval -> Prop :=
| d_null T o old : null_keeps T = true -> decodes T o old (bs "null") old
| d_null_ptr T o old : decodes (TPtr T) o old (bs "null") (VPtr None)
| d_null_slice T o old : decodes (TSlice T) o old (bs "null") (VSlice None)
| d_null_map k T o old : decodable_key k -> decodes (TMap k T) o old (bs "null") (VMap None)
| d_null_iface o old : decodes TIface o old (bs "null") (VIface None)
| d_true o old : decodes TBool o old (bs "true") (VBool true)
| d_false o old : decodes TBool o old (bs "false") (VBool false)
| d_quoted_true o old w : o_quoted o = true -> ws w -> decodes TBool o old (quote (w ++ bs "true")) (VBool true)
| d_quoted_false o old w : o_quoted o = true -> ws w -> decodes TBool o old (quote (w ++ bs "false")) (VBool false)
| d_quoted_null o old w : o_quoted o = true -> ws w -> decodes TBool o old (quote (w ++ bs "null")) old
| d_int signed w o old t z : o_quoted o = false -> o_mapKey o = false -> int_text signed t z -> in_range signed w z ->
    decodes (TInt signed w) o old t (VInt z)
| d_quoted_int signed w o old t z : o_quoted o = true \/ o_mapKey o = true -> int_text signed t z -> in_range signed w z ->
    decodes (TInt signed w) o old (quote t) (VInt z)
| d_float32 o old t x : number t -> fl_parse F32 t = inl x -> decodes TFloat32 o old t (VFloat32 x)
| d_float64 o old t x : number t -> fl_parse F64 t = inl x -> decodes TFloat64 o old t (VFloat64 x)
| d_string o old b s : o_quoted o = false -> string_body b s -> decodes TString o old (quote b) (VStr s)
| d_quoted_string o old b b' s : o_quoted o = true -> string_body b (quote b') -> string_body b' s ->
    decodes TString o old (quote b) (VStr s)
| d_quoted_string_null o old b : o_quoted o = true -> string_body b (bs "null") -> decodes TString o old (quote b) old
| d_number o old t : number t -> decodes TNumber o old t (VStr t)
| d_number_string o old t : number t -> decodes TNumber o old (quote t) (VStr t)
| d_raw o old t j : value t j -> decodes TRaw o old t (VRaw (Some t))
| d_json id o x t j x' : value t j -> cu_json C id x t = inl x' -> decodes (TJson id) o (VObj x) t (VObj x')
| d_text id o x b s x' : string_body b s -> cu_text C id x s = inl x' -> decodes (TText id) o (VObj x) (quote b) (VObj x')
| d_ptr_new T o t v : t <> bs "null" -> decodes T o (zero T) t v -> decodes (TPtr T) o (VPtr None) t (VPtr (Some v))
| d_ptr_old T o x t v : t <> bs "null" -> decodes T o x t v -> decodes (TPtr T) o (VPtr (Some x)) t (VPtr (Some v))
| d_slice T o old t ts vs : array_text t ts -> elems T ts vs -> decodes (TSlice T) o old t (VSlice (Some vs))
| d_bytes T o old b s data : under T = TInt false W8 -> string_body b s -> base64_lax data b ->
    decodes (TSlice T) o old (quote b) (VSlice (Some (map VInt data)))
| d_array n T o a t ts vs : array_text t ts -> overwrite T a ts vs -> decodes (TArray n T) o (VArr a) t (VArr vs)
| d_map k T o p t ps m : decodable_key k -> object_text t ps -> entries k T (match p with Some m0 => m0 | None => [] end) ps m ->
    decodes (TMap k T) o (VMap p) t (VMap (Some m))
| d_struct layout fields o old t ps new : object_text t ps -> members fields old ps new ->
    decodes (TStruct layout fields) o old t new
| d_eface o x t j v : (forall P T y, x = Some (P, VPtr (Some y)) -> under P <> TPtr T) ->
    value t j -> iface_of j = Some v -> decodes TEface o (VIface x) t v
| d_eface_held o P T x t v : under P = TPtr T -> t <> bs "null" -> decodes T noOpts x t v ->
    decodes TEface o (VIface (Some (P, VPtr (Some x)))) t (VIface (Some (P, VPtr (Some v))))
| d_eface_null o P T x : under P = TPtr T -> (forall T', under T <> TPtr T') ->
    decodes TEface o (VIface (Some (P, VPtr (Some x)))) (bs "null") (VIface None)
| d_eface_null_ptr o P T T' x : under P = TPtr T -> under T = TPtr T' ->
    decodes TEface o (VIface (Some (P, VPtr (Some x)))) (bs "null") (VIface (Some (TPtr T, VPtr (Some (VPtr None)))))
| d_iface_held o P T x t v : under P = TPtr T -> t <> bs "null" -> decodes T noOpts x t v ->
    decodes TIface o (VIface (Some (P, VPtr (Some x)))) t (VIface (Some (P, VPtr (Some v))))
| d_ref n o old t v : decodes (te_type _ _ _ E n) o old t v -> decodes (TRef n) o old t v
(** the elements of a slice are decoded into zero values *)
with elems : ty -> list bytes -> list gval -> Prop :=
| el_nil T : elems T [] []
| el_next T t ts v vs : decodes T noOpts (zero T) t v -> elems T ts vs -> elems T (t :: ts) (v :: vs)
(** the elements of an array: decoded in place, excess texts skipped, elements without text zeroed *)
with overwrite : ty -> list gval -> list bytes -> list gval -> Prop :=
| ov_skip T ts : Forall (fun t => exists j, value t j) ts -> overwrite T [] ts []
| ov_next T a l t ts v vs : decodes T noOpts a t v -> overwrite T l ts vs -> overwrite T (a :: l) (t :: ts) (v :: vs)
| ov_zero T l : overwrite T l [] (repeat (zero T) (length l))
(** the members of an object put into a map one after the other *)
with entries : kty -> ty -> list (key * gval) -> list (bytes * bytes) -> list (key * gval) -> Prop :=
| en_nil k T m : entries k T m [] m
| en_next k T m kt key t v ps m' : key_text k kt key -> decodes T noOpts (zero T) t v ->
    entries k T (put m key v) ps m' -> entries k T m ((kt, t) :: ps) m'
(** the members of an object applied to a struct one after the other *)
with members : list (field ty) -> gval -> list (bytes * bytes) -> gval -> Prop :=
| ms_nil fs v : members fs v [] v
| ms_field fs v b name i fd t v1 ps v2 : string_body b name -> lookup (map f_name fs) name = Some i ->
    nth_error fs i = Some fd -> at_path (f_path fd) (f_type fd) (mkOpts false (f_quoted fd)) v t v1 ->
    members fs v1 ps v2 -> members fs v ((quote b, t) :: ps) v2
| ms_unknown fs v b name t j ps v2 : string_body b name -> lookup (map f_name fs) name = None -> disallow = false ->
    value t j -> members fs v ps v2 -> members fs v ((quote b, t) :: ps) v2
(** decoding into the field at the end of a path; nil pointers to embedded structs are allocated *)
with at_path : list (hop ty) -> ty -> decOpts -> gval -> bytes -> gval -> Prop :=
| ap_here T o old t v : decodes T o old t v -> at_path [] T o old t v
| ap_field path T o l1 x l2 t y : at_path path T o x t y ->
    at_path (HField (length l1) :: path) T o (VStruct (l1 ++ x :: l2)) t (VStruct (l1 ++ y :: l2))
| ap_ptr path T o alloc x t y : at_path path T o x t y ->
    at_path (HPtr alloc :: path) T o (VPtr (Some x)) t (VPtr (Some y))
| ap_alloc path T o T' t y : at_path path T o (zero T') t y ->
    at_path (HPtr (Some T') :: path) T o (VPtr None) t (VPtr (Some y)).

Scheme decodes_ind6 := Minimality for decodes Sort Prop
  with elems_ind6 := Minimality for elems Sort Prop
  with overwrite_ind6 := Minimality for overwrite Sort Prop
  with entries_ind6 := Minimality for entries Sort Prop
  with members_ind6 := Minimality for members Sort Prop
  with at_path_ind6 := Minimality for at_path Sort Prop.
Combined Scheme decodes_mutind from decodes_ind6, elems_ind6, overwrite_ind6, entries_ind6, members_ind6, at_path_ind6.
End SpecVal.
