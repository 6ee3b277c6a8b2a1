(** Which encoder belongs to a type.  From the model this uses the descriptions of types and encoders, not the caches or
    the build. *)
From Coq Require Import List Bool Arith.
From Verif Require Import ModelEncCache.
Import ListNotations.

(** An encoder together with all the encoders it refers to, as a tree cut off at some depth *)
Inductive etree := ECut | ETLeaf (l : elabel) | ETDirect (x : etree) | ETNode (sh : eshape) (t : nat) (cs : list etree).

Section Encoders.
(** the encoders given by the user *)
Variable custom : nat -> option nat.
Variable T : nat -> etype.
Variable ptrTo : nat -> nat.
Variables uint8 uint8Enc : nat.
(** by kind; a basic kind uses the encoder that the user gave for the predeclared type *)
Inductive ekind_plain (t : nat) : ekind -> elabel + eshape * list nat -> Prop :=
| ek_native native enc n : custom native = Some n -> ekind_plain t (EKBasic native enc) (inl (ELCustom n))
| ek_basic native enc : custom native = None -> ekind_plain t (EKBasic native enc) (inl (ELBasic enc))
| ek_eface : ekind_plain t (EKInterface false) (inl ELEface)
| ek_iface : ekind_plain t (EKInterface true) (inl ELIface)
| ek_empty : ekind_plain t (EKStruct []) (inl ELEmptyStruct)
| ek_struct fs : fs <> [] -> ekind_plain t (EKStruct fs) (inr (EStruct, fs))
| ek_ptr e : ekind_plain t (EKPtr e) (inr (EPtr, [e]))
| ek_noarray e : ekind_plain t (EKArray true e) (inl ELEmptyArray)
| ek_array e : ekind_plain t (EKArray false e) (inr (EArray, [e]))
| ek_slice e : ekind_plain t (EKSlice e) (inr (ESlice, [e]))
| ek_nomap : ekind_plain t (EKMap None) (inl (ELNotSupported t))
| ek_map e : ekind_plain t (EKMap (Some e)) (inr (EMap, [e]))
| ek_other : ekind_plain t EKOther (inl (ELNotSupported t)).
(** A type with a method: the value in memory is passed as it is, or it is the word of an interface; a pointer whose
    element has the method too is followed, so that nil becomes null. *)
Inductive emarshals (t : nat) (impl : nat -> bool) (plain ptr direct : nat -> elabel) : elabel + eshape * list nat -> Prop :=
| em_plain : et_indir (T t) = true -> emarshals t impl plain ptr direct (inl (plain t))
| em_follow e : et_indir (T t) = false -> et_kind (T t) = EKPtr e -> impl e = true -> emarshals t impl plain ptr direct (inr (EPtr, [e]))
| em_ptr e : et_indir (T t) = false -> et_kind (T t) = EKPtr e -> impl e = false -> emarshals t impl plain ptr direct (inl (ptr t))
| em_direct : et_indir (T t) = false -> (forall e, et_kind (T t) <> EKPtr e) -> emarshals t impl plain ptr direct (inl (direct t)).
(** [eplain t c]: the encoder of [t] has no references, or it has a shape and components, where slices of bytes are not
    special.  An encoder given by the user comes first, then the standard library's types, then methods, then the kind. *)
Inductive eplain (t : nat) : elabel + eshape * list nat -> Prop :=
| ep_custom n : custom t = Some n -> eplain t (inl (ELCustom n))
| ep_global n : custom t = None -> et_global (T t) = Some n -> eplain t (inl (ELGlobal n))
| ep_json c : custom t = None -> et_global (T t) = None -> et_json (T t) = true ->
    emarshals t (fun u => et_json (T u)) ELJson ELPtrJson ELDirectJson c -> eplain t c
| ep_text c : custom t = None -> et_global (T t) = None -> et_json (T t) = false -> et_text (T t) = true ->
    emarshals t (fun u => et_text (T u)) ELText ELPtrText ELDirectText c -> eplain t c
| ep_kind c : custom t = None -> et_global (T t) = None -> et_json (T t) = false -> et_text (T t) = false ->
    ekind_plain t (et_kind (T t)) c -> eplain t c.
(** a slice of bytes that is written in base64: neither the bytes nor pointers to them have an encoder of their own *)
Definition base64_slice (t : nat) : Prop :=
  exists e enc, eplain t (inr (ESlice, [e])) /\ et_kind (T e) = EKBasic uint8 enc /\ eplain e (inl (ELBasic uint8Enc)) /\ eplain (ptrTo e) (inr (EPtr, [e])).
(** the encoder of [t] *)
Inductive echooses (t : nat) : elabel + eshape * list nat -> Prop :=
| ec_base64 : base64_slice t -> echooses t (inl ELBase64)
| ec_plain c : ~ base64_slice t -> eplain t c -> echooses t c.
(** [follows t]: pointers to [t] are just followed *)
Definition follows (t : nat) : Prop := echooses (ptrTo t) (inr (EPtr, [t])).
(** [einner n t x]: the tree of the encoder of [t], down to depth [n], for the address of a value.  Elements of arrays and
    slices and fields of structs, which have an address, use the encoder for pointers to them if there is a special one. *)
Inductive einner : nat -> nat -> etree -> Prop :=
| ei_cut t : einner 0 t ECut
| ei_leaf n t l : echooses t (inl l) -> einner (S n) t (ETLeaf l)
| ei_node n t sh cs xs : echooses t (inr (sh, cs)) -> sh = EPtr \/ sh = EMap -> Forall2 (einner n) cs xs -> einner (S n) t (ETNode sh t xs)
| ei_prefer n t sh cs xs : echooses t (inr (sh, cs)) -> sh = EArray \/ sh = ESlice \/ sh = EStruct -> Forall2 (eprefer n) cs xs -> einner (S n) t (ETNode sh t xs)
with eprefer : nat -> nat -> etree -> Prop :=
| er_cut t : eprefer 0 t ECut
| er_follow n t x : follows t -> einner (S n) t x -> eprefer (S n) t x
| er_direct n t x : ~ follows t -> einner (S n) (ptrTo t) x -> eprefer (S n) t (ETDirect x).
(** the encoders that expect an address although interfaces hold the value itself *)
Definition needs_address (t : nat) (c : elabel + eshape * list nat) : Prop :=
  match c with
  | inl (ELPtrJson _ | ELDirectJson _ | ELPtrText _ | ELDirectText _) => True
  | inr (EMap, _) => True
  | inr ((EArray | EStruct), _) => et_indir (T t) = false
  | _ => False
  end.
(** [eroot n t x]: the tree of the encoder of [t] for the data word of an interface.  The word of a pointer type is the
    address of its element. *)
Inductive eroot : nat -> nat -> etree -> Prop :=
| eo_cut t : eroot 0 t ECut
| eo_pointer n t e x : echooses t (inr (EPtr, [e])) -> einner (S n) e x -> eroot (S n) t x
| eo_same n t c x : echooses t c -> (forall e, c <> inr (EPtr, [e])) -> ~ needs_address t c -> einner (S n) t x -> eroot (S n) t x
| eo_address n t c x : echooses t c -> needs_address t c -> einner (S n) t x -> eroot (S n) t (ETDirect x).
(** predeclared types have no methods; pointer types *)
Definition enatives_ok : Prop :=
  forall t native enc, et_kind (T t) = EKBasic native enc -> T native = mkET None false false true (EKBasic native enc).
Definition pointers_ok : Prop := forall t, et_kind (T (ptrTo t)) = EKPtr t.
(** the types whose encoders are needed for a type *)
Definition ecomponents (k : ekind) : list nat :=
  match k with
  | EKStruct fs => map ptrTo fs
  | EKPtr e | EKMap (Some e) => [e]
  | EKArray _ e | EKSlice e => [ptrTo e]
  | _ => []
  end.
(** a finite set of types that contains the components of its members *)
Definition eclosed (U : list nat) : Prop := forall t, In t U -> incl (ecomponents (et_kind (T t))) U.
End Encoders.

(** [esees objs k n v x]: following the references from value [v] down to depth [n] shows the tree [x]; all structs are
    built and among the first [k] *)
Inductive esees (objs : nat -> eobj) (k : nat) : nat -> option eval -> etree -> Prop :=
| ee_cut v : esees objs k 0 (Some v) ECut
| ee_leaf n l : esees objs k (S n) (Some (ELeaf l)) (ETLeaf l)
| ee_direct n v x : esees objs k (S n) (Some v) x -> esees objs k (S n) (Some (EDirect v)) (ETDirect x)
| ee_node n a sh t vs xs : a < k -> objs a = mkEO sh t (Some vs) -> Forall2 (esees objs k n) vs xs ->
    esees objs k (S n) (Some (EObj a)) (ETNode sh t xs).
(** the encoder of [t], complete: for the data word of an interface, and for an address *)
Definition ecomplete custom T ptrTo uint8 uint8Enc (objs : nat -> eobj) (k t : nat) (v : option eval) : Prop :=
  forall n, exists x, eroot custom T ptrTo uint8 uint8Enc n t x /\ esees objs k n v x.
Definition ecomplete_at custom T ptrTo uint8 uint8Enc (objs : nat -> eobj) (k t : nat) (v : option eval) : Prop :=
  forall n, exists x, einner custom T ptrTo uint8 uint8Enc n t x /\ esees objs k n v x.
