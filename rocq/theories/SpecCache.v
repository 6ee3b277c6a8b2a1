(** Which decoder belongs to a type.  From the model this uses the descriptions of types and decoders, not the caches
    or the build. *)
From Coq Require Import List Bool Arith.
From Verif Require Import ModelCache.
Import ListNotations.

(** A decoder together with all the decoders it refers to, as a tree cut off at some depth *)
Inductive dtree := TCut | TLeaf (l : dlabel) | TNode (sh : dshape) (t : nat) (cs : list dtree).

Section Decoders.
(** the decoders given by the user, by pointer type *)
Variable custom : nat -> option nat.
Variable T : nat -> dtype.
(** the shape of the decoder of a struct with some fields *)
Definition struct_shape (fs : list nat) : dshape := if length fs =? 1 then SOne else if length fs <=? 10 then SSmall else SMany.
(** by kind; a basic kind uses the decoder that the user gave for the predeclared type *)
Inductive kind_chooses (t : nat) : dkind -> dlabel + dshape * list nat -> Prop :=
| kc_native native dec n : custom native = Some n -> kind_chooses t (KBasic native dec) (inl (LCustom n))
| kc_basic native dec : custom native = None -> kind_chooses t (KBasic native dec) (inl (LBasic dec))
| kc_eface : kind_chooses t (KInterface false) (inl LEface)
| kc_iface : kind_chooses t (KInterface true) (inl LIface)
| kc_empty : kind_chooses t (KStruct []) (inl LEmptyObject)
| kc_struct fs : fs <> [] -> kind_chooses t (KStruct fs) (inr (struct_shape fs, fs))
| kc_ptr e : kind_chooses t (KPtr e) (inr (SPtr, [e]))
| kc_array e : kind_chooses t (KArray e) (inr (SArray, [e]))
| kc_slice e : kind_chooses t (KSlice e) (inr (SSlice, [e]))
| kc_nomap : kind_chooses t (KMap None) (inl (LNotSupported t))
| kc_map e : kind_chooses t (KMap (Some e)) (inr (SMap, [e]))
| kc_other : kind_chooses t KOther (inl (LNotSupported t)).
(** [chooses t c]: the decoder of [t] has no references, or it has a shape and refers to the decoders of some types.  A
    decoder given by the user comes first, then the standard library's types, then methods, then the kind. *)
Inductive chooses (t : nat) : dlabel + dshape * list nat -> Prop :=
| ch_custom n : custom t = Some n -> chooses t (inl (LCustom n))
| ch_global n : custom t = None -> dt_global (T t) = Some n -> chooses t (inl (LGlobal n))
| ch_json : custom t = None -> dt_global (T t) = None -> dt_json (T t) = true -> chooses t (inl (LJson t))
| ch_text : custom t = None -> dt_global (T t) = None -> dt_json (T t) = false -> dt_text (T t) = true -> chooses t (inl (LText t))
| ch_kind c : custom t = None -> dt_global (T t) = None -> dt_json (T t) = false -> dt_text (T t) = false ->
    kind_chooses t (dt_kind (T t)) c -> chooses t c.
(** [belongs n t x]: [x] is the tree of the decoder of [t], down to depth [n] *)
Inductive belongs : nat -> nat -> dtree -> Prop :=
| be_cut t : belongs 0 t TCut
| be_leaf n t l : chooses t (inl l) -> belongs (S n) t (TLeaf l)
| be_node n t sh cs xs : chooses t (inr (sh, cs)) -> Forall2 (belongs n) cs xs -> belongs (S n) t (TNode sh t xs).
(** predeclared types have no methods *)
Definition natives_ok : Prop := forall t native dec, dt_kind (T t) = KBasic native dec -> T native = mkDT None false false (KBasic native dec).
(** the component types of a kind *)
Definition components (k : dkind) : list nat :=
  match k with
  | KStruct fs => fs
  | KPtr e | KArray e | KSlice e | KMap (Some e) => [e]
  | _ => []
  end.
(** a finite set of types that contains the components of its members *)
Definition closed (U : list nat) : Prop := forall t, In t U -> incl (components (dt_kind (T t))) U.
End Decoders.

(** [sees objs k n v x]: following the references from value [v] down to depth [n] shows the tree [x]; all structs are
    built and among the first [k] *)
Inductive sees (objs : nat -> dobj) (k : nat) : nat -> option dval -> dtree -> Prop :=
| se_cut v : sees objs k 0 (Some v) TCut
| se_leaf n l : sees objs k (S n) (Some (DLeaf l)) (TLeaf l)
| se_node n a sh t vs xs : a < k -> objs a = mkDO sh t (Some vs) -> Forall2 (sees objs k n) vs xs ->
    sees objs k (S n) (Some (DObj a)) (TNode sh t xs).
(** the decoder of [t], complete *)
Definition complete (custom : nat -> option nat) (T : nat -> dtype) (objs : nat -> dobj) (k t : nat) (v : option dval) : Prop :=
  forall n, exists x, belongs custom T n t x /\ sees objs k n v x.

(** ** Both caches *)
(** the structs that a value leads to *)
Inductive leads {V O} (target : V -> option nat) (refs : O -> list (option V)) (objs : nat -> O) : V -> nat -> Prop :=
| le_here v a : target v = Some a -> leads target refs objs v a
| le_ref v a w b : target v = Some a -> In (Some w) (refs (objs a)) -> leads target refs objs w b -> leads target refs objs v b.
(** the value a goroutine was given for a type *)
Definition given {V O B} (s : state V O B) (i t : nat) (v : option V) : Prop :=
  s_pc s i = Have t v \/ exists w, s_pc s i = Use t v w.
(** the published cache *)
Definition published {V O B} (s : state V O B) : nat -> option V := s_maps s (s_pub s).
(** the maps that goroutines read without the lock *)
Definition readable {V O B} (s : state V O B) (m : nat) : Prop := m = s_pub s \/ exists i t, s_pc s i = Look t m.
