(** The decoder and encoder caches: decoder_config.go, encoder_config.go, type_queue.go.

    Goroutines interleave in any order.  A step is an atomic load or store, a lock operation, an access to
    a map, or an access to a decoder or encoder; each step lists its accesses to memory that is not
    synchronized by itself.  Types are numbers, with a description of what reflect tells about them. *)
From Coq Require Import List Bool Arith.
Import ListNotations.

(** ** The protocol, for decoders and encoders *)
Section Protocol.
(** values of type ValDecoder or ValEncoder, the structs they may point to, and the state of a build *)
Variables V O B : Type.
(** maps from rtype to such values (decoder_config.go:35, encoder_config.go:24) *)
Definition cache := nat -> option V.
(** What a build works on: the new cache, the internal cache (encoder_config.go:46, not used by decoders), the
    structs and the number of structs allocated. *)
Record bmem := mkB { b_new : cache; b_int : cache; b_objs : nat -> O; b_nobjs : nat }.
(** A piece of memory: a map, or a decoder or encoder struct; during a build: the new map, the internal map, a struct *)
Inductive loc := LMap (m : nat) | LObj (a : nat).
(** the same during a build (decoder_config.go:141-248, encoder_config.go:133-374) *)
Inductive bloc := BNew | BInt | BObj (a : nat).
(** an access: the memory, and whether it is written *)
Definition access := (loc * bool)%type.
(** the same during a build *)
Definition baccess := (bloc * bool)%type.
(** createDecoderInternal or createEncoderInternal: the state at the start, the steps, and the end *)
Variable bstart : nat -> B.
Variable bstep : bmem -> B -> list baccess -> bmem -> B -> Prop.
Variable bdone : B -> Prop.
(** the struct a value points to, and the values in a struct *)
Variable target : V -> option nat.
Variable refs : O -> list (option V).

(** The state of a goroutine.  Load to Look: getDecoderFromCache (decoder_config.go:103-105, encoder_config.go:110-112),
    called by iterator_val.go:14 and streamer_val.go:18.  Lock to Unlock: createDecoder, createEncoder
    (decoder_config.go:117-135, encoder_config.go:114-131).  Have: the value that was returned.  Use: the goroutine
    is in the Decode or Encode method of a value reached from the one that was returned. *)
Inductive pc :=
| Idle
| Load (t : nat)
| Look (t m : nat)
| Lock (t : nat)
| Load2 (t : nat)
| Look2 (t m : nat)
| Copy (t m : nat)
| Build (t m : nat) (b : B)
| Store (t m : nat)
| Result (t m : nat)
| Unlock (t : nat) (v : option V)
| Have (t : nat) (v : option V)
| Use (t : nat) (v : option V) (w : option V).
(** All maps by address, the number of maps, the structs and their number, the published map (the atomic.Value), the
    goroutine that holds the mutex, the goroutines.  Map 0 is the internal cache of encoders. *)
Record state := mkS { s_maps : nat -> cache; s_nmaps : nat; s_objs : nat -> O; s_nobjs : nat;
  s_pub : nat; s_lock : option nat; s_pc : nat -> pc }.
(** assignments *)
Definition upd {A} (f : nat -> A) (k : nat) (x : A) : nat -> A := fun j => if j =? k then x else f j.
(** thread [i] is at [p] *)
Definition at_pc (s : state) (i : nat) (p : pc) : state :=
  mkS (s_maps s) (s_nmaps s) (s_objs s) (s_nobjs s) (s_pub s) (s_lock s) (upd (s_pc s) i p).
(** the memory of a build in the memory, and the other way round *)
Definition bview (s : state) (m : nat) : bmem := mkB (s_maps s m) (s_maps s 0) (s_objs s) (s_nobjs s).
(** decoder_config.go:141-243, encoder_config.go:133-374: what the build has written *)
Definition bput (s : state) (m : nat) (x : bmem) : state :=
  mkS (upd (upd (s_maps s) 0 (b_int x)) m (b_new x)) (s_nmaps s) (b_objs x) (b_nobjs x) (s_pub s) (s_lock s) (s_pc s).
(** an access of the build in the memory *)
Definition bacc (m : nat) (x : baccess) : access :=
  (match fst x with BNew => LMap m | BInt => LMap 0 | BObj a => LObj a end, snd x).

(** the steps of goroutine [i] *)
Inductive step (s : state) (i : nat) : list access -> state -> Prop :=
(* a request for the value of type [t] *)
| st_begin t : s_pc s i = Idle -> step s i [] (at_pc s i (Load t))
| st_load t : s_pc s i = Load t -> step s i [] (at_pc s i (Look t (s_pub s)))
| st_look t m : s_pc s i = Look t m ->
    step s i [(LMap m, false)] (at_pc s i (match s_maps s m t with Some v => Have t (Some v) | None => Lock t end))
| st_lock t : s_pc s i = Lock t -> s_lock s = None ->
    step s i [] (mkS (s_maps s) (s_nmaps s) (s_objs s) (s_nobjs s) (s_pub s) (Some i) (upd (s_pc s) i (Load2 t)))
| st_load2 t : s_pc s i = Load2 t -> step s i [] (at_pc s i (Look2 t (s_pub s)))
| st_look2 t m : s_pc s i = Look2 t m ->
    step s i [(LMap m, false)] (at_pc s i (match s_maps s m t with Some v => Unlock t (Some v) | None => Copy t m end))
(* the loop that copies the map is one step *)
| st_copy t m : s_pc s i = Copy t m ->
    step s i [(LMap m, false); (LMap (s_nmaps s), true)]
      (mkS (upd (s_maps s) (s_nmaps s) (s_maps s m)) (S (s_nmaps s)) (s_objs s) (s_nobjs s) (s_pub s) (s_lock s)
         (upd (s_pc s) i (Build t (s_nmaps s) (bstart t))))
| st_build t m b acc x b' : s_pc s i = Build t m b -> bstep (bview s m) b acc x b' ->
    step s i (map (bacc m) acc) (at_pc (bput s m x) i (Build t m b'))
| st_built t m b : s_pc s i = Build t m b -> bdone b -> step s i [] (at_pc s i (Store t m))
| st_store t m : s_pc s i = Store t m ->
    step s i [] (mkS (s_maps s) (s_nmaps s) (s_objs s) (s_nobjs s) m (s_lock s) (upd (s_pc s) i (Result t m)))
| st_result t m : s_pc s i = Result t m -> step s i [(LMap m, false)] (at_pc s i (Unlock t (s_maps s m t)))
| st_unlock t v : s_pc s i = Unlock t v ->
    step s i [] (mkS (s_maps s) (s_nmaps s) (s_objs s) (s_nobjs s) (s_pub s) None (upd (s_pc s) i (Have t v)))
| st_use t v : s_pc s i = Have t v -> step s i [] (at_pc s i (Use t v v))
(* a value calls one of the values in its struct *)
| st_call t v w a w' : s_pc s i = Use t v (Some w) -> target w = Some a -> In w' (refs (s_objs s a)) ->
    step s i [(LObj a, false)] (at_pc s i (Use t v w'))
| st_end t v w : s_pc s i = Use t v w -> step s i [] (at_pc s i Idle).
(** executions *)
Inductive steps (s : state) : state -> Prop :=
| ss_refl : steps s s
| ss_step i acc s1 s2 : steps s s1 -> step s1 i acc s2 -> steps s s2.
End Protocol.
Arguments mkB {V O}. Arguments b_new {V O}. Arguments b_int {V O}. Arguments b_objs {V O}. Arguments b_nobjs {V O}.
Arguments s_maps {V O B}. Arguments s_nmaps {V O B}. Arguments s_objs {V O B}. Arguments s_nobjs {V O B}.
Arguments s_pub {V O B}. Arguments s_lock {V O B}. Arguments s_pc {V O B}.
Arguments Idle {V B}. Arguments Load {V B}. Arguments Look {V B}. Arguments Lock {V B}. Arguments Load2 {V B}.
Arguments Look2 {V B}. Arguments Copy {V B}. Arguments Build {V B}. Arguments Store {V B}. Arguments Result {V B}.
Arguments Unlock {V B}. Arguments Have {V B}. Arguments Use {V B}.

(** ** The build of decoders *)
(** the kinds of the element type of a pointer type (decoder_config.go:163-243).  KBasic: the kinds in decoderKindMap,
    with the native pointer type and the decoder of the kind (val_decoder.go:22-27, 43-74).  Components are pointer
    types.  KMap None: the key type has no key decoder (val_decoder_native_map.go:13-35). *)
Inductive dkind :=
| KBasic (native dec : nat)
| KInterface (methods : bool)
| KStruct (fields : list nat)
| KPtr (elem : nat)
| KArray (elem : nat)
| KSlice (elem : nat)
| KMap (elem : option nat)
| KOther.
(** what createDecoderInternal asks about a pointer type: the entry in globalValDecoders, whether it implements
    json.Unmarshaler and encoding.TextUnmarshaler, the kind of its element *)
Record dtype := mkDT { dt_global : option nat; dt_json : bool; dt_text : bool; dt_kind : dkind }.
(** decoders without references to other decoders *)
Inductive dlabel :=
| LCustom (n : nat) | LGlobal (n : nat) | LJson (t : nat) | LText (t : nat) | LBasic (dec : nat)
| LEface | LIface | LEmptyObject | LNotSupported (t : nat).
(** decoders with references: the struct decoders for one, few and many fields, and the others *)
Inductive dshape := SOne | SSmall | SMany | SPtr | SArray | SSlice | SMap.
(** a ValDecoder: a decoder without references, or a pointer to a struct *)
Inductive dval := DLeaf (l : dlabel) | DObj (a : nat).
(** a decoder struct: its shape and type, and the decoders it refers to, nil until it is built *)
Record dobj := mkDO { do_shape : dshape; do_type : nat; do_refs : option (list (option dval)) }.
(** the values in a struct *)
Definition d_refs (o : dobj) : list (option dval) := match do_refs o with Some l => l | None => [None] end.
(** the struct a value points to *)
Definition d_target (v : dval) : option nat := match v with DObj a => Some a | DLeaf _ => None end.
(** an entry of rebuildMap: the type, the struct and the types it refers to *)
Record builder := mkBuilder { bu_type : nat; bu_obj : nat; bu_refs : list nat }.
(** the state of createDecoderInternal: the loop with the queue (the last element first) and rebuildMap, or the
    builders left *)
Inductive dbuild := DLoop (q : list nat) (rb : list builder) | DBuild (rb : list builder).

Section Decoders.
Variable T : nat -> dtype.
(** type_queue.go:7-9, 19-28 *)
Definition push (q ts : list nat) : list nat := rev ts ++ q.
(** a new struct, its builder and its entry in the cache *)
Definition d_node (x : bmem dval dobj) (q : list nat) (rb : list builder) (t : nat) (sh : dshape) (ts : list nat) : bmem dval dobj * dbuild :=
  let a := b_nobjs x in
  (mkB (upd (b_new x) t (Some (DObj a))) (b_int x) (upd (b_objs x) a (mkDO sh t None)) (S a),
   DLoop (push q ts) (mkBuilder t a ts :: rb)).
(** an entry without references *)
Definition d_leaf (x : bmem dval dobj) (q : list nat) (rb : list builder) (t : nat) (v : dval) : bmem dval dobj * dbuild :=
  (mkB (upd (b_new x) t (Some v)) (b_int x) (b_objs x) (b_nobjs x), DLoop q rb).
(** decoder_config.go:143-243: the type [t] has been taken from the queue *)
Definition d_visit (x : bmem dval dobj) (q : list nat) (rb : list builder) (t : nat) : bmem dval dobj * dbuild :=
  let leaf l := d_leaf x q rb t (DLeaf l) in
  let node := d_node x q rb t in
  match b_new x t with
  | Some _ => (x, DLoop q rb)
  | None =>
    match dt_global (T t) with
    | Some n => leaf (LGlobal n)
    | None =>
      if dt_json (T t) then leaf (LJson t)
      else if dt_text (T t) then leaf (LText t)
      else
        match dt_kind (T t) with
        | KBasic native dec =>
            match b_new x native with
            | Some v => d_leaf x q rb t v
            | None => leaf (LBasic dec)
            end
        | KInterface false => leaf LEface
        | KInterface true => leaf LIface
        | KStruct [] => leaf LEmptyObject
        | KStruct [f] => node SOne [f]
        | KStruct fs => node (if length fs <=? 10 then SSmall else SMany) fs
        | KPtr e => node SPtr [e]
        | KArray e => node SArray [e]
        | KSlice e => node SSlice [e]
        | KMap None => leaf (LNotSupported t)
        | KMap (Some e) => node SMap [e]
        | KOther => leaf (LNotSupported t)
        end
    end
  end.
(** decoder_config.go:244-247 and the build methods: the references are looked up in the cache *)
Definition d_rebuild (x : bmem dval dobj) (b : builder) : bmem dval dobj :=
  let o := b_objs x (bu_obj b) in
  mkB (b_new x) (b_int x) (upd (b_objs x) (bu_obj b) (mkDO (do_shape o) (do_type o) (Some (map (b_new x) (bu_refs b))))) (b_nobjs x).
(** createDecoderInternal (decoder_config.go:141-248).  The order in which rebuildMap is visited is not specified. *)
Inductive dstep (x : bmem dval dobj) : dbuild -> list baccess -> bmem dval dobj -> dbuild -> Prop :=
| ds_visit t q rb : dstep x (DLoop (t :: q) rb) [(BNew, true); (BObj (b_nobjs x), true)] (fst (d_visit x q rb t)) (snd (d_visit x q rb t))
| ds_end rb : dstep x (DLoop [] rb) [] x (DBuild rb)
| ds_build l1 b l2 : dstep x (DBuild (l1 ++ b :: l2)) [(BNew, false); (BObj (bu_obj b), true)] (d_rebuild x b) (DBuild (l1 ++ l2)).
(** the end of createDecoderInternal *)
Definition ddone (b : dbuild) : Prop := b = DBuild [].
(** decoder_config.go:131-132 *)
Definition dstart (t : nat) : dbuild := DLoop (push [] [t]) [].
(** NewDecoderConfig (decoder_config.go:54-74): [custom] are the ValDecoders, by pointer type *)
Definition dconfig (custom : nat -> option nat) : state dval dobj dbuild :=
  mkS _ _ _ (fun _ t => option_map (fun n => DLeaf (LCustom n)) (custom t)) 2 (fun _ => mkDO SPtr 0 None) 0 1 None (fun _ => Idle).
End Decoders.
