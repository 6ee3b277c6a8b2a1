(** The build of encoders: encoder_config.go, for the protocol in ModelCache.v. *)
From Coq Require Import List Bool Arith.
From Verif Require Import ModelCache.
Import ListNotations.

(** The kinds of a type (encoder_config.go:220-302).  EKBasic: the kinds in encoderKindMap, with the predeclared type and
    the encoder of the kind (val_encoder.go:28-36, 52-79).  EKArray: whether the length is 0, and the element type.
    EKMap None: the key type has no key encoder (val_encoder_native_map.go:14-43).  EKStruct: the types of the fields. *)
Inductive ekind :=
| EKBasic (native enc : nat)
| EKInterface (methods : bool)
| EKStruct (fields : list nat)
| EKPtr (elem : nat)
| EKArray (empty : bool) (elem : nat)
| EKSlice (elem : nat)
| EKMap (elem : option nat)
| EKOther.
(** What createEncoderInternal asks about a type: the entry in globalValEncoders, whether it implements json.Marshaler and
    encoding.TextMarshaler, ifaceIndir (interfaces hold a pointer to the value, not the value), the kind. *)
Record etype := mkET { et_global : option nat; et_json : bool; et_text : bool; et_indir : bool; et_kind : ekind }.
(** Encoders without references to other encoders.  The three encoders for each kind of marshaler:
    val_encoder_json_marshaler.go and val_encoder_text_marshaler.go. *)
Inductive elabel :=
| ELCustom (n : nat) | ELGlobal (n : nat)
| ELJson (t : nat) | ELPtrJson (t : nat) | ELDirectJson (t : nat)
| ELText (t : nat) | ELPtrText (t : nat) | ELDirectText (t : nat)
| ELBasic (enc : nat) | ELBase64 | ELEface | ELIface | ELEmptyArray | ELEmptyStruct | ELNotSupported (t : nat).
(** encoders with references *)
Inductive eshape := EPtr | EArray | EMap | ESlice | EStruct.
(** A ValEncoder: an encoder without references, a directEncoder (val_encoder_direct.go:7-9, never changed after it is
    made) around another one, or a pointer to a struct. *)
Inductive eval := ELeaf (l : elabel) | EDirect (v : eval) | EObj (a : nat).
(** an encoder struct: its shape and type, and the encoders it refers to, nil until it is built *)
Record eobj := mkEO { eo_shape : eshape; eo_type : nat; eo_refs : option (list (option eval)) }.
(** the values in a struct *)
Definition e_refs (o : eobj) : list (option eval) := match eo_refs o with Some l => l | None => [None] end.
(** the struct a value points to *)
Fixpoint e_target (v : eval) : option nat := match v with EObj a => Some a | ELeaf _ => None | EDirect v' => e_target v' end.
(** an entry of rebuildMap: the type, the struct, and the component types *)
Record ebuilder := mkEB { eb_shape : eshape; eb_type : nat; eb_obj : nat; eb_refs : list nat }.
(** The state of createEncoderInternal: the loop with the queue (the last element first) and rebuildMap; the three loops
    over rebuildMap with the entries to visit and the entries visited that were not deleted. *)
Inductive ebuild :=
| ELoop (q : list nat) (rb : list ebuilder)
| EBase64 (todo rest : list ebuilder)
| EPtrs (todo rest : list ebuilder)
| EOthers (todo : list ebuilder).

Section Encoders.
Variable T : nat -> etype.
(** reflect.PtrTo *)
Variable ptrTo : nat -> nat.
(** uint8 and its encoder *)
Variables uint8 uint8Enc : nat.
Notation mem := (bmem eval eobj).
(** an entry in both caches *)
Definition e_both (x : mem) (t : nat) (v : eval) : mem :=
  mkB (upd (b_new x) t (Some v)) (upd (b_int x) t (Some v)) (b_objs x) (b_nobjs x).
(** an entry with different encoders in cache and internalCache (encoder_config.go:170-172, 176-181, 205-207, 211-216) *)
Definition e_direct (x : mem) (t : nat) (v : eval) : mem :=
  mkB (upd (b_new x) t (Some (EDirect v))) (upd (b_int x) t (Some v)) (b_objs x) (b_nobjs x).
(** a new struct, its builder, its entry in internalCache, and the types that are pushed *)
Definition e_node (x : mem) (q : list nat) (rb : list ebuilder) (t : nat) (sh : eshape) (cs ts : list nat) : mem * ebuild :=
  let a := b_nobjs x in
  (mkB (b_new x) (upd (b_int x) t (Some (EObj a))) (upd (b_objs x) a (mkEO sh t None)) (S a),
   ELoop (push q ts) (mkEB sh t a cs :: rb)).
(** a marshaler (encoder_config.go:151-183, 186-218): [impl] says which types implement the interface *)
Definition e_marshaler (x : mem) (q : list nat) (rb : list ebuilder) (t : nat) (impl : nat -> bool) (plain ptr direct : nat -> elabel) : mem * ebuild :=
  if et_indir (T t) then (e_both x t (ELeaf (plain t)), ELoop q rb)
  else match et_kind (T t) with
       | EKPtr e => if impl e then e_node x q rb t EPtr [e] [e] else (e_direct x t (ELeaf (ptr t)), ELoop q rb)
       | _ => (e_direct x t (ELeaf (direct t)), ELoop q rb)
       end.
(** encoder_config.go:136-302: the type [t] has been taken from the queue *)
Definition e_visit (x : mem) (q : list nat) (rb : list ebuilder) (t : nat) : mem * ebuild :=
  let both v := (e_both x t v, ELoop q rb) in
  let node := e_node x q rb t in
  match b_int x t with
  | Some _ => (x, ELoop q rb)
  | None =>
    match et_global (T t) with
    | Some n => both (ELeaf (ELGlobal n))
    | None =>
      if et_json (T t) then e_marshaler x q rb t (fun u => et_json (T u)) ELJson ELPtrJson ELDirectJson
      else if et_text (T t) then e_marshaler x q rb t (fun u => et_text (T u)) ELText ELPtrText ELDirectText
      else
        match et_kind (T t) with
        | EKBasic native enc => both (match b_int x native with Some v => v | None => ELeaf (ELBasic enc) end)
        | EKPtr e => node EPtr [e] [e]
        | EKArray true e => (e_both x t (ELeaf ELEmptyArray), ELoop (push q [ptrTo e]) rb)
        | EKArray false e => node EArray [e] [ptrTo e]
        | EKInterface false => both (ELeaf ELEface)
        | EKInterface true => both (ELeaf ELIface)
        | EKMap None => both (ELeaf (ELNotSupported t))
        | EKMap (Some e) => node EMap [e] [e]
        | EKSlice e => node ESlice [e] [ptrTo e]
        | EKStruct [] => both (ELeaf ELEmptyStruct)
        | EKStruct fs => node EStruct fs (map ptrTo fs)
        | EKOther => both (ELeaf (ELNotSupported t))
        end
    end
  end.
(** the type assertion to pointerEncoder; the encoder in it *)
Definition is_pointer (x : mem) (v : option eval) : bool :=
  match v with
  | Some (EObj a) => match eo_shape (b_objs x a) with EPtr => true | _ => false end
  | _ => false
  end.
(** *c.p, the encoder a pointerEncoder or a directEncoder refers to *)
Definition pointed (x : mem) (v : option eval) : option eval :=
  match v with
  | Some (EObj a) => match eo_refs (b_objs x a) with Some (w :: _) => w | _ => None end
  | _ => None
  end.
(** encoder_config.go:33-41 *)
Definition preferPtrEncoder (x : mem) (t : nat) : option eval :=
  let p := b_int x (ptrTo t) in
  if is_pointer x p then pointed x p else option_map EDirect p.
(** encoder_config.go:304-328: the slice becomes a base64 string *)
Definition is_base64 (x : mem) (b : ebuilder) : bool :=
  match eb_shape b, eb_refs b with
  | ESlice, [e] =>
      match et_kind (T e) with
      | EKBasic native _ => (native =? uint8) && is_pointer x (b_int x (ptrTo e)) &&
          match b_int x e with Some (ELeaf (ELBasic n)) => n =? uint8Enc | _ => false end
      | _ => false
      end
  | _, _ => false
  end.
(** the references of a struct are set, and the entry in cache *)
Definition e_set (x : mem) (b : ebuilder) (vs : list (option eval)) (root : option eval) : mem :=
  let o := b_objs x (eb_obj b) in
  mkB (upd (b_new x) (eb_type b) root) (b_int x) (upd (b_objs x) (eb_obj b) (mkEO (eo_shape o) (eo_type o) (Some vs))) (b_nobjs x).
(** encoder_config.go:332-336 *)
Definition e_pointer (x : mem) (b : ebuilder) : mem :=
  e_set x b (map (b_int x) (eb_refs b)) (match eb_refs b with e :: _ => b_int x e | [] => None end).
(** encoder_config.go:341-372.  Nothing is done for a pointer encoder. *)
Definition e_other (x : mem) (b : ebuilder) : mem :=
  let self := EObj (eb_obj b) in
  let wrap := if et_indir (T (eb_type b)) then self else EDirect self in
  match eb_shape b with
  | EArray | EStruct => e_set x b (map (preferPtrEncoder x) (eb_refs b)) (Some wrap)
  | EMap => e_set x b (map (b_int x) (eb_refs b)) (Some (EDirect self))
  | ESlice => e_set x b (map (preferPtrEncoder x) (eb_refs b)) (Some self)
  | EPtr => x
  end.
(** the structs that a builder reads in the third loop *)
Definition e_reads (x : mem) (b : ebuilder) : list baccess :=
  flat_map (fun t => match b_int x (ptrTo t) with Some v => match e_target v with Some a => [(BObj a, false)] | None => [] end | None => [] end) (eb_refs b).
(** createEncoderInternal (encoder_config.go:133-374).  The order in which rebuildMap is visited is not specified. *)
Inductive estep (x : mem) : ebuild -> list baccess -> mem -> ebuild -> Prop :=
| es_visit t q rb : estep x (ELoop (t :: q) rb) [(BNew, true); (BInt, true); (BObj (b_nobjs x), true)]
    (fst (e_visit x q rb t)) (snd (e_visit x q rb t))
| es_end rb : estep x (ELoop [] rb) [] x (EBase64 rb [])
| es_base64 l1 b l2 rest : is_base64 x b = true ->
    estep x (EBase64 (l1 ++ b :: l2) rest) [(BNew, true); (BInt, true)] (e_both x (eb_type b) (ELeaf ELBase64)) (EBase64 (l1 ++ l2) rest)
| es_nobase64 l1 b l2 rest : is_base64 x b = false ->
    estep x (EBase64 (l1 ++ b :: l2) rest) [(BInt, false)] x (EBase64 (l1 ++ l2) (b :: rest))
| es_end64 rest : estep x (EBase64 [] rest) [] x (EPtrs rest [])
| es_ptr l1 b l2 rest : eb_shape b = EPtr ->
    estep x (EPtrs (l1 ++ b :: l2) rest) [(BNew, true); (BInt, false); (BObj (eb_obj b), true)] (e_pointer x b) (EPtrs (l1 ++ l2) rest)
| es_noptr l1 b l2 rest : eb_shape b <> EPtr ->
    estep x (EPtrs (l1 ++ b :: l2) rest) [] x (EPtrs (l1 ++ l2) (b :: rest))
| es_endptr rest : estep x (EPtrs [] rest) [] x (EOthers rest)
| es_other l1 b l2 : estep x (EOthers (l1 ++ b :: l2)) ([(BNew, true); (BInt, false); (BObj (eb_obj b), true)] ++ e_reads x b) (e_other x b) (EOthers (l1 ++ l2)).
(** the end of createEncoderInternal *)
Definition edone (b : ebuild) : Prop := b = EOthers [].
(** encoder_config.go:126-127 *)
Definition estart (t : nat) : ebuild := ELoop (push [] [t]) [].
(** NewEncoderConfig (encoder_config.go:60-82): [custom] are the ValEncoders *)
Definition econfig (custom : nat -> option nat) : state eval eobj ebuild :=
  mkS _ _ _ (fun _ t => option_map (fun n => ELeaf (ELCustom n)) (custom t)) 2 (fun _ => mkEO EPtr 0 None) 0 1 None (fun _ => Idle).
End Encoders.
