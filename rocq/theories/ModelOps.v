(** All operations of an iterator, client programs built from them, and the life of an
    iterator. *)
From Coq Require Import String ZArith List Bool.
From Verif Require Import Base ModelIter ModelStack ModelSkip ModelStr ModelInt ModelFloat ModelRead ModelIterate.
Import ListNotations.
Local Open Scope Z_scope.

(** widths of the integer methods: iterator_int.go and the sized files *)
Inductive width := W8 | W16 | W32 | W64.

(** One constructor per exported method of Iterator that reads input.  ReadInt and ReadUint are
    [OInt W32]/[OInt W64] (iterator_int.go:25-42). *)
Inductive op :=
| OSkip | OSkipArray | OSkipObject | OSkipNumber | OSkipString
| OSkipRaw | OReadRaw | OAppendRaw (b : bytes) | OReadNumber
| OReadNull | OReadBool
| OReadString | OReadStringAsSlice | OReadStringAndAppend (b : bytes)
| OUint (w : width) | OInt (w : width)
| OFloat32 | OFloat64 | ORead | ONextValueType
| OArrayBegin | OArrayMore | OObjectBegin | OObjectMore.

Section Ops.
Variables F32 F64 : floatOps.

(** results of the methods *)
Inductive out :=
| RUnit | RBool (b : bool) | RInt (z : Z) | RBytes (b : bytes)
| RF32 (x : fl F32) | RF64 (x : fl F64) | RVal (v : gval F64)
| RType (t : ValueType) | RKey (k : option bytes).

(** iterator_int8.go:15-67, iterator_int16.go:16-62, iterator_int32.go:16-62, iterator_int64.go:16-63 *)
Definition readUintOp (w : width) : M Z :=
  match w with W8 => ReadUint8 | W16 => ReadUint16 | W32 => ReadUint32 | W64 => ReadUint64 end.
(** iterator_int8.go:69-109, iterator_int16.go:64-104, iterator_int32.go:64-104, iterator_int64.go:65-105 *)
Definition readIntOp (w : width) : M Z :=
  match w with W8 => ReadInt8 | W16 => ReadInt16 | W32 => ReadInt32 | W64 => ReadInt64 end.

(** the result of a call as a value of [out] *)
Definition as_out {A} (g : A -> out) (m : M A) : M out := do a <- m; ret (g a).

(** dispatch to the method, see the definitions used for their sources *)
Definition exec (o : op) : M out :=
  match o with
  | OSkip => as_out (fun _ => RUnit) Skip
  | OSkipArray => as_out (fun _ => RUnit) SkipArray
  | OSkipObject => as_out (fun _ => RUnit) SkipObject
  | OSkipNumber => as_out (fun _ => RUnit) SkipNumber
  | OSkipString => as_out (fun _ => RUnit) SkipString
  | OSkipRaw => as_out RBytes SkipRaw
  | OReadRaw => as_out RBytes ReadRaw
  | OAppendRaw b => as_out RBytes (AppendRaw b)
  | OReadNumber => as_out RBytes ReadNumber
  | OReadNull => as_out (fun _ => RUnit) ReadNull
  | OReadBool => as_out RBool ReadBool
  | OReadString => as_out RBytes ReadString
  | OReadStringAsSlice => as_out RBytes ReadStringAsSlice
  | OReadStringAndAppend b => as_out RBytes (ReadStringAndAppend b)
  | OUint w => as_out RInt (readUintOp w)
  | OInt w => as_out RInt (readIntOp w)
  | OFloat32 => as_out RF32 (ReadFloat F32)
  | OFloat64 => as_out RF64 (ReadFloat F64)
  | ORead => as_out RVal (Read F64)
  | ONextValueType => as_out RType NextValueType
  | OArrayBegin => as_out RBool ReadArrayBegin
  | OArrayMore => as_out RBool ReadArrayMore
  | OObjectBegin => as_out RKey ReadObjectBegin
  | OObjectMore => as_out RKey ReadObjectMore
  end.

(** A client of the iterator: it chooses the next call from the results so far, may run
    ReadArrayCB and ReadObjectCB with any callback program, and may stop with an error. *)
Inductive prog (S : Type) :=
| Done (s : S)
| Throw (e : err)
| Do (o : op) (k : out -> prog S)
| ForArray (s : S) (cb : S -> prog S) (k : S -> prog S)
| ForObject (s : S) (cb : S -> bytes -> prog S) (k : S -> prog S).
Arguments Done {S} _.
Arguments Throw {S} _.
Arguments Do {S} _ _.
Arguments ForArray {S} _ _ _.
Arguments ForObject {S} _ _ _.

(** iterator_array.go:56-91 and iterator_object.go:116-167 for the two loops *)
Fixpoint run {S} (p : prog S) : M S :=
  match p with
  | Done s => ret s
  | Throw e => fail e
  | Do o k => do a <- exec o; run (k a)
  | ForArray s cb k => do s' <- ReadArrayCB (fun x => run (cb x)) s; run (k s')
  | ForObject s cb k => do s' <- ReadObjectCB (fun x f => run (cb x f)) s; run (k s')
  end.

(** iterator_pool.go:15-26: New of the pool, with the flags set by
    decoder_config_adaptor.go:4-10; the stack comes from another pool and may hold anything *)
Definition newIter (useNumber disallow : bool) (p : stack) : iter :=
  mkIter None [] (repeat 0 64) (repeat 0 64) 0 false 0 0 useNumber disallow p.

(** errors_decoder.go:9-12, iterator.go:130-138: an error as the client sees it, with or without a
    location *)
Inductive werr := WPlain (e : err) | WDecode (reason : err) (location : bytes).
(** iterator.go:130-138; [None] would be a slice bound panic *)
Definition WrapError (e : werr) (it : iter) : option werr :=
  match e with
  | WDecode _ _ => Some e
  | WPlain r => match errorLocation it with None => None | Some l => Some (WDecode r l) end
  end.

(** decoder_config_adaptor.go:4-10 on an iterator taken from the pool *)
Definition reuse (useNumber disallow : bool) (p : stack) (it : iter) : iter :=
  mkIter (it_reader it) (it_buffer it) (it_fixbuf it) (it_tmp it) (it_tail it) (it_capture it)
         (it_offset it) (it_head it) useNumber disallow p.

(** Every state an iterator can get into: created, attached to inputs, used by any client
    (whether the calls succeed or fail), given back to the pool and taken again
    (iterator_pool.go:28-36). *)
Inductive reachable : iter -> Prop :=
| re_new u d p : reachable (newIter u d p)
| re_reset it : reachable it -> reachable (reset it)
| re_Reset r it : reachable it -> reachable (Reset r it)
| re_ResetBytes b it : reachable it -> reachable (ResetBytes b it)
| re_reuse u d p it : reachable it -> reachable (reuse u d p (reset it))
| re_run S (p : prog S) it : reachable it -> reachable (snd (run p it)).
End Ops.
Arguments Done {F32 F64 S} _.
Arguments Throw {F32 F64 S} _.
Arguments Do {F32 F64 S} _ _.
Arguments ForArray {F32 F64 S} _ _ _.
Arguments ForObject {F32 F64 S} _ _ _.
Arguments run {F32 F64 S} _ _.
Arguments RUnit {F32 F64}.
Arguments RBool {F32 F64} _.
Arguments RInt {F32 F64} _.
Arguments RBytes {F32 F64} _.
Arguments RF32 {F32 F64} _.
Arguments RF64 {F32 F64} _.
Arguments RVal {F32 F64} _.
Arguments RType {F32 F64} _.
Arguments RKey {F32 F64} _.
