(** Decoding through pointers and interfaces.  Code: val_decoder_native_interface.go, val_decoder_native_ptr.go,
    iterator_val.go.

    ModelVal.v treats values as trees.  Here variables have addresses, so that pointers can form cycles.  The
    decoders of other variables (structs, maps, numbers, ...) are an argument. *)
From Coq Require Import String ZArith List Bool.
From Verif Require Import Base ModelIter ModelSkip ModelFloat ModelRead.
Import ListNotations.
Local Open Scope Z_scope.

(** What an interface{} holds: nil, a pointer to the variable at an address, a value that Read has made, something else
    (a nil pointer, another value that is no pointer). *)
Inductive held {V : Type} :=
| HNil
| HPtr (b : Z)
| HVal (v : V)
| HOther.
Arguments held : clear implicits.
(** A variable: an interface{}; a pointer variable of a given type; another variable. *)
Inductive cell {V : Type} :=
| CEface (x : held V)
| CPtr (t : nat) (x : option Z)
| COther.
Arguments cell : clear implicits.
(** the memory, the iterator (iterator.go:24-25: lastEfaceOffset, lastEfacePtr), and the first address not in use *)
Record estate {V : Type} := mkE { e_heap : Z -> cell V; e_it : iter; e_ptr : Z; e_off : nat; e_new : Z }.
Arguments estate : clear implicits.
Arguments mkE {V}.
Section Actions.
Context {V : Type}.
(** actions on this state *)
Definition EM (A : Type) := estate V -> res A * estate V.
(** sequencing *)
Definition ebind {A B} (m : EM A) (f : A -> EM B) : EM B := fun s =>
  match m s with
  | (Ok a, s') => f a s'
  | (Err e, s') => (Err e, s')
  | (Panic, s') => (Panic, s')
  | (OutOfFuel, s') => (OutOfFuel, s')
  end.
(** an action of the iterator *)
Definition onIter {A} (m : M A) : EM A := fun s =>
  let '(r, it) := m (e_it s) in (r, mkE (e_heap s) it (e_ptr s) (e_off s) (e_new s)).
(** an assignment to a variable *)
Definition store (a : Z) (c : cell V) : EM unit := fun s =>
  (Ok tt, mkE (fun b => if b =? a then c else e_heap s b) (e_it s) (e_ptr s) (e_off s) (e_new s)).
(** a new variable *)
Definition allocate (c : cell V) : EM Z := fun s =>
  (Ok (e_new s), mkE (fun b => if b =? e_new s then c else e_heap s b) (e_it s) (e_ptr s) (e_off s) (e_new s + 1)).
(** the contents of a variable *)
Definition load (a : Z) : EM (cell V) := fun s => (Ok (e_heap s a), s).
(** val_decoder_native_interface.go:16-29 *)
Definition checkLoop (a : Z) : EM bool := fun s =>
  let cur := InputOffset (e_it s) in
  if (e_ptr s =? 0) || negb (cur =? e_off s)%nat then (Ok true, mkE (e_heap s) (e_it s) a cur (e_new s))
  else (Ok (negb (a =? e_ptr s)), s).
(** nextToken has seen an n *)
Definition expectNull : EM unit := ebind (onIter incHead) (fun _ => onIter (expectBytes (bs "ull"))).
End Actions.
Arguments EM : clear implicits.

(** errors_decoder.go:34-40 *)
Definition ErrEfaceLooping : err := EOther 8.

Section Eface.
Variable F : floatOps.
Notation V := (gval F).
Notation EM := (EM V).
(** the value of a new variable of the element type of a pointer type *)
Variable elem : nat -> cell V.
(** the decoders of other variables *)
Variable other : Z -> EM unit.

(** an assignment to the interface (val_decoder_native_interface.go:52, 68); it.Read gives nil for null *)
Definition hold (v : V) : held V := match v with GNil => HNil | v => HVal v end.
(** val_decoder_native_interface.go:31-112; [rec] is ReadVal *)
Definition efaceAt (rec : Z -> EM unit) (a : Z) (x : held V) : EM unit :=
  ebind (checkLoop a) (fun ok : bool =>
  if ok then
    match x with
    | HPtr b =>
        ebind (onIter nextToken) (fun c =>
        if c =? c_n then
          ebind expectNull (fun _ =>
          ebind (load b) (fun cb =>
          match cb with
          | CPtr t _ => ebind (allocate (CPtr t None)) (fun p => store a (CEface (HPtr p)))
          | _ => store a (CEface HNil)
          end))
        else ebind (rec b) (fun _ => store a (CEface (HPtr b))))
    | _ => ebind (onIter (Read F)) (fun v => store a (CEface (hold v)))
    end
  else (fun s => (Err ErrEfaceLooping, s))).
(** val_decoder_native_ptr.go:32-59; [rec] is the element decoder *)
Definition pointerAt (rec : Z -> EM unit) (a : Z) (t : nat) (x : option Z) : EM unit :=
  ebind (onIter nextToken) (fun c =>
  if c =? c_n then ebind expectNull (fun _ => store a (CPtr t None))
  else
    match x with
    | Some b => rec b
    | None => ebind (allocate (elem t)) (fun b => ebind (rec b) (fun _ => store a (CPtr t (Some b))))
    end).
(** the decoder of the variable at an address; the fuel bounds the depth of the recursion *)
Fixpoint decodeAt (fuel : nat) (a : Z) : EM unit :=
  match fuel with
  | O => fun s => (OutOfFuel, s)
  | S f =>
      ebind (load a) (fun c =>
      match c with
      | CEface x => efaceAt (decodeAt f) a x
      | CPtr t x => pointerAt (decodeAt f) a t x
      | COther => other a
      end)
  end.
(** iterator.go:248-261 without the check for remaining data: Unmarshal into the variable at [a] (iterator.go:97-104
    clears lastEfaceOffset and lastEfacePtr) *)
Definition unmarshalAt (fuel : nat) (a : Z) (data : bytes) (s : estate V) : res unit * estate V :=
  decodeAt fuel a (mkE (e_heap s) (ResetBytes data (e_it s)) 0 O (e_new s)).
End Eface.
