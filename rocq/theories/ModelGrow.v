(** Growing of slices while decoding.  Code: link_reflect.go. *)
From Coq Require Import ZArith List Bool Arith.
Import ListNotations.

Section Grow.
Context {A : Type}.
Variable zero : A.

(** eface.go:29 sliceHeader = reflect.SliceHeader: the array a slice header points to, whose
    length is Cap, and Len *)
Record slice := mkSlice { sl_data : list A; sl_len : nat }.
(** Cap of a header *)
Definition sl_cap (s : slice) : nat := length (sl_data s).

(** link_reflect.go:66-72; unsafe_NewArray returns zeroed memory *)
Definition unsafeMakeSlice (length cap : nat) : slice := mkSlice (repeat zero cap) length.

(** link_reflect.go:95-101: the loop [for newCap < newLength].  Capacities are natural numbers, so the
    overflow of int is not modelled.  [newLength] is enough fuel, see GrowFacts.v. *)
Fixpoint growCap (fuel newCap newLength : nat) : nat :=
  match fuel with
  | O => newCap
  | S f =>
      if newCap <? newLength then
        if newCap <? 1024 then growCap f (2 * newCap) newLength
        else growCap f (newCap + newCap / 4) newLength
      else newCap
  end.

(** runtime typedslicecopy(dst, src): copies the first min(dst.Len, src.Len) elements *)
Definition typedslicecopy (dst src : slice) : slice :=
  let n := Nat.min (sl_len dst) (sl_len src) in
  mkSlice (firstn n (sl_data src) ++ skipn n (sl_data dst)) (sl_len dst).

(** link_reflect.go:85-106 *)
Definition unsafeGrowSlice (sh : slice) (newLength : nat) : slice :=
  if newLength <? sl_cap sh then mkSlice (sl_data sh) newLength
  else
    let newCap := if sl_cap sh =? 0 then newLength else growCap newLength (sl_cap sh) newLength in
    let newHeader := unsafeMakeSlice newLength newCap in
    typedslicecopy newHeader sh.

(** link_reflect.go:108-111 followed by a read through the pointer; [None] if out of bounds *)
Definition childGet (sh : slice) (index : nat) : option A := nth_error (sl_data sh) index.
(** link_reflect.go:108-111 followed by a write through the pointer *)
Definition childSet (sh : slice) (index : nat) (v : A) : slice :=
  mkSlice (firstn index (sl_data sh) ++ match skipn index (sl_data sh) with [] => [] | _ :: r => v :: r end) (sl_len sh).
End Grow.
Arguments slice : clear implicits.
