(** Specification of bytes that arrive one by one, and of texts that are seen to be complete. *)
From Coq Require Import String ZArith List Bool.
From Verif Require Import Base Spec.
Import ListNotations.

(** [arrives r2 r d]: the next calls of Read on the reader [r] deliver the bytes [d], one per call however
    much is asked for, and leave the reader [r2]. *)
Inductive arrives (r2 : reader) : reader -> bytes -> Prop :=
| ar_none : arrives r2 r2 []
| ar_byte r c r' d : (forall k, (1 <= k)%nat -> rd_read k r = ([c], None, r')) -> arrives r2 r' d -> arrives r2 r (c :: d).

(** The text is complete, whatever comes after the bytes [rest] that follow it: the end of a number shows
    only in the byte after it. *)
Definition complete (t rest : bytes) : Prop :=
  number t -> exists c r, rest = c :: r /\ forall x, ~ number (t ++ c :: x).
