(** Specification of texts that are cut off and of texts that can not be continued. *)
From Coq Require Import String ZArith List Bool.
From Verif Require Import Base Spec.
Import ListNotations.

(** A value stands at the start of [l], after white space; the input ends with the error [f] behind [l]. *)
Definition starts (f : err) (l : bytes) : Prop :=
  exists w t j rest, l = w ++ t ++ rest /\ ws w /\ value t j /\ vends t j f rest.
(** Some bytes after [l] make a JSON text of it. *)
Definition extends (l : bytes) : Prop := exists s j, json_text (l ++ s) j.
(** [l] is cut off: it does not hold a value yet, but the beginning of one. *)
Definition cut (f : err) (l : bytes) : Prop := ~ starts f l /\ extends l.
(** The byte [c] after [u] is the first that no JSON text has at this place: [u] can be continued, but no value
    stands at the start of [u] followed by [c], whatever comes later. *)
Definition wrong (u : bytes) (c : Z) : Prop := cut EEOF u /\ forall s, ~ starts EEOF (u ++ c :: s).

(** The byte an error names as the reason. *)
Definition byteOf (e : err) : option Z :=
  match e with
  | EUnexpectedByte c _ _ | EInvalidDigit c | EInvalidFloat c | EInvalidStringChar c | EInvalidEscapeChar c | EInvalidUnicodeChar c => Some c
  | _ => None
  end.
(** The ends of an input: a clean end, or any failure of the reader. *)
Definition ending (f : err) : Prop := f = EEOF \/ exists n, f = EIO n.
(** What the result [x] of a call tells about the input [l] whose end is [f]: the error of the end, if and only if the text is cut
    off there; an error that names a byte, if and only if this is the first wrong byte; and no error, if and only if a value
    stands at the start. *)
Definition tells {A} (f : err) (l : bytes) (x : res A) : Prop :=
  (x = Err f <-> cut f l) /\
  (forall c, (exists e, x = Err e /\ byteOf e = Some c) <-> exists u r, l = u ++ c :: r /\ wrong u c) /\
  ((exists a, x = Ok a) <-> starts f l).
