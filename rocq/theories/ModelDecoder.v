(** The Decoder, which reads values from a stream.  Code: decoder.go, decoder_config.go:108-114. *)
From Coq Require Import String ZArith List Bool.
From Verif Require Import Base ModelIter ModelFloat ModelOps ModelVal.
Import ListNotations.
Local Open Scope Z_scope.

(** decoder.go:11-14 *)
Record decoderS := mkDecoderS { de_it : iter; de_err : option err }.

(** decoder_config.go:108-114: [it] is the iterator taken from the pool; a nil reader and a *bytes.Buffer
    are special cases of Reset (iterator.go:79-94) *)
Inductive source := SReader (r : reader) | SBytes (data : bytes) | SNil.
(** iterator.go:79-94 *)
Definition ResetFrom (s : source) (it : iter) : iter :=
  match s with SReader r => Reset r it | SBytes data => ResetBytes data it | SNil => reset it end.
(** decoder_config.go:108-114 *)
Definition NewDecoder (s : source) (it : iter) : decoderS := mkDecoderS (ResetFrom s it) None.

(** decoder.go:24-26 *)
Definition UseNumber (dc : decoderS) : decoderS :=
  let it := de_it dc in
  mkDecoderS (mkIter (it_reader it) (it_buffer it) (it_fixbuf it) (it_tmp it) (it_tail it) (it_capture it)
                (it_offset it) (it_head it) true (it_disallow it) (it_pool it)) (de_err dc).
(** decoder.go:31-33 *)
Definition DisallowUnknownFields (dc : decoderS) : decoderS :=
  let it := de_it dc in
  mkDecoderS (mkIter (it_reader it) (it_buffer it) (it_fixbuf it) (it_tmp it) (it_tail it) (it_capture it)
                (it_offset it) (it_head it) (it_useNumber it) true (it_pool it)) (de_err dc).

Section Decoder.
Variables F32 F64 : floatOps.
Variable C : custom.
Variable E : env F32 F64 C.
Variable sf : Z -> Z.
Variable cs : bool.
Notation gval := (gval F32 F64 C).

(** decoder.go:37-42; the argument points to a variable of type [t] that holds [old] *)
Definition Decode (fuel : nat) (t : ty) (old : gval) (dc : decoderS) : res gval * decoderS :=
  match de_err dc with
  | Some e => (Err e, dc)
  | None =>
      match ReadVal F32 F64 C E sf cs fuel t old (de_it dc) with
      | (Err e, it') => (Err e, mkDecoderS it' (Some e))
      | (r, it') => (r, mkDecoderS it' None)
      end
  end.
(** decoder.go:46-48: the unread part of the buffer *)
Definition Buffered (dc : decoderS) : option bytes := Buffer (de_it dc).
(** decoder.go:56-62 *)
Definition More (dc : decoderS) : bool * decoderS :=
  match de_err dc with
  | Some _ => (false, dc)
  | None =>
      match nextToken (de_it dc) with
      | (Ok _, it') => (true, mkDecoderS it' None)
      | (_, it') => (false, mkDecoderS it' None)
      end
  end.
(** decoder.go:68-70 *)
Definition DecoderOffset (dc : decoderS) : nat := InputOffset (de_it dc).

(** Calls of the methods of a Decoder and their results *)
Inductive dop := DDecode (t : ty) (old : gval) | DMore.
(** the results of decoder.go:37-42 and :56-62 *)
Inductive dout := RDecode (r : res gval) | RMore (b : bool).
(** a sequence of calls, with the nesting fuel of [decode] *)
Fixpoint drun (fuel : nat) (ops : list dop) (dc : decoderS) : list dout :=
  match ops with
  | [] => []
  | DDecode t old :: r => let '(x, dc') := Decode fuel t old dc in RDecode x :: drun fuel r dc'
  | DMore :: r => let '(x, dc') := More dc in RMore x :: drun fuel r dc'
  end.

(** Every state an iterator can get into, as [reachable], with calls of ReadVal *)
Inductive vreachable : iter -> Prop :=
| vr_reachable it : reachable F32 F64 it -> vreachable it
| vr_attach s it : vreachable it -> vreachable (ResetFrom s it)
| vr_reuse u d p it : vreachable it -> vreachable (reuse u d p (reset it))
| vr_run S (p : prog F32 F64 S) it : vreachable it -> vreachable (snd (run p it))
| vr_ReadVal n t old it : vreachable it -> vreachable (snd (ReadVal F32 F64 C E sf cs n t old it))
| vr_Unmarshal n t old it : vreachable it -> vreachable (snd (unmarshal F32 F64 C E sf cs n t old it)).
End Decoder.
Arguments DDecode {F32 F64 C}.
Arguments DMore {F32 F64 C}.
Arguments RDecode {F32 F64 C}.
Arguments RMore {F32 F64 C}.
