(** The pools of iterators and streamers that all users of the library share.  Code: iterator_pool.go, streamer_pool.go,
    decoder_config_adaptor.go, encoder_config_adaptor.go, the Release methods in iterator.go, streamer.go, decoder.go and
    encoder.go, and the functions of decoder_config.go, encoder_config.go and standard_like.go that take an object from
    a pool and give it back.

    Any number of users (goroutines, Decoders, Encoders, calls of Unmarshal) take steps in any order.  Each has a
    variable for the iterator or streamer that it took.  One step is a call of a method on this object. *)
From Coq Require Import String ZArith List Bool.
From Verif Require Import Base ModelIter ModelStack ModelSkip ModelFloat ModelOps ModelVal ModelDecoder ModelStream ModelEnc.
Import ListNotations.
Local Open Scope Z_scope.

(** ** A pool of objects *)

Section Pool.
(** iterators or streamers, the configurations, the state of other pools, what a user keeps beside the pointer to the
    object, the calls and their results *)
Variables Obj Cfg Env Loc Work Out : Type.
(** the function New of the sync.Pool (iterator_pool.go:18-23, streamer_pool.go:18-22) *)
Variable fresh : Obj.
(** what NewIterator and NewStreamer do to the object (decoder_config_adaptor.go:6-8, encoder_config_adaptor.go:6-7) *)
Variable prepare : Cfg -> Env -> Obj -> Obj.
(** the reset when the object is given back (iterator_pool.go:34, streamer_pool.go:33) *)
Variable clean : Obj -> Obj.
(** the state of a user who took the object with a configuration *)
Variable opening : Cfg -> Loc.
Variable work : Work -> Loc -> Obj -> Out * Loc * Obj.

(** [AGet]: NewIterator or NewStreamer, whose result is assigned to the user's variable; the sync.Pool returns any
    object it has, or a new one.  [APut]: Release; Decoder.Release and Encoder.Release set the pointer to nil afterwards
    (decoder.go:17-20, encoder.go:12-15), and so forget the object. *)
Inductive act :=
| AGet (c : Cfg) (pick : nat) (e : Env)
| AWork (w : Work)
| APut (forget : bool).
Inductive result := RDone | ROut (o : Out) | RPanic.

(** all objects ever made, the ones in the sync.Pool, and the variables of the users (nil is [None]) *)
Record world := mkWorld {
  w_objs : list Obj;
  w_free : list nat;
  w_ref : nat -> option (nat * Loc)
}.
(** iterator_pool.go:9, streamer_pool.go:8: at first the pool is empty *)
Definition world0 : world := mkWorld [] [] (fun _ => None).

(** assignment to a variable *)
Definition setRef (k : nat) (x : option (nat * Loc)) (r : nat -> option (nat * Loc)) : nat -> option (nat * Loc) :=
  fun j => if (j =? k)%nat then x else r j.
(** assignment to an object *)
Fixpoint setObj (a : nat) (x : Obj) (l : list Obj) : list Obj :=
  match l, a with
  | [], _ => []
  | _ :: r, O => x :: r
  | y :: r, S n => y :: setObj n x r
  end.
(** the list without its [i]-th element *)
Fixpoint dropNth (i : nat) (l : list nat) : list nat :=
  match l, i with
  | [], _ => []
  | _ :: r, O => r
  | y :: r, S n => y :: dropNth n r
  end.

(** decoder_config_adaptor.go:4-10, encoder_config_adaptor.go:4-9 *)
Definition get (k : nat) (c : Cfg) (pick : nat) (e : Env) (w : world) : result * world :=
  match nth_error (w_free w) pick with
  | Some a =>
      match nth_error (w_objs w) a with
      | Some x => (RDone, mkWorld (setObj a (prepare c e x) (w_objs w)) (dropNth pick (w_free w)) (setRef k (Some (a, opening c)) (w_ref w)))
      | None => (RPanic, w)
      end
  | None =>
      (RDone, mkWorld (w_objs w ++ [prepare c e fresh]) (w_free w) (setRef k (Some (length (w_objs w), opening c)) (w_ref w)))
  end.
(** a call of a method; a nil pointer panics *)
Definition use (k : nat) (v : Work) (w : world) : result * world :=
  match w_ref w k with
  | Some (a, l) =>
      match nth_error (w_objs w) a with
      | Some x => let '(o, l', x') := work v l x in
                  (ROut o, mkWorld (setObj a x' (w_objs w)) (w_free w) (setRef k (Some (a, l')) (w_ref w)))
      | None => (RPanic, w)
      end
  | None => (RPanic, w)
  end.
(** iterator.go:59-61, streamer.go:34-36, decoder_config_adaptor.go:12-15, encoder_config_adaptor.go:11-14.  A second
    Release of an Iterator finds it.cfg = nil; returnIterator does not use its receiver, so that the iterator is put
    into the pool again. *)
Definition put (k : nat) (forget : bool) (w : world) : result * world :=
  match w_ref w k with
  | Some (a, l) =>
      match nth_error (w_objs w) a with
      | Some x => (RDone, mkWorld (setObj a (clean x) (w_objs w)) (a :: w_free w)
                            (setRef k (if forget then None else Some (a, l)) (w_ref w)))
      | None => (RPanic, w)
      end
  | None => (RPanic, w)
  end.
(** one step of user [k] *)
Definition step (k : nat) (x : act) (w : world) : result * world :=
  match x with AGet c pick e => get k c pick e w | AWork v => use k v w | APut forget => put k forget w end.

(** A step of a user, or the garbage collector empties the sync.Pool in part *)
Inductive event := Step (k : nat) (x : act) | GC (i : nat).
(** the results, with the users that got them, and the state at the end *)
Fixpoint history (h : list event) (w : world) : list (nat * result) * world :=
  match h with
  | [] => ([], w)
  | Step k x :: r => let '(o, w1) := step k x w in let '(os, w2) := history r w1 in ((k, o) :: os, w2)
  | GC i :: r => history r (mkWorld (w_objs w) (dropNth i (w_free w)) (w_ref w))
  end.
End Pool.
Arguments AGet {Cfg Env Work} c pick e.
Arguments AWork {Cfg Env Work} w.
Arguments APut {Cfg Env Work} forget.
Arguments RDone {Out}.
Arguments ROut {Out} o.
Arguments RPanic {Out}.
Arguments Step {Cfg Env Work} k x.
Arguments GC {Cfg Env Work} i.
Arguments world0 {Obj Loc}.

(** ** Iterators *)

Section Iterators.
Variables F32 F64 : floatOps.
Variable C : custom.
Variable E : env F32 F64 C.
Variable sf : Z -> Z.
Variable cs : bool.
Variable fuel : nat.
Notation gval := (gval F32 F64 C).

(** the fields of a DecoderConfig that NewIterator copies (decoder_config_adaptor.go:7-8) *)
Record icfg := mkIcfg { ic_useNumber : bool; ic_disallow : bool }.
(** iterator_pool.go:18-23 *)
Definition freshIter : iter := newIter false false (mkStack [] 0).
(** decoder_config_adaptor.go:4-10; [p] is what the stack pool will return *)
Definition prepareIter (c : icfg) (p : stack) (it : iter) : iter := reuse (ic_useNumber c) (ic_disallow c) p it.

(** An Iterator, or a Decoder with its field err (decoder.go:11-14) *)
Inductive iloc := LIter | LDecoder (e : option err).
(** Calls on an Iterator: Unmarshal, Valid, UnmarshalFromReader (iterator.go:264-284), and Reset followed by
    any use of the reading methods.  [IAttach]: Reset and the construction of a Decoder (decoder_config.go:108-114).  The others
    are the methods of a Decoder (decoder.go:24-70). *)
Inductive iwork :=
| IUnmarshal (t : ty) (old : gval) (data : bytes)
| IUnmarshalFromReader (t : ty) (old : gval) (r : reader)
| IValid (data : bytes)
| IRun (s : source) (p : prog F32 F64 (list (out F32 F64)))
| IAttach (s : source)
| IUseNumber
| IDisallow
| IDecode (t : ty) (old : gval)
| IMore
| IOffset.
(** [OOther]: not a call of the code (a method of Decoder on an Iterator or the reverse), or not modelled (InputOffset
    after an error).  The location in the text of an error is not part of the result. *)
Inductive iout :=
| OVal (r : res gval)
| OBool (b : bool)
| ORun (r : res (list (out F32 F64)))
| ONat (n : nat)
| ONone
| OOther.

(** the methods on the iterator [it] *)
Definition iterWork (w : iwork) (l : iloc) (it : iter) : iout * iloc * iter :=
  match l, w with
  | LIter, IUnmarshal t old data => let '(r, it') := Unmarshal F32 F64 C E sf cs fuel t old data it in (OVal r, LIter, it')
  | LIter, IUnmarshalFromReader t old r => let '(r, it') := UnmarshalFromReader F32 F64 C E sf cs fuel t old r it in (OVal r, LIter, it')
  | LIter, IValid data => let '(b, it') := Valid data it in (OBool b, LIter, it')
  | LIter, IRun s p => let '(r, it') := run p (ResetFrom s it) in (ORun r, LIter, it')
  | LIter, IAttach s => let dc := NewDecoder s it in (ONone, LDecoder (de_err dc), de_it dc)
  | LDecoder e, IUseNumber => let dc := UseNumber (mkDecoderS it e) in (ONone, LDecoder (de_err dc), de_it dc)
  | LDecoder e, IDisallow => let dc := DisallowUnknownFields (mkDecoderS it e) in (ONone, LDecoder (de_err dc), de_it dc)
  | LDecoder e, IDecode t old =>
      let '(r, dc) := Decode F32 F64 C E sf cs fuel t old (mkDecoderS it e) in (OVal r, LDecoder (de_err dc), de_it dc)
  | LDecoder e, IMore => let '(b, dc) := More (mkDecoderS it e) in (OBool b, LDecoder (de_err dc), de_it dc)
  | LDecoder None, IOffset => (ONat (DecoderOffset (mkDecoderS it None)), LDecoder None, it)
  | _, _ => (OOther, l, it)
  end.

Notation act := (act icfg stack iwork).
(** decoder_config.go:77-85; UnmarshalFromString (decoder_config.go:88-90, standard_like.go:11-13) with the bytes of the
    string; WrapError does not change the iterator *)
Definition callUnmarshal (c : icfg) (i : nat) (p : stack) (t : ty) (old : gval) (data : bytes) : list act :=
  [AGet c i p; AWork (IUnmarshal t old data); APut false].
(** decoder_config.go:93-101, standard_like.go:6-8 *)
Definition callUnmarshalFromReader (c : icfg) (i : nat) (p : stack) (t : ty) (old : gval) (r : reader) : list act :=
  [AGet c i p; AWork (IUnmarshalFromReader t old r); APut false].
(** standard_compatible.go:19-24 *)
Definition callValid (c : icfg) (i : nat) (p : stack) (data : bytes) : list act :=
  [AGet c i p; AWork (IValid data); APut false].
(** decoder_config.go:108-114 *)
Definition callNewDecoder (c : icfg) (i : nat) (p : stack) (s : source) : list act :=
  [AGet c i p; AWork (IAttach s)].
(** decoder.go:17-20 *)
Definition callDecoderRelease : list act := [APut true].
End Iterators.
Arguments IUnmarshal {F32 F64 C}.
Arguments IUnmarshalFromReader {F32 F64 C}.
Arguments IValid {F32 F64 C}.
Arguments IRun {F32 F64 C}.
Arguments IAttach {F32 F64 C}.
Arguments IUseNumber {F32 F64 C}.
Arguments IDisallow {F32 F64 C}.
Arguments IDecode {F32 F64 C}.
Arguments IMore {F32 F64 C}.
Arguments IOffset {F32 F64 C}.
Arguments OVal {F32 F64 C}.
Arguments OBool {F32 F64 C}.
Arguments ORun {F32 F64 C}.
Arguments ONat {F32 F64 C}.
Arguments ONone {F32 F64 C}.
Arguments OOther {F32 F64 C}.

(** ** Streamers *)

Section Streamers.
Variables F32 F64 : floatOps.
Variable C : custom.
Variable E : env F32 F64 C.
Variable U : marshalers F32 F64 C.
Variables G32 G64 : floatFmt.
Variable e32 : fl F32 -> ff G32.
Variable e64 : fl F64 -> ff G64.
Variable fuel : nat.
Notation gval := (gval F32 F64 C).
Notation Value := (Value F32 F64 C E U G32 G64 e32 e64).

(** streamer_pool.go:18-22; the fields escapeHTML and safeSet are not set there *)
Definition freshStm : stm := newStm false.
(** encoder_config_adaptor.go:4-9 *)
Definition prepareStm (html : bool) (_ : unit) (s : stm) : stm := mkStm (sm_writer s) (sm_buffer s) (sm_error s) (sm_poped s) html.

(** A Streamer, or an Encoder with its field err (encoder.go:6-9); [html] is escapeHTML of the configuration (the field
    cfg of the streamer), which quoted strings use *)
Inductive sloc := LStream (html : bool) | LEncoder (html : bool) (e : option serr).
(** [SMarshal]: Value and the copy of the buffer in Marshal (encoder_config.go:88-98).  [SCalls] and [SFlush] are methods of a
    Streamer, [SAttach] its Reset; [SNewEncoder] is Reset and the construction of an Encoder (encoder_config.go:102-108);
    [SEscape] is EscapeHTML of a Streamer (streamer.go:53-60) or SetEscapeHTML of an Encoder (encoder.go:45-47); [SEncode] is
    Encode (encoder.go:31-36). *)
Inductive swork :=
| SMarshal (o : option (ty * gval))
| SCalls (cs : list (scall G32 G64))
| SFlush
| SAttach (w : writer)
| SNewEncoder (w : writer)
| SEscape (on : bool)
| SEncode (o : option (ty * gval)).
(** what the user sees: the result of Marshal, an error, the state of the writer that is attached; [PBad]: not a call of the code *)
Inductive sout :=
| PMarshal (r : mres)
| PState (e : option serr) (w : option writer)
| PPanic
| PBad.

(** the methods on the streamer [s]; the state that a panic leaves behind is not modelled: the streamer is unchanged *)
Definition stmWork (w : swork) (l : sloc) (s : stm) : sout * sloc * stm :=
  match l, w with
  | LStream html, SMarshal o =>
      match Value html fuel o s with
      | SOk s' => (PMarshal (match sm_error s' with Some e => MErr e | None => MOk (sm_buffer s') end), l, s')
      | SPanic => (PMarshal MPanic, l, s)
      | SBad => (PMarshal MBad, l, s)
      end
  | LStream _, SCalls cs =>
      match calls cs s with
      | Some s' => (PState (sm_error s') (sm_writer s'), l, s')
      | None => (PPanic, l, s)
      end
  | LStream _, SFlush => let '(e, s') := Flush s in (PState e (sm_writer s'), l, s')
  | LStream _, SAttach w => (PState None (Some w), l, sm_Reset w s)
  | LStream html, SNewEncoder w => (PState None (Some w), LEncoder html None, sm_Reset w s)
  | _, SEscape on => (PState None (sm_writer s), l, mkStm (sm_writer s) (sm_buffer s) (sm_error s) (sm_poped s) on)
  | LEncoder html e, SEncode o =>
      match Encode (fun s => match Value html fuel o s with SOk s' => Some s' | _ => None end) (mkEncoder s e) with
      | Some (r, en) => (PState r (sm_writer (en_s en)), LEncoder html (en_err en), en_s en)
      | None => (PPanic, LEncoder html e, s)
      end
  | _, _ => (PBad, l, s)
  end.

Notation act := (act bool unit swork).
(** encoder_config.go:85-99; Release is deferred, so that it also happens after a panic *)
Definition callMarshal (html : bool) (i : nat) (o : option (ty * gval)) : list act :=
  [AGet html i tt; AWork (SMarshal o); APut false].
(** encoder_config.go:102-108 *)
Definition callNewEncoder (html : bool) (i : nat) (w : writer) : list act := [AGet html i tt; AWork (SNewEncoder w)].
(** encoder.go:12-15 *)
Definition callEncoderRelease : list act := [APut true].
End Streamers.
Arguments SMarshal {F32 F64 C G32 G64}.
Arguments SCalls {F32 F64 C G32 G64}.
Arguments SFlush {F32 F64 C G32 G64}.
Arguments SAttach {F32 F64 C G32 G64}.
Arguments SNewEncoder {F32 F64 C G32 G64}.
Arguments SEscape {F32 F64 C G32 G64}.
Arguments SEncode {F32 F64 C G32 G64}.
