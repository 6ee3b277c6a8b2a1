(** Common definitions: bytes, errors, results, the reader and the iterator state.

    Modelled code: iterator.go, errors_decoder.go.  Bytes are integers ([Z]); lengths
    and positions are [nat]. *)
From Coq Require Import String Ascii ZArith List Bool Lia.
Import ListNotations.
Local Open Scope Z_scope.

(** a byte, 0 to 255 *)
Definition byte := Z.
(** a slice or string of bytes *)
Definition bytes := list Z.

(** Byte list of a literal; used for constants of the code and in examples only. *)
Definition bs (s : string) : bytes :=
  List.map (fun a => Z.of_N (N_of_ascii a)) (list_ascii_of_string s).

Notation cQUOTE := 34.      (* double quote *)
Notation cBSLASH := 92.     (* '\' *)
Notation cSLASH := 47.      (* '/' *)
Notation cLBRACE := 123.    (* '{' *)
Notation cRBRACE := 125.    (* '}' *)
Notation cLBRACK := 91.     (* '[' *)
Notation cRBRACK := 93.     (* ']' *)
Notation cCOMMA := 44.      (* ',' *)
Notation cCOLON := 58.      (* ':' *)
Notation cMINUS := 45.      (* '-' *)
Notation cPLUS := 43.       (* '+' *)
Notation cDOT := 46.        (* '.' *)
Notation cZERO := 48.       (* '0' *)
Notation cNINE := 57.       (* '9' *)
Notation cSPACE := 32.      (* ' ' *)
Notation c_b := 98.
Notation c_e := 101.
Notation c_E := 69.
Notation c_f := 102.
Notation c_n := 110.
Notation c_r := 114.
Notation c_t := 116.
Notation c_u := 117.

(** Errors.  errors_decoder.go (whole file), io.EOF, and reader errors.
    Simplification: IntOverflowError carries no text; the strconv error is opaque. *)
Inductive err :=
| EEOF                                  (* io.EOF *)
| EIO (n : Z)                           (* any other error of the reader *)
| EUnexpectedByte (got exp exp2 : Z)    (* errors_decoder.go: UnexpectedByteError *)
| EInvalidDigit (c : Z)                 (* InvalidDigitError *)
| EInvalidFloat (c : Z)                 (* InvalidFloatError *)
| EInvalidStringChar (c : Z)            (* InvalidStringCharError *)
| EInvalidEscapeChar (c : Z)            (* InvalidEscapeCharError *)
| EInvalidUnicodeChar (c : Z)           (* InvalidUnicodeCharError *)
| EIntOverflow                          (* IntOverflowError *)
| EParseFloat (n : Z)                   (* error returned by strconv.ParseFloat *)
| EDataRemained                         (* ErrDataRemained *)
| EUnknownField (name : bytes)          (* UnknownFieldError *)
| EOther (n : Z).                       (* errors of user code and type errors *)

(** err == io.EOF (iterator.go:170) *)
Definition err_eqb_eof (e : err) : bool := match e with EEOF => true | _ => false end.

(** Results: a value, a returned Go error, a run-time panic, or exhausted fuel. *)
Inductive res (A : Type) :=
| Ok (a : A)
| Err (e : err)
| Panic
| OutOfFuel.
Arguments Ok {A} _.
Arguments Err {A} _.
Arguments Panic {A}.
Arguments OutOfFuel {A}.

(** An io.Reader: the bytes not yet delivered, what each of the next Read calls does,
    and the error it finally returns (again and again).  An entry [(w, eager)] of the
    script makes one call return at most [w] bytes ([w = 0] is a (0, nil) return); with
    [eager] the final error is returned together with the last bytes.  After the script
    every call returns as many bytes as fit.
    Simplification: a reader never delivers data again after it returned its error. *)
Record reader := mkReader {
  rd_data : bytes;
  rd_sched : list (nat * bool);
  rd_fin : err
}.

(** One call Read(p) with len(p) = k: the bytes delivered and the error. *)
Definition rd_read (k : nat) (r : reader) : bytes * option err * reader :=
  match rd_sched r with
  | [] =>
      (firstn k (rd_data r),
       match rd_data r with [] => Some (rd_fin r) | _ => None end,
       mkReader (skipn k (rd_data r)) [] (rd_fin r))
  | (w, eager) :: sc =>
      let n := Nat.min w k in
      (firstn n (rd_data r),
       match w with
       | O => None
       | _ =>
           match rd_data r with
           | [] => Some (rd_fin r)
           | _ => match skipn n (rd_data r) with
                  | [] => if eager then Some (rd_fin r) else None
                  | _ => None
                  end
           end
       end,
       mkReader (skipn n (rd_data r)) sc (rd_fin r))
  end.

(** stack.go:29-32 *)
Record stack := mkStack {
  stk_words : list Z;    (* stack []uint64 *)
  stk_depth : nat        (* depth uint *)
}.

(** iterator.go:13-51 (Iterator and iteratorEmbedded).
    [it_fixbuf] is fixbuf[:cap(fixbuf)].  [it_pool] is the stack that stackPool.Get would
    return next.  The fields cfg and Context are not modelled; the eface checkpoint is
    modelled separately in ModelEface.v. *)
Record iter := mkIter {
  it_reader : option reader;
  it_buffer : bytes;
  it_fixbuf : bytes;
  it_tmp : bytes;
  it_tail : nat;
  it_capture : bool;
  it_offset : nat;
  it_head : nat;
  it_useNumber : bool;
  it_disallow : bool;
  it_pool : stack
}.

(** it.head = h *)
Definition set_head (h : nat) (it : iter) : iter :=
  mkIter (it_reader it) (it_buffer it) (it_fixbuf it) (it_tmp it) (it_tail it)
         (it_capture it) (it_offset it) h (it_useNumber it) (it_disallow it) (it_pool it).
(** it.capture = b *)
Definition set_capture (b : bool) (it : iter) : iter :=
  mkIter (it_reader it) (it_buffer it) (it_fixbuf it) (it_tmp it) (it_tail it)
         b (it_offset it) (it_head it) (it_useNumber it) (it_disallow it) (it_pool it).
(** it.tmpBuffer = t *)
Definition set_tmp (t : bytes) (it : iter) : iter :=
  mkIter (it_reader it) (it_buffer it) (it_fixbuf it) t (it_tail it)
         (it_capture it) (it_offset it) (it_head it) (it_useNumber it) (it_disallow it) (it_pool it).
(** the stack in the pool (stack.go:7-15) *)
Definition set_pool (s : stack) (it : iter) : iter :=
  mkIter (it_reader it) (it_buffer it) (it_fixbuf it) (it_tmp it) (it_tail it)
         (it_capture it) (it_offset it) (it_head it) (it_useNumber it) (it_disallow it) s.

(** The Go slice expression l[a:b]; [None] is the bounds panic.
    Simplification: the upper bound is checked against the length, which is stricter
    than Go's check against the capacity. *)
Definition slice (l : bytes) (a b : nat) : option bytes :=
  if (a <=? b)%nat && (b <=? length l)%nat then Some (firstn (b - a) (skipn a l)) else None.

(** State-passing actions on an iterator. *)
Definition M (A : Type) := iter -> res A * iter.
(** return a, nil *)
Definition ret {A} (a : A) : M A := fun it => (Ok a, it).
(** return err *)
Definition fail {A} (e : err) : M A := fun it => (Err e, it).
(** the next statement, unless an error is returned *)
Definition bind {A B} (m : M A) (f : A -> M B) : M B :=
  fun it => match m it with
            | (Ok a, it') => f a it'
            | (Err e, it') => (Err e, it')
            | (Panic, it') => (Panic, it')
            | (OutOfFuel, it') => (OutOfFuel, it')
            end.
Notation "'do' x <- m ; f" := (bind m (fun x => f))
  (at level 200, x name, m at level 100, f at level 200).
Notation "m ;; f" := (bind m (fun _ => f)) (at level 199, right associativity).

(** it.head++ *)
Definition incHead : M unit := fun it => (Ok tt, set_head (S (it_head it)) it).

(** Bytes that are still to come, as counted by the loops below. *)
Definition rd_left (it : iter) : nat :=
  match it_reader it with None => O | Some r => length (rd_data r) end.
(** the bytes that are left in the buffer and in the reader *)
Definition left_total (it : iter) : nat := ((it_tail it - it_head it) + rd_left it)%nat.
