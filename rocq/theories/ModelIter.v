(** Iterator core: refilling, peeking, token search.  Code: iterator.go. *)
From Coq Require Import ZArith List Bool Lia.
From Verif Require Import Base.
Import ListNotations.
Local Open Scope Z_scope.

(** iterator.go:10 *)
Definition bufferSize : nat := 512.

(** iterator.go:63-70 *)
Definition reset (it : iter) : iter :=
  mkIter None [] (it_fixbuf it) (it_tmp it) 0 false 0 0
         (it_useNumber it) (it_disallow it) (it_pool it).

(** iterator.go:79-94, case of a reader that is neither nil nor a *bytes.Buffer
    (those two cases are [reset] and [ResetBytes]). *)
Definition Reset (r : reader) (it : iter) : iter :=
  mkIter (Some r) (it_fixbuf it) (it_fixbuf it) (it_tmp it) 0 false 0 0
         (it_useNumber it) (it_disallow it) (it_pool it).

(** iterator.go:97-104 *)
Definition ResetBytes (data : bytes) (it : iter) : iter :=
  mkIter None data (it_fixbuf it) (it_tmp it) (length data) false 0 0
         (it_useNumber it) (it_disallow it) (it_pool it).

(** iterator.go:107-109 *)
Definition Buffer (it : iter) : option bytes := slice (it_buffer it) (it_head it) (it_tail it).

(** decoder.go:68-70 *)
Definition InputOffset (it : iter) : nat := (it_offset it + it_head it)%nat.

(** iterator.go:111 *)
Definition errWidth : nat := 20.

(** iterator.go:113-127 *)
Definition errorLocation (it : iter) : option bytes :=
  let h := if (errWidth <? it_head it)%nat then (it_head it - errWidth)%nat else O in
  let t := if (it_tail it - it_head it <? errWidth)%nat then it_tail it
           else (it_head it + errWidth)%nat in
  slice (it_buffer it) h t.

(** iterator.go:142-182, one iteration per unit of fuel; one Read call each.
    In capture mode the new bytes are appended behind buffer[:tail] and the grown slice
    becomes fixbuf; otherwise the buffer is overwritten from its start.
    Simplification: append does not leave spare capacity (fixbuf is exactly the new
    buffer).  The result [Panic] stands for buffer[:tail] out of range. *)
Fixpoint readMore_loop (fuel : nat) (it : iter) : res unit * iter :=
  match fuel with
  | O => (OutOfFuel, it)
  | S f =>
      match it_reader it with
      | None => (Err EEOF, it)
      | Some r =>
          let '(bs, e, r', it') :=
            if it_capture it then
              let '(bs, e, r') := rd_read bufferSize r in
              let buf := firstn (it_tail it) (it_buffer it) ++ bs in
              (bs, e, r',
               mkIter (Some r') buf buf (it_tmp it) (it_tail it + length bs) true
                      (it_offset it) (it_head it) (it_useNumber it) (it_disallow it) (it_pool it))
            else
              let '(bs, e, r') := rd_read (length (it_buffer it)) r in
              (bs, e, r',
               mkIter (Some r') (bs ++ skipn (length bs) (it_buffer it)) (it_fixbuf it)
                      (it_tmp it) (length bs) false (it_offset it + it_tail it) 0
                      (it_useNumber it) (it_disallow it) (it_pool it)) in
          if it_capture it && (length (it_buffer it) <? it_tail it)%nat then (Panic, it)
          else
            match e with
            | Some x =>
                if err_eqb_eof x && (0 <? length bs)%nat then (Ok tt, it') else (Err x, it')
            | None => if (0 <? length bs)%nat then (Ok tt, it') else readMore_loop f it'
            end
      end
  end.

(** iterator.go:142-182; each script entry of the reader allows one fruitless round. *)
Definition readMore : M unit := fun it =>
  let n := match it_reader it with None => O | Some r => length (rd_sched r) end in
  readMore_loop (S (S n)) it.

(** it.buffer[it.head] with the bounds check *)
Definition peekHead : M Z := fun it =>
  match nth_error (it_buffer it) (it_head it) with
  | Some c => (Ok c, it)
  | None => (Panic, it)
  end.

(** iterator.go:187-194 *)
Definition nextByte : M Z := fun it =>
  if (it_head it =? it_tail it)%nat then (readMore ;; peekHead) it
  else peekHead it.

(** The loop shape shared by the scanning functions:
<<
    for {
        i := it.head
        for ; i < it.tail; i++ { c := it.buffer[i]; BODY }
        AT_END; it.head = i
        if err := it.readMore(); err != nil { ON_ERR }
    }
>>
    The body sees the iterator, the index, the loop variables and the byte. *)
Inductive sres (S A : Type) :=
| SNext (s : S)                (* continue with i++ *)
| SStop (k : nat) (m : M A)    (* it.head = i + k, then the rest of the function *)
| SFail (e : err)              (* return the error, it.head unchanged *)
| SResume (m : M S).           (* it.head = i + 1; run m; continue with i = it.head *)
Arguments SNext {S A} _.
Arguments SStop {S A} _ _.
Arguments SFail {S A} _.
Arguments SResume {S A} _.

(** the outcome of the inner loop of a scan: the end of the buffer, or a step that leaves the loop *)
Inductive ires (S A : Type) :=
| IEnd (s : S)
| IExit (i : nat) (x : sres S A)
| IPanic.
Arguments IEnd {S A} _.
Arguments IExit {S A} _ _.
Arguments IPanic {S A}.

(** the inner loop, [n] = it.tail - i *)
Fixpoint scan_in {S A} (body : iter -> nat -> S -> Z -> sres S A)
         (it : iter) (n : nat) (i : nat) (s : S) : ires S A :=
  match n with
  | O => IEnd s
  | Datatypes.S n' =>
      match nth_error (it_buffer it) i with
      | None => IPanic
      | Some c =>
          match body it i s c with
          | SNext s' => scan_in body it n' (Datatypes.S i) s'
          | x => IExit i x
          end
      end
  end.

(** the outer loop *)
Fixpoint scan_loop {S A} (fuel : nat) (body : iter -> nat -> S -> Z -> sres S A)
         (atEnd : iter -> S -> option S) (onErr : S -> err -> M A) (s : S) (it : iter)
  : res A * iter :=
  match fuel with
  | O => (OutOfFuel, it)
  | Datatypes.S f =>
      match scan_in body it (it_tail it - it_head it) (it_head it) s with
      | IPanic => (Panic, it)
      | IExit i (SStop k m) => m (set_head (i + k) it)
      | IExit i (SFail e) => (Err e, it)
      | IExit i (SResume m) =>
          match m (set_head (Datatypes.S i) it) with
          | (Ok s', it') => scan_loop f body atEnd onErr s' it'
          | (Err e, it') => (Err e, it')
          | (Panic, it') => (Panic, it')
          | (OutOfFuel, it') => (OutOfFuel, it')
          end
      | IExit i (SNext _) => (Panic, it)
      | IEnd s' =>
          match atEnd it s' with
          | None => (Panic, it)
          | Some s'' =>
              match readMore (set_head (it_tail it) it) with
              | (Ok _, it') => scan_loop f body atEnd onErr s'' it'
              | (Err e, it') => onErr s'' e it'
              | (Panic, it') => (Panic, it')
              | (OutOfFuel, it') => (OutOfFuel, it')
              end
          end
      end
  end.

(** Fuel: every round either delivers bytes from the reader or consumes a byte. *)
Definition scan {S A} (body : iter -> nat -> S -> Z -> sres S A)
         (atEnd : iter -> S -> option S) (onErr : S -> err -> M A) (s : S) : M A :=
  fun it => scan_loop (Datatypes.S (left_total it + rd_left it)) body atEnd onErr s it.

(** nothing is done at the end of the buffer *)
Definition noEnd {S} (_ : iter) (s : S) : option S := Some s.

(** ON_ERR of functions for which the end of input is an error *)
Definition errReturn {S A} (_ : S) (e : err) : M A := fail e.

(** ON_ERR of number loops: EOF ends the number, other errors are returned *)
Definition eofReturn {S A} (f : S -> M A) (s : S) (e : err) : M A :=
  if err_eqb_eof e then f s else fail e.

(** value_type.go:6-25 *)
Inductive ValueType :=
| WhiteSpaceValue | InvalidValue | StringValue | NumberValue
| ObjectValue | ArrayValue | BoolValue | NullValue.

(** value_type.go:43-59 *)
Definition valueTypeMap (c : Z) : ValueType :=
  if (c =? 32) || (c =? 10) || (c =? 9) || (c =? 13) then WhiteSpaceValue
  else if c =? cQUOTE then StringValue
  else if (c =? cMINUS) || ((cZERO <=? c) && (c <=? cNINE)) then NumberValue
  else if c =? cLBRACE then ObjectValue
  else if c =? cLBRACK then ArrayValue
  else if (c =? c_t) || (c =? c_f) then BoolValue
  else if c =? c_n then NullValue
  else InvalidValue.

(** iterator.go:227 *)
Definition isWhiteSpaceValue (v : ValueType) : bool :=
  match v with WhiteSpaceValue => true | _ => false end.
(** iterator_number.go:27, iterator_skip_number.go:152, val_decoder_json_number.go:22, 44 *)
Definition isNumberValue (v : ValueType) : bool :=
  match v with NumberValue => true | _ => false end.

(** iterator.go:197-218; [s] must not be empty (the code indexes s[j]; the function is only
    called with literals).  The loop variable is the part of [s] still expected. *)
Definition expectBytes (s : bytes) : M unit :=
  scan (fun _ _ (j : bytes) c =>
          match j with
          | [] => SFail (EOther 0)
          | x :: j' =>
              if negb (c =? x) then SFail (EUnexpectedByte c x 0)
              else match j' with
                   | [] => SStop 1 (ret tt)
                   | _ => SNext j'
                   end
          end)
       noEnd errReturn s.

(** iterator.go:221-240 *)
Definition nextToken : M Z :=
  scan (fun _ _ (_ : unit) c =>
          if (c <=? cSPACE) && isWhiteSpaceValue (valueTypeMap c) then SNext tt
          else SStop 0 (ret c))
       noEnd errReturn tt.

(** iterator.go:243-246; on error the type is that of byte 0 *)
Definition NextValueType : M ValueType :=
  do v <- nextToken; ret (valueTypeMap v).
