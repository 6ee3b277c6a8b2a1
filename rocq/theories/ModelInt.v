(** Reading integers.  Code: iterator_int.go, iterator_int8.go, iterator_int16.go,
    iterator_int32.go, iterator_int64.go. *)
From Coq Require Import ZArith List Bool Lia.
From Verif Require Import Base ModelIter ModelStack ModelSkip.
Import ListNotations.
Local Open Scope Z_scope.

(** math.MaxUint8 to math.MaxUint64 (iterator_int8.go:10, iterator_int16.go:11, iterator_int32.go:11, iterator_int64.go:11) *)
Definition maxUint (w : Z) : Z := 2 ^ w - 1.
(** math.MaxInt8 to math.MaxInt64, in the ReadInt methods *)
Definition maxInt (w : Z) : Z := 2 ^ (w - 1) - 1.

(** iterator_int16.go:10-12, iterator_int32.go:10-12, iterator_int64.go:10-12,
    iterator_int8.go:10-11 *)
Definition maxDiv10 (w : Z) : Z := maxUint w / 10.
(** iterator_int16.go:12, iterator_int32.go:12, iterator_int64.go:12, iterator_int8.go:11 *)
Definition maxMod10 (w : Z) : Z := maxUint w - maxDiv10 w * 10.

(** (ret << 3) + (ret << 1) + digit in uintw arithmetic *)
Definition mul10add (w ret digit : Z) : Z :=
  ((Z.shiftl ret 3) mod 2 ^ w + (Z.shiftl ret 1) mod 2 ^ w + digit) mod 2 ^ w.

(** iterator_int16.go:25-62, iterator_int32.go:25-62, iterator_int64.go:25-63.
    The three functions differ only in the width [w] and in maxUintNDiv10NumDigits [nd].
    Loop variables: numDigit and ret.  At EOF the value read so far is returned. *)
Definition readUintLoop (w : Z) (nd : nat) (u : Z) : M Z :=
  scan (fun _ _ (st : nat * Z) c =>
          let '(numDigit, r) := st in
          let digit := intDigits c in
          if digit =? invalidDigit then SStop 0 (ret r)
          else if (nd <=? numDigit)%nat &&
                  ((maxDiv10 w <? r) || ((r =? maxDiv10 w) && (maxMod10 w <? digit)))
          then SStop 0 (fail EIntOverflow)
          else SNext (S numDigit, mul10add w r digit))
       noEnd (eofReturn (fun st => ret (snd st))) (1%nat, u).

(** iterator_int16.go:25-62, iterator_int32.go:25-62, iterator_int64.go:25-63; [nd] is maxUint16Div10NumDigits and so on *)
Definition readUintN (w : Z) (nd : nat) (c : Z) : M Z :=
  let u := intDigits c in
  if u =? 0 then ret 0
  else if u =? invalidDigit then fail (EInvalidDigit c)
  else readUintLoop w nd u.

(** iterator_int16.go:25-62 *)
Definition readUint16 : Z -> M Z := readUintN 16 4.
(** iterator_int32.go:25-62 *)
Definition readUint32 : Z -> M Z := readUintN 32 9.
(** iterator_int64.go:25-63 *)
Definition readUint64 : Z -> M Z := readUintN 64 19.

(** iterator_int8.go:24-67 (unrolled, at most three digits).
    In the Go code a reader error other than EOF is returned together with the value read
    so far; only the error is kept here. *)
Definition readUint8 (c : Z) : M Z :=
  let u := intDigits c in
  if u =? 0 then ret 0
  else if u =? invalidDigit then fail (EInvalidDigit c)
  else
    do o <- peekOrEOF;
    match o with
    | None => ret u
    | Some c2 =>
        let u2 := intDigits c2 in
        if u2 =? invalidDigit then ret u
        else
          let r2 := mul10add 8 u u2 in
          incHead ;;
          do o2 <- peekOrEOF;
          match o2 with
          | None => ret r2
          | Some c3 =>
              let u3 := intDigits c3 in
              if u3 =? invalidDigit then ret r2
              else
                incHead ;;
                if (maxDiv10 8 <? r2) || ((r2 =? maxDiv10 8) && (maxMod10 8 <? u3))
                then fail EIntOverflow
                else ret (mul10add 8 r2 u3)
          end
    end.

(** the conversion of an unsigned w-bit value to a signed one *)
Definition to_signed (w v : Z) : Z :=
  let m := v mod 2 ^ w in if m <? 2 ^ (w - 1) then m else m - 2 ^ w.

(** iterator_int8.go:69-99, iterator_int16.go:64-94, iterator_int32.go:64-94,
    iterator_int64.go:65-95; the text of the overflow error is not modelled.
    -intN(v) is two's complement negation. *)
Definition readIntN (w : Z) (readU : Z -> M Z) (c : Z) : M Z :=
  if c =? cMINUS then
    do c' <- nextByte;
    incHead ;;
    do v <- readU c';
    if maxInt w + 1 <? v then fail EIntOverflow
    else ret (to_signed w (- to_signed w v))
  else
    do v <- readU c;
    if maxInt w <? v then fail EIntOverflow
    else ret (to_signed w v).

(** iterator_int8.go:69-99 *)
Definition readInt8 : Z -> M Z := readIntN 8 readUint8.
(** iterator_int16.go:64-94 *)
Definition readInt16 : Z -> M Z := readIntN 16 readUint16.
(** iterator_int32.go:64-94 *)
Definition readInt32 : Z -> M Z := readIntN 32 readUint32.
(** iterator_int64.go:65-95 *)
Definition readInt64 : Z -> M Z := readIntN 64 readUint64.

(** iterator_int8.go:15-22 *)
Definition ReadUint8 : M Z := do c <- takeToken; readUint8 c.
(** iterator_int16.go:16-23 *)
Definition ReadUint16 : M Z := do c <- takeToken; readUint16 c.
(** iterator_int32.go:16-23 *)
Definition ReadUint32 : M Z := do c <- takeToken; readUint32 c.
(** iterator_int64.go:16-23 *)
Definition ReadUint64 : M Z := do c <- takeToken; readUint64 c.
(** iterator_int8.go:102-109 *)
Definition ReadInt8 : M Z := do c <- takeToken; readInt8 c.
(** iterator_int16.go:97-104 *)
Definition ReadInt16 : M Z := do c <- takeToken; readInt16 c.
(** iterator_int32.go:97-104 *)
Definition ReadInt32 : M Z := do c <- takeToken; readInt32 c.
(** iterator_int64.go:98-105 *)
Definition ReadInt64 : M Z := do c <- takeToken; readInt64 c.

(** iterator_int.go:25-32, 35-42; [is32] is strconv.IntSize == 32 *)
Definition ReadInt (is32 : bool) : M Z := if is32 then ReadInt32 else ReadInt64.
(** iterator_int.go:35-42 *)
Definition ReadUint (is32 : bool) : M Z := if is32 then ReadUint32 else ReadUint64.
