(** Reading strings.  Code: iterator_str.go, iterator_object.go:5-29. *)
From Coq Require Import ZArith List Bool Lia String.
From Verif Require Import Base ModelIter ModelStack ModelSkip.
Import ListNotations.
Local Open Scope Z_scope.

(** iterator_str.go:253-275 *)
Definition t2 : Z := 192.
(** iterator_str.go:257 *)
Definition t3 : Z := 224.
(** iterator_str.go:258 *)
Definition t4 : Z := 240.
(** iterator_str.go:255 *)
Definition tx : Z := 128.
(** iterator_str.go:261 *)
Definition maskx : Z := 63.
(** iterator_str.go:266 *)
Definition rune1Max : Z := 127.
(** iterator_str.go:267 *)
Definition rune2Max : Z := 2047.
(** iterator_str.go:268 *)
Definition rune3Max : Z := 65535.
(** iterator_str.go:270 *)
Definition surrogateMin : Z := 55296.
(** iterator_str.go:271 *)
Definition surrogateMax : Z := 57343.
(** iterator_str.go:273 *)
Definition maxRune : Z := 1114111.
(** iterator_str.go:274 *)
Definition runeError : Z := 65533.

(** Go's byte(r) *)
Definition to_byte (r : Z) : Z := r mod 256.

(** iterator_str.go:277-294 *)
Definition appendRune (p : bytes) (r : Z) : bytes :=
  let i := r mod 2 ^ 32 in
  if i <=? rune1Max then p ++ [to_byte r]
  else if i <=? rune2Max then
    p ++ [Z.lor t2 (to_byte (Z.shiftr r 6)); Z.lor tx (Z.land (to_byte r) maskx)]
  else if (maxRune <? i) || ((surrogateMin <=? i) && (i <=? surrogateMax)) then
    p ++ [Z.lor t3 (to_byte (Z.shiftr runeError 12));
          Z.lor tx (Z.land (to_byte (Z.shiftr runeError 6)) maskx);
          Z.lor tx (Z.land (to_byte runeError) maskx)]
  else if i <=? rune3Max then
    p ++ [Z.lor t3 (to_byte (Z.shiftr r 12));
          Z.lor tx (Z.land (to_byte (Z.shiftr r 6)) maskx);
          Z.lor tx (Z.land (to_byte r) maskx)]
  else
    p ++ [Z.lor t4 (to_byte (Z.shiftr r 18));
          Z.lor tx (Z.land (to_byte (Z.shiftr r 12)) maskx);
          Z.lor tx (Z.land (to_byte (Z.shiftr r 6)) maskx);
          Z.lor tx (Z.land (to_byte r) maskx)].

(** unicode/utf16 (standard library): IsSurrogate and DecodeRune *)
Definition utf16_IsSurrogate (r : Z) : bool := (55296 <=? r) && (r <? 57344).
(** unicode/utf16 (standard library): DecodeRune *)
Definition utf16_DecodeRune (r1 r2 : Z) : Z :=
  if (55296 <=? r1) && (r1 <? 56320) && (56320 <=? r2) && (r2 <? 57344)
  then Z.lor (Z.shiftl (r1 - 55296) 10) (r2 - 56320) + 65536
  else 65533.

(** iterator_str.go:49-71; the loop variables are remain and ret.
    ret<<4 does not overflow an int32 after four digits. *)
Definition readU4 : M Z :=
  scan (fun _ _ (st : nat * Z) c =>
          let '(remain, r) := st in
          if hexValue c =? invalidHex then SFail (EInvalidUnicodeChar c)
          else
            let r' := Z.shiftl r 4 + hexValue c in
            match remain with
            | 1%nat => SStop 1 (ret r')
            | _ => SNext ((remain - 1)%nat, r')
            end)
       noEnd errReturn (4%nat, 0).

(** iterator_str.go:91-127, one round of Retry per unit of fuel.
    Simplification: the partial result returned with an error is dropped. *)
Fixpoint readSurrogate (fuel : nat) (b : bytes) (r : Z) : M bytes :=
  match fuel with
  | O => outOfFuel
  | S f =>
      if utf16_IsSurrogate r then
        do c <- nextByte;
        if negb (c =? cBSLASH) then ret (appendRune b r)
        else
          incHead ;;
          do c2 <- nextByte;
          if negb (c2 =? c_u) then
            if escapeMap c2 =? noEscape then fail (EInvalidEscapeChar c2)
            else incHead ;; ret (appendRune b r ++ [escapeMap c2])
          else
            incHead ;;
            do r2 <- readU4;
            let combined := utf16_DecodeRune r r2 in
            if combined =? runeError then readSurrogate f (appendRune b r) r2
            else ret (appendRune b combined)
      else ret (appendRune b r)
  end.

(** iterator_str.go:73-128 *)
Definition readEscapedChar (b : bytes) : M bytes :=
  do c <- nextByte;
  if negb (escapeMap c =? noEscape) then incHead ;; ret (b ++ [escapeMap c])
  else if negb (c =? c_u) then fail (EInvalidEscapeChar c)
  else
    incHead ;;
    do r <- readU4;
    fun it => readSurrogate (S (left_total it)) b r it.

(** buf = append(buf, it.buffer[it.head:i]...) *)
Definition seg (it : iter) (i : nat) : option bytes := slice (it_buffer it) (it_head it) i.

(** iterator_str.go:168-199 *)
Definition readStringAsSliceSlow (buf0 : bytes) : M bytes :=
  scan (fun it i (buf : bytes) c =>
          if c <? cSPACE then SFail (EInvalidStringChar c)
          else if c =? cQUOTE then
            match seg it i with
            | None => SStop 0 panic
            | Some sg => SStop 1 (ret (buf ++ sg))
            end
          else if c =? cBSLASH then
            match seg it i with
            | None => SStop 0 panic
            | Some sg => SResume (readEscapedChar (buf ++ sg))
            end
          else SNext buf)
       (fun it buf => match seg it (it_tail it) with
                      | None => None
                      | Some sg => Some (buf ++ sg)
                      end)
       errReturn buf0.

(** it.tmpBuffer = buf *)
Definition setTmp (b : bytes) : M unit := fun it => (Ok tt, set_tmp b it).

(** iterator_str.go:133-166; the first pass over the buffered bytes, [n] = it.tail - i.
    Simplification: tmpBuffer is not updated when an error is returned (its contents are
    never read, every use starts with tmpBuffer[:0]). *)
Fixpoint readStringFast (n : nat) (i : nat) (it : iter) : res bytes * iter :=
  match n with
  | O =>
      match seg it (it_tail it) with
      | None => (Panic, it)
      | Some buf =>
          (readMore ;; do b <- readStringAsSliceSlow buf; setTmp b ;; ret b)
            (set_head (it_tail it) it)
      end
  | S n' =>
      match nth_error (it_buffer it) i with
      | None => (Panic, it)
      | Some c =>
          if c <? cSPACE then (Err (EInvalidStringChar c), it)
          else if c =? cQUOTE then
            match seg it i with
            | None => (Panic, it)
            | Some buf => (setTmp buf ;; ret buf) (set_head (S i) it)
            end
          else if c =? cBSLASH then
            match seg it i with
            | None => (Panic, it)
            | Some buf =>
                (do b <- readEscapedChar buf;
                 do b' <- readStringAsSliceSlow b;
                 setTmp b' ;; ret b') (set_head (S i) it)
            end
          else readStringFast n' (S i) it
      end
  end.
(** iterator_str.go:133-166 *)
Definition readStringAsSlice : M bytes := fun it =>
  readStringFast (it_tail it - it_head it) (it_head it) it.

(** iterator_str.go:201-211 *)
Definition expectQuote : M unit :=
  do c <- nextToken;
  if negb (c =? cQUOTE) then fail (EUnexpectedByte c cQUOTE 0)
  else incHead.

(** iterator_str.go:216-221 *)
Definition ReadStringAsSlice : M bytes := expectQuote ;; readStringAsSlice.

(** iterator_str.go:224-233 *)
Definition ReadStringAndAppend (buf : bytes) : M bytes :=
  expectQuote ;; do s <- readStringAsSlice; ret (buf ++ s).

(** iterator_str.go:236-242 *)
Definition readString : M bytes := readStringAsSlice.

(** iterator_str.go:245-250 *)
Definition ReadString : M bytes := expectQuote ;; readString.

(** iterator_object.go:5-20 *)
Definition readObjectFieldAsSlice : M bytes :=
  do field <- readStringAsSlice;
  do c <- nextToken;
  if negb (c =? cCOLON) then fail (EUnexpectedByte c cCOLON 0)
  else incHead ;; ret field.

(** iterator_object.go:23-29 *)
Definition readObjectField : M bytes := readObjectFieldAsSlice.
