(** Skipping values.  Code: iterator_skip.go, iterator_skip_array.go,
    iterator_skip_object.go, iterator_skip_number.go, iterator_skip_str.go,
    iterator_object.go:31-45, iterator_raw.go, iterator_number.go, iterator.go:270-278,
    iterator_null.go, iterator_bool.go. *)
From Coq Require Import ZArith List Bool Lia String.
From Verif Require Import Base ModelIter ModelStack.
Import ListNotations.
Local Open Scope Z_scope.

(** a run-time panic *)
Definition panic {A} : M A := fun it => (Panic, it).
(** not an outcome of the code: the fuel of a loop is used up (excluded by C01) *)
Definition outOfFuel {A} : M A := fun it => (OutOfFuel, it).

(** iterator_int.go:7-22 *)
Definition invalidDigit : Z := -1.
(** iterator_int.go:11-22 *)
Definition intDigits (c : Z) : Z :=
  if (cZERO <=? c) && (c <=? cNINE) then c - cZERO else invalidDigit.

(** iterator_float.go:3-23 *)
Definition invalidFloatDigit : Z := -1.
(** iterator_float.go:5 *)
Definition dotInNumber : Z := -2.
(** iterator_float.go:6 *)
Definition expInNumber : Z := -3.
(** iterator_float.go:9-23 *)
Definition floatDigits (c : Z) : Z :=
  if (cZERO <=? c) && (c <=? cNINE) then c - cZERO
  else if c =? cDOT then dotInNumber
  else if (c =? c_e) || (c =? c_E) then expInNumber
  else invalidFloatDigit.

(** iterator_str.go:8, 19-33 *)
Definition noEscape : Z := 0.
(** iterator_str.go:19-33 *)
Definition escapeMap (c : Z) : Z :=
  if c =? cQUOTE then cQUOTE
  else if c =? cBSLASH then cBSLASH
  else if c =? cSLASH then cSLASH
  else if c =? c_b then 8
  else if c =? c_f then 12
  else if c =? c_n then 10
  else if c =? c_r then 13
  else if c =? c_t then 9
  else noEscape.

(** iterator_str.go:9, 34-46 *)
Definition invalidHex : Z := -1.
(** iterator_str.go:34-46 *)
Definition hexValue (c : Z) : Z :=
  if (48 <=? c) && (c <=? 57) then c - 48
  else if (97 <=? c) && (c <=? 102) then c - 97 + 10
  else if (65 <=? c) && (c <=? 70) then c - 65 + 10
  else invalidHex.

(** iterator_skip_number.go:23-41, the digit loop *)
Definition skipExponentLoop : M unit :=
  scan (fun _ _ (_ : unit) c =>
          if intDigits c =? invalidDigit then SStop 0 (ret tt) else SNext tt)
       noEnd (eofReturn (fun _ => ret tt)) tt.

(** iterator_skip_number.go:7-42 *)
Definition skipExponentPart : M unit :=
  do c0 <- nextByte;
  incHead ;;
  do c <- (if (c0 =? cPLUS) || (c0 =? cMINUS)
           then (do c1 <- nextByte; incHead ;; ret c1)
           else ret c0);
  if intDigits c =? invalidDigit then fail (EInvalidDigit c)
  else skipExponentLoop.

(** iterator_skip_number.go:53-77, the digit loop *)
Definition skipFractionLoop : M unit :=
  scan (fun _ _ (_ : unit) c =>
          if floatDigits c <? 0 then
            if floatDigits c =? expInNumber then SStop 1 skipExponentPart
            else SStop 0 (ret tt)
          else SNext tt)
       noEnd (eofReturn (fun _ => ret tt)) tt.

(** iterator_skip_number.go:44-78 *)
Definition skipFractionPart : M unit :=
  do c <- nextByte;
  if intDigits c =? invalidDigit then fail (EInvalidDigit c)
  else incHead ;; skipFractionLoop.

(** iterator_skip_number.go:115-142, the loop for numbers not starting with 0 *)
Definition skipIntegerLoop : M unit :=
  scan (fun _ _ (_ : unit) c =>
          if floatDigits c <? 0 then
            if floatDigits c =? dotInNumber then SStop 1 skipFractionPart
            else if floatDigits c =? expInNumber then SStop 1 skipExponentPart
            else SStop 0 (ret tt)
          else SNext tt)
       noEnd (eofReturn (fun _ => ret tt)) tt.

(** The test "if it.head == it.tail { if err = it.readMore() ... }" followed by reading
    it.buffer[it.head], where EOF ends the number: [None] at EOF. *)
Definition peekOrEOF : M (option Z) := fun it =>
  if (it_head it =? it_tail it)%nat then
    match readMore it with
    | (Ok _, it') => (do c <- peekHead; ret (Some c)) it'
    | (Err e, it') => if err_eqb_eof e then (Ok None, it') else (Err e, it')
    | (Panic, it') => (Panic, it')
    | (OutOfFuel, it') => (OutOfFuel, it')
    end
  else (do c <- peekHead; ret (Some c)) it.

(** iterator_skip_number.go:82-144 *)
Definition skipNumber (c0 : Z) : M unit :=
  do c <- (if c0 =? cMINUS then
             (do c1 <- nextByte;
              if intDigits c1 =? invalidDigit then fail (EInvalidDigit c1)
              else incHead ;; ret c1)
           else ret c0);
  if c =? cZERO then
    (do o <- peekOrEOF;
     match o with
     | None => ret tt
     | Some d =>
         if floatDigits d =? dotInNumber then incHead ;; skipFractionPart
         else if floatDigits d =? expInNumber then incHead ;; skipExponentPart
         else ret tt
     end)
  else skipIntegerLoop.

(** iterator_skip_str.go:3-24 *)
Definition skipU4 : M unit :=
  scan (fun _ _ (remain : nat) c =>
          if hexValue c =? invalidHex then SFail (EInvalidUnicodeChar c)
          else match remain with
               | 1%nat => SStop 1 (ret tt)
               | _ => SNext (remain - 1)%nat
               end)
       noEnd errReturn 4%nat.

(** iterator_skip_str.go:26-41 *)
Definition skipEscapedChar : M unit :=
  do c <- nextByte;
  if negb (escapeMap c =? noEscape) then incHead
  else if negb (c =? c_u) then fail (EInvalidEscapeChar c)
  else incHead ;; skipU4.

(** iterator_skip_str.go:44-71 *)
Definition skipString : M unit :=
  scan (fun _ _ (_ : unit) c =>
          if c =? cQUOTE then SStop 1 (ret tt)
          else if c =? cBSLASH then SResume skipEscapedChar
          else if c <? cSPACE then SFail (EInvalidStringChar c)
          else SNext tt)
       noEnd errReturn tt.

(** iterator_object.go:31-45 *)
Definition skipObjectField : M unit :=
  skipString ;;
  do c <- nextToken;
  if negb (c =? cCOLON) then fail (EUnexpectedByte c cCOLON 0)
  else incHead.

(** it.nextToken followed by it.head++ *)
Definition takeToken : M Z := do c <- nextToken; incHead ;; ret c.

(** iterator_skip.go:7-31 without the entries for '[' and '{', see [skipFunctions];
    the callers below never reach those two entries. *)
Definition skipLeaf (c : Z) : M unit :=
  if c =? cQUOTE then skipString
  else if c =? c_n then expectBytes (bs "ull")
  else if c =? c_t then expectBytes (bs "rue")
  else if c =? c_f then expectBytes (bs "alse")
  else if (c =? cMINUS) || ((cZERO <=? c) && (c <=? cNINE)) then skipNumber c
  else fail (EUnexpectedByte c 0 0).

(** iterator_skip.go:33-117; one iteration of the for loop per unit of fuel.
    Simplification: the stack given back to the pool afterwards is not tracked;
    [it_pool] may be any stack. *)
Fixpoint skipWithStack_loop (fuel : nat) (top : Z) (s : stack) : M unit :=
  match fuel with
  | O => outOfFuel
  | S f =>
      do c0 <- takeToken;
      if Z.land top 1 =? 0 then
        if c0 =? cRBRACE then
          match pop s with
          | None => panic
          | Some (top', s') =>
              if top' =? stackElementNone then ret tt else skipWithStack_loop f top' s'
          end
        else
          do c <- (if top =? stackElementObject then
                     if negb (c0 =? cCOMMA) then fail (EUnexpectedByte c0 cCOMMA 0)
                     else takeToken
                   else ret c0);
          if negb (c =? cQUOTE) then fail (EUnexpectedByte c cQUOTE 0)
          else
            skipObjectField ;;
            do d <- takeToken;
            if d =? cLBRACK then
              match pushObject s with
              | None => panic
              | Some s' => skipWithStack_loop f stackElementArrayBegin s'
              end
            else if d =? cLBRACE then
              match pushObject s with
              | None => panic
              | Some s' => skipWithStack_loop f stackElementObjectBegin s'
              end
            else skipLeaf d ;; skipWithStack_loop f stackElementObject s
      else
        if c0 =? cRBRACK then
          match pop s with
          | None => panic
          | Some (top', s') =>
              if top' =? stackElementNone then ret tt else skipWithStack_loop f top' s'
          end
        else
          do c <- (if top =? stackElementArray then
                     if negb (c0 =? cCOMMA) then fail (EUnexpectedByte c0 cCOMMA 0)
                     else takeToken
                   else ret c0);
          if c =? cLBRACK then
            match pushArray s with
            | None => panic
            | Some s' => skipWithStack_loop f stackElementArrayBegin s'
            end
          else if c =? cLBRACE then
            match pushArray s with
            | None => panic
            | Some s' => skipWithStack_loop f stackElementObjectBegin s'
            end
          else skipLeaf c ;; skipWithStack_loop f stackElementArray s
  end.
(** iterator_skip.go:33-117; one unit of fuel for every byte that is left *)
Definition skipWithStack (top : Z) (s : stack) : M unit := fun it =>
  skipWithStack_loop (S (left_total it)) top s it.

(** iterator_skip_array.go:12-44; stackPool.Get() is [it_pool it] *)
Fixpoint skipArray_loop (fuel : nat) (c : Z) : M unit :=
  match fuel with
  | O => outOfFuel
  | S f =>
      if c =? cLBRACE then
        fun it => skipWithStack stackElementObjectBegin (initArray (it_pool it)) it
      else if c =? cLBRACK then
        fun it => skipWithStack stackElementArrayBegin (initArray (it_pool it)) it
      else
        skipLeaf c ;;
        do d <- takeToken;
        if d =? cRBRACK then ret tt
        else if negb (d =? cCOMMA) then fail (EUnexpectedByte d cRBRACK cCOMMA)
        else do c' <- takeToken; skipArray_loop f c'
  end.

(** iterator_skip_array.go:3-45 *)
Definition skipArrayWithStack : M unit :=
  do c <- takeToken;
  if c =? cRBRACK then ret tt
  else fun it => skipArray_loop (S (left_total it)) c it.

(** iterator_skip_object.go:12-55 *)
Fixpoint skipObject_loop (fuel : nat) (c : Z) : M unit :=
  match fuel with
  | O => outOfFuel
  | S f =>
      if negb (c =? cQUOTE) then fail (EUnexpectedByte c cQUOTE 0)
      else
        incHead ;;
        skipObjectField ;;
        do d <- takeToken;
        if d =? cLBRACE then
          fun it => skipWithStack stackElementObjectBegin (initObject (it_pool it)) it
        else if d =? cLBRACK then
          fun it => skipWithStack stackElementArrayBegin (initObject (it_pool it)) it
        else
          skipLeaf d ;;
          do e <- takeToken;
          if e =? cRBRACE then ret tt
          else if negb (e =? cCOMMA) then fail (EUnexpectedByte e cRBRACE cCOMMA)
          else do c' <- nextToken; skipObject_loop f c'
  end.

(** iterator_skip_object.go:3-56 *)
Definition skipObjectWithStack : M unit :=
  do c <- nextToken;
  if c =? cRBRACE then incHead
  else fun it => skipObject_loop (S (left_total it)) c it.

(** iterator_skip.go:7-31, the whole table *)
Definition skipFunctions (c : Z) : M unit :=
  if c =? cLBRACK then skipArrayWithStack
  else if c =? cLBRACE then skipObjectWithStack
  else skipLeaf c.

(** iterator_skip.go:120-127 *)
Definition Skip : M unit := do c <- takeToken; skipFunctions c.

(** iterator_skip_array.go:48-58 *)
Definition SkipArray : M unit :=
  do c <- nextToken;
  if negb (c =? cLBRACK) then fail (EUnexpectedByte c cLBRACK 0)
  else incHead ;; skipArrayWithStack.

(** iterator_skip_object.go:59-69 *)
Definition SkipObject : M unit :=
  do c <- nextToken;
  if negb (c =? cLBRACE) then fail (EUnexpectedByte c cLBRACE 0)
  else incHead ;; skipObjectWithStack.

(** iterator_skip_number.go:147-157 *)
Definition SkipNumber : M unit :=
  do c <- nextToken;
  if negb (isNumberValue (valueTypeMap c)) then fail (EUnexpectedByte c 0 0)
  else incHead ;; skipNumber c.

(** iterator_skip_str.go:74-84 *)
Definition SkipString : M unit :=
  do c <- nextToken;
  if negb (c =? cQUOTE) then fail (EUnexpectedByte c cQUOTE 0)
  else incHead ;; skipString.

(** it.buffer[a:it.head] *)
Definition sliceFrom (a : nat) : M bytes := fun it =>
  match slice (it_buffer it) a (it_head it) with
  | Some b => (Ok b, it)
  | None => (Panic, it)
  end.

(** "oldCapture := it.capture; it.capture = true; err = ...; it.capture = oldCapture" *)
Definition withCapture {A} (m : M A) : M A := fun it =>
  let old := it_capture it in
  let '(r, it') := m (set_capture true it) in
  (r, set_capture old it').

(** iterator_raw.go:6-21 *)
Definition SkipRaw : M bytes :=
  do c <- nextToken;
  fun it =>
    let begin := it_head it in
    (withCapture (incHead ;; skipFunctions c) ;; sliceFrom begin) it.

(** iterator_raw.go:24-31 *)
Definition AppendRaw (b0 : bytes) : M bytes :=
  do b <- SkipRaw; ret (b0 ++ b).

(** iterator_raw.go:34-36 *)
Definition ReadRaw : M bytes := AppendRaw [].

(** iterator_number.go:4-19; the copy of the slice is taken before capture is restored *)
Definition readNumberAsString (c : Z) : M bytes := fun it =>
  let begin := (it_head it - 1)%nat in
  withCapture (skipNumber c ;; sliceFrom begin) it.

(** iterator_number.go:22-34 *)
Definition ReadNumber : M bytes :=
  do c <- nextToken;
  if negb (isNumberValue (valueTypeMap c)) then fail (EUnexpectedByte c 0 0)
  else incHead ;; readNumberAsString c.

(** iterator_null.go:4-14 *)
Definition ReadNull : M unit :=
  do c <- nextToken;
  if negb (c =? c_n) then fail (EUnexpectedByte c c_n 0)
  else incHead ;; expectBytes (bs "ull").

(** iterator_bool.go:4-19 *)
Definition ReadBool : M bool :=
  do c <- nextToken;
  if c =? c_t then incHead ;; expectBytes (bs "rue") ;; ret true
  else if c =? c_f then incHead ;; expectBytes (bs "alse") ;; ret false
  else fail (EUnexpectedByte c c_t c_f).

(** iterator.go:270-278 *)
Definition Valid (data : bytes) (it : iter) : bool * iter :=
  match Skip (ResetBytes data it) with
  | (Ok _, it1) =>
      match nextToken it1 with
      | (Err e, it2) => (err_eqb_eof e, it2)
      | (_, it2) => (false, it2)
      end
  | (_, it1) => (false, it1)
  end.
