(** Reading floats.  Code: iterator_float.go, iterator_float32.go, iterator_float64.go.
    The two widths have the same code; strconv.ParseFloat, the zero and the negation of
    the float type are arguments. *)
From Coq Require Import ZArith List Bool Lia String.
From Verif Require Import Base ModelIter ModelStack ModelSkip ModelStr.
Import ListNotations.
Local Open Scope Z_scope.

(** The external float operations of one width: strconv.ParseFloat(s, bitSize), the
    constant 0 and unary minus. *)
Record floatOps := mkFloatOps {
  fl : Type;
  fl_parse : bytes -> fl + Z;     (* the value, or the identity of the error *)
  fl_zero : fl;
  fl_neg : fl -> fl
}.

Section Float.
Variable F : floatOps.

(** iterator_float64.go:34-36, iterator_float32.go:30-33.
    Simplification: the value returned together with an error is dropped. *)
Definition parseFloat (buf : bytes) : M (fl F) :=
  match fl_parse F buf with
  | inl f => ret f
  | inr n => fail (EParseFloat n)
  end.

(** iterator_float64.go:56-79, the digit loop; iterator_float32.go:53-76 *)
Definition readExponentLoop (buf0 : bytes) : M (fl F) :=
  scan (fun it i (buf : bytes) c =>
          if intDigits c =? invalidDigit then
            match seg it i with
            | None => SStop 0 panic
            | Some sg => SStop 0 (parseFloat (buf ++ sg))
            end
          else SNext buf)
       (fun it buf => match seg it (it_tail it) with
                      | None => None
                      | Some sg => Some (buf ++ sg)
                      end)
       (eofReturn parseFloat) buf0.

(** iterator_float64.go:38-79, iterator_float32.go:35-76 *)
Definition readFloatExponentPart (buf : bytes) : M (fl F) :=
  do c0 <- nextByte;
  incHead ;;
  if (c0 =? cPLUS) || (c0 =? cMINUS) then
    do c1 <- nextByte;
    incHead ;;
    if intDigits c1 =? invalidDigit then fail (EInvalidFloat c1)
    else readExponentLoop (buf ++ [c0] ++ [c1])
  else
    if intDigits c0 =? invalidDigit then fail (EInvalidFloat c0)
    else readExponentLoop (buf ++ [c0]).

(** iterator_float64.go:91-120, the digit loop; iterator_float32.go:88-117 *)
Definition readFractionLoop (buf0 : bytes) : M (fl F) :=
  scan (fun it i (buf : bytes) c =>
          if floatDigits c <? 0 then
            if floatDigits c =? expInNumber then
              match seg it (S i) with
              | None => SStop 0 panic
              | Some sg => SStop 1 (readFloatExponentPart (buf ++ sg))
              end
            else
              match seg it i with
              | None => SStop 0 panic
              | Some sg => SStop 0 (parseFloat (buf ++ sg))
              end
          else SNext buf)
       (fun it buf => match seg it (it_tail it) with
                      | None => None
                      | Some sg => Some (buf ++ sg)
                      end)
       (eofReturn parseFloat) buf0.

(** iterator_float64.go:81-121, iterator_float32.go:78-118 *)
Definition readFloatFractionPart (buf : bytes) : M (fl F) :=
  do c <- nextByte;
  if intDigits c =? invalidDigit then fail (EInvalidFloat c)
  else incHead ;; readFractionLoop (buf ++ [c]).

(** iterator_float64.go:152-185, the loop for numbers not starting with 0;
    iterator_float32.go:149-182 *)
Definition readIntegerLoop (buf0 : bytes) : M (fl F) :=
  scan (fun it i (buf : bytes) c =>
          if floatDigits c <? 0 then
            if floatDigits c =? dotInNumber then
              match seg it (S i) with
              | None => SStop 0 panic
              | Some sg => SStop 1 (readFloatFractionPart (buf ++ sg))
              end
            else if floatDigits c =? expInNumber then
              match seg it (S i) with
              | None => SStop 0 panic
              | Some sg => SStop 1 (readFloatExponentPart (buf ++ sg))
              end
            else
              match seg it i with
              | None => SStop 0 panic
              | Some sg => SStop 0 (parseFloat (buf ++ sg))
              end
          else SNext buf)
       (fun it buf => match seg it (it_tail it) with
                      | None => None
                      | Some sg => Some (buf ++ sg)
                      end)
       (eofReturn parseFloat) buf0.

(** iterator_float64.go:123-187, iterator_float32.go:120-184; [buf] is tmpBuffer[:0], so it
    starts empty *)
Definition readPositiveFloat (c : Z) : M (fl F) :=
  let u := intDigits c in
  if u =? invalidDigit then fail (EInvalidFloat c)
  else
    let buf := [c] in
    if u =? 0 then
      do o <- peekOrEOF;
      match o with
      | None => ret (fl_zero F)
      | Some d =>
          if floatDigits d =? dotInNumber then
            incHead ;; readFloatFractionPart (buf ++ [cDOT])
          else if floatDigits d =? expInNumber then
            incHead ;; readFloatExponentPart (buf ++ [c_e])
          else ret (fl_zero F)
      end
    else readIntegerLoop buf.

(** iterator_float64.go:8-22, iterator_float32.go:15-27.
    Simplification: the contents left in tmpBuffer are not tracked (never read). *)
Definition readFloat (c : Z) : M (fl F) :=
  if c =? cMINUS then
    do c1 <- nextByte;
    incHead ;;
    do f <- readPositiveFloat c1;
    ret (fl_neg F f)
  else readPositiveFloat c.

(** iterator_float64.go:25-32, iterator_float32.go:9-28 *)
Definition ReadFloat : M (fl F) := do c <- takeToken; readFloat c.
End Float.
