(** Iterating over arrays and objects.  Code: iterator_array.go, iterator_object.go.
    Callbacks are Go closures; here a callback threads an explicit state of type [S]. *)
From Coq Require Import String ZArith List Bool.
From Verif Require Import Base ModelIter ModelStack ModelSkip ModelStr.
Import ListNotations.
Local Open Scope Z_scope.

(** iterator_array.go:16-34 *)
Definition ReadArrayBegin : M bool :=
  do c <- nextToken;
  if negb (c =? cLBRACK) then fail (EUnexpectedByte c cLBRACK 0)
  else
    incHead ;;
    do c2 <- nextToken;
    if c2 =? cRBRACK then incHead ;; ret false else ret true.

(** iterator_array.go:37-52 *)
Definition ReadArrayMore : M bool :=
  do c <- nextToken;
  if c =? cCOMMA then incHead ;; ret true
  else if c =? cRBRACK then incHead ;; ret false
  else fail (EUnexpectedByte c cCOMMA cRBRACK).

(** iterator_array.go:73-90, one round per unit of fuel *)
Fixpoint arrayCB_loop {S} (fuel : nat) (cb : S -> M S) (s : S) : M S :=
  match fuel with
  | O => fun it => (OutOfFuel, it)
  | Datatypes.S f =>
      do s' <- cb s;
      do c <- nextToken;
      if c =? cCOMMA then incHead ;; arrayCB_loop f cb s'
      else if c =? cRBRACK then incHead ;; ret s'
      else fail (EUnexpectedByte c cCOMMA cRBRACK)
  end.

(** iterator_array.go:56-91; each round consumes a comma, so the remaining input bounds the
    number of rounds *)
Definition ReadArrayCB {S} (cb : S -> M S) (s : S) : M S :=
  do c <- nextToken;
  if negb (c =? cLBRACK) then fail (EUnexpectedByte c cLBRACK 0)
  else
    incHead ;;
    do c2 <- nextToken;
    if c2 =? cRBRACK then incHead ;; ret s
    else fun it => arrayCB_loop (Datatypes.S (left_total it)) cb s it.

(** iterator_array.go:3-15: the loop that the documentation prescribes to a client *)
Fixpoint arrayClient_loop {S} (fuel : nat) (cb : S -> M S) (more : bool) (s : S) : M S :=
  match fuel with
  | O => fun it => (OutOfFuel, it)
  | Datatypes.S f =>
      if more then
        do s' <- cb s;
        do m <- ReadArrayMore;
        arrayClient_loop f cb m s'
      else ret s
  end.
(** iterator_array.go:3-15 *)
Definition arrayClient {S} (cb : S -> M S) (s : S) : M S :=
  do more <- ReadArrayBegin;
  fun it => arrayClient_loop (Datatypes.S (left_total it)) cb more s it.

(** iterator_object.go:48-79; [None] is the return (false, "", nil) *)
Definition ReadObjectBegin : M (option bytes) :=
  do c <- nextToken;
  if negb (c =? cLBRACE) then fail (EUnexpectedByte c cLBRACE 0)
  else
    incHead ;;
    do c2 <- nextToken;
    if c2 =? cRBRACE then incHead ;; ret None
    else if c2 =? cQUOTE then incHead ;; do k <- readObjectField; ret (Some k)
    else fail (EUnexpectedByte c2 cRBRACE cQUOTE).

(** iterator_object.go:82-112 *)
Definition ReadObjectMore : M (option bytes) :=
  do c <- nextToken;
  if c =? cRBRACE then incHead ;; ret None
  else if c =? cCOMMA then
    incHead ;;
    do c2 <- nextToken;
    if negb (c2 =? cQUOTE) then fail (EUnexpectedByte c2 cQUOTE 0)
    else incHead ;; do k <- readObjectField; ret (Some k)
  else fail (EUnexpectedByte c cRBRACE cCOMMA).

(** iterator_object.go:136-166, one round per unit of fuel *)
Fixpoint objectCB_loop {S} (fuel : nat) (cb : S -> bytes -> M S) (s : S) : M S :=
  match fuel with
  | O => fun it => (OutOfFuel, it)
  | Datatypes.S f =>
      do k <- readObjectField;
      do s' <- cb s k;
      do c <- nextToken;
      if c =? cRBRACE then incHead ;; ret s'
      else if c =? cCOMMA then
        incHead ;;
        do c2 <- nextToken;
        if negb (c2 =? cQUOTE) then fail (EUnexpectedByte c2 cQUOTE 0)
        else incHead ;; objectCB_loop f cb s'
      else fail (EUnexpectedByte c cRBRACE cCOMMA)
  end.

(** iterator_object.go:116-167 *)
Definition ReadObjectCB {S} (cb : S -> bytes -> M S) (s : S) : M S :=
  do c <- nextToken;
  if negb (c =? cLBRACE) then fail (EUnexpectedByte c cLBRACE 0)
  else
    incHead ;;
    do c2 <- nextToken;
    if c2 =? cRBRACE then incHead ;; ret s
    else if negb (c2 =? cQUOTE) then fail (EUnexpectedByte c2 cQUOTE cRBRACE)
    else incHead ;; fun it => objectCB_loop (Datatypes.S (left_total it)) cb s it.

(** The same loop with ReadObjectBegin/ReadObjectMore: iterator_object.go:48-112 *)
Fixpoint objectClient_loop {S} (fuel : nat) (cb : S -> bytes -> M S) (o : option bytes) (s : S) : M S :=
  match fuel with
  | O => fun it => (OutOfFuel, it)
  | Datatypes.S f =>
      match o with
      | Some k =>
          do s' <- cb s k;
          do o' <- ReadObjectMore;
          objectClient_loop f cb o' s'
      | None => ret s
      end
  end.
(** iterator_object.go:48-112 *)
Definition objectClient {S} (cb : S -> bytes -> M S) (s : S) : M S :=
  do o <- ReadObjectBegin;
  fun it => objectClient_loop (Datatypes.S (left_total it)) cb o s it.
