(** Reading a value into an interface{}.  Code: iterator_read.go, iterator_read_array.go,
    iterator_read_object.go, node.go. *)
From Coq Require Import ZArith List Bool Lia String.
From Verif Require Import Base ModelIter ModelStack ModelSkip ModelStr ModelFloat.
Import ListNotations.
Local Open Scope Z_scope.

Section Read.
Variable F : floatOps.

(** The dynamic values Read produces.  A Go map is an association list without duplicate
    keys (see [map_set]); the order of its entries has no meaning. *)
Inductive gval :=
| GNil
| GBool (b : bool)
| GFloat (f : fl F)
| GNumber (s : bytes)                 (* json.Number *)
| GString (s : bytes)
| GSlice (l : list gval)
| GMap (m : list (bytes * gval)).

(** == on strings *)
Fixpoint bytes_eqb (a b : bytes) : bool :=
  match a, b with
  | [], [] => true
  | x :: a', y :: b' => (x =? y) && bytes_eqb a' b'
  | _, _ => false
  end.

(** m[key] = value *)
Fixpoint map_set (m : list (bytes * gval)) (k : bytes) (v : gval) : list (bytes * gval) :=
  match m with
  | [] => [(k, v)]
  | (k', v') :: m' => if bytes_eqb k' k then (k, v) :: m' else (k', v') :: map_set m' k v
  end.

(** node.go:15-19; exactly one of m and s is non-nil *)
Inductive nodeVal :=
| NMap (m : list (bytes * gval))
| NSlice (s : list gval).
(** node.go:15-19 *)
Record readNode := mkNode { nd_val : nodeVal; nd_field : bytes }.

(** node.go:21-23; the top of the stack is the head of the list *)
Definition nodeStack := list readNode.

(** node.go:25-30, 32-37 *)
Definition ns_initArray (s : list gval) : nodeStack := [mkNode (NSlice s) []].
(** node.go:32-37 *)
Definition ns_initObject (m : list (bytes * gval)) : nodeStack := [mkNode (NMap m) []].

(** node.go:39-45, 47-53 *)
Definition ns_pushArray (field : bytes) (ns : nodeStack) : nodeStack := mkNode (NSlice []) field :: ns.
(** node.go:47-53 *)
Definition ns_pushObject (field : bytes) (ns : nodeStack) : nodeStack := mkNode (NMap []) field :: ns.

(** node.go:55-57; a nil map (the node holds a slice) is reported as a nil map value *)
Definition ns_topObject (ns : nodeStack) : option gval :=
  match ns with
  | [] => None
  | n :: _ => match nd_val n with NMap m => Some (GMap m) | NSlice _ => Some GNil end
  end.
(** node.go:59-61 *)
Definition ns_topArray (ns : nodeStack) : option gval :=
  match ns with
  | [] => None
  | n :: _ => match nd_val n with NSlice s => Some (GSlice s) | NMap _ => Some GNil end
  end.

(** node.go:63-65; writing to a nil map panics *)
Definition ns_setTopObject (key : bytes) (v : gval) (ns : nodeStack) : option nodeStack :=
  match ns with
  | [] => None
  | n :: r => match nd_val n with
              | NMap m => Some (mkNode (NMap (map_set m key v)) (nd_field n) :: r)
              | NSlice _ => None
              end
  end.

(** node.go:67-70; appending to the nil slice of a map node leaves the map in place *)
Definition ns_appendTopArray (v : gval) (ns : nodeStack) : option nodeStack :=
  match ns with
  | [] => None
  | n :: r => match nd_val n with
              | NSlice s => Some (mkNode (NSlice (s ++ [v])) (nd_field n) :: r)
              | NMap m => Some (n :: r)
              end
  end.

(** node.go:72-82 and 84-94: attach the finished top node to the one below *)
Definition ns_attach (v : gval) (field : bytes) (next : readNode) : readNode :=
  match nd_val next with
  | NMap m => mkNode (NMap (map_set m field v)) (nd_field next)
  | NSlice s => mkNode (NSlice (s ++ [v])) (nd_field next)
  end.
(** node.go:72-82 *)
Definition ns_popObject (ns : nodeStack) : option nodeStack :=
  match ns with
  | first :: next :: r =>
      let v := match nd_val first with NMap m => GMap m | NSlice _ => GNil end in
      Some (ns_attach v (nd_field first) next :: r)
  | _ => None
  end.
(** node.go:84-94 *)
Definition ns_popArray (ns : nodeStack) : option nodeStack :=
  match ns with
  | first :: next :: r =>
      let v := match nd_val first with NSlice s => GSlice s | NMap _ => GNil end in
      Some (ns_attach v (nd_field first) next :: r)
  | _ => None
  end.

(** iterator_read.go:27-33 *)
Definition readNumberValue (c : Z) : M gval := fun it =>
  if it_useNumber it then (do s <- readNumberAsString c; ret (GNumber s)) it
  else (do f <- readFloat F c; ret (GFloat f)) it.

(** iterator_read.go:11-43 without the entries for '[' and '{' *)
Definition readLeaf (c : Z) : M gval :=
  if c =? cQUOTE then do s <- readString; ret (GString s)
  else if c =? c_n then expectBytes (bs "ull") ;; ret GNil
  else if c =? c_t then expectBytes (bs "rue") ;; ret (GBool true)
  else if c =? c_f then expectBytes (bs "alse") ;; ret (GBool false)
  else if (c =? cMINUS) || ((cZERO <=? c) && (c <=? cNINE)) then readNumberValue c
  else fail (EUnexpectedByte c 0 0).

(** an index out of range is a panic *)
Definition opt {A} (o : option A) : M A :=
  match o with Some a => ret a | None => panic end.

(** iterator_read.go:55-152; one iteration of the for loop per unit of fuel *)
Fixpoint readWithStack_loop (fuel : nat) (top : Z) (s : stack) (ns : nodeStack) : M gval :=
  match fuel with
  | O => outOfFuel
  | S f =>
      do c0 <- takeToken;
      if Z.land top 1 =? 0 then
        if c0 =? cRBRACE then
          match pop s with
          | None => panic
          | Some (top', s') =>
              if top' =? stackElementNone then opt (ns_topObject ns)
              else do ns' <- opt (ns_popObject ns); readWithStack_loop f top' s' ns'
          end
        else
          do c <- (if top =? stackElementObject then
                     if negb (c0 =? cCOMMA) then fail (EUnexpectedByte c0 cCOMMA 0)
                     else takeToken
                   else ret c0);
          if negb (c =? cQUOTE) then fail (EUnexpectedByte c cQUOTE 0)
          else
            do field <- readObjectField;
            do d <- takeToken;
            if d =? cLBRACK then
              match pushObject s with
              | None => panic
              | Some s' => readWithStack_loop f stackElementArrayBegin s' (ns_pushArray field ns)
              end
            else if d =? cLBRACE then
              match pushObject s with
              | None => panic
              | Some s' => readWithStack_loop f stackElementObjectBegin s' (ns_pushObject field ns)
              end
            else
              do o <- readLeaf d;
              do ns' <- opt (ns_setTopObject field o ns);
              readWithStack_loop f stackElementObject s ns'
      else
        if c0 =? cRBRACK then
          match pop s with
          | None => panic
          | Some (top', s') =>
              if top' =? stackElementNone then opt (ns_topArray ns)
              else do ns' <- opt (ns_popArray ns); readWithStack_loop f top' s' ns'
          end
        else
          do c <- (if top =? stackElementArray then
                     if negb (c0 =? cCOMMA) then fail (EUnexpectedByte c0 cCOMMA 0)
                     else takeToken
                   else ret c0);
          if c =? cLBRACK then
            match pushArray s with
            | None => panic
            | Some s' => readWithStack_loop f stackElementArrayBegin s' (ns_pushArray [] ns)
            end
          else if c =? cLBRACE then
            match pushArray s with
            | None => panic
            | Some s' => readWithStack_loop f stackElementObjectBegin s' (ns_pushObject [] ns)
            end
          else
            do o <- readLeaf c;
            do ns' <- opt (ns_appendTopArray o ns);
            readWithStack_loop f stackElementArray s ns'
  end.
(** iterator_read.go:55-152; one unit of fuel for every byte that is left *)
Definition readWithStack (top : Z) (s : stack) (ns : nodeStack) : M gval := fun it =>
  readWithStack_loop (S (left_total it)) top s ns it.

(** iterator_read_array.go:13-59 *)
Fixpoint readArray_loop (fuel : nat) (c : Z) (topObj : list gval) : M gval :=
  match fuel with
  | O => outOfFuel
  | S f =>
      if c =? cLBRACE then
        fun it => readWithStack stackElementObjectBegin (initArray (it_pool it))
                    (ns_pushObject [] (ns_initArray topObj)) it
      else if c =? cLBRACK then
        fun it => readWithStack stackElementArrayBegin (initArray (it_pool it))
                    (ns_pushArray [] (ns_initArray topObj)) it
      else
        do o <- readLeaf c;
        let topObj' := topObj ++ [o] in
        do d <- takeToken;
        if d =? cRBRACK then ret (GSlice topObj')
        else if negb (d =? cCOMMA) then fail (EUnexpectedByte d cCOMMA cRBRACK)
        else do c' <- takeToken; readArray_loop f c' topObj'
  end.

(** iterator_read_array.go:3-60 *)
Definition readArrayWithStack : M gval :=
  do c <- takeToken;
  if c =? cRBRACK then ret (GSlice [])
  else fun it => readArray_loop (S (left_total it)) c [] it.

(** iterator_read_object.go:13-71 *)
Fixpoint readObject_loop (fuel : nat) (c : Z) (topObj : list (bytes * gval)) : M gval :=
  match fuel with
  | O => outOfFuel
  | S f =>
      if negb (c =? cQUOTE) then fail (EUnexpectedByte c cQUOTE 0)
      else
        incHead ;;
        do field <- readObjectField;
        do d <- takeToken;
        if d =? cLBRACE then
          fun it => readWithStack stackElementObjectBegin (initObject (it_pool it))
                      (ns_pushObject field (ns_initObject topObj)) it
        else if d =? cLBRACK then
          fun it => readWithStack stackElementArrayBegin (initObject (it_pool it))
                      (ns_pushArray field (ns_initObject topObj)) it
        else
          do o <- readLeaf d;
          let topObj' := map_set topObj field o in
          do e <- takeToken;
          if e =? cRBRACE then ret (GMap topObj')
          else if negb (e =? cCOMMA) then fail (EUnexpectedByte e cRBRACE cCOMMA)
          else do c' <- nextToken; readObject_loop f c' topObj'
  end.

(** iterator_read_object.go:3-72 *)
Definition readObjectWithStack : M gval :=
  do c <- nextToken;
  if c =? cRBRACE then incHead ;; ret (GMap [])
  else fun it => readObject_loop (S (left_total it)) c [] it.

(** iterator_read.go:11-43, the whole table *)
Definition readFunctions (c : Z) : M gval :=
  if c =? cLBRACK then readArrayWithStack
  else if c =? cLBRACE then readObjectWithStack
  else readLeaf c.

(** iterator_read.go:46-53 *)
Definition Read : M gval := do c <- takeToken; readFunctions c.
End Read.
Arguments GNil {F}.
Arguments GBool {F} _.
Arguments GFloat {F} _.
Arguments GNumber {F} _.
Arguments GString {F} _.
Arguments GSlice {F} _.
Arguments GMap {F} _.
