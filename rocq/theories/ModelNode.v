(** Read with the memory it writes to.  Code: iterator_read.go, iterator_read_array.go, iterator_read_object.go, node.go.
    ModelRead.v has the same functions on values; here maps and arrays are cells of a memory, a slice is a window on an
    array, append writes behind the window if there is room, and the node stack that comes from the pool still has in its
    array what earlier calls left there. *)
From Coq Require Import ZArith List Bool Lia.
From Verif Require Import Base ModelIter ModelStack ModelSkip ModelStr ModelFloat ModelRead.
Import ListNotations.
Local Open Scope Z_scope.

Section Node.
Variable F : floatOps.
(** The capacity that the runtime adds when append needs a new array for the given length (growslice in the Go
    runtime): any function. *)
Variable spare : nat -> nat.

(** an interface{} word pair made by iterator_read.go:11-53: a map is the address of its cell, a slice the address of
    its array with its length.  Its capacity is that of the array: the code never makes a window with less. *)
Inductive word :=
| WNil
| WBool (b : bool)
| WFloat (f : fl F)
| WNumber (s : bytes)
| WString (s : bytes)
| WSlice (a len : nat)
| WMap (a : nat)
| WNilMap                             (* node.go:56: the nil map of a node that holds a slice *)
| WNilSlice.                          (* node.go:60: the nil slice of a node that holds a map *)
(** node.go:16-17: what maps and slices refer to.  An array has the words behind the length of the slice, too. *)
Inductive cell := CMap (m : list (bytes * word)) | CArr (l : list word).
(** node.go:16-17: the cells; an address is a position in the list, nothing is ever freed *)
Definition heap := list cell.

(** node.go:15-19; a map or a slice may be nil *)
Record slot := mkSlot { sl_m : option nat; sl_s : option (nat * nat); sl_field : bytes }.
(** node.go:21-23: the array of ns.stack with all its entries, and the length of ns.stack *)
Record nstack := mkNs { ns_slots : list slot; ns_len : nat }.

(** the memory and the node stack that nodeStackPool.Get returns, iterator_read_array.go:22, or that is in use *)
Record mem := mkMem { me_heap : heap; me_ns : nstack }.
(** a step on the iterator and the memory, as in Base.v for the iterator alone; iterator_read.go:55-152 *)
Definition N (A : Type) := mem -> iter -> res A * iter * mem.
(** return, iterator_read.go:55-152 *)
Definition nret {A} (a : A) : N A := fun s it => (Ok a, it, s).
(** return with an error, iterator_read.go:55-152 *)
Definition nfail {A} (e : err) : N A := fun s it => (Err e, it, s).
(** an index out of range or a nil map written to, iterator_read.go:55-152 *)
Definition npanic {A} : N A := fun s it => (Panic, it, s).
(** one statement after the other, iterator_read.go:55-152 *)
Definition nbind {A B} (m : N A) (f : A -> N B) : N B := fun s it =>
  match m s it with
  | (Ok a, it', s') => f a s' it'
  | (Err e, it', s') => (Err e, it', s')
  | (Panic, it', s') => (Panic, it', s')
  | (OutOfFuel, it', s') => (OutOfFuel, it', s')
  end.
(** a method of the iterator that does not touch the memory of Read, iterator_read.go:55-152 *)
Definition lift {A} (m : M A) : N A := fun s it => let '(r, it') := m it in (r, it', s).

(** an entry of the list is replaced, node.go:63-94 *)
Fixpoint put_nth {A} (l : list A) (i : nat) (x : A) : list A :=
  match l, i with
  | [], _ => []
  | _ :: r, O => x :: r
  | y :: r, S j => y :: put_nth r j x
  end.
(** m[key] = value, as in ModelRead.v; node.go:64 *)
Fixpoint map_put (m : list (bytes * word)) (k : bytes) (v : word) : list (bytes * word) :=
  match m with
  | [] => [(k, v)]
  | (k', v') :: m' => if bytes_eqb k' k then (k, v) :: m' else (k', v') :: map_put m' k v
  end.
(** map[string]interface{}{} at node.go:49 and iterator_read_object.go:8 *)
Definition newMap (h : heap) : heap * nat := (h ++ [CMap []], length h).
(** make([]interface{}, 0) at node.go:41 and iterator_read_array.go:9.  Simplification: in Go an array without
    elements has no memory of its own; here it is a new cell that nobody can write to. *)
Definition newSlice (h : heap) : heap * (nat * nat) := (h ++ [CArr []], (length h, O)).
(** m[k] = v: nothing but the cell of the map is written; node.go:64 *)
Definition assign (h : heap) (a : nat) (k : bytes) (v : word) : option heap :=
  match nth_error h a with
  | Some (CMap m) => Some (put_nth h a (CMap (map_put m k v)))
  | _ => None
  end.
(** append(s, v): in place if the array has room behind the window, otherwise in a new array; node.go:69 *)
Definition append (h : heap) (s : nat * nat) (v : word) : option (heap * (nat * nat)) :=
  let '(a, len) := s in
  match nth_error h a with
  | Some (CArr l) =>
      if (len <? length l)%nat then Some (put_nth h a (CArr (put_nth l len v)), (a, S len))
      else Some (h ++ [CArr (firstn len l ++ v :: repeat WNil (spare (S len)))], (length h, S len))
  | _ => None
  end.

(** append(ns.stack, x): the entry behind the length is overwritten, whatever it was; node.go:39-53.  Simplification:
    the entries of a new array behind the length are not there until they are written. *)
Definition ns_append (ns : nstack) (x : slot) : nstack :=
  mkNs (if (ns_len ns <? length (ns_slots ns))%nat then put_nth (ns_slots ns) (ns_len ns) x else ns_slots ns ++ [x]) (S (ns_len ns)).
(** node.go:25-30 *)
Definition hInitArray (s : nat * nat) (ns : nstack) : nstack := ns_append (mkNs (ns_slots ns) 0) (mkSlot None (Some s) []).
(** node.go:32-37 *)
Definition hInitObject (a : nat) (ns : nstack) : nstack := ns_append (mkNs (ns_slots ns) 0) (mkSlot (Some a) None []).
(** node.go:39-45 *)
Definition hPushArray (field : bytes) : N unit := fun st it =>
  let '(h, s) := newSlice (me_heap st) in (Ok tt, it, mkMem h (ns_append (me_ns st) (mkSlot None (Some s) field))).
(** node.go:47-53 *)
Definition hPushObject (field : bytes) : N unit := fun st it =>
  let '(h, a) := newMap (me_heap st) in (Ok tt, it, mkMem h (ns_append (me_ns st) (mkSlot (Some a) None field))).
(** ns.stack[len(ns.stack)-1-k], node.go:56, :60, :64, :68-69, :73-75, :85-87 *)
Definition slotAt (ns : nstack) (k : nat) : option slot :=
  if (k <? ns_len ns)%nat then nth_error (ns_slots ns) (ns_len ns - 1 - k) else None.
(** a map, which may be nil, in an interface{}; node.go:56 *)
Definition mapWord (m : option nat) : word := match m with Some a => WMap a | None => WNilMap end.
(** a slice, which may be nil, in an interface{}; node.go:60 *)
Definition sliceWord (s : option (nat * nat)) : word := match s with Some (a, len) => WSlice a len | None => WNilSlice end.
(** node.go:55-57 *)
Definition hTopObject : N word := fun st it =>
  match slotAt (me_ns st) 0 with
  | Some x => (Ok (mapWord (sl_m x)), it, st)
  | None => (Panic, it, st)
  end.
(** node.go:59-61 *)
Definition hTopArray : N word := fun st it =>
  match slotAt (me_ns st) 0 with
  | Some x => (Ok (sliceWord (sl_s x)), it, st)
  | None => (Panic, it, st)
  end.
(** node.go:63-65 *)
Definition hSetTopObject (key : bytes) (v : word) : N unit := fun st it =>
  match slotAt (me_ns st) 0 with
  | Some x =>
      match sl_m x with
      | Some a => match assign (me_heap st) a key v with
                  | Some h => (Ok tt, it, mkMem h (me_ns st))
                  | None => (Panic, it, st)
                  end
      | None => (Panic, it, st)
      end
  | None => (Panic, it, st)
  end.
(** x.s = append(x.s, v) for the entry at the given place; appending to a nil slice makes an array; node.go:69, :79, :91 *)
Definition appendAt (i : nat) (v : word) (st : mem) : option mem :=
  match nth_error (ns_slots (me_ns st)) i with
  | Some x =>
      match (match sl_s x with
             | Some s => append (me_heap st) s v
             | None => Some (me_heap st ++ [CArr (v :: repeat WNil (spare 1))], (length (me_heap st), 1%nat))
             end) with
      | Some (h, s') => Some (mkMem h (mkNs (put_nth (ns_slots (me_ns st)) i (mkSlot (sl_m x) (Some s') (sl_field x))) (ns_len (me_ns st))))
      | None => None
      end
  | None => None
  end.
(** node.go:67-70 *)
Definition hAppendTopArray (v : word) : N unit := fun st it =>
  match ns_len (me_ns st) with
  | O => (Panic, it, st)
  | S l => match appendAt l v st with Some st' => (Ok tt, it, st') | None => (Panic, it, st) end
  end.
(** node.go:76-81 and :88-93: [v] goes to the node below the top, under the field of the top, and the top is dropped.
    The entry of the top stays in the array behind the length. *)
Definition hAttach (v : slot -> word) : N unit := fun st it =>
  match ns_len (me_ns st), slotAt (me_ns st) 0, slotAt (me_ns st) 1 with
  | S (S l), Some first, Some next =>
      match (match sl_m next with
             | Some a => option_map (fun h => mkMem h (me_ns st)) (assign (me_heap st) a (sl_field first) (v first))
             | None => appendAt l (v first) st
             end) with
      | Some st' => (Ok tt, it, mkMem (me_heap st') (mkNs (ns_slots (me_ns st')) (S l)))
      | None => (Panic, it, st)
      end
  | _, _, _ => (Panic, it, st)
  end.
(** node.go:72-82 *)
Definition hPopObject : N unit := hAttach (fun x => mapWord (sl_m x)).
(** node.go:84-94 *)
Definition hPopArray : N unit := hAttach (fun x => sliceWord (sl_s x)).
(** node.go:96-99: the entries stay *)
Definition hRelease : N unit := fun st it => (Ok tt, it, mkMem (me_heap st) (mkNs (ns_slots (me_ns st)) 0)).

(** a value that is not a container in an interface{}; iterator_read.go:11-43 *)
Definition leafWord (g : gval F) : word :=
  match g with
  | GBool b => WBool b
  | GFloat f => WFloat f
  | GNumber s => WNumber s
  | GString s => WString s
  | _ => WNil
  end.
(** iterator_read.go:11-43 without the entries for '[' and '{' *)
Definition hReadLeaf (c : Z) : N word := nbind (lift (readLeaf F c)) (fun g => nret (leafWord g)).

(** iterator_read.go:55-152; one iteration of the for loop per unit of fuel *)
Fixpoint hLoop (fuel : nat) (top : Z) (s : stack) : N word :=
  match fuel with
  | O => lift outOfFuel
  | S f =>
      nbind (lift takeToken) (fun c0 =>
      if Z.land top 1 =? 0 then
        if c0 =? cRBRACE then
          match pop s with
          | None => npanic
          | Some (top', s') =>
              if top' =? stackElementNone then hTopObject
              else nbind hPopObject (fun _ => hLoop f top' s')
          end
        else
          nbind (if top =? stackElementObject then
                   if negb (c0 =? cCOMMA) then nfail (EUnexpectedByte c0 cCOMMA 0)
                   else lift takeToken
                 else nret c0) (fun c =>
          if negb (c =? cQUOTE) then nfail (EUnexpectedByte c cQUOTE 0)
          else
            nbind (lift readObjectField) (fun field =>
            nbind (lift takeToken) (fun d =>
            if d =? cLBRACK then
              match pushObject s with
              | None => npanic
              | Some s' => nbind (hPushArray field) (fun _ => hLoop f stackElementArrayBegin s')
              end
            else if d =? cLBRACE then
              match pushObject s with
              | None => npanic
              | Some s' => nbind (hPushObject field) (fun _ => hLoop f stackElementObjectBegin s')
              end
            else
              nbind (hReadLeaf d) (fun o =>
              nbind (hSetTopObject field o) (fun _ =>
              hLoop f stackElementObject s)))))
      else
        if c0 =? cRBRACK then
          match pop s with
          | None => npanic
          | Some (top', s') =>
              if top' =? stackElementNone then hTopArray
              else nbind hPopArray (fun _ => hLoop f top' s')
          end
        else
          nbind (if top =? stackElementArray then
                   if negb (c0 =? cCOMMA) then nfail (EUnexpectedByte c0 cCOMMA 0)
                   else lift takeToken
                 else nret c0) (fun c =>
          if c =? cLBRACK then
            match pushArray s with
            | None => npanic
            | Some s' => nbind (hPushArray []) (fun _ => hLoop f stackElementArrayBegin s')
            end
          else if c =? cLBRACE then
            match pushArray s with
            | None => npanic
            | Some s' => nbind (hPushObject []) (fun _ => hLoop f stackElementObjectBegin s')
            end
          else
            nbind (hReadLeaf c) (fun o =>
            nbind (hAppendTopArray o) (fun _ =>
            hLoop f stackElementArray s))))
  end.
(** iterator_read.go:55-152 and the release in iterator_read_array.go:24-27, :33-36, iterator_read_object.go:37-40, :46-49,
    which happens with and without an error.  [init] fills the node stack and the stack taken from the pools. *)
Definition hReadWithStack (top : Z) (init : stack -> stack) (initNs : nstack -> nstack) (push : N unit) : N word := fun st it =>
  match nbind (fun st it => (Ok tt, it, mkMem (me_heap st) (initNs (me_ns st))))
          (fun _ => nbind push (fun _ => fun st it => hLoop (S (left_total it)) top (init (it_pool it)) st it)) st it with
  | (Ok v, it', st') => nbind hRelease (fun _ => nret v) st' it'
  | (Err e, it', st') => nbind hRelease (fun _ => nfail e) st' it'
  | (Panic, it', st') => (Panic, it', st')
  | (OutOfFuel, it', st') => (OutOfFuel, it', st')
  end.

(** iterator_read_array.go:13-59 *)
Fixpoint hArray_loop (fuel : nat) (c : Z) (topObj : nat * nat) : N word :=
  match fuel with
  | O => lift outOfFuel
  | S f =>
      if c =? cLBRACE then hReadWithStack stackElementObjectBegin initArray (hInitArray topObj) (hPushObject [])
      else if c =? cLBRACK then hReadWithStack stackElementArrayBegin initArray (hInitArray topObj) (hPushArray [])
      else
        nbind (hReadLeaf c) (fun o =>
        nbind (fun st it => match append (me_heap st) topObj o with
                            | Some (h, s) => (Ok s, it, mkMem h (me_ns st))
                            | None => (Panic, it, st)
                            end) (fun topObj' =>
        nbind (lift takeToken) (fun d =>
        if d =? cRBRACK then nret (WSlice (fst topObj') (snd topObj'))
        else if negb (d =? cCOMMA) then nfail (EUnexpectedByte d cCOMMA cRBRACK)
        else nbind (lift takeToken) (fun c' => hArray_loop f c' topObj'))))
  end.
(** iterator_read_array.go:3-60 *)
Definition hReadArray : N word :=
  nbind (lift takeToken) (fun c =>
  nbind (fun st it => let '(h, s) := newSlice (me_heap st) in (Ok s, it, mkMem h (me_ns st))) (fun topObj =>
  if c =? cRBRACK then nret (WSlice (fst topObj) (snd topObj))
  else fun st it => hArray_loop (S (left_total it)) c topObj st it)).

(** iterator_read_object.go:13-71 *)
Fixpoint hObject_loop (fuel : nat) (c : Z) (topObj : nat) : N word :=
  match fuel with
  | O => lift outOfFuel
  | S f =>
      if negb (c =? cQUOTE) then nfail (EUnexpectedByte c cQUOTE 0)
      else
        nbind (lift incHead) (fun _ =>
        nbind (lift readObjectField) (fun field =>
        nbind (lift takeToken) (fun d =>
        if d =? cLBRACE then hReadWithStack stackElementObjectBegin initObject (hInitObject topObj) (hPushObject field)
        else if d =? cLBRACK then hReadWithStack stackElementArrayBegin initObject (hInitObject topObj) (hPushArray field)
        else
          nbind (hReadLeaf d) (fun o =>
          nbind (fun st it => match assign (me_heap st) topObj field o with
                              | Some h => (Ok tt, it, mkMem h (me_ns st))
                              | None => (Panic, it, st)
                              end) (fun _ =>
          nbind (lift takeToken) (fun e =>
          if e =? cRBRACE then nret (WMap topObj)
          else if negb (e =? cCOMMA) then nfail (EUnexpectedByte e cRBRACE cCOMMA)
          else nbind (lift nextToken) (fun c' => hObject_loop f c' topObj)))))))
  end.
(** iterator_read_object.go:3-72 *)
Definition hReadObject : N word :=
  nbind (lift nextToken) (fun c =>
  nbind (fun st it => let '(h, a) := newMap (me_heap st) in (Ok a, it, mkMem h (me_ns st))) (fun topObj =>
  if c =? cRBRACE then nbind (lift incHead) (fun _ => nret (WMap topObj))
  else fun st it => hObject_loop (S (left_total it)) c topObj st it)).
(** iterator_read.go:11-43 and :46-53 *)
Definition hRead : N word :=
  nbind (lift takeToken) (fun c =>
  if c =? cLBRACK then hReadArray
  else if c =? cLBRACE then hReadObject
  else hReadLeaf c).
End Node.
Arguments WNil {F}.
Arguments WBool {F} _.
Arguments WFloat {F} _.
Arguments WNumber {F} _.
Arguments WString {F} _.
Arguments WSlice {F} _ _.
Arguments WMap {F} _.
Arguments WNilMap {F}.
Arguments WNilSlice {F}.
Arguments CMap {F} _.
Arguments CArr {F} _.
Arguments mkMem {F} _ _.
Arguments me_heap {F} _.
Arguments me_ns {F} _.
