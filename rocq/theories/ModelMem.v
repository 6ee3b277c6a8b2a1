(** Byte slices in memory: which arrays the iterators, the streamers and the callers share.

    The other files model the buffers of an iterator and of a streamer as values.  Here a slice is a window
    on an array, append writes in place when the capacity allows it, and several slices may show the same
    array.  Code: iterator.go, iterator_pool.go, iterator_raw.go, iterator_str.go (the uses of buffer, fixbuf
    and tmpBuffer), val_decoder_native_struct.go:131, streamer.go, streamer_float.go:37-45, streamer_pool.go,
    encoder_config.go:85-99, convert.go.

    A world holds the memory, all iterators and streamers (in use or in their pools) and the arrays of the
    callers.  An operation is one access of the code to these fields, or an action of a caller; the functions
    of the library are sequences of operations, and so are several goroutines that use it.  An operation that
    the code cannot perform (a slice out of bounds, an iterator that was released) gives [None].  A refill whose
    fuel is used up stands for the first rounds of a loop that goes on.
    Simplifications: a caller does not write to a slice that is only lent to it (by SkipRaw,
    ReadStringAsSlice or Buffer), and does not use an iterator or streamer that it has released; an io.Reader
    writes only the bytes that it delivers; sync.Pool returns an object that was put there, or a new one. *)
From Coq Require Import ZArith List Bool.
From Verif Require Import Base ModelIter ModelVal.
Import ListNotations.
Local Open Scope nat_scope.

(** the arrays that were allocated; the address of an array is its position *)
Definition mem := list bytes.
(** a slice header (convert.go:7-14, runtime): array, offset of the first byte, length, capacity *)
Record sl := mkSl { s_arr : nat; s_off : nat; s_len : nat; s_cap : nat }.
(** a nil slice *)
Definition nilSlice : sl := mkSl 0 0 0 0.
(** the contents of an array *)
Definition arr (m : mem) (a : nat) : bytes := nth a m [].
(** the bytes that a slice shows *)
Definition get (m : mem) (s : sl) : bytes := firstn (s_len s) (skipn (s_off s) (arr m (s_arr s))).
(** the slice exists: its window is inside an array, or it has no capacity *)
Definition inside (m : mem) (s : sl) : bool :=
  (s_len s <=? s_cap s) && ((s_cap s =? 0) || ((s_arr s <? length m) && (s_off s + s_cap s <=? length (arr m (s_arr s))))).
(** s[i:j] *)
Definition reslice (s : sl) (i j : nat) : option sl :=
  if (i <=? j) && (j <=? s_cap s) then Some (mkSl (s_arr s) (s_off s + i) (j - i) (s_cap s - i)) else None.
(** replaces the bytes of a list from position [k] on *)
Definition splice (l : bytes) (k : nat) (xs : bytes) : bytes := firstn k l ++ xs ++ skipn (k + length xs) l.
(** stores bytes into an array from position [k] on *)
Definition wr (m : mem) (a k : nat) (xs : bytes) : mem := upd m a (splice (arr m a) k xs).
(** make and the allocations of the runtime: a new array *)
Definition alloc (m : mem) (xs : bytes) : nat * mem := (length m, m ++ [xs]).
(** append(s, xs...) (runtime growslice): in place if the capacity suffices; otherwise in a new array, which
    gets [grow n] bytes more than the n needed *)
Definition append (grow : nat -> nat) (m : mem) (s : sl) (xs : bytes) : mem * sl :=
  let n := s_len s + length xs in
  if n <=? s_cap s then (wr m (s_arr s) (s_off s + s_len s) xs, mkSl (s_arr s) (s_off s) n (s_cap s))
  else let '(a, m') := alloc m (get m s ++ xs ++ repeat 0%Z (grow n)) in (m', mkSl a 0 n (n + grow n)).

(** iterator.go:33-51: the fields that the operations use.  [h_buf] is not a field but the local variable buf
    of readStringAsSlice (iterator_str.go:133-199), of ReadFloat32, ReadFloat64 (iterator_float32.go:21-26,
    iterator_float64.go:15-20) and fieldOut (val_decoder_native_struct.go:130), which grows the temporary
    buffer before it is stored back. *)
Record hiter := mkH {
  h_reader : option reader;
  h_buffer : sl;
  h_fixbuf : sl;
  h_tmp : sl;
  h_buf : sl;
  h_tail : nat;
  h_capture : bool;
  h_offset : nat;
  h_head : nat
}.

(** iterator_pool.go:16-23: a new iterator *)
Definition newIter (m : mem) : hiter * mem :=
  let '(a, m1) := alloc m (repeat 0%Z 64) in
  let '(b, m2) := alloc m1 (repeat 0%Z 64) in
  (mkH None nilSlice (mkSl b 0 64 64) (mkSl a 0 64 64) (mkSl a 0 64 64) 0 false 0 0, m2).

(** iterator.go:63-70 *)
Definition h_reset (h : hiter) : hiter :=
  mkH None nilSlice (h_fixbuf h) (h_tmp h) (h_buf h) 0 false 0 0.
(** iterator.go:79-94, case of a reader *)
Definition h_Reset (r : reader) (h : hiter) : option hiter :=
  match reslice (h_fixbuf h) 0 (s_cap (h_fixbuf h)) with
  | Some b => Some (mkH (Some r) b (h_fixbuf h) (h_tmp h) (h_buf h) 0 false 0 0)
  | None => None
  end.
(** iterator.go:97-104 and :86 ([d] is then the slice of the bytes.Buffer); also decoder_config.go:89 and
    val_decoder_native.go:105, where the bytes are those of a string *)
Definition h_ResetBytes (d : sl) (h : hiter) : hiter :=
  mkH None d (h_fixbuf h) (h_tmp h) (h_buf h) (s_len d) false 0 0.

(** iterator.go:142-182, one iteration per unit of fuel.  In capture mode the reader fills a local array and
    append copies from there; otherwise it writes into the buffer. *)
Fixpoint h_readMore_loop (grow : nat -> nat) (fuel : nat) (m : mem) (h : hiter) : res unit * (mem * hiter) :=
  match fuel with
  | O => (OutOfFuel, (m, h))
  | S f =>
      match h_reader h with
      | None => (Err EEOF, (m, h))
      | Some r =>
          match (if h_capture h then
                   match reslice (h_buffer h) 0 (h_tail h) with
                   | None => None
                   | Some s =>
                       let '(bs, e, r') := rd_read bufferSize r in
                       let '(m', b) := append grow m s bs in
                       Some (bs, e, m', mkH (Some r') b b (h_tmp h) (h_buf h) (h_tail h + length bs) true (h_offset h) (h_head h))
                   end
                 else
                   let '(bs, e, r') := rd_read (s_len (h_buffer h)) r in
                   let m' := wr m (s_arr (h_buffer h)) (s_off (h_buffer h)) bs in
                   Some (bs, e, m', mkH (Some r') (h_buffer h) (h_fixbuf h) (h_tmp h) (h_buf h) (length bs) false
                                        (h_offset h + h_tail h) 0)) with
          | None => (Panic, (m, h))
          | Some (bs, e, m', h') =>
              match e with
              | Some x => (if err_eqb_eof x && (0 <? length bs) then Ok tt else Err x, (m', h'))
              | None => if 0 <? length bs then (Ok tt, (m', h')) else h_readMore_loop grow f m' h'
              end
          end
      end
  end.
(** iterator.go:142-182, with the fuel of [readMore] *)
Definition h_readMore (grow : nat -> nat) (m : mem) (h : hiter) : res unit * (mem * hiter) :=
  h_readMore_loop grow (S (S (match h_reader h with None => 0 | Some r => length (rd_sched r) end))) m h.

(** it.head = k and it.capture = b, at many places *)
Definition h_setHead (k : nat) (h : hiter) : hiter :=
  mkH (h_reader h) (h_buffer h) (h_fixbuf h) (h_tmp h) (h_buf h) (h_tail h) (h_capture h) (h_offset h) k.
(** it.capture = b (iterator_raw.go:12, 16, iterator_number.go:7, 17 and others) *)
Definition h_setCapture (b : bool) (h : hiter) : hiter :=
  mkH (h_reader h) (h_buffer h) (h_fixbuf h) (h_tmp h) (h_buf h) (h_tail h) b (h_offset h) (h_head h).
(** buf := it.tmpBuffer[:n] *)
Definition h_takeTmp (n : nat) (h : hiter) : option hiter :=
  match reslice (h_tmp h) 0 n with
  | Some b => Some (mkH (h_reader h) (h_buffer h) (h_fixbuf h) (h_tmp h) b (h_tail h) (h_capture h) (h_offset h) (h_head h))
  | None => None
  end.
(** buf = append(buf, xs...) *)
Definition h_appendBuf (grow : nat -> nat) (m : mem) (xs : bytes) (h : hiter) : mem * hiter :=
  let '(m', b) := append grow m (h_buf h) xs in
  (m', mkH (h_reader h) (h_buffer h) (h_fixbuf h) (h_tmp h) b (h_tail h) (h_capture h) (h_offset h) (h_head h)).
(** it.tmpBuffer = buf *)
Definition h_storeTmp (h : hiter) : hiter :=
  mkH (h_reader h) (h_buffer h) (h_fixbuf h) (h_buf h) (h_buf h) (h_tail h) (h_capture h) (h_offset h) (h_head h).

(** the world; the flag of an iterator or streamer tells whether it is in use *)
Record world := mkWorld {
  w_mem : mem;
  w_iters : list (bool * hiter);
  w_streams : list (bool * sl);
  w_user : list nat
}.
(** nothing has happened yet *)
Definition world0 : world := mkWorld [] [] [] [].

(** the operations *)
Inductive op :=
| UNew (xs : bytes)                                       (* a caller allocates an array *)
| UWrite (a k : nat) (xs : bytes)                         (* a caller writes to its array *)
| INew                                                    (* iterator_pool.go:28-31, nothing in the pool *)
| IBorrow (i : nat)                                       (* iterator_pool.go:28-31 *)
| IRelease (i : nat)                                      (* iterator_pool.go:33-36 *)
| IResetNil (i : nat)                                     (* iterator.go:81-83 *)
| IReset (i : nat) (r : reader)                           (* iterator.go:79-94 *)
| IResetBytes (i : nat) (d : sl)                          (* iterator.go:97-104 *)
| IReadMore (i : nat) (grow : nat -> nat)                 (* iterator.go:142-182 *)
| IHead (i k : nat)                                       (* it.head = k *)
| ICapture (i : nat) (b : bool)                           (* it.capture = b *)
| ITake (i n : nat)                                       (* buf := it.tmpBuffer[:n] *)
| IAppend (i : nat) (grow : nat -> nat) (xs : bytes)      (* buf = append(buf, xs...) *)
| IStore (i : nat)                                        (* it.tmpBuffer = buf *)
| IAppendRaw (i : nat) (into : sl) (b e : nat) (grow : nat -> nat)
                                                          (* iterator_raw.go:24-31, after SkipRaw of buffer[b:e] *)
| IString (i : nat)                                       (* iterator_str.go:236-242: string(buf) *)
| INumber (i b e : nat)                                   (* iterator_number.go:14: string(it.buffer[b:e]) *)
| SNew                                                    (* streamer_pool.go:27-30, nothing in the pool *)
| SBorrow (i : nat)                                       (* streamer_pool.go:27-30 *)
| SRelease (i : nat)                                      (* streamer_pool.go:32-35 *)
| SReset (i : nat)                                        (* streamer.go:38-50 *)
| SAppend (i : nat) (grow : nat -> nat) (xs : bytes)      (* s.buffer = append(s.buffer, xs...) *)
| SFix (i : nat)                                          (* streamer_float.go:37-45 *)
| SFlush (i n : nat)                                      (* streamer.go:75-83, Write took n bytes *)
| SMarshal (i : nat).                                     (* encoder_config.go:96-97 *)

(** the iterator (streamer) [i], if it is in use *)
Definition busy {A} (l : list (bool * A)) (i : nat) : option A :=
  match nth_error l i with Some (true, x) => Some x | _ => None end.
(** replaces iterator [i] *)
Definition putIter (w : world) (i : nat) (m : mem) (h : hiter) : world :=
  mkWorld m (upd (w_iters w) i (true, h)) (w_streams w) (w_user w).
(** replaces the buffer of streamer [i] *)
Definition putStream (w : world) (i : nat) (m : mem) (s : sl) : world :=
  mkWorld m (w_iters w) (upd (w_streams w) i (true, s)) (w_user w).
(** a copy of some bytes is given to the caller *)
Definition give (w : world) (xs : bytes) : world :=
  let '(a, m) := alloc (w_mem w) xs in mkWorld m (w_iters w) (w_streams w) (a :: w_user w).

(** a caller may have the slice written to: it is nil, or a slice of an array of a caller *)
Definition isOwn (w : world) (s : sl) : bool := (s_cap s =? 0) || existsb (Nat.eqb (s_arr s)) (w_user w).

(** streamer_float.go:37-45: an exponent e-0x is shortened to e-x *)
Definition s_fix (m : mem) (s : sl) : mem * sl :=
  let l := get m s in
  let n := s_len s in
  if (4 <? n) && (nth (n - 4) l 0 =? 101)%Z && (nth (n - 3) l 0 =? 45)%Z && (nth (n - 2) l 0 =? 48)%Z
  then (wr m (s_arr s) (s_off s + (n - 2)) [nth (n - 1) l 0%Z], mkSl (s_arr s) (s_off s) (n - 1) (s_cap s))
  else (m, s).
(** streamer.go:75-83; copy moves the bytes as memmove does *)
Definition s_flush (m : mem) (s : sl) (n : nat) : mem * sl :=
  if n <? s_len s
  then (wr m (s_arr s) (s_off s) (skipn n (get m s)), mkSl (s_arr s) (s_off s) (s_len s - n) (s_cap s))
  else (m, mkSl (s_arr s) (s_off s) 0 (s_cap s)).

(** one operation; the code cited at [op] *)
Definition step (o : op) (w : world) : option world :=
  let m := w_mem w in
  let iter i k := match busy (w_iters w) i with Some h => k h | None => None end in
  let stream i k := match busy (w_streams w) i with Some s => k s | None => None end in
  match o with
  | UNew xs => Some (give w xs)
  | UWrite a k xs =>
      if existsb (Nat.eqb a) (w_user w) && (k + length xs <=? length (arr m a))
      then Some (mkWorld (wr m a k xs) (w_iters w) (w_streams w) (w_user w)) else None
  | INew => let '(h, m') := newIter m in Some (mkWorld m' (w_iters w ++ [(true, h)]) (w_streams w) (w_user w))
  | IBorrow i =>
      match nth_error (w_iters w) i with Some (false, h) => Some (putIter w i m h) | _ => None end
  | IRelease i =>
      iter i (fun h => Some (mkWorld m (upd (w_iters w) i (false, h_reset h)) (w_streams w) (w_user w)))
  | IResetNil i => iter i (fun h => Some (putIter w i m (h_reset h)))
  | IReset i r => iter i (fun h => match h_Reset r h with Some h' => Some (putIter w i m h') | None => None end)
  | IResetBytes i d => iter i (fun h => if inside m d then Some (putIter w i m (h_ResetBytes d h)) else None)
  | IReadMore i grow =>
      iter i (fun h => match h_readMore grow m h with
                       | (Panic, _) => None
                       | (_, (m', h')) => Some (putIter w i m' h')
                       end)
  | IHead i k => iter i (fun h => Some (putIter w i m (h_setHead k h)))
  | ICapture i b => iter i (fun h => Some (putIter w i m (h_setCapture b h)))
  | ITake i n => iter i (fun h => match h_takeTmp n h with Some h' => Some (putIter w i m h') | None => None end)
  | IAppend i grow xs => iter i (fun h => let '(m', h') := h_appendBuf grow m xs h in Some (putIter w i m' h'))
  | IStore i => iter i (fun h => Some (putIter w i m (h_storeTmp h)))
  | IAppendRaw i into b e grow =>
      iter i (fun h =>
        match reslice (h_buffer h) b e with
        | Some s =>
            if inside m into && isOwn w into then
              let '(m', d) := append grow m into (get m s) in
              Some (mkWorld m' (w_iters w) (w_streams w)
                     (if length m' =? length m then w_user w else s_arr d :: w_user w))
            else None
        | None => None
        end)
  | IString i => iter i (fun h => Some (give w (get m (h_tmp h))))
  | INumber i b e => iter i (fun h => match reslice (h_buffer h) b e with Some s => Some (give w (get m s)) | None => None end)
  | SNew =>
      let '(a, m') := alloc m (repeat 0%Z 64) in
      Some (mkWorld m' (w_iters w) (w_streams w ++ [(true, mkSl a 0 0 64)]) (w_user w))
  | SBorrow i =>
      match nth_error (w_streams w) i with Some (false, s) => Some (putStream w i m s) | _ => None end
  | SRelease i =>
      stream i (fun s => Some (mkWorld m (w_iters w) (upd (w_streams w) i (false, mkSl (s_arr s) (s_off s) 0 (s_cap s))) (w_user w)))
  | SReset i => stream i (fun s => Some (putStream w i m (mkSl (s_arr s) (s_off s) 0 (s_cap s))))
  | SAppend i grow xs => stream i (fun s => let '(m', s') := append grow m s xs in Some (putStream w i m' s'))
  | SFix i => stream i (fun s => let '(m', s') := s_fix m s in Some (putStream w i m' s'))
  | SFlush i n => stream i (fun s => let '(m', s') := s_flush m s n in Some (putStream w i m' s'))
  | SMarshal i => stream i (fun s => Some (give w (get m s)))
  end.
(** a sequence of operations *)
Fixpoint run (ops : list op) (w : world) : option world :=
  match ops with
  | [] => Some w
  | o :: r => match step o w with Some w' => run r w' | None => None end
  end.

(** A function of the library, as far as it uses its iterator: it looks at the fields other than fixbuf,
    refills the buffer, moves head, sets capture, and replaces the contents of the temporary buffer (in the
    code by several appends to buf before it is stored, here by one). *)
Inductive prog (A : Type) :=
| Done (a : A)
| See (k : iter -> prog A)
| More (k : res unit -> prog A)
| Head (n : nat) (p : prog A)
| Capture (b : bool) (p : prog A)
| Tmp (xs : bytes) (p : prog A).
Arguments Done {A}.
Arguments See {A}.
Arguments More {A}.
Arguments Head {A}.
Arguments Capture {A}.
Arguments Tmp {A}.
(** an iterator without its spare buffer *)
Definition hide (it : iter) : iter :=
  mkIter (it_reader it) (it_buffer it) [] (it_tmp it) (it_tail it) (it_capture it) (it_offset it) (it_head it)
         (it_useNumber it) (it_disallow it) (it_pool it).
(** the function run on an iterator of the other files *)
Fixpoint runV {A} (p : prog A) (it : iter) : A * iter :=
  match p with
  | Done a => (a, it)
  | See k => runV (k (hide it)) it
  | More k => let '(r, it') := readMore it in runV (k r) it'
  | Head n p => runV p (set_head n it)
  | Capture b p => runV p (set_capture b it)
  | Tmp xs p => runV p (set_tmp xs it)
  end.
(** the fields of an iterator in memory, without the spare buffer; useNumber, disallowUnknownFields and the
    stack pool are given *)
Definition fields (u d : bool) (q : stack) (m : mem) (h : hiter) : iter :=
  mkIter (h_reader h) (get m (h_buffer h)) [] (get m (h_tmp h)) (h_tail h) (h_capture h) (h_offset h) (h_head h) u d q.
(** the function run in memory; None is a slice out of bounds *)
Fixpoint runH {A} (u d : bool) (q : stack) (grow : nat -> nat) (p : prog A) (m : mem) (h : hiter) : option (A * (mem * hiter)) :=
  match p with
  | Done a => Some (a, (m, h))
  | See k => runH u d q grow (k (fields u d q m h)) m h
  | More k => let '(r, (m', h')) := h_readMore grow m h in runH u d q grow (k r) m' h'
  | Head n p => runH u d q grow p m (h_setHead n h)
  | Capture b p => runH u d q grow p m (h_setCapture b h)
  | Tmp xs p =>
      match h_takeTmp 0 h with
      | Some h1 => let '(m', h2) := h_appendBuf grow m xs h1 in runH u d q grow p m' (h_storeTmp h2)
      | None => None
      end
  end.
