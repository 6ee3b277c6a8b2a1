(** Who may change which bytes: the sharing of arrays between iterators, streamers and callers. *)
From Coq Require Import ZArith List Bool.
From Verif Require Import Base ModelMem.
Import ListNotations.
Local Open Scope nat_scope.

(** the worlds that can come about *)
Definition comes (w : world) : Prop := exists ops, run ops world0 = Some w.

(** the arrays that an iterator writes to: the one of its refilled buffer, and those of its temporary buffer *)
Definition fills (h : hiter) (a : nat) : Prop := a = s_arr (h_fixbuf h) \/ (h_reader h <> None /\ a = s_arr (h_buffer h)).
Definition scratch (h : hiter) (a : nat) : Prop := a = s_arr (h_tmp h) \/ a = s_arr (h_buf h).
Definition mine (h : hiter) (a : nat) : Prop := fills h a \/ scratch h a.

(** no two users of memory write to the same array; iterators and streamers may be in use or not *)
Record apart (w : world) : Prop := mkApart {
  ap_iters : forall i j b c h k a, i <> j -> nth_error (w_iters w) i = Some (b, h) -> nth_error (w_iters w) j = Some (c, k) ->
    mine h a -> ~ mine k a;
  ap_inside : forall i b h a, nth_error (w_iters w) i = Some (b, h) -> fills h a -> ~ scratch h a;
  ap_streams : forall i j b c s t, i <> j -> nth_error (w_streams w) i = Some (b, s) -> nth_error (w_streams w) j = Some (c, t) ->
    s_arr s <> s_arr t;
  ap_both : forall i j b c h s, nth_error (w_iters w) i = Some (b, h) -> nth_error (w_streams w) j = Some (c, s) -> ~ mine h (s_arr s);
  ap_user_iter : forall i b h a, nth_error (w_iters w) i = Some (b, h) -> mine h a -> ~ In a (w_user w);
  ap_user_stream : forall i b s, nth_error (w_streams w) i = Some (b, s) -> ~ In (s_arr s) (w_user w)
}.

(** the operations by which a caller has an array written: its own stores, and AppendRaw into a slice of it *)
Definition asked (a : nat) (o : op) : Prop :=
  match o with
  | UWrite b _ _ => b = a
  | IAppendRaw _ into _ _ _ => s_arr into = a
  | _ => False
  end.

(** a sequence of operations in which every operation meets a condition on the world before it *)
Fixpoint all_steps (P : op -> world -> Prop) (ops : list op) (w : world) : Prop :=
  match ops with
  | [] => True
  | o :: r => P o w /\ match step o w with Some w' => all_steps P r w' | None => True end
  end.

(** iterator [i] is not reset or released, and is refilled only while it captures *)
Definition held (i : nat) (o : op) (w : world) : Prop :=
  match o with
  | IResetNil j | IReset j _ | IResetBytes j _ | IRelease j => j <> i
  | IReadMore j _ => j = i -> exists h, busy (w_iters w) i = Some h /\ h_capture h = true
  | _ => True
  end.

(** the temporary buffer of iterator [i] is not cut below [n] bytes *)
Definition kept (i n : nat) (o : op) : Prop :=
  match o with
  | ITake j k => j = i -> n <= k
  | _ => True
  end.

(** the operations on iterator [i], and on streamer [i] *)
Definition on_iter (i : nat) (o : op) : Prop :=
  match o with
  | IBorrow j | IRelease j | IResetNil j | IReset j _ | IResetBytes j _ | IReadMore j _ | IHead j _ | ICapture j _ | ITake j _ | IAppend j _ _
  | IStore j => j = i
  | _ => False
  end.
Definition on_stream (i : nat) (o : op) : Prop :=
  match o with
  | SBorrow j | SRelease j | SReset j | SAppend j _ _ | SFix j | SFlush j _ => j = i
  | _ => False
  end.
(** the operations that give the caller a copy, and the bytes that are copied *)
Definition copies (o : op) (w : world) (xs : bytes) : Prop :=
  match o with
  | SMarshal i => exists s, busy (w_streams w) i = Some s /\ xs = get (w_mem w) s
  | IString i => exists h, busy (w_iters w) i = Some h /\ xs = get (w_mem w) (h_tmp h)
  | INumber i b e => exists h s, busy (w_iters w) i = Some h /\ reslice (h_buffer h) b e = Some s /\ xs = get (w_mem w) s
  | IAppendRaw i into b e _ => into = nilSlice /\ b < e /\ exists h s, busy (w_iters w) i = Some h /\ reslice (h_buffer h) b e = Some s /\ xs = get (w_mem w) s
  | _ => False
  end.

(** an iterator in memory holds the same as an iterator of the other files, except for the spare buffer,
    which only Reset uses *)
Record same (m : mem) (h : hiter) (it : iter) : Prop := mkSame {
  sa_reader : h_reader h = it_reader it;
  sa_buffer : get m (h_buffer h) = it_buffer it;
  sa_tmp : get m (h_tmp h) = it_tmp it;
  sa_tail : h_tail h = it_tail it;
  sa_capture : h_capture h = it_capture it;
  sa_offset : h_offset h = it_offset it;
  sa_head : h_head h = it_head it
}.

(** the settings of an iterator *)
Definition settings (u d : bool) (q : stack) (it : iter) : Prop := it_useNumber it = u /\ it_disallow it = d /\ it_pool it = q.

(** an iterator of the other files with the contents of an iterator in memory; the spare buffer counts with
    its whole capacity, as Reset uses it *)
Definition view (u d : bool) (q : stack) (m : mem) (h : hiter) : iter :=
  mkIter (h_reader h) (get m (h_buffer h)) (get m (mkSl (s_arr (h_fixbuf h)) (s_off (h_fixbuf h)) (s_cap (h_fixbuf h)) (s_cap (h_fixbuf h))))
         (get m (h_tmp h)) (h_tail h) (h_capture h) (h_offset h) (h_head h) u d q.

(** the input of an iterator comes from a reader, is empty, or is in an array of a caller *)
Definition input_ok (w : world) (h : hiter) : Prop :=
  h_reader h <> None \/ s_cap (h_buffer h) = 0 \/ In (s_arr (h_buffer h)) (w_user w).

(** the arrays of all others than iterator [i] *)
Definition foreign (w : world) (i a : nat) : Prop :=
  In a (w_user w) \/
  (exists j b k, j <> i /\ nth_error (w_iters w) j = Some (b, k) /\ mine k a) \/
  (exists j b s, nth_error (w_streams w) j = Some (b, s) /\ a = s_arr s).
