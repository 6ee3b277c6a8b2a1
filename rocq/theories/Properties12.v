(** C44: which bytes of memory the library shares with its callers, and between calls. *)
From Coq Require Import String ZArith List Bool Lia Arith.
From Verif Require Import Base ModelIter ModelSkip ModelStr ModelFloat ModelOps ModelVal ModelStream Properties1 Properties4.
From Verif Require Import ModelMem SpecMem MemFacts MemInv MemRun MemProg MemLib.
Import ListNotations.
Local Open Scope nat_scope.

(** ** Arrays have one owner *)

(** Whatever the callers do with the library, in one goroutine or in several: no two iterators, streamers or
    callers write to the same array, and the buffer of an iterator and its temporary buffer are apart. *)
Theorem C44_apart w : comes w -> apart w.
Proof. intros H. destruct (comes_Inv _ H) as (own & I). eapply Inv_apart; eauto. Qed.

(** The library never writes to an array of a caller unless the caller asks for it with AppendRaw. *)
Theorem C44_input w ops w' a : comes w -> run ops w = Some w' -> In a (w_user w) -> Forall (fun o => ~ asked a o) ops ->
  arr (w_mem w') a = arr (w_mem w) a.
Proof. intros H. destruct (comes_Inv _ H) as (own & I). eapply user_run; eauto. Qed.

(** What Marshal, ReadString, ReadNumber and ReadRaw return is in a new array that holds the bytes; it stays
    as it is, also when iterators and streamers are used again, until the caller changes it. *)
Theorem C44_copy w o xs w1 : comes w -> copies o w xs -> step o w = Some w1 ->
  exists a, w_user w1 = a :: w_user w /\ length (w_mem w) <= a /\ firstn (length xs) (arr (w_mem w1) a) = xs /\
    forall ops w2, run ops w1 = Some w2 -> Forall (fun p => ~ asked a p) ops -> arr (w_mem w2) a = arr (w_mem w1) a.
Proof.
  intros H Cp St. destruct (comes_Inv _ H) as (own & I). destruct (copy_step _ _ _ _ _ I Cp St) as (a & H1 & H2 & H3).
  exists a. do 3 (split; auto). intros ops w2 R F. apply (C44_input w1 ops w2 a); auto.
  - eapply comes_step; eauto.
  - rewrite H1. now left.
Qed.

(** Operations on other iterators and streamers change neither an iterator nor its arrays, whether it is in
    use or in the pool; the same holds for a streamer. *)
Theorem C44_iterator w ops w' i b h a : comes w -> run ops w = Some w' -> nth_error (w_iters w) i = Some (b, h) -> mine h a ->
  Forall (fun o => ~ on_iter i o) ops -> nth_error (w_iters w') i = Some (b, h) /\ arr (w_mem w') a = arr (w_mem w) a.
Proof. intros H. destruct (comes_Inv _ H) as (own & I). eapply iter_alone; eauto. Qed.
Theorem C44_streamer w ops w' i b s : comes w -> run ops w = Some w' -> nth_error (w_streams w) i = Some (b, s) ->
  Forall (fun o => ~ on_stream i o) ops ->
  nth_error (w_streams w') i = Some (b, s) /\ arr (w_mem w') (s_arr s) = arr (w_mem w) (s_arr s).
Proof. intros H. destruct (comes_Inv _ H) as (own & I). eapply stream_alone; eauto. Qed.

(** An iterator in the pool refers neither to a reader nor to the data of a caller; a streamer in the pool is
    empty. *)
Theorem C44_pool w : comes w ->
  (forall i h, nth_error (w_iters w) i = Some (false, h) -> h_reader h = None /\ h_buffer h = nilSlice) /\
  (forall i s, nth_error (w_streams w) i = Some (false, s) -> get (w_mem w) s = []).
Proof.
  intros H. destruct (comes_Inv _ H) as (own & I). split; intros i x N.
  - now apply (in_iters _ _ I) in N as [_ _ _ _ _ _ Fr]; apply Fr.
  - apply (in_streams _ _ I) in N as (_ & _ & L). unfold get. now rewrite L.
Qed.

(** ** What is lent *)

(** The slice buffer[b:e] that SkipRaw returns stays as it is until the iterator is reset or released, or
    refills its buffer without capturing; refills that capture may move the buffer to a new array. *)
Theorem C44_lent w ops w' i h b e t : comes w -> run ops w = Some w' -> busy (w_iters w) i = Some h -> h_reader h <> None ->
  reslice (h_buffer h) b e = Some t -> e <= h_tail h -> all_steps (held i) ops w -> get (w_mem w') t = get (w_mem w) t.
Proof.
  intros H R Bz Rd Rs L Q. destruct (comes_Inv _ H) as (own & I). apply busy_nth in Bz as N.
  destruct (oi_reader _ _ _ _ _ (in_iters _ _ I _ _ _ N) Rd) as [(_ & G & _) O].
  eapply lent_run; eauto; rewrite ?(reslice_arr _ _ _ _ Rs); auto.
  intros _. unfold reslice in Rs. destruct ((b <=? e) && (e <=? s_cap (h_buffer h))) eqn:B; [|discriminate].
  apply andb_true_iff in B as [B _]. apply Nat.leb_le in B. injection Rs as <-. simpl. lia.
Qed.
(** Reading from data, the slice shows the data itself: it stays as it is as long as the data does. *)
Theorem C44_lent_data w ops w' i h b e t : comes w -> run ops w = Some w' -> busy (w_iters w) i = Some h ->
  In (s_arr (h_buffer h)) (w_user w) -> reslice (h_buffer h) b e = Some t -> Forall (fun o => ~ asked (s_arr (h_buffer h)) o) ops ->
  get (w_mem w') t = get (w_mem w) t.
Proof. intros H R Bz U Rs F. apply get_arr. rewrite (reslice_arr _ _ _ _ Rs). eapply C44_input; eauto. Qed.
(** The bytes of such a slice are those at its positions. *)
Theorem C44_slice m s b e t : reslice s b e = Some t -> e <= s_len s -> get m t = firstn (e - b) (skipn b (get m s)).
Proof. apply reslice_get. Qed.

(** The slice tmpBuffer that ReadStringAsSlice returns, and the name of a member in the struct decoders, stays
    as it is until the buffer is cut below its length, also when the buffer grows into a new array. *)
Theorem C44_tmp w ops w' i b h : comes w -> run ops w = Some w' -> nth_error (w_iters w) i = Some (b, h) -> h_buf h = h_tmp h ->
  Forall (kept i (s_len (h_tmp h))) ops -> get (w_mem w') (h_tmp h) = get (w_mem w) (h_tmp h).
Proof.
  intros H R N E F. destruct (comes_Inv _ H) as (own & I). pose proof (in_iters _ _ I _ _ _ N) as [_ [(_ & G & _) O] _ _ _ _ _].
  eapply tmp_run; eauto. split; [auto|]. rewrite E. auto.
Qed.

(** ** The functions of the other files, in memory *)

(** A function that uses its iterator as [prog] allows gives in memory the result that it gives in the other
    files, without a slice out of bounds, writes only to the arrays of its iterator, and leaves the iterator
    with the same contents; the arrays may grow as the runtime likes. *)
Theorem C44_program {A} u d q grow (p : prog A) w i h it : comes w -> busy (w_iters w) i = Some h -> input_ok w h ->
  same (w_mem w) h it -> settings u d q it ->
  exists m' h', runH u d q grow p (w_mem w) h = Some (fst (runV p it), (m', h')) /\ same m' h' (snd (runV p it)) /\
    settings u d q (snd (runV p it)) /\ comes (putIter w i m' h') /\ (forall a, foreign w i a -> arr m' a = arr (w_mem w) a).
Proof. apply in_memory. Qed.

Section Decoding.
Variables F32 F64 : floatOps.
Variable C : custom.
Variable E : env F32 F64 C.
Variable sf : Z -> Z.                    (* unicode.SimpleFold *)
Variable cs : bool.                      (* CaseSensitive *)

(** Unmarshal is such a function: run on the array of the data it gives the result of Unmarshal on the bytes,
    and neither the data nor anything else of a caller, another iterator or a streamer is written to. *)
Theorem C44_unmarshal fuel t old u dis q w i h d : comes w -> busy (w_iters w) i = Some h -> inside (w_mem w) d = true ->
  s_cap d = 0 \/ In (s_arr d) (w_user w) ->
  exists p, (forall it, runV p it = unmarshal F32 F64 C E sf cs fuel t old it) /\
    forall grow, exists m' h',
      runH u dis q grow p (w_mem w) (h_ResetBytes d h) =
        Some (fst (Unmarshal F32 F64 C E sf cs fuel t old (get (w_mem w) d) (view u dis q (w_mem w) h)), (m', h')) /\
      comes (putIter w i m' h') /\ (forall a, foreign w i a -> arr m' a = arr (w_mem w) a).
Proof.
  intros Cw Bz Id Ud. destruct (pg_unmarshal F32 F64 C E sf cs fuel t old) as [p Hp]. exists p. split; auto. intros grow.
  assert (Cw1 : comes (putIter w i (w_mem w) (h_ResetBytes d h))).
  { apply comes_step with (o := IResetBytes i d) (w := w); auto. simpl. now rewrite Bz, Id. }
  destruct (in_memory u dis q grow p _ i (h_ResetBytes d h) (ResetBytes (get (w_mem w) d) (view u dis q (w_mem w) h)) Cw1)
    as (m' & h' & H1 & H2 & H3 & H4 & H5).
  - eapply putIter_busy; eauto.
  - right. exact Ud.
  - apply same_ResetBytes; auto using same_view.
  - repeat split.
  - exists m', h'. rewrite putIter_put in H4. rewrite Hp in H1. do 2 (split; auto).
    intros a Ha. apply H5. destruct Ha as [Ha|[(j & b & k & N & Hj & M)|Hs]]; [now left|right; left|right; right; auto].
    exists j, b, k. repeat split; auto. simpl. rewrite nth_error_upd_other; auto.
Qed.
(** The same for a reader; the reader's bytes go into the array of the iterator, which may be replaced. *)
Theorem C44_unmarshal_reader fuel t old u dis q w i h r : comes w -> busy (w_iters w) i = Some h ->
  exists p h0, (forall it, runV p it = unmarshal F32 F64 C E sf cs fuel t old it) /\ h_Reset r h = Some h0 /\
    forall grow, exists m' h',
      runH u dis q grow p (w_mem w) h0 =
        Some (fst (UnmarshalFromReader F32 F64 C E sf cs fuel t old r (view u dis q (w_mem w) h)), (m', h')) /\
      comes (putIter w i m' h') /\ (forall a, foreign w i a -> arr m' a = arr (w_mem w) a).
Proof.
  intros Cw Bz. destruct (pg_unmarshal F32 F64 C E sf cs fuel t old) as [p Hp]. exists p.
  destruct (h_Reset r h) as [h0|] eqn:Rs; [|unfold h_Reset, reslice in Rs; rewrite Nat.leb_refl in Rs; discriminate].
  exists h0. do 2 (split; auto). intros grow.
  assert (Cw1 : comes (putIter w i (w_mem w) h0)).
  { apply comes_step with (o := IReset i r) (w := w); auto. cbn [step]. now rewrite Bz, Rs. }
  destruct (in_memory u dis q grow p _ i h0 (Reset r (view u dis q (w_mem w) h)) Cw1) as (m' & h' & H1 & H2 & H3 & H4 & H5).
  - eapply putIter_busy; eauto.
  - left. unfold h_Reset in Rs. destruct (reslice _ _ _); [|discriminate]. injection Rs as <-. simpl. congruence.
  - now apply same_Reset.
  - repeat split.
  - exists m', h'. rewrite putIter_put in H4. rewrite Hp in H1. do 2 (split; auto).
    intros a Ha. apply H5. destruct Ha as [Ha|[(j & b & k & N & Hj & M)|Hs]]; [now left|right; left|right; right; auto].
    exists j, b, k. repeat split; auto. simpl. rewrite nth_error_upd_other; auto.
Qed.
End Decoding.

(** The buffer of a streamer in memory holds what the operations say: append adds the bytes at the end, the
    shortening of an exponent and Flush act on the whole contents. *)
Theorem C44_stream w i s : comes w -> busy (w_streams w) i = Some s ->
  (forall grow xs w', step (SAppend i grow xs) w = Some w' ->
     exists s', busy (w_streams w') i = Some s' /\ get (w_mem w') s' = get (w_mem w) s ++ xs) /\
  (forall w', step (SFix i) w = Some w' ->
     exists s', busy (w_streams w') i = Some s' /\ get (w_mem w') s' = cleanExponent (get (w_mem w) s)) /\
  (forall n w', step (SFlush i n) w = Some w' ->
     exists s', busy (w_streams w') i = Some s' /\ get (w_mem w') s' = skipn n (get (w_mem w) s)).
Proof.
  intros H Bz. destruct (comes_Inv _ H) as (own & I). apply busy_nth in Bz as N. apply (in_streams _ _ I) in N as (G & _ & _).
  simpl. rewrite Bz. split; [|split].
  - intros grow xs w'. destruct (append grow (w_mem w) s xs) as [m' s'] eqn:Ap. intros St. injection St as <-.
    exists s'. split; [eapply stream_put; eauto|]. eapply append_get; eauto. now apply good_inside.
  - intros w'. pose proof (fix_get (w_mem w) s G) as X. destruct (s_fix (w_mem w) s) as [m' s']. intros St. injection St as <-.
    exists s'. split; auto. eapply stream_put; eauto.
  - intros n w'. pose proof (flush_get (w_mem w) s n G) as X. destruct (s_flush (w_mem w) s n) as [m' s']. intros St. injection St as <-.
    exists s'. split; auto. eapply stream_put; eauto.
Qed.

(** ** Examples *)

Definition g0 (n : nat) : nat := n.
Definition dataOf (s : string) : sl := mkSl 0 0 (length (bs s)) (length (bs s)).
(** a caller has an array with the text, and one iterator and one streamer are in use *)
Definition prep (s : string) : list op := [UNew (bs s); INew; SNew].
Definition after (ops : list op) : world := match run ops world0 with Some w => w | None => world0 end.
Definition h_of (w : world) (i : nat) : hiter := match nth_error (w_iters w) i with Some (_, h) => h | None => fst (newIter []) end.
Definition s_of (w : world) (i : nat) : sl := match nth_error (w_streams w) i with Some (_, s) => s | None => nilSlice end.
(** the iterator reads a text in pieces of 3 bytes, captures 5 of them and refills, which needs a new array *)
Definition threes : reader := mkReader (bs "0123456789abcdefghij0123456789abcdefghij0123456789abcdefghij0123456789abcdefghij")
  [(30, false); (30, false); (30, false)] EEOF.
Definition lentOps : list op := prep "x" ++ [IReset 0 threes; IReadMore 0 g0; ICapture 0 true; IHead 0 5].
Definition moreOps : list op := [IReadMore 0 g0; IReadMore 0 g0; ITake 0 0; IAppend 0 g0 (bs "key"); IStore 0; SAppend 0 g0 (bs "out"); INew].
Lemma comes_after ops : comes (after ops).
Proof. unfold after. destruct (run ops world0) eqn:E; [now exists ops|now exists []]. Qed.
Ltac come := eexists; vm_compute; reflexivity.

Example C44_apart_ex : comes (after (lentOps ++ moreOps)) /\
  map (fun x => s_arr (h_buffer (snd x))) (w_iters (after (lentOps ++ moreOps))) = [4; 0] /\
  map (fun x => s_arr (h_tmp (snd x))) (w_iters (after (lentOps ++ moreOps))) = [1; 5] /\
  w_user (after (lentOps ++ moreOps)) = [0].
Proof. split; [apply comes_after|vm_compute; auto]. Qed.
Example C44_input_ex : comes (after (prep "{""a"":1}")) /\
  In 0 (w_user (after (prep "{""a"":1}"))) /\ Forall (fun o => ~ asked 0 o) (IResetBytes 0 (dataOf "{""a"":1}") :: moreOps ++ [UNew (bs "y"); UWrite 5 0 (bs "z")]) /\
  exists w, run (IResetBytes 0 (dataOf "{""a"":1}") :: moreOps) (after (prep "{""a"":1}")) = Some w.
Proof.
  split; [apply comes_after|]. split; [vm_compute; auto|]. split; [|come]. repeat constructor; simpl; intuition discriminate.
Qed.
Example C44_copy_ex : let w := after (prep "" ++ [SAppend 0 g0 (bs "[1,2]")]) in
  comes w /\ copies (SMarshal 0) w (bs "[1,2]") /\ (exists w', step (SMarshal 0) w = Some w') /\
  let v := after lentOps in copies (IAppendRaw 0 nilSlice 2 5 g0) v (bs "234") /\ (exists v', step (IAppendRaw 0 nilSlice 2 5 g0) v = Some v').
Proof.
  cbv zeta. split; [apply comes_after|]. split; [exists (mkSl 3 0 5 64); vm_compute; auto|]. split; [come|]. split; [|come].
  split; [reflexivity|split; [lia|]]. exists (h_of (after lentOps) 0). eexists. vm_compute. auto.
Qed.
Example C44_iterator_ex : let w := after lentOps in comes w /\ nth_error (w_iters w) 0 = Some (true, h_of w 0) /\
  mine (h_of w 0) 2 /\ Forall (fun o => ~ on_iter 0 o) [INew; IResetBytes 1 (dataOf "x"); IRelease 1; SAppend 0 g0 (bs "a")] /\
  nth_error (w_streams w) 0 = Some (true, s_of w 0) /\ Forall (fun o => ~ on_stream 0 o) [SNew; SAppend 1 g0 (bs "a"); IReadMore 0 g0; SRelease 1].
Proof.
  cbv zeta. split; [apply comes_after|]. split; [reflexivity|]. split; [left; left; reflexivity|].
  split; [repeat constructor; simpl; intuition discriminate|]. split; [reflexivity|]. repeat constructor; simpl; intuition discriminate.
Qed.
Example C44_pool_ex : let w := after (lentOps ++ [SAppend 0 g0 (bs "secret"); IRelease 0; SRelease 0]) in comes w /\
  nth_error (w_iters w) 0 = Some (false, h_of w 0) /\ nth_error (w_streams w) 0 = Some (false, s_of w 0).
Proof. cbv zeta. split; [apply comes_after|]. vm_compute. auto. Qed.
Example C44_lent_ex : let w := after lentOps in comes w /\ busy (w_iters w) 0 = Some (h_of w 0) /\ h_reader (h_of w 0) <> None /\
  reslice (h_buffer (h_of w 0)) 2 5 = Some (mkSl 2 2 3 62) /\ 5 <= h_tail (h_of w 0) /\ all_steps (held 0) moreOps w /\
  get (w_mem (after (lentOps ++ moreOps))) (mkSl 2 2 3 62) = bs "234".
Proof.
  cbv zeta. split; [apply comes_after|]. split; [reflexivity|]. split; [vm_compute; discriminate|]. split; [reflexivity|]. split; [vm_compute; lia|].
  split; [|reflexivity]. vm_compute. repeat match goal with |- _ /\ _ => split end; auto; intros _; eexists; split; reflexivity.
Qed.
(** without capturing the refill overwrites the slice *)
Example C44_lent_needed : get (w_mem (after (lentOps ++ [ICapture 0 false; IReadMore 0 g0]))) (mkSl 2 2 3 62) = bs "cde".
Proof. reflexivity. Qed.
Example C44_tmp_ex : let w := after (prep "" ++ [ITake 0 0; IAppend 0 g0 (bs "name"); IStore 0]) in comes w /\
  nth_error (w_iters w) 0 = Some (true, h_of w 0) /\ h_buf (h_of w 0) = h_tmp (h_of w 0) /\ get (w_mem w) (h_tmp (h_of w 0)) = bs "name" /\
  Forall (kept 0 (s_len (h_tmp (h_of w 0)))) [ITake 0 4; IAppend 0 g0 (bs "NAME"); IStore 0; INew; ITake 1 0] /\
  get (w_mem (after (prep "" ++ [ITake 0 0; IAppend 0 g0 (bs "name"); IStore 0; ITake 0 0; IAppend 0 g0 (bs "NAME")]))) (h_tmp (h_of w 0)) = bs "NAME".
Proof.
  cbv zeta. split; [apply comes_after|]. split; [reflexivity|]. split; [reflexivity|]. split; [reflexivity|]. split; [|reflexivity].
  repeat constructor; vm_compute; try lia; discriminate.
Qed.
Example C44_unmarshal_ex : let w := after (prep "[7, 8]") in comes w /\ busy (w_iters w) 0 = Some (h_of w 0) /\
  inside (w_mem w) (dataOf "[7, 8]") = true /\ In (s_arr (dataOf "[7, 8]")) (w_user w) /\ get (w_mem w) (dataOf "[7, 8]") = bs "[7, 8]" /\
  fst (Unmarshal textF textF demoC demoE Properties4.noFold true 9 (TSlice (TInt true W8)) (VSlice None) (get (w_mem w) (dataOf "[7, 8]"))
         (view false false (mkStack [] 0) (w_mem w) (h_of w 0))) = Ok (VSlice (Some [VInt 7%Z; VInt 8%Z])).
Proof. cbv zeta. split; [apply comes_after|]. vm_compute. auto 10. Qed.
Example C44_unmarshal_reader_ex : let w := after (prep "") in comes w /\ busy (w_iters w) 0 = Some (h_of w 0) /\
  fst (UnmarshalFromReader textF textF demoC demoE Properties4.noFold true 9 (TSlice (TInt true W8)) (VSlice None) (pieces "[7, 8]")
         (view false false (mkStack [] 0) (w_mem w) (h_of w 0))) = Ok (VSlice (Some [VInt 7%Z; VInt 8%Z])).
Proof. cbv zeta. split; [apply comes_after|]. vm_compute. auto. Qed.
(** the program of a function that is not about decoding types: ReadString *)
Example C44_program_ex : let w := after (prep "" ++ [IReset 0 (pieces " ""a\n"" ")]) in comes w /\ busy (w_iters w) 0 = Some (h_of w 0) /\
  input_ok w (h_of w 0) /\ same (w_mem w) (h_of w 0) (view false false (mkStack [] 0) (w_mem w) (h_of w 0)) /\
  fst (runV (code pg_ReadString) (view false false (mkStack [] 0) (w_mem w) (h_of w 0))) = Ok (bs "a" ++ [10%Z]).
Proof.
  cbv zeta. split; [apply comes_after|]. split; [reflexivity|]. split; [left; vm_compute; discriminate|]. split; [apply same_view|].
  rewrite (code_ok pg_ReadString). reflexivity.
Qed.
Example C44_stream_ex : let w := after (prep "" ++ [SAppend 0 g0 (bs "1e-07")]) in comes w /\ busy (w_streams w) 0 = Some (s_of w 0) /\
  get (w_mem (after (prep "" ++ [SAppend 0 g0 (bs "1e-07"); SFix 0]))) (mkSl 3 0 4 64) = bs "1e-7" /\
  get (w_mem (after (prep "" ++ [SAppend 0 g0 (bs "1e-07"); SFlush 0 2]))) (mkSl 3 0 3 64) = bs "-07".
Proof. cbv zeta. split; [apply comes_after|]. vm_compute. auto. Qed.

Print Assumptions C44_apart.
Print Assumptions C44_input.
Print Assumptions C44_copy.
Print Assumptions C44_iterator.
Print Assumptions C44_streamer.
Print Assumptions C44_pool.
Print Assumptions C44_lent.
Print Assumptions C44_lent_data.
Print Assumptions C44_slice.
Print Assumptions C44_tmp.
Print Assumptions C44_program.
Print Assumptions C44_unmarshal.
Print Assumptions C44_unmarshal_reader.
Print Assumptions C44_stream.
