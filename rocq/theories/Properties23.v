(** C56: the size of the read buffer. *)
From Coq Require Import String ZArith List Bool Lia.
From Verif Require Import Base ModelIter ModelStack ModelSkip ModelFloat ModelRead ModelOps ModelVal ModelDecoder SpecKeep KeepFacts Properties1 Properties4.
Import ListNotations.
Local Open Scope Z_scope.

(** A client that neither asks for raw values nor for numbers as text leaves the read buffer as large as it was, whatever the
    input and its result: the iterator needs no memory for the values it reads beside the results. *)
Theorem C56_steady : forall F32 F64 S (p : prog F32 F64 S) it,
  calmly (it_useNumber it) p -> it_capture it = false ->
  let it' := snd (run p it) in
  length (it_buffer it') = length (it_buffer it) /\ it_fixbuf it' = it_fixbuf it /\ it_capture it' = false.
Proof.
  intros F32 F64 S p it Q C it'. destruct (kp_run false (it_useNumber it) F32 F64 p (or_intror Q) it eq_refl) as (_ & _ & H2).
  destruct (H2 eq_refl C) as (H1 & H3 & H4). fold it' in H1, H3, H4. repeat split; congruence.
Qed.
(** The same for values of the types that [still] describes *)
Theorem C56_typed : forall F32 F64 C (E : env F32 F64 C) sf cs n (P : ty -> Prop) t old it,
  (forall t, P t -> still E P t) -> P t -> it_capture it = false ->
  let it' := snd (ReadVal F32 F64 C E sf cs n t old it) in
  length (it_buffer it') = length (it_buffer it) /\ it_fixbuf it' = it_fixbuf it /\ it_capture it' = false.
Proof.
  intros F32 F64 C E sf cs n P t old it Cl Pt Cp it'.
  destruct (kp_decode false (it_useNumber it) F32 F64 C E sf cs P (or_intror Cl) n t (or_intror Pt) noOpts old it eq_refl) as (_ & _ & H2).
  destruct (H2 eq_refl Cp) as (H1 & H3 & H4). fold (ReadVal F32 F64 C E sf cs n t old it) in *. fold it' in H1, H3, H4. repeat split; congruence.
Qed.
(** and for a Decoder *)
Theorem C56_decoder : forall F32 F64 C (E : env F32 F64 C) sf cs n (P : ty -> Prop) t old dc,
  (forall t, P t -> still E P t) -> P t -> it_capture (de_it dc) = false ->
  let dc' := snd (Decode F32 F64 C E sf cs n t old (snd (More dc))) in
  length (it_buffer (de_it dc')) = length (it_buffer (de_it dc)) /\ it_capture (de_it dc') = false.
Proof.
  intros F32 F64 C E sf cs n P t old dc Cl Pt Cp. cbv zeta. set (dc1 := snd (More dc)).
  assert (M : length (it_buffer (de_it dc1)) = length (it_buffer (de_it dc)) /\ it_capture (de_it dc1) = false).
  { unfold dc1, More. destruct (de_err dc) as [e|]; [now split|].
    destruct (kp_nextToken false (it_useNumber (de_it dc)) (de_it dc) eq_refl) as (_ & _ & H2). destruct (H2 eq_refl Cp) as (H1 & H3 & H4).
    destruct (nextToken (de_it dc)) as [[c|e| |] it']; cbn [snd de_it] in *; split; congruence. }
  destruct M as [M1 M2]. clearbody dc1. unfold Decode. destruct (de_err dc1) as [e|]; [now split|].
  destruct (C56_typed F32 F64 C E sf cs n P t old (de_it dc1) Cl Pt M2) as (H1 & _ & H2).
  destruct (ReadVal F32 F64 C E sf cs n t old (de_it dc1)) as [[c|e| |] it']; cbn [snd de_it] in *; split; congruence.
Qed.

(** No call makes the buffers grow by more than the bytes it takes from the reader. *)
Theorem C56_linear : forall F32 F64 S (p : prog F32 F64 S) it,
  let it' := snd (run p it) in
  (Nat.max (length (it_buffer it')) (length (it_fixbuf it')) + rd_left it' <= Nat.max (length (it_buffer it)) (length (it_fixbuf it)) + rd_left it)%nat.
Proof. intros F32 F64 S p it. apply (kp_run true (it_useNumber it) F32 F64 p (or_introl eq_refl) it eq_refl). Qed.
Theorem C56_linear_typed : forall F32 F64 C (E : env F32 F64 C) sf cs n t old it,
  let it' := snd (ReadVal F32 F64 C E sf cs n t old it) in
  (Nat.max (length (it_buffer it')) (length (it_fixbuf it')) + rd_left it' <= Nat.max (length (it_buffer it)) (length (it_fixbuf it)) + rd_left it)%nat.
Proof.
  intros F32 F64 C E sf cs n t old it.
  apply (kp_decode true (it_useNumber it) F32 F64 C E sf cs (fun _ => True) (or_introl eq_refl) n t (or_introl eq_refl) noOpts old it eq_refl).
Qed.

(** a client that walks over an array and reads its strings; the array is longer than the buffer and comes in chunks of 50 bytes *)
Definition longList : bytes := bs "[" ++ concat (repeat (bs """abcdefg"", ") 100) ++ bs """z""]".
Definition walk : prog textF textF nat := ForArray O (fun n => Do OReadString (fun _ => Done (S n))) (fun n => Done n).
Definition slowly : iter := Reset (mkReader longList (repeat (50%nat, false) 30) EEOF) (newIter false false (mkStack [] 0)).
Example C56_steady_ex : calmly (it_useNumber slowly) walk /\ it_capture slowly = false /\
  fst (run walk slowly) = Ok 101%nat /\ length (it_buffer (snd (run walk slowly))) = 64%nat /\ length longList = 1105%nat.
Proof. split; [cbn; tauto|]. split; [reflexivity|]. split; [vm_compute; reflexivity|]. split; vm_compute; reflexivity. Qed.
(** the types []string and string *)
Definition plainT : ty -> Prop := fun t => t = TSlice TString \/ t = TString.
Example C56_typed_ex : (forall t, plainT t -> still demoE plainT t) /\ plainT (TSlice TString) /\
  let out := ReadVal textF textF demoC demoE noFold true 9 (TSlice TString) (VSlice None) slowly in
  (exists l, fst out = Ok (VSlice (Some l)) /\ length l = 101%nat) /\ length (it_buffer (snd out)) = 64%nat.
Proof.
  split; [intros t [->| ->]; cbn; unfold plainT; [split; [discriminate|tauto]|exact I]|]. split; [left; reflexivity|]. cbv zeta. split.
  - eexists. split; vm_compute; reflexivity.
  - vm_compute. reflexivity.
Qed.
Example C56_decoder_ex : (forall t, plainT t -> still demoE plainT t) /\ plainT (TSlice TString) /\
  let dc := mkDecoderS slowly None in
  let out := Decode textF textF demoC demoE noFold true 9 (TSlice TString) (VSlice None) (snd (More dc)) in
  it_capture (de_it dc) = false /\ fst (More dc) = true /\ (exists l, fst out = Ok (VSlice (Some l)) /\ length l = 101%nat) /\
  length (it_buffer (de_it (snd out))) = 64%nat.
Proof.
  split; [apply C56_typed_ex|]. split; [left; reflexivity|]. cbv zeta. split; [reflexivity|]. split; [vm_compute; reflexivity|]. split.
  - eexists. split; vm_compute; reflexivity.
  - vm_compute. reflexivity.
Qed.
(** a raw value of 1105 bytes stays in the buffer as a whole *)
Example C56_linear_ex : let out := run (F32 := textF) (F64 := textF) (Do OReadRaw (fun a => Done a)) slowly in
  fst out = Ok (RBytes longList) /\ length (it_buffer (snd out)) = 1105%nat /\ rd_left (snd out) = 0%nat /\ rd_left slowly = 1105%nat.
Proof. cbv zeta. split; [vm_compute; reflexivity|]. split; [vm_compute; reflexivity|]. split; vm_compute; reflexivity. Qed.
Example C56_linear_typed_ex : let out := ReadVal textF textF demoC demoE noFold true 9 TRaw (VRaw None) slowly in
  fst out = Ok (VRaw (Some longList)) /\ length (it_buffer (snd out)) = 1105%nat /\ rd_left (snd out) = 0%nat.
Proof. cbv zeta. split; [vm_compute; reflexivity|]. split; vm_compute; reflexivity. Qed.

(** A stream of empty strings that comes two bytes at a time, the first quote alone. *)
Definition quotes (n : nat) : bytes := concat (repeat [cQUOTE; cQUOTE] n).
Definition twos (n : nat) : reader := mkReader (quotes n) (repeat (2%nat, false) n) EEOF.
Definition pairs (n : nat) : reader := mkReader (cQUOTE :: quotes n) ((1%nat, false) :: repeat (2%nat, false) n) EEOF.
(** reads [n] raw values *)
Fixpoint raws (F : floatOps) (n : nat) (l : list bytes) : prog F F (list bytes) :=
  match n with
  | O => Done l
  | S n => Do OReadRaw (fun a => raws F n (match a with RBytes b => b :: l | _ => l end))
  end.
(** the quote at the head is the last byte of the buffer *)
Definition split_at (n : nat) (it : iter) : Prop :=
  it_reader it = Some (twos n) /\ it_capture it = false /\ S (it_head it) = it_tail it /\ (it_tail it <= length (it_buffer it))%nat /\
  nth_error (it_buffer it) (it_head it) = Some cQUOTE.
Lemma bind_at {A B} (m : M A) (f : A -> M B) it a it' : m it = (Ok a, it') -> bind m f it = f a it'.
Proof. unfold bind. now intros ->. Qed.
Lemma twos_read n : rd_read bufferSize (twos (S n)) = ([cQUOTE; cQUOTE], None, twos n).
Proof. destruct n; reflexivity. Qed.
Lemma twos_more n it : it_reader it = Some (twos (S n)) -> it_capture it = true -> (it_tail it <= length (it_buffer it))%nat ->
  let buf := firstn (it_tail it) (it_buffer it) ++ [cQUOTE; cQUOTE] in
  readMore it = (Ok tt, mkIter (Some (twos n)) buf buf (it_tmp it) (it_tail it + 2) true (it_offset it) (it_head it) (it_useNumber it) (it_disallow it) (it_pool it)).
Proof.
  intros R C T buf. unfold readMore. cbn [readMore_loop]. rewrite R, C, twos_read. cbn [andb].
  replace (length (it_buffer it) <? it_tail it)%nat with false by (symmetry; apply Nat.ltb_ge; lia). reflexivity.
Qed.
Lemma raw_step n it : split_at (S n) it -> exists it', ReadRaw it = (Ok [cQUOTE; cQUOTE], it') /\ split_at n it' /\
  length (it_buffer it') = S (S (it_tail it)) /\ it_tail it' = S (S (it_tail it)).
Proof.
  intros (R & Cp & H & T & Q). destruct it as [rd buf fix_ tmp tail cp off head un dis pool]. cbn in R, Cp, H, T, Q. subst rd cp tail.
  set (it := mkIter _ _ _ _ _ _ _ _ _ _ _).
  assert (N : nextToken it = (Ok cQUOTE, it)).
  { unfold nextToken, scan. cbn [scan_loop]. change (it_tail it - it_head it)%nat with (S head - head)%nat.
    replace (S head - head)%nat with 1%nat by lia. cbn [scan_in]. change (nth_error (it_buffer it) (it_head it)) with (nth_error buf head). rewrite Q. cbn.
    replace (head + 0)%nat with head by lia. reflexivity. }
  set (buf' := firstn (S head) buf ++ [cQUOTE; cQUOTE]).
  set (it' := mkIter (Some (twos n)) buf' buf' tmp (S (S (S head))) false off (S (S head)) un dis pool).
  assert (L : length (firstn (S head) buf) = S head) by (rewrite firstn_length; lia).
  assert (N1 : nth_error buf' (S head) = Some cQUOTE) by (unfold buf'; rewrite nth_error_app2, L by lia; now replace (S head - S head)%nat with 0%nat by lia).
  assert (N2 : nth_error buf' (S (S head)) = Some cQUOTE) by (unfold buf'; rewrite nth_error_app2, L by lia; now replace (S (S head) - S head)%nat with 1%nat by lia).
  assert (W : withCapture (incHead ;; skipFunctions cQUOTE) it = (Ok tt, it')).
  { unfold withCapture. change (skipFunctions cQUOTE) with skipString.
    rewrite (bind_at _ _ _ tt (set_head (S head) (set_capture true it))) by reflexivity.
    set (it1 := set_head (S head) (set_capture true it)).
    assert (Rm : readMore (set_head (it_tail it1) it1) = (Ok tt, mkIter (Some (twos n)) buf' buf' tmp (S (S (S head))) true off (S head) un dis pool)).
    { rewrite (twos_more n) by (try reflexivity; cbn; lia). cbn [set_head set_capture it1 it it_buffer it_tail it_tmp it_offset it_head it_useNumber it_disallow it_pool].
      fold buf'. replace (S head + 2)%nat with (S (S (S head))) by lia. reflexivity. }
    unfold skipString, scan. replace (left_total it1 + rd_left it1)%nat with (S (S (2 * length (quotes n) + 2))).
    2:{ unfold left_total, rd_left. cbn [it1 set_head set_capture it it_tail it_head it_reader]. cbn [twos rd_data quotes repeat concat]. rewrite app_length. fold (quotes n). cbn [length]. lia. }
    cbn [scan_loop]. change (it_tail it1 - it_head it1)%nat with (S head - S head)%nat. replace (S head - S head)%nat with 0%nat by lia. cbn [scan_in noEnd].
    rewrite Rm. cbn [it_tail it_head it_buffer]. replace (S (S (S head)) - S head)%nat with 2%nat by lia. cbn [scan_in it_buffer]. rewrite N1. cbn.
    unfold it', set_capture, set_head. cbn. now replace (head + 1)%nat with (S head) by lia. }
  exists it'. split.
  { unfold ReadRaw, AppendRaw. apply bind_at with (f := fun b => ret ([] ++ b)). unfold SkipRaw. rewrite (bind_at _ _ _ _ _ N). cbv zeta.
    rewrite (bind_at _ _ _ _ _ W). unfold sliceFrom. change (it_head it) with head. cbn [it' it_buffer it_head].
    unfold Base.slice. replace (head <=? S (S head))%nat with true by (symmetry; apply Nat.leb_le; lia).
    replace (S (S head) <=? length buf')%nat with true by (symmetry; apply Nat.leb_le; unfold buf'; rewrite app_length, L; cbn [length]; lia).
    cbn [andb]. replace (S (S head) - head)%nat with 2%nat by lia. f_equal. f_equal.
    change (firstn 2 (skipn head buf') = [cQUOTE; cQUOTE]). apply nth_error_split in Q. destruct Q as (a & b & -> & La). unfold buf'. subst head.
    rewrite firstn_app, (@firstn_all2 _ (S (length a)) a) by lia. replace (S (length a) - length a)%nat with 1%nat by lia. cbn [firstn]. rewrite <- app_assoc, skipn_app, skipn_all.
    now rewrite Nat.sub_diag. }
  split; [|split; [change (it_tail it) with (S head); change (it_buffer it') with buf'; unfold buf'; rewrite app_length, L; cbn [length]; lia|reflexivity]].
  split; [reflexivity|]. split; [reflexivity|]. split; [reflexivity|]. split; [change (it_tail it') with (S (S (S head))); change (it_buffer it') with buf'; unfold buf'; rewrite app_length, L; cbn [length]; lia|exact N2].
Qed.
Lemma raws_run n F : forall k l it, split_at (n + k) it -> (it_tail it <= length (it_buffer it))%nat ->
  exists it', run (raws F n l) it = (Ok (repeat [cQUOTE; cQUOTE] n ++ l), it') /\ split_at k it' /\ it_tail it' = (it_tail it + 2 * n)%nat.
Proof.
  induction n as [|n IH]; intros k l it H T; [exists it; split; [reflexivity|]; split; [exact H|lia]|].
  cbn [raws run]. cbn [Nat.add] in H. destruct (raw_step _ _ H) as (it1 & R & H1 & L & T1).
  rewrite (bind_at _ _ _ (RBytes [cQUOTE; cQUOTE]) it1) by (cbn [exec]; unfold as_out; now rewrite (bind_at _ _ _ _ _ R)).
  destruct (IH k ([cQUOTE; cQUOTE] :: l) it1 H1 ltac:(lia)) as (it2 & R2 & H2 & T2).
  exists it2.
  cbn beta iota. split; [etransitivity; [exact R2|]|split; [exact H2|lia]].
  f_equal. f_equal. change ([cQUOTE; cQUOTE] :: l) with ([[cQUOTE; cQUOTE]] ++ l). rewrite app_assoc. f_equal. now rewrite <- repeat_cons.
Qed.
(** the iterator after the first byte *)
Definition first (n : nat) : iter := mkIter (Some (twos n)) (cQUOTE :: repeat 0 63) (repeat 0 64) (repeat 0 64) 1 false 0 0 false false (mkStack [] 0).
Lemma pairs_read n : rd_read 64 (pairs n) = ([cQUOTE], None, twos n).
Proof. destruct n; reflexivity. Qed.
Lemma pairs_more n it : it_reader it = Some (pairs n) -> it_capture it = false -> length (it_buffer it) = 64%nat ->
  readMore it = (Ok tt, mkIter (Some (twos n)) (cQUOTE :: skipn 1 (it_buffer it)) (it_fixbuf it) (it_tmp it) 1 false (it_offset it + it_tail it) 0
    (it_useNumber it) (it_disallow it) (it_pool it)).
Proof. intros R C L. unfold readMore. cbn [readMore_loop]. rewrite R, C, L, pairs_read. reflexivity. Qed.
Lemma pairs_first n : nextToken (Reset (pairs n) (newIter false false (mkStack [] 0))) = (Ok cQUOTE, first n) /\ nextToken (first n) = (Ok cQUOTE, first n).
Proof.
  split; [|reflexivity]. set (it := Reset _ _). unfold nextToken, scan.
  replace (left_total it + rd_left it)%nat with (S (2 * length (quotes n) + 1)) by (unfold left_total, rd_left; cbn; lia).
  cbn [scan_loop]. change (it_tail it - it_head it)%nat with 0%nat. cbn [scan_in noEnd]. rewrite (pairs_more n) by reflexivity. reflexivity.
Qed.
(** The buffer is not bounded by the values: a client that reads raw values of two bytes each makes it grow without bound, because a
    refill in capture mode (iterator.go:151-157) keeps all bytes in the buffer, also those of earlier values. *)
Theorem C56_growth_refuted : forall F bound, exists n r, let out := run (raws F n []) (Reset r (newIter false false (mkStack [] 0))) in
  fst out = Ok (repeat (bs """""") n) /\ (bound < length (it_buffer (snd out)))%nat.
Proof.
  intros F bound. exists (S bound), (pairs (S bound)). cbv zeta. set (it := Reset _ _). destruct (pairs_first (S bound)) as [N N']. fold it in N.
  assert (Eq : run (raws F (S bound) []) it = run (raws F (S bound) []) (first (S bound))).
  { cbn [raws run exec]. unfold as_out, ReadRaw, AppendRaw, SkipRaw. unfold bind. rewrite N, N'. reflexivity. }
  rewrite Eq. destruct (raws_run (S bound) F 0 [] (first (S bound))) as (it' & R & (_ & _ & _ & H & _) & T).
  - rewrite Nat.add_0_r. split; [reflexivity|]. split; [reflexivity|]. split; [reflexivity|]. split; [cbn; lia|reflexivity].
  - cbn. lia.
  - rewrite R, app_nil_r. split; [reflexivity|]. cbn [snd]. change (it_tail (first (S bound))) with 1%nat in T. lia.
Qed.
(** Nor does the buffer keep its size: a raw value can make it smaller, and from then on the reader is asked for at most so many bytes. *)
Theorem C56_shrink_refuted : exists it, length (it_buffer it) = 64%nat /\ fst (ReadRaw it) = Ok (bs "{}") /\
  length (it_buffer (snd (ReadRaw it))) = 2%nat /\
  let next := snd (nextByte (snd (ReadRaw it))) in length (it_buffer next) = 2%nat /\ rd_left next = (rd_left (snd (ReadRaw it)) - 2)%nat /\
  (1000 < rd_left next)%nat.
Proof.
  exists (Reset (mkReader (bs "{}" ++ longList) [(1%nat, false); (1%nat, false)] EEOF) (newIter false false (mkStack [] 0))).
  split; [reflexivity|]. split; [vm_compute; reflexivity|]. split; [vm_compute; reflexivity|]. cbv zeta.
  split; [vm_compute; reflexivity|]. split; [vm_compute; reflexivity|]. apply Nat.ltb_lt. vm_compute. reflexivity.
Qed.
(** A string with a control character, read into a []byte, leaves the iterator in capture mode (val_decoder_native_slice.go:60-64): a
    client that carries on with the bytes after the quote makes the buffer grow by calls that otherwise leave its size. *)
Definition broken : bytes := bs """[1," ++ [10] ++ concat (repeat (bs "2,") 500) ++ bs "3]".
Definition afterBytes : iter := snd (ReadVal textF textF demoC demoE noFold true 9 (TSlice (TInt false W8)) (VSlice None)
  (Reset (mkReader broken (repeat (50%nat, false) 30) EEOF) (newIter false false (mkStack [] 0)))).
Theorem C56_flag_refuted : exists it, vreachable textF textF demoC demoE noFold true it /\ it_capture it = true /\ length (it_buffer it) = 64%nat /\
  fst (Skip it) = Ok tt /\ length (it_buffer (snd (Skip it))) = 1007%nat.
Proof.
  exists afterBytes. split.
  { apply vr_ReadVal. apply (vr_attach _ _ _ _ _ _ (SReader (mkReader _ _ _))). apply vr_reachable. apply re_new. }
  split; [vm_compute; reflexivity|]. split; [vm_compute; reflexivity|]. split; vm_compute; reflexivity.
Qed.
Print Assumptions C56_steady.
Print Assumptions C56_typed.
Print Assumptions C56_decoder.
Print Assumptions C56_linear.
Print Assumptions C56_linear_typed.
Print Assumptions C56_growth_refuted.
Print Assumptions C56_shrink_refuted.
Print Assumptions C56_flag_refuted.
