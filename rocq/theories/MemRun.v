(** What sequences of operations leave alone, and what they do to one iterator or streamer. *)
From Coq Require Import ZArith List Bool Lia.
From Verif Require Import Base ModelIter ModelVal ModelStream Sim ModelMem SpecMem MemFacts MemInv.
Import ListNotations.
Local Open Scope nat_scope.

Lemma mine_own own m i b h a : okI own m i b h -> (fills h a -> own a = OBuf i) /\ (scratch h a -> own a = OTmp i).
Proof.
  intros [[F1 F2] [T1 T2] [B1 B2] Bf Tl Rd Fr]. split.
  - intros [->|[N ->]]; auto. now apply Rd.
  - intros [->| ->]; auto.
Qed.
Lemma Inv_apart own w : Inv own w -> apart w.
Proof.
  intros [I S U].
  assert (O : forall i b h a, nth_error (w_iters w) i = Some (b, h) -> mine h a -> own a = OBuf i \/ own a = OTmp i).
  { intros i b h a N [M|M]; apply I in N; apply mine_own with (a := a) in N as [N1 N2]; auto. }
  split.
  - intros i j b c h k a N H1 H2 M1 M2. apply (O _ _ _ _ H1) in M1. apply (O _ _ _ _ H2) in M2. destruct M1, M2; congruence.
  - intros i b h a H M1 M2. apply I in H. apply mine_own with (a := a) in H as [N1 N2]. specialize (N1 M1). specialize (N2 M2). congruence.
  - intros i j b c s t N H1 H2 E. apply S in H1 as (_ & H1 & _). apply S in H2 as (_ & H2 & _). congruence.
  - intros i j b c h s H1 H2 M. apply (O _ _ _ _ H1) in M. apply S in H2 as (_ & H2 & _). destruct M; congruence.
  - intros i b h a H M Ha. apply (O _ _ _ _ H) in M. apply U in Ha as [_ Ha]. destruct M; congruence.
  - intros i b s H Ha. apply S in H as (_ & H & _). apply U in Ha as [_ Ha]. congruence.
Qed.

Lemma user_step own o w w' a : Inv own w -> step o w = Some w' -> In a (w_user w) -> ~ asked a o ->
  arr (w_mem w') a = arr (w_mem w) a /\ In a (w_user w').
Proof.
  intros I St Ha N. destruct (step_ok _ _ _ _ I St) as (own' & I' & [X A B]). destruct (in_user _ _ I _ Ha) as [La Oa]. split.
  - destruct (B a La) as [E|T]; auto. destruct o; simpl in *; try contradiction; try congruence; destruct T as [-> _]; exfalso; apply N; reflexivity.
  - clear - Ha St. destruct o; simpl in St;
      repeat match goal with H : match ?x with _ => _ end = Some _ |- _ => destruct x eqn:? end; try discriminate;
      injection St as <-; simpl; auto. 
    destruct (_ =? _); simpl; auto.
Qed.
Lemma user_run ops : forall own w w' a, Inv own w -> run ops w = Some w' -> In a (w_user w) -> Forall (fun o => ~ asked a o) ops ->
  arr (w_mem w') a = arr (w_mem w) a.
Proof.
  induction ops as [|o ops IH]; simpl; intros own w w' a I H Ha F; [congruence|].
  destruct (step o w) as [w1|] eqn:St; [|discriminate]. inversion F; subst.
  destruct (user_step _ _ _ _ _ I St Ha) as [E H1]; auto. destruct (step_ok _ _ _ _ I St) as (own1 & I1 & _).
  rewrite <- E. eauto.
Qed.

(** operations on other iterators *)
Lemma iter_frame o w w' i x : step o w = Some w' -> ~ on_iter i o -> nth_error (w_iters w) i = Some x -> nth_error (w_iters w') i = Some x.
Proof.
  intros St N H. destruct o; simpl in *;
      repeat match goal with H : match ?x with _ => _ end = Some _ |- _ => destruct x eqn:? end; try discriminate;
      injection St as <-; simpl; auto; try (rewrite nth_error_upd_other; auto; fail).
  rewrite nth_error_app1; auto. eapply nth_error_lt; eauto.
Qed.
Lemma stream_frame o w w' i x : step o w = Some w' -> ~ on_stream i o -> nth_error (w_streams w) i = Some x -> nth_error (w_streams w') i = Some x.
Proof.
  intros St N H. destruct o; simpl in *;
      repeat match goal with H : match ?x with _ => _ end = Some _ |- _ => destruct x eqn:? end; try discriminate;
      injection St as <-; simpl; auto; try (rewrite nth_error_upd_other; auto; fail).
  rewrite nth_error_app1; auto. eapply nth_error_lt; eauto.
Qed.

(** what is lent *)
Lemma capture_window grow f : forall m h r m' h' t, h_readMore_loop grow f m h = (r, (m', h')) -> h_capture h = true ->
  good m (h_buffer h) -> h_tail h <= s_len (h_buffer h) ->
  s_arr t < length m -> (s_arr t = s_arr (h_buffer h) -> s_off t + s_len t <= s_off (h_buffer h) + h_tail h) ->
  get m' t = get m t /\ (s_arr t = s_arr (h_buffer h') -> s_off t + s_len t <= s_off (h_buffer h') + h_tail h') /\
  (h_reader h <> None -> h_reader h' <> None) /\ h_capture h' = true.
Proof.
  induction f as [|f IH]; intros m h r m' h' t H C G Tl Lt W; simpl in H.
  { injection H as <- <- <-. auto. }
  destruct (h_reader h) as [rd|] eqn:R; [|injection H as <- <- <-; rewrite R; auto].
  rewrite C in H. destruct (reslice (h_buffer h) 0 (h_tail h)) as [s|] eqn:Rs; [|injection H as <- <- <-; rewrite R; auto].
  destruct (rd_read bufferSize rd) as [[bs e] r'] eqn:Rr. destruct (append grow m s bs) as [m1 b1] eqn:Ap.
  pose proof (reslice_good _ _ _ _ _ G Rs) as Gs. pose proof (good_inside _ _ Gs) as Is.
  assert (Es : s_arr s = s_arr (h_buffer h) /\ s_off s = s_off (h_buffer h) /\ s_len s = h_tail h).
  { unfold reslice in Rs. destruct (_ && _); [|discriminate]. injection Rs as <-. simpl. repeat split; auto; lia. }
  destruct Es as (E1 & E2 & E3).
  assert (G1 : get m1 t = get m t).
  { eapply append_before; eauto. rewrite E1, E2, E3. auto. }
  assert (W1 : s_arr t = s_arr b1 -> s_off t + s_len t <= s_off b1 + (h_tail h + length bs)).
  { intros E. destruct (append_cases _ _ _ _ _ _ Ap) as [(L & Em & Ea & Eo & Ec)|(L & Em & Ea)]; [|lia].
    rewrite Eo, E2. rewrite Ea, E1 in E. specialize (W E). lia. }
  assert (Rec : get m1 t = get m t -> forall m' h' r, 
    (if 0 <? length bs then (Ok tt, (m1, mkH (Some r') b1 b1 (h_tmp h) (h_buf h) (h_tail h + length bs) true (h_offset h) (h_head h)))
     else h_readMore_loop grow f m1 (mkH (Some r') b1 b1 (h_tmp h) (h_buf h) (h_tail h + length bs) true (h_offset h) (h_head h))) = (r, (m', h')) ->
    get m' t = get m t /\ (s_arr t = s_arr (h_buffer h') -> s_off t + s_len t <= s_off (h_buffer h') + h_tail h') /\
    (Some rd <> None -> h_reader h' <> None) /\ h_capture h' = true).
  { intros _ m2 h2 r2 H2. destruct (0 <? length bs).
    - injection H2 as <- <- <-. simpl. repeat split; auto; congruence.
    - destruct (IH _ _ _ _ _ t H2) as (A1 & A2 & A3 & A4); simpl; auto.
      + eapply append_good; eauto.
      + rewrite (append_len _ _ _ _ _ _ Ap). lia.
      + destruct (append_ext _ _ _ _ _ _ Is Ap). lia.
      + rewrite A1. split; auto. split; auto. split; auto. intros _. apply A3. simpl. congruence. }
  destruct e as [x|]; [|now apply (Rec G1) in H].
  injection H as <- <- <-. simpl. repeat split; auto; congruence.
Qed.

Lemma lent_step own o w w' i h t : Inv own w -> step o w = Some w' -> nth_error (w_iters w) i = Some (true, h) -> h_reader h <> None ->
  s_arr t < length (w_mem w) -> own (s_arr t) = OBuf i ->
  (s_arr t = s_arr (h_buffer h) -> s_off t + s_len t <= s_off (h_buffer h) + h_tail h) -> held i o w ->
  get (w_mem w') t = get (w_mem w) t /\
  exists h', nth_error (w_iters w') i = Some (true, h') /\ h_reader h' <> None /\
    (s_arr t = s_arr (h_buffer h') -> s_off t + s_len t <= s_off (h_buffer h') + h_tail h').
Proof.
  intros I St Hi R Lt Ot W Q.
  assert (NT : (forall grow, o <> IReadMore i grow) -> get (w_mem w') t = get (w_mem w) t).
  { intros NR. destruct (step_ok _ _ _ _ I St) as (own' & I' & [X A B]). apply get_arr. destruct (B _ Lt) as [E|T]; auto.
    destruct o; simpl in T; try contradiction; try match type of T with _ /\ _ => destruct T end; try congruence.
 }
  assert (Bz : busy (w_iters w) i = Some h) by (unfold busy; now rewrite Hi).
  assert (Li : i < length (w_iters w)) by (eapply nth_error_lt; eauto).
  assert (FR : ~ on_iter i o -> exists h', nth_error (w_iters w') i = Some (true, h') /\ h_reader h' <> None /\
    (s_arr t = s_arr (h_buffer h') -> s_off t + s_len t <= s_off (h_buffer h') + h_tail h')).
  { intros N. exists h. split; auto. eapply iter_frame; eauto. }
  destruct o; simpl in FR, Q; try (split; [apply NT; congruence|apply FR; intros []]; fail).
  all: destruct (Nat.eq_dec i0 i) as [->|NE]; [|split; [apply NT; congruence|now apply FR]].
  - simpl in St. rewrite Hi in St. discriminate.
  - contradiction.
  - contradiction.
  - contradiction.
  - contradiction.
  - destruct (Q eq_refl) as (h1 & B1 & C). rewrite Bz in B1. injection B1 as <-.
    simpl in St. rewrite Bz in St. destruct (h_readMore grow (w_mem w) h) as [r [m' h']] eqn:Rm. unfold h_readMore in Rm.
    pose proof (in_iters _ _ I _ _ _ Hi) as K. destruct (oi_reader _ _ _ _ _ K R) as [Gb _].
    destruct (capture_window _ _ _ _ _ _ _ t Rm C Gb (oi_tail _ _ _ _ _ K) Lt W) as (A1 & A2 & A3 & A4).
    assert (E : w' = putIter w i m' h') by (destruct r; congruence). subst w'. simpl. split; auto.
    exists h'. rewrite nth_error_upd_same; auto.
  - split; [apply NT; congruence|]. simpl in St. rewrite Bz in St. injection St as <-. simpl. rewrite nth_error_upd_same; eauto.
  - split; [apply NT; congruence|]. simpl in St. rewrite Bz in St. injection St as <-. simpl. rewrite nth_error_upd_same; eauto.
  - split; [apply NT; congruence|]. simpl in St. rewrite Bz in St. unfold h_takeTmp in St. destruct (reslice _ _ _); [|discriminate].
    injection St as <-. simpl. rewrite nth_error_upd_same by auto. eexists. split; [reflexivity|]. auto.
  - split; [apply NT; congruence|]. simpl in St. rewrite Bz in St. unfold h_appendBuf in St. destruct (append _ _ _ _).
    injection St as <-. simpl. rewrite nth_error_upd_same by auto. eexists. split; [reflexivity|]. auto.
  - split; [apply NT; congruence|]. simpl in St. rewrite Bz in St. injection St as <-. simpl. rewrite nth_error_upd_same; eauto.
Qed.
Lemma lent_run ops : forall own w w' i h t, Inv own w -> run ops w = Some w' -> nth_error (w_iters w) i = Some (true, h) -> h_reader h <> None ->
  s_arr t < length (w_mem w) -> own (s_arr t) = OBuf i ->
  (s_arr t = s_arr (h_buffer h) -> s_off t + s_len t <= s_off (h_buffer h) + h_tail h) -> all_steps (held i) ops w ->
  get (w_mem w') t = get (w_mem w) t.
Proof.
  induction ops as [|o ops IH]; intros own w w' i h t I H Hi R Lt Ot W Q; simpl in H, Q; [congruence|].
  destruct (step o w) as [w1|] eqn:St; [|discriminate]. destruct Q as [Q1 Q2].
  destruct (lent_step _ _ _ _ _ _ _ I St Hi R Lt Ot W Q1) as (E & h1 & Hi1 & R1 & W1).
  destruct (step_ok _ _ _ _ I St) as (own1 & I1 & [X A _]). rewrite <- E. eapply IH; eauto.
  - destruct X; lia.
  - now rewrite A.
Qed.

(** the temporary buffer *)
Definition tmp_ok (t : sl) (h : hiter) : Prop :=
  (s_arr (h_tmp h) = s_arr t -> s_off (h_tmp h) = s_off t) /\
  (s_arr (h_buf h) = s_arr t -> s_off (h_buf h) = s_off t /\ s_len t <= s_len (h_buf h)).
Lemma readMore_tmp grow f : forall m h r m' h', h_readMore_loop grow f m h = (r, (m', h')) -> h_tmp h' = h_tmp h /\ h_buf h' = h_buf h.
Proof.
  induction f as [|f IH]; intros m h r m' h' H; simpl in H; [injection H as <- <- <-; auto|].
  destruct (h_reader h) as [rd|]; [|injection H as <- <- <-; auto].
  destruct (h_capture h).
  - destruct (reslice _ _ _); [|injection H as <- <- <-; auto]. destruct (rd_read _ _) as [[bs e] r']. destruct (append _ _ _ _).
    destruct e; [injection H as <- <- <-; auto|]. destruct (0 <? _); [injection H as <- <- <-; auto|]. apply IH in H. auto.
  - destruct (rd_read _ _) as [[bs e] r']. destruct e; [injection H as <- <- <-; auto|].
    destruct (0 <? _); [injection H as <- <- <-; auto|]. apply IH in H. auto.
Qed.
Lemma tmp_step own o w w' i b h t : Inv own w -> step o w = Some w' -> nth_error (w_iters w) i = Some (b, h) ->
  s_arr t < length (w_mem w) -> own (s_arr t) = OTmp i -> tmp_ok t h -> kept i (s_len t) o ->
  get (w_mem w') t = get (w_mem w) t /\ exists b' h', nth_error (w_iters w') i = Some (b', h') /\ tmp_ok t h'.
Proof.
  intros I St Hi Lt Ot W Q.
  assert (NT : (forall grow xs, o <> IAppend i grow xs) -> get (w_mem w') t = get (w_mem w) t).
  { intros NR. destruct (step_ok _ _ _ _ I St) as (own' & I' & [X A B]). apply get_arr. destruct (B _ Lt) as [E|T]; auto.
    destruct o; simpl in T; try contradiction; try match type of T with _ /\ _ => destruct T end; try congruence.
 }
  assert (Li : i < length (w_iters w)) by (eapply nth_error_lt; eauto).
  assert (FR : ~ on_iter i o -> exists b' h', nth_error (w_iters w') i = Some (b', h') /\ tmp_ok t h').
  { intros N. exists b, h. split; auto. eapply iter_frame; eauto. }
  destruct o; simpl in FR, Q; try (split; [apply NT; congruence|apply FR; intros []]; fail).
  all: destruct (Nat.eq_dec i0 i) as [->|NE]; [|split; [apply NT; congruence|now apply FR]].
  all: simpl in St.
  1:{ rewrite Hi in St. destruct b; [discriminate|]. split; [apply NT; congruence|]. injection St as <-. simpl. rewrite nth_error_upd_same by auto. eauto. }
  all: assert (Hb : busy (w_iters w) i = if b then Some h else None) by (unfold busy; rewrite Hi; auto).
  all: rewrite Hb in St; destruct b; [|discriminate].
  - split; [apply NT; congruence|]. injection St as <-. simpl. rewrite nth_error_upd_same by auto. eexists _, _. split; [reflexivity|]. exact W.
  - split; [apply NT; congruence|]. injection St as <-. simpl. rewrite nth_error_upd_same by auto. eexists _, _. split; [reflexivity|]. exact W.
  - split; [apply NT; congruence|]. unfold h_Reset in St. destruct (reslice _ _ _); [|discriminate]. injection St as <-. simpl.
    rewrite nth_error_upd_same by auto. eexists _, _. split; [reflexivity|]. exact W.
  - split; [apply NT; congruence|]. destruct (inside _ _); [|discriminate]. injection St as <-. simpl.
    rewrite nth_error_upd_same by auto. eexists _, _. split; [reflexivity|]. exact W.
  - split; [apply NT; congruence|]. destruct (h_readMore grow (w_mem w) h) as [r [m' h']] eqn:Rm. unfold h_readMore in Rm.
    apply readMore_tmp in Rm as [E1 E2]. assert (E : w' = putIter w i m' h') by (destruct r; congruence). subst w'. simpl.
    rewrite nth_error_upd_same by auto. eexists _, _. split; [reflexivity|]. unfold tmp_ok. now rewrite E1, E2.
  - split; [apply NT; congruence|]. injection St as <-. simpl. rewrite nth_error_upd_same by auto. eexists _, _. split; [reflexivity|]. exact W.
  - split; [apply NT; congruence|]. injection St as <-. simpl. rewrite nth_error_upd_same by auto. eexists _, _. split; [reflexivity|]. exact W.
  - split; [apply NT; congruence|]. unfold h_takeTmp in St. destruct (reslice _ _ _) as [s|] eqn:Rs; [|discriminate]. injection St as <-. simpl.
    rewrite nth_error_upd_same by auto. eexists _, _. split; [reflexivity|]. destruct W as [W1 W2]. split; auto. simpl.
    unfold reslice in Rs. destruct (_ && _); [|discriminate]. injection Rs as <-. simpl. intros E. rewrite W1 by auto.
    specialize (Q eq_refl). lia.
  - unfold h_appendBuf in St. destruct (append grow (w_mem w) (h_buf h) xs) as [m' s] eqn:Ap. injection St as <-. simpl.
    destruct W as [W1 W2]. destruct (oi_buf _ _ _ _ _ (in_iters _ _ I _ _ _ Hi)) as [G O]. pose proof (good_inside _ _ G) as Ib. split.
    + eapply append_before; eauto. intros E. symmetry in E. destruct (W2 E). lia.
    + rewrite nth_error_upd_same by auto. eexists _, _. split; [reflexivity|]. split; simpl; auto. intros E.
      rewrite (append_len _ _ _ _ _ _ Ap). destruct (append_cases _ _ _ _ _ _ Ap) as [(L & Em & Ea & Eo & Ec)|(L & Em & Ea)]; [|lia].
      rewrite Eo. rewrite Ea in E. destruct (W2 E). lia.
  - split; [apply NT; congruence|]. injection St as <-. simpl. rewrite nth_error_upd_same by auto. eexists _, _. split; [reflexivity|].
    destruct W as [W1 W2]. split; simpl; auto. intros E. now destruct (W2 E).
Qed.
Lemma tmp_run ops : forall own w w' i b h t, Inv own w -> run ops w = Some w' -> nth_error (w_iters w) i = Some (b, h) ->
  s_arr t < length (w_mem w) -> own (s_arr t) = OTmp i -> tmp_ok t h -> Forall (kept i (s_len t)) ops ->
  get (w_mem w') t = get (w_mem w) t.
Proof.
  induction ops as [|o ops IH]; intros own w w' i b h t I H Hi Lt Ot W Q; simpl in H; [congruence|].
  destruct (step o w) as [w1|] eqn:St; [|discriminate]. inversion Q; subst.
  destruct (tmp_step _ _ _ _ _ _ _ _ I St Hi Lt Ot W) as (E & b1 & h1 & Hi1 & W1); auto.
  destruct (step_ok _ _ _ _ I St) as (own1 & I1 & [X A _]). rewrite <- E. eapply IH; eauto.
  - destruct X; lia.
  - now rewrite A.
Qed.

(** the bytes of a part of a slice *)
Lemma reslice_get m s i j s' : reslice s i j = Some s' -> j <= s_len s -> get m s' = firstn (j - i) (skipn i (get m s)).
Proof.
  unfold reslice. destruct (i <=? j) eqn:E1, (j <=? s_cap s) eqn:E2; simpl; intros H L; try discriminate. apply Nat.leb_le in E1.
  injection H as <-. unfold get. simpl. rewrite skipn_firstn_comm, firstn_firstn, skipn_skipn.
  replace (Nat.min (j - i) (s_len s - i)) with (j - i) by lia. reflexivity.
Qed.

(** an iterator in memory and the iterator of the other files *)
Lemma whole_get m s : inside m s = true -> s_len s = s_cap s -> firstn (s_cap s) (skipn (s_off s) (arr m (s_arr s))) = get m s.
Proof. intros _ E. unfold get. now rewrite E. Qed.
Lemma get_wr m s xs : good m s -> length xs <= s_len s -> get (wr m (s_arr s) (s_off s) xs) s = xs ++ skipn (length xs) (get m s).
Proof.
  intros (A & B & D) L. unfold get. rewrite arr_wr_same by auto. unfold splice.
  rewrite skipn_app, firstn_length. replace (s_off s - Nat.min (s_off s) (length (arr m (s_arr s)))) with 0 by lia.
  rewrite (skipn_all2 (firstn (s_off s) _)) by (rewrite firstn_length; lia). simpl.
  rewrite firstn_app, firstn_all2 by auto. f_equal. rewrite skipn_firstn_comm, skipn_skipn. reflexivity.
Qed.
Lemma rd_read_len k r bs e r' : rd_read k r = (bs, e, r') -> length bs <= k.
Proof. unfold rd_read. destruct (rd_sched r) as [|[w eg] sc]; intros H; injection H as <- _ _; rewrite firstn_length; lia. Qed.

Lemma readMore_view own i b grow f : forall m h it, okI own m i b h -> same m h it ->
  fst (h_readMore_loop grow f m h) = fst (readMore_loop f it) /\
  same (fst (snd (h_readMore_loop grow f m h))) (snd (snd (h_readMore_loop grow f m h))) (snd (readMore_loop f it)).
Proof.
  revert own. induction f as [|f IH]; intros own m h it K Sm; [split; auto|].
  cbn [h_readMore_loop readMore_loop]. destruct Sm as [S1 S2 S3 S4 S5 S6 S7]. simpl in *.
  rewrite <- S1. destruct (h_reader h) as [rd|] eqn:R.
  2:{ split; simpl; auto. split; simpl; congruence. }
  rewrite <- S5. assert (Rn : h_reader h <> None) by congruence. destruct (oi_reader _ _ _ _ _ K Rn) as [Gb Ob].
  destruct (oi_tmp _ _ _ _ _ K) as [Gt Ot]. pose proof (oi_tail _ _ _ _ _ K) as Tl.
  pose proof (get_length _ _ (good_inside _ _ Gb)) as Lg.
  assert (ST : s_arr (h_tmp h) <> s_arr (h_buffer h)) by congruence.
  destruct (h_capture h) eqn:C.
  - destruct (reslice (h_buffer h) 0 (h_tail h)) as [s|] eqn:Rs.
    2:{ exfalso. unfold reslice in Rs. destruct Gb as (Gb & _). replace (h_tail h <=? s_cap (h_buffer h)) with true in Rs by (symmetry; apply Nat.leb_le; lia). discriminate. }
    destruct (rd_read bufferSize rd) as [[bs e] r'] eqn:Rr. destruct (append grow m s bs) as [m1 b1] eqn:Ap.
    pose proof (reslice_good _ _ _ _ _ Gb Rs) as Gs. pose proof (good_inside _ _ Gs) as Is.
    pose proof (append_get _ _ _ _ _ _ Is Ap) as Ag. rewrite (reslice_get m _ _ _ _ Rs Tl) in Ag. rewrite Nat.sub_0_r in Ag. simpl skipn in Ag.
    replace (length (it_buffer it) <? it_tail it) with false by (symmetry; apply Nat.ltb_ge; rewrite <- S2, Lg, <- S4; auto).
    cbn [andb].
    set (h1 := mkH (Some r') b1 b1 (h_tmp h) (h_buf h) (h_tail h + length bs) true (h_offset h) (h_head h)).
    set (buf := firstn (it_tail it) (it_buffer it) ++ bs).
    set (it1 := mkIter (Some r') buf buf (it_tmp it) (it_tail it + length bs) true (it_offset it) (it_head it) (it_useNumber it) (it_disallow it) (it_pool it)).
    assert (Sm1 : same m1 h1 it1).
    { split; simpl; auto; try congruence.
      - unfold buf. rewrite <- S2, <- S4. exact Ag.
      - rewrite <- S3. eapply append_before; eauto; [apply Gt|].
        intros E. rewrite (reslice_arr _ _ _ _ Rs) in E. contradiction. }
    assert (K1 : exists own1, okI own1 m1 i b h1).
    { assert (H1 : exists r, h_readMore_loop grow 1 m h = (r, (m1, h1))).
      { cbn [h_readMore_loop]. rewrite R, C, Rs, Rr, Ap. destruct e; [eexists; reflexivity|]. destruct (0 <? length bs); eexists; reflexivity. }
      destruct H1 as (r & H1). destruct (readMore_loop_ok _ _ _ _ _ _ _ _ _ _ K H1) as (own1 & _ & K1). eauto. }
    destruct K1 as (own1 & K1).
    destruct e as [x|]; [simpl; destruct (_ && _); split; auto|]. destruct (0 <? length bs); [split; auto|]. eapply IH; eauto.
  - rewrite <- S2, Lg.
    destruct (rd_read (s_len (h_buffer h)) rd) as [[bs e] r'] eqn:Rr. pose proof (rd_read_len _ _ _ _ _ Rr) as Lb. cbn [andb].
    set (m1 := wr m (s_arr (h_buffer h)) (s_off (h_buffer h)) bs).
    set (h1 := mkH (Some r') (h_buffer h) (h_fixbuf h) (h_tmp h) (h_buf h) (length bs) false (h_offset h + h_tail h) 0).
    set (it1 := mkIter (Some r') (bs ++ skipn (length bs) (get m (h_buffer h))) (it_fixbuf it) (it_tmp it) (length bs) false (it_offset it + it_tail it) 0
      (it_useNumber it) (it_disallow it) (it_pool it)).
    assert (Sm1 : same m1 h1 it1).
    { split; simpl; auto; try congruence.
      - apply get_wr; auto.
      - rewrite <- S3. apply get_arr. unfold m1. apply arr_wr_other. auto. }
    assert (K1 : exists own1, okI own1 m1 i b h1).
    { assert (H1 : exists r, h_readMore_loop grow 1 m h = (r, (m1, h1))).
      { cbn [h_readMore_loop]. rewrite R, C, Rr. destruct e; [eexists; reflexivity|]. destruct (0 <? length bs); eexists; reflexivity. }
      destruct H1 as (r & H1). destruct (readMore_loop_ok _ _ _ _ _ _ _ _ _ _ K H1) as (own1 & _ & K1). eauto. }
    destruct K1 as (own1 & K1).
    destruct e as [x|]; [simpl; destruct (_ && _); split; auto|]. destruct (0 <? length bs); [split; auto|]. eapply IH; eauto.
Qed.
Lemma h_readMore_same own i b grow m h it : okI own m i b h -> same m h it ->
  fst (h_readMore grow m h) = fst (readMore it) /\
  same (fst (snd (h_readMore grow m h))) (snd (snd (h_readMore grow m h))) (snd (readMore it)).
Proof. intros K S. unfold h_readMore, readMore. rewrite (sa_reader _ _ _ S). eapply readMore_view; eauto. Qed.

Lemma readMore_settings u d q f : forall it, settings u d q it -> settings u d q (snd (readMore_loop f it)).
Proof.
  induction f as [|f IH]; intros it S; cbn [readMore_loop]; auto. destruct (it_reader it) as [r|]; auto.
  destruct (it_capture it); destruct (rd_read _ _) as [[bs e] r'].
  - destruct (true && _); auto. destruct e as [x|]; [destruct (_ && _); auto|]. destruct (0 <? length bs)%nat; auto.
  - cbn [andb]. destruct e as [x|]; [destruct (_ && _); auto|]. destruct (0 <? length bs)%nat; auto.
Qed.

(** the arrays that the operations of a function write *)
Definition wrote (own own' : nat -> owner) (i : nat) (h : hiter) (m m' : mem) : Prop :=
  ext m m' /\ agree m own own' /\
  forall a, a < length m -> arr m' a = arr m a \/ own a = OTmp i \/ (own a = OBuf i /\ h_reader h <> None).
Lemma wrote_trans own own1 own2 i h h1 m m1 m2 : wrote own own1 i h m m1 -> wrote own1 own2 i h1 m1 m2 ->
  (h_reader h1 <> None -> h_reader h <> None) -> wrote own own2 i h m m2.
Proof.
  intros (X1 & A1 & B1) (X2 & A2 & B2) R. split; [eapply ext_trans; eauto|]. assert (L : length m <= length m1) by (destruct X1; lia). split.
  - intros a La. rewrite A2, A1; auto. lia.
  - intros a La. destruct (B2 a ltac:(lia)) as [->|[E|[E N]]]; auto; rewrite A1 in E by auto; auto.
Qed.
Lemma wrote_refl own i h m : wrote own own i h m m.
Proof. split; [apply ext_refl|]. split; [apply agree_refl|]. auto. Qed.
Lemma readMore_reader grow f : forall m h r m' h', h_readMore_loop grow f m h = (r, (m', h')) -> h_reader h' <> None -> h_reader h <> None.
Proof. intros m h r m' h'. destruct f; simpl; [congruence|]. destruct (h_reader h) eqn:R; [congruence|]. intros H. injection H as <- <- <-. congruence. Qed.

Lemma readMore_no_panic own i b grow f : forall m h, okI own m i b h -> fst (h_readMore_loop grow f m h) <> Panic.
Proof.
  revert own. induction f as [|f IH]; intros own m h K; simpl; [discriminate|].
  destruct (h_reader h) as [rd|] eqn:R; [|discriminate]. assert (Rn : h_reader h <> None) by congruence.
  assert (N : forall r m1 h1, h_readMore_loop grow 1 m h = (r, (m1, h1)) -> exists own1, okI own1 m1 i b h1).
  { intros r m1 h1 H. destruct (readMore_loop_ok _ _ _ _ _ _ _ _ _ _ K H) as (own1 & _ & K1). eauto. }
  cbn [h_readMore_loop] in N. rewrite R in N. destruct (h_capture h).
  - destruct (reslice (h_buffer h) 0 (h_tail h)) as [s|] eqn:Rs.
    2:{ exfalso. pose proof (oi_tail _ _ _ _ _ K) as Tl. destruct (oi_reader _ _ _ _ _ K Rn) as [(Gb & _) _]. unfold reslice in Rs.
        replace (h_tail h <=? s_cap (h_buffer h)) with true in Rs by (symmetry; apply Nat.leb_le; lia). discriminate. }
    destruct (rd_read _ _) as [[bs e] r']. destruct (append _ _ _ _) as [m1 b1].
    destruct e as [x|]; [simpl; destruct (_ && _); discriminate|]. destruct (0 <? length bs); [discriminate|].
    edestruct N as (own1 & K1); [reflexivity|]. eauto.
  - destruct (rd_read _ _) as [[bs e] r'].
    destruct e as [x|]; [simpl; destruct (_ && _); discriminate|]. destruct (0 <? length bs); [discriminate|].
    edestruct N as (own1 & K1); [reflexivity|]. eauto.
Qed.
Lemma upd_upd {A} (l : list A) i x y : upd (upd l i x) i y = upd l i y.
Proof. revert i; induction l; intros [|i]; simpl; auto. now rewrite IHl. Qed.
Lemma upd_id {A} (l : list A) i x : nth_error l i = Some x -> upd l i x = l.
Proof. revert i; induction l; intros [|i] H; simpl in *; try discriminate; [injection H as ->; auto|]. f_equal. auto. Qed.
Lemma putIter_put w i m h m' h' : putIter (putIter w i m h) i m' h' = putIter w i m' h'.
Proof. unfold putIter. simpl. now rewrite upd_upd. Qed.
Lemma putIter_id w i h : busy (w_iters w) i = Some h -> putIter w i (w_mem w) h = w.
Proof. intros H. apply busy_nth in H. unfold putIter. rewrite upd_id by auto. now destruct w. Qed.
Lemma putIter_busy w i m h h0 : busy (w_iters w) i = Some h0 -> busy (w_iters (putIter w i m h)) i = Some h.
Proof. intros H. apply busy_nth in H. unfold busy, putIter. simpl. rewrite nth_error_upd_same; auto. eapply nth_error_lt; eauto. Qed.

Lemma readMore_some grow f : forall m h r m' h', h_readMore_loop grow f m h = (r, (m', h')) -> h_reader h <> None -> h_reader h' <> None.
Proof.
  induction f as [|f IH]; simpl; intros m h r m' h' H R; [injection H as <- <- <-; auto|].
  destruct (h_reader h) as [rd|] eqn:Rd; [|congruence]. destruct (h_capture h).
  - destruct (reslice _ _ _) as [s|]; [|injection H as <- <- <-; congruence].
    destruct (rd_read _ _) as [[bs e] r']. destruct (append _ _ _ _) as [m1 b1].
    destruct e as [x|]; [injection H as <- <- <-; simpl; congruence|].
    destruct (0 <? length bs); [injection H as <- <- <-; simpl; congruence|]. eapply IH; eauto. simpl. congruence.
  - destruct (rd_read _ _) as [[bs e] r'].
    destruct e as [x|]; [injection H as <- <- <-; simpl; congruence|].
    destruct (0 <? length bs); [injection H as <- <- <-; simpl; congruence|]. eapply IH; eauto. simpl. congruence.
Qed.
(** the iterator does not read its own temporary buffer *)
Definition offTmp (own : nat -> owner) (i : nat) (h : hiter) : Prop :=
  h_reader h = None -> s_cap (h_buffer h) = 0 \/ own (s_arr (h_buffer h)) <> OTmp i.
Lemma readMore_none grow f m h r m' h' : h_readMore_loop grow f m h = (r, (m', h')) -> h_reader h = None -> m' = m /\ h' = h.
Proof. destruct f; simpl; [|intros H R; rewrite R in H; revert H]; intros H; injection H as <- <- <-; auto. Qed.
Lemma offTmp_agree own own1 m i h : agree m own own1 -> inside m (h_buffer h) = true -> offTmp own i h -> offTmp own1 i h.
Proof.
  intros A I O R. destruct (O R) as [Z|N]; auto. destruct (Nat.eq_dec (s_cap (h_buffer h)) 0) as [Z|Z]; auto.
  right. apply inside_good in I as G; auto. rewrite A by apply G. auto.
Qed.

Lemma run_same {A} u d q grow (p : prog A) : forall own m i h it w, okI own m i true h -> offTmp own i h -> same m h it -> settings u d q it ->
  w_mem w = m -> busy (w_iters w) i = Some h -> comes w ->
  exists own' m' h', runH u d q grow p m h = Some (fst (runV p it), (m', h')) /\ same m' h' (snd (runV p it)) /\
    settings u d q (snd (runV p it)) /\ okI own' m' i true h' /\ wrote own own' i h m m' /\ comes (putIter w i m' h').
Proof.
  induction p as [a|k IH|k IH|n p IH|c p IH|xs p IH]; intros own m i h it w K Of S T Em Bz Cw; cbn [runH runV].
  - exists own, m, h. repeat (split; auto using wrote_refl). subst m. now rewrite putIter_id.
  - replace (fields u d q m h) with (hide it); [now apply IH|].
    destruct S as [S1 S2 S3 S4 S5 S6 S7], T as (T1 & T2 & T3). unfold fields, hide. congruence.
  - destruct (h_readMore_same _ _ _ grow _ _ _ K S) as [E1 S1].
    pose proof (readMore_no_panic _ _ _ grow (Datatypes.S (Datatypes.S (match h_reader h with None => 0 | Some r => length (rd_sched r) end))) _ _ K) as NP.
    fold (h_readMore grow m h) in NP.
    destruct (h_readMore grow m h) as [r [m1 h1]] eqn:Rm.
    destruct (readMore it) as [r' it1] eqn:Rv. simpl in E1, S1, NP. subst r'.
    assert (T1 : settings u d q it1).
    { pose proof (readMore_settings u d q (Datatypes.S (Datatypes.S (match it_reader it with None => 0 | Some r => length (rd_sched r) end))) it T) as X.
      unfold readMore in Rv. now rewrite Rv in X. }
    pose proof Rm as Rm'. unfold h_readMore in Rm. destruct (readMore_loop_ok _ _ _ _ _ _ _ _ _ _ K Rm) as (own1 & [X1 A1 B1] & K1).
    assert (W1 : wrote own own1 i h m m1).
    { split; auto. split; auto. intros a La. destruct (B1 a La) as [E|E]; auto. simpl in E.
      destruct (h_reader h) eqn:R; [right; right; split; auto; congruence|].
      left. simpl in Rm. rewrite R in Rm. injection Rm as <- <- <-. auto. }
    assert (Of1 : offTmp own1 i h1).
    { intros R1. destruct (h_reader h) eqn:R; [|destruct (readMore_none _ _ _ _ _ _ _ Rm R) as [-> ->]; eapply offTmp_agree; eauto; apply K].
      exfalso. eapply readMore_some; eauto. congruence. }
    assert (C1 : comes (putIter w i m1 h1)).
    { apply comes_step with (o := IReadMore i grow) (w := w); auto. simpl. rewrite Bz, Em, Rm'. destruct r; congruence. }
    destruct (IH r own1 m1 i h1 it1 (putIter w i m1 h1) K1 Of1 S1 T1 eq_refl (putIter_busy _ _ _ _ _ Bz) C1) as (own2 & m2 & h2 & H1 & H2 & H3 & H4 & H5 & H6).
    rewrite putIter_put in H6. exists own2, m2, h2. do 4 (split; auto). split; auto.
    eapply wrote_trans; eauto. eapply readMore_reader; eauto.
  - assert (C1 : comes (putIter w i m (h_setHead n h))).
    { apply comes_step with (o := IHead i n) (w := w); auto. simpl. now rewrite Bz, Em. }
    destruct (IH own m i (h_setHead n h) (set_head n it) (putIter w i m (h_setHead n h))) as (own2 & m2 & h2 & H1 & H2 & H3 & H4 & H5 & H6); auto.
    + eapply okI_same; eauto.
    + destruct S. split; auto.
    + eapply putIter_busy; eauto.
    + rewrite putIter_put in H6. exists own2, m2, h2. do 4 (split; auto).
  - assert (C1 : comes (putIter w i m (h_setCapture c h))).
    { apply comes_step with (o := ICapture i c) (w := w); auto. simpl. now rewrite Bz, Em. }
    destruct (IH own m i (h_setCapture c h) (set_capture c it) (putIter w i m (h_setCapture c h))) as (own2 & m2 & h2 & H1 & H2 & H3 & H4 & H5 & H6); auto.
    + eapply okI_same; eauto.
    + destruct S. split; auto.
    + eapply putIter_busy; eauto.
    + rewrite putIter_put in H6. exists own2, m2, h2. do 4 (split; auto).
  - destruct (oi_tmp _ _ _ _ _ K) as [Gt Ot]. unfold h_takeTmp.
    destruct (reslice (h_tmp h) 0 0) as [s|] eqn:Rs; [|discriminate].
    set (h1 := mkH (h_reader h) (h_buffer h) (h_fixbuf h) (h_tmp h) s (h_tail h) (h_capture h) (h_offset h) (h_head h)).
    assert (C1 : comes (putIter w i m h1)).
    { apply comes_step with (o := ITake i 0) (w := w); auto. cbn [step]. rewrite Bz, Em. unfold h_takeTmp. now rewrite Rs. }
    unfold h_appendBuf. cbn [h_buf h1]. destruct (append grow m s xs) as [m1 s1] eqn:Ap.
    set (h2 := mkH (h_reader h1) (h_buffer h1) (h_fixbuf h1) (h_tmp h1) s1 (h_tail h1) (h_capture h1) (h_offset h1) (h_head h1)).
    assert (C2 : comes (putIter w i m1 h2)).
    { rewrite <- (putIter_put w i m h1). apply comes_step with (o := IAppend i grow xs) (w := putIter w i m h1); auto.
      cbn [step]. rewrite (putIter_busy _ _ _ _ _ Bz). unfold h_appendBuf. cbn [h_buf h1 w_mem putIter]. now rewrite Ap. }
    assert (C3 : comes (putIter w i m1 (h_storeTmp h2))).
    { rewrite <- (putIter_put w i m1 h2). apply comes_step with (o := IStore i) (w := putIter w i m1 h2); auto.
      cbn [step]. now rewrite (putIter_busy _ _ _ _ _ Bz). }
    pose proof (reslice_good _ _ _ _ _ Gt Rs) as Gs. pose proof (good_inside _ _ Gs) as Is.
    assert (Os : own (s_arr s) = OTmp i) by (rewrite (reslice_arr _ _ _ _ Rs); auto).
    destruct (append_own own (OTmp i) grow m s xs m1 s1 (IAppend i grow xs)) as (own1 & [X1 A1 B1] & G1 & O1); auto.
    destruct (okI_mono _ _ _ _ X1 A1 _ _ _ K) as [F' T' B' Bf' Tl' Rd' Fr'].
    assert (K2 : okI own1 m1 i true (h_storeTmp h2)) by (split; simpl; auto).
    assert (S2 : same m1 (h_storeTmp h2) (set_tmp xs it)).
    { destruct S as [S1 S2 S3 S4 S5 S6 S7]. split; simpl; auto.
      - rewrite <- S2. pose proof (oi_buffer _ _ _ _ _ K) as Ib. destruct (Nat.eq_dec (s_cap (h_buffer h)) 0) as [Z|Z].
        { unfold get. unfold inside in Ib. apply andb_true_iff in Ib as [Ib _]. apply Nat.leb_le in Ib. replace (s_len (h_buffer h)) with 0 by lia. auto. }
        apply inside_good in Ib as Gb; auto. destruct (h_reader h) eqn:R.
        + apply get_arr. eapply append_other; eauto; [apply Gb|]. destruct (oi_reader _ _ _ _ _ K) as [_ Ob]; congruence.
        + apply get_arr. eapply append_other; eauto; [apply Gb|]. destruct (Of R); congruence.
      - rewrite (append_get _ _ _ _ _ _ Is Ap). unfold get. unfold reslice in Rs. destruct (_ && _); [|discriminate]. injection Rs as <-. reflexivity. }
    assert (Of2 : offTmp own1 i (h_storeTmp h2)) by (apply (offTmp_agree own own1 m i h); auto; apply K).
    destruct (IH own1 m1 i (h_storeTmp h2) (set_tmp xs it) (putIter w i m1 (h_storeTmp h2))) as (own2 & m2 & h3 & H1 & H2 & H3 & H4 & H5 & H6); auto.
    + eapply putIter_busy; eauto.
    + rewrite putIter_put in H6. exists own2, m2, h3. do 4 (split; auto). split; auto. eapply wrote_trans; [|exact H5|auto].
      split; auto. split; auto. intros a La. destruct (B1 a La) as [E|E]; auto.
Qed.
