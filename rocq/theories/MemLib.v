(** Memory: operations of others, streamers, copies, and the decoding functions run in memory. *)
From Coq Require Import ZArith List Bool Lia.
From Verif Require Import Base ModelIter ModelVal ModelStream ModelMem SpecMem MemFacts MemInv MemRun MemProg.
Import ListNotations.
Local Open Scope nat_scope.

(** operations on others *)
Lemma own_iter own w i b h a : Inv own w -> nth_error (w_iters w) i = Some (b, h) -> mine h a ->
  a < length (w_mem w) /\ (own a = OBuf i \/ own a = OTmp i).
Proof.
  intros I N M. apply (in_iters _ _ I) in N as K. split.
  - destruct K as [[F1 _] [T1 _] [B1 _] _ _ R1 _]. destruct M as [[->|[R ->]]|[->| ->]]; [apply F1|apply R1; auto|apply T1|apply B1].
  - apply mine_own with (a := a) in K as [K1 K2]. destruct M; auto.
Qed.
Lemma own_stream own w i b s : Inv own w -> nth_error (w_streams w) i = Some (b, s) -> s_arr s < length (w_mem w) /\ own (s_arr s) = OStr i.
Proof. intros I N. apply (in_streams _ _ I) in N as (G & O & _). split; auto. apply G. Qed.
Lemma iter_alone ops : forall own w w' i b h a, Inv own w -> run ops w = Some w' -> nth_error (w_iters w) i = Some (b, h) -> mine h a ->
  Forall (fun o => ~ on_iter i o) ops -> nth_error (w_iters w') i = Some (b, h) /\ arr (w_mem w') a = arr (w_mem w) a.
Proof.
  induction ops as [|o ops IH]; intros own w w' i b h a I H N M F; simpl in H; [injection H as <-; auto|].
  destruct (step o w) as [w1|] eqn:St; [|discriminate]. inversion F as [|? ? F1 F2]; subst.
  destruct (step_ok _ _ _ _ I St) as (own1 & I1 & [X A B]). destruct (own_iter _ _ _ _ _ _ I N M) as [La Oa].
  assert (E : arr (w_mem w1) a = arr (w_mem w) a).
  { destruct (B a La) as [E|T]; auto. exfalso. destruct o; simpl in T, F1; try contradiction; try (destruct T; intuition congruence); try (apply F1; intuition congruence); intuition congruence. }
  destruct (IH own1 w1 w' i b h a I1 H (iter_frame _ _ _ _ _ St F1 N) M F2) as [H1 H2]. split; auto. congruence.
Qed.
Lemma stream_alone ops : forall own w w' i b s, Inv own w -> run ops w = Some w' -> nth_error (w_streams w) i = Some (b, s) ->
  Forall (fun o => ~ on_stream i o) ops -> nth_error (w_streams w') i = Some (b, s) /\ arr (w_mem w') (s_arr s) = arr (w_mem w) (s_arr s).
Proof.
  induction ops as [|o ops IH]; intros own w w' i b s I H N F; simpl in H; [injection H as <-; auto|].
  destruct (step o w) as [w1|] eqn:St; [|discriminate]. inversion F as [|? ? F1 F2]; subst.
  destruct (step_ok _ _ _ _ I St) as (own1 & I1 & [X A B]). destruct (own_stream _ _ _ _ _ I N) as [La Oa].
  assert (E : arr (w_mem w1) (s_arr s) = arr (w_mem w) (s_arr s)).
  { destruct (B _ La) as [E|T]; auto. exfalso. destruct o; simpl in T, F1; try contradiction; try (destruct T; congruence); try (apply F1; congruence); congruence. }
  destruct (IH own1 w1 w' i b s I1 H (stream_frame _ _ _ _ _ St F1 N) F2) as [H1 H2]. split; auto. congruence.
Qed.

(** streamers *)
Lemma stream_put w i m s s0 : busy (w_streams w) i = Some s0 -> busy (w_streams (putStream w i m s)) i = Some s.
Proof. intros H. apply busy_nth in H. unfold busy, putStream. simpl. rewrite nth_error_upd_same; auto. eapply nth_error_lt; eauto. Qed.
Lemma fix_get m s : good m s -> let '(m', s') := s_fix m s in get m' s' = cleanExponent (get m s).
Proof.
  intros G. pose proof (get_length _ _ (good_inside _ _ G)) as L. unfold s_fix, cleanExponent. rewrite L.
  destruct (4 <? s_len s) eqn:E4; cbn [andb]; auto. apply Nat.ltb_lt in E4.
  destruct (_ && _ && _); auto. set (x := nth _ _ _). destruct G as (A & B & D). unfold get. cbn [s_len s_off s_arr].
  rewrite arr_wr_same by auto. replace (s_len s - 1) with (s_len s - 2 + length [x]) by (simpl; lia).
  rewrite window_at by (simpl; lia). f_equal. rewrite firstn_firstn. f_equal. lia.
Qed.
Lemma flush_get m s n : good m s -> let '(m', s') := s_flush m s n in get m' s' = skipn n (get m s).
Proof.
  intros G. pose proof (get_length _ _ (good_inside _ _ G)) as L. unfold s_flush. destruct (n <? s_len s) eqn:E.
  - apply Nat.ltb_lt in E. pose proof (get_wr m s (skipn n (get m s)) G) as W. rewrite skipn_length, L in W. specialize (W ltac:(lia)).
    unfold get at 1. cbn [s_len s_off s_arr]. unfold get at 1 in W.
    assert (Q : forall l : bytes, firstn (s_len s - n) l = firstn (s_len s - n) (firstn (s_len s) l)) by (intros; rewrite firstn_firstn; f_equal; lia).
    rewrite Q, W, firstn_app, firstn_all2 by (rewrite skipn_length; lia). rewrite skipn_length, L.
    replace (s_len s - n - (s_len s - n)) with 0 by lia. now rewrite app_nil_r.
  - apply Nat.ltb_ge in E. rewrite skipn_all2 by lia. reflexivity.
Qed.

(** copies *)
Lemma copy_step own w o w' xs : Inv own w -> copies o w xs -> step o w = Some w' ->
  exists a, w_user w' = a :: w_user w /\ length (w_mem w) <= a /\ firstn (length xs) (arr (w_mem w') a) = xs.
Proof.
  intros I Cp St. destruct o; simpl in Cp; try contradiction; simpl in St.
  - destruct Cp as (-> & L & h & s & Bz & Rs & ->). rewrite Bz, Rs in St. simpl in St.
    destruct (append grow (w_mem w) nilSlice (get (w_mem w) s)) as [m' d] eqn:Ap. injection St as <-. cbn [w_user w_mem].
    assert (Is : inside (w_mem w) (h_buffer h) = true) by (eapply oi_buffer, (in_iters _ _ I), busy_nth; eauto).
    assert (Ln : length (get (w_mem w) s) = e - b).
    { unfold reslice in Rs. destruct ((b <=? e) && (e <=? s_cap (h_buffer h))) eqn:E; [|discriminate]. injection Rs as <-.
      apply andb_true_iff in E as [E1 E2]. apply Nat.leb_le in E1, E2.
      rewrite get_length; auto. unfold inside in Is |- *. cbn [s_len s_cap s_arr s_off].
      rewrite andb_true_iff, orb_true_iff, andb_true_iff, !Nat.leb_le, Nat.ltb_lt, Nat.eqb_eq in Is |- *. lia. }
    destruct (append_cases _ _ _ _ _ _ Ap) as [(Q & _)|(Q & Em & Ea)]; [simpl in Q; lia|].
    rewrite Ea, Em, app_length. simpl. replace (length (w_mem w) + 1 =? length (w_mem w)) with false by (symmetry; apply Nat.eqb_neq; lia).
    exists (length (w_mem w)). repeat split; auto. rewrite arr_alloc_new. unfold get at 2. simpl. rewrite firstn_app, firstn_all, Nat.sub_diag. apply app_nil_r.
  - destruct Cp as (h & Bz & ->). rewrite Bz in St. injection St as <-. simpl. exists (length (w_mem w)). repeat split; auto.
    rewrite arr_alloc_new. apply firstn_all.
  - destruct Cp as (h & s & Bz & Rs & ->). rewrite Bz, Rs in St. injection St as <-. simpl. exists (length (w_mem w)). repeat split; auto.
    rewrite arr_alloc_new. apply firstn_all.
  - destruct Cp as (s & Bz & ->). rewrite Bz in St. injection St as <-. simpl. exists (length (w_mem w)). repeat split; auto.
    rewrite arr_alloc_new. apply firstn_all.
Qed.

(** decoding in memory *)
Lemma in_memory {A} u d q grow (p : prog A) w i h it : comes w -> busy (w_iters w) i = Some h -> input_ok w h ->
  same (w_mem w) h it -> settings u d q it ->
  exists m' h', runH u d q grow p (w_mem w) h = Some (fst (runV p it), (m', h')) /\ same m' h' (snd (runV p it)) /\
    settings u d q (snd (runV p it)) /\ comes (putIter w i m' h') /\ (forall a, foreign w i a -> arr m' a = arr (w_mem w) a).
Proof.
  intros Cw Bz Io S T. destruct (comes_Inv _ Cw) as (own & I). pose proof (in_iters _ _ I _ _ _ (busy_nth _ _ _ Bz)) as K.
  destruct (run_same u d q grow p own (w_mem w) i h it w K) as (own' & m' & h' & H1 & H2 & H3 & H4 & (X & Ag & B) & H6); auto.
  { intros R. destruct Io as [N|[Z|U]]; [congruence|auto|right]. apply (in_user _ _ I) in U as [_ U]. congruence. }
  exists m', h'. do 4 (split; auto). intros a [Ha|[(j & b & k & N & Hj & M)|(j & b & s & Hj & ->)]].
  - apply (in_user _ _ I) in Ha as [La Oa]. destruct (B a La) as [E|E]; auto. destruct E as [E|[E _]]; congruence.
  - destruct (own_iter _ _ _ _ _ _ I Hj M) as [La Oa]. destruct (B a La) as [E|E]; auto. destruct E as [E|[E _]], Oa; congruence.
  - destruct (own_stream _ _ _ _ _ I Hj) as [La Oa]. destruct (B _ La) as [E|E]; auto. destruct E as [E|[E _]]; congruence.
Qed.
Lemma same_view u d q m h : same m h (view u d q m h).
Proof. split; reflexivity. Qed.
Lemma same_ResetBytes m h it d : inside m d = true -> same m h it -> same m (h_ResetBytes d h) (ResetBytes (get m d) it).
Proof. intros I S. destruct S. split; simpl; auto. now rewrite get_length. Qed.
Lemma same_Reset u d q m r h h' : h_Reset r h = Some h' -> same m h' (Reset r (view u d q m h)).
Proof.
  unfold h_Reset, reslice. rewrite Nat.leb_refl. simpl. intros H. injection H as <-. split; simpl; auto.
  unfold get. simpl. now rewrite Nat.sub_0_r, Nat.add_0_r.
Qed.
