(** The owner of each array never changes; the invariant of all worlds. *)
From Coq Require Import ZArith List Bool Lia.
From Verif Require Import Base ModelIter ModelVal ModelMem SpecMem MemFacts.
Import ListNotations.
Local Open Scope nat_scope.

Inductive owner := OBuf (i : nat) | OTmp (i : nat) | OStr (i : nat) | OUser.

Record okI (own : nat -> owner) (m : mem) (i : nat) (b : bool) (h : hiter) : Prop := mkOkI {
  oi_fix : good m (h_fixbuf h) /\ own (s_arr (h_fixbuf h)) = OBuf i;
  oi_tmp : good m (h_tmp h) /\ own (s_arr (h_tmp h)) = OTmp i;
  oi_buf : good m (h_buf h) /\ own (s_arr (h_buf h)) = OTmp i;
  oi_buffer : inside m (h_buffer h) = true;
  oi_tail : h_tail h <= s_len (h_buffer h);
  oi_reader : h_reader h <> None -> good m (h_buffer h) /\ own (s_arr (h_buffer h)) = OBuf i;
  oi_free : b = false -> h_reader h = None /\ h_buffer h = nilSlice
}.
Definition okS (own : nat -> owner) (m : mem) (i : nat) (b : bool) (s : sl) : Prop :=
  good m s /\ own (s_arr s) = OStr i /\ (b = false -> s_len s = 0).
Record Inv (own : nat -> owner) (w : world) : Prop := mkInv {
  in_iters : forall i b h, nth_error (w_iters w) i = Some (b, h) -> okI own (w_mem w) i b h;
  in_streams : forall i b s, nth_error (w_streams w) i = Some (b, s) -> okS own (w_mem w) i b s;
  in_user : forall a, In a (w_user w) -> a < length (w_mem w) /\ own a = OUser
}.
(** the owners of the arrays of the first memory are the same *)
Definition agree (m : mem) (own own' : nat -> owner) : Prop := forall a, a < length m -> own' a = own a.
Lemma agree_refl m own : agree m own own.
Proof. intros a _. auto. Qed.

Section Mono.
Variables (own own' : nat -> owner) (m m' : mem).
Hypothesis X : ext m m'.
Hypothesis A : agree m own own'.
Lemma mono_own s o : good m s -> own (s_arr s) = o -> good m' s /\ own' (s_arr s) = o.
Proof. intros G E. split; [eapply good_ext; eauto|]. rewrite A; auto. apply G. Qed.
Lemma okI_mono i b h : okI own m i b h -> okI own' m' i b h.
Proof.
  intros [[F1 F2] [T1 T2] [B1 B2] Bf Tl Rd Fr]. split; auto using mono_own.
  - eapply inside_ext; eauto.
  - intros N. destruct (Rd N). auto using mono_own.
Qed.
Lemma okS_mono i b s : okS own m i b s -> okS own' m' i b s.
Proof. intros (G & E & Z). destruct (mono_own s _ G E). repeat split; auto; apply H. Qed.
Lemma okU_mono a : a < length m /\ own a = OUser -> a < length m' /\ own' a = OUser.
Proof. intros [L E]. split; [destruct X; lia|]. rewrite A; auto. Qed.
End Mono.

(** what an operation may write *)
Definition touches (own : nat -> owner) (o : op) (a : nat) : Prop :=
  match o with
  | UWrite b _ _ => a = b /\ own a = OUser
  | IReadMore i _ => own a = OBuf i
  | IAppend i _ _ => own a = OTmp i
  | IAppendRaw _ into _ _ _ => a = s_arr into /\ own a = OUser
  | SAppend i _ _ | SFix i | SFlush i _ => own a = OStr i
  | _ => False
  end.
(** the effect of an operation on memory and ownership *)
Record effect (own own' : nat -> owner) (o : op) (m m' : mem) : Prop := mkEffect {
  ef_ext : ext m m';
  ef_agree : agree m own own';
  ef_arr : forall a, a < length m -> arr m' a = arr m a \/ touches own o a
}.

Definition good_step (own : nat -> owner) (o : op) (w w' : world) : Prop :=
  exists own', Inv own' w' /\ effect own own' o (w_mem w) (w_mem w').

(** a new owner for the next array *)
Definition assign (own : nat -> owner) (m : mem) (x : owner) : nat -> owner := fun a => if a =? length m then x else own a.
Lemma assign_agree own m x : agree m own (assign own m x).
Proof. intros a L. unfold assign. replace (a =? length m) with false; auto. symmetry. apply Nat.eqb_neq. lia. Qed.
Lemma assign_new own m x : assign own m x (length m) = x.
Proof. unfold assign. now rewrite Nat.eqb_refl. Qed.

Lemma busy_nth {A} (l : list (bool * A)) i x : busy l i = Some x -> nth_error l i = Some (true, x).
Proof. unfold busy. destruct (nth_error l i) as [[[] ?]|]; congruence. Qed.

(** an iterator is replaced *)
Lemma put_iter own own' o w m i c h' : Inv own w -> effect own own' o (w_mem w) m -> okI own' m i c h' ->
  good_step own o w (mkWorld m (upd (w_iters w) i (c, h')) (w_streams w) (w_user w)).
Proof.
  intros [I S U] EF K. exists own'. split; [|exact EF]. destruct EF as [X A _]. split; simpl.
  - intros j b k H. apply nth_error_upd in H as [(<- & E & L)|(N & H)].
    + injection E as -> ->. auto.
    + eapply okI_mono; eauto.
  - intros j b s H. eapply okS_mono; eauto.
  - intros a H. eapply okU_mono; eauto.
Qed.
Lemma put_stream own own' o w m i c s' : Inv own w -> effect own own' o (w_mem w) m -> okS own' m i c s' ->
  good_step own o w (mkWorld m (w_iters w) (upd (w_streams w) i (c, s')) (w_user w)).
Proof.
  intros [I S U] EF K. exists own'. split; [|exact EF]. destruct EF as [X A _]. split; simpl.
  - intros j b k H. eapply okI_mono; eauto.
  - intros j b s H. apply nth_error_upd in H as [(<- & E & L)|(N & H)].
    + injection E as -> ->. auto.
    + eapply okS_mono; eauto.
  - intros a H. eapply okU_mono; eauto.
Qed.
Lemma effect_none own o m : effect own own o m m.
Proof. split; auto using ext_refl, agree_refl. Qed.
Lemma effect_alloc own o m x xs : effect own (assign own m x) o m (m ++ [xs]).
Proof. split; [apply ext_alloc|apply assign_agree|]. intros a L. left. now apply arr_alloc. Qed.

(** a caller gets a copy *)
Lemma give_step own o w xs : Inv own w -> good_step own o w (give w xs).
Proof.
  intros [I S U]. exists (assign own (w_mem w) OUser). split; [|apply effect_alloc].
  pose proof (ext_alloc (w_mem w) xs) as X. pose proof (assign_agree own (w_mem w) OUser) as A. unfold give, alloc. split; simpl.
  - intros j b k H. eapply okI_mono; eauto.
  - intros j b s H. eapply okS_mono; eauto.
  - intros a [<-|H]; [split; [rewrite app_length; simpl; lia|apply assign_new]|]. eapply okU_mono; eauto.
Qed.

(** append to a slice with an owner *)
Lemma append_own own x grow m s xs m' s' o : good m s -> own (s_arr s) = x -> (forall a, own a = x -> touches own o a) ->
  append grow m s xs = (m', s') ->
  exists own', effect own own' o m m' /\ good m' s' /\ own' (s_arr s') = x.
Proof.
  intros G E T H. pose proof (good_inside _ _ G) as Hi. pose proof (append_good _ _ _ _ _ _ Hi H G) as G'.
  pose proof (append_ext _ _ _ _ _ _ Hi H) as X.
  destruct (append_cases _ _ _ _ _ _ H) as [(L & Em & Ea & Eo & Ec)|(L & Em & Ea)].
  - exists own. split; [|split; auto; congruence]. split; auto using agree_refl. intros a La.
    destruct (Nat.eq_dec a (s_arr s)) as [->|N]; [right; auto|left]. eapply append_other; eauto.
  - exists (assign own m x). split; [|split; auto; rewrite Ea; apply assign_new].
    split; auto using assign_agree. intros a La. left. rewrite Em. now apply arr_alloc.
Qed.

(** refilling *)
Lemma readMore_loop_ok own i b grow f : forall m h r m' h', okI own m i b h -> h_readMore_loop grow f m h = (r, (m', h')) ->
  exists own', effect own own' (IReadMore i grow) m m' /\ okI own' m' i b h'.
Proof.
  revert own. induction f as [|f IH]; intros own m h r m' h' K H; simpl in H.
  { injection H as <- <- <-. exists own. split; auto using effect_none. }
  destruct (h_reader h) as [rd|] eqn:R.
  2:{ injection H as <- <- <-. exists own. split; auto using effect_none. }
  assert (Rn : h_reader h <> None) by congruence.
  assert (Rec : forall own1 bs e (m1 : mem) h1, effect own own1 (IReadMore i grow) m m1 -> okI own1 m1 i b h1 ->
    match e with Some x => (if err_eqb_eof x && (0 <? length (bs : bytes)) then Ok tt else Err x, (m1, h1))
    | None => if 0 <? length bs then (Ok tt, (m1, h1)) else h_readMore_loop grow f m1 h1 end = (r, (m', h')) ->
    exists own', effect own own' (IReadMore i grow) m m' /\ okI own' m' i b h').
  { intros own1 bs e m1 h1 E1 K1 H1. destruct e as [x|]; [injection H1 as <- <- <-; eauto|].
    destruct (0 <? length bs); [injection H1 as <- <- <-; eauto|].
    destruct (IH _ _ _ _ _ _ K1 H1) as (own2 & E2 & K2). exists own2. split; auto.
    destruct E1 as [X1 A1 B1], E2 as [X2 A2 B2]. split.
    - eapply ext_trans; eauto.
    - intros a La. rewrite A2, A1; auto. destruct X1; lia.
    - intros a La. destruct X1 as [L1 _]. destruct (B2 a ltac:(lia)) as [->|T].
      + auto.
      + right. simpl in *. rewrite <- A1; auto. }
  destruct (h_capture h) eqn:C.
  - destruct (reslice (h_buffer h) 0 (h_tail h)) as [s|] eqn:Rs; [|injection H as <- <- <-; exists own; split; auto using effect_none].
    destruct (rd_read bufferSize rd) as [[bs e] r'] eqn:Rr.
    destruct (append grow m s bs) as [m1 b1] eqn:Ap.
    destruct (oi_reader _ _ _ _ _ K Rn) as [Gb Ob].
    destruct (append_own own (OBuf i) grow m s bs m1 b1 (IReadMore i grow)) as (own1 & E1 & G1 & O1); auto.
    { eapply reslice_good; eauto. }
    { now rewrite (reslice_arr _ _ _ _ Rs). }
    eapply Rec; [exact E1| |exact H].
    destruct E1 as [X1 A1 B1]. destruct (okI_mono _ _ _ _ X1 A1 _ _ _ K) as [F T B Bf Tl Rd Fr].
    split; simpl; auto.
    + apply good_inside; auto.
    + rewrite (append_len _ _ _ _ _ _ Ap). unfold reslice in Rs. destruct (_ && _); [|discriminate]. injection Rs as <-. simpl. lia.
    + intros Z. destruct (Fr Z). congruence.
  - destruct (rd_read (s_len (h_buffer h)) rd) as [[bs e] r'] eqn:Rr.
    assert (Lb : length bs <= s_len (h_buffer h)).
    { unfold rd_read in Rr. destruct (rd_sched rd) as [|[w eg] sc]; injection Rr as <- _ _; rewrite firstn_length; lia. }
    destruct (oi_reader _ _ _ _ _ K Rn) as [Gb Ob].
    eapply (Rec own); [| |exact H].
    + split; auto using agree_refl.
      * apply ext_wr. destruct Gb as (? & ? & ?). lia.
      * intros a La. destruct (Nat.eq_dec a (s_arr (h_buffer h))) as [->|N]; [right; auto|left; apply arr_wr_other; auto].
    + assert (X1 : ext m (wr m (s_arr (h_buffer h)) (s_off (h_buffer h)) bs)) by (apply ext_wr; destruct Gb as (? & ? & ?); lia).
      destruct (okI_mono _ _ _ _ X1 (agree_refl _ own) _ _ _ K) as [F T B Bf Tl Rd Fr].
      split; simpl; auto. intros Z. destruct (Fr Z). congruence.
Qed.

Lemma okI_same own m i b h h' : okI own m i b h -> h_fixbuf h' = h_fixbuf h -> h_tmp h' = h_tmp h -> h_buf h' = h_buf h ->
  h_buffer h' = h_buffer h -> h_tail h' = h_tail h -> h_reader h' = h_reader h -> okI own m i b h'.
Proof. intros [F T B Bf Tl Rd Fr] E1 E2 E3 E4 E5 E6. split; rewrite ?E1, ?E2, ?E3, ?E4, ?E5, ?E6; auto. Qed.

Lemma step_ok own o w w' : Inv own w -> step o w = Some w' -> good_step own o w w'.
Proof.
  intros I H. destruct o; simpl in H.
  1:{ injection H as <-. now apply give_step. }
  1:{ destruct (_ && _) eqn:E; [|discriminate]. injection H as <-. apply andb_true_iff in E as [E1 E2]. apply Nat.leb_le in E2.
      apply existsb_exists in E1 as (b & Hb & E1). apply Nat.eqb_eq in E1 as <-. destruct I as [I S U]. destruct (U _ Hb) as [La Oa].
      assert (X : ext (w_mem w) (wr (w_mem w) a k xs)) by now apply ext_wr.
      exists own. split; [split; simpl|].
      - intros. eapply okI_mono; eauto using agree_refl.
      - intros. eapply okS_mono; eauto using agree_refl.
      - intros. eapply okU_mono; eauto using agree_refl.
      - split; simpl; auto using agree_refl. intros c Lc. destruct (Nat.eq_dec c a) as [->|]; [right; auto|left; apply arr_wr_other; auto]. }
  1:{ injection H as <-. destruct I as [I S U]. set (m := w_mem w) in *. set (m1 := m ++ [repeat 0%Z 64]). set (m2 := m1 ++ [repeat 0%Z 64]).
      set (i := length (w_iters w)). set (own1 := assign own m (OTmp i)). set (own2 := assign own1 m1 (OBuf i)).
      assert (X : ext m m2) by (eapply ext_trans; apply ext_alloc).
      assert (L1 : length m1 = Datatypes.S (length m)) by (unfold m1; rewrite app_length; simpl; lia).
      assert (A : agree m own own2).
      { intros a La. unfold own2. rewrite assign_agree by lia. now apply assign_agree. }
      exists own2. split; [split; simpl|].
      - intros j b h H. destruct (lt_dec j i) as [Lj|Lj].
        + rewrite nth_error_app1 in H by auto. eapply okI_mono; eauto.
        + rewrite nth_error_app2 in H by (fold i; lia). assert (j - length (w_iters w) = 0).
          { apply nth_error_lt in H. simpl in H. lia. }
          rewrite H0 in H. injection H as <- <-. assert (j = i) as -> by (unfold i in *; lia).
          assert (Ga : good m2 (mkSl (length m) 0 64 64)).
          { repeat split; simpl; auto; [unfold m2; rewrite app_length; simpl; lia|]. unfold m2. rewrite arr_alloc by lia. unfold m1.
            rewrite arr_alloc_new. rewrite repeat_length. auto. }
          assert (Gb : good m2 (mkSl (length m1) 0 64 64)).
          { repeat split; simpl; auto; [unfold m2; rewrite app_length; simpl; lia|]. unfold m2. rewrite arr_alloc_new. rewrite repeat_length. auto. }
          assert (Oa : own2 (length m) = OTmp i) by (unfold own2; rewrite assign_agree by lia; apply assign_new).
          split; simpl; auto; try discriminate.
          * split; auto. apply assign_new.
          * congruence.
      - intros. eapply okS_mono; eauto.
      - intros. eapply okU_mono; eauto.
      - split; auto. intros a La. left. change (arr m2 a = arr m a). unfold m2. rewrite arr_alloc by (fold m in La; lia). now apply arr_alloc. }
  1:{ destruct (nth_error (w_iters w) i) as [[[] h]|] eqn:N; try discriminate. injection H as <-.
      eapply put_iter; eauto using effect_none. destruct (in_iters _ _ I _ _ _ N) as [F T B Bf Tl Rd Fr].
      split; auto; discriminate. }
  all: try (destruct (busy (w_iters w) i) as [h|] eqn:Bz; [|discriminate]; apply busy_nth in Bz;
            pose proof (in_iters _ _ I _ _ _ Bz) as K).
  - injection H as <-. eapply put_iter; eauto using effect_none. destruct K as [F T B Bf Tl Rd Fr].
    split; simpl; auto; congruence.
  - injection H as <-. eapply put_iter; eauto using effect_none. destruct K as [F T B Bf Tl Rd Fr].
    split; simpl; auto; congruence.
  - unfold h_Reset in H. destruct (reslice _ _ _) as [b|] eqn:Rs; [|discriminate]. injection H as <-.
    eapply put_iter; eauto using effect_none. destruct K as [[F1 F2] T B Bf Tl Rd Fr].
    assert (G : good (w_mem w) b) by (eapply reslice_good; eauto).
    split; simpl; auto; try discriminate.
    + now apply good_inside.
    + lia.
    + intros _. split; auto. now rewrite (reslice_arr _ _ _ _ Rs).
  - destruct (inside (w_mem w) d) eqn:Hd; [|discriminate]. injection H as <-.
    eapply put_iter; eauto using effect_none. destruct K as [F T B Bf Tl Rd Fr]. split; simpl; auto; congruence.
  - destruct (h_readMore grow (w_mem w) h) as [r [m' h']] eqn:Rm. unfold h_readMore in Rm.
    destruct (readMore_loop_ok _ _ _ _ _ _ _ _ _ _ K Rm) as (own' & E & K').
    destruct r; try discriminate; injection H as <-; eapply put_iter; eauto.
  - injection H as <-. eapply put_iter; eauto using effect_none. eapply okI_same; eauto.
  - injection H as <-. eapply put_iter; eauto using effect_none. eapply okI_same; eauto.
  - unfold h_takeTmp in H. destruct (reslice _ _ _) as [b|] eqn:Rs; [|discriminate]. injection H as <-.
    eapply put_iter; eauto using effect_none. destruct K as [F [T1 T2] B Bf Tl Rd Fr]. split; simpl; auto.
    split; [eapply reslice_good; eauto|]. now rewrite (reslice_arr _ _ _ _ Rs).
  - unfold h_appendBuf in H. destruct (append grow (w_mem w) (h_buf h) xs) as [m' b] eqn:Ap. injection H as <-.
    destruct (oi_buf _ _ _ _ _ K) as [G O].
    destruct (append_own own (OTmp i) grow (w_mem w) (h_buf h) xs m' b (IAppend i grow xs)) as (own1 & E1 & G1 & O1); auto.
    eapply put_iter; eauto. destruct E1 as [X1 A1 B1]. destruct (okI_mono _ _ _ _ X1 A1 _ _ _ K) as [F T B Bf Tl Rd Fr]. split; simpl; auto.
  - injection H as <-. eapply put_iter; eauto using effect_none. destruct K as [F T B Bf Tl Rd Fr]. split; simpl; auto.
  - destruct (reslice _ _ _) as [s|] eqn:Rs; [|discriminate]. destruct (_ && _) eqn:E; [|discriminate].
    apply andb_true_iff in E as [Hin Hown]. destruct (append grow (w_mem w) into (get (w_mem w) s)) as [m' d] eqn:Ap. injection H as <-.
    pose proof (append_ext _ _ _ _ _ _ Hin Ap) as X. destruct I as [I S U].
    destruct (append_cases _ _ _ _ _ _ Ap) as [(L & Em & Ea & Eo & Ec)|(L & Em & Ea)].
    + assert (length m' =? length (w_mem w) = true) as -> by (apply Nat.eqb_eq; subst m'; apply wr_length).
      exists own. split; [split; simpl|].
      * intros. eapply okI_mono; eauto using agree_refl.
      * intros. eapply okS_mono; eauto using agree_refl.
      * intros. eapply okU_mono; eauto using agree_refl.
      * split; simpl; auto using agree_refl. intros a La. destruct (Nat.eq_dec a (s_arr into)) as [->|]; [|left; eapply append_other; eauto].
        unfold isOwn in Hown. apply orb_true_iff in Hown as [Z|Hown]; [left; apply Nat.eqb_eq in Z; eapply append_empty; eauto|right].
        apply existsb_exists in Hown as (b' & Hb & Eb). apply Nat.eqb_eq in Eb as ->. split; auto. now apply U.
    + assert (length m' =? length (w_mem w) = false) as -> by (apply Nat.eqb_neq; subst m'; rewrite app_length; simpl; lia).
      pose proof (assign_agree own (w_mem w) OUser) as A.
      exists (assign own (w_mem w) OUser). split; [split; simpl|].
      * intros. eapply okI_mono; eauto.
      * intros. eapply okS_mono; eauto.
      * intros a [<-|Ha]; [|eapply okU_mono; eauto]. rewrite Ea. split; [subst m'; rewrite app_length; simpl; lia|apply assign_new].
      * split; auto. intros a La. left. rewrite Em. now apply arr_alloc.
  - injection H as <-. now apply give_step.
  - destruct (reslice _ _ _) as [s|] eqn:Rs; [|discriminate]. injection H as <-. now apply give_step.
  - injection H as <-. destruct I as [I S U]. set (i := length (w_streams w)).
    pose proof (assign_agree own (w_mem w) (OStr i)) as A. pose proof (ext_alloc (w_mem w) (repeat 0%Z 64)) as X.
    exists (assign own (w_mem w) (OStr i)). split; [split; simpl|].
    + intros. eapply okI_mono; eauto.
    + intros j b s H. destruct (lt_dec j i) as [Lj|Lj].
      * rewrite nth_error_app1 in H by auto. eapply okS_mono; eauto.
      * rewrite nth_error_app2 in H by (fold i; lia). assert (E0 : j - length (w_streams w) = 0).
        { apply nth_error_lt in H. simpl in H. lia. }
        rewrite E0 in H. injection H as <- <-. assert (j = i) as -> by (unfold i in *; lia).
        split; [|split; [apply assign_new|auto]]. repeat split; simpl; auto; [lia|rewrite app_length; simpl; lia|].
        rewrite arr_alloc_new. change (64 <= length (repeat 0%Z 64)). now rewrite repeat_length.
    + intros. eapply okU_mono; eauto.
    + apply effect_alloc.
  - destruct (nth_error (w_streams w) i) as [[[] s]|] eqn:N; try discriminate. injection H as <-.
    eapply put_stream; eauto using effect_none. destruct (in_streams _ _ I _ _ _ N) as (G & O & _). split; auto. split; auto; discriminate.
  - destruct (busy (w_streams w) i) as [s|] eqn:Bz; [|discriminate]. apply busy_nth in Bz. destruct (in_streams _ _ I _ _ _ Bz) as (G & O & _).
    injection H as <-. eapply put_stream; eauto using effect_none. destruct G as (G1 & G2 & G3). repeat split; simpl; auto; lia.
  - destruct (busy (w_streams w) i) as [s|] eqn:Bz; [|discriminate]. apply busy_nth in Bz. destruct (in_streams _ _ I _ _ _ Bz) as (G & O & _).
    injection H as <-. eapply put_stream; eauto using effect_none. destruct G as (G1 & G2 & G3). repeat split; simpl; auto; lia.
  - destruct (busy (w_streams w) i) as [s|] eqn:Bz; [|discriminate]. apply busy_nth in Bz. destruct (in_streams _ _ I _ _ _ Bz) as (G & O & _).
    destruct (append grow (w_mem w) s xs) as [m' b] eqn:Ap. injection H as <-.
    destruct (append_own own (OStr i) grow (w_mem w) s xs m' b (SAppend i grow xs)) as (own1 & E1 & G1 & O1); auto.
    eapply put_stream; eauto. split; auto. split; auto; discriminate.
  - destruct (busy (w_streams w) i) as [s|] eqn:Bz; [|discriminate]. apply busy_nth in Bz. destruct (in_streams _ _ I _ _ _ Bz) as (G & O & _).
    unfold s_fix in H. destruct (_ && _) eqn:E; injection H as <-.
    2:{ eapply put_stream; eauto using effect_none. split; auto. split; auto; discriminate. }
    apply andb_true_iff in E as [E _]. apply andb_true_iff in E as [E _]. apply andb_true_iff in E as [E _]. apply Nat.ltb_lt in E.
    destruct G as (G1 & G2 & G3).
    eapply put_stream; eauto.
    + split; [apply ext_wr; simpl; lia|apply agree_refl|]. intros a La.
      destruct (Nat.eq_dec a (s_arr s)) as [->|N]; [right; auto|left; apply arr_wr_other; auto].
    + split; [|split; auto; discriminate]. repeat split; simpl; [lia|rewrite wr_length; auto|].
      destruct (ext_wr (w_mem w) (s_arr s) (s_off s + (s_len s - 2)) [nth (s_len s - 1) (get (w_mem w) s) 0%Z]) as [_ X]; [simpl; lia|].
      rewrite X; auto.
  - destruct (busy (w_streams w) i) as [s|] eqn:Bz; [|discriminate]. apply busy_nth in Bz. destruct (in_streams _ _ I _ _ _ Bz) as (G & O & _).
    unfold s_flush in H. pose proof (get_length _ _ (good_inside _ _ G)) as Lg. destruct G as (G1 & G2 & G3). destruct (n <? s_len s) eqn:E; injection H as <-.
    2:{ eapply put_stream; eauto using effect_none. repeat split; simpl; auto; lia. }
    apply Nat.ltb_lt in E. assert (X : ext (w_mem w) (wr (w_mem w) (s_arr s) (s_off s) (skipn n (get (w_mem w) s)))).
    { apply ext_wr. rewrite skipn_length. lia. }
    eapply put_stream; eauto.
    + split; [exact X|apply agree_refl|]. intros a La.
      destruct (Nat.eq_dec a (s_arr s)) as [->|N]; [right; auto|left; apply arr_wr_other; auto].
    + split; [|split; auto; discriminate]. destruct X as [X1 X2]. repeat split; simpl; [lia|rewrite wr_length; auto|]. rewrite X2; auto.
  - destruct (busy (w_streams w) i) as [s|] eqn:Bz; [|discriminate]. injection H as <-. now apply give_step.
Qed.

Lemma Inv0 : Inv (fun _ => OUser) world0.
Proof. split; simpl; try contradiction; intros [|?] ? ? H; discriminate. Qed.
Lemma run_app ops1 ops2 w : run (ops1 ++ ops2) w = match run ops1 w with Some w' => run ops2 w' | None => None end.
Proof. revert w; induction ops1; simpl; intros; auto. destruct (step a w); auto. Qed.
Lemma run_ok ops : forall own w w', Inv own w -> run ops w = Some w' -> exists own', Inv own' w' /\ ext (w_mem w) (w_mem w') /\ agree (w_mem w) own own'.
Proof.
  induction ops as [|o ops IH]; simpl; intros own w w' I H.
  - injection H as <-. exists own. split; auto using ext_refl, agree_refl.
  - destruct (step o w) as [w1|] eqn:St; [|discriminate]. destruct (step_ok _ _ _ _ I St) as (own1 & I1 & [X1 A1 _]).
    destruct (IH _ _ _ I1 H) as (own2 & I2 & X2 & A2). exists own2. split; auto. split; [eapply ext_trans; eauto|].
    intros a La. rewrite A2, A1; auto. destruct X1; lia.
Qed.
Lemma comes_Inv w : comes w -> exists own, Inv own w.
Proof. intros (ops & H). destruct (run_ok _ _ _ _ Inv0 H) as (own & I & _). eauto. Qed.
Lemma comes_step w o w' : comes w -> step o w = Some w' -> comes w'.
Proof. intros (ops & H) S. exists (ops ++ [o]). rewrite run_app, H. simpl. now rewrite S. Qed.
