(** Refinement of iterator actions by pure functions on the remaining bytes. *)
From Coq Require Import ZArith List Bool Lia Arith.
From Verif Require Import Base ModelIter.
Import ListNotations.
Local Open Scope Z_scope.

(** ** The abstraction of an iterator: the bytes still to come and the final error *)
Definition rdata (it : iter) : bytes :=
  match it_reader it with None => [] | Some r => rd_data r end.
Definition window (it : iter) : bytes :=
  firstn (it_tail it - it_head it) (skipn (it_head it) (it_buffer it)).
Definition stream (it : iter) : bytes := window it ++ rdata it.
Definition fin (it : iter) : err :=
  match it_reader it with None => EEOF | Some r => rd_fin r end.

(** Readers that may deliver data together with an error other than EOF.  The code then drops
    the data (iterator.go:169-173), so an operation may fail early. *)
Definition rd_dirty (r : reader) : Prop :=
  rd_fin r <> EEOF /\ Exists (fun x => snd x = true) (rd_sched r).
Definition dirty (it : iter) : Prop := exists r, it_reader it = Some r /\ rd_dirty r.

Record wf (it : iter) : Prop := mkWf {
  wf_ht : (it_head it <= it_tail it)%nat;
  wf_tl : (it_tail it <= length (it_buffer it))%nat;
  wf_rd : forall r, it_reader it = Some r -> (1 <= length (it_buffer it))%nat;
  wf_cap : it_capture it = true -> (1 <= it_tail it)%nat;
  wf_fix : (1 <= length (it_fixbuf it))%nat
}.

(** What every action preserves, and how positions move. *)
Record moved (it it' : iter) (used : bytes) : Prop := mkMoved {
  mv_stream : stream it = used ++ stream it';
  mv_offset : InputOffset it' = (InputOffset it + length used)%nat;
  mv_fin : fin it' = fin it;
  mv_capture : it_capture it = true -> it_capture it' = true;
  mv_num : it_useNumber it' = it_useNumber it;
  mv_dis : it_disallow it' = it_disallow it;
  mv_kept : it_capture it = true ->
            firstn (it_head it') (it_buffer it') = firstn (it_head it) (it_buffer it) ++ used;
  mv_left : (rd_left it' <= rd_left it)%nat;
  mv_dirty : dirty it' -> dirty it
}.
Definition step_ok (it it' : iter) : Prop := exists used, moved it it' used.

Inductive pres (A : Type) :=
| POk (a : A) (rest : bytes)
| PErr (e : err).
Arguments POk {A} _ _.
Arguments PErr {A} _.
Definition P (A : Type) := err -> bytes -> pres A.

Definition pret {A} (a : A) : P A := fun _ l => POk a l.
Definition pfail {A} (e : err) : P A := fun _ _ => PErr e.
Definition pbind {A B} (p : P A) (q : A -> P B) : P B :=
  fun f l => match p f l with POk a r => q a f r | PErr e => PErr e end.

(** the action does what the pure function says; only a dirty reader may make it fail instead,
    with the reader's error *)
Definition outcome {A B} (it it' : iter) (r : res A) (pr : pres B) (R : A -> B -> iter -> Prop) : Prop :=
  match pr with
  | POk b rest => exists a, r = Ok a /\ stream it' = rest /\ R a b it'
  | PErr e => r = Err e
  end \/ (dirty it /\ r = Err (fin it)).
Definition simR {A B} (Pre : iter -> Prop) (m : M A) (p : P B) (R : A -> B -> iter -> Prop) : Prop :=
  forall it, wf it -> Pre it ->
    let '(r, it') := m it in
    wf it' /\ step_ok it it' /\ outcome it it' r (p (fin it) (stream it)) R.

Definition anyP (it : iter) : Prop := True.
Definition eqR {A} (a b : A) (it : iter) : Prop := a = b.
Definition sim {A} (m : M A) (p : P A) : Prop := simR anyP m p eqR.
Definition simP {A} (Pre : iter -> Prop) (m : M A) (p : P A) : Prop := simR Pre m p eqR.

(** the byte at head is [c] *)
Definition peek (c : Z) (it : iter) : Prop :=
  (it_head it < it_tail it)%nat /\ nth_error (it_buffer it) (it_head it) = Some c.
(** the byte just before head is [c] *)
Definition prev (c : Z) (it : iter) : Prop :=
  (1 <= it_head it)%nat /\ nth_error (it_buffer it) (it_head it - 1) = Some c.
Definition peekR (a b : Z) (it : iter) : Prop := a = b /\ peek a it.

(** ** Basic facts *)
Lemma moved_refl it : moved it it [].
Proof. constructor; rewrite ?app_nil_r; auto; simpl; lia. Qed.
Lemma step_refl it : step_ok it it.
Proof. exists []; apply moved_refl. Qed.
Lemma moved_trans a b c u v : moved a b u -> moved b c v -> moved a c (u ++ v).
Proof.
  intros [] []; constructor; try congruence.
  - rewrite mv_stream0, mv_stream1. now rewrite app_assoc.
  - rewrite app_length. lia.
  - auto.
  - intros H. rewrite mv_kept1 by auto. rewrite mv_kept0 by auto. now rewrite app_assoc.
  - lia.
  - auto.
Qed.
Lemma step_trans a b c : step_ok a b -> step_ok b c -> step_ok a c.
Proof. intros [u H] [v K]; eexists; eapply moved_trans; eauto. Qed.

Lemma moved_used it it' u rest : moved it it' u -> stream it' = rest -> stream it = u ++ rest.
Proof. intros [] <-; auto. Qed.

Lemma simR_weaken {A B} (Pre Pre' : iter -> Prop) (m : M A) (p : P B) (R R' : A -> B -> iter -> Prop) :
  simR Pre m p R -> (forall it, Pre' it -> Pre it) -> (forall a b it, R a b it -> R' a b it) ->
  simR Pre' m p R'.
Proof.
  intros H HP HR it W P'. specialize (H it W (HP it P')).
  destruct (m it) as [r it']. destruct H as (W' & St & H). split; [auto|]. split; [auto|].
  destruct H as [H|H]; [left|right; auto]. destruct (p (fin it) (stream it)); auto.
  destruct H as (a0 & -> & ? & ?). exists a0. auto.
Qed.

Lemma simR_ext {A B} Pre (m : M A) (p p' : P B) R :
  (forall f l, p f l = p' f l) -> simR Pre m p R -> simR Pre m p' R.
Proof.
  intros E H it W Q. specialize (H it W Q). destruct (m it). now rewrite <- E.
Qed.

Lemma sim_bind {A B C D} Pre (m : M A) (p : P C) R (f : A -> M B) (q : C -> P D) R' :
  simR Pre m p R ->
  (forall a c, simR (R a c) (f a) (q c) R') ->
  simR Pre (bind m f) (pbind p q) R'.
Proof.
  intros Hm Hf it W Q. unfold bind, pbind. specialize (Hm it W Q).
  destruct (m it) as [r it1]. destruct Hm as (W1 & S1 & [H1|[Dd ->]]).
  2:{ split; auto. split; auto. right. auto. }
  destruct (p (fin it) (stream it)) as [c rest|e].
  - destruct H1 as (a & -> & Hs & HR).
    specialize (Hf a c it1 W1 HR). destruct (f a it1) as [r2 it2].
    destruct Hf as (W2 & S2 & H2). split; [auto|]. split; [eapply step_trans; eauto|].
    assert (fin it1 = fin it) by (destruct S1 as [? []]; auto).
    unfold outcome in H2. rewrite Hs, H in H2. destruct H2 as [H2|[Dd ->]]; [left; auto|].
    right. split; auto. destruct S1 as [? M1]. apply (mv_dirty _ _ _ M1 Dd).
  - subst r. split; [auto|]. split; auto. left. auto.
Qed.

Lemma sim_ret {A} (Pre : iter -> Prop) (a : A) (R : A -> A -> iter -> Prop) :
  (forall it, Pre it -> R a a it) -> simR Pre (ret a) (pret a) R.
Proof.
  intros H it W Q. unfold ret, pret. split; [auto|]. split; [apply step_refl|]. left. exists a; auto.
Qed.
Lemma sim_retR {A B} (Pre : iter -> Prop) (a : A) (b : B) (R : A -> B -> iter -> Prop) :
  (forall it, Pre it -> R a b it) -> simR Pre (ret a) (pret b) R.
Proof.
  intros H it W Q. unfold ret, pret. split; [auto|]. split; [apply step_refl|]. left. exists a; auto.
Qed.
Lemma sim_fail {A B} (Pre : iter -> Prop) (e : err) (R : A -> B -> iter -> Prop) :
  simR Pre (fail e) (pfail e) R.
Proof. intros it W Q. unfold fail, pfail. split; [auto|]. split; [apply step_refl|]. left. auto. Qed.

Lemma sim_if {A B} (Pre : iter -> Prop) (b : bool) (m m' : M A) (p p' : P B) R :
  simR Pre m p R -> simR Pre m' p' R ->
  simR Pre (if b then m else m') (if b then p else p') R.
Proof. destruct b; auto. Qed.

(** ** Windows *)
Lemma skipn_nth_error {A} (l : list A) n c :
  nth_error l n = Some c -> skipn n l = c :: skipn (S n) l.
Proof.
  revert n; induction l; intros [|n] H; simpl in *; try discriminate.
  - now injection H as ->.
  - now apply IHl.
Qed.
Lemma firstn_snoc {A} (l : list A) n c :
  nth_error l n = Some c -> firstn (S n) l = firstn n l ++ [c].
Proof.
  revert n; induction l; intros [|n] H; simpl in *; try discriminate.
  - now injection H as ->.
  - f_equal. now apply IHl.
Qed.
Lemma nth_error_skipn {A} (l : list A) n k : nth_error (skipn n l) k = nth_error l (n + k).
Proof.
  revert l; induction n; intros l; simpl; auto. destruct l; simpl; auto. destruct k; auto.
Qed.
Lemma skipn_skipn {A} (l : list A) a b : skipn a (skipn b l) = skipn (b + a) l.
Proof.
  revert l; induction b; intros l; simpl; auto. destruct l; simpl; [apply skipn_nil | auto].
Qed.
Lemma nth_error_ex {A} (l : list A) n : (n < length l)%nat -> exists c, nth_error l n = Some c.
Proof.
  intros H. destruct (nth_error l n) eqn:E; eauto. apply nth_error_None in E. lia.
Qed.

(** buffer[a:b] as a list *)
Definition sl (l : bytes) (a b : nat) : bytes := firstn (b - a) (skipn a l).
Lemma sl_nil l a : sl l a a = [].
Proof. unfold sl. now rewrite Nat.sub_diag. Qed.
Lemma sl_cons l a b c : nth_error l a = Some c -> (a < b)%nat -> sl l a b = c :: sl l (S a) b.
Proof.
  intros H L. unfold sl. rewrite (skipn_nth_error _ _ _ H).
  replace (b - a)%nat with (S (b - S a)) by lia. reflexivity.
Qed.
Lemma sl_snoc l a b c : nth_error l b = Some c -> (a <= b)%nat -> sl l a (S b) = sl l a b ++ [c].
Proof.
  intros H L. unfold sl. replace (S b - a)%nat with (S (b - a)) by lia.
  apply firstn_snoc. rewrite nth_error_skipn. rewrite <- H. f_equal. lia.
Qed.
Lemma firstn_firstn_skipn {A} (l : list A) a k : firstn a l ++ firstn k (skipn a l) = firstn (a + k) l.
Proof.
  revert l; induction a; intros l; simpl; auto.
  destruct l; simpl; [now rewrite firstn_nil | f_equal; apply IHa].
Qed.
Lemma sl_app l a b c : (a <= b)%nat -> (b <= c)%nat -> sl l a b ++ sl l b c = sl l a c.
Proof.
  intros H K. unfold sl.
  replace (skipn b l) with (skipn (b - a) (skipn a l)).
  - rewrite firstn_firstn_skipn. f_equal. lia.
  - rewrite skipn_skipn. f_equal. lia.
Qed.
Lemma sl_length l a b : (b <= length l)%nat -> length (sl l a b) = (b - a)%nat.
Proof. intros H. unfold sl. rewrite firstn_length, skipn_length. lia. Qed.
Lemma slice_sl l a b : (a <= b)%nat -> (b <= length l)%nat -> slice l a b = Some (sl l a b).
Proof.
  intros H K. unfold slice, sl.
  apply Nat.leb_le in H. apply Nat.leb_le in K. now rewrite H, K.
Qed.
Lemma firstn_sl l a b : (a <= b)%nat -> firstn b l = firstn a l ++ sl l a b.
Proof. intros H. unfold sl. rewrite firstn_firstn_skipn. f_equal. lia. Qed.

Lemma stream_length it : wf it -> length (stream it) = left_total it.
Proof.
  intros []. unfold stream, left_total, window, rd_left, rdata.
  rewrite app_length, firstn_length, skipn_length.
  destruct (it_reader it); simpl; lia.
Qed.

(** moving head forward inside the window *)
Lemma wf_set_head it h : wf it -> (h <= it_tail it)%nat -> wf (set_head h it).
Proof. intros [] H. constructor; simpl; auto. Qed.
Lemma moved_set_head it h :
  wf it -> (it_head it <= h)%nat -> (h <= it_tail it)%nat ->
  moved it (set_head h it) (sl (it_buffer it) (it_head it) h).
Proof.
  intros [] H K. constructor; simpl; auto.
  - unfold stream, window, rdata; simpl. rewrite app_assoc. f_equal.
    symmetry. apply sl_app; lia.
  - unfold InputOffset; simpl. rewrite sl_length; lia.
  - intros _. apply firstn_sl; auto.
Qed.
Lemma peek_stream c it : peek c it -> exists l, stream it = c :: l.
Proof.
  intros [H K]. unfold stream, window. fold (sl (it_buffer it) (it_head it) (it_tail it)).
  rewrite (sl_cons _ _ _ _ K H). simpl. eauto.
Qed.

Lemma sim_incHead c : simR (peek c) incHead (fun _ l => POk tt (tl l)) (fun a b it => a = b /\ prev c it).
Proof.
  intros it W [H K]. unfold incHead.
  assert (E : sl (it_buffer it) (it_head it) (S (it_head it)) = [c])
    by (rewrite (sl_cons _ _ _ _ K), sl_nil; auto; lia).
  assert (Mv := moved_set_head it (S (it_head it)) W ltac:(lia) ltac:(lia)).
  split; [apply wf_set_head; auto|]. split; [eexists; eauto|].
  left. exists tt. split; auto. split.
  - destruct Mv. rewrite mv_stream0, E. reflexivity.
  - split; auto. split; simpl; [lia|]. replace (it_head it - 0)%nat with (it_head it) by lia. auto.
Qed.

(** ** readMore *)
Definition more_ok (it : iter) (x : res unit * iter) : Prop :=
  let '(r, it') := x in
  wf it' /\ moved it it' [] /\ it_tmp it' = it_tmp it /\
  ((r = Ok tt /\ (it_head it' < it_tail it')%nat /\ (rd_left it' < rd_left it)%nat) \/
   (r = Err (fin it) /\ stream it = [] /\ stream it' = []) \/
   (r = Err (fin it) /\ dirty it)).

Lemma skipn_len_nil {A} n (l : list A) : (length l <= n)%nat -> skipn n l = [].
Proof. intros. now apply skipn_all2. Qed.

Lemma rd_read_spec k r bs e r' :
  rd_read k r = (bs, e, r') -> (1 <= k)%nat ->
  rd_data r = bs ++ rd_data r' /\ rd_fin r' = rd_fin r /\ (rd_dirty r' -> rd_dirty r) /\
  (length bs <= k)%nat /\
  match e with
  | Some x => x = rd_fin r /\ rd_data r' = [] /\ (bs = [] \/ rd_fin r = EEOF \/ rd_dirty r)
  | None => bs = [] -> rd_sched r <> [] /\ length (rd_sched r) = S (length (rd_sched r'))
  end.
Proof.
  unfold rd_read. intros H K.
  destruct (rd_sched r) as [|[w eager] sc] eqn:E.
  - injection H as <- <- <-. simpl. rewrite firstn_skipn.
    split; auto. split; auto. split.
    { intros [_ O]. inversion O. }
    split; [rewrite firstn_length; lia|].
    destruct (rd_data r) eqn:D; simpl.
    + rewrite skipn_nil, firstn_nil. auto.
    + destruct k; [lia|]. simpl. discriminate.
  - injection H as <- <- <-. simpl. rewrite firstn_skipn.
    split; auto. split; auto. split.
    { intros [? O]. split; auto. rewrite E. now constructor 2. }
    split; [rewrite firstn_length; lia|].
    destruct w as [|w].
    + simpl. intros _. split; [discriminate|]. auto.
    + destruct (rd_data r) as [|x d] eqn:D.
      * rewrite skipn_nil, firstn_nil. auto.
      * destruct (skipn (Nat.min (S w) k) (x :: d)) eqn:Sk.
        -- destruct eager.
           ++ split; auto. split; auto. right.
              destruct (rd_fin r) eqn:Fi; auto; right; split; try (rewrite Fi; discriminate); rewrite E; now constructor.
           ++ intros F. destruct k; [lia|]. simpl in F. discriminate.
        -- intros F. destruct k; [lia|]. simpl in F. discriminate.
Qed.

Lemma readMore_loop_ok fuel it :
  wf it -> it_head it = it_tail it ->
  (match it_reader it with None => 1 | Some r => length (rd_sched r) + 2 end <= fuel)%nat ->
  more_ok it (readMore_loop fuel it).
Proof.
  revert it. induction fuel as [|fuel IH]; intros it W E F.
  { destruct (it_reader it); lia. }
  simpl. destruct (it_reader it) as [r|] eqn:R.
  2:{ split; auto. split; [apply moved_refl|]. split; auto. right. left.
      unfold fin, stream, window, rdata. rewrite R, E, Nat.sub_diag. auto. }
  destruct W as [Wh Wt Wr Wc Wf]. assert (Wl := Wr _ R).
  destruct (it_capture it) eqn:C.
  - (* capture *)
    destruct (rd_read bufferSize r) as [[bs0 e] r'] eqn:RD.
    destruct (rd_read_spec _ _ _ _ _ RD ltac:(unfold bufferSize; lia))
      as (D & Fi & Ok' & Lb & He).
    simpl. replace (length (it_buffer it) <? it_tail it)%nat with false
      by (symmetry; apply Nat.ltb_ge; auto).
    set (it1 := mkIter _ _ _ _ _ _ _ _ _ _ _).
    assert (W1 : wf it1).
    { constructor; subst it1; simpl.
      - lia.
      - rewrite app_length, firstn_length. lia.
      - intros r0 [= <-]. rewrite app_length, firstn_length. specialize (Wc eq_refl). lia.
      - specialize (Wc eq_refl). lia.
      - rewrite app_length, firstn_length. specialize (Wc eq_refl). lia. }
    assert (Win : window it1 = bs0).
    { unfold window; subst it1; simpl. rewrite E.
      replace (it_tail it + length bs0 - it_tail it)%nat with (length bs0) by lia.
      rewrite skipn_app, skipn_firstn_comm, firstn_length.
      rewrite Nat.sub_diag. simpl.
      replace (it_tail it - Nat.min (it_tail it) (length (it_buffer it)))%nat with O by lia.
      simpl. apply firstn_all. }
    assert (M1 : moved it it1 []).
    { constructor; auto.
      - unfold stream. rewrite Win. unfold window, rdata; subst it1; simpl. rewrite R, E, Nat.sub_diag. simpl. auto.
      - unfold fin; subst it1; simpl. now rewrite R.
      - subst it1; simpl. intros _. rewrite app_nil_r, E.
        rewrite firstn_app, firstn_firstn, Nat.min_id, firstn_length.
        replace (it_tail it - Nat.min (it_tail it) (length (it_buffer it)))%nat with O by lia.
        simpl. now rewrite app_nil_r.
      - unfold rd_left; subst it1; simpl. rewrite R, D, app_length. lia.
      - intros (r0 & [= <-] & Hd). exists r. auto. }
    assert (S0 : stream it = bs0 ++ rd_data r').
    { unfold stream, window, rdata. rewrite R, E, Nat.sub_diag. simpl. auto. }
    assert (S1 : stream it1 = bs0 ++ rd_data r') by (unfold stream; now rewrite Win).
    destruct bs0 as [|b bs0].
    + simpl. destruct e as [x|].
      * rewrite andb_false_r. destruct He as (-> & Dn & _).
        split; auto. split; auto. split; auto. right. left. rewrite S0, S1, Dn. unfold fin. now rewrite R.
      * destruct (He eq_refl) as [_ Hl].
        assert (more_ok it1 (readMore_loop fuel it1)).
        { apply IH; auto.
          - subst it1; simpl. lia.
          - subst it1; simpl. lia. }
        destruct (readMore_loop fuel it1) as [r2 it2]. destruct H as (W2 & M2 & T2 & H2).
        split; auto. split; [apply (moved_trans _ _ _ [] [] M1 M2)|]. split; auto.
        destruct H2 as [(-> & ? & ?)|[(-> & ? & ?)|[-> ?]]].
        -- left. repeat split; auto. destruct M1. lia.
        -- right. left. repeat split; auto.
           ++ f_equal. apply M1.
           ++ now rewrite (mv_stream _ _ _ M1).
        -- right. right. split; [f_equal; apply M1|apply (mv_dirty _ _ _ M1); auto].
    + assert (HL : (it_head it1 < it_tail it1)%nat /\ (rd_left it1 < rd_left it)%nat).
      { subst it1; simpl. split; [lia|]. unfold rd_left; simpl. rewrite R, D, app_length. simpl. lia. }
      simpl. destruct e as [x|].
      * destruct He as (-> & Dn & [?|[Fe|Fd]]); [discriminate| |].
        2:{ replace (err_eqb_eof (rd_fin r)) with false by (destruct Fd as [Fd _]; destruct (rd_fin r); auto; congruence).
            simpl. split; [exact W1|]. split; [exact M1|]. split; [reflexivity|]. right. right.
            split; [unfold fin; now rewrite R|]. exists r. auto. }
        rewrite Fe. simpl. split; [exact W1|]. split; [exact M1|]. split; [reflexivity|]. left. split; [reflexivity|]. exact HL.
      * split; [exact W1|]. split; [exact M1|]. split; [reflexivity|]. left. split; [reflexivity|]. exact HL.
  - (* overwrite *)
    destruct (rd_read (length (it_buffer it)) r) as [[bs0 e] r'] eqn:RD.
    destruct (rd_read_spec _ _ _ _ _ RD ltac:(lia)) as (D & Fi & Ok' & Lb & He).
    simpl.
    set (it1 := mkIter _ _ _ _ _ _ _ _ _ _ _).
    assert (W1 : wf it1).
    { constructor; subst it1; simpl; auto; try lia.
      - rewrite app_length, skipn_length. lia.
      - intros r0 [= <-]. rewrite app_length, skipn_length. lia. }
    assert (Win : window it1 = bs0).
    { unfold window; subst it1; simpl. rewrite Nat.sub_0_r.
      rewrite firstn_app, Nat.sub_diag. simpl. now rewrite app_nil_r, firstn_all. }
    assert (M1 : moved it it1 []).
    { constructor; auto.
      - unfold stream. rewrite Win. unfold window, rdata; subst it1; simpl. rewrite R, E, Nat.sub_diag. simpl. auto.
      - unfold InputOffset; subst it1; simpl. lia.
      - unfold fin; subst it1; simpl. now rewrite R.
      - rewrite C. discriminate.
      - rewrite C. discriminate.
      - unfold rd_left; subst it1; simpl. rewrite R, D, app_length. lia.
      - intros (r0 & [= <-] & Hd). exists r. auto. }
    assert (S0 : stream it = bs0 ++ rd_data r').
    { unfold stream, window, rdata. rewrite R, E, Nat.sub_diag. simpl. auto. }
    assert (S1 : stream it1 = bs0 ++ rd_data r') by (unfold stream; now rewrite Win).
    destruct bs0 as [|b bs0].
    + simpl. destruct e as [x|].
      * rewrite andb_false_r. destruct He as (-> & Dn & _).
        split; auto. split; auto. split; auto. right. left. rewrite S0, S1, Dn. unfold fin. now rewrite R.
      * destruct (He eq_refl) as [_ Hl].
        assert (more_ok it1 (readMore_loop fuel it1)).
        { apply IH; auto; subst it1; simpl; lia. }
        destruct (readMore_loop fuel it1) as [r2 it2]. destruct H as (W2 & M2 & T2 & H2).
        split; auto. split; [apply (moved_trans _ _ _ [] [] M1 M2)|]. split; auto.
        destruct H2 as [(-> & ? & ?)|[(-> & ? & ?)|[-> ?]]].
        -- left. repeat split; auto. destruct M1. lia.
        -- right. left. repeat split; auto.
           ++ f_equal. apply M1.
           ++ now rewrite (mv_stream _ _ _ M1).
        -- right. right. split; [f_equal; apply M1|apply (mv_dirty _ _ _ M1); auto].
    + assert (HL : (it_head it1 < it_tail it1)%nat /\ (rd_left it1 < rd_left it)%nat).
      { subst it1; simpl. split; [lia|]. unfold rd_left; simpl. rewrite R, D, app_length. simpl. lia. }
      simpl. destruct e as [x|].
      * destruct He as (-> & Dn & [?|[Fe|Fd]]); [discriminate| |].
        2:{ replace (err_eqb_eof (rd_fin r)) with false by (destruct Fd as [Fd _]; destruct (rd_fin r); auto; congruence).
            simpl. split; [exact W1|]. split; [exact M1|]. split; [reflexivity|]. right. right.
            split; [unfold fin; now rewrite R|]. exists r. auto. }
        rewrite Fe. simpl. split; [exact W1|]. split; [exact M1|]. split; [reflexivity|]. left. split; [reflexivity|]. exact HL.
      * split; [exact W1|]. split; [exact M1|]. split; [reflexivity|]. left. split; [reflexivity|]. exact HL.
Qed.

Lemma readMore_ok it : wf it -> it_head it = it_tail it -> more_ok it (readMore it).
Proof.
  intros W E. unfold readMore. apply readMore_loop_ok; auto.
  destruct (it_reader it); lia.
Qed.

(** ** nextByte *)
Definition p_peek : P Z := fun f l => match l with [] => PErr f | c :: _ => POk c l end.

Lemma peekHead_ok it : wf it -> (it_head it < it_tail it)%nat ->
  exists c, peekHead it = (Ok c, it) /\ peek c it /\ exists l, stream it = c :: l.
Proof.
  intros [] H. destruct (nth_error_ex (it_buffer it) (it_head it)) as [c E]; [lia|].
  exists c. unfold peekHead. rewrite E. split; auto.
  assert (peek c it) by (split; auto). split; auto. now apply peek_stream.
Qed.

Lemma sim_nextByte : simR anyP nextByte p_peek peekR.
Proof.
  intros it W _. unfold nextByte. destruct (Nat.eqb_spec (it_head it) (it_tail it)) as [E|E].
  - unfold bind. assert (H := readMore_ok it W E).
    destruct (readMore it) as [r it1]. destruct H as (W1 & M1 & _ & [(-> & L & _)|[(-> & Sn & Sn1)|[-> Dd]]]).
    + destruct (peekHead_ok it1 W1 L) as (c & -> & Pk & l & Es).
      split; auto. split; [eexists; eauto|]. left.
      rewrite (mv_stream _ _ _ M1). simpl. rewrite Es. simpl. exists c. rewrite <- Es. repeat split; auto; apply Pk.
    + split; auto. split; [eexists; eauto|]. left. now rewrite Sn.
    + split; auto. split; [eexists; eauto|]. right. auto.
  - destruct (peekHead_ok it W) as (c & -> & Pk & l & Es).
    + destruct W; lia.
    + split; auto. split; [apply step_refl|]. left. rewrite Es. simpl. exists c. rewrite <- Es. repeat split; auto; apply Pk.
Qed.

(** ** The scanning loop *)
Inductive psres (T A : Type) :=
| PNext (t : T)
| PStop (k : nat) (q : P A)
| PFail (e : err)
| PResume (q : P T).
Arguments PNext {T A} _.
Arguments PStop {T A} _ _.
Arguments PFail {T A} _.
Arguments PResume {T A} _.

Fixpoint pscan {T A} (pbody : T -> Z -> psres T A) (ponErr : T -> P A) (fuel : nat) (f : err) : T -> bytes -> pres A :=
  fix go (t : T) (l : bytes) : pres A :=
    match l with
    | [] => ponErr t f []
    | c :: l' =>
        match pbody t c with
        | PNext t' => go t' l'
        | PStop k q => q f (skipn k l)
        | PFail e => PErr e
        | PResume q =>
            match fuel with
            | O => PErr (EOther (-1))
            | S n => match q f l' with
                     | POk t' l'' => pscan pbody ponErr n f t' l''
                     | PErr e => PErr e
                     end
            end
        end
    end.

Definition p_scan {T A} (pbody : T -> Z -> psres T A) (ponErr : T -> P A) (t : T) : P A :=
  fun f l => pscan pbody ponErr (length l) f t l.

Definition shrinks {A} (q : P A) : Prop :=
  forall f l a r, q f l = POk a r -> exists u, l = u ++ r.

Section Scan.
Context {S0 A T B : Type}.
Variable body : iter -> nat -> S0 -> Z -> sres S0 A.
Variable atEnd : iter -> S0 -> option S0.
Variable onErr : S0 -> err -> M A.
Variable pbody : T -> Z -> psres T B.
Variable ponErr : T -> P B.
Variable ab : bytes -> S0 -> T.
Variable R : A -> B -> iter -> Prop.

Definition body_ok : Prop :=
  forall it i s c, wf it -> (it_head it <= i)%nat -> (i < it_tail it)%nat ->
    nth_error (it_buffer it) i = Some c ->
    let seg := sl (it_buffer it) (it_head it) i in
    match body it i s c with
    | SNext s' => pbody (ab seg s) c = PNext (ab (seg ++ [c]) s')
    | SStop O m => exists q, pbody (ab seg s) c = PStop 0 q /\ simR (peek c) m q R
    | SStop 1 m => exists q, pbody (ab seg s) c = PStop 1 q /\ simR (prev c) m q R
    | SStop _ _ => False
    | SFail e => pbody (ab seg s) c = PFail e
    | SResume m => exists q, pbody (ab seg s) c = PResume q /\ shrinks q /\
                     simR (prev c) m q (fun s' t' _ => ab [] s' = t')
    end.
Definition atEnd_ok : Prop :=
  forall it s, wf it -> exists s', atEnd it s = Some s' /\
    ab [] s' = ab (sl (it_buffer it) (it_head it) (it_tail it)) s.
Definition onErr_ok : Prop :=
  (forall s e, simR (fun it => stream it = [] /\ fin it = e) (onErr s e) (ponErr (ab [] s)) R) /\
  (forall s e it, e <> EEOF -> onErr s e it = (Err e, it)).
Definition presume_ok : Prop :=
  forall t c q, pbody t c = PResume q -> shrinks q.

Hypothesis Hbody : body_ok.
Hypothesis Hend : atEnd_ok.
Hypothesis Herr : onErr_ok.
Hypothesis Hres : presume_ok.

Lemma pscan_fuel n m f t l :
  (length l <= n)%nat -> (length l <= m)%nat ->
  pscan pbody ponErr n f t l = pscan pbody ponErr m f t l.
Proof.
  revert m t l. induction n as [|n IHn]; intros m t l; revert t; induction l as [|c l IHl]; intros t Hn Hm; simpl in Hn, Hm.
  - destruct m; reflexivity.
  - lia.
  - destruct m; reflexivity.
  - destruct m as [|m]; [lia|].
    cbn [pscan]. destruct (pbody t c) as [t'|k q|e|q] eqn:E; auto.
    + apply (IHl t'); lia.
    + destruct (q f l) as [t' l''|e] eqn:Q; auto.
      destruct (Hres _ _ _ E _ _ _ _ Q) as [u ->]. rewrite app_length in *.
      apply IHn; lia.
Qed.

Lemma scan_in_ok it n i s :
  wf it -> (it_head it <= i)%nat -> (i + n = it_tail it)%nat ->
  let seg := sl (it_buffer it) (it_head it) in
  match scan_in body it n i s with
  | IEnd s' => forall rest k f, pscan pbody ponErr k f (ab (seg i) s) (sl (it_buffer it) i (it_tail it) ++ rest)
                              = pscan pbody ponErr k f (ab (seg (it_tail it)) s') rest
  | IExit j x => (i <= j < it_tail it)%nat /\ exists s' c, nth_error (it_buffer it) j = Some c /\
       x = body it j s' c /\ (forall s'', x <> SNext s'') /\
       forall rest k f, pscan pbody ponErr k f (ab (seg i) s) (sl (it_buffer it) i (it_tail it) ++ rest)
                      = pscan pbody ponErr k f (ab (seg j) s') (sl (it_buffer it) j (it_tail it) ++ rest)
  | IPanic => False
  end.
Proof.
  intros W. revert i s. induction n as [|n IH]; intros i s Hi Hn; simpl.
  - assert (i = it_tail it) by lia. subst i. intros. now rewrite sl_nil.
  - destruct W as [W1 W2 W3 W4 W5].
    destruct (nth_error_ex (it_buffer it) i) as [c E]; [lia|]. rewrite E.
    assert (W : wf it) by (constructor; auto).
    assert (Hb := Hbody it i s c W Hi ltac:(lia) E). cbv zeta in Hb.
    destruct (body it i s c) as [s'|k m|e|m] eqn:Bd.
    1:{ specialize (IH (Datatypes.S i) s' ltac:(lia) ltac:(lia)).
        assert (Hstep : forall rest k f,
                   pscan pbody ponErr k f (ab (sl (it_buffer it) (it_head it) i) s) (sl (it_buffer it) i (it_tail it) ++ rest)
                 = pscan pbody ponErr k f (ab (sl (it_buffer it) (it_head it) (Datatypes.S i)) s') (sl (it_buffer it) (Datatypes.S i) (it_tail it) ++ rest)).
        { intros. rewrite (sl_cons _ _ _ _ E) by lia.
          change ((c :: sl (it_buffer it) (Datatypes.S i) (it_tail it)) ++ rest)
            with (c :: (sl (it_buffer it) (Datatypes.S i) (it_tail it) ++ rest)).
          rewrite (sl_snoc _ _ _ _ E Hi). destruct k; cbn [pscan]; now rewrite Hb. }
        destruct (scan_in body it n (Datatypes.S i) s').
        - intros. rewrite Hstep. apply IH.
        - destruct IH as (B1 & s'' & c' & E1 & E2 & E3 & E4).
          split; [lia|]. exists s'', c'. repeat split; auto.
          intros. rewrite Hstep. apply E4.
        - auto. }
    all: split; [lia|]; exists s, c; repeat split; auto; discriminate.
Qed.

Lemma scan_loop_ok fuel it s :
  wf it -> (left_total it + rd_left it < fuel)%nat ->
  let '(r, it') := scan_loop fuel body atEnd onErr s it in
  wf it' /\ step_ok it it' /\ outcome it it' r (p_scan pbody ponErr (ab [] s) (fin it) (stream it)) R.
Proof.
  revert it s. induction fuel as [|fuel IH]; intros it s W F; [lia|].
  cbn [scan_loop].
  assert (Hin := scan_in_ok it (it_tail it - it_head it) (it_head it) s W ltac:(lia)
                 ltac:(destruct W; lia)).
  cbv zeta in Hin. unfold p_scan.
  destruct (scan_in body it (it_tail it - it_head it) (it_head it) s) as [s'|j x|]; [| |tauto].
  - (* end of buffer *)
    destruct (Hend it s' W) as (s'' & -> & Hab).
    assert (W1 : wf (set_head (it_tail it) it)) by (apply wf_set_head; auto).
    assert (M1 := moved_set_head it (it_tail it) W (wf_ht _ W) ltac:(lia)).
    assert (HM := readMore_ok _ W1 eq_refl).
    destruct (readMore (set_head (it_tail it) it)) as [r it2].
    destruct HM as (W2 & M2 & _ & HM).
    assert (Hst : stream it2 = rdata it).
    { destruct M2. simpl in mv_stream0. rewrite <- mv_stream0.
      unfold stream, window, rdata; simpl. rewrite Nat.sub_diag. reflexivity. }
    assert (Hps : pscan pbody ponErr (length (stream it)) (fin it) (ab [] s) (stream it)
                = pscan pbody ponErr (length (stream it2)) (fin it2) (ab [] s'') (stream it2)).
    { rewrite Hst. rewrite (mv_fin _ _ _ M2). change (fin (set_head (it_tail it) it)) with (fin it).
      rewrite Hab.
      assert (length (rdata it) <= length (stream it))%nat by (unfold stream; rewrite app_length; lia).
      rewrite (pscan_fuel (length (rdata it)) (length (stream it)) (fin it) _ (rdata it)) by lia.
      rewrite <- (Hin (rdata it)).
      rewrite sl_nil. reflexivity. }
    rewrite Hps.
    destruct HM as [(-> & L2 & RL)|[(-> & Sn & Sn2)|[-> Dd]]].
    + specialize (IH it2 s'' W2).
      assert (left_total it2 + rd_left it2 < fuel)%nat.
      { rewrite <- (stream_length _ W2), Hst. rewrite <- (stream_length _ W) in F.
        unfold stream in F. rewrite app_length in F. change (rd_left (set_head (it_tail it) it)) with (rd_left it) in RL.
        lia. }
      specialize (IH H). destruct (scan_loop fuel body atEnd onErr s'' it2) as [r3 it3].
      destruct IH as (W3 & S3 & IH). split; auto. split.
      { eapply step_trans; [eexists; apply M1|]. eapply step_trans; [eexists; apply M2|]. auto. }
      destruct IH as [IH|[Dd ->]]; [left; exact IH|right]. split; [|f_equal; apply M2].
      apply (mv_dirty _ _ _ M1), (mv_dirty _ _ _ M2), Dd.
    + assert (He := proj1 Herr s'' (fin (set_head (it_tail it) it)) it2 W2
                    (conj Sn2 (mv_fin _ _ _ M2))).
      destruct (onErr s'' (fin (set_head (it_tail it) it)) it2) as [r3 it3].
      destruct He as (W3 & S3 & He). split; auto. split.
      { eapply step_trans; [eexists; apply M1|]. eapply step_trans; [eexists; apply M2|]. auto. }
      rewrite Sn2 in *. simpl. destruct He as [He|[Dd ->]]; [left; exact He|right].
      split; [|f_equal; apply M2]. apply (mv_dirty _ _ _ M1), (mv_dirty _ _ _ M2), Dd.
    + rewrite (proj2 Herr).
      2:{ destruct Dd as (rd & Er & [Hf _]). change (fin (set_head (it_tail it) it)) with (fin it). unfold fin.
          change (it_reader it = Some rd) in Er. now rewrite Er. }
      split; auto. split.
      { eapply step_trans; [eexists; apply M1|]. eexists; apply M2. }
      right. split; [exact (mv_dirty _ _ _ M1 Dd)|reflexivity].
  - (* exit at j *)
    destruct Hin as (Hj & s' & c & E & -> & Hn & Hps).
    assert (Hb := Hbody it j s' c W ltac:(lia) ltac:(lia) E). cbv zeta in Hb.
    rewrite sl_nil in Hps.
    assert (Hps' : forall k f, pscan pbody ponErr k f (ab [] s) (stream it)
              = pscan pbody ponErr k f (ab (sl (it_buffer it) (it_head it) j) s')
                      (c :: (sl (it_buffer it) (S j) (it_tail it) ++ rdata it))).
    { intros. unfold stream at 1. change (window it) with (sl (it_buffer it) (it_head it) (it_tail it)).
      rewrite Hps. f_equal. rewrite (sl_cons _ _ _ _ E) by lia. reflexivity. }
    assert (Hst0 : stream (set_head j it) = c :: (sl (it_buffer it) (S j) (it_tail it) ++ rdata it)).
    { unfold stream, window, rdata; simpl.
      change (firstn (it_tail it - j) (skipn j (it_buffer it))) with (sl (it_buffer it) j (it_tail it)).
      rewrite (sl_cons _ _ _ _ E) by lia. reflexivity. }
    assert (Hst1 : stream (set_head (S j) it) = sl (it_buffer it) (S j) (it_tail it) ++ rdata it)
      by reflexivity.
    assert (M0 := moved_set_head it j W ltac:(lia) ltac:(lia)).
    assert (M1 := moved_set_head it (S j) W ltac:(lia) ltac:(lia)).
    assert (W0 : wf (set_head j it)) by (apply wf_set_head; auto; lia).
    assert (W1 : wf (set_head (S j) it)) by (apply wf_set_head; auto; lia).
    assert (Hpk : peek c (set_head j it)) by (split; simpl; auto; lia).
    assert (Hpv : prev c (set_head (S j) it)).
    { split; simpl; [lia|]. now rewrite Nat.sub_0_r. }
    rewrite Hps'.
    destruct (body it j s' c) as [s''|k m|e|m] eqn:Bd.
    + now destruct (Hn s'').
    + destruct k as [|[|k]]; [| |tauto].
      * destruct Hb as (q & Eq & Hs). rewrite Nat.add_0_r.
        specialize (Hs _ W0 Hpk). destruct (m (set_head j it)) as [r3 it3].
        destruct Hs as (W3 & S3 & Hs). split; auto. split.
        { eapply step_trans; [eexists; apply M0|]. auto. }
        unfold outcome in Hs. rewrite Hst0 in Hs. change (fin (set_head j it)) with (fin it) in Hs.
        destruct (length (stream it)); cbn [pscan]; rewrite Eq; exact Hs.
      * destruct Hb as (q & Eq & Hs). rewrite Nat.add_1_r.
        specialize (Hs _ W1 Hpv). destruct (m (set_head (S j) it)) as [r3 it3].
        destruct Hs as (W3 & S3 & Hs). split; auto. split.
        { eapply step_trans; [eexists; apply M1|]. auto. }
        unfold outcome in Hs. rewrite Hst1 in Hs. change (fin (set_head (S j) it)) with (fin it) in Hs.
        destruct (length (stream it)); cbn [pscan]; rewrite Eq; exact Hs.
    + split; auto. split; [apply step_refl|]. left.
      destruct (length (stream it)); cbn [pscan]; rewrite Hb; reflexivity.
    + destruct Hb as (q & Eq & Sh & Hs).
      specialize (Hs _ W1 Hpv). destruct (m (set_head (S j) it)) as [r3 it3].
      destruct Hs as (W3 & S3 & Hs). unfold outcome in Hs.
      rewrite Hst1 in Hs. change (fin (set_head (S j) it)) with (fin it) in Hs.
      assert (Hlen : exists n, length (stream it) = S n /\ (length (sl (it_buffer it) (S j) (it_tail it) ++ rdata it) <= n)%nat).
      { destruct M0. rewrite mv_stream0, Hst0, app_length. simpl.
        eexists. split; [rewrite Nat.add_succ_r; reflexivity|]. lia. }
      destruct Hlen as (n & En & Hle). rewrite En. cbn [pscan]. rewrite Eq.
      destruct Hs as [Hs|[Dd ->]].
      2:{ split; auto. split; [eapply step_trans; [eexists; apply M1|]; auto|]. right. split; [|reflexivity].
          exact (mv_dirty _ _ _ M1 Dd). }
      destruct (q (fin it) (sl (it_buffer it) (S j) (it_tail it) ++ rdata it)) as [t' l''|e] eqn:Q.
      * destruct Hs as (s3 & -> & Es3 & <-).
        assert (Hsuf := Sh _ _ _ _ Q). destruct Hsuf as [u Hu].
        specialize (IH it3 s3 W3).
        assert (HF : (left_total it3 + rd_left it3 < fuel)%nat).
        { rewrite <- (stream_length _ W3), Es3. rewrite <- (stream_length _ W), En in F.
          rewrite Hu, app_length in Hle. destruct S3 as [u3 []].
          change (rd_left (set_head (S j) it)) with (rd_left it) in mv_left0. lia. }
        specialize (IH HF). destruct (scan_loop fuel body atEnd onErr s3 it3) as [r4 it4].
        destruct IH as (W4 & S4 & IH). split; auto. split.
        { eapply step_trans; [eexists; apply M1|]. eapply step_trans; eauto. }
        unfold p_scan in IH. assert (Hfin : fin it3 = fin it) by (destruct S3 as [u3 []]; auto).
        unfold outcome in IH. rewrite Hfin, Es3 in IH.
        rewrite (pscan_fuel n (length l'')) ; auto.
        2:{ rewrite Hu, app_length in Hle. lia. }
        destruct IH as [IH|[Dd ->]]; [left; exact IH|right]. split; [|reflexivity].
        destruct S3 as [u3 M3]. exact (mv_dirty _ _ _ M1 (mv_dirty _ _ _ M3 Dd)).
      * subst r3. split; auto. split.
        { eapply step_trans; [eexists; apply M1|]. auto. }
        left. reflexivity.
Qed.

Lemma sim_scan Pre s :
  simR Pre (scan body atEnd onErr s) (p_scan pbody ponErr (ab [] s)) R.
Proof.
  intros it W _. unfold scan. apply scan_loop_ok; auto.
Qed.
End Scan.

(** Unfolding of the pure loop *)
Lemma p_scan_nil {T A} pb (pe : T -> P A) t f : p_scan pb pe t f [] = pe t f [].
Proof. reflexivity. Qed.
Lemma p_scan_cons {T A} (pb : T -> Z -> psres T A) (pe : T -> P A) t f c l :
  presume_ok pb ->
  p_scan pb pe t f (c :: l) =
  match pb t c with
  | PNext t' => p_scan pb pe t' f l
  | PStop k q => q f (skipn k (c :: l))
  | PFail e => PErr e
  | PResume q => match q f l with
                 | POk t' l'' => p_scan pb pe t' f l''
                 | PErr e => PErr e
                 end
  end.
Proof.
  intros Hres. unfold p_scan. cbn [length pscan].
  destruct (pb t c) as [t'|k q|e|q] eqn:E; auto.
  - change ((fix go (t0 : T) (l0 : bytes) {struct l0} : pres A :=
               match l0 with
               | [] => pe t0 f []
               | c0 :: l' =>
                   match pb t0 c0 with
                   | PNext t'0 => go t'0 l'
                   | PStop k q => q f (skipn k l0)
                   | PFail e => PErr e
                   | PResume q => match q f l' with
                                  | POk t'0 l'' => pscan pb pe (length l) f t'0 l''
                                  | PErr e => PErr e
                                  end
                   end
               end) t' l) with (pscan pb pe (S (length l)) f t' l).
    apply pscan_fuel; auto.
  - destruct (q f l) as [t' l''|e] eqn:Q; auto.
    destruct (Hres _ _ _ E _ _ _ _ Q) as [u Hu].
    apply pscan_fuel; auto. rewrite Hu, app_length. lia.
Qed.
