(** Growing keeps the elements; new elements are zero. *)
From Coq Require Import ZArith List Bool Lia Arith.
From Verif Require Import SpecGrow ModelGrow.
Import ListNotations.

Section Facts.
Context {A : Type}.
Variable zero : A.

(** what a Go program sees of a slice *)
Definition elems (s : slice A) : list A := firstn (sl_len s) (sl_data s).
(** Len <= Cap *)
Definition valid (s : slice A) : Prop := (sl_len s <= sl_cap s)%nat.
(** the memory behind the last element is still zero *)
Definition fresh (s : slice A) : Prop := Forall (fun x => x = zero) (skipn (sl_len s) (sl_data s)).

Lemma growCap_ge fuel : forall c n, (0 < c)%nat -> (n <= fuel + c)%nat -> (n <= growCap fuel c n)%nat.
Proof.
  induction fuel as [|f IH]; intros c n Hc Hf; cbn [growCap]; [lia|].
  destruct (Nat.ltb_spec c n); [|lia]. destruct (Nat.ltb_spec c 1024).
  - apply IH; lia.
  - assert (256 <= c / 4)%nat by (apply Nat.div_le_lower_bound; lia). apply IH; lia.
Qed.
Lemma growCap_mono fuel : forall c n, (c <= growCap fuel c n)%nat.
Proof.
  induction fuel as [|f IH]; intros c n; cbn [growCap]; [lia|]. destruct (c <? n); [|lia]. destruct (c <? 1024).
  - eapply Nat.le_trans; [|apply IH]. lia.
  - eapply Nat.le_trans; [|apply IH]. lia.
Qed.
Lemma growCap_le fuel : forall c n, (0 < n)%nat -> (growCap fuel c n <= Nat.max c (2 * n))%nat.
Proof.
  induction fuel as [|f IH]; intros c n Hn; cbn [growCap]; [lia|]. destruct (Nat.ltb_spec c n); [|lia]. destruct (c <? 1024).
  - eapply Nat.le_trans; [apply IH; auto|]. lia.
  - assert (c / 4 <= c)%nat by (apply Nat.div_le_upper_bound; lia). eapply Nat.le_trans; [apply IH; auto|]. lia.
Qed.

Lemma skipn_repeat n k : skipn n (repeat zero k) = repeat zero (k - n).
Proof. revert k. induction n as [|n IH]; intros [|k]; simpl; auto. Qed.
Lemma firstn_repeat n k : (n <= k)%nat -> firstn n (repeat zero k) = repeat zero n.
Proof. revert k. induction n as [|n IH]; intros [|k] H; simpl; auto; try lia. f_equal. apply IH. lia. Qed.
Lemma Forall_repeat k : Forall (fun x => x = zero) (repeat zero k).
Proof. induction k; simpl; constructor; auto. Qed.
Lemma zeros l : Forall (fun x => x = zero) l -> l = repeat zero (length l).
Proof. induction 1; simpl; congruence. Qed.
Lemma fresh_tail s n : fresh s -> (sl_len s <= n <= sl_cap s)%nat ->
  firstn n (sl_data s) = elems s ++ repeat zero (n - sl_len s) /\ Forall (fun x => x = zero) (skipn n (sl_data s)).
Proof.
  unfold fresh, elems, sl_cap. intros F H. assert (E := firstn_skipn (sl_len s) (sl_data s)). apply zeros in F. rewrite skipn_length in F.
  rewrite F in E. rewrite <- E at 1 3. split.
  - rewrite firstn_app. rewrite firstn_firstn, Nat.min_r by lia. f_equal. rewrite firstn_length_le by lia. apply firstn_repeat. lia.
  - rewrite skipn_app. rewrite firstn_length_le by lia. rewrite skipn_repeat. rewrite skipn_all2 by (rewrite firstn_length_le; lia). apply Forall_repeat.
Qed.

Theorem grow_spec s n : valid s -> fresh s -> (sl_len s <= n)%nat ->
  valid (unsafeGrowSlice zero s n) /\ fresh (unsafeGrowSlice zero s n) /\
  elems (unsafeGrowSlice zero s n) = elems s ++ repeat zero (n - sl_len s) /\
  sl_len (unsafeGrowSlice zero s n) = n.
Proof.
  intros V F L. unfold unsafeGrowSlice. destruct (Nat.ltb_spec n (sl_cap s)) as [Hc|Hc].
  - destruct (fresh_tail s n F ltac:(lia)) as [H1 H2]. unfold valid, fresh, elems in *. cbn [sl_len sl_data]. unfold sl_cap in *. cbn [sl_data].
    repeat split; auto. lia.
  - set (newCap := if sl_cap s =? 0 then n else growCap n (sl_cap s) n).
    assert (Hn : (n <= newCap)%nat).
    { unfold newCap. destruct (Nat.eqb_spec (sl_cap s) 0); [lia|]. apply growCap_ge; lia. }
    unfold typedslicecopy, unsafeMakeSlice, valid, fresh, elems, sl_cap in *. cbn [sl_len sl_data] in *.
    rewrite Nat.min_r by lia. rewrite skipn_repeat.
    assert (Hl : length (firstn (sl_len s) (sl_data s)) = sl_len s) by (rewrite firstn_length_le; lia).
    repeat split.
    + rewrite app_length, repeat_length, Hl. lia.
    + rewrite skipn_app, Hl, skipn_repeat. rewrite skipn_all2 by lia. apply Forall_repeat.
    + rewrite firstn_app, Hl, firstn_firstn, Nat.min_r by lia. f_equal. apply firstn_repeat. lia.
Qed.
(** without the assumption on the memory behind the elements, the old elements are kept all the same *)
Theorem grow_keeps s n : valid s -> (sl_len s <= n)%nat ->
  valid (unsafeGrowSlice zero s n) /\ sl_len (unsafeGrowSlice zero s n) = n /\
  firstn (sl_len s) (elems (unsafeGrowSlice zero s n)) = elems s.
Proof.
  intros V L. unfold unsafeGrowSlice. destruct (Nat.ltb_spec n (sl_cap s)) as [Hc|Hc].
  - unfold valid, elems, sl_cap in *. cbn [sl_len sl_data]. repeat split; [lia|]. rewrite firstn_firstn, Nat.min_l by lia. reflexivity.
  - set (newCap := if sl_cap s =? 0 then n else growCap n (sl_cap s) n).
    assert (Hn : (n <= newCap)%nat).
    { unfold newCap. destruct (Nat.eqb_spec (sl_cap s) 0); [lia|]. apply growCap_ge; lia. }
    unfold typedslicecopy, unsafeMakeSlice, valid, elems, sl_cap in *. cbn [sl_len sl_data] in *.
    rewrite Nat.min_r by lia. rewrite skipn_repeat.
    assert (Hl : length (firstn (sl_len s) (sl_data s)) = sl_len s) by (rewrite firstn_length_le; lia).
    repeat split.
    + rewrite app_length, repeat_length, Hl. lia.
    + rewrite firstn_firstn, Nat.min_l by lia. rewrite firstn_app, Hl, Nat.sub_diag, firstn_firstn, Nat.min_l by lia.
      cbn [firstn]. now rewrite app_nil_r.
Qed.
(** capacity: at most twice the length once it had to grow *)
Theorem grow_cap s n : (0 < n)%nat -> valid s -> (sl_len s <= n)%nat ->
  (n <= sl_cap (unsafeGrowSlice zero s n) <= Nat.max (sl_cap s) (2 * n))%nat.
Proof.
  intros N V L. split.
  - destruct (grow_keeps s n V L) as (H1 & H2 & _). unfold valid in H1. lia.
  - unfold unsafeGrowSlice. destruct (Nat.ltb_spec n (sl_cap s)) as [Hc|Hc]; [unfold sl_cap; simpl; lia|].
    set (newCap := if sl_cap s =? 0 then n else growCap n (sl_cap s) n).
    assert (Hn : (n <= newCap <= Nat.max (sl_cap s) (2 * n))%nat).
    { unfold newCap. destruct (Nat.eqb_spec (sl_cap s) 0); [lia|]. split; [apply growCap_ge; lia|]. now apply growCap_le. }
    unfold typedslicecopy, unsafeMakeSlice, valid, sl_cap in *. cbn [sl_len sl_data] in *. rewrite Nat.min_r by lia.
    rewrite app_length, firstn_length_le, skipn_length, repeat_length by lia. lia.
Qed.

Lemma childSet_spec s i v : valid s -> (i < sl_len s)%nat ->
  valid (childSet s i v) /\ (fresh s -> fresh (childSet s i v)) /\ sl_len (childSet s i v) = sl_len s /\ sl_cap (childSet s i v) = sl_cap s /\
  elems (childSet s i v) = firstn i (elems s) ++ v :: skipn (S i) (elems s).
Proof.
  unfold valid, fresh, elems, sl_cap, childSet. destruct s as [d l]. cbn [sl_len sl_data]. intros V Hi.
  destruct (skipn i d) as [|x r] eqn:Es.
  { exfalso. assert (K := skipn_length i d). rewrite Es in K. simpl in K. lia. }
  assert (E := firstn_skipn i d). rewrite Es in E. assert (Hl : length (firstn i d) = i) by (rewrite firstn_length_le; lia).
  assert (Hd : length d = length (firstn i d ++ x :: r)) by now rewrite E. rewrite app_length in Hd. cbn [length] in Hd.
  assert (S1 : forall y, skipn l (firstn i d ++ y :: r) = skipn (l - i - 1) r).
  { intros y. rewrite skipn_app, Hl, skipn_all2 by lia. destruct (l - i)%nat as [|k] eqn:Ek; [lia|]. cbn [app skipn]. f_equal. lia. }
  repeat split; auto.
  - rewrite app_length. cbn [length]. lia.
  - intros F. rewrite <- E in F. rewrite S1 in *. exact F.
  - rewrite app_length. cbn [length]. lia.
  - assert (F1 : forall y, firstn l (firstn i d ++ y :: r) = firstn i d ++ y :: firstn (l - i - 1) r).
    { intros y. rewrite firstn_app, Hl. rewrite firstn_all2 by lia. destruct (l - i)%nat as [|k] eqn:Ek; [lia|].
      cbn [firstn]. do 3 f_equal. lia. }
    rewrite F1. rewrite <- E at 2 3. rewrite F1.
    rewrite firstn_app, Hl, Nat.sub_diag. cbn [firstn]. rewrite app_nil_r, firstn_firstn, Nat.min_id. f_equal. f_equal.
    rewrite skipn_app, Hl. rewrite skipn_all2 by lia. replace (S i - i)%nat with 1%nat by lia. reflexivity.
Qed.

(** ** Any sequence of growths and element writes *)
(** run on the model; [None]: an index out of the slice or a request to shrink *)
Fixpoint runOps (ops : list (op A)) (s : slice A) : option (slice A) :=
  match ops with
  | [] => Some s
  | Grow n :: r => if sl_len s <=? n then runOps r (unsafeGrowSlice zero s n) else None
  | Write i v :: r => if i <? sl_len s then runOps r (childSet s i v) else None
  end.
Lemma elems_length s : valid s -> length (elems s) = sl_len s.
Proof. unfold valid, elems, sl_cap. intros V. now rewrite firstn_length_le. Qed.
Theorem runOps_spec ops : forall s, valid s -> fresh s ->
  match runOps ops s with
  | Some s' => listOps zero ops (elems s) = Some (elems s') /\ valid s' /\ fresh s'
  | None => listOps zero ops (elems s) = None
  end.
Proof.
  induction ops as [|[n|i v] ops IH]; intros s V F; cbn [runOps listOps]; [auto| |]; rewrite elems_length by auto.
  - destruct (Nat.leb_spec (sl_len s) n) as [L|L]; auto. destruct (grow_spec s n V F L) as (V' & F' & E' & _). rewrite <- E'. apply IH; auto.
  - destruct (Nat.ltb_spec i (sl_len s)) as [L|L]; auto. destruct (childSet_spec s i v V L) as (V' & F' & _ & _ & E'). rewrite <- E'. apply IH; auto.
Qed.
Lemma make_fresh : valid (unsafeMakeSlice zero 0 0) /\ fresh (unsafeMakeSlice zero 0 0) /\ elems (unsafeMakeSlice zero 0 0) = [].
Proof. unfold valid, fresh, elems, sl_cap, unsafeMakeSlice. simpl. repeat split; auto. Qed.
End Facts.
