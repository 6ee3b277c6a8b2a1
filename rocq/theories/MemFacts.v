(** Slices in memory: facts used by the theorems on the sharing of arrays. *)
From Coq Require Import ZArith List Bool Lia.
From Verif Require Import Base ModelIter ModelVal ModelMem.
Import ListNotations.
Local Open Scope nat_scope.

Lemma upd_length {A} (l : list A) i x : length (upd l i x) = length l.
Proof. revert i; induction l; intros [|i]; simpl; auto. Qed.
Lemma nth_upd_same {A} (l : list A) i x d : i < length l -> nth i (upd l i x) d = x.
Proof. revert i; induction l; intros [|i]; simpl; intros; try lia; auto. apply IHl. lia. Qed.
Lemma nth_upd_other {A} (l : list A) i j x d : i <> j -> nth j (upd l i x) d = nth j l d.
Proof. revert i j; induction l; intros [|i] [|j]; simpl; intros; try lia; auto. Qed.
Lemma upd_out {A} (l : list A) i x : length l <= i -> upd l i x = l.
Proof. revert i; induction l; intros [|i]; simpl; intros; try lia; auto. f_equal. apply IHl. lia. Qed.
Lemma nth_error_upd {A} (l : list A) i j x y : nth_error (upd l i x) j = Some y ->
  (i = j /\ y = x /\ i < length l) \/ (i <> j /\ nth_error l j = Some y).
Proof.
  revert i j; induction l; intros [|i] [|j]; simpl; intros H; try discriminate.
  - injection H as ->. left. repeat split; lia.
  - right. auto.
  - right. auto.
  - apply IHl in H as [(-> & -> & H)|(N & H)]; [left|right]; repeat split; auto; lia.
Qed.
Lemma nth_error_upd_same {A} (l : list A) i x : i < length l -> nth_error (upd l i x) i = Some x.
Proof. revert i; induction l; intros [|i]; simpl; intros; try lia; auto. apply IHl. lia. Qed.
Lemma nth_error_upd_other {A} (l : list A) i j x : i <> j -> nth_error (upd l i x) j = nth_error l j.
Proof. revert i j; induction l; intros [|i] [|j]; simpl; intros; try lia; auto. Qed.
Lemma nth_error_lt {A} (l : list A) i x : nth_error l i = Some x -> i < length l.
Proof. intros H. apply nth_error_Some. congruence. Qed.

Lemma splice_length l k xs : k + length xs <= length l -> length (splice l k xs) = length l.
Proof. intros H. unfold splice. rewrite !app_length, firstn_length, skipn_length. lia. Qed.

(** the memory grew: no array is lost or changes its size *)
Definition ext (m m' : mem) : Prop := length m <= length m' /\ forall a, a < length m -> length (arr m' a) = length (arr m a).
Lemma ext_refl m : ext m m.
Proof. split; auto. Qed.
Lemma ext_trans m1 m2 m3 : ext m1 m2 -> ext m2 m3 -> ext m1 m3.
Proof. intros [A B] [C D]. split; [lia|]. intros a H. rewrite D by lia. auto. Qed.

Lemma arr_wr_same m a k xs : a < length m -> arr (wr m a k xs) a = splice (arr m a) k xs.
Proof. intros H. unfold arr, wr. rewrite nth_upd_same; auto. Qed.
Lemma arr_wr_other m a b k xs : a <> b -> arr (wr m a k xs) b = arr m b.
Proof. intros H. unfold arr, wr. apply nth_upd_other; auto. Qed.
Lemma wr_length m a k xs : length (wr m a k xs) = length m.
Proof. apply upd_length. Qed.
Lemma ext_wr m a k xs : k + length xs <= length (arr m a) -> ext m (wr m a k xs).
Proof.
  intros H. split; [rewrite wr_length; auto|]. intros b Hb. destruct (Nat.eq_dec a b) as [->|N].
  - rewrite arr_wr_same by auto. apply splice_length; auto.
  - now rewrite arr_wr_other.
Qed.
Lemma arr_alloc m xs a : a < length m -> arr (m ++ [xs]) a = arr m a.
Proof. intros H. unfold arr. now rewrite app_nth1. Qed.
Lemma arr_alloc_new m xs : arr (m ++ [xs]) (length m) = xs.
Proof. unfold arr. rewrite app_nth2, Nat.sub_diag; auto. Qed.
Lemma ext_alloc m xs : ext m (m ++ [xs]).
Proof. split; [rewrite app_length; simpl; lia|]. intros. now rewrite arr_alloc. Qed.

(** a slice with an array *)
Definition good (m : mem) (s : sl) : Prop :=
  s_len s <= s_cap s /\ s_arr s < length m /\ s_off s + s_cap s <= length (arr m (s_arr s)).
Lemma good_ext m m' s : ext m m' -> good m s -> good m' s.
Proof. intros [A B] (C & D & F). repeat split; auto; [lia|]. now rewrite B. Qed.
Lemma inside_ext m m' s : ext m m' -> inside m s = true -> inside m' s = true.
Proof.
  intros [A B]. unfold inside. rewrite !andb_true_iff, !orb_true_iff, !andb_true_iff, !Nat.leb_le, !Nat.ltb_lt, !Nat.eqb_eq.
  intros [H [H1|[H1 H2]]]; split; auto. right. split; [lia|]. now rewrite B.
Qed.
Lemma good_inside m s : good m s -> inside m s = true.
Proof.
  intros (A & B & D). unfold inside.
  rewrite andb_true_iff, orb_true_iff, andb_true_iff, !Nat.leb_le, Nat.ltb_lt. auto.
Qed.
Lemma inside_good m s : inside m s = true -> s_cap s <> 0 -> good m s.
Proof.
  unfold inside. rewrite andb_true_iff, orb_true_iff, andb_true_iff, !Nat.leb_le, Nat.ltb_lt, Nat.eqb_eq.
  intros [H [H1|[H1 H2]]] N; [contradiction|]. repeat split; auto.
Qed.
Lemma reslice_good m s i j s' : good m s -> reslice s i j = Some s' -> good m s'.
Proof.
  intros (A & B & D). unfold reslice. destruct (i <=? j) eqn:E1, (j <=? s_cap s) eqn:E2; simpl; intros H; try discriminate.
  apply Nat.leb_le in E1, E2. injection H as <-. repeat split; simpl; auto; lia.
Qed.
Lemma reslice_arr s i j s' : reslice s i j = Some s' -> s_arr s' = s_arr s.
Proof. unfold reslice. destruct (_ && _); intros H; [injection H as <-; auto|discriminate]. Qed.

Lemma get_length m s : inside m s = true -> length (get m s) = s_len s.
Proof.
  intros H. unfold get. rewrite firstn_length, skipn_length. unfold inside in H.
  rewrite andb_true_iff, orb_true_iff, andb_true_iff, !Nat.leb_le, Nat.ltb_lt, Nat.eqb_eq in H. lia.
Qed.
(** what a slice shows depends only on its array *)
Lemma get_arr m m' s : arr m' (s_arr s) = arr m (s_arr s) -> get m' s = get m s.
Proof. unfold get. now intros ->. Qed.

Lemma firstn_skipn_comm' {A} (l : list A) a b : firstn a (skipn b l) = skipn b (firstn (b + a) l).
Proof. revert b; induction l; intros [|b]; simpl; auto; now rewrite firstn_nil. Qed.

(** a window that ends before the bytes that are stored *)
Lemma window_before l k xs off n : off + n <= k -> k <= length l ->
  firstn n (skipn off (splice l k xs)) = firstn n (skipn off l).
Proof.
  intros H L. rewrite !firstn_skipn_comm'. f_equal. unfold splice.
  rewrite firstn_app, firstn_firstn, firstn_length. replace (off + n - Nat.min k (length l)) with 0 by lia.
  simpl. rewrite app_nil_r. f_equal. lia.
Qed.
(** the window with the bytes that are stored behind it *)
Lemma window_at l k xs off n : off + n = k -> k + length xs <= length l ->
  firstn (n + length xs) (skipn off (splice l k xs)) = firstn n (skipn off l) ++ xs.
Proof.
  intros H L. rewrite !firstn_skipn_comm'. unfold splice.
  replace (off + (n + length xs)) with (length (firstn k l ++ xs)) by (rewrite app_length, firstn_length; lia).
  rewrite app_assoc, firstn_app, firstn_all, Nat.sub_diag. simpl. rewrite app_nil_r.
  rewrite skipn_app, firstn_length. replace (off - Nat.min k (length l)) with 0 by lia.
  simpl. now rewrite H.
Qed.

(** append *)
Section Append.
Variables (grow : nat -> nat) (m : mem) (s : sl) (xs : bytes) (m' : mem) (s' : sl).
Hypothesis Hi : inside m s = true.
Hypothesis Happ : append grow m s xs = (m', s').
Lemma append_len : s_len s' = s_len s + length xs.
Proof. unfold append in Happ. destruct (_ <=? _); [|unfold alloc in Happ]; injection Happ as <- <-; auto. Qed.
Lemma append_cases :
  (s_len s + length xs <= s_cap s /\ m' = wr m (s_arr s) (s_off s + s_len s) xs /\ s_arr s' = s_arr s /\ s_off s' = s_off s /\ s_cap s' = s_cap s)
  \/ (s_cap s < s_len s + length xs /\ m' = m ++ [get m s ++ xs ++ repeat 0%Z (grow (s_len s + length xs))] /\ s_arr s' = length m).
Proof.
  unfold append in Happ. destruct (_ <=? _) eqn:L; [apply Nat.leb_le in L; left|apply Nat.leb_gt in L; right; unfold alloc in Happ];
    injection Happ as <- <-; auto 10.
Qed.
Lemma append_ext : ext m m'.
Proof.
  destruct append_cases as [(L & -> & _)|(L & -> & _)]; [|apply ext_alloc].
  destruct (Nat.eq_dec (s_cap s) 0) as [Z|Z].
  - destruct xs; [|simpl in L; lia]. destruct (le_lt_dec (length m) (s_arr s)).
    + unfold wr. rewrite upd_out by auto. apply ext_refl.
    + split; [rewrite wr_length; auto|]. intros a Ha. destruct (Nat.eq_dec (s_arr s) a) as [<-|N]; [|now rewrite arr_wr_other].
      rewrite arr_wr_same by auto. unfold splice. simpl. rewrite Nat.add_0_r, firstn_skipn. auto.
  - apply inside_good in Hi as (A & B & D); auto. apply ext_wr. lia.
Qed.
(** only the array of the slice is written *)
Lemma append_other a : a < length m -> a <> s_arr s -> arr m' a = arr m a.
Proof.
  intros La N. destruct append_cases as [(L & -> & _)|(L & -> & _)]; [apply arr_wr_other; auto|apply arr_alloc; auto].
Qed.
Lemma append_empty a : s_cap s = 0 -> a < length m -> arr m' a = arr m a.
Proof.
  intros Z La. destruct append_cases as [(L & -> & _)|(L & -> & _)]; [|now apply arr_alloc].
  destruct xs; [|simpl in L; lia]. destruct (Nat.eq_dec (s_arr s) a) as [<-|N]; [|now apply arr_wr_other].
  rewrite arr_wr_same by auto. unfold splice. simpl. now rewrite Nat.add_0_r, firstn_skipn.
Qed.
Lemma append_get : get m' s' = get m s ++ xs.
Proof.
  pose proof append_len as EL. destruct append_cases as [(L & -> & Ea & Eo & Ec)|(L & -> & Ea)].
  - unfold get. rewrite EL, Ea, Eo. destruct (Nat.eq_dec (s_cap s) 0) as [Z|Z].
    + destruct xs; [|simpl in L; lia]. replace (s_len s) with 0 by (simpl in L; lia). reflexivity.
    + apply inside_good in Hi as (A & B & D); auto. rewrite arr_wr_same by auto. apply window_at; lia.
  - unfold append in Happ. replace (_ <=? _) with false in Happ by (symmetry; apply Nat.leb_gt; lia). unfold alloc in Happ.
    injection Happ as <-. unfold get at 1. simpl. rewrite arr_alloc_new.
    pose proof (get_length m s Hi) as Lg. rewrite app_assoc.
    replace (s_len s + length xs) with (length (get m s ++ xs)) by (rewrite app_length; lia).
    rewrite firstn_app, firstn_all, Nat.sub_diag. simpl. now rewrite app_nil_r.
Qed.
Lemma append_inside : inside m' s' = true.
Proof.
  pose proof append_len as EL. pose proof append_ext as X. destruct append_cases as [(L & E & Ea & Eo & Ec)|(L & E & Ea)].
  - apply (inside_ext m m' s X) in Hi. unfold inside in Hi |- *. rewrite EL, Ea, Eo, Ec.
    rewrite andb_true_iff in Hi |- *. destruct Hi as [_ H]. split; auto. now apply Nat.leb_le.
  - apply good_inside. unfold append in Happ. replace (_ <=? _) with false in Happ by (symmetry; apply Nat.leb_gt; lia). unfold alloc in Happ.
    injection Happ as <- <-. repeat split; simpl; [lia|rewrite app_length; simpl; lia|].
    rewrite arr_alloc_new, !app_length, repeat_length, get_length; auto. lia.
Qed.
Lemma append_good : good m s -> good m' s'.
Proof.
  intros (A & B & D). pose proof append_len as EL. pose proof append_ext as X. destruct append_cases as [(L & E & Ea & Eo & Ec)|(L & E & Ea)].
  - rewrite <- Ea in *. destruct X as [X1 X2]. repeat split; rewrite ?EL, ?Eo, ?Ec; try lia. rewrite X2; auto.
  - apply inside_good; [apply append_inside|]. unfold append in Happ. replace (_ <=? _) with false in Happ by (symmetry; apply Nat.leb_gt; lia). unfold alloc in Happ.
    injection Happ as <- <-. simpl. lia.
Qed.
(** a window of the array that ends before the end of the slice keeps its bytes *)
Lemma append_before t : s_arr t < length m -> (s_arr t = s_arr s -> s_off t + s_len t <= s_off s + s_len s) -> get m' t = get m t.
Proof.
  intros Lt H. destruct (Nat.eq_dec (s_arr t) (s_arr s)) as [E|N].
  - specialize (H E). destruct append_cases as [(L & -> & _)|(L & -> & _)]; [|apply get_arr, arr_alloc; auto].
    unfold get. rewrite E in *. rewrite arr_wr_same by auto.
    destruct (Nat.eq_dec (s_cap s) 0) as [Z|Z].
    + destruct xs; [|simpl in L; lia]. unfold splice. simpl. now rewrite Nat.add_0_r, firstn_skipn.
    + apply inside_good in Hi as (A & B & D); auto. apply window_before; lia.
  - apply get_arr. apply append_other; auto.
Qed.
End Append.
