(** The same function on two iterators that differ in their readers only: one reader fails after some
    bytes, the other one goes on.  As long as the first one has not failed, both do the same. *)
From Coq Require Import String ZArith List Bool Lia Program.Basics.
From Verif Require Import Base ModelIter ModelStack ModelSkip ModelStr ModelInt ModelFloat ModelRead ModelIterate ModelGrow ModelBase64 ModelVal
  ModelOps SpecPrompt.
Import ListNotations.
Local Open Scope Z_scope.

Definition withR (r : reader) (it : iter) : iter :=
  mkIter (Some r) (it_buffer it) (it_fixbuf it) (it_tmp it) (it_tail it) (it_capture it) (it_offset it) (it_head it)
         (it_useNumber it) (it_disallow it) (it_pool it).

(** a reader that delivers the bytes one by one and fails with the given error then *)
Definition dripping (d : bytes) (e : err) : reader := mkReader d (repeat (1%nat, false) (length d)) e.
Lemma dripping_read k c d e : (1 <= k)%nat -> rd_read k (dripping (c :: d) e) = ([c], None, dripping d e).
Proof. intros K. destruct k as [|k]; [lia|]. unfold rd_read, dripping; simpl. now destruct d. Qed.
Lemma dripping_arrives d e : arrives (dripping [] e) (dripping d e) d.
Proof. induction d as [|c d IH]; [apply ar_none|]. eapply ar_byte; [|exact IH]. intros k K. now apply dripping_read. Qed.
Lemma read_data k r b o r' : rd_read k r = (b, o, r') -> rd_data r = b ++ rd_data r'.
Proof.
  unfold rd_read. destruct (rd_sched r) as [|[w eager] sc]; intros H; injection H; intros <- _ <-; cbn [rd_data]; now rewrite firstn_skipn.
Qed.
Lemma arrives_data r d r2 : arrives r2 r d -> rd_data r = d ++ rd_data r2.
Proof. induction 1 as [|r c r' d H _ IH]; auto. rewrite (read_data 1 _ _ _ _ (H 1%nat (le_n _))), IH. reflexivity. Qed.

Section Poison.
Variables (n : Z) (r2 : reader).
Inductive twin : iter -> iter -> Prop :=
| tw d r it : arrives r2 r d -> (1 <= length (it_buffer it))%nat ->
    twin (withR (dripping d (EIO n)) it) (withR r it).
(** what the first function does the second one does as well *)
Definition fol {A} (m1 m2 : M A) : Prop := forall it1 it2, twin it1 it2 ->
  fst (m1 it1) = Err (EIO n) \/ fst (m1 it1) = OutOfFuel \/
  (fst (m2 it2) = fst (m1 it1) /\ twin (snd (m1 it1)) (snd (m2 it2))).

Lemma classic_eio e : e = EIO n \/ e <> EIO n.
Proof. destruct e; try (right; discriminate). destruct (Z.eq_dec n0 n) as [->|N]; [auto|right; congruence]. Qed.
Lemma fol_ext {A} (m1 m2 m1' m2' : M A) : fol m1 m2 -> (forall it, m1 it = m1' it) -> (forall it, m2 it = m2' it) -> fol m1' m2'.
Proof. intros H E1 E2 a b T. rewrite <- E1, <- E2. auto. Qed.
Lemma fol_pure {A} (r : res A) : fol (fun it => (r, it)) (fun it => (r, it)).
Proof. intros a b T. simpl. auto. Qed.
Lemma fol_out {A} (m : M A) : fol (fun it => (OutOfFuel, it)) m.
Proof. intros a b T. simpl. auto. Qed.
Lemma fol_ret {A} (a : A) : fol (ret a) (ret a). Proof. apply fol_pure. Qed.
Lemma fol_fail {A} e : fol (@fail A e) (@fail A e). Proof. apply fol_pure. Qed.
Lemma fol_panic {A} : fol (@panic A) (@panic A). Proof. apply fol_pure. Qed.
Lemma fol_fuel {A} : fol (@outOfFuel A) (@outOfFuel A). Proof. apply fol_pure. Qed.
Lemma fol_lift {A} (r : res A) : fol (lift r) (lift r). Proof. apply fol_pure. Qed.

Lemma fol_more_loop f1 f2 : fol (readMore_loop f1) (readMore_loop (S f2)).
Proof.
  destruct f1 as [|f1]; [apply fol_out|]. intros a b [d r it T B].
  set (k := if it_capture it then bufferSize else length (it_buffer it)).
  assert (K : (1 <= k)%nat) by (unfold k; destruct (it_capture it); [unfold bufferSize; lia|auto]).
  cbn [readMore_loop]. cbn [withR it_reader it_capture it_buffer it_tail it_fixbuf it_tmp it_offset it_head it_useNumber it_disallow it_pool].
  destruct (it_capture it) eqn:Cp; cbn [andb]; subst k.
  - destruct (length (it_buffer it) <? it_tail it)%nat.
    { right. right. destruct (rd_read bufferSize (dripping _ _)) as [[? ?] ?]. destruct (rd_read bufferSize _) as [[? ?] ?].
      split; auto. exact (tw _ _ it T B). }
    destruct T as [|r c r' d H T]; [left; reflexivity|]. rewrite (dripping_read bufferSize c d _ K), (H _ K). right. right. split; auto.
    apply (tw d r' (mkIter None (firstn (it_tail it) (it_buffer it) ++ [c]) (firstn (it_tail it) (it_buffer it) ++ [c]) (it_tmp it) (it_tail it + length [c]) true
                      (it_offset it) (it_head it) (it_useNumber it) (it_disallow it) (it_pool it))); auto.
    cbn [it_buffer]. rewrite app_length. simpl. lia.
  - destruct T as [|r c r' d H T]; [left; unfold rd_read, dripping; cbn [rd_sched rd_data rd_fin length repeat]; now rewrite firstn_nil|].
    rewrite (dripping_read (length (it_buffer it)) c d _ K), (H _ K). right. right. split; auto.
    apply (tw d r' (mkIter None ([c] ++ skipn (length [c]) (it_buffer it)) (it_fixbuf it)
                      (it_tmp it) (length [c]) false (it_offset it + it_tail it) 0
                      (it_useNumber it) (it_disallow it) (it_pool it))); auto.
    cbn [it_buffer]. rewrite app_length. simpl. lia.
Qed.
Lemma fol_more : fol readMore readMore.
Proof. intros a b T. exact (fol_more_loop _ _ a b T). Qed.

(** a function after another one, whatever that one returned *)
Lemma fol_then {A B} (m m' : M A) (k k' : res A -> M B) : fol m m' -> (forall r, r <> Err (EIO n) -> r <> OutOfFuel -> fol (k r) (k' r)) ->
  (forall it, fst (k (Err (EIO n)) it) = Err (EIO n) \/ fst (k (Err (EIO n)) it) = OutOfFuel) ->
  (forall it, fst (k OutOfFuel it) = Err (EIO n) \/ fst (k OutOfFuel it) = OutOfFuel) ->
  fol (fun it => let '(r, it') := m it in k r it') (fun it => let '(r, it') := m' it in k' r it').
Proof.
  intros H K P1 P2 a b T. specialize (H a b T). destruct (m a) as [r a'], (m' b) as [r' b']. cbn [fst snd] in H.
  destruct H as [->|[->|[-> T']]].
  - destruct (P1 a'); auto.
  - destruct (P2 a'); auto.
  - destruct r as [v|e| |]; try (apply K; auto; discriminate).
    + destruct (classic_eio e) as [->|N]; [destruct (P1 a'); auto|]. apply K; auto; congruence.
    + destruct (P2 a'); auto.
Qed.
Lemma fol_bind {A B} (m m' : M A) (f f' : A -> M B) : fol m m' -> (forall a, fol (f a) (f' a)) -> fol (bind m f) (bind m' f').
Proof.
  intros H K. eapply fol_ext.
  - apply (fol_then m m' (fun r => match r with Ok a => f a | Err e => fail e | Panic => panic | OutOfFuel => outOfFuel end)
      (fun r => match r with Ok a => f' a | Err e => fail e | Panic => panic | OutOfFuel => outOfFuel end) H); auto.
    intros [a|e| |] _ _; auto using fol_fail, fol_panic, fol_fuel.
  - intros it. unfold bind. now destruct (m it) as [[?|?| |] ?].
  - intros it. unfold bind. now destruct (m' it) as [[?|?| |] ?].
Qed.
(** a function that looks at its iterator first, but not at the reader *)
Lemma fol_see {A} (k k' : iter -> M A) : (forall x, fol (k x) (k' x)) -> (forall r x it, k (withR r x) it = k x it) -> (forall r x it, k' (withR r x) it = k' x it) ->
  fol (fun it => k it it) (fun it => k' it it).
Proof. intros H E E' a b T. destruct T as [d s it T B]. rewrite E, E'. apply H. now constructor. Qed.
Lemma fol_head {A} (f : iter -> nat) (m m' : M A) : fol m m' -> (forall r it, f (withR r it) = f it) -> fol (fun it => m (set_head (f it) it)) (fun it => m' (set_head (f it) it)).
Proof. intros H E a b [d s it T B]. rewrite !E. apply H. exact (tw d s (set_head (f it) it) T B). Qed.
Lemma fol_capture {A} b (m m' : M A) : fol m m' -> fol (fun it => m (set_capture b it)) (fun it => m' (set_capture b it)).
Proof. intros H x y [d s it T B]. apply H. exact (tw d s (set_capture b it) T B). Qed.
Lemma fol_setTmp b : fol (setTmp b) (setTmp b).
Proof. intros x y [d s it T B]. right. right. split; auto. exact (tw d s (set_tmp b it) T B). Qed.
Lemma fol_incHead : fol incHead incHead.
Proof. apply (fol_head (fun it => S (it_head it)) (fun it => (Ok tt, it)) (fun it => (Ok tt, it))); auto using fol_pure. Qed.
Lemma fol_peekHead : fol peekHead peekHead.
Proof.
  set (k := fun x it : iter => match nth_error (it_buffer x) (it_head x) with Some c => (Ok c, it) | None => (@Panic Z, it) end).
  apply (fol_see k k); auto. intros x. unfold k. destruct (nth_error _ _); apply fol_pure.
Qed.
Lemma fol_if {A} (b : iter -> bool) (m m' p p' : M A) : fol m p -> fol m' p' -> (forall r it, b (withR r it) = b it) ->
  fol (fun it => if b it then m it else m' it) (fun it => if b it then p it else p' it).
Proof.
  intros P P' E. apply (fol_see (fun x it => if b x then m it else m' it) (fun x it => if b x then p it else p' it)).
  - intros x. now destruct (b x).
  - intros. now rewrite E.
  - intros. now rewrite E.
Qed.
(** a loop bounded by the input that is left *)
Lemma twin_left a b : twin a b -> (rd_left a <= rd_left b)%nat /\ (left_total a <= left_total b)%nat.
Proof. intros [d s it T B]. unfold left_total, rd_left. cbn [withR it_reader rd_data it_tail it_head dripping]. rewrite (arrives_data _ _ _ T), app_length. lia. Qed.
Lemma fol_left {A} (f f' : nat -> M A) : (forall n1 n2, (n1 <= n2)%nat -> fol (f n1) (f' n2)) ->
  fol (fun it => f (S (left_total it)) it) (fun it => f' (S (left_total it)) it).
Proof. intros H a b T. apply H; auto. destruct (twin_left _ _ T). lia. Qed.
Lemma fol_pool {A} (f f' : stack -> M A) : (forall s, fol (f s) (f' s)) -> fol (fun it => f (it_pool it) it) (fun it => f' (it_pool it) it).
Proof. intros H. apply (fol_see (fun x => f (it_pool x)) (fun x => f' (it_pool x))); auto. Qed.
Lemma fol_nextByte : fol nextByte nextByte.
Proof. apply (fol_if (fun it => (it_head it =? it_tail it)%nat)); auto using fol_bind, fol_more, fol_peekHead. Qed.

(** the scanning loops *)
Definition sok {S A} (x y : sres S A) : Prop :=
  match x, y with SStop n m, SStop n' m' => n = n' /\ fol m m' | SResume m, SResume m' => fol m m' | SNext s, SNext s' => s = s' | SFail e, SFail e' => e = e' | _, _ => False end.
Definition iok {S A} (x y : ires S A) : Prop :=
  match x, y with IExit i x, IExit j y => i = j /\ sok x y | IEnd s, IEnd s' => s = s' | IPanic, IPanic => True | _, _ => False end.
Lemma scan_in_ok {S A} (body body' : iter -> nat -> S -> Z -> sres S A) it : (forall i s c, sok (body it i s c) (body' it i s c)) ->
  forall k i s, iok (scan_in body it k i s) (scan_in body' it k i s).
Proof.
  intros H. induction k as [|k IH]; intros i s; simpl; [auto|]. destruct (nth_error _ _) as [c|]; [|exact I].
  specialize (H i s c). destruct (body it i s c), (body' it i s c); simpl in H; try tauto; try (split; simpl; auto); subst; auto.
Qed.
Lemma scan_in_withR {S A} (body : iter -> nat -> S -> Z -> sres S A) r it : (forall i s c, body (withR r it) i s c = body it i s c) ->
  forall k i s, scan_in body (withR r it) k i s = scan_in body it k i s.
Proof.
  intros H. induction k as [|k IH]; intros i s; simpl; auto. destruct (nth_error _ _) as [c|]; auto. rewrite H. destruct (body it i s c); auto.
Qed.
Lemma fol_scan_loop {S A} (body body' : iter -> nat -> S -> Z -> sres S A) atEnd onErr onErr' :
  (forall it i s c, sok (body it i s c) (body' it i s c)) -> (forall r it i s c, body (withR r it) i s c = body it i s c) ->
  (forall r it i s c, body' (withR r it) i s c = body' it i s c) ->
  (forall r it s, atEnd (withR r it) s = atEnd it s) -> (forall s e, fol (onErr s e) (onErr' s e)) ->
  (forall s it, fst (onErr s (EIO n) it) = Err (EIO n)) ->
  forall f f' s, (f <= f')%nat -> fol (scan_loop f body atEnd onErr s) (scan_loop f' body' atEnd onErr' s).
Proof.
  intros Bk Bh Bh' Eh K Kp. induction f as [|f IH]; intros f' s L; [apply fol_out|]. destruct f' as [|f']; [lia|].
  assert (L' : (f <= f')%nat) by lia. intros a b TW. destruct TW as [d sc it T B].
  assert (T1 := tw d sc it T B). revert T1. set (a := withR _ it). set (b := withR _ it). intros TW. cbn [scan_loop].
  assert (HA : scan_in body a (it_tail a - it_head a) (it_head a) s = scan_in body it (it_tail it - it_head it) (it_head it) s)
    by (unfold a; apply scan_in_withR, Bh).
  assert (HB : scan_in body' b (it_tail b - it_head b) (it_head b) s = scan_in body' it (it_tail it - it_head it) (it_head it) s)
    by (unfold b; apply scan_in_withR, Bh').
  rewrite HA, HB. assert (I := scan_in_ok body body' it (Bk it) (it_tail it - it_head it) (it_head it) s).
  assert (Hd : forall h, twin (set_head h a) (set_head h b)) by (intros h; exact (tw d sc (set_head h it) T B)).
  destruct (scan_in body it _ _ s) as [s'|i x|], (scan_in body' it _ _ s) as [s''|i' y|]; cbn [iok] in I; try contradiction.
  - subst s''. assert (Ea : atEnd a s' = atEnd it s') by (unfold a; apply Eh). assert (Eb : atEnd b s' = atEnd it s') by (unfold b; apply Eh). rewrite Ea, Eb.
    destruct (atEnd it s') as [s''|]; [|(right; right; split; [reflexivity|assumption])].
    change (it_tail a) with (it_tail it). change (it_tail b) with (it_tail it).
    assert (M := fol_more _ _ (Hd (it_tail it))). destruct (readMore (set_head _ a)) as [r a1], (readMore (set_head _ b)) as [r' b1]. cbn [fst snd] in M.
    destruct M as [->|[->|[-> M]]]; [left; apply Kp|right; left; reflexivity|].
    destruct r as [u|e| |]; [apply IH; auto|apply K; auto|(right; right; split; [reflexivity|assumption])|(right; right; split; [reflexivity|assumption])].
  - destruct I as [<- I]. destruct x as [s1|j m|e|m], y as [s1'|j' m'|e'|m']; cbn [sok] in I; try contradiction.
    + (right; right; split; [reflexivity|assumption]).
    + destruct I as [<- I]. apply I, Hd.
    + subst e'. (right; right; split; [reflexivity|assumption]).
    + specialize (I _ _ (Hd (Datatypes.S i))). destruct (m _) as [r a1], (m' _) as [r' b1]. cbn [fst snd] in I.
      destruct I as [->|[->|[-> I]]]; [now left|now right; left|]. destruct r as [u|e| |]; [apply IH; auto|(right; right; split; [reflexivity|assumption])|(right; right; split; [reflexivity|assumption])|(right; right; split; [reflexivity|assumption])].
  - (right; right; split; [reflexivity|assumption]).
Qed.
Lemma fol_scan {S A} (body body' : iter -> nat -> S -> Z -> sres S A) atEnd onErr onErr' s :
  (forall it i s c, sok (body it i s c) (body' it i s c)) -> (forall r it i s c, body (withR r it) i s c = body it i s c) ->
  (forall r it i s c, body' (withR r it) i s c = body' it i s c) ->
  (forall r it s, atEnd (withR r it) s = atEnd it s) -> (forall s e, fol (onErr s e) (onErr' s e)) ->
  (forall s it, fst (onErr s (EIO n) it) = Err (EIO n)) -> fol (scan body atEnd onErr s) (scan body' atEnd onErr' s).
Proof. intros. intros a b T. unfold scan. apply fol_scan_loop; auto. destruct (twin_left _ _ T). lia. Qed.
Lemma fol_errReturn {S A} (s : S) e : fol (@errReturn S A s e) (@errReturn S A s e). Proof. apply fol_fail. Qed.
Lemma fol_eofReturn {S A} (f f' : S -> M A) s e : (forall s, fol (f s) (f' s)) -> fol (eofReturn f s e) (eofReturn f' s e).
Proof. intros H. unfold eofReturn. destruct (err_eqb_eof e); auto using fol_fail. Qed.

Create HintDb fo.
Hint Resolve fol_ret fol_fail fol_panic fol_fuel fol_lift fol_more fol_setTmp fol_incHead fol_peekHead fol_nextByte fol_errReturn fol_out : fo.
(** takes a function apart *)
Ltac fo1 :=
  match goal with
  | |- forall _, _ => intros
  | |- sok (match ?x with _ => _ end) _ => destruct x
  | |- sok (SNext _) (SNext _) => reflexivity
  | |- sok (SFail _) (SFail _) => reflexivity
  | |- sok (SStop _ _) (SStop _ _) => cbn [sok]; split; [reflexivity|]
  | |- sok (SResume _) (SResume _) => cbn [sok]
  | |- sok _ _ => progress cbv beta zeta
  | |- @eq _ _ _ => solve [reflexivity | cbv beta; reflexivity]
  | |- fol _ _ => solve [auto with fo]
  | |- fol (bind _ _) (bind _ _) => apply fol_bind
  | |- fol (scan _ _ _ _) (scan _ _ _ _) => apply fol_scan
  | |- fol (eofReturn _ _ _) (eofReturn _ _ _) => apply fol_eofReturn
  | |- fol (match ?x with _ => _ end) _ => destruct x
  | |- fol ((fun _ => _) _) _ => cbv beta
  | |- fol (let _ := _ in _) _ => cbv zeta
  end.
Ltac fo := repeat fo1.
Lemma fol_expectBytes s : fol (expectBytes s) (expectBytes s). Proof. unfold expectBytes. fo. Qed.
Lemma fol_nextToken : fol (nextToken) (nextToken). Proof. unfold nextToken. fo. Qed.
Hint Resolve fol_expectBytes fol_nextToken : fo.
Lemma fol_skipExponentLoop : fol (skipExponentLoop) (skipExponentLoop). Proof. unfold skipExponentLoop. fo. Qed.
Hint Resolve fol_skipExponentLoop : fo.
Lemma fol_skipExponentPart : fol (skipExponentPart) (skipExponentPart). Proof. unfold skipExponentPart. fo. Qed.
Hint Resolve fol_skipExponentPart : fo.
Lemma fol_skipFractionLoop : fol (skipFractionLoop) (skipFractionLoop). Proof. unfold skipFractionLoop. fo. Qed.
Hint Resolve fol_skipFractionLoop : fo.
Lemma fol_skipFractionPart : fol (skipFractionPart) (skipFractionPart). Proof. unfold skipFractionPart. fo. Qed.
Hint Resolve fol_skipFractionPart : fo.
Lemma fol_skipIntegerLoop : fol (skipIntegerLoop) (skipIntegerLoop). Proof. unfold skipIntegerLoop. fo. Qed.
Hint Resolve fol_skipIntegerLoop : fo.
Lemma fol_peekOrEOF : fol peekOrEOF peekOrEOF.
Proof.
  set (k := do c <- peekHead; ret (Some c)). assert (K : fol k k) by (unfold k; fo).
  set (m := fun it => match readMore it with
    | (Ok _, it') => k it'
    | (Err e, it') => if err_eqb_eof e then (Ok None, it') else (Err e, it')
    | (Panic, it') => (Panic, it')
    | (OutOfFuel, it') => (OutOfFuel, it')
    end). assert (Mm : fol m m).
  { set (g := fun r : res unit => match r with
      | Ok _ => k
      | Err x => if err_eqb_eof x then ret None else fail x
      | Panic => panic
      | OutOfFuel => outOfFuel
      end).
    eapply fol_ext; [apply (fol_then readMore readMore g g); auto using fol_more|..].
    - intros r _ _. unfold g. fo; auto.
    - intros it. unfold m, g. destruct (readMore it) as [[u|e| |] it']; auto. now destruct (err_eqb_eof e).
    - intros it. unfold m, g. destruct (readMore it) as [[u|e| |] it']; auto. now destruct (err_eqb_eof e). }
  apply (fol_if (fun it => (it_head it =? it_tail it)%nat) m k m k); auto.
Qed.
Hint Resolve fol_peekOrEOF : fo.
Lemma fol_skipNumber c : fol (skipNumber c) (skipNumber c). Proof. unfold skipNumber. fo. Qed.
Hint Resolve fol_skipNumber : fo.
Lemma fol_skipU4 : fol (skipU4) (skipU4). Proof. unfold skipU4. fo. Qed.
Hint Resolve fol_skipU4 : fo.
Lemma fol_skipEscapedChar : fol (skipEscapedChar) (skipEscapedChar). Proof. unfold skipEscapedChar. fo. Qed.
Hint Resolve fol_skipEscapedChar : fo.
Lemma fol_skipString : fol (skipString) (skipString). Proof. unfold skipString. fo. Qed.
Hint Resolve fol_skipString : fo.
Lemma fol_skipObjectField : fol (skipObjectField) (skipObjectField). Proof. unfold skipObjectField. fo. Qed.
Hint Resolve fol_skipObjectField : fo.
Lemma fol_takeToken : fol (takeToken) (takeToken). Proof. unfold takeToken. fo. Qed.
Hint Resolve fol_takeToken : fo.
Lemma fol_skipLeaf c : fol (skipLeaf c) (skipLeaf c). Proof. unfold skipLeaf. fo. Qed.
Hint Resolve fol_skipLeaf : fo.
Lemma fol_skipWithStack_loop : forall f f' top s, (f <= f')%nat -> fol (skipWithStack_loop f top s) (skipWithStack_loop f' top s).
Proof. induction f as [|f IH]; intros f' top s L; [apply fol_out|]. destruct f' as [|f']; [lia|]. assert (L' : (f <= f')%nat) by lia. cbn [skipWithStack_loop]; fo. Qed.
Hint Resolve fol_skipWithStack_loop : fo.
Lemma fol_skipWithStack top s : fol (skipWithStack top s) (skipWithStack top s).
Proof. apply (fol_left (fun n => skipWithStack_loop n top s) (fun n => skipWithStack_loop n top s)). fo. Qed.
Hint Resolve fol_skipWithStack : fo.
Lemma fol_skipArray_loop : forall f f' c, (f <= f')%nat -> fol (skipArray_loop f c) (skipArray_loop f' c).
Proof.
  induction f as [|f IH]; intros f' c L; [apply fol_out|]. destruct f' as [|f']; [lia|]. assert (L' : (f <= f')%nat) by lia. cbn [skipArray_loop]; fo;
   [apply (fol_pool (fun q => skipWithStack stackElementObjectBegin (initArray q)) (fun q => skipWithStack stackElementObjectBegin (initArray q)))|
    apply (fol_pool (fun q => skipWithStack stackElementArrayBegin (initArray q)) (fun q => skipWithStack stackElementArrayBegin (initArray q)))]; fo.
Qed.
Hint Resolve fol_skipArray_loop : fo.
Lemma fol_skipArrayWithStack : fol skipArrayWithStack skipArrayWithStack.
Proof. unfold skipArrayWithStack; fo. apply (fol_left (fun n => skipArray_loop n a) (fun n => skipArray_loop n a)); fo. Qed.
Hint Resolve fol_skipArrayWithStack : fo.
Lemma fol_skipObject_loop : forall f f' c, (f <= f')%nat -> fol (skipObject_loop f c) (skipObject_loop f' c).
Proof.
  induction f as [|f IH]; intros f' c L; [apply fol_out|]. destruct f' as [|f']; [lia|]. assert (L' : (f <= f')%nat) by lia. cbn [skipObject_loop]; fo;
   [apply (fol_pool (fun q => skipWithStack stackElementObjectBegin (initObject q)) (fun q => skipWithStack stackElementObjectBegin (initObject q)))|
    apply (fol_pool (fun q => skipWithStack stackElementArrayBegin (initObject q)) (fun q => skipWithStack stackElementArrayBegin (initObject q)))]; fo.
Qed.
Hint Resolve fol_skipObject_loop : fo.
Lemma fol_skipObjectWithStack : fol skipObjectWithStack skipObjectWithStack.
Proof. unfold skipObjectWithStack; fo. apply (fol_left (fun n => skipObject_loop n a) (fun n => skipObject_loop n a)); fo. Qed.
Hint Resolve fol_skipObjectWithStack : fo.
Lemma fol_skipFunctions c : fol (skipFunctions c) (skipFunctions c). Proof. unfold skipFunctions. fo. Qed.
Hint Resolve fol_skipFunctions : fo.
Lemma fol_Skip : fol (Skip) (Skip). Proof. unfold Skip. fo. Qed.
Hint Resolve fol_Skip : fo.
Lemma fol_SkipArray : fol (SkipArray) (SkipArray). Proof. unfold SkipArray. fo. Qed.
Hint Resolve fol_SkipArray : fo.
Lemma fol_SkipObject : fol (SkipObject) (SkipObject). Proof. unfold SkipObject. fo. Qed.
Hint Resolve fol_SkipObject : fo.
Lemma fol_SkipNumber : fol (SkipNumber) (SkipNumber). Proof. unfold SkipNumber. fo. Qed.
Hint Resolve fol_SkipNumber : fo.
Lemma fol_SkipString : fol (SkipString) (SkipString). Proof. unfold SkipString. fo. Qed.
Hint Resolve fol_SkipString : fo.
Lemma fol_sliceOf (f : iter -> option bytes) : (forall r it, f (withR r it) = f it) ->
  fol (fun it => match f it with Some b => (Ok b, it) | None => (Panic, it) end) (fun it => match f it with Some b => (Ok b, it) | None => (Panic, it) end).
Proof.
  intros E. set (k := fun x it : iter => match f x with Some b => (Ok b, it) | None => (Panic, it) end).
  apply (fol_see k k); [|intros; unfold k; now rewrite E|intros; unfold k; now rewrite E]. intros x. unfold k. destruct (f x); apply fol_pure.
Qed.
Lemma fol_sliceFrom a : fol (sliceFrom a) (sliceFrom a).
Proof. apply (fol_sliceOf (fun it => Base.slice (it_buffer it) a (it_head it))). auto. Qed.
Hint Resolve fol_sliceFrom : fo.

Lemma fol_withCapture {A} (m m' : M A) : fol m m' -> fol (withCapture m) (withCapture m').
Proof.
  intros P. set (k := fun (m : M A) x it => let '(r, it') := m (set_capture true it) in (r, set_capture (it_capture x) it')).
  apply (fol_see (k m) (k m')); auto.
  intros x. unfold k.
  apply (fol_then (fun it => m (set_capture true it)) (fun it => m' (set_capture true it)) (fun r it' => (r, set_capture (it_capture x) it')) (fun r it' => (r, set_capture (it_capture x) it'))); auto.
  - now apply fol_capture.
  - intros r _ _. apply (fol_capture (it_capture x) (fun it => (r, it)) (fun it => (r, it))). apply fol_pure.
Qed.
Lemma fol_SkipRaw : fol SkipRaw SkipRaw.
Proof.
  unfold SkipRaw. fo. set (k := fun x => withCapture (incHead ;; skipFunctions a) ;; sliceFrom (it_head x)).
  apply (fol_see k k); auto. intros x. unfold k. apply fol_bind; [apply fol_withCapture|]; fo.
Qed.
Hint Resolve fol_SkipRaw : fo.
Lemma fol_AppendRaw b : fol (AppendRaw b) (AppendRaw b). Proof. unfold AppendRaw. fo. Qed.
Hint Resolve fol_AppendRaw : fo.
Lemma fol_ReadRaw : fol (ReadRaw) (ReadRaw). Proof. unfold ReadRaw. fo. Qed.
Hint Resolve fol_ReadRaw : fo.
Lemma fol_readNumberAsString c : fol (readNumberAsString c) (readNumberAsString c).
Proof.
  set (k := fun x => withCapture (skipNumber c ;; sliceFrom (it_head x - 1))).
  apply (fol_see k k); auto. intros x. apply fol_withCapture; fo.
Qed.
Hint Resolve fol_readNumberAsString : fo.
Lemma fol_ReadNumber : fol (ReadNumber) (ReadNumber). Proof. unfold ReadNumber. fo. Qed.
Hint Resolve fol_ReadNumber : fo.
Lemma fol_ReadNull : fol (ReadNull) (ReadNull). Proof. unfold ReadNull. fo. Qed.
Hint Resolve fol_ReadNull : fo.
Lemma fol_ReadBool : fol (ReadBool) (ReadBool). Proof. unfold ReadBool. fo. Qed.
Hint Resolve fol_ReadBool : fo.
Lemma fol_readU4 : fol (readU4) (readU4). Proof. unfold readU4. fo. Qed.
Hint Resolve fol_readU4 : fo.
Lemma fol_readSurrogate : forall f f' b r, (f <= f')%nat -> fol (readSurrogate f b r) (readSurrogate f' b r).
Proof. induction f as [|f IH]; intros f' b r L; [apply fol_out|]. destruct f' as [|f']; [lia|]. assert (L' : (f <= f')%nat) by lia. cbn [readSurrogate]; fo. Qed.
Hint Resolve fol_readSurrogate : fo.
Lemma fol_readEscapedChar b : fol (readEscapedChar b) (readEscapedChar b).
Proof. unfold readEscapedChar. fo. apply (fol_left (fun n => readSurrogate n b a1) (fun n => readSurrogate n b a1)). fo. Qed.
Hint Resolve fol_readEscapedChar : fo.
Lemma fol_readStringAsSliceSlow b : fol (readStringAsSliceSlow b) (readStringAsSliceSlow b). Proof. unfold readStringAsSliceSlow. fo. Qed.
Hint Resolve fol_readStringAsSliceSlow : fo.
Lemma fol_readStringFast k : forall i, fol (readStringFast k i) (readStringFast k i).
Proof.
  induction k as [|k IH]; intros i.
  - set (g := fun x it : iter => match seg x (it_tail x) with
      | None => (Panic, it)
      | Some buf => (readMore ;; do b <- readStringAsSliceSlow buf; setTmp b ;; ret b) (set_head (it_tail x) it) end).
    apply (fol_see g g); auto. intros x. unfold g. destruct (seg x _) as [buf|]; [|apply fol_pure]. apply (fol_head (fun _ => it_tail x)); auto. fo.
  - set (g := fun x it : iter => match nth_error (it_buffer x) i with
      | None => (Panic, it)
      | Some c =>
          if c <? cSPACE then (Err (EInvalidStringChar c), it)
          else if c =? cQUOTE then
            match seg x i with
            | None => (Panic, it)
            | Some buf => (setTmp buf ;; ret buf) (set_head (S i) it)
            end
          else if c =? cBSLASH then
            match seg x i with
            | None => (Panic, it)
            | Some buf =>
                (do b <- readEscapedChar buf;
                 do b' <- readStringAsSliceSlow b;
                 setTmp b' ;; ret b') (set_head (S i) it)
            end
          else readStringFast k (S i) it
      end).
    apply (fol_see g g); auto.
    intros x. unfold g. destruct (nth_error _ _) as [c|]; [|apply fol_pure]. destruct (c <? cSPACE); [apply fol_pure|].
    destruct (c =? cQUOTE); [|destruct (c =? cBSLASH)]; auto; (destruct (seg x i) as [buf|]; [|apply fol_pure]); apply (fol_head (fun _ => S i)); auto; fo.
Qed.
Hint Resolve fol_readStringFast : fo.
Lemma fol_readStringAsSlice : fol readStringAsSlice readStringAsSlice.
Proof. set (k := fun x => readStringFast (it_tail x - it_head x) (it_head x)). apply (fol_see k k); unfold k; fo. Qed.
Hint Resolve fol_readStringAsSlice : fo.
Lemma fol_expectQuote : fol (expectQuote) (expectQuote). Proof. unfold expectQuote. fo. Qed.
Hint Resolve fol_expectQuote : fo.
Lemma fol_ReadStringAsSlice : fol (ReadStringAsSlice) (ReadStringAsSlice). Proof. unfold ReadStringAsSlice. fo. Qed.
Hint Resolve fol_ReadStringAsSlice : fo.
Lemma fol_ReadStringAndAppend b : fol (ReadStringAndAppend b) (ReadStringAndAppend b). Proof. unfold ReadStringAndAppend. fo. Qed.
Hint Resolve fol_ReadStringAndAppend : fo.
Lemma fol_readString : fol (readString) (readString). Proof. unfold readString. fo. Qed.
Hint Resolve fol_readString : fo.
Lemma fol_ReadString : fol (ReadString) (ReadString). Proof. unfold ReadString. fo. Qed.
Hint Resolve fol_ReadString : fo.
Lemma fol_readObjectFieldAsSlice : fol (readObjectFieldAsSlice) (readObjectFieldAsSlice). Proof. unfold readObjectFieldAsSlice. fo. Qed.
Hint Resolve fol_readObjectFieldAsSlice : fo.
Lemma fol_readObjectField : fol (readObjectField) (readObjectField). Proof. unfold readObjectField. fo. Qed.
Hint Resolve fol_readObjectField : fo.
Lemma fol_readUintLoop w nd u : fol (readUintLoop w nd u) (readUintLoop w nd u). Proof. unfold readUintLoop. fo. Qed.
Hint Resolve fol_readUintLoop : fo.
Lemma fol_readUintN w nd c : fol (readUintN w nd c) (readUintN w nd c). Proof. unfold readUintN. fo. Qed.
Hint Resolve fol_readUintN : fo.
Lemma fol_readUint8 c : fol (readUint8 c) (readUint8 c). Proof. unfold readUint8. fo. Qed.
Hint Resolve fol_readUint8 : fo.
Lemma fol_readIntN w f c : (forall c, fol (f c) (f c)) -> fol (readIntN w f c) (readIntN w f c). Proof. intros. unfold readIntN. fo. Qed.
Hint Resolve fol_readIntN : fo.
Lemma fol_readIntOf s w c : fol (readIntOf s w c) (readIntOf s w c).
Proof. destruct s, w; cbn [readIntOf]; unfold readInt8, readInt16, readInt32, readInt64, readUint16, readUint32, readUint64; auto with fo; apply fol_readIntN; unfold readUint16, readUint32, readUint64; auto with fo. Qed.
Hint Resolve fol_readIntOf : fo.
Section Float.
Variable F : floatOps.
Lemma fol_parseFloat b : fol (parseFloat F b) (parseFloat F b). Proof. unfold parseFloat. fo. Qed.
Hint Resolve fol_parseFloat : fo.
Lemma fol_readExponentLoop b : fol (readExponentLoop F b) (readExponentLoop F b). Proof. unfold readExponentLoop. fo. Qed.
Hint Resolve fol_readExponentLoop : fo.
Lemma fol_readFloatExponentPart b : fol (readFloatExponentPart F b) (readFloatExponentPart F b). Proof. unfold readFloatExponentPart. fo. Qed.
Hint Resolve fol_readFloatExponentPart : fo.
Lemma fol_readFractionLoop b : fol (readFractionLoop F b) (readFractionLoop F b). Proof. unfold readFractionLoop. fo. Qed.
Hint Resolve fol_readFractionLoop : fo.
Lemma fol_readFloatFractionPart b : fol (readFloatFractionPart F b) (readFloatFractionPart F b). Proof. unfold readFloatFractionPart. fo. Qed.
Hint Resolve fol_readFloatFractionPart : fo.
Lemma fol_readIntegerLoop b : fol (readIntegerLoop F b) (readIntegerLoop F b). Proof. unfold readIntegerLoop. fo. Qed.
Hint Resolve fol_readIntegerLoop : fo.
Lemma fol_readPositiveFloat c : fol (readPositiveFloat F c) (readPositiveFloat F c). Proof. unfold readPositiveFloat. fo. Qed.
Hint Resolve fol_readPositiveFloat : fo.
Lemma fol_readFloat c : fol (readFloat F c) (readFloat F c). Proof. unfold readFloat. fo. Qed.
Hint Resolve fol_readFloat : fo.
Lemma fol_ReadFloat : fol (ReadFloat F ) (ReadFloat F ). Proof. unfold ReadFloat. fo. Qed.
Hint Resolve fol_ReadFloat : fo.
Lemma fol_readNumberValue c : fol (readNumberValue F c) (readNumberValue F c).
Proof. apply (fol_if it_useNumber); auto; fo. Qed.
Hint Resolve fol_readNumberValue : fo.
Lemma fol_readLeaf c : fol (readLeaf F c) (readLeaf F c). Proof. unfold readLeaf. fo. Qed.
Hint Resolve fol_readLeaf : fo.
Lemma fol_opt {A} (o : option A) : fol (opt o) (opt o). Proof. unfold opt. fo. Qed.
Hint Resolve fol_opt : fo.
Lemma fol_readWithStack_loop : forall f f' top s ns, (f <= f')%nat -> fol (readWithStack_loop F f top s ns) (readWithStack_loop F f' top s ns).
Proof. induction f as [|f IH]; intros f' top s ns L; [apply fol_out|]. destruct f' as [|f']; [lia|]. assert (L' : (f <= f')%nat) by lia. cbn [readWithStack_loop]; fo. Qed.
Hint Resolve fol_readWithStack_loop : fo.
Lemma fol_readWithStack top s ns : fol (readWithStack F top s ns) (readWithStack F top s ns).
Proof. apply (fol_left (fun n => readWithStack_loop F n top s ns) (fun n => readWithStack_loop F n top s ns)). fo. Qed.
Hint Resolve fol_readWithStack : fo.
Lemma fol_readArray_loop : forall f f' c l, (f <= f')%nat -> fol (readArray_loop F f c l) (readArray_loop F f' c l).
Proof.
  induction f as [|f IH]; intros f' c l L; [apply fol_out|]. destruct f' as [|f']; [lia|]. assert (L' : (f <= f')%nat) by lia. cbn [readArray_loop]; fo;
    [apply (fol_pool (fun q => readWithStack F stackElementObjectBegin (initArray q) (ns_pushObject F [] (ns_initArray F l)))
                     (fun q => readWithStack F stackElementObjectBegin (initArray q) (ns_pushObject F [] (ns_initArray F l))))|
     apply (fol_pool (fun q => readWithStack F stackElementArrayBegin (initArray q) (ns_pushArray F [] (ns_initArray F l)))
                     (fun q => readWithStack F stackElementArrayBegin (initArray q) (ns_pushArray F [] (ns_initArray F l))))]; fo.
Qed.
Hint Resolve fol_readArray_loop : fo.
Lemma fol_readArrayWithStack : fol (readArrayWithStack F) (readArrayWithStack F).
Proof. unfold readArrayWithStack. fo. apply (fol_left (fun n => readArray_loop F n a []) (fun n => readArray_loop F n a [])). fo. Qed.
Hint Resolve fol_readArrayWithStack : fo.
Lemma fol_readObject_loop : forall f f' c l, (f <= f')%nat -> fol (readObject_loop F f c l) (readObject_loop F f' c l).
Proof.
  induction f as [|f IH]; intros f' c l L; [apply fol_out|]. destruct f' as [|f']; [lia|]. assert (L' : (f <= f')%nat) by lia. cbn [readObject_loop]; fo;
    [apply (fol_pool (fun q => readWithStack F stackElementObjectBegin (initObject q) (ns_pushObject F a0 (ns_initObject F l)))
                     (fun q => readWithStack F stackElementObjectBegin (initObject q) (ns_pushObject F a0 (ns_initObject F l))))|
     apply (fol_pool (fun q => readWithStack F stackElementArrayBegin (initObject q) (ns_pushArray F a0 (ns_initObject F l)))
                     (fun q => readWithStack F stackElementArrayBegin (initObject q) (ns_pushArray F a0 (ns_initObject F l))))]; fo.
Qed.
Hint Resolve fol_readObject_loop : fo.
Lemma fol_readObjectWithStack : fol (readObjectWithStack F) (readObjectWithStack F).
Proof. unfold readObjectWithStack. fo. apply (fol_left (fun n => readObject_loop F n a []) (fun n => readObject_loop F n a [])). fo. Qed.
Hint Resolve fol_readObjectWithStack : fo.
Lemma fol_Read : fol (Read F) (Read F).
Proof. unfold Read, readFunctions. fo. Qed.
End Float.
Hint Resolve fol_ReadFloat fol_Read : fo.

Section Val.
Variables (F32 F64 : floatOps) (C : custom) (E : env F32 F64 C) (sf : Z -> Z) (cs : bool).
Definition dfol (d : decoder F32 F64 C) : Prop := forall o old, fol (d o old) (d o old).
Lemma fol_readNull (v : ModelVal.gval F32 F64 C) : fol (readNull F32 F64 C v) (readNull F32 F64 C v). Proof. unfold readNull. fo. Qed.
Hint Resolve fol_readNull : fo.
Lemma fol_boolDecoder : dfol (boolDecoder F32 F64 C). Proof. intros o old. unfold boolDecoder. fo. Qed.
Lemma fol_stringDecoder : dfol (stringDecoder F32 F64 C). Proof. intros o old. unfold stringDecoder. fo. Qed.
Lemma fol_intDecoder s w : dfol (intDecoder F32 F64 C s w). Proof. intros o old. unfold intDecoder. fo. Qed.
Lemma fol_floatDecoder F i : dfol (floatDecoder F32 F64 C F i). Proof. intros o old. unfold floatDecoder. fo. Qed.
Lemma fol_jsonNumberDecoder : dfol (jsonNumberDecoder F32 F64 C). Proof. intros o old. unfold jsonNumberDecoder. fo. Qed.
Lemma fol_jsonRawMessageDecoder : dfol (jsonRawMessageDecoder F32 F64 C). Proof. intros o old. unfold jsonRawMessageDecoder. fo. Qed.
Lemma fol_jsonUnmarshalerDecoder i : dfol (jsonUnmarshalerDecoder F32 F64 C i). Proof. intros o old. unfold jsonUnmarshalerDecoder. fo. Qed.
Lemma fol_textUnmarshalerDecoder i : dfol (textUnmarshalerDecoder F32 F64 C i). Proof. intros o old. unfold textUnmarshalerDecoder. fo. Qed.
Hint Resolve fol_boolDecoder fol_stringDecoder fol_intDecoder fol_floatDecoder fol_jsonNumberDecoder fol_jsonRawMessageDecoder
  fol_jsonUnmarshalerDecoder fol_textUnmarshalerDecoder : fo.
Lemma fol_pointerDecoder z d : dfol d -> dfol (pointerDecoder F32 F64 C z d).
Proof. intros D o old. unfold pointerDecoder. fo; apply D. Qed.
Lemma fol_arrayLoop d : dfol d -> forall f f' n0 a, (f <= f')%nat -> fol (arrayLoop F32 F64 C f d n0 a) (arrayLoop F32 F64 C f' d n0 a).
Proof.
  intros D. induction f as [|f IH]; intros f' n0 a L; [apply fol_out|]. destruct f' as [|f']; [lia|]. assert (L' : (f <= f')%nat) by lia. cbn [arrayLoop]; fo; apply D.
Qed.
Lemma fol_arrayDecoder z d : dfol d -> dfol (arrayDecoder F32 F64 C z d).
Proof.
  intros D o old. unfold arrayDecoder. fo. apply (fol_left (fun n => arrayLoop F32 F64 C n d 0 l) (fun n => arrayLoop F32 F64 C n d 0 l)).
  intros. now apply fol_arrayLoop.
Qed.
Lemma fol_sliceLoop z d : dfol d -> forall f f' n0 sh, (f <= f')%nat -> fol (sliceLoop F32 F64 C f z d n0 sh) (sliceLoop F32 F64 C f' z d n0 sh).
Proof.
  intros D. induction f as [|f IH]; intros f' n0 sh L; [apply fol_out|]. destruct f' as [|f']; [lia|]. assert (L' : (f <= f')%nat) by lia. cbn [sliceLoop]; fo; apply D.
Qed.
Lemma fol_sliceBody b : fol (sliceBody b) (sliceBody b).
Proof. apply (fol_sliceOf (fun it => Base.slice (it_buffer it) b (it_head it - 1))). auto. Qed.
Hint Resolve fol_sliceBody : fo.
Lemma fol_startCapture {A} (m m' : M A) : fol m m' -> fol (startCapture m) (startCapture m').
Proof.
  intros P. set (e := fun x (r : res A) => match r with Ok _ => fun it' : iter => (r, set_capture (it_capture x) it') | _ => fun it' => (r, it') end).
  set (k := fun (m : M A) x it => let '(r, it') := m (set_capture true it) in e x r it').
  apply (fol_ext (fun it => k m it it) (fun it => k m' it it)).
  - apply (fol_see (k m) (k m')); auto. intros x. unfold k.
    apply (fol_then (fun it => m (set_capture true it)) (fun it => m' (set_capture true it)) (e x) (e x)); auto.
    + now apply fol_capture.
    + intros [a|y| |] _ _; try apply fol_pure. apply (fol_capture (it_capture x) (fun it => (Ok a, it)) (fun it => (Ok a, it))). apply fol_pure.
  - intros it. unfold k, e, startCapture. destruct (m _) as [[a|y| |] it']; reflexivity.
  - intros it. unfold k, e, startCapture. destruct (m' _) as [[a|y| |] it']; reflexivity.
Qed.
Lemma fol_readBase64 : fol (readBase64 F32 F64 C) (readBase64 F32 F64 C).
Proof.
  unfold readBase64. fo. set (k := fun x => do buf <- startCapture (skipString ;; sliceBody (it_head x));
      match b64decode buf with
      | Some data => ret (@VSlice F32 F64 C (Some (map VInt data)))
      | None => fail CorruptInputError
      end). apply (fol_see k k); auto. intros x. unfold k. apply fol_bind; [apply fol_startCapture|]; fo.
Qed.
Hint Resolve fol_readBase64 : fo.
Lemma fol_sliceDecoder b z d : dfol d -> dfol (sliceDecoder F32 F64 C b z d).
Proof.
  intros D o old. unfold sliceDecoder. fo.
  apply (fol_left (fun n => sliceLoop F32 F64 C n z d 0 (unsafeMakeSlice z 0 0)) (fun n => sliceLoop F32 F64 C n z d 0 (unsafeMakeSlice z 0 0))). intros. now apply fol_sliceLoop.
Qed.
Lemma fol_kindKeyDecoder kd d : kindKeyDecoder F32 F64 C kd = Some d -> dfol d.
Proof. destruct kd; intros [= <-]; auto with fo. Qed.
Lemma fol_keyDecoder k d : keyDecoder F32 F64 C k = Some d -> dfol d.
Proof. destruct k as [| |kd [id|] mar]; cbn [keyDecoder]; try apply fol_kindKeyDecoder. intros [= <-]. auto with fo. Qed.
Lemma fol_mapLoop k kd z d : dfol kd -> dfol d -> forall f f' m, (f <= f')%nat -> fol (mapLoop F32 F64 C f k kd z d m) (mapLoop F32 F64 C f' k kd z d m).
Proof.
  intros K D. induction f as [|f IH]; intros f' m L; [apply fol_out|]. destruct f' as [|f']; [lia|]. assert (L' : (f <= f')%nat) by lia. cbn [mapLoop]; fo; try apply K; apply D.
Qed.
Lemma fol_mapDecoder k kd z d : dfol kd -> dfol d -> dfol (mapDecoder F32 F64 C k kd z d).
Proof.
  intros K D o old. unfold mapDecoder. fo.
  match goal with |- fol (fun it => mapLoop _ _ _ _ _ _ _ _ ?m it) _ => apply (fol_left (fun n => mapLoop F32 F64 C n k kd z d m) (fun n => mapLoop F32 F64 C n k kd z d m)) end.
  intros. now apply fol_mapLoop.
Qed.
Lemma fol_follow path d : (forall v, fol (d v) (d v)) -> forall v, fol (follow F32 F64 C E path d v) (follow F32 F64 C E path d v).
Proof. intros D. induction path as [|[i|al] path IH]; intros v; cbn [follow]; fo; auto. Qed.
Lemma fol_getDisallow : fol getDisallow getDisallow.
Proof. set (k := fun x it : iter => (Ok (it_disallow x), it)). apply (fol_see k k); auto. intros; apply fol_pure. Qed.
Hint Resolve fol_getDisallow : fo.
Lemma fol_structLoop find fields : (forall i fi, nth_error fields i = Some fi -> dfol (df_decoder F32 F64 C fi)) ->
  forall f f' v, (f <= f')%nat -> fol (structLoop F32 F64 C E f find fields v) (structLoop F32 F64 C E f' find fields v).
Proof.
  intros D. set (g := fun i v => match nth_error fields i with
    | None => panic | Some fi => follow F32 F64 C E (df_path F32 F64 C fi) (df_decoder F32 F64 C fi (mkOpts false (df_quoted F32 F64 C fi))) v end).
  assert (Fl : forall i v, fol (g i v) (g i v)).
  { intros i v. unfold g. destruct (nth_error fields i) as [fi|] eqn:N; [|apply fol_panic]. apply fol_follow. intros. eapply D; eauto. }
  unfold g in Fl. induction f as [|f IH]; intros f' v L; [apply fol_out|]. destruct f' as [|f']; [lia|]. assert (L' : (f <= f')%nat) by lia. cbn [structLoop]; fo.
Qed.
Lemma fol_structDecoder find fields : (forall i fi, nth_error fields i = Some fi -> dfol (df_decoder F32 F64 C fi)) ->
  dfol (structDecoder F32 F64 C E find fields).
Proof.
  intros D o old. unfold structDecoder. fo.
  apply (fol_left (fun n => structLoop F32 F64 C E n find fields old) (fun n => structLoop F32 F64 C E n find fields old)). intros. now apply fol_structLoop.
Qed.
Lemma fol_emptyObjectDecoder : dfol (emptyObjectDecoder F32 F64 C). Proof. intros o old. unfold emptyObjectDecoder. fo. Qed.
Hint Resolve fol_emptyObjectDecoder : fo.
Lemma fol_efaceDecoder d : (forall t, dfol (d t)) -> dfol (efaceDecoder F32 F64 C E d).
Proof. intros D o old. unfold efaceDecoder. fo; apply D. Qed.
Lemma fol_ifaceDecoder d : (forall t, dfol (d t)) -> dfol (ifaceDecoder F32 F64 C E d).
Proof. intros D o old. unfold ifaceDecoder. fo; apply D. Qed.
Lemma fol_decode f : forall t, dfol (decode F32 F64 C E sf cs f t).
Proof.
  induction f as [|f IH]; intros t; [intros o old; apply fol_fail|].
  destruct t; cbn [decode]; auto with fo; try (intros o old; apply fol_fail).
  - now apply fol_pointerDecoder.
  - now apply fol_arrayDecoder.
  - now apply fol_sliceDecoder.
  - destruct (keyDecoder F32 F64 C k) as [kd|] eqn:K; [|intros o old; apply fol_fail]. apply fol_mapDecoder; auto. eapply fol_keyDecoder; eauto.
  - destruct fields as [|fd fields]; auto with fo. apply fol_structDecoder.
    intros i fi H. rewrite nth_error_map in H. destruct (nth_error (fd :: fields) i) as [g|]; [|discriminate].
    injection H as <-. apply IH.
  - now apply fol_efaceDecoder.
  - now apply fol_ifaceDecoder.
Qed.
Lemma fol_ReadVal f t old : fol (ReadVal F32 F64 C E sf cs f t old) (ReadVal F32 F64 C E sf cs f t old).
Proof. apply fol_decode. Qed.
End Val.
(** client programs *)
Lemma fol_arrayCB_loop {S} (cb : S -> M S) : (forall s, fol (cb s) (cb s)) -> forall f f' s, (f <= f')%nat -> fol (arrayCB_loop f cb s) (arrayCB_loop f' cb s).
Proof.
  intros D. induction f as [|f IH]; intros f' s L; [apply fol_out|]. destruct f' as [|f']; [lia|]. assert (L' : (f <= f')%nat) by lia. cbn [arrayCB_loop]; fo.
Qed.
Lemma fol_objectCB_loop {S} (cb : S -> bytes -> M S) : (forall s b, fol (cb s b) (cb s b)) -> forall f f' s, (f <= f')%nat -> fol (objectCB_loop f cb s) (objectCB_loop f' cb s).
Proof.
  intros D. induction f as [|f IH]; intros f' s L; [apply fol_out|]. destruct f' as [|f']; [lia|]. assert (L' : (f <= f')%nat) by lia. cbn [objectCB_loop]; fo.
Qed.
Lemma fol_ReadArrayCB {S} (cb : S -> M S) s : (forall s, fol (cb s) (cb s)) -> fol (ReadArrayCB cb s) (ReadArrayCB cb s).
Proof.
  intros D. unfold ReadArrayCB. fo. apply (fol_left (fun n => arrayCB_loop n cb s) (fun n => arrayCB_loop n cb s)). intros. now apply fol_arrayCB_loop.
Qed.
Lemma fol_ReadObjectCB {S} (cb : S -> bytes -> M S) s : (forall s b, fol (cb s b) (cb s b)) -> fol (ReadObjectCB cb s) (ReadObjectCB cb s).
Proof.
  intros D. unfold ReadObjectCB. fo. apply (fol_left (fun n => objectCB_loop n cb s) (fun n => objectCB_loop n cb s)). intros. now apply fol_objectCB_loop.
Qed.
Lemma fol_exec F32 F64 o : fol (exec F32 F64 o) (exec F32 F64 o).
Proof.
  destruct o; cbn [exec]; unfold as_out, readUintOp, readIntOp, ReadUint8, ReadUint16, ReadUint32, ReadUint64, ReadInt8, ReadInt16, ReadInt32, ReadInt64,
    NextValueType, ReadArrayBegin, ReadArrayMore, ReadObjectBegin, ReadObjectMore; fo;
    solve [apply (fol_readIntOf false W16)|apply (fol_readIntOf false W32)|apply (fol_readIntOf false W64)|apply (fol_readIntOf true W8)|
      apply (fol_readIntOf true W16)|apply (fol_readIntOf true W32)|apply (fol_readIntOf true W64)].
Qed.
Lemma fol_run F32 F64 {S} (p : prog F32 F64 S) : fol (run p) (run p).
Proof.
  induction p as [s|e|o k IH|s cb IHc k IH|s cb IHc k IH]; cbn [run]; fo; auto using fol_exec, fol_ReadArrayCB, fol_ReadObjectCB.
Qed.
End Poison.
